(** QcqpModel.v -- OCP QP with quadratic constraints: data, residuals, and the QP approximation used by its IPM. *)
From Coq Require Import ZArith Bool Arith.
From Verif Require Import Base ArithF Blas Blas2 OcpModel.

(** struct OCP_QCQP (include/hpipm_d_ocp_qcqp.h lines 53-71).  [c_dim] holds N nx nu nb ng ns (dng = number of LINEAR general
    constraints), [c_nq] the number of quadratic constraints.  Layouts: lam, t, d, d_mask, m =
    [lb; lg; lq; -ub; -ug; -uq; ls; us];  DCt is (nu+nx) x (ng+nq), its last nq columns are the gradients g_j at 0 of the
    quadratic constraints  1/2 z'Hq_j z + g_j'z ;  Hq_j is used by its lower triangle. *)
Record oqcqp (F : Type) := mkqc {
  c_dim : dims; c_nq : nat -> nat;
  c_BAbt : nat -> nat -> nat -> F; c_RSQ : nat -> nat -> nat -> F; c_DCt : nat -> nat -> nat -> F; c_Hq : nat -> nat -> nat -> nat -> F;
  c_b : nat -> nat -> F; c_rqz : nat -> nat -> F; c_d : nat -> nat -> F; c_mask : nat -> nat -> F; c_m : nat -> nat -> F;
  c_Z : nat -> nat -> F; c_idxb : nat -> nat -> nat; c_idxs_rev : nat -> nat -> Z }.
Arguments mkqc {F}. Arguments c_dim {F}. Arguments c_nq {F}. Arguments c_BAbt {F}. Arguments c_RSQ {F}. Arguments c_DCt {F}. Arguments c_Hq {F}.
Arguments c_b {F}. Arguments c_rqz {F}. Arguments c_d {F}. Arguments c_mask {F}. Arguments c_m {F}. Arguments c_Z {F}. Arguments c_idxb {F}. Arguments c_idxs_rev {F}.
(** dim->qp_dim (ocp_qp/x_ocp_qcqp_dim.c, OCP_QCQP_DIM_SET_NG / SET_NQ keep it): the quadratic constraints count as general ones *)
Definition qp_dims (d : dims) (nq : nat -> nat) : dims := mkdims (dN d) (dnx d) (dnu d) (dnb d) (fun i => (dng d i + nq i)%nat) (dns d).

Section Model.
Context {F : Type} {AF : Arith F}.
Local Open Scope F_scope.
Notation vec := (nat -> F).
Notation mat := (nat -> nat -> F).

(** BLASFEO: z = x .* y, returns the sum *)
Definition VECMULDOT (n : nat) (x : vec) (xi : nat) (y : vec) (yi : nat) (z : vec) (zi : nat) : vec * F :=
  (VECMUL n x xi y yi z zi, DOT n x xi y yi).

(** workspace: that of the QP residuals plus tmp_nuxM+0, tmp_nuxM+1 (struct OCP_QCQP_RES_WS) *)
Record qrws := mkqrws { v_bg0 : vec; v_bg1 : vec; v_lam : vec; v_x0 : vec; v_x1 : vec }.

(** Quadratic constraints of a stage, ocp_qp/x_ocp_qcqp_res.c lines 519-550.  [cache]: Some (q_fun, q_adj) of the stage when
    use_q_fun & use_q_adj.  [o] = nb0+ng0, [ou] = 2*nb0+2*ng0+nq0.  State: res_g, tmp_nbgqM+0, tmp_nbgqM+1, dual_gap, tmp_nuxM+0/+1. *)
Definition quad_block (cache : option (vec * vec)) (n ng nq o ou : nat) (Ct : mat) (Hq : nat -> mat) (ux lamk : vec)
  (s : vec * vec * vec * F * vec * vec) : vec * vec * vec * F * vec * vec :=
  if Nat.ltb 0 nq then
    match cache with
    | Some (q_fun, q_adj) =>
        let '(g, bg0, bg1, gap, x0, x1) := s in
        let bg1 := VECCP nq q_fun 0 bg1 o in
        let g := AXPY n f1 q_adj 0 g 0 g 0 in
        let bg0 := GEMV_T n nq (- f1) Ct 0 ng ux 0 f1 q_fun 0 bg0 o in
        let gap := loop nq (fun jj gap => gap + lamk (ou + jj)%nat * bg0 (o + jj)%nat) gap in
        (g, bg0, bg1, gap, x0, x1)
    | None =>
        loop nq (fun jj '(g, bg0, bg1, gap, x0, x1) =>
          let x0 := SYMV_L n f1 (Hq jj) 0 0 ux 0 f0 x0 0 x0 0 in
          let gap := gap + lit 1 2 * lamk (ou + jj)%nat * DOT n x0 0 ux 0 in
          let tmp := bg0 (o + jj)%nat in
          let g := AXPY n tmp x0 0 g 0 g 0 in
          let x1 := COLEX n Ct 0 (ng + jj) x1 0 in
          let g := AXPY n tmp x1 0 g 0 g 0 in
          let x0 := AXPY n (lit 1 2) x0 0 x1 0 x0 0 in
          let tmp := DOT n x0 0 ux 0 in
          (g, bg0, upd bg1 (o + jj)%nat tmp, gap, x0, x1)) s
    end
  else s.

(** The box/general/quadratic block, lines 504-553.  State: res_g, res_d, tmp_nbgqM+0, tmp_nbgqM+1, dual_gap, tmp_nuxM+0/+1. *)
Definition qineq_block (cache : option (vec * vec)) (n nb ng nq : nat) (idxb : nat -> nat) (Ct : mat) (Hq : nat -> mat) (d t ux lamk : vec)
  (s : vec * vec * vec * vec * F * vec * vec) : vec * vec * vec * vec * F * vec * vec :=
  let '(g, dd, bg0, bg1, gap, x0, x1) := s in
  let nbgq := (nb + ng + nq)%nat in
  if Nat.ltb 0 nbgq then
    let bg0 := AXPY nbgq (- f1) lamk 0 lamk nbgq bg0 0 in
    let dd := AXPY (2 * nb + 2 * ng + 2 * nq) f1 d 0 t 0 dd 0 in
    let '(g, bg1) :=
      if Nat.ltb 0 nb then (VECAD_SP nb f1 bg0 0 idxb g 0, VECEX_SP nb f1 idxb ux 0 bg1 0) else (g, bg1) in
    let '(g, bg1) :=
      if Nat.ltb 0 ng then GEMV_NT n ng f1 f1 Ct 0 0 bg0 nb ux 0 f1 f0 g 0 bg1 nb g 0 bg1 nb else (g, bg1) in
    let '(g, bg0, bg1, gap, x0, x1) := quad_block cache n ng nq (nb + ng) (2 * nb + 2 * ng + nq) Ct Hq ux lamk (g, bg0, bg1, gap, x0, x1) in
    let dd := AXPY nbgq (- f1) bg1 0 dd 0 dd 0 in
    let dd := AXPY nbgq f1 bg1 0 dd nbgq dd nbgq in
    (g, dd, bg0, bg1, gap, x0, x1)
  else s.

(** One stage of OCP_QCQP_RES_COMPUTE, lines 478-603.  The soft-constraint block is the QP's with ng0+nq0 for ng0. *)
Definition qcres_stage (cache : option ((nat -> vec) * (nat -> vec))) (mc : bool) (qp : oqcqp F) (sol : osol F) (ii : nat) (st : ores F * qrws) : ores F * qrws :=
  let '(res, ws) := st in
  let D := c_dim qp in
  let nx0 := dnx D ii in let nu0 := dnu D ii in let nb0 := dnb D ii in let ng0 := dng D ii in let nq0 := c_nq qp ii in let ns0 := dns D ii in
  let nc0 := (2 * nb0 + 2 * ng0 + 2 * nq0 + 2 * ns0)%nat in
  let ux := s_ux sol ii in let lam := s_lam sol ii in let t := s_t sol ii in
  let rqz := c_rqz qp ii in let d := c_d qp ii in let mask := c_mask qp ii in
  let g := SYMV_L (nu0 + nx0) f1 (c_RSQ qp ii) 0 0 ux 0 (lit 2 1) rqz 0 (r_g res ii) 0 in
  let obj := r_obj res + lit 1 2 * DOT (nu0 + nx0) g 0 ux 0 in
  let g := AXPY (nu0 + nx0) (- f1) rqz 0 g 0 g 0 in
  let gap := r_gap res + DOT (nu0 + nx0) g 0 ux 0 in
  let g := if Nat.ltb 0 ii then AXPY nx0 (- f1) (s_pi sol (ii - 1)) 0 g nu0 g nu0 else g in
  let lamk := if mc then VECMUL nc0 lam 0 mask 0 (v_lam ws) 0 else VECCP nc0 lam 0 (v_lam ws) 0 in
  let lamk := VECSE nq0 f0 lamk (nb0 + ng0) in
  let '(g, dd, bg0, bg1, gap, x0, x1) :=
    qineq_block (match cache with Some (f, a) => Some (f ii, a ii) | None => None end)
      (nu0 + nx0) nb0 ng0 nq0 (c_idxb qp ii) (c_DCt qp ii) (c_Hq qp ii) d t ux lamk (g, r_d res ii, v_bg0 ws, v_bg1 ws, gap, v_x0 ws, v_x1 ws) in
  let '(g, dd, obj, gap) :=
    if Nat.ltb 0 ns0 then
      let g := GEMV_DIAG (2 * ns0) f1 (c_Z qp ii) 0 ux (nu0 + nx0) (lit 2 1) rqz (nu0 + nx0) g (nu0 + nx0) in
      let obj := obj + lit 1 2 * DOT (2 * ns0) g (nu0 + nx0) ux (nu0 + nx0) in
      let g := AXPY (2 * ns0) (- f1) rqz (nu0 + nx0) g (nu0 + nx0) g (nu0 + nx0) in
      let gap := gap + DOT (2 * ns0) g (nu0 + nx0) ux (nu0 + nx0) in
      let '(g, dd) := soft_block (nu0 + nx0) nb0 (ng0 + nq0) ns0 (c_idxs_rev qp ii) d t ux lamk (g, dd) in
      (g, dd, obj, gap)
    else (g, dd, obj, gap) in
  let dd := if mc then VECMUL nc0 mask 0 dd 0 dd 0 else dd in
  let gap := gap - DOT nc0 d 0 lamk 0 in
  let '(g, bb, gap) :=
    if Nat.ltb ii (dN D) then
      let nu1 := dnu D (ii + 1) in let nx1 := dnx D (ii + 1) in
      let bb := AXPY nx1 (- f1) (s_ux sol (ii + 1)) nu1 (c_b qp ii) 0 (r_b res ii) 0 in
      let '(g, bb) := GEMV_NT (nu0 + nx0) nx1 f1 f1 (c_BAbt qp ii) 0 0 (s_pi sol ii) 0 ux 0 f1 f1 g 0 bb 0 g 0 bb 0 in
      (g, bb, gap - DOT nx1 (c_b qp ii) 0 (s_pi sol ii) 0)
    else (g, r_b res ii, gap) in
  let '(mm, dmu) := VECMULDOT nc0 lamk 0 t 0 (r_m res ii) 0 in
  let mu := r_mu_sum res + dmu in
  let mm := AXPY nc0 (- f1) (c_m qp ii) 0 mm 0 mm 0 in
  let mm := if mc then VECMUL nc0 mask 0 mm 0 mm 0 else mm in
  (mkres (upd (r_g res) ii g) (if Nat.ltb ii (dN D) then upd (r_b res) ii bb else r_b res) (upd (r_d res) ii dd) (upd (r_m res) ii mm) obj gap (r_mu res) mu,
   mkqrws bg0 bg1 lamk x0 x1).

(** OCP_QCQP_RES_COMPUTE, lines 393-611. *)
Definition qcres_compute (cache : option ((nat -> vec) * (nat -> vec))) (valid : option (bool * F)) (qp : oqcqp F) (sol : osol F) (res : ores F) (ws : qrws) : ores F * qrws :=
  let '(mc, nc_mask_inv) :=
    match valid with
    | Some (mc, inv) => (mc, inv)
    | None => let '(n, mc) := mask_count (qp_dims (c_dim qp) (c_nq qp)) (c_mask qp) in (mc, if Nat.ltb 0 n then inv_count n else f0)
    end in
  let res := mkres (r_g res) (r_b res) (r_d res) (r_m res) f0 f0 (r_mu res) f0 in
  let '(res, ws) := loop (dN (c_dim qp) + 1) (qcres_stage cache mc qp sol) (res, ws) in
  (mkres (r_g res) (r_b res) (r_d res) (r_m res) (r_obj res) (r_gap res) (r_mu_sum res * nc_mask_inv) (r_mu_sum res), ws).

(** OCP_QCQP_RES_COMPUTE_INF_NORM, lines 615-652: as the QP's, over the sizes of qp_dim *)
Definition qcres_inf_norm (d : dims) (nq : nat -> nat) (res : ores F) : F * F * F * F := res_inf_norm (qp_dims d nq) res.

(** ocp_qp/x_ocp_qcqp_ipm.c lines 1326-1344 (identical text 1403-1421): the loop over the quadratic constraints of a stage.
    State: RSQrq, DCt, d of the QP, q_adj, q_fun of the residual workspace, tmp_nuxM+0/+1. *)
Definition approx_loop (n ng nq o ou : nat) (Ct : mat) (Hq : nat -> mat) (ux lam : vec)
  (s : mat * mat * vec * vec * vec * vec * vec) : mat * mat * vec * vec * vec * vec * vec :=
  loop nq (fun jj '(H, C, d, adj, fn, x0, x1) =>
    let tmp := - lam (o + jj)%nat + lam (ou + jj)%nat in
    let H := GEAD n n tmp (Hq jj) 0 0 H 0 0 in
    let x0 := SYMV_L n f1 (Hq jj) 0 0 ux 0 f0 x0 0 x0 0 in
    let x1 := COLEX n Ct 0 (ng + jj) x1 0 in
    let x1 := AXPY n f1 x0 0 x1 0 x1 0 in
    let C := COLIN n x1 0 C 0 (ng + jj) in
    let adj := AXPY n tmp x1 0 adj 0 adj 0 in
    let x1 := COLEX n Ct 0 (ng + jj) x1 0 in
    let x1 := AXPY n (lit 1 2) x0 0 x1 0 x1 0 in
    let tmp := DOT n x1 0 ux 0 in
    let d := upd d (o + jj)%nat (d (o + jj)%nat + - tmp) in
    let d := upd d (ou + jj)%nat (d (ou + jj)%nat + tmp) in
    (H, C, d, adj, upd fn jj tmp, x0, x1)) s.

(** What OCP_QCQP_APPROX_QP / UPDATE_QP write: the QP, the cached q_fun and q_adj, the temporaries. *)
Record aws := mkaws { a_qp : oqp F; a_fun : nat -> vec; a_adj : nat -> vec; a_x0 : vec; a_x1 : vec }.

(** OCP_QCQP_UPDATE_QP, lines 1377-1430: d, RSQrq, the quadratic columns of DCt, q_adj, q_fun, m. *)
Definition update_stage (qc : oqcqp F) (sol : osol F) (ii : nat) (s : aws) : aws :=
  let D := c_dim qc in
  let n := (dnu D ii + dnx D ii)%nat in let nb := dnb D ii in let ng := dng D ii in let nq := c_nq qc ii in let ns := dns D ii in
  let nc := (2 * nb + 2 * ng + 2 * nq + 2 * ns)%nat in
  let qp := a_qp s in
  let d := VECCP nc (c_d qc ii) 0 (q_d qp ii) 0 in
  let H := GECP (n + 1) n (c_RSQ qc ii) 0 0 (q_RSQ qp ii) 0 0 in
  let adj := VECSE n f0 (a_adj s ii) 0 in
  let '(H, C, d, adj, fn, x0, x1) :=
    approx_loop n ng nq (nb + ng) (2 * nb + 2 * ng + nq) (c_DCt qc ii) (c_Hq qc ii) (s_ux sol ii) (s_lam sol ii)
      (H, q_DCt qp ii, d, adj, a_fun s ii, a_x0 s, a_x1 s) in
  let m := VECCP nc (c_m qc ii) 0 (q_m qp ii) 0 in
  mkaws (mkqp (q_dim qp) (q_BAbt qp) (upd (q_RSQ qp) ii H) (upd (q_DCt qp) ii C) (q_b qp) (q_rqz qp) (upd (q_d qp) ii d) (q_mask qp)
           (upd (q_m qp) ii m) (q_Z qp) (q_idxb qp) (q_idxs_rev qp))
        (upd (a_fun s) ii fn) (upd (a_adj s) ii adj) x0 x1.
Definition update_qp (qc : oqcqp F) (sol : osol F) (s : aws) : aws := loop (dN (c_dim qc) + 1) (update_stage qc sol) s.

(** OCP_QCQP_APPROX_QP, lines 1301-1373.  The first part of the stage loop is that of UPDATE_QP (with m copied later); then the mask,
    the linear columns of DCt, rqz, Z, idxb, idxs_rev are copied.  AS WRITTEN, line 1350 copies the rqz of every stage to [qp->rqz],
    the vector of stage 0 (the "+ii" is missing). *)
Definition approx_stage (qc : oqcqp F) (sol : osol F) (ii : nat) (s : aws) : aws :=
  let D := c_dim qc in
  let n := (dnu D ii + dnx D ii)%nat in let nb := dnb D ii in let ng := dng D ii in let nq := c_nq qc ii in let ns := dns D ii in
  let nc := (2 * nb + 2 * ng + 2 * nq + 2 * ns)%nat in
  let s := update_stage qc sol ii s in
  let qp := a_qp s in
  mkaws (mkqp (q_dim qp) (q_BAbt qp) (q_RSQ qp) (upd (q_DCt qp) ii (GECP n ng (c_DCt qc ii) 0 0 (q_DCt qp ii) 0 0)) (q_b qp)
           (upd (q_rqz qp) 0%nat (VECCP (n + 2 * ns) (c_rqz qc ii) 0 (q_rqz qp 0%nat) 0)) (q_d qp)
           (upd (q_mask qp) ii (VECCP nc (c_mask qc ii) 0 (q_mask qp ii) 0)) (q_m qp)
           (upd (q_Z qp) ii (VECCP (2 * ns) (c_Z qc ii) 0 (q_Z qp ii) 0))
           (upd (q_idxb qp) ii (loop nb (fun jj v => upd v jj (c_idxb qc ii jj)) (q_idxb qp ii)))
           (upd (q_idxs_rev qp) ii (loop (nb + ng + nq) (fun jj v => upd v jj (c_idxs_rev qc ii jj)) (q_idxs_rev qp ii))))
        (a_fun s) (a_adj s) (a_x0 s) (a_x1 s).
(** lines 1364-1369: dynamics *)
Definition approx_dyn (qc : oqcqp F) (ii : nat) (s : aws) : aws :=
  let D := c_dim qc in
  let n := (dnu D ii + dnx D ii)%nat in
  let qp := a_qp s in
  mkaws (mkqp (q_dim qp) (upd (q_BAbt qp) ii (GECP (n + 1) (dnx D (ii + 1)) (c_BAbt qc ii) 0 0 (q_BAbt qp ii) 0 0)) (q_RSQ qp) (q_DCt qp)
           (upd (q_b qp) ii (VECCP (dnx D (ii + 1)) (c_b qc ii) 0 (q_b qp ii) 0)) (q_rqz qp) (q_d qp) (q_mask qp) (q_m qp) (q_Z qp) (q_idxb qp) (q_idxs_rev qp))
        (a_fun s) (a_adj s) (a_x0 s) (a_x1 s).
Definition approx_qp (qc : oqcqp F) (sol : osol F) (s : aws) : aws :=
  loop (dN (c_dim qc)) (approx_dyn qc) (loop (dN (c_dim qc) + 1) (approx_stage qc sol) s).

(** OCP_QCQP_UPDATE_QP_ABS_STEP, lines 1434-1492: only the upper multiplier counts, the value folded into d and cached in q_fun is that of
    the tangent at the point, and (AS WRITTEN, line 1456) only nu+ns columns of RSQrq are copied. *)
Definition abs_loop (n ng nq o ou : nat) (Ct : mat) (Hq : nat -> mat) (ux lam : vec)
  (s : mat * mat * vec * vec * vec * vec * vec) : mat * mat * vec * vec * vec * vec * vec :=
  loop nq (fun jj '(H, C, d, adj, fn, x0, x1) =>
    let tmp := lam (ou + jj)%nat in
    let H := GEAD n n tmp (Hq jj) 0 0 H 0 0 in
    let x0 := SYMV_L n f1 (Hq jj) 0 0 ux 0 f0 x0 0 x0 0 in
    let x1 := COLEX n Ct 0 (ng + jj) x1 0 in
    let x1 := AXPY n f1 x0 0 x1 0 x1 0 in
    let C := COLIN n x1 0 C 0 (ng + jj) in
    let adj := AXPY n tmp x1 0 adj 0 adj 0 in
    let x1 := AXPBY n (- f1) x1 0 (lit 1 2) x0 0 x1 0 in
    let x0 := COLEX n Ct 0 (ng + jj) x0 0 in
    let x1 := AXPY n f1 x0 0 x1 0 x1 0 in
    let tmp := DOT n x1 0 ux 0 in
    let d := upd d (o + jj)%nat (d (o + jj)%nat + - tmp) in
    let d := upd d (ou + jj)%nat (d (ou + jj)%nat + tmp) in
    (H, C, d, adj, upd fn jj tmp, x0, x1)) s.
Definition abs_stage (qc : oqcqp F) (sol : osol F) (ii : nat) (s : aws) : aws :=
  let D := c_dim qc in
  let n := (dnu D ii + dnx D ii)%nat in let nb := dnb D ii in let ng := dng D ii in let nq := c_nq qc ii in let ns := dns D ii in
  let nc := (2 * nb + 2 * ng + 2 * nq + 2 * ns)%nat in
  let qp := a_qp s in
  let d := VECCP nc (c_d qc ii) 0 (q_d qp ii) 0 in
  let H := GECP (n + 1) (dnu D ii + ns) (c_RSQ qc ii) 0 0 (q_RSQ qp ii) 0 0 in
  let adj := VECSE n f0 (a_adj s ii) 0 in
  let '(H, C, d, adj, fn, x0, x1) :=
    abs_loop n ng nq (nb + ng) (2 * nb + 2 * ng + nq) (c_DCt qc ii) (c_Hq qc ii) (s_ux sol ii) (s_lam sol ii)
      (H, q_DCt qp ii, d, adj, a_fun s ii, a_x0 s, a_x1 s) in
  let m := VECCP nc (c_m qc ii) 0 (q_m qp ii) 0 in
  mkaws (mkqp (q_dim qp) (q_BAbt qp) (upd (q_RSQ qp) ii H) (upd (q_DCt qp) ii C) (q_b qp) (q_rqz qp) (upd (q_d qp) ii d) (q_mask qp)
           (upd (q_m qp) ii m) (q_Z qp) (q_idxb qp) (q_idxs_rev qp))
        (upd (a_fun s) ii fn) (upd (a_adj s) ii adj) x0 x1.
Definition update_qp_abs (qc : oqcqp F) (sol : osol F) (s : aws) : aws := loop (dN (c_dim qc) + 1) (abs_stage qc sol) s.

(** OCP_QCQP_IPM_SOLVE, lines 1696-1709: the lower quadratic constraints, and the lower slack softening each of them, are masked out *)
Definition mask_lower (qc : oqcqp F) : nat -> vec :=
  loop (dN (c_dim qc) + 1) (fun ii mask =>
    let D := c_dim qc in let nb := dnb D ii in let ng := dng D ii in let nq := c_nq qc ii in
    let v := VECSE nq f0 (mask ii) (nb + ng) in
    upd mask ii (loop nq (fun jj v => let idx := c_idxs_rev qc ii (nb + ng + jj)%nat in
      if Z.eqb idx (-1) then v else upd v (2 * nb + 2 * ng + 2 * nq + Z.to_nat idx)%nat f0) v)) (c_mask qc).
End Model.
Arguments qrws F : clear implicits.
Arguments aws F : clear implicits.
