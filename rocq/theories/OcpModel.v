(** OcpModel.v -- OCP QP, solution and residual objects, and the residual computation. *)
From Coq Require Import ZArith Bool Arith.
From Verif Require Import Base ArithF Blas.

(** struct OCP_QP_DIM (include/hpipm_d_ocp_qp_dim.h lines 47-61) and struct OCP_QP (include/hpipm_d_ocp_qp.h lines
    54-71): stage -> vector / matrix.  nb is a stored field (kept equal to nbx+nbu by the dim setters, property C02).
    Vector layouts: rqz, ux = [u; x; sl; su]; d, d_mask, m, lam, t = [lb; lg; -ub; -ug; ls; us]
    with the bounds of each stage ordered as in idxb.  BAbt is (nu+nx+1) x nx+, RSQrq (nu+nx+1) x (nu+nx) (last row:
    gradient), DCt (nu+nx) x ng.  idxs_rev: -1 = not softened. *)
Record dims := mkdims { dN : nat; dnx : nat -> nat; dnu : nat -> nat; dnb : nat -> nat; dng : nat -> nat; dns : nat -> nat }.
Record oqp (F : Type) := mkqp {
  q_dim : dims;
  q_BAbt : nat -> nat -> nat -> F; q_RSQ : nat -> nat -> nat -> F; q_DCt : nat -> nat -> nat -> F;
  q_b : nat -> nat -> F; q_rqz : nat -> nat -> F; q_d : nat -> nat -> F; q_mask : nat -> nat -> F; q_m : nat -> nat -> F;
  q_Z : nat -> nat -> F; q_idxb : nat -> nat -> nat; q_idxs_rev : nat -> nat -> Z }.
(** struct OCP_QP_SOL (include/hpipm_d_ocp_qp_sol.h lines 54-63) *)
Record osol (F : Type) := mksol { s_ux : nat -> nat -> F; s_pi : nat -> nat -> F; s_lam : nat -> nat -> F; s_t : nat -> nat -> F }.
(** struct OCP_QP_RES (include/hpipm_d_ocp_qp_res.h lines 57-70) *)
Record ores (F : Type) := mkres { r_g : nat -> nat -> F; r_b : nat -> nat -> F; r_d : nat -> nat -> F; r_m : nat -> nat -> F;
  r_obj : F; r_gap : F; r_mu : F; r_mu_sum : F }.
Arguments mkqp {F}. Arguments q_dim {F}. Arguments q_BAbt {F}. Arguments q_RSQ {F}. Arguments q_DCt {F}. Arguments q_b {F}.
Arguments q_rqz {F}. Arguments q_d {F}. Arguments q_mask {F}. Arguments q_m {F}. Arguments q_Z {F}. Arguments q_idxb {F}. Arguments q_idxs_rev {F}.
Arguments mksol {F}. Arguments s_ux {F}. Arguments s_pi {F}. Arguments s_lam {F}. Arguments s_t {F}.
Arguments mkres {F}. Arguments r_g {F}. Arguments r_b {F}. Arguments r_d {F}. Arguments r_m {F}. Arguments r_obj {F}. Arguments r_gap {F}.
Arguments r_mu {F}. Arguments r_mu_sum {F}.

Definition nct (d : dims) (i : nat) : nat := 2 * dnb d i + 2 * dng d i + 2 * dns d i.
Definition nvt (d : dims) (i : nat) : nat := dnu d i + dnx d i + 2 * dns d i.

Section Res.
Context {F : Type} {AF : Arith F}.
Local Open Scope F_scope.
Notation vec := (nat -> F).

(** ocp_qp/x_ocp_qp_res.c lines 405-412: number of unmasked constraints (mask == 1.0) and whether any is masked. *)
Definition mask_count (d : dims) (mask : nat -> vec) : nat * bool :=
  loop (dN d + 1) (fun ii s => loop (nct d ii) (fun jj '(n, c) => if mask ii jj =? f1 then (S n, c) else (n, true)) s) (0%nat, false).

(** workspace temporaries: tmp_nbgM+0, tmp_nbgM+1, tmp_lam_mask (struct OCP_QP_RES_WS) *)
Record rws := mkrws { w_bg0 : vec; w_bg1 : vec; w_lam : vec }.

(** The soft-constraint loop, lines 478-489: (res_g, res_d) of the stage. *)
Definition soft_loop (nux nbg ns : nat) (idxs_rev : nat -> Z) (ux lamk : vec) (s : vec * vec) : vec * vec :=
  loop nbg (fun jj '(g, dd) =>
    let idx := idxs_rev jj in
    if Z.eqb idx (-1) then (g, dd)
    else
      let k := Z.to_nat idx in
      let g := upd g (nux + k)%nat (g (nux + k)%nat - lamk jj) in
      let g := upd g (nux + ns + k)%nat (g (nux + ns + k)%nat - lamk (nbg + jj)%nat) in
      let dd := upd dd jj (dd jj - ux (nux + k)%nat) in
      let dd := upd dd (nbg + jj)%nat (dd (nbg + jj)%nat - ux (nux + ns + k)%nat) in
      (g, dd)) s.

(** The box/general-constraint block, lines 447-467 (identical text in OCP_QP_RES_COMPUTE_LIN 617-637,
    dense_qp/x_dense_qp_res.c 324-347 and 475-496).  State: res_g, res_d, tmp_nbgM+0, tmp_nbgM+1. *)
Definition ineq_block (n nb ng : nat) (idxb : nat -> nat) (Ct : nat -> vec) (d t ux lamk : vec)
  (s : vec * vec * vec * vec) : vec * vec * vec * vec :=
  let '(g, dd, bg0, bg1) := s in
  if Nat.ltb 0 (nb + ng) then
    let bg0 := AXPY (nb + ng) (- f1) lamk 0 lamk (nb + ng) bg0 0 in
    let dd := AXPY (2 * nb + 2 * ng) f1 d 0 t 0 dd 0 in
    let '(g, bg1) :=
      if Nat.ltb 0 nb then (VECAD_SP nb f1 bg0 0 idxb g 0, VECEX_SP nb f1 idxb ux 0 bg1 0) else (g, bg1) in
    let '(g, bg1) :=
      if Nat.ltb 0 ng then GEMV_NT n ng f1 f1 Ct 0 0 bg0 nb ux 0 f1 f0 g 0 bg1 nb g 0 bg1 nb else (g, bg1) in
    let dd := AXPY (nb + ng) (- f1) bg1 0 dd 0 dd 0 in
    let dd := AXPY (nb + ng) f1 bg1 0 dd (nb + ng) dd (nb + ng) in
    (g, dd, bg0, bg1)
  else (g, dd, bg0, bg1).

(** The soft-constraint block without its Hessian part, lines 477-492 (LIN 642-657). *)
Definition soft_block (n nb ng ns : nat) (idxs_rev : nat -> Z) (d t ux lamk : vec) (s : vec * vec) : vec * vec :=
  let '(g, dd) := s in
  let g := AXPY (2 * ns) (- f1) lamk (2 * nb + 2 * ng) g n g n in
  let '(g, dd) := soft_loop n (nb + ng) ns idxs_rev ux lamk (g, dd) in
  let dd := AXPY (2 * ns) (- f1) ux n t (2 * nb + 2 * ng) dd (2 * nb + 2 * ng) in
  let dd := AXPY (2 * ns) f1 d (2 * nb + 2 * ng) dd (2 * nb + 2 * ng) dd (2 * nb + 2 * ng) in
  (g, dd).

(** One stage of OCP_QP_RES_COMPUTE, lines 425-527.  State: residuals with obj/gap/mu_sum accumulated, temporaries.
    [mc] = mask_constr.  C int idx used as array index: idx >= 0 assumed (Z.to_nat), the property states it. *)
Definition res_stage (mc : bool) (qp : oqp F) (sol : osol F) (ii : nat) (st : ores F * rws) : ores F * rws :=
  let '(res, ws) := st in
  let D := q_dim qp in
  let nx0 := dnx D ii in let nu0 := dnu D ii in let nb0 := dnb D ii in let ng0 := dng D ii in let ns0 := dns D ii in
  let nc0 := (2 * nb0 + 2 * ng0 + 2 * ns0)%nat in
  let ux := s_ux sol ii in let lam := s_lam sol ii in let t := s_t sol ii in
  let rqz := q_rqz qp ii in let d := q_d qp ii in let mask := q_mask qp ii in
  let g := SYMV_L (nu0 + nx0) f1 (q_RSQ qp ii) 0 0 ux 0 (lit 2 1) rqz 0 (r_g res ii) 0 in
  let obj := r_obj res + lit 1 2 * DOT (nu0 + nx0) g 0 ux 0 in
  let g := AXPY (nu0 + nx0) (- f1) rqz 0 g 0 g 0 in
  let gap := r_gap res + DOT (nu0 + nx0) g 0 ux 0 in
  let g := if Nat.ltb 0 ii then AXPY nx0 (- f1) (s_pi sol (ii - 1)) 0 g nu0 g nu0 else g in
  let lamk := if mc then VECMUL nc0 lam 0 mask 0 (w_lam ws) 0 else VECCP nc0 lam 0 (w_lam ws) 0 in
  let '(g, dd, bg0, bg1) :=
    ineq_block (nu0 + nx0) nb0 ng0 (q_idxb qp ii) (q_DCt qp ii) d t ux lamk (g, r_d res ii, w_bg0 ws, w_bg1 ws) in
  let '(g, dd, obj, gap) :=
    if Nat.ltb 0 ns0 then
      let g := GEMV_DIAG (2 * ns0) f1 (q_Z qp ii) 0 ux (nu0 + nx0) (lit 2 1) rqz (nu0 + nx0) g (nu0 + nx0) in
      let obj := obj + lit 1 2 * DOT (2 * ns0) g (nu0 + nx0) ux (nu0 + nx0) in
      let g := AXPY (2 * ns0) (- f1) rqz (nu0 + nx0) g (nu0 + nx0) g (nu0 + nx0) in
      let gap := gap + DOT (2 * ns0) g (nu0 + nx0) ux (nu0 + nx0) in
      let '(g, dd) := soft_block (nu0 + nx0) nb0 ng0 ns0 (q_idxs_rev qp ii) d t ux lamk (g, dd) in
      (g, dd, obj, gap)
    else (g, dd, obj, gap) in
  let dd := if mc then VECMUL nc0 mask 0 dd 0 dd 0 else dd in
  let gap := gap - DOT nc0 d 0 lamk 0 in
  let '(g, bb, gap) :=
    if Nat.ltb ii (dN D) then
      let nu1 := dnu D (ii + 1) in let nx1 := dnx D (ii + 1) in
      let bb := AXPY nx1 (- f1) (s_ux sol (ii + 1)) nu1 (q_b qp ii) 0 (r_b res ii) 0 in
      let '(g, bb) := GEMV_NT (nu0 + nx0) nx1 f1 f1 (q_BAbt qp ii) 0 0 (s_pi sol ii) 0 ux 0 f1 f1 g 0 bb 0 g 0 bb 0 in
      (g, bb, gap - DOT nx1 (q_b qp ii) 0 (s_pi sol ii) 0)
    else (g, r_b res ii, gap) in
  let mm := VECMUL nc0 lamk 0 t 0 (r_m res ii) 0 in
  let mm := AXPY nc0 (- f1) (q_m qp ii) 0 mm 0 mm 0 in
  let mm := if mc then VECMUL nc0 mask 0 mm 0 mm 0 else mm in
  let mu := r_mu_sum res + VECNRM_1 nc0 mm 0 in
  (mkres (upd (r_g res) ii g) (if Nat.ltb ii (dN D) then upd (r_b res) ii bb else r_b res) (upd (r_d res) ii dd) (upd (r_m res) ii mm) obj gap (r_mu res) mu,
   mkrws bg0 bg1 lamk).

(** OCP_QP_RES_COMPUTE, lines 345-531.  [valid] = (ws->valid_nc_mask==1) with the cached mask_constr and nc_mask_inv. *)
Definition inv_count (n : nat) : F := f1 / lit (Z.of_nat n) 1.
Definition res_compute (valid : option (bool * F)) (qp : oqp F) (sol : osol F) (res : ores F) (ws : rws) : ores F * rws :=
  let '(mc, nc_mask_inv) :=
    match valid with
    | Some (mc, inv) => (mc, inv)
    | None => let '(n, mc) := mask_count (q_dim qp) (q_mask qp) in (mc, if Nat.ltb 0 n then inv_count n else f0)
    end in
  let res := mkres (r_g res) (r_b res) (r_d res) (r_m res) f0 f0 (r_mu res) f0 in
  let '(res, ws) := loop (dN (q_dim qp) + 1) (res_stage mc qp sol) (res, ws) in
  (mkres (r_g res) (r_b res) (r_d res) (r_m res) (r_obj res) (r_gap res) (r_mu_sum res * nc_mask_inv) (r_mu_sum res), ws).

(** The residual vectors of all stages are contiguous in memory (property C08); the norms of
    OCP_QP_RES_COMPUTE_INF_NORM, lines 689-724, run over that memory. *)
Fixpoint cat (n : nat) (len : nat -> nat) (v : nat -> vec) (k : nat) : F :=
  match n with
  | O => f0
  | S n' => if Nat.ltb k (len 0%nat) then v 0%nat k else cat n' (fun i => len (S i)) (fun i => v (S i)) (k - len 0%nat)
  end.
Definition res_inf_norm (D : dims) (res : ores F) : F * F * F * F :=
  let N := dN D in
  let nv := (nsum N (nvt D) + nvt D N)%nat in
  let ne := nsum N (fun i => dnx D (i + 1)) in
  let nc := (nsum N (nct D) + nct D N)%nat in
  (VECNRM_INF nv (cat (N + 1) (nvt D) (r_g res)) 0,
   VECNRM_INF ne (cat N (fun i => dnx D (i + 1)) (r_b res)) 0,
   VECNRM_INF nc (cat (N + 1) (nct D) (r_d res)) 0,
   VECNRM_INF nc (cat (N + 1) (nct D) (r_m res)) 0).

(** One stage of OCP_QP_RES_COMPUTE_LIN, lines 598-680: residual of the linearised system at step [stp]
    around [sol] (Lam, T); no obj / gap / mu. *)
Definition reslin_stage (mc : bool) (qp : oqp F) (sol stp : osol F) (ii : nat) (st : ores F * rws) : ores F * rws :=
  let '(res, ws) := st in
  let D := q_dim qp in
  let nx0 := dnx D ii in let nu0 := dnu D ii in let nb0 := dnb D ii in let ng0 := dng D ii in let ns0 := dns D ii in
  let nc0 := (2 * nb0 + 2 * ng0 + 2 * ns0)%nat in
  let ux := s_ux stp ii in let lam := s_lam stp ii in let t := s_t stp ii in
  let rqz := q_rqz qp ii in let d := q_d qp ii in let mask := q_mask qp ii in
  let g := SYMV_L (nu0 + nx0) f1 (q_RSQ qp ii) 0 0 ux 0 f1 rqz 0 (r_g res ii) 0 in
  let g := if Nat.ltb 0 ii then AXPY nx0 (- f1) (s_pi stp (ii - 1)) 0 g nu0 g nu0 else g in
  let lamk := if mc then VECMUL nc0 lam 0 mask 0 (w_lam ws) 0 else VECCP nc0 lam 0 (w_lam ws) 0 in
  let '(g, dd, bg0, bg1) :=
    ineq_block (nu0 + nx0) nb0 ng0 (q_idxb qp ii) (q_DCt qp ii) d t ux lamk (g, r_d res ii, w_bg0 ws, w_bg1 ws) in
  let '(g, dd) :=
    if Nat.ltb 0 ns0 then
      let g := GEMV_DIAG (2 * ns0) f1 (q_Z qp ii) 0 ux (nu0 + nx0) f1 rqz (nu0 + nx0) g (nu0 + nx0) in
      let '(g, dd) := soft_block (nu0 + nx0) nb0 ng0 ns0 (q_idxs_rev qp ii) d t ux lamk (g, dd) in
      (g, dd)
    else (g, dd) in
  let dd := if mc then VECMUL nc0 mask 0 dd 0 dd 0 else dd in
  let '(g, bb) :=
    if Nat.ltb ii (dN D) then
      let nu1 := dnu D (ii + 1) in let nx1 := dnx D (ii + 1) in
      let bb := AXPY nx1 (- f1) (s_ux stp (ii + 1)) nu1 (q_b qp ii) 0 (r_b res ii) 0 in
      GEMV_NT (nu0 + nx0) nx1 f1 f1 (q_BAbt qp ii) 0 0 (s_pi stp ii) 0 ux 0 f1 f1 g 0 bb 0 g 0 bb 0
    else (g, r_b res ii) in
  let mm := VECCP nc0 (q_m qp ii) 0 (r_m res ii) 0 in
  let mm := VECMULACC nc0 (s_lam sol ii) 0 t 0 mm 0 in
  let mm := VECMULACC nc0 lam 0 (s_t sol ii) 0 mm 0 in
  let mm := if mc then VECMUL nc0 mask 0 mm 0 mm 0 else mm in
  (mkres (upd (r_g res) ii g) (if Nat.ltb ii (dN D) then upd (r_b res) ii bb else r_b res) (upd (r_d res) ii dd) (upd (r_m res) ii mm) (r_obj res) (r_gap res) (r_mu res) (r_mu_sum res),
   mkrws bg0 bg1 lamk).
(** OCP_QP_RES_COMPUTE_LIN, lines 535-685 *)
Definition any_mask (d : dims) (mask : nat -> vec) : bool :=
  loop (dN d + 1) (fun ii s => loop (nct d ii) (fun jj c => if negb (mask ii jj =? f1) then true else c) s) false.
Definition reslin_compute (valid : option bool) (qp : oqp F) (sol stp : osol F) (res : ores F) (ws : rws) : ores F * rws :=
  let mc := match valid with Some mc => mc | None => any_mask (q_dim qp) (q_mask qp) end in
  loop (dN (q_dim qp) + 1) (reslin_stage mc qp sol stp) (res, ws).
End Res.
Arguments rws F : clear implicits.
