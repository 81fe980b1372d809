(** DqcModel.v -- dense QP with quadratic constraints: data and residuals (dense_qp/x_dense_qcqp_res.c). *)
From Coq Require Import ZArith Bool Arith.
From Verif Require Import Base ArithF Blas Blas2 OcpModel DenModel QcqpModel.

(** struct DENSE_QCQP_DIM / DENSE_QCQP (include/hpipm_d_dense_qcqp_dim.h, include/hpipm_d_dense_qcqp.h).  v = [v; sl; su];
    d, d_mask, m, lam, t = [lb; lg; lq; -ub; -ug; -uq; ls; us]; A is ne x nv; Ct is nv x (ng+nq), its last nq columns are the gradients g_j
    at 0 of the quadratic constraints  1/2 v'Hq_j v + g_j'v;  Hv and Hq_j are used by their lower triangles. *)
Record dqcqp (F : Type) := mkdqc { dq_nv : nat; dq_ne : nat; dq_nb : nat; dq_ng : nat; dq_nq : nat; dq_ns : nat;
  dq_H : nat -> nat -> F; dq_A : nat -> nat -> F; dq_Ct : nat -> nat -> F; dq_Hq : nat -> nat -> nat -> F; dq_gz : nat -> F; dq_b : nat -> F;
  dq_d : nat -> F; dq_mask : nat -> F; dq_m : nat -> F; dq_Z : nat -> F; dq_idxb : nat -> nat; dq_idxs_rev : nat -> Z }.
Arguments mkdqc {F}. Arguments dq_nv {F}. Arguments dq_ne {F}. Arguments dq_nb {F}. Arguments dq_ng {F}. Arguments dq_nq {F}. Arguments dq_ns {F}.
Arguments dq_H {F}. Arguments dq_A {F}. Arguments dq_Ct {F}. Arguments dq_Hq {F}. Arguments dq_gz {F}. Arguments dq_b {F}. Arguments dq_d {F}.
Arguments dq_mask {F}. Arguments dq_m {F}. Arguments dq_Z {F}. Arguments dq_idxb {F}. Arguments dq_idxs_rev {F}.

Section Dqc.
Context {F : Type} {AF : Arith F}.
Local Open Scope F_scope.
Notation vec := (nat -> F).

(** DENSE_QCQP_RES_COMPUTE, lines 270-458.  [valid] = (ws->valid_nc_mask==1) with the cached mask_constr and nc_mask_inv; [cache] =
    Some (q_fun, q_adj) when use_q_fun & use_q_adj.  The box/general/quadratic block (lines 359-409) and the soft block (lines 410-437) have the text of the
    OCP QCQP routine with nv for nu+nx: [qineq_block], [soft_block]. *)
Definition dqc_res_compute (cache : option (vec * vec)) (valid : option (bool * F)) (qp : dqcqp F) (sol : dsol F) (res : dres F) (ws : qrws F) : dres F * qrws F :=
  let nv := dq_nv qp in let ne := dq_ne qp in let nb := dq_nb qp in let ng := dq_ng qp in let nq := dq_nq qp in let ns := dq_ns qp in
  let nct := (2 * nb + 2 * ng + 2 * nq + 2 * ns)%nat in
  let gz := dq_gz qp in let d := dq_d qp in let mask := dq_mask qp in
  let v := ds_v sol in let pi := ds_pi sol in let lam := ds_lam sol in let t := ds_t sol in
  let '(mc, nc_mask_inv) :=
    match valid with
    | Some (mc, inv) => (mc, inv)
    | None => let '(n, mc) := den_mask_count nct mask in (mc, if Nat.ltb 0 n then inv_count n else f0)
    end in
  let obj := f0 in
  let gap := f0 in
  let g := SYMV_L nv f1 (dq_H qp) 0 0 v 0 (lit 2 1) gz 0 (dr_g res) 0 in
  let obj := obj + lit 1 2 * DOT nv g 0 v 0 in
  let g := AXPY nv (- f1) gz 0 g 0 g 0 in
  let gap := gap + DOT nv g 0 v 0 in
  let lamk := if mc then VECMUL nct lam 0 mask 0 (v_lam ws) 0 else VECCP nct lam 0 (v_lam ws) 0 in
  let lamk := VECSE nq f0 lamk (nb + ng) in
  let '(g, dd, bg0, bg1, gap, x0, x1) :=
    qineq_block cache nv nb ng nq (dq_idxb qp) (dq_Ct qp) (dq_Hq qp) d t v lamk (g, dr_d res, v_bg0 ws, v_bg1 ws, gap, v_x0 ws, v_x1 ws) in
  let '(g, dd, obj, gap) :=
    if Nat.ltb 0 ns then
      let g := GEMV_DIAG (2 * ns) f1 (dq_Z qp) 0 v nv (lit 2 1) gz nv g nv in
      let obj := obj + lit 1 2 * DOT (2 * ns) g nv v nv in
      let g := AXPY (2 * ns) (- f1) gz nv g nv g nv in
      let gap := gap + DOT (2 * ns) g nv v nv in
      let '(g, dd) := soft_block nv nb (ng + nq) ns (dq_idxs_rev qp) d t v lamk (g, dd) in
      (g, dd, obj, gap)
    else (g, dd, obj, gap) in
  let dd := if mc then VECMUL nct mask 0 dd 0 dd 0 else dd in
  let gap := gap - DOT nct d 0 lamk 0 in
  let '(bb, g, gap) :=
    if Nat.ltb 0 ne then
      let '(bb, g) := GEMV_NT ne nv (- f1) (- f1) (dq_A qp) 0 0 v 0 pi 0 f1 f1 (dq_b qp) 0 g 0 (dr_b res) 0 g 0 in
      (bb, g, gap - DOT ne (dq_b qp) 0 pi 0)
    else (dr_b res, g, gap) in
  let '(mm, mu) := VECMULDOT nct lamk 0 t 0 (dr_m res) 0 in
  let mm := AXPY nct (- f1) (dq_m qp) 0 mm 0 mm 0 in
  let mm := if mc then VECMUL nct mask 0 mm 0 mm 0 else mm in
  (mkdres g bb dd mm obj gap (mu * nc_mask_inv) mu, mkqrws bg0 bg1 lamk x0 x1).

(** DENSE_QCQP_RES_COMPUTE_INF_NORM, lines 462-490 *)
Definition dqc_inf_norm (qp : dqcqp F) (res : dres F) : F * F * F * F :=
  let nct := (2 * dq_nb qp + 2 * dq_ng qp + 2 * dq_nq qp + 2 * dq_ns qp)%nat in
  (VECNRM_INF (dq_nv qp + 2 * dq_ns qp) (dr_g res) 0, VECNRM_INF (dq_ne qp) (dr_b res) 0, VECNRM_INF nct (dr_d res) 0, VECNRM_INF nct (dr_m res) 0).
End Dqc.
