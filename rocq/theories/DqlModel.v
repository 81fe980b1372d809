(** DqlModel.v -- the QP approximation used by the dense QCQP solver (dense_qp/x_dense_qcqp_ipm.c) and its masks. *)
From Coq Require Import ZArith Bool Arith.
From Verif Require Import Base ArithF Blas Blas2 OcpModel DenModel QcqpModel DqcModel.

Section Dql.
Context {F : Type} {AF : Arith F}.
Local Open Scope F_scope.
Notation vec := (nat -> F).
Notation mat := (nat -> nat -> F).

(** What the routines write: the QP, the cached q_fun and q_adj of the residual workspace, tmp_nv+0/+1. *)
Record daws := mkdaws { da_qp : dqp F; da_fun : vec; da_adj : vec; da_x0 : vec; da_x1 : vec }.

(** DENSE_QCQP_UPDATE_QP, lines 1111-1157 (the loop over the quadratic constraints, lines 1132-1151, has the text of the OCP routine: [approx_loop]). *)
Definition dqc_update_qp (qc : dqcqp F) (sol : dsol F) (s : daws) : daws :=
  let nv := dq_nv qc in let nb := dq_nb qc in let ng := dq_ng qc in let nq := dq_nq qc in let ns := dq_ns qc in
  let nc := (2 * nb + 2 * ng + 2 * nq + 2 * ns)%nat in
  let qp := da_qp s in
  let d := VECCP nc (dq_d qc) 0 (d_d qp) 0 in
  let H := GECP nv nv (dq_H qc) 0 0 (d_H qp) 0 0 in
  let adj := VECSE nv f0 (da_adj s) 0 in
  let '(H, C, d, adj, fn, x0, x1) :=
    approx_loop nv ng nq (nb + ng) (2 * nb + 2 * ng + nq) (dq_Ct qc) (dq_Hq qc) (ds_v sol) (ds_lam sol) (H, d_Ct qp, d, adj, da_fun s, da_x0 s, da_x1 s) in
  let m := VECCP nc (dq_m qc) 0 (d_m qp) 0 in
  mkdaws (mkdqp (d_nv qp) (d_ne qp) (d_nb qp) (d_ng qp) (d_ns qp) H (d_A qp) C (d_gz qp) (d_b qp) d (d_mask qp) m (d_Z qp) (d_idxb qp) (d_idxs_rev qp)) fn adj x0 x1.

(** DENSE_QCQP_APPROX_QP, lines 1044-1107: the same loop (lines 1064-1085), then mask, A, the linear columns of Ct, gz, b, m, Z, idxb, idxs_rev
    are copied (m is copied earlier here, its source and destination take no part in what is between). *)
Definition dqc_approx_qp (qc : dqcqp F) (sol : dsol F) (s : daws) : daws :=
  let nv := dq_nv qc in let ne := dq_ne qc in let nb := dq_nb qc in let ng := dq_ng qc in let nq := dq_nq qc in let ns := dq_ns qc in
  let nc := (2 * nb + 2 * ng + 2 * nq + 2 * ns)%nat in
  let s := dqc_update_qp qc sol s in
  let qp := da_qp s in
  mkdaws (mkdqp (d_nv qp) (d_ne qp) (d_nb qp) (d_ng qp) (d_ns qp) (d_H qp)
      (GECP ne nv (dq_A qc) 0 0 (d_A qp) 0 0) (GECP nv ng (dq_Ct qc) 0 0 (d_Ct qp) 0 0) (VECCP (nv + 2 * ns) (dq_gz qc) 0 (d_gz qp) 0) (VECCP ne (dq_b qc) 0 (d_b qp) 0)
      (d_d qp) (VECCP nc (dq_mask qc) 0 (d_mask qp) 0) (d_m qp) (VECCP (2 * ns) (dq_Z qc) 0 (d_Z qp) 0)
      (loop nb (fun ii v => upd v ii (dq_idxb qc ii)) (d_idxb qp)) (loop (nb + ng + nq) (fun ii v => upd v ii (dq_idxs_rev qc ii)) (d_idxs_rev qp)))
    (da_fun s) (da_adj s) (da_x0 s) (da_x1 s).

(** DENSE_QCQP_UPDATE_QP_ABS_STEP, lines 1161-1209: unlike the OCP routine, both multipliers count and all columns of the Hessian are copied; the
    value folded into d and cached in q_fun is the constant term of the tangent (lines 1195-1204). *)
Definition dqc_abs_loop (n ng nq o ou : nat) (Ct : mat) (Hq : nat -> mat) (ux lam : vec)
  (s : mat * mat * vec * vec * vec * vec * vec) : mat * mat * vec * vec * vec * vec * vec :=
  loop nq (fun jj '(H, C, d, adj, fn, x0, x1) =>
    let tmp := - lam (o + jj)%nat + lam (ou + jj)%nat in
    let H := GEAD n n tmp (Hq jj) 0 0 H 0 0 in
    let x0 := SYMV_L n f1 (Hq jj) 0 0 ux 0 f0 x0 0 x0 0 in
    let x1 := COLEX n Ct 0 (ng + jj) x1 0 in
    let x1 := AXPY n f1 x0 0 x1 0 x1 0 in
    let C := COLIN n x1 0 C 0 (ng + jj) in
    let adj := AXPY n tmp x1 0 adj 0 adj 0 in
    let x1 := AXPBY n (- f1) x1 0 (lit 1 2) x0 0 x1 0 in
    let x0 := COLEX n Ct 0 (ng + jj) x0 0 in
    let x1 := AXPY n f1 x0 0 x1 0 x1 0 in
    let tmp := DOT n x1 0 ux 0 in
    let d := upd d (o + jj)%nat (d (o + jj)%nat + - tmp) in
    let d := upd d (ou + jj)%nat (d (ou + jj)%nat + tmp) in
    (H, C, d, adj, upd fn jj tmp, x0, x1)) s.
Definition dqc_update_qp_abs (qc : dqcqp F) (sol : dsol F) (s : daws) : daws :=
  let nv := dq_nv qc in let nb := dq_nb qc in let ng := dq_ng qc in let nq := dq_nq qc in let ns := dq_ns qc in
  let nc := (2 * nb + 2 * ng + 2 * nq + 2 * ns)%nat in
  let qp := da_qp s in
  let d := VECCP nc (dq_d qc) 0 (d_d qp) 0 in
  let H := GECP nv nv (dq_H qc) 0 0 (d_H qp) 0 0 in
  let adj := VECSE nv f0 (da_adj s) 0 in
  let '(H, C, d, adj, fn, x0, x1) :=
    dqc_abs_loop nv ng nq (nb + ng) (2 * nb + 2 * ng + nq) (dq_Ct qc) (dq_Hq qc) (ds_v sol) (ds_lam sol) (H, d_Ct qp, d, adj, da_fun s, da_x0 s, da_x1 s) in
  let m := VECCP nc (dq_m qc) 0 (d_m qp) 0 in
  mkdaws (mkdqp (d_nv qp) (d_ne qp) (d_nb qp) (d_ng qp) (d_ns qp) H (d_A qp) C (d_gz qp) (d_b qp) d (d_mask qp) m (d_Z qp) (d_idxb qp) (d_idxs_rev qp)) fn adj x0 x1.

(** DENSE_QCQP_IPM_SOLVE, lines 1388-1399: the lower quadratic constraints, and the lower slack softening each of them, are masked out *)
Definition dqc_mask_lower (qc : dqcqp F) : vec :=
  let nb := dq_nb qc in let ng := dq_ng qc in let nq := dq_nq qc in
  let v := VECSE nq f0 (dq_mask qc) (nb + ng) in
  loop nq (fun ii v => let idx := dq_idxs_rev qc (nb + ng + ii)%nat in
    if Z.eqb idx (-1) then v else upd v (2 * nb + 2 * ng + 2 * nq + Z.to_nat idx)%nat f0) v.
End Dql.
Arguments daws F : clear implicits.
