(** TrunModel.v -- the interior point loop of TipmModel.v with the tree KKT routines of the library plugged in (TreeKktModel.v:
    TREE_OCP_QP_FACT_SOLVE_KKT_STEP and TREE_OCP_QP_SOLVE_KKT_STEP): the linear algebra that TREE_OCP_QP_IPM_SOLVE, tree_ocp_qp/x_tree_ocp_qp_ipm.c
    lines 2079-2494, calls.  The LQ factorisation (TREE_OCP_QP_FACT_LQ_SOLVE_KKT_STEP), the factorisation without solve (not called by the loop) and the
    unconstrained solve are parameters. *)
From Coq Require Import ZArith Bool Arith.
From Verif Require Import Base ArithF Blas Blas2 OcpModel CoreModel ArgModel IpmModel KktModel SolveModel TreeModel TreeKktModel RunModel.

Section Trun.
Context {F : Type} {AF : Arith F}.
Variables (A : arg F) (T : ttree).
(** TREE_OCP_QP_FACT_SOLVE_KKT_STEP, x_tree_ocp_qp_kkt.c lines 449-625: no retry, ws->preg_last and npd_reg_hess of the OCP workspace do not exist (carried along) *)
Definition trun_fs (k : kst F) (qp : oqp F) (sol stp : osol F) : osol F * kst F :=
  let a := run_ka A (ks_preg k) sol in
  let '(s, w) := tree_fact_solve a T qp (ks_tinv k) (ks_Gam k) (ks_gam k) stp (ks_w k) in
  (s, mkkst w (kkt_tinv a qp (ks_tinv k) (ks_Gam k) (ks_gam k)) (kkt_Gam a qp (ks_tinv k) (ks_Gam k) (ks_gam k)) (kkt_gam a qp (ks_tinv k) (ks_Gam k) (ks_gam k)) (ks_preg k) (ks_npd k)).
(** TREE_OCP_QP_SOLVE_KKT_STEP, x_tree_ocp_qp_kkt.c lines 849-1018 *)
Definition trun_sv (usePb : bool) (k : kst F) (qp : oqp F) (sol stp : osol F) : osol F * kst F :=
  let a := run_ka A (ks_preg k) sol in
  let '(s, w) := tree_solve usePb a T qp (ks_tinv k) (ks_Gam k) (ks_gam k) stp (ks_w k) in
  (s, mkkst w (ks_tinv k) (ks_Gam k) (sol_gam a qp (ks_tinv k) (ks_gam k)) (ks_preg k) (ks_npd k)).
Definition trun_ops (lqop : kst F -> oqp F -> osol F -> osol F -> osol F * kst F) (fact : kst F -> oqp F -> osol F -> kst F) (unc : kst F -> oqp F -> osol F -> osol F * kst F) : kops (F := F) (kst F) :=
  mkkops (kst F) trun_fs trun_sv lqop fact unc (fun _ => 0%Z) ks_npd.
End Trun.
