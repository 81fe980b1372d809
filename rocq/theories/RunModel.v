(** RunModel.v -- the interior point loop of IpmModel.v with the KKT routines of the library plugged in (KktModel.v: OCP_QP_FACT_SOLVE_KKT_STEP,
    SolveModel.v: OCP_QP_SOLVE_KKT_STEP and OCP_QP_FACT_KKT_STEP): the linear algebra that OCP_QP_IPM_SOLVE, x_ocp_qp_ipm.c lines 2777-3216, calls.
    The LQ factorisation (OCP_QP_FACT_LQ_SOLVE_KKT_STEP) and the unconstrained solve are parameters. *)
From Coq Require Import ZArith Bool Arith.
From Verif Require Import Base ArithF Blas Blas2 OcpModel CoreModel ArgModel IpmModel KktModel SolveModel.

Section Run.
Context {F : Type} {AF : Arith F}.
Local Open Scope F_scope.
Notation vec := (nat -> F).

(** the memory of the workspace the KKT routines share from call to call: their matrices and vectors, t_inv, Gamma, gamma of the core workspace,
    ws->preg_last, ws->npd_reg_hess *)
Record kst := mkkst { ks_w : kws F; ks_tinv : nat -> vec; ks_Gam : nat -> vec; ks_gam : nat -> vec; ks_preg : F; ks_npd : Z }.
Variables (A : arg F) (sq : bool) (fuel : nat).
(** the arguments the KKT routines read: arg->reg_prim, arg->comp_dual_sol_eq, cws->lam, cws->t (windows of the current iterate), cws->t_lam_min, cws->lam_min,
    cws->t_min, cws->t_min_inv (x_ocp_qp_ipm.c lines 2800-2806) *)
Definition run_ka (preg : F) (sol : osol F) : kargs F :=
  mkka (ar A reg_prim) (negb (Z.eqb (ai A comp_dual_sol_eq) 0)) preg (s_lam sol) (s_t sol) (ai A t_lam_min) (ar A lam_min) (ar A t_min)
    (if ar A t_min >? f0 then f1 / ar A t_min else lit (10 ^ 30) 1).
(** whether the factorisation had to be repeated with more regularisation (goto compute_preg, x_ocp_qp_kkt.c lines 1265, 1328, 1518, 1580) *)
Definition retried (a : kargs F) (k : kst) (qp : oqp F) : bool :=
  let Gam := kkt_Gam a qp (ks_tinv k) (ks_Gam k) (ks_gam k) in let gam := kkt_gam a qp (ks_tinv k) (ks_Gam k) (ks_gam k) in
  snd (if sq then fact_sqrt (a_reg a) (a_reg a) qp Gam gam (ks_w k) else fact_cls (a_reg a) (a_reg a) qp Gam gam (ks_w k)).
(** OCP_QP_FACT_SOLVE_KKT_STEP, x_ocp_qp_kkt.c lines 1113-1893; after [fuel] retries the model gives up (the C code goes on, see C39) *)
Definition run_fs (k : kst) (qp : oqp F) (sol stp : osol F) : osol F * kst :=
  let a := run_ka (ks_preg k) sol in
  match fact_solve_kkt fuel sq a qp (ks_tinv k) (ks_Gam k) (ks_gam k) stp (ks_w k) with
  | None => (stp, k)
  | Some (s, preg, w) =>
    let r := retried a k qp in
    (s, mkkst w (kkt_tinv a qp (ks_tinv k) (ks_Gam k) (ks_gam k)) (kkt_Gam a qp (ks_tinv k) (ks_Gam k) (ks_gam k)) (kkt_gam a qp (ks_tinv k) (ks_Gam k) (ks_gam k))
          (if r then preg else ks_preg k) (if r then 1 else 0)%Z)
  end.
(** OCP_QP_SOLVE_KKT_STEP, x_ocp_qp_kkt.c lines 2301-2653 *)
Definition run_sv (usePb : bool) (k : kst) (qp : oqp F) (sol stp : osol F) : osol F * kst :=
  let a := run_ka (ks_preg k) sol in
  let '(s, w) := solve_kkt sq usePb a qp (ks_tinv k) (ks_Gam k) (ks_gam k) stp (ks_w k) in
  (s, mkkst w (ks_tinv k) (ks_Gam k) (sol_gam a qp (ks_tinv k) (ks_gam k)) (ks_preg k) (ks_npd k)).
(** OCP_QP_FACT_KKT_STEP, x_ocp_qp_kkt.c lines 879-1109 *)
Definition run_fact (k : kst) (qp : oqp F) (sol : osol F) : kst :=
  let a := run_ka (ks_preg k) sol in
  mkkst (fact_kkt sq a qp (ks_tinv k) (ks_Gam k) (ks_w k)) (kf_tinv a qp (ks_tinv k) (ks_Gam k)) (kf_Gam a qp (ks_tinv k) (ks_Gam k)) (ks_gam k) (ks_preg k) (ks_npd k).
(** the linear algebra of the loop; ws->last_lq_fact (a column of the statistics) is 0 after every routine modelled here *)
Definition run_ops (lqop : kst -> oqp F -> osol F -> osol F -> osol F * kst) (unc : kst -> oqp F -> osol F -> osol F * kst) : kops (F := F) kst :=
  mkkops kst run_fs run_sv lqop run_fact unc (fun _ => 0%Z) ks_npd.
End Run.
Arguments kst F : clear implicits.
