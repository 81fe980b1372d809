(** DrunModel.v -- the dense interior point loop of DenIpmModel.v with the dense KKT routines of the library plugged in (DenKktModel.v:
    DENSE_QP_FACT_SOLVE_KKT_STEP, DENSE_QP_SOLVE_KKT_STEP, DENSE_QP_FACT_KKT_STEP): the linear algebra that DENSE_QP_IPM_SOLVE,
    dense_qp/x_dense_qp_ipm.c lines 2246-2676, calls.  The LQ factorisation of the KKT matrix (DENSE_QP_FACT_LQ_SOLVE_KKT_STEP), the unconstrained solve and
    the LQ routine of BLASFEO ([lqf], applied to A by the null-space method) are parameters. *)
From Coq Require Import ZArith Bool Arith.
From Verif Require Import Base ArithF Blas Blas2 OcpModel CoreModel ArgModel DenModel DenKktModel DenIpmModel.

Section Drun.
Context {F : Type} {AF : Arith F}.
Local Open Scope F_scope.
Notation vec := (nat -> F). Notation mat := (nat -> nat -> F).
(** the memory of the workspace the KKT routines share from call to call: factors and flags, t_inv / Gamma / gamma of the core workspace *)
Record dkst := mkdkst { dk_w : dkw F; dk_tinv : vec; dk_Gam : vec; dk_gam : vec }.
(** the arguments: A (members shared with the OCP solver), arg->reg_dual, arg->kkt_fact_alg, arg->scale; [fuel] bounds the retries of one factorisation *)
Variables (A : arg F) (dreg : F) (alg : Z) (sc : bool) (lqf : nat -> nat -> mat -> mat * mat -> mat * mat) (scr : nat -> vec) (fuel : nat).
(** what the KKT routines read: arg->reg_prim, reg_dual, kkt_fact_alg, scale, cws->lam, cws->t, t_lam_min, lam_min, t_min, t_min_inv
    (x_dense_qp_ipm.c lines 2284-2290) *)
Definition drun_ka (sol : dsol F) : dka F :=
  mkdka (ar A reg_prim) dreg alg sc (ds_lam sol) (ds_t sol) (ai A t_lam_min) (ar A lam_min) (ar A t_min) (if ar A t_min >? f0 then f1 / ar A t_min else lit (10 ^ 30) 1).
(** ws->scale = arg->scale, line 1724: DENSE_QP_IPM_DELTA_STEP only, before its factorisation; the absolute form does not set it *)
Definition set_scale (w : dkw F) : dkw F :=
  mkdkw (w_Lv w) (w_dLv w) (w_Ctx w) (w_AL w) (w_Le w) (w_dLe w) (w_sv w) (w_se w) (w_Zs w) (w_tmp w) (w_LQ w) (w_Q w) (w_Zt w) (w_ZtH w) (w_ZtHZ w) (w_dZ w)
    (if Z.eqb (ai A abs_form) 0 then sc else w_scale w) (w_useA w) (w_preg w) (w_dreg w) (w_npd w).
(** lines 2340-2347, at the start of every solve: use_A_fact = 0, npd_hess = 0, preg_last = reg_prim, dreg_last = reg_dual (use_hess_fact and last_lq_fact: not in this model) *)
Definition reset_flags (w : dkw F) : dkw F :=
  mkdkw (w_Lv w) (w_dLv w) (w_Ctx w) (w_AL w) (w_Le w) (w_dLe w) (w_sv w) (w_se w) (w_Zs w) (w_tmp w) (w_LQ w) (w_Q w) (w_Zt w) (w_ZtH w) (w_ZtHZ w) (w_dZ w)
    (w_scale w) false (ar A reg_prim) dreg false.
(** DENSE_QP_FACT_SOLVE_KKT_STEP, x_dense_qp_kkt.c lines 1167-1985; after [fuel] attempts the model gives up (the C code goes on, see C48) *)
Definition drun_fs (k : dkst) (qp : dqp F) (sol stp : dsol F) : dsol F * dkst :=
  match den_fact_solve (drun_ka sol) qp lqf scr fuel (dk_tinv k, dk_Gam k, dk_gam k) stp (set_scale (dk_w k)) with
  | None => (stp, k)
  | Some (s, _, (tinv, Gam, gam), w) => (s, mkdkst w tinv Gam gam)
  end.
(** DENSE_QP_SOLVE_KKT_STEP, lines 2715-2900 *)
Definition drun_sv (k : dkst) (qp : dqp F) (sol stp : dsol F) : dsol F * dkst :=
  let '(s, gam, w) := den_solve_kkt (drun_ka sol) qp scr (dk_tinv k) (dk_Gam k) (dk_gam k) stp (dk_w k) in (s, mkdkst w (dk_tinv k) (dk_Gam k) gam).
(** DENSE_QP_FACT_KKT_STEP, lines 872-1163 *)
Definition drun_fact (k : dkst) (qp : dqp F) (sol : dsol F) : dkst :=
  let '((tinv, Gam), w) := den_fact_kkt (drun_ka sol) qp lqf (dk_tinv k, dk_Gam k) (dk_w k) in mkdkst w tinv Gam (dk_gam k).
Definition drun_ops (lqop : dkst -> dqp F -> dsol F -> dsol F -> dsol F * dkst) (unc : dkst -> dqp F -> dsol F -> dsol F * dkst) : dkops (F := F) dkst :=
  mkdkops dkst drun_fs drun_sv lqop drun_fact unc (fun _ => 0%Z) (fun k => if w_npd (dk_w k) then 1%Z else 0%Z).
(** the workspace as the solve finds it, after lines 2340-2347 *)
Definition drun_ws (ws : @ist F dkst) : @ist F dkst :=
  let w := i_w ws in let k := wk_k w in
  mkist (i_x ws) (i_bkp ws) (mkwk (wk_stp w) (wk_itr w) (wk_res w) (wk_rit w) (wk_rw w) (wk_ap w) (wk_ad w) (wk_muaff w) (wk_sig w) (wk_stat w)
    (mkdkst (reset_flags (dk_w k)) (dk_tinv k) (dk_Gam k) (dk_gam k))) (i_mu ws) (i_mbk ws) (i_max ws).
(** DENSE_QP_IPM_SOLVE *)
Definition drun_solve lqop unc (cne : nat) (lq smax : Z) (qp : dqp F) (sol : vars F) (ws : @ist F dkst) : @out F dkst :=
  dipm_solve (drun_ops lqop unc) A cne lq smax qp sol (drun_ws ws).
End Drun.
Arguments dkst F : clear implicits.
