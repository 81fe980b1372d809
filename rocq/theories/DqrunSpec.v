(** DqrunSpec.v -- what C77 says about a run of the dense QCQP solver, as mathematics; the workspace as the solve finds it. *)
From Coq Require Import ZArith Bool Arith Reals.
From Verif Require Import Base ArithF RSum ArgModel DenModel DenSpec DenKktModel DenKktSpec QcqpModel DqcModel DqcSpec DqlModel DqlSpec DqlProofs DenIpmModel DqiModel DrunModel.
Local Open Scope R_scope.

Section S.
Variable q : dqcqp R.
(** the constraints the solver imposes: not masked, not the lower side of a quadratic constraint, not the bound of a slack softening one (see C74) *)
Definition dimposed (c : nat) : Prop := dq_lower q c = false /\ ~ dlowslack q c /\ dq_mask q c = 1.
(** residual of an inequality (slack formulation): con(z) - t = d when zero *)
Definition dqgap (s : dsol R) (c : nat) : R := dq_d q c + ds_t s c - dq_con q (ds_v s) c.
(** upper side of a quadratic constraint; half the curvature of constraint c along w: 1/2 w' Hq_j w, 0 for the linear constraints *)
Definition dupper (c : nat) : bool := ((duq q 0 <=? c) && (c <? 2 * dqn2 q))%nat.
Definition dqcurv (w : nat -> R) (c : nat) : R :=
  if dupper c then 1 / 2 * rsum (dq_nv q) (fun k => rsum (dq_nv q) (fun l => w k * dq_Hsym q (c - duq q 0) k l * w l)) else 0.
(** no two constraints share a slack *)
Definition dq_soft_inj : Prop := forall j j', (j < dqn2 q)%nat -> (j' < dqn2 q)%nat -> dq_idxs_rev q j <> (-1)%Z -> dq_idxs_rev q j = dq_idxs_rev q j' -> j = j'.
Definition dq_quad (p : nat -> R) : R := rsum (dq_nv q) (fun k => rsum (dq_nv q) (fun l => p k * dq_Hess q k l * p l)).
(** p is a direction the method regularises: A p = 0 for the null-space method (alg = 0), any direction for the Schur complement *)
Definition dq_dir (alg : Z) (p : nat -> R) : Prop := alg = 0%Z -> forall j, (j < dq_ne q)%nat -> rsum (dq_nv q) (fun k => dq_A q j k * p k) = 0.
(** the equalities are not perturbed by a dual regularisation: there are none, or the null-space method is used, or reg_dual = 0 *)
Definition dq_exact_eq (dreg : R) (alg : Z) : Prop := dq_ne q = 0%nat \/ alg = 0%Z \/ dreg = 0.
(** the curvature and rank the method needs: as in C72, and convex imposed quadratic constraints *)
Record dqrun_convex (reg dreg : R) (alg : Z) : Prop := {
  dqx_reg : 0 <= reg;
  dqx_Z : forall k, (k < 2 * dq_ns q)%nat -> 0 <= dq_Z q k + reg;
  dqx_slack : forall k, (k < 2 * dq_ns q)%nat -> 0 < dq_Z q k + reg \/ dimposed (2 * dqn2 q + k);
  dqx_q : dq_con_psd q;
  dqx_H0 : forall p, dq_dir alg p -> 0 <= dq_quad p;
  dqx_H : forall p, dq_dir alg p -> (exists k, (k < dq_nv q)%nat /\ p k <> 0) -> 0 < dq_quad p + reg * rsum (dq_nv q) (fun k => p k * p k);
  dqx_A : dq_ne q <> 0%nat -> alg <> 0%Z -> 0 <= dreg /\ forall y : nat -> R, (exists j, (j < dq_ne q)%nat /\ y j <> 0) ->
    0 < dreg \/ exists k, (k < dq_nv q)%nat /\ rsum (dq_ne q) (fun j => y j * dq_A q j k) <> 0 }.
End S.

(** qp_ws->use_A_fact = 0, x_dense_qcqp_ipm.c line 1381; the flags preg_last, dreg_last and npd_hess keep what the previous solve left
    (DENSE_QP_IPM_SOLVE resets them, this routine does not) *)
Definition dq_reset {F} (w : dkw F) : dkw F :=
  mkdkw (w_Lv w) (w_dLv w) (w_Ctx w) (w_AL w) (w_Le w) (w_dLe w) (w_sv w) (w_se w) (w_Zs w) (w_tmp w) (w_LQ w) (w_Q w) (w_Zt w) (w_ZtH w) (w_ZtHZ w) (w_dZ w)
    (w_scale w) false (w_preg w) (w_dreg w) (w_npd w).
Definition dqrun_ws {F} (ws : @dqst F (dkst F)) : @dqst F (dkst F) :=
  let i := y_i ws in let w := i_w i in let k := wk_k w in
  mkdqst (mkist (i_x i) (i_bkp i) (mkwk (wk_stp w) (wk_itr w) (wk_res w) (wk_rit w) (wk_rw w) (wk_ap w) (wk_ad w) (wk_muaff w) (wk_sig w) (wk_stat w)
      (mkdkst (dq_reset (dk_w k)) (dk_tinv k) (dk_Gam k) (dk_gam k))) (i_mu i) (i_mbk i) (i_max i)) (y_x ws) (y_a ws) (y_r ws) (y_rw ws) (y_max ws).
