(** QcqpLinProps.v -- C60: the QPs by which the QCQP interior-point solver replaces the QCQP (linearisation at the iterate, masks).
    Specification: QcqpSpec.v (the QCQP), QcqpLinSpec.v (its linearisation at a point). *)
From Coq Require Import ZArith Bool Arith Lia Reals Lra SpecFloat.
From Verif Require Import Base ArithF RSum Blas Blas2 OcpModel ResSpec ResProofs ResProofs2 SolveModel KktModel UncModel QcqpModel QcqpSpec QcqpProofs QcqpProofs2 QcqpProofs3 QcqpLinSpec QcqpLin QcqpNewton QcqpMask QcqpProps.
Local Open Scope R_scope.

(** C60: APPROX_QP writes the linearisation of the QCQP at the given point, whatever the QP object held before (except the gradient, below);
    UPDATE_QP moves a linearisation to the new point. *)
Theorem C60_approx (qc : oqcqp R) (sol : osol R) (s : aws R) : q_dim (a_qp s) = qp_dims (c_dim qc) (c_nq qc) ->
  lin_of qc (s_ux sol) (s_lam sol) (a_qp (approx_qp qc sol s)).
Proof. exact (approx_lin qc sol s). Qed.
Theorem C60_update (qc : oqcqp R) (sol : osol R) (s : aws R) z0 lam0 : lin_of qc z0 lam0 (a_qp s) ->
  lin_of qc (s_ux sol) (s_lam sol) (a_qp (update_qp qc sol s)).
Proof. exact (update_lin qc sol z0 lam0 s). Qed.
(** C60: both leave in the cache the values and adjoints of the quadratic constraints at the point, so that the residual routine may use them
    (C59's [cache_ok]) *)
Theorem C60_cache (qc : oqcqp R) (sol : osol R) (s : aws R) : q_prepared qc (s_lam sol) ->
  cache_ok (Some (a_fun (approx_qp qc sol s), a_adj (approx_qp qc sol s))) qc (s_ux sol) (s_lam sol) /\
  cache_ok (Some (a_fun (update_qp qc sol s), a_adj (update_qp qc sol s))) qc (s_ux sol) (s_lam sol).
Proof. intros H. split; [apply approx_cache|apply update_cache]; exact H. Qed.

(** C60: with the residuals of the QCQP as right-hand side the QP is the exact Newton linearisation: for every step, the residuals of the
    QP at the step are those of the QCQP at the moved point, minus the terms of second order in the step. *)
Theorem C60_newton (qc : oqcqp R) (qp : oqp R) (z pi lam t rm dz dpi dlam dt : nat -> nat -> R) :
  qc_wf qc -> lin_of qc z lam qp -> q_prepared qc lam -> qmask01 qc ->
  (forall i c, (i <= dN (c_dim qc))%nat -> (c < cnc qc i)%nat -> rm i c = qkkt_m qc lam t i c) ->
  let st := with_rhs qp (qkkt_g qc z pi lam) (qdyn qc z) (qkkt_d qc z t) rm in
  let z' := fun i k => z i k + dz i k in let pi' := fun i k => pi i k + dpi i k in let lam' := fun i k => lam i k + dlam i k in let t' := fun i k => t i k + dt i k in
  let Hd i j k := rsum (cnux qc i) (fun l => Hsym qc i j k l * dz i l) in
  (forall i k, (i <= dN (c_dim qc))%nat -> (k < cnv qc i)%nat ->
     kkt_g st dz dpi dlam i k = qkkt_g qc z' pi' lam' i k
       - (if (k <? cnux qc i)%nat then rsum (c_nq qc i) (fun j => c_mask qc i (uqx qc i j) * dlam i (uqx qc i j) * Hd i j k) else 0)) /\
  (forall i j, (i < dN (c_dim qc))%nat -> (j < dnx (c_dim qc) (S i))%nat -> dyn st dz i j = qdyn qc z' i j) /\
  (forall i c, (i <= dN (c_dim qc))%nat -> (c < cnc qc i)%nat ->
     kkt_d st dz dt i c = qkkt_d qc z' t' i c
       - c_mask qc i c * (if ((uqx qc i 0 <=? c) && (c <? 2 * cn2 qc i))%nat then 1 / 2 * rsum (cnux qc i) (fun k => dz i k * Hd i (c - uqx qc i 0)%nat k) else 0)) /\
  (forall i c, (i <= dN (c_dim qc))%nat -> (c < cnc qc i)%nat ->
     q_mask st i c * (q_m st i c + lam i c * dt i c + dlam i c * t i c) = qkkt_m qc lam' t' i c - c_mask qc i c * (dlam i c * dt i c)).
Proof.
  intros Hwf Hlin Hp Hm Hr. cbv zeta. split; [|split; [|split]].
  - intros i k Hi Hk. exact (newton_g qc qp z pi lam t Hlin Hp rm dz dpi dlam i k Hi Hk).
  - intros i j Hi Hj. exact (newton_b qc qp z pi lam t Hlin rm dz i j Hi Hj).
  - intros i c Hi Hc. exact (newton_d qc qp z pi lam t Hwf Hlin Hp rm dz dt i c Hi Hc (Hm i c Hi Hc)).
  - intros i c Hi Hc. exact (newton_m qc qp z pi lam t Hlin Hp rm dlam dt i c Hi Hc (Hm i c Hi Hc) (Hr i c Hi Hc)).
Qed.

(** C60: the damped step.  If the step solves the linearised system exactly (complementarity target tau), then after a step of length a every
    residual of the QCQP is (1-a) times what it was plus a term of second order in a; the dynamics residual exactly (1-a) times. *)
Theorem C60_damped_step (qc : oqcqp R) (qp : oqp R) (z pi lam t tau dz dpi dlam dt : nat -> nat -> R) (a : R) :
  qc_wf qc -> lin_of qc z lam qp -> q_prepared qc lam -> qmask01 qc ->
  let st := with_rhs qp (qkkt_g qc z pi lam) (qdyn qc z) (qkkt_d qc z t) (fun i c => qkkt_m qc lam t i c - tau i c) in
  (forall i k, (i <= dN (c_dim qc))%nat -> (k < cnv qc i)%nat -> kkt_g st dz dpi dlam i k = 0) ->
  (forall i j, (i < dN (c_dim qc))%nat -> (j < dnx (c_dim qc) (S i))%nat -> dyn st dz i j = 0) ->
  (forall i c, (i <= dN (c_dim qc))%nat -> (c < cnc qc i)%nat -> kkt_d st dz dt i c = 0) ->
  (forall i c, (i <= dN (c_dim qc))%nat -> (c < cnc qc i)%nat -> q_mask st i c * (q_m st i c + lam i c * dt i c + dlam i c * t i c) = 0) ->
  let z' := fun i k => z i k + a * dz i k in let pi' := fun i k => pi i k + a * dpi i k in let lam' := fun i k => lam i k + a * dlam i k in let t' := fun i k => t i k + a * dt i k in
  let Hd i j k := rsum (cnux qc i) (fun l => Hsym qc i j k l * dz i l) in
  (forall i k, (i <= dN (c_dim qc))%nat -> (k < cnv qc i)%nat ->
     qkkt_g qc z' pi' lam' i k = (1 - a) * qkkt_g qc z pi lam i k
       + a * a * (if (k <? cnux qc i)%nat then rsum (c_nq qc i) (fun j => c_mask qc i (uqx qc i j) * dlam i (uqx qc i j) * Hd i j k) else 0)) /\
  (forall i j, (i < dN (c_dim qc))%nat -> (j < dnx (c_dim qc) (S i))%nat -> qdyn qc z' i j = (1 - a) * qdyn qc z i j) /\
  (forall i c, (i <= dN (c_dim qc))%nat -> (c < cnc qc i)%nat ->
     qkkt_d qc z' t' i c = (1 - a) * qkkt_d qc z t i c
       + a * a * (c_mask qc i c * (if ((uqx qc i 0 <=? c) && (c <? 2 * cn2 qc i))%nat then 1 / 2 * rsum (cnux qc i) (fun k => dz i k * Hd i (c - uqx qc i 0)%nat k) else 0))) /\
  (forall i c, (i <= dN (c_dim qc))%nat -> (c < cnc qc i)%nat ->
     qkkt_m qc lam' t' i c = (1 - a) * qkkt_m qc lam t i c + a * (c_mask qc i c * tau i c) + a * a * (c_mask qc i c * (dlam i c * dt i c))).
Proof.
  intros Hwf Hlin Hp Hm st Hg Hb Hd Hcm. cbv zeta. set (rm := fun i c => qkkt_m qc lam t i c - tau i c) in *.
  split; [|split; [|split]].
  - intros i k Hi Hk. pose proof (newton_g qc qp z pi lam t Hlin Hp rm (fun i k => a * dz i k) (fun i k => a * dpi i k) (fun i k => a * dlam i k) i k Hi Hk) as E.
    rewrite kkt_g_scal in E. change (newton_qp qc qp z pi lam t rm) with st in E. rewrite Hg in E by assumption. cbn [st with_rhs q_rqz] in E.
    assert (E2 : rsum (c_nq qc i) (fun j => c_mask qc i (uqx qc i j) * (a * dlam i (uqx qc i j)) * Hv qc i j k (fun i k => a * dz i k)) =
      a * a * rsum (c_nq qc i) (fun j => c_mask qc i (uqx qc i j) * dlam i (uqx qc i j) * rsum (cnux qc i) (fun l => Hsym qc i j k l * dz i l))).
    { rewrite <- rsum_scal. apply rsum_ext. intros j _. unfold Hv. rewrite (rsum_ext _ (fun l => Hsym qc i j k l * (a * dz i l)) (fun l => a * (Hsym qc i j k l * dz i l))) by (intros; lra). rewrite rsum_scal. lra. }
    rewrite E2 in E. destruct (k <? cnux qc i)%nat; lra.
  - intros i j Hi Hj. pose proof (newton_b qc qp z pi lam t Hlin rm (fun i k => a * dz i k) i j Hi Hj) as E. rewrite <- E.
    specialize (Hb i j Hi Hj). change (newton_qp qc qp z pi lam t rm) with st. unfold dyn in *. rewrite (rsum_ext _ (fun k => q_BAbt st i k j * (a * dz i k)) (fun k => a * (q_BAbt st i k j * dz i k))) by (intros; lra).
    rewrite rsum_scal. change (q_b st i j) with (qdyn qc z i j) in *. set (S := rsum _ _) in *. set (y := dz _ _) in *. replace (a * S + qdyn qc z i j - a * y) with ((1 - a) * qdyn qc z i j + a * (S + qdyn qc z i j - y)) by lra. rewrite Hb. lra.
  - intros i c Hi Hc. pose proof (newton_d qc qp z pi lam t Hwf Hlin Hp rm (fun i k => a * dz i k) (fun i k => a * dt i k) i c Hi Hc (Hm i c Hi Hc)) as E.
    change (newton_qp qc qp z pi lam t rm) with st in E. specialize (Hd i c Hi Hc). unfold kkt_d in E, Hd. rewrite con_scal in E. change (q_d st i c) with (qkkt_d qc z t i c) in *.
    assert (Emk : q_mask st i c = c_mask qc i c). { destruct Hlin as [_ H]. destruct (H i Hi) as (_ & _ & H3 & _). destruct (H3 c Hc) as (_ & H4 & _). exact H4. }
    rewrite Emk in *.
    assert (E2 : forall j, rsum (cnux qc i) (fun k => a * dz i k * Hv qc i j k (fun i k => a * dz i k)) = a * a * rsum (cnux qc i) (fun k => dz i k * rsum (cnux qc i) (fun l => Hsym qc i j k l * dz i l))).
    { intros j. rewrite <- rsum_scal. apply rsum_ext. intros k _. unfold Hv. rewrite (rsum_ext _ (fun l => Hsym qc i j k l * (a * dz i l)) (fun l => a * (Hsym qc i j k l * dz i l))) by (intros; lra). rewrite rsum_scal. lra. }
    rewrite E2 in E. assert (Eq : c_mask qc i c * qkkt_d qc z t i c = qkkt_d qc z t i c) by (unfold qkkt_d; destruct (Hm i c Hi Hc) as [-> | ->]; lra).
    match goal with H : context [con ?A ?B i c] |- _ => set (C := con A B i c) in * end.
    destruct (_ && _)%bool; [match goal with |- context [rsum (cnux qc i) ?g] => set (X := rsum (cnux qc i) g) in * end|];
      (destruct (Hm i c Hi Hc) as [Em|Em]; rewrite Em in *;
       [assert (Q0 : qkkt_d qc z t i c = 0) by lra; rewrite Q0 in *; lra
       |assert (Q1 : C = qkkt_d qc z t i c + dt i c) by lra; rewrite Q1 in E; lra]).
  - intros i c Hi Hc. specialize (Hcm i c Hi Hc).
    assert (Emk : q_mask st i c = c_mask qc i c). { destruct Hlin as [_ H]. destruct (H i Hi) as (_ & _ & H3 & _). destruct (H3 c Hc) as (_ & H4 & _). exact H4. }
    rewrite Emk in Hcm. cbn [st with_rhs q_m] in Hcm. unfold rm in Hcm. unfold qkkt_m in *. rewrite (act_mask qc lam Hp) in * by assumption. destruct (Hm i c Hi Hc) as [E|E]; rewrite E in *; [lra|].
    assert (Et : tau i c = lam i c * t i c - c_m qc i c + lam i c * dt i c + dlam i c * t i c) by lra. rewrite Et. lra.
Qed.

(** C60: what IPM_SOLVE does to the masks of the given QCQP object: the lower sides of the quadratic constraints, and the nonnegativity of the
    lower slacks that soften them, are switched off; nothing else changes. *)
Theorem C60_masks (qc : oqcqp R) i c : (i <= dN (c_dim qc))%nat ->
  (lowerq qc i c = true \/ lowslack qc i c -> mask_lower qc i c = 0) /\ (lowerq qc i c = false -> ~ lowslack qc i c -> mask_lower qc i c = c_mask qc i c).
Proof. exact (mask_lower_R qc i c). Qed.
(** C60: this does not change the problem if those slacks have no linear cost, are not used by other lower sides, and have bounds <= 0: feasible points of
    the problem stay feasible, and every feasible point of the masked problem is matched by a feasible point of the given one (same except for those
    slacks, set to 0) which costs no more. *)
Theorem C60_masks_harmless (qc : oqcqp R) (y : nat -> nat -> R) : qc_wf qc -> mask_harmless qc ->
  (qfeasible qc y -> qfeasible (with_mask qc (mask_lower qc)) y) /\
  (qfeasible (with_mask qc (mask_lower qc)) y -> qfeasible qc (zeroed qc y) /\ qcost qc (zeroed qc y) <= qcost qc y) /\
  (forall i k, (k < cnux qc i)%nat -> zeroed qc y i k = y i k).
Proof.
  intros Hwf Hh. split; [apply feas_masked|]. split; [intros H; split; [apply feas_zeroed; assumption|apply cost_zeroed; assumption]|]. intros i k. apply zeroed_hard.
Qed.
(** C60, otherwise it does: a linear penalty on the lower slack of a soft quadratic constraint makes the problem actually solved unbounded.
    min u + sl + 10 su  s.t.  u^2/2 - su <= 1/2 (lower side disregarded), sl, su >= 0: the objective is >= -1 - 10*... on the given problem and unbounded
    below once sl >= 0 is dropped. *)
Definition xs_D : dims := mkdims 0 (fun _ => 0%nat) (fun _ => 1%nat) (fun _ => 0%nat) (fun _ => 0%nat) (fun _ => 1%nat).
Definition xsc : oqcqp R := mkqc xs_D (fun _ => 1%nat) (fun _ _ _ => 0) (fun _ _ _ => 0) (fun _ _ _ => 0) (fun _ _ _ _ => 1) (fun _ _ => 0)
  (fun _ k => match k with 2%nat => 10 | _ => 1 end) (fun _ c => match c with 1%nat => - / 2 | _ => 0 end) (fun _ _ => 1) (fun _ _ => 0) (fun _ _ => 0) (fun _ _ => 0%nat) (fun _ _ => 0%Z).
Theorem C60_soft_lower_slack_refuted : exists qc : oqcqp R, qc_wf qc /\ qmask01 qc /\ qpsd qc /\ qcon_psd qc /\
  (forall y, qfeasible qc y -> -1 <= qcost qc y) /\ (exists y, qfeasible qc y /\ qcost qc y = -1) /\
  (forall B, exists y, qfeasible (with_mask qc (mask_lower qc)) y /\ qcost qc y < B).
Proof.
  exists xsc.
  assert (Hwf : qc_wf xsc). { intros i Hi. split; intros j Hj; [cbn in Hj; lia|]. right. cbn. lia. }
  assert (Ec : forall y, qcost xsc y = y 0%nat 0%nat + y 0%nat 1%nat + 10 * y 0%nat 2%nat). { intros y. unfold qcost. cbn. unfold qHess, H_co. cbn. lra. }
  split; [exact Hwf|]. split; [intros i c _ _; right; reflexivity|]. split; [intros i v _; cbn; unfold qHess, H_co; cbn; lra|].
  split; [intros i j v _ _ _; cbn; unfold Hsym; cbn; pose proof (Rle_0_sqr (v 0%nat)) as H; unfold Rsqr in H; lra|].
  split; [|split].
  - intros y [_ F]. rewrite Ec.
    pose proof (F 0%nat 1%nat ltac:(cbn; lia) ltac:(cbn; lia) ltac:(unfold act, lowerq; cbn; lra)) as A1.
    pose proof (F 0%nat 2%nat ltac:(cbn; lia) ltac:(cbn; lia) ltac:(unfold act, lowerq; cbn; lra)) as A2.
    pose proof (F 0%nat 3%nat ltac:(cbn; lia) ltac:(cbn; lia) ltac:(unfold act, lowerq; cbn; lra)) as A3.
    unfold qcon, two, qfun, slk, Hsym in A1, A2, A3. cbn in A1, A2, A3.
    pose proof (Rle_0_sqr (y 0%nat 0%nat + 1)) as S. unfold Rsqr in S. nra.
  - exists (fun _ k => match k with 0%nat => -1 | _ => 0 end). split; [|rewrite Ec; lra]. split; [intros i j Hi; cbn in Hi; lia|].
    intros i c Hi Hc _. cbn in Hi. assert (i = 0%nat) by lia; subst i. cbn in Hc. destruct c as [|[|[|[|c]]]]; [| | | |lia]; unfold qcon, two, qfun, slk, Hsym; cbn; lra.
  - intros B. exists (fun _ k => match k with 1%nat => B - 1 | _ => 0 end). split; [|rewrite Ec; lra]. split; [intros i j Hi; cbn in Hi; lia|].
    intros i c Hi Hc Ha. cbn in Hi. assert (i = 0%nat) by lia; subst i. cbn in Hc. apply act_masked in Ha; [|cbn; lia]. destruct Ha as [Ha Hs].
    destruct c as [|[|[|[|c]]]]; [| | | |lia].
    + unfold act, lowerq in Ha. cbn in Ha. lra.
    + unfold qcon, two, qfun, slk, Hsym. cbn. lra.
    + exfalso. apply Hs. exists 0%nat. split; [cbn; lia|]. split; [cbn; lia|reflexivity].
    + unfold qcon, two, qfun, slk, Hsym. cbn. lra.
Qed.

(** C60: the gradient of the cost is not part of the linearisation written: stage 0 gets that of the last stage, the other stages keep what the workspace
    held.  (The delta form does not read it; the branch without constraints and the absolute form do.) *)
Theorem C60_gradient_refuted :
  (forall (qc : oqcqp R) sol s i, (0 < i)%nat -> q_rqz (a_qp (approx_qp qc sol s)) i = q_rqz (a_qp s) i) /\
  (forall (qc : oqcqp R) sol s k, (k < cnv qc (dN (c_dim qc)))%nat -> q_rqz (a_qp (approx_qp qc sol s)) 0%nat k = c_rqz qc (dN (c_dim qc)) k).
Proof.
  assert (E : forall (qc : oqcqp R) sol s, q_rqz (a_qp (approx_qp qc sol s)) = q_rqz (a_qp (loop (dN (c_dim qc) + 1) (approx_stage qc sol) s))).
  { intros qc sol s. unfold approx_qp. destruct (approx_dyn_R qc (loop (dN (c_dim qc) + 1) (approx_stage qc sol) s) (dN (c_dim qc))) as (_ & _ & _ & _ & _ & _ & _ & _ & _ & _ & _ & _ & H). exact H. }
  assert (S : forall (qc : oqcqp R) sol i s, q_rqz (a_qp (approx_stage qc sol i s)) = upd (q_rqz (a_qp s)) 0%nat (VECCP (cnv qc i) (c_rqz qc i) 0 (q_rqz (a_qp s) 0%nat) 0)).
  { intros qc sol i s. unfold approx_stage. cbv zeta. cbn [a_qp q_rqz]. destruct (update_stage_R qc sol i s) as (_ & _ & (_ & _ & _ & C4 & _) & _). cbv zeta in C4. rewrite C4. reflexivity. }
  split.
  - intros qc sol s i Hi. rewrite E. induction (dN (c_dim qc) + 1)%nat as [|n IH]; [reflexivity|]. rewrite loop_S, S, upd_other by lia. exact IH.
  - intros qc sol s k Hk. rewrite E. rewrite Nat.add_1_r, loop_S, S, upd_same. unfold VECCP. vn. reflexivity.
Qed.
(** C60, the consequence: minimising u0^2 + u0 + u1^2 + 5 u1 without any constraint, the solver (APPROX_QP, then the unconstrained solve, with or without
    square root) returns, from a workspace of zeros, a point whose second stage has stationarity residual exactly 5. *)
Section Unc.
Let f (x : Z) : spec_float := sf_of_Z x.
Let v0 : nat -> spec_float := fun _ => f 0.
Definition xu_D : dims := mkdims 1 (fun _ => 0%nat) (fun _ => 1%nat) (fun _ => 0%nat) (fun _ => 0%nat) (fun _ => 0%nat).
Definition xuc : oqcqp spec_float := mkqc xu_D (fun _ => 0%nat) (fun _ _ _ => f 0) (fun _ _ _ => f 2) (fun _ _ _ => f 0) (fun _ _ _ _ => f 0) (fun _ _ => f 0)
  (fun i _ => match i with 0%nat => f 1 | _ => f 5 end) (fun _ _ => f 0) (fun _ _ => f 1) (fun _ _ => f 0) (fun _ _ => f 0) (fun _ _ => 0%nat) (fun _ _ => (-1)%Z).
Definition xu_s0 : aws spec_float := mkaws (mkqp (qp_dims xu_D (fun _ => 0%nat)) (fun _ _ => v0) (fun _ _ => v0) (fun _ _ => v0) (fun _ => v0) (fun _ => v0) (fun _ => v0) (fun _ => v0) (fun _ => v0) (fun _ => v0)
  (fun _ _ => 0%nat) (fun _ _ => 0%Z)) (fun _ => v0) (fun _ => v0) v0 v0.
Definition xu_sol0 : osol spec_float := mksol (fun _ => v0) (fun _ => v0) (fun _ => v0) (fun _ => v0).
Definition xu_qp : oqp spec_float := a_qp (approx_qp xuc xu_sol0 xu_s0).
Definition xu_w : kws spec_float := mkkws (q_BAbt xu_qp) (fun _ _ => v0) (fun _ => v0) (fun _ _ => v0) (fun _ => v0) (fun _ => v0) (fun _ => v0) (fun _ => v0) (fun _ => v0) v0 (fun _ => v0) (fun _ => v0) (fun _ => v0) (fun _ => v0).
Definition xu_ret (sq : bool) : osol spec_float := let w := snd (unc_solve sq (lit 1 1000000000000000) true xu_qp (q_RSQ xu_qp, xu_w)) in mksol (k_ux w) (k_pi w) (fun _ => v0) (fun _ => v0).
Definition xu_res (sq : bool) : ores spec_float := fst (qcres_compute None None xuc (xu_ret sq) (mkres (fun _ => v0) (fun _ => v0) (fun _ => v0) (fun _ => v0) (f 0) (f 0) (f 0) (f 0)) (mkqrws v0 v0 v0 v0 v0)).
End Unc.
Theorem C60_unconstrained_gradient_refuted (sq : bool) : feqb (r_g (xu_res sq) 1%nat 0%nat) (sf_of_Z 5) = true.
Proof. destruct sq; vm_compute; reflexivity. Qed.

(** C60, the absolute form: UPDATE_QP_ABS_STEP copies only nu+ns columns of the Hessian, so lam*Hq accumulates in the columns of the states at every call. *)
Definition xa_D : dims := mkdims 0 (fun _ => 1%nat) (fun _ => 0%nat) (fun _ => 0%nat) (fun _ => 0%nat) (fun _ => 0%nat).
Definition xac : oqcqp R := mkqc xa_D (fun _ => 1%nat) (fun _ _ _ => 0) (fun _ _ _ => 1) (fun _ _ _ => 0) (fun _ _ _ _ => 1) (fun _ _ => 0) (fun _ _ => 1)
  (fun _ c => match c with 1%nat => - / 2 | _ => 0 end) (fun _ _ => 1) (fun _ _ => 0) (fun _ _ => 0) (fun _ _ => 0%nat) (fun _ _ => (-1)%Z).
Theorem C60_abs_step_accumulates_refuted : exists (qc : oqcqp R) (sol : osol R), forall s,
  let h s := q_RSQ (a_qp s) 0%nat 0%nat 0%nat in
  h (approx_qp qc sol s) = 1 + 1 /\ h (update_qp_abs qc sol (approx_qp qc sol s)) = 1 + 2 /\ h (update_qp_abs qc sol (update_qp_abs qc sol (approx_qp qc sol s))) = 1 + 3.
Proof.
  exists xac, (mksol (fun _ _ => 0) (fun _ _ => 0) (fun _ c => match c with 1%nat => 1 | _ => 0 end) (fun _ _ => 0)). intros s.
  cbn. split; [|split]; rsimp; lra.
Qed.
(** C60, the absolute form: the gradient is not corrected by -lam*Hq*z, so the solution of the QCQP (min -u, u^2/2 <= 1/2: u = 1, multiplier 1) is not a KKT
    point of the QP linearised at it, even if the gradient of the QP is set to that of the QCQP. *)
Definition xbc : oqcqp R := mkqc xq_D (fun _ => 1%nat) (fun _ _ _ => 0) (fun _ _ _ => 0) (fun _ _ _ => 0) (fun _ _ _ _ => 1) (fun _ _ => 0) (fun _ _ => -1)
  (fun _ c => match c with 1%nat => - / 2 | _ => 0 end) (fun _ c => match c with 0%nat => 0 | _ => 1 end) (fun _ _ => 0) (fun _ _ => 0) (fun _ _ => 0%nat) (fun _ _ => (-1)%Z).
Definition xbs : osol R := mksol (fun _ _ => 1) (fun _ _ => 0) (fun _ c => match c with 1%nat => 1 | _ => 0 end) (fun _ _ => 0).
Theorem C60_abs_fixed_point_refuted :
  (forall i k, (i <= dN (c_dim xbc))%nat -> (k < cnv xbc i)%nat -> qkkt_g xbc (s_ux xbs) (s_pi xbs) (s_lam xbs) i k = 0) /\
  forall s, q_dim (a_qp s) = qp_dims xq_D (fun _ => 1%nat) ->
  let qa := a_qp (update_qp_abs xbc xbs (approx_qp xbc xbs s)) in
  (forall k, (k < 1)%nat -> q_rqz qa 0%nat k = c_rqz xbc 0%nat k) /\ kkt_g qa (s_ux xbs) (s_pi xbs) (s_lam xbs) 0%nat 0%nat = 1.
Proof.
  split.
  - intros i k Hi Hk. cbn in Hi. assert (i = 0%nat) by lia; subst i. cbn in Hk. assert (k = 0%nat) by lia; subst k. unfold qkkt_g, qHess, H_co, dqcon, dtwo, qgrad, act, lowerq, Hsym. cbn. lra.
  - intros s Hd. cbv zeta. split.
    + intros k Hk. assert (k = 0%nat) by lia; subst k. cbn. reflexivity.
    + unfold kkt_g, Hess, G, nux. assert (Ed : q_dim (a_qp (update_qp_abs xbc xbs (approx_qp xbc xbs s))) = qp_dims xq_D (fun _ => 1%nat)) by (cbn; exact Hd). rewrite Ed.
      unfold H_co, G_co, row_co, soft_co. cbn. rsimp. rewrite ?R_lit11, ?R_lit01. lra.
Qed.

(** A concrete case for the hypotheses of C60_newton/C60_damped_step: the QCQP and point of C60_abs_fixed_point_refuted at u = 2, and its Newton step. *)
Example C60_hypotheses_met (s : aws R) : q_dim (a_qp s) = qp_dims (c_dim xbc) (c_nq xbc) ->
  let sol := mksol (fun _ _ => 2) (fun _ _ => 0) (fun _ c => match c with 1%nat => 1 | _ => 0 end) (fun _ _ => 1) in
  let qp := a_qp (approx_qp xbc sol s) in
  qc_wf xbc /\ lin_of xbc (s_ux sol) (s_lam sol) qp /\ q_prepared xbc (s_lam sol) /\ qmask01 xbc /\ qkkt_g xbc (s_ux sol) (s_pi sol) (s_lam sol) 0%nat 0%nat = 1 /\ mask_harmless xbc.
Proof.
  intros Hd. cbv zeta. split; [intros i Hi; split; intros j Hj; [cbn in Hj; lia|left; reflexivity]|]. split; [apply C60_approx; exact Hd|].
  split; [intros i Hi j Hj; cbn in Hj; assert (j = 0%nat) by lia; subst j; cbn; repeat split; lra|]. split; [intros i [|c] _ _; [left|right]; reflexivity|].
  split; [unfold qkkt_g, qHess, H_co, dqcon, dtwo, qgrad, act, lowerq, Hsym; cbn; lra|]. intros i s0 Hi (j & _ & H & _). exfalso. apply H. reflexivity.
Qed.
Print Assumptions C60_approx.
Print Assumptions C60_update.
Print Assumptions C60_cache.
Print Assumptions C60_newton.
Print Assumptions C60_damped_step.
Print Assumptions C60_masks_harmless.
Print Assumptions C60_soft_lower_slack_refuted.
Print Assumptions C60_gradient_refuted.
Print Assumptions C60_unconstrained_gradient_refuted.
Print Assumptions C60_abs_step_accumulates_refuted.
Print Assumptions C60_abs_fixed_point_refuted.
