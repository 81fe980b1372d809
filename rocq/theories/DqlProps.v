(** DqlProps.v -- C74: the QP approximation and the masks of the dense QCQP solver.  Specification: DqlSpec.v, DqcSpec.v.  Exact arithmetic. *)
From Coq Require Import ZArith Bool Arith Lia Reals Lra.
From Verif Require Import Base ArithF RSum Blas Blas2 OcpModel ResSpec ResProofs ResProofs2 DenModel DenSpec DenProofs
  QcqpModel QcqpSpec QcqpProofs QcqpProofs2 QcqpProofs3 QcqpNewton DqcModel DqcSpec DqcProofs DqcProps DqlModel DqlSpec DqlProofs.
Local Open Scope R_scope.

(** C74: APPROX_QP writes the linearisation of the QCQP at the point, gradient of the cost included, whatever the workspace held; UPDATE_QP moves the
    linearisation to another point. *)
Theorem C74_approx (q : dqcqp R) (sol : dsol R) (s : daws R) :
  d_nv (da_qp s) = dq_nv q -> d_ne (da_qp s) = dq_ne q -> d_nb (da_qp s) = dq_nb q -> d_ng (da_qp s) = (dq_ng q + dq_nq q)%nat -> d_ns (da_qp s) = dq_ns q ->
  dlin_of q (ds_v sol) (ds_lam sol) (da_qp (dqc_approx_qp q sol s)).
Proof. intros. apply dapprox_R; assumption. Qed.
Theorem C74_update (q : dqcqp R) (sol : dsol R) (s : daws R) : dlin_const q (da_qp s) -> dlin_of q (ds_v sol) (ds_lam sol) (da_qp (dqc_update_qp q sol s)).
Proof. intros H. destruct (dupdate_R q sol s) as (L & _ & S). split; [exact (dsame_lin q _ _ S H)|exact L]. Qed.
(** C74: both leave in the cache the values and adjoint of the quadratic constraints at the point, so that the residual routine may use them (C73). *)
Theorem C74_cache (q : dqcqp R) (sol : dsol R) (s : daws R) : dq_prepared q (ds_lam sol) ->
  dq_cache_ok q (Some (da_fun (dqc_update_qp q sol s), da_adj (dqc_update_qp q sol s))) (ds_v sol) (ds_lam sol) /\
  dq_cache_ok q (Some (da_fun (dqc_approx_qp q sol s), da_adj (dqc_approx_qp q sol s))) (ds_v sol) (ds_lam sol).
Proof.
  intros Hp. destruct (dupdate_R q sol s) as (_ & K & _). cbv zeta in K. split; [exact (dcache_prep q sol _ _ Hp K)|].
  unfold dqc_approx_qp. cbv zeta. cbn [da_fun da_adj]. exact (dcache_prep q sol _ _ Hp K).
Qed.

(** C74: with the residuals of the QCQP as right-hand side the QP is the exact Newton linearisation: for every step, the residuals of the QP at the
    step are those of the QCQP at the moved point, minus the terms of second order in the step. *)
Theorem C74_newton (q : dqcqp R) (qp : dqp R) (z pi lam t rm dz dpi dlam dt : nat -> R) :
  dqc_wf q -> dlin_of q z lam qp -> dq_prepared q lam -> dq_mask01 q -> (forall c, (c < dqnc q)%nat -> rm c = dq_kkt_m q lam t c) ->
  let st := dwith_rhs qp (dq_kkt_g q z pi lam) (dq_eq q z) (dq_kkt_d q z t) rm in
  let z' := fun k => z k + dz k in let pi' := fun k => pi k + dpi k in let lam' := fun k => lam k + dlam k in let t' := fun k => t k + dt k in
  let Hd j k := rsum (dq_nv q) (fun l => dq_Hsym q j k l * dz l) in
  (forall k, (k < dqnv q)%nat -> den_kkt_g st dz dpi dlam k = dq_kkt_g q z' pi' lam' k
     - (if (k <? dq_nv q)%nat then rsum (dq_nq q) (fun j => dq_mask q (duq q j) * dlam (duq q j) * Hd j k) else 0)) /\
  (forall j, (j < dq_ne q)%nat -> den_eq st dz j = dq_eq q z' j) /\
  (forall c, (c < dqnc q)%nat -> den_kkt_d st dz dt c = dq_kkt_d q z' t' c
     - dq_mask q c * (if ((duq q 0 <=? c) && (c <? 2 * dqn2 q))%nat then 1 / 2 * rsum (dq_nv q) (fun k => dz k * Hd (c - duq q 0)%nat k) else 0)) /\
  (forall c, (c < dqnc q)%nat -> d_mask st c * (d_m st c + lam c * dt c + dlam c * t c) = dq_kkt_m q lam' t' c - dq_mask q c * (dlam c * dt c)).
Proof.
  intros Hwf Hlin Hp Hm Hr. cbv zeta. split; [|split; [|split]].
  - intros k Hk. exact (dnewton_g q qp z pi lam t Hlin Hp rm dz dpi dlam k Hk).
  - intros j Hj. exact (dnewton_b q qp z pi lam t Hlin rm dz j Hj).
  - intros c Hc. exact (dnewton_d q qp z pi lam t Hwf Hlin Hp rm dz dt c Hc (Hm c Hc)).
  - intros c Hc. exact (dnewton_m q qp z pi lam t Hlin Hp rm dlam dt c Hc (Hm c Hc) (Hr c Hc)).
Qed.

(** C74: the damped step.  If the step solves the linearised system exactly (complementarity target tau), then after a step of length a every residual of
    the QCQP is (1-a) times what it was plus a term of second order in a; the equality residual exactly (1-a) times. *)
Theorem C74_damped_step (q : dqcqp R) (qp : dqp R) (z pi lam t tau dz dpi dlam dt : nat -> R) (a : R) :
  dqc_wf q -> dlin_of q z lam qp -> dq_prepared q lam -> dq_mask01 q ->
  let st := dwith_rhs qp (dq_kkt_g q z pi lam) (dq_eq q z) (dq_kkt_d q z t) (fun c => dq_kkt_m q lam t c - tau c) in
  (forall k, (k < dqnv q)%nat -> den_kkt_g st dz dpi dlam k = 0) -> (forall j, (j < dq_ne q)%nat -> den_eq st dz j = 0) ->
  (forall c, (c < dqnc q)%nat -> den_kkt_d st dz dt c = 0) ->
  (forall c, (c < dqnc q)%nat -> d_mask st c * (d_m st c + lam c * dt c + dlam c * t c) = 0) ->
  let z' := fun k => z k + a * dz k in let pi' := fun k => pi k + a * dpi k in let lam' := fun k => lam k + a * dlam k in let t' := fun k => t k + a * dt k in
  let Hd j k := rsum (dq_nv q) (fun l => dq_Hsym q j k l * dz l) in
  (forall k, (k < dqnv q)%nat -> dq_kkt_g q z' pi' lam' k = (1 - a) * dq_kkt_g q z pi lam k
     + a * a * (if (k <? dq_nv q)%nat then rsum (dq_nq q) (fun j => dq_mask q (duq q j) * dlam (duq q j) * Hd j k) else 0)) /\
  (forall j, (j < dq_ne q)%nat -> dq_eq q z' j = (1 - a) * dq_eq q z j) /\
  (forall c, (c < dqnc q)%nat -> dq_kkt_d q z' t' c = (1 - a) * dq_kkt_d q z t c
     + a * a * (dq_mask q c * (if ((duq q 0 <=? c) && (c <? 2 * dqn2 q))%nat then 1 / 2 * rsum (dq_nv q) (fun k => dz k * Hd (c - duq q 0)%nat k) else 0))) /\
  (forall c, (c < dqnc q)%nat -> dq_kkt_m q lam' t' c = (1 - a) * dq_kkt_m q lam t c + a * (dq_mask q c * tau c) + a * a * (dq_mask q c * (dlam c * dt c))).
Proof.
  intros Hwf Hlin Hp Hm st Hg Hb Hd Hcm. cbv zeta. set (rm := fun c => dq_kkt_m q lam t c - tau c) in *.
  assert (Emk : forall c, (c < dqnc q)%nat -> d_mask st c = dq_mask q c). { intros c Hc. destruct Hlin as [(_ & _ & _ & _ & _ & H & _) _]. exact (H c Hc). }
  split; [|split; [|split]].
  - intros k Hk. pose proof (dnewton_g q qp z pi lam t Hlin Hp rm (fun k => a * dz k) (fun k => a * dpi k) (fun k => a * dlam k) k Hk) as E. fold st in E.
    rewrite den_kkt_g_scal in E. rewrite Hg in E by exact Hk. change (d_gz st k) with (dq_kkt_g q z pi lam k) in E.
    assert (E2 : rsum (dq_nq q) (fun j => dq_mask q (duq q j) * (a * dlam (duq q j)) * rsum (dq_nv q) (fun l => dq_Hsym q j k l * (a * dz l))) =
      a * a * rsum (dq_nq q) (fun j => dq_mask q (duq q j) * dlam (duq q j) * rsum (dq_nv q) (fun l => dq_Hsym q j k l * dz l))).
    { rewrite <- rsum_scal. apply rsum_ext. intros j _. rewrite (rsum_ext _ (fun l => dq_Hsym q j k l * (a * dz l)) (fun l => a * (dq_Hsym q j k l * dz l))) by (intros; lra). rewrite rsum_scal. lra. }
    rewrite E2 in E. destruct (k <? dq_nv q)%nat; lra.
  - intros j Hj. pose proof (dnewton_b q qp z pi lam t Hlin rm (fun k => a * dz k) j Hj) as E. fold st in E. rewrite <- E. specialize (Hb j Hj). unfold den_eq in *.
    rewrite (rsum_ext _ (fun k => d_A st j k * (a * dz k)) (fun k => a * (d_A st j k * dz k))) by (intros; lra). rewrite rsum_scal.
    change (d_b st j) with (dq_eq q z j) in *. set (S := rsum _ _) in *. replace S with (dq_eq q z j) by lra. lra.
  - intros c Hc. pose proof (dnewton_d q qp z pi lam t Hwf Hlin Hp rm (fun k => a * dz k) (fun c => a * dt c) c Hc (Hm c Hc)) as E. fold st in E.
    specialize (Hd c Hc). unfold den_kkt_d in E, Hd. rewrite den_con_scal in E. change (d_d st c) with (dq_kkt_d q z t c) in *. rewrite Emk in * by exact Hc.
    assert (E2 : forall j, rsum (dq_nv q) (fun k => a * dz k * rsum (dq_nv q) (fun l => dq_Hsym q j k l * (a * dz l))) = a * a * rsum (dq_nv q) (fun k => dz k * rsum (dq_nv q) (fun l => dq_Hsym q j k l * dz l))).
    { intros j. rewrite <- rsum_scal. apply rsum_ext. intros k _. rewrite (rsum_ext _ (fun l => dq_Hsym q j k l * (a * dz l)) (fun l => a * (dq_Hsym q j k l * dz l))) by (intros; lra). rewrite rsum_scal. lra. }
    rewrite E2 in E. assert (Eq : dq_mask q c * dq_kkt_d q z t c = dq_kkt_d q z t c) by (unfold dq_kkt_d; destruct (Hm c Hc) as [-> | ->]; lra).
    set (C := den_con st dz c) in *.
    destruct (_ && _)%bool; [match goal with |- context [rsum (dq_nv q) ?g] => set (X := rsum (dq_nv q) g) in * end|];
      (destruct (Hm c Hc) as [Em|Em]; rewrite Em in *;
       [assert (Q0 : dq_kkt_d q z t c = 0) by lra; rewrite Q0 in *; lra
       |assert (Q1 : C = dq_kkt_d q z t c + dt c) by lra; rewrite Q1 in E; lra]).
  - intros c Hc. specialize (Hcm c Hc). rewrite Emk in Hcm by exact Hc. change (d_m st c) with (dq_kkt_m q lam t c - tau c) in Hcm.
    assert (Ea : dq_act q c = dq_mask q c) by exact (act_mask (one_qc q) (fun _ => lam) (oneq_prep q lam Hp) 0 c (Nat.le_refl 0)).
    unfold dq_kkt_m in *. rewrite Ea in *. destruct (Hm c Hc) as [E|E]; rewrite E in *; [lra|].
    assert (Et : tau c = lam c * t c - dq_m q c + lam c * dt c + dlam c * t c) by lra. rewrite Et. lra.
Qed.

(** C74: what IPM_SOLVE does to the masks of the given QCQP object: the lower sides of the quadratic constraints, and the nonnegativity of the lower
    slacks that soften them, are switched off; nothing else changes. *)
Theorem C74_masks (q : dqcqp R) c :
  (dq_lower q c = true \/ dlowslack q c -> dqc_mask_lower q c = 0) /\ (dq_lower q c = false -> ~ dlowslack q c -> dqc_mask_lower q c = dq_mask q c).
Proof. exact (dmask_lower_R q c). Qed.
(** C74: this does not change the problem if those slacks have no linear cost, are not used by other lower sides, and have bounds <= 0. *)
Theorem C74_masks_harmless (q : dqcqp R) (y : nat -> R) : dqc_wf q -> dmask_harmless q ->
  (dq_feasible q y -> dq_feasible (dwith_mask q (dqc_mask_lower q)) y) /\
  (dq_feasible (dwith_mask q (dqc_mask_lower q)) y -> exists y', dq_feasible q y' /\ dq_cost q y' <= dq_cost q y /\ forall k, (k < dq_nv q)%nat -> y' k = y k).
Proof. apply dmask_harmless_R. Qed.
(** C74, otherwise it does:  min u + sl + 10 su  s.t.  u^2/2 - su <= 1/2, sl, su >= 0  has optimal value -1 and becomes unbounded. *)
Definition xds_q : dqcqp R := mkdqc 1 0 0 0 1 1 (fun _ _ => 0) (fun _ _ => 0) (fun _ _ => 0) (fun _ _ _ => 1) (fun k => match k with 2%nat => 10 | _ => 1 end) (fun _ => 0)
  (fun c => match c with 1%nat => - / 2 | _ => 0 end) (fun _ => 1) (fun _ => 0) (fun _ => 0) (fun _ => 0%nat) (fun _ => 0%Z).
Theorem C74_soft_lower_slack_refuted : exists q : dqcqp R, dqc_wf q /\ dq_mask01 q /\ dq_psd q /\ dq_con_psd q /\
  (forall y, dq_feasible q y -> -1 <= dq_cost q y) /\ (exists y, dq_feasible q y /\ dq_cost q y = -1) /\
  (forall B, exists y, dq_feasible (dwith_mask q (dqc_mask_lower q)) y /\ dq_cost q y < B).
Proof.
  exists xds_q.
  assert (Hwf : dqc_wf xds_q). { split; intros j Hj; [cbn in Hj; lia|]. right. cbn. lia. }
  assert (Ec : forall y, dq_cost xds_q y = y 0%nat + y 1%nat + 10 * y 2%nat). { intros y. unfold dq_cost. cbn. unfold dq_Hess, H_co. cbn. lra. }
  split; [exact Hwf|]. split; [intros c _; right; reflexivity|]. split; [intros v; cbn; unfold dq_Hess, H_co; cbn; lra|].
  split; [intros j v _ _; cbn; unfold dq_Hsym; cbn; pose proof (Rle_0_sqr (v 0%nat)) as H; unfold Rsqr in H; lra|].
  split; [|split].
  - intros y [_ F]. rewrite Ec.
    pose proof (F 1%nat ltac:(cbn; lia) ltac:(unfold dq_act, dq_lower; cbn; lra)) as A1.
    pose proof (F 2%nat ltac:(cbn; lia) ltac:(unfold dq_act, dq_lower; cbn; lra)) as A2.
    pose proof (F 3%nat ltac:(cbn; lia) ltac:(unfold dq_act, dq_lower; cbn; lra)) as A3.
    unfold dq_con, dq_two, dq_fun, dq_slk, dq_Hsym in A1, A2, A3. cbn in A1, A2, A3.
    pose proof (Rle_0_sqr (y 0%nat + 1)) as S. unfold Rsqr in S. nra.
  - exists (fun k => match k with 0%nat => -1 | _ => 0 end). split; [|rewrite Ec; lra]. split; [intros j Hj; cbn in Hj; lia|].
    intros c Hc _. cbn in Hc. destruct c as [|[|[|[|c]]]]; [| | | |lia]; unfold dq_con, dq_two, dq_fun, dq_slk, dq_Hsym; cbn; lra.
  - intros B. exists (fun k => match k with 1%nat => B - 1 | _ => 0 end). split; [|rewrite Ec; lra]. split; [intros j Hj; cbn in Hj; lia|].
    intros c Hc Ha. cbn in Hc. destruct c as [|[|[|[|c]]]]; [| | | |lia].
    + unfold dq_act, dq_lower in Ha. cbn in Ha. lra.
    + unfold dq_con, dq_two, dq_fun, dq_slk, dq_Hsym. cbn. lra.
    + exfalso. apply Ha. unfold dq_act, dq_lower. cbn. rewrite ?R_lit01. reflexivity.
    + unfold dq_con, dq_two, dq_fun, dq_slk, dq_Hsym. cbn. lra.
Qed.

(** C74, the absolute form: constraint rows and bounds of the QP are those of the tangents: for every y, the linearised value minus the bound is the tangent
    of the quadratic function at y minus its bound. *)
Theorem C74_abs_tangent (q : dqcqp R) (sol : dsol R) (s : daws R) : dlin_const q (da_qp s) ->
  let qp := da_qp (dqc_update_qp_abs q sol s) in let z := ds_v sol in
  dlin_const q qp /\ dlin_var q (dtan0 q z) z (ds_lam sol) qp /\
  forall j (y : nat -> R), (j < dq_nq q)%nat ->
    let tangent := dq_fun q z j + rsum (dq_nv q) (fun k => dq_grad q z j k * (y k - z k)) in
    rsum (dq_nv q) (fun k => d_Ct qp k (dq_ng q + j)%nat * y k) - d_d qp (dlq q j) = tangent - dq_d q (dlq q j) /\
    - rsum (dq_nv q) (fun k => d_Ct qp k (dq_ng q + j)%nat * y k) - d_d qp (duq q j) = - tangent - dq_d q (duq q j).
Proof.
  intros H. cbv zeta. destruct (dabs_R q sol s) as (L & _ & S). cbv zeta in L, S. split; [exact (dsame_lin q _ _ S H)|]. split; [exact L|].
  intros j y Hj. destruct L as (_ & L2 & L3). set (qp := da_qp (dqc_update_qp_abs q sol s)) in *.
  rewrite (rsum_ext _ (fun k => d_Ct qp k (dq_ng q + j)%nat * y k) (fun k => dq_grad q (ds_v sol) j k * y k)) by (intros k Hk; rewrite L2 by assumption; reflexivity).
  rewrite (rsum_ext _ (fun k => dq_grad q (ds_v sol) j k * (y k - ds_v sol k)) (fun k => dq_grad q (ds_v sol) j k * y k - dq_grad q (ds_v sol) j k * ds_v sol k)) by (intros; lra).
  rewrite rsum_sub. destruct (L3 (dlq q j)) as [-> _]; [unfold dlq, dqnc, dqn2; lia|]. destruct (L3 (duq q j)) as [-> _]; [unfold duq, dqnc, dqn2; lia|].
  assert (E1 : dq_lower q (dlq q j) = true). { unfold dq_lower, dlq, dqn2. destruct (Nat.leb_spec (dq_nb q + dq_ng q) (dq_nb q + dq_ng q + j)), (Nat.ltb_spec (dq_nb q + dq_ng q + j) (dq_nb q + dq_ng q + dq_nq q)); try lia; reflexivity. }
  assert (E2 : dq_lower q (duq q j) = false). { unfold dq_lower, duq. destruct (Nat.ltb_spec (dqn2 q + (dq_nb q + dq_ng q) + j) (dqn2 q)); [lia|]. apply andb_false_r. }
  unfold dlin_d. rewrite E1, E2.
  assert (E3 : ((duq q 0 <=? duq q j) && (duq q j <? 2 * dqn2 q))%nat = true).
  { unfold duq, dqn2. destruct (Nat.leb_spec (dq_nb q + dq_ng q + dq_nq q + (dq_nb q + dq_ng q) + 0) (dq_nb q + dq_ng q + dq_nq q + (dq_nb q + dq_ng q) + j)), (Nat.ltb_spec (dq_nb q + dq_ng q + dq_nq q + (dq_nb q + dq_ng q) + j) (2 * (dq_nb q + dq_ng q + dq_nq q))); try lia; reflexivity. }
  rewrite E3. replace (dlq q j - dlq q 0)%nat with j by (unfold dlq; lia). replace (duq q j - duq q 0)%nat with j by (unfold duq; lia). unfold dtan0. lra.
Qed.
(** C74, the absolute form, but: the gradient is not corrected by -lam*Hq*z, so the solution of a QCQP (min -v, v^2/2 <= 1/2: v = 1, multiplier 1) is not a KKT
    point of the QP linearised at it; *)
Definition xdb : dqcqp R := mkdqc 1 0 0 0 1 0 (fun _ _ => 0) (fun _ _ => 0) (fun _ _ => 0) (fun _ _ _ => 1) (fun _ => -1) (fun _ => 0)
  (fun c => match c with 1%nat => - / 2 | _ => 0 end) (fun c => match c with 0%nat => 0 | _ => 1 end) (fun _ => 0) (fun _ => 0) (fun _ => 0%nat) (fun _ => (-1)%Z).
Definition xdbs : dsol R := mkdsol (fun _ => 1) (fun _ => 0) (fun c => match c with 1%nat => 1 | _ => 0 end) (fun _ => 0).
Lemma xdb_kkt : dq_kkt_g xdb (ds_v xdbs) (ds_pi xdbs) (ds_lam xdbs) 0%nat = 0 /\ (forall c, (c < dqnc xdb)%nat -> dq_kkt_d xdb (ds_v xdbs) (ds_t xdbs) c = 0 /\ dq_kkt_m xdb (ds_lam xdbs) (ds_t xdbs) c = 0).
Proof.
  split; [unfold dq_kkt_g, dq_Hess, H_co, dq_dcon, dq_dtwo, dq_grad, dq_act, dq_lower, dq_Hsym; cbn; lra|].
  intros c Hc. cbn in Hc. destruct c as [|[|c]]; [| |lia]; unfold dq_kkt_d, dq_kkt_m, dq_con, dq_two, dq_fun, dq_slk, dq_act, dq_lower, dq_Hsym; cbn; lra.
Qed.
Theorem C74_abs_fixed_point_refuted : exists (q : dqcqp R) (sol : dsol R),
  (forall k, (k < dqnv q)%nat -> dq_kkt_g q (ds_v sol) (ds_pi sol) (ds_lam sol) k = 0) /\
  (forall c, (c < dqnc q)%nat -> dq_kkt_d q (ds_v sol) (ds_t sol) c = 0 /\ dq_kkt_m q (ds_lam sol) (ds_t sol) c = 0) /\
  forall s, dlin_const q (da_qp s) -> exists k, (k < dqnv q)%nat /\ den_kkt_g (da_qp (dqc_update_qp_abs q sol s)) (ds_v sol) (ds_pi sol) (ds_lam sol) k = 1.
Proof.
  exists xdb, xdbs. destruct xdb_kkt as [K1 K2]. split; [intros k Hk; cbn in Hk; assert (k = 0%nat) by lia; subst k; exact K1|]. split; [exact K2|].
  intros s Hc. exists 0%nat. split; [cbn; lia|]. destruct (C74_abs_tangent xdb xdbs s Hc) as (((L1 & L2 & L3 & L4 & L5) & L6 & L7 & L8 & L9 & L10 & L11 & L12 & L13) & (V1 & V2 & _) & _).
  cbv zeta in *. set (p := da_qp (dqc_update_qp_abs xdb xdbs s)) in *. clearbody p. unfold den_kkt_g, den_Hess, den_G, dnv, d_nct. rewrite L1, L2, L3, L4, L5. cbn [xdb dq_nv dq_ne dq_nb dq_ng dq_nq dq_ns].
  pose proof (V1 0%nat 0%nat ltac:(lia) ltac:(cbn; lia)) as A1. pose proof (V2 0%nat 0%nat ltac:(cbn; lia) ltac:(cbn; lia)) as A2.
  pose proof (L8 0%nat ltac:(cbn; lia)) as A3. pose proof (L10 0%nat ltac:(cbn; lia)) as A4. pose proof (L10 1%nat ltac:(cbn; lia)) as A5.
  unfold dq_grad, dq_Hsym in A2. unfold duq, dlq in A1. cbn in A1, A2, A3, A4, A5. unfold H_co, G_co, row_co, soft_co. cbn. rewrite A1, A2, A3, A4, A5. lra.
Qed.
(** and what it leaves in the cache is not the value of the constraint: residuals computed from it at the solution of that QCQP are not zero, although every
    KKT residual is (this is the branch abs_form with comp_res_exit). *)
Theorem C74_abs_cache_refuted : exists (q : dqcqp R) (sol : dsol R), dqc_wf q /\ dq_prepared q (ds_lam sol) /\
  (forall c, (c < dqnc q)%nat -> dq_kkt_d q (ds_v sol) (ds_t sol) c = 0) /\
  forall s res0 ws0, let s' := dqc_update_qp_abs q sol s in
  exists c, (c < dqnc q)%nat /\ dr_d (fst (dqc_res_compute (Some (da_fun s', da_adj s')) None q sol res0 ws0)) c = - 1.
Proof.
  exists xdb, xdbs. split; [split; intros j Hj; [cbn in Hj; lia|left; reflexivity]|].
  split; [intros j Hj; cbn in Hj; assert (j = 0%nat) by lia; subst j; cbn; repeat split; lra|]. split; [intros c Hc; apply xdb_kkt; exact Hc|].
  intros s res0 ws0. cbv zeta. exists 1%nat. split; [cbn; lia|]. destruct (dabs_R xdb xdbs s) as (_ & (K & _) & _). cbv zeta in K.
  specialize (K 0%nat ltac:(cbn; lia)). rewrite dtan0_h in K. set (fn := da_fun _) in *. set (adj := da_adj _). clearbody fn adj.
  assert (K' : fn 0%nat = - / 2) by (rewrite K; unfold b_h, symL; cbn; lra). clear K.
  unfold dqc_res_compute. destruct (den_mask_count _ _) as [n mc]. unfold qineq_block, quad_block. destruct mc; cbn; rewrite K'; rsimp; rewrite ?R_lit11, ?R_lit01; lra.
Qed.

(** A concrete case for the hypotheses: that QCQP at v = 2. *)
Example C74_hypotheses_met (s : daws R) : d_nv (da_qp s) = 1%nat -> d_ne (da_qp s) = 0%nat -> d_nb (da_qp s) = 0%nat -> d_ng (da_qp s) = 1%nat -> d_ns (da_qp s) = 0%nat ->
  let sol := mkdsol (fun _ => 2) (fun _ => 0) (fun c => match c with 1%nat => 1 | _ => 0 end) (fun _ => 1) in
  dqc_wf xdb /\ dlin_of xdb (ds_v sol) (ds_lam sol) (da_qp (dqc_approx_qp xdb sol s)) /\ dq_prepared xdb (ds_lam sol) /\ dq_mask01 xdb /\
  dq_kkt_g xdb (ds_v sol) (ds_pi sol) (ds_lam sol) 0%nat = 1 /\ dmask_harmless xdb.
Proof.
  intros E1 E2 E3 E4 E5. cbv zeta. split; [split; intros j Hj; [cbn in Hj; lia|left; reflexivity]|]. split; [apply C74_approx; assumption|].
  split; [intros j Hj; cbn in Hj; assert (j = 0%nat) by lia; subst j; cbn; repeat split; lra|]. split; [intros [|c] _; [left|right]; reflexivity|].
  split; [unfold dq_kkt_g, dq_Hess, H_co, dq_dcon, dq_dtwo, dq_grad, dq_act, dq_lower, dq_Hsym; cbn; lra|]. intros s0 (j & _ & H & _). exfalso. apply H. reflexivity.
Qed.
Print Assumptions C74_approx.
Print Assumptions C74_update.
Print Assumptions C74_cache.
Print Assumptions C74_newton.
Print Assumptions C74_damped_step.
Print Assumptions C74_masks.
Print Assumptions C74_masks_harmless.
Print Assumptions C74_soft_lower_slack_refuted.
Print Assumptions C74_abs_tangent.
Print Assumptions C74_abs_fixed_point_refuted.
Print Assumptions C74_abs_cache_refuted.
