(** DqiReal.v -- C75 (part 2): the dense QCQP interior point solve in exact arithmetic: after at least one iteration the returned point is in the positive
    orthant, and SUCCESS certifies a nearly optimal, nearly feasible point of the QCQP, whatever the linear algebra returns; the counterexample without an
    iteration is in IEEE doubles.  DqiEx.v: a solve that meets the hypotheses. *)
From Coq Require Import ZArith Bool Arith List Lia Reals Lra.
From Coq Require Import Floats.SpecFloat.
From Verif Require Import Base ArithF RSum Blas Blas2 QpDataProofs OcpModel ResProofs2 CoreModel CoreProofs ArgModel DenModel DenSpec QcqpModel DqcModel DqcSpec DqcProofs DqcProps DqlModel DqlSpec DqlProofs DqlProps
  DenIpmModel DenIpmProofs DenIpmProofs2 DqiModel DqiProofs DqiProps DqiInit DqiInitProps.
Local Open Scope R_scope.

Section P.
Context {K : Type} (OP : dkops (F := R) K) (A QA : arg R).
Variables (lqf smax : Z) (q : dqcqp R) (sol : vars R) (ws : @dqst R K).
Let o := dqi_solve OP A QA lqf smax q sol ws.
Let qm := dqc_masked q.
Let s0 := dqi_start QA q sol ws.
Let C := dqi_ctx lqf smax q (da_qp (y_a s0)).
Let nc := dqi_nc q.
Notation Mk := (dqc_mask_lower q).
Hypothesis Hm : dq_mask01 q.
(** the embedded QP was created with the dimensions of this QCQP *)
Definition dq_same_dims (qp : dqp R) : Prop := d_nv qp = dq_nv q /\ d_ne qp = dq_ne q /\ d_nb qp = dq_nb q /\ d_ng qp = (dq_ng q + dq_nq q)%nat /\ d_ns qp = dq_ns q.
Hypothesis Hd : dq_same_dims (da_qp (y_a ws)).

Lemma dnc_eq : nc = dqnc q. Proof. unfold nc, dqi_nc, dqnc, dqn2. lia. Qed.
Lemma dlowslack_dec c : {dlowslack q c} + {~ dlowslack q c}.
Proof.
  assert (G : forall n, {exists j, (j < n)%nat /\ dq_idxs_rev q (dlq q j) <> (-1)%Z /\ c = (2 * dqn2 q + Z.to_nat (dq_idxs_rev q (dlq q j)))%nat} +
    {~ exists j, (j < n)%nat /\ dq_idxs_rev q (dlq q j) <> (-1)%Z /\ c = (2 * dqn2 q + Z.to_nat (dq_idxs_rev q (dlq q j)))%nat}).
  { induction n as [|n IH]; [right; intros (j & Hj & _); lia|]. destruct IH as [Y|N]; [left; destruct Y as (j & Hj & Hr); exists j; split; [lia|exact Hr]|].
    destruct (Z.eq_dec (dq_idxs_rev q (dlq q n)) (-1)) as [E|E].
    - right. intros (j & Hj & Hr). destruct (Nat.eq_dec j n) as [->|Hn]; [destruct Hr; contradiction|]. apply N. exists j. split; [lia|exact Hr].
    - destruct (Nat.eq_dec c (2 * dqn2 q + Z.to_nat (dq_idxs_rev q (dlq q n)))) as [Ec|Ec].
      + left. exists n. split; [lia|split; assumption].
      + right. intros (j & Hj & Hr). destruct (Nat.eq_dec j n) as [->|Hn]; [destruct Hr; contradiction|]. apply N. exists j. split; [lia|exact Hr]. }
  exact (G (dq_nq q)).
Qed.
Lemma dml01 c : (c < dqnc q)%nat -> Mk c = 0 \/ Mk c = 1.
Proof.
  intros Hc. destruct (dmask_lower_R q c) as [E1 E2]. destruct (dq_lower q c) eqn:E; [left; apply E1; left; reflexivity|].
  destruct (dlowslack_dec c) as [L|L]; [left; apply E1; right; exact L|]. rewrite E2 by (try exact L; reflexivity). apply Hm; assumption.
Qed.
Definition dqinside (x : vars R) : Prop := forall k, (k < dqnc q)%nat -> 0 < va_t x k /\ (Mk k = 1 -> 0 < va_lam x k) /\ (Mk k = 0 -> va_lam x k = 0).
Lemma dCmask_at k : (k < dqnc q)%nat -> c_mask C k = Mk k.
Proof. intros Hk. rewrite <- dnc_eq in Hk. unfold C, s0. apply dcmask_at. exact Hk. Qed.
(** one clipped update *)
Lemma dqstep_inside (qp : dqp R) x bkp (w : @wk R K) : dq_same_dims qp -> ai A t_lam_min = 2%Z -> 0 < ar A lam_min -> 0 < ar A t_min -> dqinside (fst (take_step A (dqi_setqp C qp) x bkp w)).
Proof.
  intros (E1 & E2 & E3 & E4 & E5) Ht Hl0 Ht0 k Hk. unfold take_step. cbn [dqi_setqp c_qp].
  assert (En : d_nct qp = dqnc q) by (unfold d_nct; rewrite E3, E4, E5; unfold dqnc, dqn2; lia). rewrite En.
  pose proof (update_var_spec (tot_v qp) (c_ne (dqi_setqp C qp)) (dqnc q) (ai A t_lam_min) (ar A lam_min) (ar A t_min) (wk_ap w) (wk_ad w) (wk_stp w) x bkp k) as U.
  destruct (update_var _ _ _ _ _ _ _ _ _ _) as [x' b']. destruct (damped (wk_ap w) (wk_ad w)) as [p q']. rewrite Ht in U. cbn [Z.eqb Pos.eqb] in U. cbv zeta in U.
  destruct U as (_ & _ & U3 & U4 & _). assert (Hb : Nat.ltb k (dqnc q) = true) by (apply Nat.ltb_lt; exact Hk). rewrite Hb in U3, U4.
  cbn [fst va_lam va_t]. unfold domask. cbn [dqi_setqp c_qp c_mc c_mask]. rewrite En. change (c_mc C) with true. cbv iota. unfold VECMUL. rewrite vset0_in by exact Hk. cbn [Nat.add].
  rewrite dCmask_at by exact Hk. rsimp.
  assert (P : forall v f, 0 < f -> 0 < (if Rleb v f then f else v)) by (intros v f Hf; destruct (Rleb_spec v f); lra).
  split; [rewrite U4; apply P; exact Ht0|]. split; intros E; rewrite E; [|lra]. rewrite U3, Rmult_1_l. apply P; exact Hl0.
Qed.
Lemma dqconv_at (x y : vars R) k : (k < dqnc q)%nat -> va_lam (dqi_conv q x y) k = va_lam x k /\ va_t (dqi_conv q x y) k = va_t x k.
Proof.
  intros Hk. rewrite <- dnc_eq in Hk. unfold dqi_conv, backup_var. cbn [va_lam va_t]. rewrite !copy_arr_spec. fold nc. destruct (Nat.ltb_spec k nc); [split; reflexivity|lia].
Qed.
Lemma dqinside_conv x y : dqinside x -> dqinside (dqi_conv q x y).
Proof. intros H k Hk. destruct (dqconv_at x y k Hk) as [-> ->]. apply H; exact Hk. Qed.
Lemma dqinside_mask x : dqinside x -> dqinside (mkvars (va_v x) (va_pi x) (VECMUL nc (c_mask C) 0 (va_lam x) 0 (va_lam x) 0) (va_t x)).
Proof.
  intros H k Hk. destruct (H k Hk) as (H1 & H2 & H3). cbn [va_lam va_t]. unfold VECMUL. rewrite vset0_in by (rewrite dnc_eq; exact Hk). cbn [Nat.add]. rewrite dCmask_at by exact Hk. rsimp.
  split; [exact H1|]. split; intros E; [rewrite E; specialize (H2 E); lra|rewrite E; lra].
Qed.
Lemma dupd_dims qc' x (a : daws R) : dq_same_dims (da_qp a) -> dq_same_dims (da_qp (dqc_update_qp qc' x a)).
Proof. intros H. unfold dqc_update_qp. cbv zeta. destruct (approx_loop _ _ _ _ _ _ _ _ _ _) as [[[[[[H' C'] d'] adj] fn] y0] y1]. exact H. Qed.
Lemma dabs_dims qc' x (a : daws R) : dq_same_dims (da_qp a) -> dq_same_dims (da_qp (dqc_update_qp_abs qc' x a)).
Proof. intros H. unfold dqc_update_qp_abs. cbv zeta. destruct (dqc_abs_loop _ _ _ _ _ _ _ _ _ _) as [[[[[[H' C'] d'] adj] fn] y0] y1]. exact H. Qed.
Lemma dapp_dims qc' x (a : daws R) : dq_same_dims (da_qp a) -> dq_same_dims (da_qp (dqc_approx_qp qc' x a)).
Proof. intros H. pose proof (dupd_dims qc' x a H) as H1. exact H1. Qed.
Lemma dstart_dims : dq_same_dims (da_qp (y_a s0)).
Proof. unfold s0, dqi_start. cbn [y_a]. apply dapp_dims. exact Hd. Qed.

Lemma dsolve_inside : dq_constrained q -> (0 < yo_iter o)%Z -> ai A t_lam_min = 2%Z -> 0 < ar A lam_min -> 0 < ar A t_min -> dqinside (y_x (yo_s o)).
Proof.
  intros Hc Hk0 Ht Hl0 Ht0. destruct (dqsolve_case OP A QA lqf smax q sol ws) as [[Hn _]|[(_ & _ & E)|(_ & _ & E)]]; [contradiction| |]; fold o qm s0 C in E; revert Hk0; rewrite E.
  - destruct (dqsolve_abs_loop OP A QA qm C s0 (fun kk s => dq_same_dims (da_qp (y_a s)) /\ ((0 < kk)%Z -> dqinside (y_x s)))) as (kk & s' & -> & H & _).
    + split; [|lia]. unfold dqabs_init. cbn [dqi_absmu y_a]. apply dabs_dims. exact dstart_dims.
    + intros kk s _ [I1 I2] _. destruct (dqabs_body_step OP A qm C kk s) as (w & Hw & Ew & Ex & Ea). cbv zeta in *. split.
      * rewrite Ea. apply dabs_dims. exact I1.
      * intros _. rewrite Ex. apply dqinside_conv. pose proof (dqstep_inside (da_qp (y_a s)) (i_x (y_i s)) (i_bkp (y_i s)) w I1 Ht Hl0 Ht0) as H. rewrite <- Ew in H. exact H.
    + unfold dqi_finish. cbn [yo_s yo_iter]. rewrite dqabs_exit_x. apply H.
  - destruct (dqsolve_delta_loop OP A QA qm C s0 (fun kk s => dq_same_dims (da_qp (y_a s)) /\ ((0 < kk)%Z -> dqinside (y_x s)))) as (kk & s' & -> & H & _).
    + destruct (dqdelta_init_same qm C s0) as (E1 & E2 & _). split; [rewrite E2; exact dstart_dims|lia].
    + intros kk s _ [I1 I2] _. destruct (dqdelta_body_step OP A qm C kk s) as (w & Hw & Ew & _ & _ & Ex & Ea & _). cbv zeta in *. split.
      * rewrite Ea. apply dupd_dims. exact I1.
      * intros _. rewrite Ex. apply dqinside_mask, dqinside_conv. pose proof (dqstep_inside (da_qp (y_a s)) (i_x (y_i s)) (i_bkp (y_i s)) w I1 Ht Hl0 Ht0) as H. rewrite <- Ew in H. exact H.
    + unfold dqi_finish. cbn [yo_s yo_iter]. apply H.
Qed.

(** C75: with the multipliers and slacks clipped (t_lam_min = 2, the default) and positive thresholds, the solution returned after at least one iteration
    has t > 0 everywhere, lam > 0 on every imposed constraint, lam = 0 on every masked one, on the lower sides of the quadratic constraints and on the
    slacks softening them -- both formulations, every status, every start, every linear algebra. *)
Theorem C75_strictly_interior : dq_constrained q -> (0 < yo_iter o)%Z -> ai A t_lam_min = 2%Z -> 0 < ar A lam_min -> 0 < ar A t_min ->
  forall c, (c < dqnc q)%nat -> let s := view (y_x (yo_s o)) in
  0 < ds_t s c /\
  (dq_lower q c = false -> ~ dlowslack q c -> dq_mask q c = 1 -> 0 < ds_lam s c) /\
  (dq_lower q c = true \/ dlowslack q c \/ dq_mask q c = 0 -> ds_lam s c = 0).
Proof.
  intros Hc Hk0 Ht Hl0 Ht0 c Hcc. cbv zeta. pose proof (dsolve_inside Hc Hk0 Ht Hl0 Ht0) as H.
  destruct (H _ Hcc) as (H1 & H2 & H3). destruct (dmask_lower_R q c) as [L1 L2].
  split; [exact H1|]. split.
  - intros E N M. apply H2. rewrite L2 by assumption. exact M.
  - intros X. apply H3. destruct (dq_lower q c) eqn:E; [apply L1; left; reflexivity|]. destruct (dlowslack_dec c) as [L|L]; [apply L1; right; exact L|].
    rewrite L2 by (try exact L; reflexivity). destruct X as [X|[X|X]]; [discriminate|contradiction|exact X].
Qed.

(** C75: what SUCCESS means for the user, in exact arithmetic, delta formulation, clipped multipliers, after at least one iteration.  The returned solution
    (z, pi, lam, t) satisfies the equalities, every constraint of the QCQP except the bounds of the slacks softening lower sides of quadratic constraints
    (those the solver drops, see C74), stationarity and complementarity within the tolerances; for a convex QCQP its cost is close to that of every
    feasible point or better. *)
Theorem C75_success_certificate : dq_constrained q -> (0 < yo_iter o)%Z -> ai A t_lam_min = 2%Z -> 0 < ar A lam_min -> 0 < ar A t_min ->
  ai A abs_form = 0%Z -> (0 <= ai QA iter_max)%Z -> dqc_wf q -> yo_status o = SUCCESS ->
  let s := view (y_x (yo_s o)) in let z := ds_v s in
  (forall j, (j < dq_ne q)%nat -> Rabs (dq_eq q z j) <= ar QA res_b_max) /\
  (forall c, (c < dqnc q)%nat -> dq_act q c <> 0 -> ~ dlowslack q c -> dq_con q z c >= dq_d q c - ar QA res_d_max) /\
  (forall k, (k < dqnv q)%nat -> Rabs (dq_kkt_g q z (ds_pi s) (ds_lam s) k) <= ar QA res_g_max) /\
  (forall c, (c < dqnc q)%nat -> dq_act q c <> 0 -> ~ dlowslack q c -> Rabs (ds_lam s c * ds_t s c - dq_m q c - ar A tau_min) <= ar QA res_m_max) /\
  (dq_psd q -> dq_con_psd q -> forall y, dq_feasible q y ->
     dq_cost q z - dq_cost q y <= ar QA res_g_max * rsum (dqnv q) (fun k => Rabs (y k - z k))
       + ar QA res_b_max * rsum (dq_ne q) (fun j => Rabs (ds_pi s j))
       + ar QA res_d_max * rsum (dqnc q) (fun c => ds_lam s c)
       + rsum (dqnc q) (fun c => dqc_mask_lower q c * (dq_m q c + ar A tau_min + ar QA res_m_max))).
Proof.
  intros Hc Hk0 Ht Hl0 Ht0 Ha Him Hwf HS. cbv zeta.
  pose proof (dsolve_inside Hc Hk0 Ht Hl0 Ht0) as Ins.
  destruct (C75_success_certifies OP A QA lqf smax q sol ws Hc Ha Him) as ((a & r0 & rw0 & Hlin & Hr) & Hmax & _ & Hcert). fold o in Hr, Hmax, Hcert, Hlin. specialize (Hcert HS).
  destruct (C75_status OP A QA lqf smax q sol ws Hc) as (_ & _ & _ & Hst & _). fold o in Hst. destruct (Hst HS) as (_ & Hp & Hdd). clear Hst.
  rsimp. assert (Tr : forall a b, Rleb a b = false -> Rltb b a = true) by (intros a' b H; destruct (Rleb_spec a' b); [discriminate|]; destruct (Rltb_spec b a'); [reflexivity|lra]).
  specialize (Hcert (Tr _ _ Hp) (Tr _ _ Hdd)).
  set (s := view (y_x (yo_s o))) in *. set (r := y_r (yo_s o)) in *.
  assert (Pos : forall c, (c < dqnc q)%nat -> 0 < ds_t s c /\ (Mk c = 1 -> 0 < ds_lam s c) /\ (Mk c = 0 -> ds_lam s c = 0)) by (intros c Hcc; exact (Ins c Hcc)).
  pose proof (C73_norms q r) as Nrm. rewrite <- Hmax in Nrm.
  destruct (y_max (yo_s o)) as [[[ng nb] nd] nm]. destruct Nrm as ((_ & Ng & _) & (_ & Nb & _) & (_ & Nd & _) & _).
  destruct Hcert as (C1 & C2 & C3 & C4 & _).
  assert (Fl : forall a b, Rltb a b = false -> b <= a) by (intros a' b H; destruct (Rltb_spec a' b); [discriminate|lra]).
  apply Fl in C1, C2, C3, C4.
  assert (Hwfm : dqc_wf qm) by exact Hwf.
  assert (Prep : dq_prepared qm (ds_lam s)).
  { intros j Hj. change (dq_nq qm) with (dq_nq q) in Hj.
    assert (L1 : (dlq qm j < dqnc q)%nat) by (unfold dlq, dqnc, dqn2, qm, dqc_masked; cbn [dq_nb dq_ng]; lia).
    assert (L2 : (duq qm j < dqnc q)%nat) by (unfold duq, dqnc, dqn2, qm, dqc_masked; cbn [dq_nb dq_ng dq_nq]; lia).
    assert (Lw : dq_lower q (dlq qm j) = true).
    { unfold dq_lower, dlq, dqn2, qm, dqc_masked. cbn [dq_nb dq_ng]. apply andb_true_intro. split; [apply Nat.leb_le|apply Nat.ltb_lt]; lia. }
    assert (Z0 : dq_mask qm (dlq qm j) = 0) by (apply (proj1 (dmask_lower_R q (dlq qm j))); left; exact Lw).
    split; [exact Z0|]. split; [apply (Pos _ L1); exact Z0|].
    change (dq_mask qm (duq qm j)) with (Mk (duq qm j)). destruct (Pos _ L2) as (_ & _ & P3). destruct (dml01 _ L2) as [E|E]; rewrite E; [rewrite (P3 E)|]; lra. }
  assert (Hca : dq_cache_ok qm (Some (da_fun a, da_adj a)) (ds_v s) (ds_lam s)).
  { destruct Hlin as (a0 & [E|E]); rewrite E; apply (C74_cache qm s a0 Prep). }
  pose proof (C73_residuals (Some (da_fun a, da_adj a)) qm s None r0 rw0 Hwfm Hca I) as (Rg & Rb & Rd & Rm & _). cbv zeta in Rg, Rb, Rd, Rm. fold qm in Hr. rewrite <- Hr in Rg, Rb, Rd, Rm.
  clearbody r. clear Hr Hmax. set (z := ds_v s) in *.
  change (dqnv qm) with (dqnv q) in *. change (dqnc qm) with (dqnc q) in *. change (dq_eq qm) with (dq_eq q) in *. change (dq_ne qm) with (dq_ne q) in *.
  assert (Alow : forall c, (c < dqnc q)%nat -> dq_act qm c = Mk c).
  { intros c Hcc. unfold dq_act. change (dq_lower qm c) with (dq_lower q c). change (dq_mask qm c) with (Mk c). destruct (dq_lower q c) eqn:E; [|reflexivity].
    symmetry. apply (proj1 (dmask_lower_R q c)). left. exact E. }
  assert (Aeq : forall c, ~ dlowslack q c -> dq_act qm c = dq_act q c).
  { intros c L. unfold dq_act. change (dq_lower qm c) with (dq_lower q c). change (dq_mask qm c) with (Mk c). destruct (dq_lower q c) eqn:E; [reflexivity|]. apply (proj2 (dmask_lower_R q c)); assumption. }
  assert (Al : forall c, (c < dqnc q)%nat -> dq_act qm c * ds_lam s c = dq_act q c * ds_lam s c).
  { intros c Hcc. destruct (dlowslack_dec c) as [L|L].
    - destruct (Pos c Hcc) as (_ & _ & P3). rewrite P3 by (apply (proj1 (dmask_lower_R q c)); right; exact L). lra.
    - rewrite (Aeq c L). reflexivity. }
  assert (Eb : forall j, (j < dq_ne q)%nat -> Rabs (dq_eq q z j) <= ar QA res_b_max).
  { intros j Hj. rewrite <- Rb by assumption. specialize (Nb j Hj). lra. }
  assert (Egm : forall k, (k < dqnv q)%nat -> Rabs (dq_kkt_g qm z (ds_pi s) (ds_lam s) k) <= ar QA res_g_max).
  { intros k Hk. rewrite <- Rg by assumption. specialize (Ng k Hk). lra. }
  assert (Eg : forall k, (k < dqnv q)%nat -> Rabs (dq_kkt_g q z (ds_pi s) (ds_lam s) k) <= ar QA res_g_max).
  { intros k Hk. replace (dq_kkt_g q z (ds_pi s) (ds_lam s) k) with (dq_kkt_g qm z (ds_pi s) (ds_lam s) k); [apply Egm; assumption|].
    unfold dq_kkt_g. f_equal. change (dqnc qm) with (dqnc q). apply rsum_ext. intros c Hcc. rewrite (Al c Hcc). reflexivity. }
  assert (Ed : forall c, (c < dqnc q)%nat -> Mk c = 1 -> Rabs (dq_d q c + ds_t s c - dq_con q z c) <= ar QA res_d_max).
  { intros c Hcc E. pose proof (Nd c Hcc) as H. rewrite Rd in H by assumption. unfold dq_kkt_d in H. change (dq_mask qm c) with (Mk c) in H. rewrite E, Rmult_1_l in H.
    change (dq_con qm z c) with (dq_con q z c) in H. change (dq_d qm c) with (dq_d q c) in H. lra. }
  assert (Em : forall c, (c < dqnc q)%nat -> Mk c = 1 -> Rabs (ds_lam s c * ds_t s c - dq_m q c - ar A tau_min) <= ar QA res_m_max).
  { intros c Hcc E. fold nc in C4. rewrite dnc_eq in C4.
    pose proof (proj1 (proj2 (VECNRM_INF_R (dqnc q) (AXPY (dqnc q) (- ar A tau_min) Mk 0 (dr_m r) 0 (fun _ => 0 / 1) 0) 0)) c Hcc) as H. cbn [Nat.add] in H.
    unfold AXPY at 1 in H. rewrite vset0_in in H by exact Hcc. cbn [Nat.add] in H. rsimp. rewrite E in H. rewrite Rm in H by assumption.
    unfold dq_kkt_m in H. rewrite (Alow c Hcc) in H. change (dq_mask qm c) with (Mk c) in H. rewrite E in H. change (dq_m qm c) with (dq_m q c) in H.
    match type of H with Rabs ?u <= _ => replace (ds_lam s c * ds_t s c - dq_m q c - ar A tau_min) with u by lra end.
    eapply Rle_trans; [exact H|]. exact C4. }
  assert (M1 : forall c, (c < dqnc q)%nat -> dq_act q c <> 0 -> ~ dlowslack q c -> Mk c = 1).
  { intros c Hcc Hn HL. rewrite <- (Aeq c HL) in Hn. rewrite (Alow c Hcc) in Hn. destruct (dml01 c Hcc); [contradiction|assumption]. }
  split; [exact Eb|]. split.
  { intros c Hcc Hn HL. specialize (Ed c Hcc (M1 c Hcc Hn HL)). destruct (Pos c Hcc) as (P1 & _). pose proof (Rle_abs (dq_d q c + ds_t s c - dq_con q z c)) as Q. lra. }
  split; [exact Eg|]. split; [intros c Hcc Hn HL; apply Em; auto|].
  intros Hpsd Hcp y Hy.
  assert (Hnn : forall c, (c < dqnc q)%nat -> 0 <= dq_act qm c * ds_lam s c).
  { intros c Hcc. rewrite (Alow c Hcc). destruct (Pos c Hcc) as (_ & P2 & P3). destruct (dml01 c Hcc) as [E|E]; rewrite E; [lra|specialize (P2 E); lra]. }
  assert (Hfm : dq_feasible qm y).
  { destruct Hy as [Y1 Y2]. split; [exact Y1|]. intros c Hcc Hn. apply (Y2 c Hcc). intros E0. apply Hn. unfold dq_act in *. change (dq_lower qm c) with (dq_lower q c) in *. change (dq_mask qm c) with (Mk c).
    destruct (dq_lower q c) eqn:El; [reflexivity|]. destruct (dmask_lower_R q c) as [X1 X2]. destruct (dlowslack_dec c) as [L|L]; [apply X1; right; exact L|]. rewrite X2 by assumption. exact E0. }
  pose proof (dq_lagr_le_cost qm (ds_pi s) (ds_lam s) y Hfm Hnn) as L1.
  pose proof (C73_stationarity_is_gradient qm z (ds_pi s) (ds_lam s) y Hwfm) as L2. cbv zeta in L2. change (dqnv qm) with (dqnv q) in L2.
  assert (Hcpm : dq_con_psd qm).
  { intros j v Hj Hn. apply (Hcp j v Hj). intros E0. apply Hn. change (dqn2 qm) with (dqn2 q). change (dq_nb qm) with (dq_nb q). change (dq_ng qm) with (dq_ng q).
    change (dq_mask qm) with Mk. 
    set (c := (dqn2 q + (dq_nb q + dq_ng q) + j)%nat) in *. destruct (dmask_lower_R q c) as [X1 X2].
    destruct (dq_lower q c) eqn:El; [apply X1; left; reflexivity|]. destruct (dlowslack_dec c) as [L|L]; [apply X1; right; exact L|]. rewrite X2 by (try exact L; reflexivity). exact E0. }
  pose proof (dq_lHess_psd qm (ds_lam s) (fun k => y k - z k) Hpsd Hcpm Hnn) as L3. change (dqnv qm) with (dqnv q) in L3.
  assert (L4 : - (ar QA res_g_max * rsum (dqnv q) (fun k => Rabs (y k - z k))) <= rsum (dqnv q) (fun k => dq_kkt_g qm z (ds_pi s) (ds_lam s) k * (y k - z k))).
  { rewrite <- rsum_scal, <- rsum_opp. apply rsum_le. intros k Hk.
    specialize (Egm k Hk). set (g := dq_kkt_g qm _ _ _ _) in *. set (v := y k - z k) in *.
    assert (Hab : Rabs (g * v) <= ar QA res_g_max * Rabs v) by (rewrite Rabs_mult; apply Rmult_le_compat_r; [apply Rabs_pos|exact Egm]).
    pose proof (Rle_abs (- (g * v))) as H. rewrite Rabs_Ropp in H. lra. }
  unfold dq_lagr in L2 at 2. change (dqnc qm) with (dqnc q) in L2. change (dq_ne qm) with (dq_ne q) in L2. change (dq_eq qm) with (dq_eq q) in L2. change (dq_cost qm) with (dq_cost q) in L1, L2. change (dq_con qm) with (dq_con q) in L2. change (dq_d qm) with (dq_d q) in L2.
  assert (L5 : - (ar QA res_b_max * rsum (dq_ne q) (fun j => Rabs (ds_pi s j))) <= rsum (dq_ne q) (fun j => ds_pi s j * dq_eq q z j)).
  { rewrite <- rsum_scal, <- rsum_opp. apply rsum_le. intros j Hj.
    specialize (Eb j Hj). set (g := dq_eq _ _ _) in *. set (v := ds_pi s j) in *.
    assert (Hab : Rabs (v * g) <= ar QA res_b_max * Rabs v) by (rewrite Rabs_mult, Rmult_comm; apply Rmult_le_compat_r; [apply Rabs_pos|exact Eb]).
    pose proof (Rle_abs (- (v * g))) as H. rewrite Rabs_Ropp in H. lra. }
  assert (L6 : rsum (dqnc q) (fun c => dq_act qm c * ds_lam s c * (dq_con q z c - dq_d q c)) <=
    ar QA res_d_max * rsum (dqnc q) (fun c => ds_lam s c) + rsum (dqnc q) (fun c => Mk c * (dq_m q c + ar A tau_min + ar QA res_m_max))).
  { rewrite <- rsum_scal, <- rsum_add. apply rsum_le. intros c Hcc.
    destruct (Pos c Hcc) as (_ & P2 & P3). rewrite (Alow c) by exact Hcc. destruct (dml01 c Hcc) as [E|E].
    - rewrite E, (P3 E). lra.
    - specialize (P2 E). specialize (Ed c Hcc E). specialize (Em c Hcc E). rewrite E.
      pose proof (Rle_abs (- (dq_d q c + ds_t s c - dq_con q z c))) as Q. rewrite Rabs_Ropp in Q.
      pose proof (Rle_abs (ds_lam s c * ds_t s c - dq_m q c - ar A tau_min)) as Q2.
      assert (Q3 : ds_lam s c * (dq_con q z c - dq_d q c) <= ds_lam s c * (ds_t s c + ar QA res_d_max)) by (apply Rmult_le_compat_l; lra). lra. }
  lra.
Qed.
End P.
Print Assumptions C75_strictly_interior.
Print Assumptions C75_success_certificate.

(** *** What is false without an iteration (IEEE doubles) *)
Section Wit.
Local Open Scope Z_scope.
Let z0 : spec_float := f0.
Let zz : nat -> spec_float := fun _ => f0.
(** min v subject to v^2/2 <= 1/2: the minimiser is v = -1 *)
Definition xdr_q {F} {AF : Arith F} : dqcqp F := mkdqc 1 0 0 0 1 0 (fun _ _ => f0) (fun _ _ => f0) (fun _ _ => f0) (fun _ _ _ => f1) (fun _ => f1) (fun _ => f0)
  (fun c => match c with 1%nat => fopp (lit 1 2) | _ => f0 end) (fun _ => f1) (fun _ => f0) (fun _ => f0) (fun _ => 0%nat) (fun _ => -1).
Definition xdr_vars (v l0 : spec_float) : vars spec_float := mkvars (fun _ => v) zz (fun c => match c with 0%nat => l0 | _ => f0 end) zz.
Let r0 : dres spec_float := mkdres zz zz zz zz z0 z0 z0 z0.
Definition xdr_ws : @dqst spec_float unit :=
  let x := xdr_vars z0 z0 in
  mkdqst (mkist x x (mkwk x x r0 r0 (mkrws zz zz zz) z0 z0 z0 z0 zz tt) z0 zz (z0, z0, z0, z0)) x
    (mkdaws (mkdqp 1 0 0 1 0 (fun _ _ => z0) (fun _ _ => z0) (fun _ _ => z0) zz zz zz zz zz zz (fun _ => 0%nat) (fun _ => -1)) zz zz zz zz) r0 (mkqrws zz zz zz zz zz) (z0, z0, z0, z0).
(** The multipliers of the initial iterate are not masked, and the cached adjoint of the quadratic constraints counts those of their lower sides.  Hot start
    (warm_start = 3) at v = 1, the maximiser, with a multiplier 1 left on the lower side of the constraint, which the QCQP has not got: the solver reports
    SUCCESS after 0 iterations and returns v = 1; its stationarity residual, true value 1 + lam_u, is reported below 1e-8. *)
Theorem C75_hot_start_refuted (OP : dkops (F := spec_float) unit) : let QA := wi warm_start 3 (den_default SPEED) in
  let o := dqi_solve OP (den_default SPEED) QA 0 10 xdr_q (xdr_vars f1 f1) xdr_ws in
  yo_status o = SUCCESS /\ yo_iter o = 0 /\ va_v (y_x (yo_s o)) 0%nat = f1 /\ SFltb (fst (fst (fst (y_max (yo_s o))))) (lit 1 100000000) = true.
Proof. vm_compute. repeat split; reflexivity. Qed.
End Wit.
Print Assumptions C75_hot_start_refuted.
