(** ExpProps.v -- property C29: expanding a solution of the condensed QP (EXPAND_SOL). *)
From Coq Require Import ZArith Bool Arith Lia Reals Lra.
From Verif Require Import Base ArithF RSum Blas Blas2 OcpModel ResSpec ResProofs ResProofs2 CholProofs KktModel DenModel DenSpec CondModel ExpModel CondSpec CondProofs CondCost CondCost2 CondCon CondCon2 CondCon3 CondSem CondFull ExpProofs ExpKkt CondProps.
Local Open Scope R_scope.

(** the QP object after condensing (BAbt and RSQrq as the call leaves them, property C28) *)
Definition after (qp : oqp R) (BA RSQ : nat -> rmat) : oqp R :=
  mkqp (q_dim qp) BA RSQ (q_DCt qp) (q_b qp) (q_rqz qp) (q_d qp) (q_mask qp) (q_m qp) (q_Z qp) (q_idxb qp) (q_idxs_rev qp).
(** full KKT points (of the relaxed problem with complementarity targets m) *)
Definition ocp_kkt_point (qp : oqp R) (s : osol R) : Prop := let D := q_dim qp in
  (forall i k, (i <= dN D)%nat -> (k < nvt D i)%nat -> kkt_g qp (s_ux s) (s_pi s) (s_lam s) i k = 0) /\
  (forall i j, (i < dN D)%nat -> (j < dnx D (S i))%nat -> dyn qp (s_ux s) i j = 0) /\
  (forall i c, (i <= dN D)%nat -> (c < nct D i)%nat -> kkt_d qp (s_ux s) (s_t s) i c = 0 /\ kkt_m qp (s_lam s) (s_t s) i c = 0 /\ 0 <= s_lam s i c /\ 0 <= s_t s i c).
Definition den_kkt_point (q : dqp R) (s : dsol R) : Prop :=
  (forall k, (k < dnv q)%nat -> den_kkt_g q (ds_v s) (ds_pi s) (ds_lam s) k = 0) /\ (forall j, (j < d_ne q)%nat -> den_eq q (ds_v s) j = 0) /\
  (forall c, (c < d_nct q)%nat -> den_kkt_d q (ds_v s) (ds_t s) c = 0 /\ den_kkt_m q (ds_lam s) (ds_t s) c = 0 /\ 0 <= ds_lam s c /\ 0 <= ds_t s c).
(** no multiplier on a constraint that is masked out (and masks 0 or 1): the interior point solver ensures it *)
Definition lam_masked (q : dqp R) (lam : nat -> R) : Prop := forall c, (c < d_nct q)%nat -> (d_mask q c = 0 /\ lam c = 0) \/ d_mask q c = 1.
(** states of stages 1, 2, ...: the variables eliminated by condensing *)
Definition eliminated (qp : oqp R) (i k : nat) : Prop := (1 <= i)%nat /\ (dnu (q_dim qp) i <= k < nux qp i)%nat.

(** *** facts about expand_sol on any QP *)
Lemma pos_00 qp c : dN (q_dim qp) = 0%nat -> (c < nct (q_dim qp) 0)%nat -> pos qp (dN (q_dim qp)) 0 c = c.
Proof.
  intros E0 Hc. rewrite E0. unfold nct in Hc. set (D := q_dim qp) in *. unfold pos. fold D.
  assert (A1 : count_nbb qp 0 = dnb D 0) by reflexivity. assert (A2 : count_nbg qp 0 = 0%nat) by reflexivity. assert (A3 : ngg_of qp 0 = dng D 0) by reflexivity. assert (A4 : n_soft qp 0 = dns D 0) by reflexivity. assert (A5 : soff qp 0 0 = 0%nat) by reflexivity.
  rewrite A1, A2, A3, A4, A5. destruct (Nat.ltb_spec c (dnb D 0 + dng D 0)); [|destruct (Nat.ltb_spec c (2 * (dnb D 0 + dng D 0)))].
  - apply posl_0. exact H.
  - rewrite posl_0 by (fold D; lia). fold D. lia.
  - destruct (Nat.ltb_spec c (2 * (dnb D 0 + dng D 0) + dns D 0)); lia.
Qed.
Lemma expand_facts qp ds sol w dineq deq : let N := dN (q_dim qp) in let s := fst (expand_sol true true dineq deq qp ds sol w) in
  same_point qp (s_ux s) (traj qp N (ds_v ds)) /\
  (dineq = true -> forall i c, (i <= N)%nat -> (c < nct (q_dim qp) i)%nat -> s_lam s i c = ds_lam ds (pos qp N i c) /\ s_t s i c = ds_t ds (pos qp N i c)) /\
  (deq = true -> forall i j, (1 <= i <= N)%nat -> (j < dnx (q_dim qp) i)%nat -> s_pi s (i - 1)%nat j = pif qp (i <? N)%nat i (s_ux s) (s_lam s) (s_pi s i) j).
Proof.
  cbv zeta. set (D := q_dim qp). set (N := dN D). unfold expand_sol, last_stage. fold D. fold N. rewrite andb_true_r. destruct (Nat.eqb_spec N 0) as [E0|E0].
  - cbn [fst s_ux s_pi s_lam s_t]. split; [|split].
    + intros i k Hi Hk. fold D N in Hi. assert (i = 0%nat) by lia. subst i. fold D in Hk. unfold nvt in Hk. rewrite upd_same. unfold VECCP. rewrite vset_in' by lia. cbn [Nat.add]. rewrite Nat.sub_0_r. rewrite E0.
      destruct (Nat.lt_ge_cases k (dnu D 0 + dnx D 0)) as [L|L]; [rewrite traj_0 by exact L; reflexivity|].
      destruct (Nat.lt_ge_cases k (dnu D 0 + dnx D 0 + dns D 0)) as [L2|L2].
      * replace (traj qp 0 (ds_v ds) 0 k) with (traj qp 0 (ds_v ds) 0 (nux qp 0 + (k - nux qp 0))%nat) by (f_equal; unfold nux; fold D; lia). rewrite traj_sl by (unfold nux; fold D; lia). f_equal. unfold n_hard, nux. fold D. change (uoff qp 0 0) with 0%nat. change (soff qp 0 0) with 0%nat. lia.
      * replace (traj qp 0 (ds_v ds) 0 k) with (traj qp 0 (ds_v ds) 0 (nux qp 0 + dns D 0 + (k - nux qp 0 - dns D 0))%nat) by (f_equal; unfold nux; fold D; lia). rewrite traj_su by (unfold nux; fold D; lia). f_equal. unfold n_hard, n_soft, nux. fold D. change (uoff qp 0 0) with 0%nat. change (soff qp 0 0) with 0%nat. lia.
    + intros -> i c Hi Hc. assert (i = 0%nat) by lia. subst i. unfold N, D in *. rewrite pos_00 by assumption. rewrite !upd_same. unfold nct in Hc. unfold VECCP. rewrite !vset_in' by lia. cbn [Nat.add]. rewrite Nat.sub_0_r. split; reflexivity.
    + intros _ i j Hi. lia.
  - assert (P : same_point qp (exp_prim qp N (ds_v ds) (s_ux sol)) (traj qp N (ds_v ds))) by (intros i k; apply exp_prim_R).
    assert (L : forall src x i c, (i <= N)%nat -> (c < nct D i)%nat -> exp_ineq qp N src x i c = src (pos qp N i c)) by (intros src x i c; apply exp_ineq_R).
    destruct deq.
    + set (ux := exp_prim qp N (ds_v ds) (s_ux sol)) in *. clearbody ux. set (lam := if dineq then exp_ineq qp N (ds_lam ds) (s_lam sol) else s_lam sol) in *.
      pose proof (exp_pi_R qp ux lam (ds_pi ds) (s_pi sol, cw_nux w, cw_nbg w) ltac:(fold D N; lia)) as X. fold D N in X.
      destruct (exp_pi qp true N (ds_pi ds) ux lam (s_pi sol, cw_nux w, cw_nbg w)) as [[pi a] b]. cbn [fst s_ux s_pi s_lam s_t]. split; [exact P|]. split; [|intros _; exact X].
      intros ->. unfold lam. intros i c Hi Hc. rewrite !L by assumption. split; reflexivity.
    + cbn [fst s_ux s_pi s_lam s_t]. split; [exact P|]. split; [|discriminate]. intros ->. intros i c Hi Hc. rewrite !L by assumption. split; reflexivity.
Qed.

(** *** the primal solution is the trajectory of the dense variables: dynamics exactly satisfied, inputs, initial state and slacks copied.
    Holds for every QP and dense vector, whatever the other flags. *)
Theorem C29_trajectory : forall (qp : oqp R) ds sol w dineq deq, let D := q_dim qp in let N := dN D in
  let s := fst (expand_sol true true dineq deq qp ds sol w) in
  (forall i j, (i < N)%nat -> (j < dnx D (S i))%nat -> dyn qp (s_ux s) i j = 0) /\
  (forall i k, (i <= N)%nat -> (k < dnu D i)%nat -> s_ux s i k = ds_v ds (uoff qp N i + k)%nat) /\
  (forall k, (k < dnx D 0)%nat -> s_ux s 0%nat (dnu D 0 + k)%nat = ds_v ds (uoff qp N 0 + dnu D 0 + k)%nat) /\
  same_point qp (s_ux s) (traj qp N (ds_v ds)).
Proof.
  cbv zeta. intros qp ds sol w dineq deq. pose proof (expand_facts qp ds sol w dineq deq) as X. cbv zeta in X. destruct X as (X & _). set (s := fst _) in *. clearbody s. pose proof (C28_trajectories qp) as T. cbv zeta in T. destruct T as (T1 & T2 & T3 & _).
  split; [|split; [|split; [|exact X]]].
  - intros i j Hi Hj. rewrite <- (T1 (ds_v ds) i j Hi Hj). unfold dyn. rewrite (X (S i)) by (try lia; unfold nvt; lia). f_equal. f_equal. apply rsum_ext. intros k Hk. unfold nux in Hk. rewrite (X i k) by (try lia; unfold nvt; lia). reflexivity.
  - intros i k Hi Hk. rewrite (X i k Hi) by (unfold nvt; lia). apply T2. exact Hk.
  - intros k Hk. rewrite (X 0%nat) by (try lia; unfold nvt; lia). apply T3. exact Hk.
Qed.

(** parts not requested (comp_prim_sol, comp_dual_sol_ineq, comp_dual_sol_eq) are left as they are *)
Theorem C29_flags : forall F (AF : Arith F) last (qp : oqp F) ds sol w prim dineq deq, let s := fst (expand_sol last prim dineq deq qp ds sol w) in
  (prim = false -> s_ux s = s_ux sol) /\ (dineq = false -> s_lam s = s_lam sol /\ s_t s = s_t sol) /\ (deq = false -> s_pi s = s_pi sol).
Proof.
  cbv zeta. intros F AF last qp ds sol w prim dineq deq. unfold expand_sol. destruct (andb _ _).
  - cbn [fst s_ux s_pi s_lam s_t]. split; [intros ->; reflexivity|]. split; [intros ->; split; reflexivity|]. intros _. reflexivity.
  - destruct deq; [destruct (exp_pi _ _ _ _ _ _ _) as [[pi a] b]|]; cbn [fst s_ux s_pi s_lam s_t]; (split; [intros ->; reflexivity|]; split; [intros ->; split; reflexivity|]); [discriminate|reflexivity].
Qed.

Section After.
Variables (qp : oqp R) (BA RSQ : nat -> rmat).
Hypothesis H1 : forall i r c, (r < nux qp i)%nat -> BA i r c = q_BAbt qp i r c.
Hypothesis H2 : forall i r c, (c <= r < nux qp i)%nat -> RSQ i r c = q_RSQ qp i r c.
Notation qp' := (after qp BA RSQ).
Lemma after_st M v i : forall j, st qp' M v i j = st qp M v i j.
Proof.
  induction i as [|i IH]; intros j; [reflexivity|]. cbn [st]. change (q_BAbt qp') with BA. change (q_b qp') with (q_b qp). change (q_dim qp') with (q_dim qp). change (uoff qp' M) with (uoff qp M). f_equal. f_equal; apply rsum_ext; intros k Hk.
  - rewrite H1 by (unfold nux; lia). reflexivity.
  - rewrite H1 by (unfold nux; lia). rewrite IH. reflexivity.
Qed.
Lemma after_traj M v i k : traj qp' M v i k = traj qp M v i k.
Proof. unfold traj. rewrite after_st. reflexivity. Qed.
Lemma after_kkt_g z pi lam i k : kkt_g qp' z pi lam i k = kkt_g qp z pi lam i k.
Proof.
  unfold kkt_g. change (q_dim qp') with (q_dim qp). change (nux qp' i) with (nux qp i). change (q_rqz qp') with (q_rqz qp). change (q_mask qp') with (q_mask qp). change (G qp') with (G qp). f_equal. f_equal. f_equal; [f_equal|].
  - apply rsum_ext. intros l _. f_equal. unfold Hess, H_co. change (nux qp' i) with (nux qp i). change (q_RSQ qp') with RSQ. change (q_Z qp') with (q_Z qp).
    destruct (Nat.ltb_spec k (nux qp i)); [|reflexivity]. destruct (Nat.ltb_spec l (nux qp i)); [|reflexivity]. destruct (Nat.leb_spec l k); apply H2; lia.
  - destruct (Nat.ltb_spec k (nux qp i)); [|rewrite andb_false_r; reflexivity]. destruct (i <? dN (q_dim qp))%nat; [|reflexivity]. cbn [andb]. apply rsum_ext. intros l _. change (q_BAbt qp') with BA. rewrite H1 by assumption. reflexivity.
Qed.
End After.
Lemma same_kkt_g qp y z pi lam i k : same_point qp y z -> (i <= dN (q_dim qp))%nat -> kkt_g qp y pi lam i k = kkt_g qp z pi lam i k.
Proof. intros H Hi. unfold kkt_g. f_equal. f_equal. f_equal. f_equal. apply rsum_ext. intros l Hl. rewrite (H i l Hi Hl). reflexivity. Qed.

(** *** every KKT residual of the expanded solution is zero or the residual of the dense solution at the corresponding place *)
Theorem C29_residuals : forall alg0 sq diag qp q0 w ds sol w2, cond_pre alg0 diag qp q0 ->
  let '(q, _, BA, RSQ) := cond_qp alg0 sq diag qp q0 w in lam_masked q (ds_lam ds) ->
  let s := fst (expand_sol true true true true (after qp BA RSQ) ds sol w2) in let D := q_dim qp in
  (forall i k, (i <= dN D)%nat -> (k < nvt D i)%nat -> eliminated qp i k -> kkt_g qp (s_ux s) (s_pi s) (s_lam s) i k = 0) /\
  (forall i k, (i <= dN D)%nat -> (k < nvt D i)%nat -> ~ eliminated qp i k -> exists p, (p < dnv q)%nat /\ s_ux s i k = ds_v ds p /\ kkt_g qp (s_ux s) (s_pi s) (s_lam s) i k = den_kkt_g q (ds_v ds) (ds_pi ds) (ds_lam ds) p) /\
  (forall i j, (i < dN D)%nat -> (j < dnx D (S i))%nat -> dyn qp (s_ux s) i j = 0) /\
  (forall i c, (i <= dN D)%nat -> (c < nct D i)%nat -> exists p, (p < d_nct q)%nat /\ s_lam s i c = ds_lam ds p /\ s_t s i c = ds_t ds p /\
     kkt_d qp (s_ux s) (s_t s) i c = den_kkt_d q (ds_v ds) (ds_t ds) p /\ kkt_m qp (s_lam s) (s_t s) i c = den_kkt_m q (ds_lam ds) (ds_t ds) p).
Proof.
  intros alg0 sq diag qp q0 w ds sol w2 HP. pose proof (cond_pre_post alg0 sq diag qp q0 w HP) as Q. destruct (cond_qp alg0 sq diag qp q0 w) as [[[q w'] BA] RSQ].
  destruct Q as (Q1 & (Gm & Gb & Q2 & Q3) & (K & Q4) & Q5 & Q6). intros HM. destruct HP as (P1 & _). cbv zeta. set (D := q_dim qp). set (N := dN D).
  assert (W : wfM qp N) by (intros i Hi; apply P1; exact Hi).
  pose proof (expand_facts (after qp BA RSQ) ds sol w2 true true) as X. cbv zeta in X. change (q_dim (after qp BA RSQ)) with D in X. fold N in X. set (s := fst _) in *. clearbody s. destruct X as (X1 & X2 & X3). specialize (X2 eq_refl). specialize (X3 eq_refl).
  change (pos (after qp BA RSQ) N) with (pos qp N) in X2.
  assert (ST : same_point qp (s_ux s) (traj qp N (ds_v ds))). { intros i k Hi Hk. rewrite <- (after_traj qp BA RSQ Q5 N). apply X1; assumption. }
  assert (HL : forall i c, (i <= N)%nat -> (c < nct D i)%nat -> s_lam s i c = ds_lam ds (pos qp N i c)) by (intros i c Hi Hc; apply X2; assumption).
  assert (HT : forall i c, (i <= N)%nat -> (c < nct D i)%nat -> s_t s i c = ds_t ds (pos qp N i c)) by (intros i c Hi Hc; apply X2; assumption).
  assert (Hpos : forall i c, (i <= N)%nat -> (c < nct D i)%nat -> (pos qp N i c < d_nct q)%nat).
  { intros i c Hi Hc. pose proof (pos_lt qp N i c Hi Hc). destruct Q1 as (_ & _ & E3 & E4 & E5). unfold d_nct. fold D N in E3, E4, E5. rewrite E3, E4, E5. exact H. }
  assert (K0 : forall i j, (1 <= i <= N)%nat -> (j < dnx D i)%nat -> kkt_g qp (traj qp N (ds_v ds)) (s_pi s) (s_lam s) i (dnu D i + j)%nat = 0).
  { intros i j Hi Hj. rewrite <- (same_kkt_g qp _ _ (s_pi s) (s_lam s) i _ ST) by (fold D N; lia). rewrite <- (after_kkt_g qp BA RSQ Q5 Q6). apply (pif_kkt (after qp BA RSQ)); [exact Hi|exact Hj| |apply X3; assumption].
    intros c Hc. change (q_mask (after qp BA RSQ)) with (q_mask qp). change (nct (q_dim (after qp BA RSQ)) i) with (nct D i) in Hc. destruct (con_traj qp N Gm Gb q Q1 W Q2 Q3 (ds_v ds) i c ltac:(lia) Hc) as (_ & C2 & _). rewrite HL by (try exact Hc; lia). rewrite <- C2.
    destruct (HM _ (Hpos i c ltac:(lia) Hc)) as [(_ & E)|E]; rewrite E; ring. }
  split; [|split; [|split]].
  - intros i k Hi Hk (E1 & E2). rewrite (same_kkt_g qp _ _ (s_pi s) (s_lam s) i _ ST) by exact Hi. replace k with (dnu D i + (k - dnu D i))%nat by (unfold D; lia). apply K0; [lia|]. unfold nux in E2. fold D in E2. lia.
  - intros i k Hi Hk E.
    assert (FF : free qp i k). { split; [exact Hi|]. split; [exact Hk|]. unfold eliminated in E. lia. }
    exists (slot qp i k). split; [exact (slot_lt qp q Q1 i k FF)|]. rewrite (ST i k Hi Hk). split; [apply traj_slot; exact FF|]. rewrite (same_kkt_g qp _ _ (s_pi s) (s_lam s) i _ ST) by exact Hi.
    exact (kkt_g_free qp Gm Gb q Q1 W Q2 Q3 K Q4 (ds_v ds) (ds_pi ds) (s_pi s) (ds_lam ds) (s_lam s) HL K0 i k FF).
  - intros i j Hi Hj. pose proof (C28_trajectories qp) as T. cbv zeta in T. destruct T as (T1 & _). rewrite <- (T1 (ds_v ds) i j Hi Hj). unfold dyn. fold D N. rewrite (ST (S i)) by (fold D; try lia; unfold nvt; lia). f_equal. f_equal. apply rsum_ext. intros k Hk. unfold nux in Hk. rewrite (ST i k) by (fold D; try lia; unfold nvt; fold D in Hk; lia). reflexivity.
  - intros i c Hi Hc. exists (pos qp N i c). split; [apply Hpos; assumption|]. split; [apply HL; assumption|]. split; [apply HT; assumption|]. split.
    + transitivity (kkt_d qp (traj qp N (ds_v ds)) (s_t s) i c); [unfold kkt_d; f_equal; f_equal; apply same_con; assumption|]. exact (kkt_d_pos qp Gm Gb q Q1 W Q2 Q3 (ds_v ds) (ds_t ds) (s_t s) i c HT Hi Hc).
    + apply (kkt_m_pos qp Gm Gb q Q1 W Q2 Q3); assumption.
Qed.

(** hence the solution keeps the accuracy of the dense solver: residuals bounded by eps stay bounded by eps *)
Theorem C29_accuracy : forall alg0 sq diag qp q0 w ds sol w2 (eps : R), cond_pre alg0 diag qp q0 -> 0 <= eps ->
  let '(q, _, BA, RSQ) := cond_qp alg0 sq diag qp q0 w in lam_masked q (ds_lam ds) ->
  (forall k, (k < dnv q)%nat -> Rabs (den_kkt_g q (ds_v ds) (ds_pi ds) (ds_lam ds) k) <= eps) ->
  (forall c, (c < d_nct q)%nat -> Rabs (den_kkt_d q (ds_v ds) (ds_t ds) c) <= eps /\ Rabs (den_kkt_m q (ds_lam ds) (ds_t ds) c) <= eps) ->
  let s := fst (expand_sol true true true true (after qp BA RSQ) ds sol w2) in let D := q_dim qp in
  (forall i k, (i <= dN D)%nat -> (k < nvt D i)%nat -> Rabs (kkt_g qp (s_ux s) (s_pi s) (s_lam s) i k) <= eps) /\
  (forall i j, (i < dN D)%nat -> (j < dnx D (S i))%nat -> dyn qp (s_ux s) i j = 0) /\
  (forall i c, (i <= dN D)%nat -> (c < nct D i)%nat -> Rabs (kkt_d qp (s_ux s) (s_t s) i c) <= eps /\ Rabs (kkt_m qp (s_lam s) (s_t s) i c) <= eps).
Proof.
  intros alg0 sq diag qp q0 w ds sol w2 eps HP He. pose proof (C29_residuals alg0 sq diag qp q0 w ds sol w2 HP) as Q. destruct (cond_qp alg0 sq diag qp q0 w) as [[[q w'] BA] RSQ]. intros HM Hg Hc. specialize (Q HM). cbv zeta in *. destruct Q as (Q1 & Q2 & Q3 & Q4).
  split; [|split; [exact Q3|]].
  - intros i k Hi Hk. destruct (le_lt_dec 1 i) as [L1|L1]; [destruct (le_lt_dec (dnu (q_dim qp) i) k) as [L2|L2]; [destruct (Nat.lt_ge_cases k (nux qp i)) as [L3|L3]|]|].
    + rewrite Q1 by (try assumption; split; lia). rewrite Rabs_R0. exact He.
    + destruct (Q2 i k Hi Hk) as (p & P1 & _ & ->); [intros (_ & E); lia|]. apply Hg. exact P1.
    + destruct (Q2 i k Hi Hk) as (p & P1 & _ & ->); [intros (_ & E); lia|]. apply Hg. exact P1.
    + destruct (Q2 i k Hi Hk) as (p & P1 & _ & ->); [intros (E & _); lia|]. apply Hg. exact P1.
  - intros i c Hi Hc'. destruct (Q4 i c Hi Hc') as (p & P1 & _ & _ & -> & ->). apply Hc. exact P1.
Qed.

(** a KKT point of the dense QP expands to a KKT point of the OCP QP; a minimiser to a minimiser *)
Theorem C29_kkt_point : forall alg0 sq diag qp q0 w ds sol w2, cond_pre alg0 diag qp q0 ->
  let '(q, _, BA, RSQ) := cond_qp alg0 sq diag qp q0 w in lam_masked q (ds_lam ds) -> den_kkt_point q ds ->
  ocp_kkt_point qp (fst (expand_sol true true true true (after qp BA RSQ) ds sol w2)).
Proof.
  intros alg0 sq diag qp q0 w ds sol w2 HP. pose proof (C29_residuals alg0 sq diag qp q0 w ds sol w2 HP) as Q. destruct (cond_qp alg0 sq diag qp q0 w) as [[[q w'] BA] RSQ]. intros HM (Hg & _ & Hc). specialize (Q HM). cbv zeta in *. destruct Q as (Q1 & Q2 & Q3 & Q4).
  split; [|split; [exact Q3|]].
  - intros i k Hi Hk. destruct (le_lt_dec 1 i) as [L1|L1]; [destruct (le_lt_dec (dnu (q_dim qp) i) k) as [L2|L2]; [destruct (Nat.lt_ge_cases k (nux qp i)) as [L3|L3]|]|].
    + apply Q1; try assumption; split; lia.
    + destruct (Q2 i k Hi Hk) as (p & P1 & _ & ->); [intros (_ & E); lia|]. apply Hg. exact P1.
    + destruct (Q2 i k Hi Hk) as (p & P1 & _ & ->); [intros (_ & E); lia|]. apply Hg. exact P1.
    + destruct (Q2 i k Hi Hk) as (p & P1 & _ & ->); [intros (E & _); lia|]. apply Hg. exact P1.
  - intros i c Hi Hc'. destruct (Q4 i c Hi Hc') as (p & P1 & -> & -> & -> & ->). apply Hc. exact P1.
Qed.
Theorem C29_optimal : forall alg0 sq diag qp q0 w ds sol w2 dineq deq, cond_pre alg0 diag qp q0 ->
  let '(q, _, BA, RSQ) := cond_qp alg0 sq diag qp q0 w in den_optimal q (ds_v ds) ->
  ocp_optimal qp (s_ux (fst (expand_sol true true dineq deq (after qp BA RSQ) ds sol w2))).
Proof.
  intros alg0 sq diag qp q0 w ds sol w2 dineq deq HP. pose proof (C28_equivalent alg0 sq diag qp q0 w HP) as E. pose proof (cond_pre_post alg0 sq diag qp q0 w HP) as Q. destruct (cond_qp alg0 sq diag qp q0 w) as [[[q w'] BA] RSQ].
  destruct E as (_ & E & _). destruct Q as (_ & _ & _ & Q5 & _). intros HO. apply E in HO.
  pose proof (expand_facts (after qp BA RSQ) ds sol w2 dineq deq) as X. cbv zeta in X. destruct X as (X & _). set (s := fst _) in *. clearbody s.
  assert (ST : same_point qp (s_ux s) (traj qp (dN (q_dim qp)) (ds_v ds))). { intros i k Hi Hk. rewrite <- (after_traj qp BA RSQ Q5). apply X; assumption. }
  destruct HO as ((O1 & O2) & O3). split; [split|].
  - intros i j Hi Hj. rewrite <- (O1 i j Hi Hj). unfold dyn. rewrite (ST (S i)) by (try lia; unfold nvt; lia). f_equal. f_equal. apply rsum_ext. intros k Hk. unfold nux in Hk. rewrite (ST i k) by (try lia; unfold nvt; lia). reflexivity.
  - intros i c Hi Hc Hm. rewrite (same_con qp _ _ i c ST Hi). apply O2; assumption.
  - intros y Hy. rewrite (same_cost qp _ _ ST). apply O3. exact Hy.
Qed.

(** *** the hypotheses are met (QP of CondProps.v, every constraint active with a positive multiplier) *)
Example ex_exp_pre : forall alg0, cond_pre alg0 (fun _ => true) ex_qp ex_den /\ (let '(q, _, _, _) := cond_qp alg0 true (fun _ => true) ex_qp ex_den w0 in lam_masked q (fun _ => 1)).
Proof.
  intros alg0. split; [apply ex_cond_pre|]. pose proof (C28_constraints alg0 true (fun _ => true) ex_qp ex_den w0 (ex_cond_pre alg0)) as C.
  destruct (cond_qp alg0 true (fun _ => true) ex_qp ex_den w0) as [[[q w'] BA] RSQ]. destruct C as (_ & _ & pos & (_ & _ & N3) & C). intros c Hc. right. destruct (N3 c Hc) as (i & c' & Hi & Hc' & <-). destruct (C (fun _ => 0) i c' Hi Hc') as (_ & -> & _). reflexivity.
Qed.

(** *** without it: a multiplier left on a masked-out state bound of the dense solution, though ignored by the dense residuals, enters the
    multipliers of the dynamics; the dense point is a KKT point, the expanded one is not *)
Definition mm_dims : dims := mkdims 1 (fun i => i) (fun i => if (i =? 0)%nat then 1%nat else 0%nat) (fun i => i) (fun _ => 0%nat) (fun _ => 0%nat).
Definition mm_qp : oqp R := mkqp mm_dims (fun _ _ _ => 1) (fun _ _ _ => 1) (fun _ _ _ => 0) (fun _ _ => 0) (fun _ _ => 0) (fun _ _ => 0) (fun _ _ => 0) (fun _ _ => 0) (fun _ _ => 0) (fun _ _ => 0%nat) (fun _ _ => (-1)%Z).
Definition mm_den : dqp R := mkdqp 1 0 0 1 0 (fun _ _ => 0) (fun _ _ => 0) (fun _ _ => 0) (fun _ => 0) (fun _ => 0) (fun _ => 0) (fun _ => 1) (fun _ => 0) (fun _ => 0) (fun _ => 0%nat) (fun _ => (-1)%Z).
Definition mm_ds : dsol R := mkdsol (fun _ => 0) (fun _ => 0) (fun c => if (c =? 0)%nat then 1 else 0) (fun _ => 0).
Definition mm_sol : osol R := mksol (fun _ _ => 0) (fun _ _ => 0) (fun _ _ => 0) (fun _ _ => 0).
Definition mm_q : dqp R := fst (fst (fst (cond_qp true false (fun _ => false) mm_qp mm_den w0))).
Definition mm_BA : nat -> rmat := snd (fst (cond_qp true false (fun _ => false) mm_qp mm_den w0)).
Definition mm_RSQ : nat -> rmat := snd (cond_qp true false (fun _ => false) mm_qp mm_den w0).
Definition mm_s : osol R := fst (expand_sol true true true true (after mm_qp mm_BA mm_RSQ) mm_ds mm_sol w0).
Theorem C29_masked_multiplier_refuted : cond_pre true (fun _ => false) mm_qp mm_den /\ mask01 mm_qp /\ den_kkt_point mm_q mm_ds /\ kkt_g mm_qp (s_ux mm_s) (s_pi mm_s) (s_lam mm_s) 0 0 = -1.
Proof.
  split; [|split; [|split]].
  - split; [|split; [|split]].
    + intros i Hi. assert (E : i = 0%nat \/ i = 1%nat) by (cbn in Hi; lia). split.
      * intros j Hj. destruct E as [-> | ->]; cbn in *; lia.
      * intros j Hj. left; reflexivity.
    + unfold dense_size. repeat split; reflexivity.
    + reflexivity.
    + left. reflexivity.
  - intros i c _ _. left. reflexivity.
  - assert (E1 : dnv mm_q = 1%nat) by (vm_compute; reflexivity). assert (E2 : d_ne mm_q = 0%nat) by (vm_compute; reflexivity). assert (E3 : d_nct mm_q = 2%nat) by (vm_compute; reflexivity). split; [|split].
    + intros k Hk. rewrite E1 in Hk. destruct k; [|lia]. cbv -[Rplus Rmult Rminus Ropp IZR Rinv Rdiv]. lra.
    + intros j Hj. rewrite E2 in Hj. lia.
    + intros c Hc. rewrite E3 in Hc. do 2 (destruct c as [|c]; [cbv -[Rplus Rmult Rminus Ropp IZR Rinv Rdiv Rle]; repeat split; lra|]). lia.
  - cbv -[Rplus Rmult Rminus Ropp IZR Rinv Rdiv]. lra.
Qed.
Print Assumptions C29_trajectory.
Print Assumptions C29_flags.
Print Assumptions C29_residuals.
Print Assumptions C29_accuracy.
Print Assumptions C29_kkt_point.
Print Assumptions C29_optimal.
Print Assumptions C29_masked_multiplier_refuted.
