(** ExpKkt.v -- the KKT residuals of the expanded solution are those of the dense solution. *)
From Coq Require Import ZArith Bool Arith Lia Reals Lra.
From Verif Require Import Base ArithF RSum Blas Blas2 OcpModel ResSpec ResProofs ResProofs2 CholProofs KktModel KktProofs KktProofs2 DenModel DenSpec DenProofs CondModel ExpModel CondSpec CondProofs CondCost CondCost2 CondCon CondCon2 CondCon3 CondSem CondFull ExpProofs.
Local Open Scope R_scope.

Section Pi.
Variable qp : oqp R.
Notation D := (q_dim qp).
Notation nu := (dnu D).
Notation nx := (dnx D).
Notation nb := (dnb D).
Notation ng := (dng D).
Notation ns := (dns D).
Notation nux := (nux qp).
(** the state rows of stage i give the multiplier of the dynamics arriving at stage i *)
Definition pif (mid : bool) (i : nat) (ux lam : nat -> rvec) (pi : rvec) (j : nat) : R :=
  rsum (nux i) (fun l => symL (q_RSQ qp i) (nu i + j)%nat l * ux i l) + q_rqz qp i (nu i + j)%nat
  + (if mid then rsum (nx (S i)) (fun l => q_BAbt qp i (nu i + j)%nat l * pi l) else 0)
  + rsum (nb i + ng i) (fun c => row_co (nb i) (q_idxb qp i) (q_DCt qp i) c (nu i + j)%nat * (lam i (nb i + ng i + c)%nat - lam i c)).
Lemma exp_pi_stage_R mid i ux lam s : let '(pi, _, _) := s in let '(pi', _, _) := exp_pi_stage qp mid i ux lam s in
  (forall j, (j < nx i)%nat -> pi' (i - 1)%nat j = pif mid i ux lam (pi i) j) /\ (forall m, m <> (i - 1)%nat -> pi' m = pi m).
Proof.
  destruct s as [[pi tn] tb]. unfold exp_pi_stage. split.
  2:{ intros m Hm. rewrite upd_other by exact Hm. reflexivity. }
  intros j Hj. rewrite upd_same. unfold VECCP at 1. rewrite vset_in' by lia. rewrite Nat.sub_0_r.
  set (tb' := AXPY _ _ _ _ _ _ _ _).
  assert (TB : forall c, (c < nb i + ng i)%nat -> tb' c = lam i (nb i + ng i + c)%nat - lam i c).
  { intros c Hc. unfold tb', AXPY. rewrite vset_in' by lia. rsimp. rewrite R_lit11. rewrite Nat.sub_0_r. cbn [Nat.add]. lra. }
  clearbody tb'.
  set (t1 := VECCP _ _ _ _ _). set (t2 := VECAD_SP _ _ _ _ _ _ _). set (t3 := SYMV_L _ _ _ _ _ _ _ _ _ _ _ _). set (t4 := if mid then _ else _).
  assert (T3 : t3 (nu i + j)%nat = rsum (nux i) (fun l => symL (q_RSQ qp i) (nu i + j)%nat l * ux i l) + q_rqz qp i (nu i + j)%nat + rsum (nb i) (fun c => (if (q_idxb qp i c =? nu i + j)%nat then 1 else 0) * tb' c)).
  { unfold t3, SYMV_L. unfold ResSpec.nux. rewrite vset_in' by lia. rsimp. rewrite R_lit11, !Rmult_1_l, Nat.sub_0_r, fsum_R. unfold t2. cbn [Nat.add]. rewrite VECAD_SP_R. unfold t1, VECCP. rewrite vset_in' by lia.
    rewrite Rplus_comm, Rplus_assoc. f_equal. f_equal; [f_equal; lia|]. apply rsum_ext. intros c Hc. cbn [Nat.add]. rsimp. rewrite R_lit11. destruct (_ =? _)%nat; lra. }
  assert (T4 : t4 (nu i + j)%nat = t3 (nu i + j)%nat + (if mid then rsum (nx (S i)) (fun l => q_BAbt qp i (nu i + j)%nat l * pi i l) else 0)).
  { unfold t4. destruct mid; [|lra]. unfold GEMV_N. rewrite vset_in' by lia. rsimp. rewrite R_lit11, !Rmult_1_l, fsum_R. replace (nu i + (nu i + j - nu i))%nat with (nu i + j)%nat by lia. rewrite Nat.add_1_r. reflexivity. }
  unfold GEMV_N at 1. rewrite vset_in' by lia. rsimp. rewrite R_lit11, !Rmult_1_l, fsum_R. replace (nu i + (nu i + j - nu i))%nat with (nu i + j)%nat by lia. rewrite T4, T3. unfold pif.
  rewrite (rsum_split (nb i) (ng i) (fun c => _ * (lam i _ - lam i c))).
  assert (A1 : rsum (nb i) (fun c => row_co (nb i) (q_idxb qp i) (q_DCt qp i) c (nu i + j)%nat * (lam i (nb i + ng i + c)%nat - lam i c)) = rsum (nb i) (fun c => (if (q_idxb qp i c =? nu i + j)%nat then 1 else 0) * tb' c)).
  { apply rsum_ext. intros c Hc. rewrite TB by lia. unfold row_co. destruct (Nat.ltb_spec c (nb i)); [reflexivity|lia]. }
  assert (A2 : rsum (ng i) (fun c => row_co (nb i) (q_idxb qp i) (q_DCt qp i) (nb i + c)%nat (nu i + j)%nat * (lam i (nb i + ng i + (nb i + c))%nat - lam i (nb i + c)%nat)) = rsum (ng i) (fun c => q_DCt qp i (nu i + j)%nat (0 + c)%nat * tb' (nb i + c)%nat)).
  { apply rsum_ext. intros c Hc. rewrite TB by lia. unfold row_co. destruct (Nat.ltb_spec (nb i + c) (nb i)); [lia|]. cbn [Nat.add]. do 2 f_equal. lia. }
  rewrite A1, A2. lra.
Qed.
Lemma exp_pi_R ux lam pic s : (1 <= dN D)%nat -> let '(pi, _, _) := exp_pi qp true (dN D) pic ux lam s in
  forall i j, (1 <= i <= dN D)%nat -> (j < nx i)%nat -> pi (i - 1)%nat j = pif (i <? dN D)%nat i ux lam (pi i) j.
Proof.
  intros HN. unfold exp_pi. set (N := dN D) in *.
  pose proof (exp_pi_stage_R false N ux lam s) as S0. destruct s as [[p0 a0] b0]. set (s1 := exp_pi_stage qp false N ux lam (p0, a0, b0)) in *. clearbody s1.
  pose proof (loop_ind (fun n '(pi, _, _) => forall i j, (N - n <= i <= N)%nat -> (1 <= i)%nat -> (j < nx i)%nat -> pi (i - 1)%nat j = pif (i <? N)%nat i ux lam (pi i) j) (N - 1)
     (fun ii s => exp_pi_stage qp true (N - 1 - ii) ux lam s) s1) as L. cbv beta in L.
  destruct (loop _ _ _) as [[pi a] b]. intros i j Hi Hj. apply L; try lia; clear L pi a b i j Hi Hj.
  - destruct s1 as [[p1 a1] b1]. destruct S0 as (S1 & S2). intros i j Hi Hi1 Hj. assert (i = N) by lia. subst i. destruct (Nat.ltb_spec N N); [lia|]. exact (S1 j Hj).
  - intros n s2 Hn I. pose proof (exp_pi_stage_R true (N - 1 - n) ux lam s2) as S2. destruct s2 as [[p2 a2] b2]. destruct (exp_pi_stage qp true (N - 1 - n) ux lam (p2, a2, b2)) as [[p3 a3] b3]. destruct S2 as (S2 & S3).
    intros i j Hi Hi1 Hj. destruct (Nat.eq_dec i (N - 1 - n)) as [->|].
    + destruct (Nat.ltb_spec (N - 1 - n) N); [|lia]. rewrite (S3 (N - 1 - n)%nat) by lia. exact (S2 j Hj).
    + rewrite !S3 by lia. apply I; lia.
Qed.
(** with these multipliers the state rows of stages 1..N are stationary *)
Lemma pif_kkt ux lam pi i j : (1 <= i <= dN D)%nat -> (j < nx i)%nat -> (forall c, (c < nct D i)%nat -> q_mask qp i c * lam i c = lam i c) ->
  pi (i - 1)%nat j = pif (i <? dN D)%nat i ux lam (pi i) j -> kkt_g qp ux pi lam i (nu i + j)%nat = 0.
Proof.
  intros Hi Hj Hm E. unfold kkt_g. assert (Hk : (nu i + j < nux i)%nat) by (unfold ResSpec.nux; lia).
  destruct (Nat.ltb_spec (nu i + j) (nux i)); [|lia]. destruct (Nat.ltb_spec 0 i); [|lia]. destruct (Nat.leb_spec (nu i) (nu i + j)); [|lia]. cbn [andb]. rewrite andb_true_r.
  replace (nu i + j - nu i)%nat with j by lia. rewrite E. unfold pif, nvt, Hess. change (nu i + nx i)%nat with (nux i). rewrite H_hard by exact Hk.
  rewrite (rsum_ext (nct D i) _ (fun c => G qp i c (nu i + j)%nat * lam i c)) by (intros c Hc; rewrite Hm by exact Hc; reflexivity).
  unfold G, nct. rewrite GT_hard by exact Hk. lra.
Qed.
End Pi.

Section Lag.
Variables (qp : oqp R) (Gm : nat -> rmat) (Gb : nat -> rvec) (q : dqp R).
Notation D := (q_dim qp).
Notation M := (dN (q_dim qp)).
Notation nu := (dnu D).
Notation nx := (dnx D).
Notation ns := (dns D).
Notation uo := (uoff qp M).
Notation so := (soff qp M).
Notation nux := (nux qp).
Notation nh := (n_hard qp M).
Notation nsf := (n_soft qp M).
Notation pos := (pos qp M).
Notation tr := (traj qp M).
Hypothesis Hd : ddims_ok qp M q.
Hypothesis Hwf : wfM qp M.
Hypothesis HC : CQ qp M Gm Gb q.
Hypothesis HG : forall i, (i < M)%nat -> GIV qp M Gm Gb i.
Variable K : R.
Hypothesis HK : forall v, den_cost q v = cost qp (tr v) + K.

(** variables of the OCP QP that are variables of the dense QP, and their place there *)
Definition slot (i k : nat) : nat :=
  if (k <? nu i)%nat then (uo i + k)%nat else if (k <? nux i)%nat then (uo 0 + k)%nat
  else if (k <? nux i + ns i)%nat then (nh + so i + (k - nux i))%nat else (nh + nsf + so i + (k - nux i - ns i))%nat.
Definition free (i k : nat) : Prop := (i <= M)%nat /\ (k < nvt D i)%nat /\ (i = 0%nat \/ (k < nu i)%nat \/ (nux i <= k)%nat).
Lemma traj_slot v i k : free i k -> tr v i k = v (slot i k).
Proof.
  intros (H1 & H2 & H3). unfold traj, slot. destruct (Nat.ltb_spec k (nu i)); [reflexivity|]. destruct (Nat.ltb_spec k (nux i)).
  - assert (i = 0%nat) by lia. subst i. cbn [st]. f_equal. lia.
  - destruct (Nat.ltb_spec k (nux i + ns i)); reflexivity.
Qed.
Lemma slot_lt i k : free i k -> (slot i k < dnv q)%nat.
Proof.
  intros (H1 & H2 & H3). destruct Hd as (E1 & _ & _ & _ & E5). unfold dnv. rewrite E1, E5. pose proof (so_fit qp M i H1) as Hs. unfold nvt in H2. unfold slot. destruct (Nat.ltb_spec k (nu i)) as [L|L].
  - pose proof (uo_lt qp M i k H1 L). unfold n_hard. lia.
  - destruct (Nat.ltb_spec k (nux i)) as [L2|L2].
    + assert (i = 0%nat) by lia. subst i. unfold n_hard. unfold ResSpec.nux in L2. lia.
    + unfold ResSpec.nux in *. destruct (Nat.ltb_spec k (nu i + nx i + ns i)); lia.
Qed.
Lemma slot_inj i k i' k' : free i k -> free i' k' -> slot i k = slot i' k' -> i = i' /\ k = k'.
Proof.
  intros (H1 & H2 & H3) (H1' & H2' & H3'). pose proof (so_fit qp M i H1) as Hs. pose proof (so_fit qp M i' H1') as Hs'. unfold nvt in H2, H2'.
  pose proof (fun L => uo_lt qp M i k H1 L) as U. pose proof (fun L => uo_lt qp M i' k' H1' L) as U'. unfold slot.
  destruct (Nat.ltb_spec k (nu i)) as [L|L]; [specialize (U L)|clear U; destruct (Nat.ltb_spec k (nux i)) as [L2|L2]; [|destruct (Nat.ltb_spec k (nux i + ns i)) as [L3|L3]]];
  (destruct (Nat.ltb_spec k' (nu i')) as [L'|L']; [specialize (U' L')|clear U'; destruct (Nat.ltb_spec k' (nux i')) as [L2'|L2']; [|destruct (Nat.ltb_spec k' (nux i' + ns i')) as [L3'|L3']]]);
  unfold n_hard; intros E;
  try (assert (i = 0%nat) by (unfold ResSpec.nux in *; lia); subst i); try (assert (i' = 0%nat) by (unfold ResSpec.nux in *; lia); subst i'); unfold ResSpec.nux in *; try (exfalso; lia); try (split; lia).
  - exact (roff_inj M nu i i' k k' H1 H1' L L' E).
  - destruct (roff_inj M ns i i' (k - (nu i + nx i)) (k' - (nu i' + nx i')) H1 H1' ltac:(lia) ltac:(lia)) as (-> & E2); [change (roff M ns) with so; lia|]. split; [reflexivity|lia].
  - destruct (roff_inj M ns i i' (k - (nu i + nx i) - ns i) (k' - (nu i' + nx i') - ns i') H1 H1' ltac:(lia) ltac:(lia)) as (-> & E2); [change (roff M ns) with so; lia|]. split; [reflexivity|lia].
Qed.
(** trajectories are affine in v *)
Lemma st_mid v e i : forall j, st qp M (fun p => v p + e p) i j + st qp M (fun p => v p - e p) i j = 2 * st qp M v i j.
Proof.
  induction i as [|i IH]; intros j; cbn [st]; [lra|].
  assert (A : forall n (c : nat -> R) (a b x : nat -> R), (forall k, (k < n)%nat -> a k + b k = 2 * x k) -> rsum n (fun k => c k * a k) + rsum n (fun k => c k * b k) = 2 * rsum n (fun k => c k * x k)).
  { intros n c a b x H. rewrite <- rsum_add, <- rsum_scal. apply rsum_ext. intros k Hk. specialize (H k Hk). replace (c k * a k + c k * b k) with (c k * (a k + b k)) by ring. rewrite H. ring. }
  pose proof (A (nu i) (fun k => q_BAbt qp i k j) (fun k => v (uo i + k)%nat + e (uo i + k)%nat) (fun k => v (uo i + k)%nat - e (uo i + k)%nat) (fun k => v (uo i + k)%nat)) as A1.
  pose proof (A (nx i) (fun k => q_BAbt qp i (nu i + k)%nat j) (st qp M (fun p => v p + e p) i) (st qp M (fun p => v p - e p) i) (st qp M v i) (fun k _ => IH k)) as A2.
  cbv beta in A1, A2. specialize (A1 ltac:(intros; lra)). lra.
Qed.
Lemma tr_mid v e i k : tr (fun p => v p + e p) i k - tr v i k = - (tr (fun p => v p - e p) i k - tr v i k).
Proof.
  unfold traj. destruct (k <? nu i)%nat; [lra|]. destruct (k <? nux i)%nat; [pose proof (st_mid v e i (k - nu i)); lra|]. destruct (k <? nux i + ns i)%nat; lra.
Qed.
(** Lagrangians agree along trajectories *)
Lemma lagr_traj v pid pi lamd lam : (forall i c, (i <= M)%nat -> (c < nct D i)%nat -> lam i c = lamd (pos i c)) -> den_lagr q v pid lamd = lagr qp (tr v) pi lam + K.
Proof.
  intros HL. unfold den_lagr, lagr. rewrite HK. destruct Hd as (E1 & E2 & E3 & E4 & E5). rewrite E2. cbn [rsum]. unfold d_nct. rewrite E3, E4, E5.
  rewrite (rsum_0 (dN D) (fun i => rsum (nx (S i)) _)).
  2:{ intros i Hi. apply rsum_0. intros j Hj. rewrite traj_dyn by assumption. lra. }
  rewrite (rsum_pos qp M (fun c => d_mask q c * lamd c * (den_con q v c - d_d q c))). rewrite Nat.add_1_r.
  enough (E : rsum (S M) (fun i => rsum (nct D i) (fun c => d_mask q (pos i c) * lamd (pos i c) * (den_con q v (pos i c) - d_d q (pos i c)))) = rsum (S M) (fun i => rsum (nct D i) (fun c => q_mask qp i c * lam i c * (con qp (tr v) i c - q_d qp i c)))) by (rewrite E; lra).
  apply rsum_ext. intros i Hi. apply rsum_ext. intros c Hc. destruct (con_traj qp M Gm Gb q Hd Hwf HC HG v i c ltac:(lia) Hc) as (C1 & C2 & _). rewrite C1, C2, HL by (try exact Hc; lia). reflexivity.
Qed.
Lemma kkt_g_free v pid pi lamd lam : (forall i c, (i <= M)%nat -> (c < nct D i)%nat -> lam i c = lamd (pos i c)) ->
  (forall i j, (1 <= i <= M)%nat -> (j < nx i)%nat -> kkt_g qp (tr v) pi lam i (nu i + j)%nat = 0) ->
  forall i k, free i k -> kkt_g qp (tr v) pi lam i k = den_kkt_g q v pid lamd (slot i k).
Proof.
  intros HL H0 i0 k0 HF. set (e := fun p => if (p =? slot i0 k0)%nat then 1 else 0).
  pose proof (lagr_traj (fun p => v p + e p) pid pi lamd lam HL) as Lp. pose proof (lagr_traj (fun p => v p - e p) pid pi lamd lam HL) as Lm. pose proof (lagr_traj v pid pi lamd lam HL) as L0.
  rewrite (den_lagr_expand q v pid lamd) in Lp, Lm. rewrite (lagr_expand qp (tr v) pi lam) in Lp, Lm.
  set (g := kkt_g qp (tr v) pi lam) in *. set (dg := den_kkt_g q v pid lamd) in *.
  rewrite (rsum_ext (dnv q) (fun k => dg k * (v k + e k - v k)) (fun k => if (k =? slot i0 k0)%nat then dg k else 0)) in Lp by (intros k _; unfold e; destruct (k =? slot i0 k0)%nat; lra).
  rewrite (rsum_ext (dnv q) (fun k => dg k * (v k - e k - v k)) (fun k => - (if (k =? slot i0 k0)%nat then dg k else 0))) in Lm by (intros k _; unfold e; destruct (k =? slot i0 k0)%nat; lra).
  rewrite rsum_opp in Lm. rewrite (rsum_one (dnv q) (slot i0 k0) dg (slot_lt i0 k0 HF)) in Lp, Lm.
  rewrite (rsum_ext (dnv q) (fun k => rsum (dnv q) (fun l => (v k - e k - v k) * _ * _)) (fun k => rsum (dnv q) (fun l => (v k + e k - v k) * den_Hess q k l * (v l + e l - v l)))) in Lm by (intros k _; apply rsum_ext; intros l _; ring).
  assert (EQ : rsum (dN D + 1) (fun i => rsum (nvt D i) (fun k => rsum (nvt D i) (fun l => (tr (fun p => v p - e p) i k - tr v i k) * Hess qp i k l * (tr (fun p => v p - e p) i l - tr v i l)))) =
     rsum (dN D + 1) (fun i => rsum (nvt D i) (fun k => rsum (nvt D i) (fun l => (tr (fun p => v p + e p) i k - tr v i k) * Hess qp i k l * (tr (fun p => v p + e p) i l - tr v i l))))).
  { apply rsum_ext. intros i _. apply rsum_ext. intros k _. apply rsum_ext. intros l _. rewrite !tr_mid. ring. }
  rewrite EQ in Lm. clear EQ.
  assert (EP : dot2 (dN D + 1) (nvt D) g (fun i k => tr (fun p => v p + e p) i k - tr v i k) = g i0 k0).
  { unfold dot2. assert (HF' := HF). destruct HF' as (F1 & F2 & F3). rewrite <- (rsum_one' (dN D + 1) i0 (fun i => g i k0)) by lia. apply rsum_ext. intros i Hi. destruct (Nat.eqb_spec i0 i) as [->|Hne].
    - rewrite <- (rsum_one' (nvt D i) k0 (g i)) by exact F2. apply rsum_ext. intros k Hk. destruct (le_lt_dec i 0) as [Z|Z]; [|destruct (Nat.lt_ge_cases k (nu i)); [|destruct (Nat.lt_ge_cases k (nux i))]].
      + assert (FF : free i k) by (split; [lia|split; [exact Hk|left; lia]]). rewrite !traj_slot by exact FF. unfold e. destruct (Nat.eqb_spec (slot i k) (slot i k0)) as [E|E]; destruct (Nat.eqb_spec k0 k) as [E2|E2]; try lra.
        * exfalso. destruct (slot_inj i k i k0 FF HF E). lia.
        * exfalso. subst k. apply E. reflexivity.
      + assert (FF : free i k) by (split; [lia|split; [exact Hk|lia]]). rewrite !traj_slot by exact FF. unfold e. destruct (Nat.eqb_spec (slot i k) (slot i k0)) as [E|E]; destruct (Nat.eqb_spec k0 k) as [E2|E2]; try lra.
        * exfalso. destruct (slot_inj i k i k0 FF HF E). lia.
        * exfalso. subst k. apply E. reflexivity.
      + replace (g i k) with 0. 2:{ symmetry. replace k with (nu i + (k - nu i))%nat by lia. apply H0; [lia|unfold ResSpec.nux in *; lia]. } destruct (Nat.eqb_spec k0 k); lra.
      + assert (FF : free i k) by (split; [lia|split; [exact Hk|lia]]). rewrite !traj_slot by exact FF. unfold e. destruct (Nat.eqb_spec (slot i k) (slot i k0)) as [E|E]; destruct (Nat.eqb_spec k0 k) as [E2|E2]; try lra.
        * exfalso. destruct (slot_inj i k i k0 FF HF E). lia.
        * exfalso. subst k. apply E. reflexivity.
    - apply rsum_0. intros k Hk. assert (X : free i k \/ g i k = 0).
      { destruct (le_lt_dec i 0) as [Z|Z]; [left; split; [lia|split; [exact Hk|lia]]|]. destruct (Nat.lt_ge_cases k (nu i)); [left; split; [lia|split; [exact Hk|lia]]|]. destruct (Nat.lt_ge_cases k (nux i)); [right|left; split; [lia|split; [exact Hk|lia]]].
        replace k with (nu i + (k - nu i))%nat by lia. apply H0; [lia|unfold ResSpec.nux in *; lia]. }
      destruct X as [FF|X]; [|rewrite X; lra]. rewrite !traj_slot by exact FF. unfold e. destruct (Nat.eqb_spec (slot i k) (slot i0 k0)) as [E|E]; [|lra]. destruct (slot_inj i k i0 k0 FF HF E). congruence. }
  assert (EM : dot2 (dN D + 1) (nvt D) g (fun i k => tr (fun p => v p - e p) i k - tr v i k) = - g i0 k0).
  { rewrite <- EP. unfold dot2. rewrite <- rsum_opp. apply rsum_ext. intros i _. rewrite <- rsum_opp. apply rsum_ext. intros k _. rewrite (tr_mid v e i k). ring. }
  rewrite EP in Lp. rewrite EM in Lm. lra.
Qed.
Lemma kkt_d_pos v td t i c : (forall i c, (i <= M)%nat -> (c < nct D i)%nat -> t i c = td (pos i c)) -> (i <= M)%nat -> (c < nct D i)%nat ->
  kkt_d qp (tr v) t i c = den_kkt_d q v td (pos i c).
Proof.
  intros HT Hi Hc. destruct (con_traj qp M Gm Gb q Hd Hwf HC HG v i c Hi Hc) as (C1 & C2 & _). unfold kkt_d, den_kkt_d. rewrite C2, HT by assumption. f_equal. lra.
Qed.
Lemma kkt_m_pos lamd td lam t i c : (forall i c, (i <= M)%nat -> (c < nct D i)%nat -> lam i c = lamd (pos i c)) -> (forall i c, (i <= M)%nat -> (c < nct D i)%nat -> t i c = td (pos i c)) -> (i <= M)%nat -> (c < nct D i)%nat ->
  kkt_m qp lam t i c = den_kkt_m q lamd td (pos i c).
Proof.
  intros HL HT Hi Hc. destruct (con_traj qp M Gm Gb q Hd Hwf HC HG (fun _ => 0) i c Hi Hc) as (_ & C2 & C3). unfold kkt_m, den_kkt_m. rewrite C2, C3, HL, HT by assumption. reflexivity.
Qed.
End Lag.
