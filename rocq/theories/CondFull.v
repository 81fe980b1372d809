(** CondFull.v -- COND_QP_COND as a whole. *)
From Coq Require Import ZArith Bool Arith Lia Reals Lra.
From Verif Require Import Base ArithF RSum Blas Blas2 OcpModel ResSpec ResProofs ResProofs2 CholProofs KktModel KktProofs KktProofs2 DenModel DenSpec CondModel CondSpec CondProofs CondCost CondCost2 CondCost3 CondCon CondCon2 CondCon3 CondSem.
Local Open Scope R_scope.

(** what the algorithm choice requires: the classical one nothing; the N^3 one diagonal cost where it is declared and no input in the last stage *)
Definition alg_ok (alg0 : bool) (diag : nat -> bool) (qp : oqp R) (M : nat) : Prop :=
  alg0 = true \/ (dnu (q_dim qp) M = 0%nat /\ diag_ok qp M diag) \/ M = 0%nat.

Lemma cond_rsqrq_R last alg0 sq diag qp w H2 g2 : let M := last_stage last (dN (q_dim qp)) in
  alg_ok alg0 diag qp M -> (forall i, (i < M)%nat -> GIV qp M (cw_Gamma w) (cw_Gammab w) i) ->
  let '(BA, RSQ, w', H, g) := cond_rsqrq alg0 sq diag last qp w H2 g2 in
  (exists K, forall v, 1 / 2 * Qo H 0 (n_hard qp M) v + rsum (n_hard qp M) (fun k => g k * v k) = rsum (S M) (hardc qp (traj qp M v)) + K) /\
  cw_Gamma w' = cw_Gamma w /\ cw_Gammab w' = cw_Gammab w /\
  (forall i r c, (r < nux qp i)%nat -> BA i r c = q_BAbt qp i r c) /\ (forall i r c, (c <= r < nux qp i)%nat -> RSQ i r c = q_RSQ qp i r c).
Proof.
  cbv zeta. unfold cond_rsqrq. set (M := last_stage last (dN (q_dim qp))). intros Ha HG. destruct (Nat.eqb_spec M 0) as [E0|E0].
  - rewrite E0 in *. split; [|repeat split; reflexivity]. exists 0. intros v. cbn [rsum]. rewrite Rplus_0_r, Rplus_0_l.
    assert (En : n_hard qp 0 = nux qp 0) by (unfold n_hard, uoff; reflexivity). rewrite En. fold (nux qp 0). unfold hardc. f_equal; [f_equal|].
    + unfold Qo. apply rsum_ext. intros i Hi. apply rsum_ext. intros j Hj. rewrite !traj_0 by assumption. change (uoff qp 0 0) with 0%nat. cbn [Nat.add]. f_equal. f_equal.
      unfold symL, GECP. destruct (Nat.leb_spec j i); rewrite mblk_i by lia; cbn [Nat.add]; f_equal; lia.
    + apply rsum_ext. intros k Hk. rewrite traj_0 by exact Hk. change (uoff qp 0 0) with 0%nat. cbn [Nat.add]. unfold VECCP. rewrite vset_in' by lia. f_equal. f_equal. lia.
  - change (nsum (M + 1) (dnu (q_dim qp))) with (nu2_of qp M). destruct alg0.
    + set (s0 := mkrst _ _ _ _ _ _ _ _ _).
      assert (HF : forall i, fresh qp s0 i) by (intros i; split; reflexivity).
      pose proof (rsq_alg0_R qp M (cw_Gamma w) sq s0 ltac:(lia) HF) as R0. set (s := rsq_alg0 _ _ _ _ _ s0) in *. clearbody s.
      destruct (PhiH_alg0 qp M (cw_Gamma w) (cw_Gammab w) s ltac:(lia) HG R0) as (K & HK). cbn [cw_Gamma cw_Gammab]. split; [|split; [reflexivity|split; [reflexivity|]]].
      * exists K. intros v. rewrite <- HK. unfold PhiH. f_equal. apply rsum_ext. intros k Hk. f_equal. rewrite <- n_hard_eq. unfold ROWEX. rewrite vset_in' by lia. rsimp. rewrite R_lit11, Rmult_1_l. f_equal. lia.
      * destruct R0 as (_ & _ & _ & _ & R5 & _). split; [intros i r c Hr; apply (proj1 (R5 i)); exact Hr|intros i r c Hr; apply (proj2 (R5 i)); lia].
    + destruct Ha as [Ha|[(Hu & Hdg)|Ha]]; [discriminate| |contradiction]. set (s0 := mkrst1 _ _ _ _ _ _ _).
      assert (HF : lowRSQ qp s0) by (intros i r c _; reflexivity).
      pose proof (rsq_alg1_R qp M (cw_Gamma w) (cw_Gammab w) diag Hdg HG s0 ltac:(lia) HF) as R0. cbv zeta in R0. set (s := rsq_alg1 _ _ _ _ _ s0) in *. clearbody s. destruct R0 as ((K & HK) & R1 & R2).
      cbn [cw_Gamma cw_Gammab]. split; [|split; [reflexivity|split; [reflexivity|split; [reflexivity|exact R1]]]].
      exists K. intros v. rewrite <- HK. unfold PhiH. f_equal. apply rsum_ext. intros k Hk. rewrite R2 by assumption. reflexivity.
Qed.

Lemma ddims_ok_ext qp M q q' : d_nv q' = d_nv q /\ d_ne q' = d_ne q /\ d_nb q' = d_nb q /\ d_ng q' = d_ng q /\ d_ns q' = d_ns q -> ddims_ok qp M q -> ddims_ok qp M q'.
Proof. intros (A1 & A2 & A3 & A4 & A5). unfold ddims_ok. rewrite A1, A2, A3, A4, A5. auto. Qed.

(** everything condensing guarantees *)
Definition cond_post (qp : oqp R) (q : dqp R) (BA RSQ : nat -> rmat) : Prop := let M := dN (q_dim qp) in
  ddims_ok qp M q /\ (exists Gm Gb, CQ qp M Gm Gb q /\ forall i, (i < M)%nat -> GIV qp M Gm Gb i) /\
  (exists K, forall v, den_cost q v = cost qp (traj qp M v) + K) /\
  (forall i r c, (r < nux qp i)%nat -> BA i r c = q_BAbt qp i r c) /\ (forall i r c, (c <= r < nux qp i)%nat -> RSQ i r c = q_RSQ qp i r c).
Lemma cond_qp_R alg0 sq diag qp q0 w : let M := dN (q_dim qp) in
  qp_wf qp -> alg_ok alg0 diag qp M -> ddims_ok qp M q0 -> (forall p, (p < d_nb q0 + d_ng q0)%nat -> d_idxs_rev q0 p = (-1)%Z) ->
  let '(q, w', BA, RSQ) := cond_qp alg0 sq diag qp q0 w in cond_post qp q BA RSQ.
Proof.
  cbv zeta. intros Hwf Ha Hd H0. unfold cond_qp.
  set (M := dN (q_dim qp)) in *.
  assert (HB : let '(w1, _, _) := cond_babt true qp w (fun _ _ => f0) (fun _ => f0) in forall i, (i < M)%nat -> GIV qp M (cw_Gamma w1) (cw_Gammab w1) i).
  { unfold cond_babt. fold M. destruct (Nat.eqb_spec M 0) as [E|E]; cbn [andb]; [intros; lia|].
    pose proof (babt_loop_R qp M w ltac:(lia) ltac:(lia)) as B. destruct (babt_loop qp w) as [[G Gb] n]. cbn [cw_Gamma cw_Gammab]. exact (proj1 B). }
  destruct (cond_babt true qp w (fun _ _ => f0) (fun _ => f0)) as [[w1 x1] x2]. clear x1 x2.
  pose proof (cond_rsqrq_R true alg0 sq diag qp w1 (d_H q0) (d_gz q0) Ha HB) as R. destruct (cond_rsqrq alg0 sq diag true qp w1 (d_H q0) (d_gz q0)) as [[[[BA RSQ] w2] H] g]. destruct R as ((K & HK) & R2 & R3 & R4 & R5). fold M in HK.
  set (q1 := mkdqp _ _ _ _ _ _ _ _ _ _ _ _ _ _ _ _). set (qp' := mkqp _ _ _ _ _ _ _ _ _ _ _ _).
  assert (D1 : ddims_ok qp M q1) by (eapply ddims_ok_ext; [|exact Hd]; repeat split; reflexivity).
  assert (X : let q := fst (cond_dctd true qp' w2 q1) in CQ qp M (cw_Gamma w1) (cw_Gammab w1) q /\ SCall qp M (n_hard qp M) (nux qp) (q_rqz qp) g (d_gz q) /\ d_H q = H /\
     (d_nv q = d_nv q1 /\ d_ne q = d_ne q1 /\ d_nb q = d_nb q1 /\ d_ng q = d_ng q1 /\ d_ns q = d_ns q1)).
  { unfold cond_dctd, last_stage. rewrite R2, R3. change (dN (q_dim qp')) with M. rewrite andb_true_r. destruct (Nat.eqb_spec M 0) as [E|E].
    - cbn [fst]. rewrite E. exact (dctd_one_R qp (cw_Gamma w1) (cw_Gammab w1) q1 (Hwf 0%nat ltac:(lia))).
    - assert (Q : forall p, (p < count_nbb qp M + (count_nbg qp M + ngg_of qp M))%nat -> d_idxs_rev q1 p = (-1)%Z).
      { intros p Hp. destruct Hd as (_ & _ & E3 & E4 & _). apply H0. rewrite E3, E4. exact Hp. }
      exact (dctd_main_R qp M (cw_Gamma w1) (cw_Gammab w1) q1 (cw_nbg w2) Q). }
  destruct (cond_dctd true qp' w2 q1) as [q tbg]. cbv zeta in X. cbn [fst] in X. destruct X as (X1 & X2 & X3 & X4).
  assert (D2 : ddims_ok qp M q) by (eapply ddims_ok_ext; [exact X4|exact D1]).
  unfold cond_post. fold M. split; [exact D2|]. split; [exists (cw_Gamma w1), (cw_Gammab w1); split; assumption|]. split; [|split; assumption].
  exists K. intros v. unfold cost. fold M. rewrite Nat.add_1_r.
  apply (cost_traj qp M (cw_Gamma w1) (cw_Gammab w1) q D2 X1 K).
  - destruct X2 as (X2 & _). split; [exact X2|reflexivity].
  - intros v'. rewrite <- HK, X3. f_equal. apply rsum_ext. intros k Hk. rewrite (proj2 X2) by exact Hk. reflexivity.
Qed.

(** positions of the one-sided constraints *)
Section Pos.
Variables (qp : oqp R) (M : nat).
Notation D := (q_dim qp).
Notation pos := (pos qp M).
Notation nb2 := (count_nbb qp M).
Notation ng2 := (count_nbg qp M + ngg_of qp M)%nat.
Notation nsf := (n_soft qp M).
Lemma pos_lt i c : (i <= M)%nat -> (c < nct D i)%nat -> (pos i c < 2 * nb2 + 2 * ng2 + 2 * nsf)%nat.
Proof.
  intros Hi Hc. unfold nct in Hc. pose proof (so_fit qp M i Hi). unfold CondCon.pos. destruct (Nat.ltb_spec c (dnb D i + dng D i)); [|destruct (Nat.ltb_spec c (2 * (dnb D i + dng D i)))].
  - pose proof (posl_lt qp M i c ltac:(split; lia)). lia.
  - pose proof (posl_lt qp M i (c - (dnb D i + dng D i)) ltac:(split; lia)). lia.
  - destruct (Nat.ltb_spec c (2 * (dnb D i + dng D i) + dns D i)); lia.
Qed.
Lemma pos_inj i c i' c' : (i <= M)%nat -> (c < nct D i)%nat -> (i' <= M)%nat -> (c' < nct D i')%nat -> pos i c = pos i' c' -> i = i' /\ c = c'.
Proof.
  intros Hi Hc Hi' Hc'. unfold nct in Hc, Hc'. pose proof (so_fit qp M i Hi). pose proof (so_fit qp M i' Hi'). unfold CondCon.pos.
  destruct (Nat.ltb_spec c (dnb D i + dng D i)); [pose proof (posl_lt qp M i c ltac:(split; lia))|destruct (Nat.ltb_spec c (2 * (dnb D i + dng D i))); [pose proof (posl_lt qp M i (c - (dnb D i + dng D i)) ltac:(split; lia))|destruct (Nat.ltb_spec c (2 * (dnb D i + dng D i) + dns D i))]];
  (destruct (Nat.ltb_spec c' (dnb D i' + dng D i')); [pose proof (posl_lt qp M i' c' ltac:(split; lia))|destruct (Nat.ltb_spec c' (2 * (dnb D i' + dng D i'))); [pose proof (posl_lt qp M i' (c' - (dnb D i' + dng D i')) ltac:(split; lia))|destruct (Nat.ltb_spec c' (2 * (dnb D i' + dng D i') + dns D i'))]]);
  intros E; try (exfalso; lia).
  - apply (posl_inj qp M); try (split; lia). exact E.
  - destruct (posl_inj qp M i (c - (dnb D i + dng D i)) i' (c' - (dnb D i' + dng D i')) ltac:(split; lia) ltac:(split; lia) ltac:(lia)) as (-> & E2). split; [reflexivity|lia].
  - destruct (roff_inj M (dns D) i i' (c - 2 * (dnb D i + dng D i)) (c' - 2 * (dnb D i' + dng D i')) Hi Hi' ltac:(lia) ltac:(lia)) as (-> & E2); [change (roff M (dns D)) with (soff qp M); lia|]. split; [reflexivity|lia].
  - destruct (roff_inj M (dns D) i i' (c - 2 * (dnb D i + dng D i) - dns D i) (c' - 2 * (dnb D i' + dng D i') - dns D i') Hi Hi' ltac:(lia) ltac:(lia)) as (-> & E2); [change (roff M (dns D)) with (soff qp M); lia|]. split; [reflexivity|lia].
Qed.
Lemma pos_surj p : (p < 2 * nb2 + 2 * ng2 + 2 * nsf)%nat -> exists i c, (i <= M)%nat /\ (c < nct D i)%nat /\ pos i c = p.
Proof.
  intros Hp.
  assert (X : (exists i c, (i <= M)%nat /\ (c < nct D i)%nat /\ pos i c = p) \/ (forall i c, (i <= M)%nat -> (c < nct D i)%nat -> pos i c <> p)).
  { enough (Y : forall n, (n <= S M)%nat -> (exists i c, (i <= M)%nat /\ (c < nct D i)%nat /\ pos i c = p) \/ (forall i c, (i < n)%nat -> (c < nct D i)%nat -> pos i c <> p)).
    { destruct (Y (S M) ltac:(lia)) as [Y1|Y1]; [left; exact Y1|right]. intros i c Hi. apply Y1. lia. }
    induction n as [|n IH]; intros Hn; [right; intros; lia|]. destruct (IH ltac:(lia)) as [I|I]; [left; exact I|].
    enough (Z : forall m, (m <= nct D n)%nat -> (exists i c, (i <= M)%nat /\ (c < nct D i)%nat /\ pos i c = p) \/ (forall c, (c < m)%nat -> pos n c <> p)).
    { destruct (Z (nct D n) ltac:(lia)) as [Z1|Z1]; [left; exact Z1|right]. intros i c Hi Hc. destruct (Nat.eq_dec i n) as [->|]; [apply Z1; exact Hc|apply I; [lia|exact Hc]]. }
    induction m as [|m IHm]; intros Hm; [right; intros; lia|]. destruct (IHm ltac:(lia)) as [J|J]; [left; exact J|].
    destruct (Nat.eq_dec (pos n m) p) as [E|E]; [left; exists n, m; repeat split; try lia; exact E|right]. intros c Hc. destruct (Nat.eq_dec c m) as [->|]; [exact E|apply J; lia]. }
  destruct X as [X|X]; [exact X|exfalso]. pose proof (rsum_pos qp M (fun k => if (k =? p)%nat then 1 else 0)) as E.
  rewrite (rsum_0 (S M)) in E.
  - pose proof (rsum_one (2 * nb2 + 2 * ng2 + 2 * nsf) p (fun _ => 1) Hp) as E1. rewrite E1 in E. lra.
  - intros i Hi. apply rsum_0. intros c Hc. destruct (Nat.eqb_spec (pos i c) p) as [Ep|]; [|reflexivity]. exfalso. apply (X i c); [lia|exact Hc|exact Ep].
Qed.
End Pos.
