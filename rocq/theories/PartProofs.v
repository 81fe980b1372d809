(** PartProofs.v -- one block of partial condensing; the loop over the blocks. *)
From Coq Require Import ZArith Bool Arith Lia Reals Lra.
From Verif Require Import Base ArithF RSum Blas Blas2 OcpModel ResSpec ResProofs ResProofs2 CholProofs KktModel KktProofs KktProofs2 DenModel DenSpec CondModel CondSpec CondProofs CondCost CondCost2 CondCost3 CondCon CondCon2 CondCon3 CondSem CondFull CondProps ExpModel ExpProps PartModel PartSpec.
Local Open Scope R_scope.

(** what condensing a block guarantees, in terms of the block's own QP *)
Definition block_sem (last : bool) (qp : oqp R) (q : dqp R) (BA2 : rmat) (b2 : rvec) : Prop := let M := last_stage last (dN (q_dim qp)) in
  ddims_ok qp M q /\ den_wf q /\
  (forall v i c, (i <= M)%nat -> (c < nct (q_dim qp) i)%nat ->
     den_con q v (pos qp M i c) - d_d q (pos qp M i c) = con qp (traj qp M v) i c - q_d qp i c /\ d_mask q (pos qp M i c) = q_mask qp i c /\ d_m q (pos qp M i c) = q_m qp i c) /\
  (exists K, forall v, den_cost q v = rsum (S M) (stage_cost qp (traj qp M v)) + K) /\
  (last = false -> forall v j, (j < dnx (q_dim qp) (dN (q_dim qp)))%nat -> rsum (n_hard qp M) (fun k => BA2 k j * v k) + b2 j = st qp M v (dN (q_dim qp)) j).
Definition same_info (qp : oqp R) (BA RSQ : nat -> rmat) : Prop :=
  (forall i r c, (r < nux qp i)%nat -> BA i r c = q_BAbt qp i r c) /\ (forall i r c, (c <= r < nux qp i)%nat -> RSQ i r c = q_RSQ qp i r c).

Lemma cond_block_R last alg0 sq diag qp q0 BA2 b2 w : let M := last_stage last (dN (q_dim qp)) in
  (last = false -> (1 <= dN (q_dim qp))%nat) -> wfM qp M -> alg_ok alg0 diag qp M -> ddims_ok qp M q0 -> (forall p, (p < d_nb q0 + d_ng q0)%nat -> d_idxs_rev q0 p = (-1)%Z) ->
  let '(q, BA2', b2', w', BA, RSQ) := cond_block last alg0 sq diag qp q0 BA2 b2 w in block_sem last qp q BA2' b2' /\ same_info qp BA RSQ.
Proof.
  cbv zeta. set (N := dN (q_dim qp)). set (M := last_stage last N). intros HN Hwf Ha Hd H0. unfold cond_block.
  assert (HNM : (N <= S M)%nat) by (unfold M, last_stage; destruct last; lia).
  assert (HB : let '(w1, BA1, b1) := cond_babt last qp w BA2 b2 in (forall i, (i < M)%nat -> GIV qp M (cw_Gamma w1) (cw_Gammab w1) i) /\
      (last = false -> forall v j, (j < dnx (q_dim qp) N)%nat -> rsum (n_hard qp M) (fun k => BA1 k j * v k) + b1 j = st qp M v N j)).
  { unfold cond_babt. fold N. destruct (Nat.eqb_spec N 0) as [E|E].
    - destruct last; [|specialize (HN eq_refl); lia]. cbn [andb]. split; [unfold M, last_stage; intros; lia|discriminate].
    - cbn [andb]. pose proof (babt_loop_R qp M w ltac:(fold N; lia) ltac:(fold N; lia)) as B. destruct (babt_loop qp w) as [[G Gb] n]. destruct B as (B1 & B2). fold N in B1, B2. destruct last.
      + cbn [cw_Gamma cw_Gammab]. split; [|discriminate]. intros i Hi. apply B1. unfold M, last_stage in Hi. exact Hi.
      + cbn [cw_Gamma cw_Gammab]. split; [intros i Hi; apply B1; unfold M, last_stage in Hi; lia|]. intros _ v j Hj.
        assert (EN : N = S M) by (unfold M, last_stage; lia). rewrite EN in Hj |- *. destruct (B1 M ltac:(lia) j Hj) as (C1 & _). rewrite (C1 v). rewrite uoff_M. cbn [Nat.add].
        replace (S M - 1)%nat with M by lia. rewrite EN in B2. replace (S M - 1)%nat with M in B2 by lia. rewrite B2.
        assert (EH : n_hard qp M = (nuf qp M + dnx (q_dim qp) 0)%nat) by (rewrite n_hard_eq; unfold nu2_of, nuf; rewrite Nat.add_1_r; reflexivity). rewrite EH. f_equal.
        * apply rsum_ext. intros k Hk. f_equal. unfold GECP. rewrite mblk_i by lia. rewrite !Nat.sub_0_r. reflexivity.
        * unfold ROWEX. rewrite vset_in' by lia. rsimp. rewrite R_lit11, Nat.sub_0_r. cbn [Nat.add]. lra. }
  destruct (cond_babt last qp w BA2 b2) as [[w1 BA1] b1]. destruct HB as (HB & HD).
  pose proof (cond_rsqrq_R last alg0 sq diag qp w1 (d_H q0) (d_gz q0)) as R. cbv zeta in R. fold N in R. fold M in R. specialize (R Ha HB). destruct (cond_rsqrq alg0 sq diag last qp w1 (d_H q0) (d_gz q0)) as [[[[BA RSQ] w2] H] g]. destruct R as ((K & HK) & R2 & R3 & R4 & R5).
  set (q1 := mkdqp _ _ _ _ _ _ _ _ _ _ _ _ _ _ _ _). set (qp' := with_mats qp BA RSQ).
  assert (D1 : ddims_ok qp M q1) by (eapply ddims_ok_ext; [|exact Hd]; repeat split; reflexivity).
  assert (X : let q := fst (cond_dctd last qp' w2 q1) in CQ qp M (cw_Gamma w1) (cw_Gammab w1) q /\ SCall qp M (n_hard qp M) (nux qp) (q_rqz qp) g (d_gz q) /\ d_H q = H /\
     (d_nv q = d_nv q1 /\ d_ne q = d_ne q1 /\ d_nb q = d_nb q1 /\ d_ng q = d_ng q1 /\ d_ns q = d_ns q1)).
  { unfold cond_dctd. rewrite R2, R3. change (dN (q_dim qp')) with N. fold M. destruct (andb (Nat.eqb M 0) last) eqn:E.
    - apply andb_true_iff in E. destruct E as (E & _). apply Nat.eqb_eq in E. cbn [fst]. rewrite E. exact (dctd_one_R qp (cw_Gamma w1) (cw_Gammab w1) q1 (Hwf 0%nat ltac:(lia))).
    - assert (Q : forall p, (p < count_nbb qp M + (count_nbg qp M + ngg_of qp M))%nat -> d_idxs_rev q1 p = (-1)%Z).
      { intros p Hp. destruct Hd as (_ & _ & E3 & E4 & _). apply H0. rewrite E3, E4. exact Hp. }
      exact (dctd_main_R qp M (cw_Gamma w1) (cw_Gammab w1) q1 (cw_nbg w2) Q). }
  destruct (cond_dctd last qp' w2 q1) as [q tbg]. cbv zeta in X. cbn [fst] in X. destruct X as (X1 & X2 & X3 & X4).
  assert (D2 : ddims_ok qp M q) by (eapply ddims_ok_ext; [exact X4|exact D1]).
  split; [|split; assumption]. unfold block_sem. fold N. fold M. split; [exact D2|]. split; [exact (den_wf_ok qp M _ _ q D2 Hwf X1)|]. split; [|split; [|exact HD]].
  - intros v i c Hi Hc. exact (con_traj qp M _ _ q D2 Hwf X1 HB v i c Hi Hc).
  - exists K. apply (cost_traj qp M (cw_Gamma w1) (cw_Gammab w1) q D2 X1 K).
    + destruct X2 as (X2 & _). split; [exact X2|reflexivity].
    + intros v'. rewrite <- HK, X3. f_equal. apply rsum_ext. intros k Hk. rewrite (proj2 X2) by exact Hk. reflexivity.
Qed.

(** the semantic guarantees do not depend on the entries of BAbt, RSQrq without meaning *)
Lemma block_sem_info last qp BA RSQ q BA2 b2 : same_info qp BA RSQ -> block_sem last (with_mats qp BA RSQ) q BA2 b2 -> block_sem last qp q BA2 b2.
Proof.
  intros (I1 & I2) (S1 & S2 & S3 & (K & S4) & S5). set (M := last_stage last (dN (q_dim qp))) in *.
  assert (T : forall v i k, traj (with_mats qp BA RSQ) M v i k = traj qp M v i k) by exact (after_traj qp BA RSQ I1 M).
  split; [exact S1|]. split; [exact S2|]. split; [|split].
  - intros v i c Hi Hc. destruct (S3 v i c Hi Hc) as (C1 & C2 & C3). split; [|split; assumption]. etransitivity; [exact C1|]. apply (f_equal (fun u => u - q_d qp i c)). unfold con. apply rsum_ext. intros k _. rewrite <- T. reflexivity.
  - exists K. intros v. rewrite S4. apply (f_equal (fun u => u + K)). apply rsum_ext. intros i _. unfold stage_cost. change (q_dim (with_mats qp BA RSQ)) with (q_dim qp). change (q_rqz (with_mats qp BA RSQ)) with (q_rqz qp). fold M. f_equal.
    + f_equal. apply rsum_ext. intros k _. apply rsum_ext. intros l _. rewrite !T. f_equal. f_equal. unfold Hess, H_co. change (nux (with_mats qp BA RSQ) i) with (nux qp i). change (q_RSQ (with_mats qp BA RSQ)) with RSQ. change (q_Z (with_mats qp BA RSQ)) with (q_Z qp).
      destruct (Nat.ltb_spec k (nux qp i)); [|reflexivity]. destruct (Nat.ltb_spec l (nux qp i)); [|reflexivity]. destruct (Nat.leb_spec l k); apply I2; lia.
    + apply rsum_ext. intros k _. rewrite T. reflexivity.
  - intros L v j Hj. etransitivity; [exact (S5 L v j Hj)|exact (after_st qp BA RSQ I1 M v (dN (q_dim qp)) j)].
Qed.

(** the loop over the blocks *)
Lemma stage_put (p : oqp R) ii q BA b : d_nv q = (dnu (q_dim p) ii + dnx (q_dim p) ii)%nat -> d_nb q = dnb (q_dim p) ii -> d_ng q = dng (q_dim p) ii -> d_ns q = dns (q_dim p) ii ->
  stage_q (put_stage p ii q BA b) ii = mkdqp (d_nv q) 0 (d_nb q) (d_ng q) (d_ns q) (d_H q) (fun _ _ => f0) (d_Ct q) (d_gz q) (fun _ => f0) (d_d q) (d_mask q) (d_m q) (d_Z q) (d_idxb q) (d_idxs_rev q).
Proof. intros -> -> -> ->. unfold stage_q, put_stage. cbn [q_dim q_RSQ q_DCt q_rqz q_d q_mask q_m q_Z q_idxb q_idxs_rev]. rewrite !upd_same. reflexivity. Qed.
Lemma stage_put_other (p : oqp R) ii q BA b k : k <> ii -> stage_q (put_stage p ii q BA b) k = stage_q p k.
Proof. intros H. unfold stage_q, put_stage. cbn [q_dim q_RSQ q_DCt q_rqz q_d q_mask q_m q_Z q_idxb q_idxs_rev]. rewrite !upd_other by exact H. reflexivity. Qed.
Lemma same_info_merge qp BA RSQ o n BA' RSQ' : same_info qp BA RSQ -> same_info (sub_qp (with_mats qp BA RSQ) o n) BA' RSQ' -> same_info qp (merge o BA' BA) (merge o RSQ' RSQ).
Proof.
  intros (I1 & I2) (J1 & J2). split; intros i r c Hr; unfold merge; destruct (Nat.leb_spec o i) as [L|L]; try (apply I1; exact Hr); try (apply I2; exact Hr).
  - specialize (J1 (i - o)%nat r c). assert (E : (o + (i - o) = i)%nat) by lia. unfold nux in J1. cbn [sub_qp q_dim sub_dims with_mats dnu dnx q_BAbt] in J1. unfold from in J1. rewrite E in J1. rewrite J1 by exact Hr. apply I1. exact Hr.
  - specialize (J2 (i - o)%nat r c). assert (E : (o + (i - o) = i)%nat) by lia. unfold nux in J2. cbn [sub_qp q_dim sub_dims with_mats dnu dnx q_RSQ] in J2. unfold from in J2. rewrite E in J2. rewrite J2 by exact Hr. apply I2. exact Hr.
Qed.
Lemma same_info_refl qp : same_info qp (q_BAbt qp) (q_RSQ qp).
Proof. split; reflexivity. Qed.

Section Loop.
Variables (qp p : oqp R) (ws : nat -> cws R) (N2 : nat) (bs : nat -> nat) (alg0 sq diag : nat -> bool).
Notation last := (last_default N2).
Hypothesis Hwf : qp_wf qp.
Hypothesis HB : blocks_ok (dN (q_dim qp)) N2 bs.
Hypothesis HS : part_size qp N2 bs p.
Hypothesis Hidx : forall ii c, (ii <= N2)%nat -> (c < dnb (q_dim p) ii + dng (q_dim p) ii)%nat -> q_idxs_rev p ii c = (-1)%Z.
Hypothesis Ha : forall ii, (ii <= N2)%nat -> alg_ok (alg0 ii) (from (start bs ii) diag) (block qp bs ii) (blen N2 bs ii).
Lemma start_le ii : (ii <= N2)%nat -> (start bs ii + blen N2 bs ii <= dN (q_dim qp))%nat.
Proof.
  intros H. destruct HB as (_ & E). assert (A : (start bs (S ii) <= start bs (S N2))%nat) by (apply nsum_mono; lia). unfold start in *. cbn [nsum] in A, E. unfold blen. destruct (ii =? N2)%nat; lia.
Qed.
Lemma block_wf ii : (ii <= N2)%nat -> wfM (block qp bs ii) (blen N2 bs ii).
Proof. intros H i Hi. pose proof (start_le ii H). apply (Hwf (start bs ii + i)%nat). lia. Qed.
Lemma n_soft_eq B M : n_soft B M = nsum (S M) (dns (q_dim B)).
Proof. pose proof (roff_sum M (dns (q_dim B)) 0 ltac:(lia)) as V. cbn [nsum Nat.add] in V. unfold n_soft. change (soff B M 0) with (roff M (dns (q_dim B)) 0). cbn [nsum]. lia. Qed.
Lemma size_stage p' ii : (ii <= N2)%nat -> q_dim p' = q_dim p -> ddims_ok (block qp bs ii) (blen N2 bs ii) (stage_q p' ii).
Proof.
  intros H E. destruct HS as (_ & S). destruct (S ii H) as (S1 & S2 & S3 & S4 & S5). unfold ddims_ok, stage_q. cbn [d_nv d_ne d_nb d_ng d_ns]. rewrite E, S1, S2, S3, S4, S5. rewrite n_box_eq, n_gen_eq, n_soft_eq, n_hard_eq. unfold nu2_of. rewrite Nat.add_1_r.
  repeat split; try reflexivity. f_equal. cbn [block window q_dim dnx]. rewrite Nat.add_0_r. reflexivity.
Qed.
Definition INV (k : nat) (s : pst R) : Prop :=
  p_o s = start bs k /\ (exists BA RSQ, p_qp s = with_mats qp BA RSQ /\ same_info qp BA RSQ) /\ q_dim (p_q2 s) = q_dim p /\
  (forall ii, (k <= ii)%nat -> stage_q (p_q2 s) ii = stage_q p ii) /\
  (forall ii, (ii < k)%nat -> block_sem (last ii) (block qp bs ii) (stage_q (p_q2 s) ii) (q_BAbt (p_q2 s) ii) (q_b (p_q2 s) ii)).
Lemma part_step_R k s : (k <= N2)%nat -> INV k s -> INV (S k) (part_step last alg0 sq diag bs k s).
Proof.
  intros Hk (I1 & (BA & RSQ & I2 & I3) & I4 & I5 & I6). unfold part_step. rewrite I1, I2.
  set (sq1 := sub_qp (with_mats qp BA RSQ) (start bs k) (bs k)).
  assert (ES : sq1 = with_mats (block qp bs k) (from (start bs k) BA) (from (start bs k) RSQ)) by reflexivity.
  assert (IB : same_info (block qp bs k) (from (start bs k) BA) (from (start bs k) RSQ)).
  { destruct I3 as (J1 & J2). split; intros i r c Hr; [apply J1|apply J2]; exact Hr. }
  pose proof (cond_block_R (last k) (alg0 k) (sq k) (from (start bs k) diag) sq1 (stage_q (p_q2 s) k) (q_BAbt (p_q2 s) k) (q_b (p_q2 s) k) (p_ws s k)) as C. cbv zeta in C.
  change (last_stage (last k) (dN (q_dim sq1))) with (blen N2 bs k) in C.
  assert (C1 : last k = false -> (1 <= dN (q_dim sq1))%nat). { unfold last_default. intros E. apply Nat.eqb_neq in E. change (dN (q_dim sq1)) with (bs k). apply (proj1 HB). lia. }
  assert (C2 : wfM sq1 (blen N2 bs k)) by exact (block_wf k Hk).
  assert (C3 : alg_ok (alg0 k) (from (start bs k) diag) sq1 (blen N2 bs k)).
  { destruct (Ha k Hk) as [A|[(A1 & A2)|A]]; [left; exact A| |right; right; exact A]. right. left. split; [exact A1|]. unfold diag_ok in *. intros n r c Hn Hd Hr Hc. rewrite ES. cbn [with_mats q_RSQ]. rewrite (proj2 IB) by (cbn [with_mats q_dim] in *; unfold nux in *; rewrite ?ES in *; cbn [with_mats q_dim] in *; lia). apply A2; assumption. }
  assert (C4 : ddims_ok sq1 (blen N2 bs k) (stage_q (p_q2 s) k)) by exact (size_stage (p_q2 s) k Hk I4).
  assert (C5 : forall c, (c < d_nb (stage_q (p_q2 s) k) + d_ng (stage_q (p_q2 s) k))%nat -> d_idxs_rev (stage_q (p_q2 s) k) c = (-1)%Z).
  { intros c. rewrite (I5 k (le_n k)). apply Hidx. exact Hk. }
  specialize (C C1 C2 C3 C4 C5). destruct (cond_block _ _ _ _ _ _ _ _ _) as [[[[[q BA2] b2] w] BA'] RSQ']. destruct C as (C & CI). rewrite ES in C. apply block_sem_info in C; [|exact IB].
  unfold INV. cbn [p_o p_qp p_q2]. split; [reflexivity|]. split; [|split; [exact I4|split]].
  - exists (merge (start bs k) BA' BA), (merge (start bs k) RSQ' RSQ). split; [reflexivity|]. eapply same_info_merge; [exact I3|exact CI].
  - intros ii Hii. rewrite stage_put_other by lia. apply I5. lia.
  - intros ii Hii. destruct (Nat.eq_dec ii k) as [->|].
    + assert (D0 : ddims_ok (block qp bs k) (blen N2 bs k) q) by exact (proj1 C). destruct D0 as (D1 & D2 & D3 & D4 & D5). destruct C4 as (E1 & E2 & E3 & E4 & E5). cbn [stage_q d_nv d_ne d_nb d_ng d_ns] in E1, E2, E3, E4, E5.
      rewrite stage_put; [|rewrite D1; symmetry; exact E1|rewrite D3; symmetry; exact E3|rewrite D4; symmetry; exact E4|rewrite D5; symmetry; exact E5]. unfold put_stage. cbn [q_BAbt q_b]. rewrite !upd_same.
      destruct q as [nv ne nb ng ns H A Ct gz b d mask m Z idxb idxs]. cbn [d_nv d_ne d_nb d_ng d_ns d_H d_Ct d_gz d_d d_mask d_m d_Z d_idxb d_idxs_rev] in *. rewrite D2 in C. exact C.
    + rewrite stage_put_other by assumption. unfold put_stage. cbn [q_BAbt q_b]. rewrite !upd_other by assumption. apply I6. lia.
Qed.
Lemma part_cond_R : INV (S N2) (part_cond last alg0 sq diag bs qp p ws).
Proof.
  unfold part_cond. rewrite (proj1 HS), Nat.add_1_r. apply (loop_ind INV).
  - split; [reflexivity|]. split; [exists (q_BAbt qp), (q_RSQ qp); split; [destruct qp; reflexivity|apply same_info_refl]|]. split; [reflexivity|]. split; [reflexivity|intros; lia].
  - intros k s Hk. apply part_step_R. lia.
Qed.
End Loop.
