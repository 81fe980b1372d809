(** PupdProofs.v -- partial condensing and its update: every block is processed on its own data. *)
From Coq Require Import ZArith Bool Arith Lia FunctionalExtensionality.
From Verif Require Import Base ArithF Blas Blas2 OcpModel KktModel DenModel CondModel ExpModel PartModel CupdModel PupdModel PartSpec.

Section P.
Context {F : Type} {AF : Arith F}.
Notation vec := (nat -> F).
Notation mat := (nat -> nat -> F).
(** the QP object differs from the original only in rows without data, and not at all from stage k on *)
Definition near (k : nat) (qp : oqp F) (BA RSQ : nat -> mat) : Prop :=
  (forall i r c, (r < dnu (q_dim qp) i + dnx (q_dim qp) i)%nat -> BA i r c = q_BAbt qp i r c /\ RSQ i r c = q_RSQ qp i r c) /\
  (forall i, (k <= i)%nat -> BA i = q_BAbt qp i /\ RSQ i = q_RSQ qp i).
Lemma rowin_other n (al : F) x xi (M : mat) ai aj r c : r <> ai -> ROWIN n al x xi M ai aj r c = M r c.
Proof. intros H. unfold ROWIN. unfold mblk. destruct (Nat.leb_spec ai r); cbn [andb]; try reflexivity. destruct (Nat.ltb_spec r (ai + 1)); cbn [andb]; [lia|reflexivity]. Qed.
Definition rnear (M : nat) (qp : oqp F) (s : rst (F := F)) : Prop := near M qp (rs_BA s) (rs_RSQ s).
Lemma near_upd M qp BA RSQ n x y : (n < M)%nat -> near M qp BA RSQ ->
  near M qp (upd BA n (ROWIN x f1 (q_b qp n) 0 (BA n) (dnu (q_dim qp) n + dnx (q_dim qp) n) 0)) (upd RSQ n (ROWIN y f1 (q_rqz qp n) 0 (RSQ n) (dnu (q_dim qp) n + dnx (q_dim qp) n) 0)).
Proof.
  intros Hn (H1 & H2). split.
  - intros i r c Hr. destruct (Nat.eq_dec i n) as [->|E]; [rewrite !upd_same, !rowin_other by lia|rewrite !upd_other by exact E]; apply H1; exact Hr.
  - intros i Hi. rewrite !upd_other by lia. apply H2. exact Hi.
Qed.
Lemma ursq_prop_near M qp n s : (1 <= n <= M)%nat -> rnear M qp s -> rnear M qp (ursq_prop qp n s).
Proof. intros Hn H. unfold ursq_prop, rsq_prop_sqrt. destruct (POTRF_L_MN _ _ _ _ _ _ _ _ _) as [Lx dA]. unfold rnear. cbn [rs_BA rs_RSQ]. apply near_upd; [lia|exact H]. Qed.
Lemma update_rsqrq_near idxc last qp w H2 g2 : let '(BA, RSQ, _, _, _) := update_rsqrq idxc last qp w H2 g2 in near (dN (q_dim qp)) qp BA RSQ.
Proof.
  assert (R : forall k, near k qp (q_BAbt qp) (q_RSQ qp)) by (intros k; split; intros; split; reflexivity).
  unfold update_rsqrq. destruct (andb _ _); [apply R|]. set (M := last_stage last (dN (q_dim qp))). destruct (Nat.eqb_spec M 0); [apply R|].
  assert (HM : (M <= dN (q_dim qp))%nat) by (unfold M, last_stage; destruct last; lia).
  set (s0 := mkrst _ _ _ _ _ _ _ _ _). assert (Z : rnear M qp (ursq_main qp (cw_Gamma w) M (nsum (M + 1) (dnu (q_dim qp))) (idx_of idxc M) s0)).
  { unfold ursq_main. set (c := n_keep M _). unfold rsq_emit0, rnear. cbn [rs_BA rs_RSQ]. apply ursq_prop_near; [lia|].
    apply (loop_ind (fun _ s => rnear M qp s)).
    - apply (loop_ind (fun _ s => rnear M qp s)); [apply R|]. intros k s _ H. exact H.
    - intros k s Hk H. unfold rsq_emit, rnear. cbn [rs_BA rs_RSQ]. apply ursq_prop_near; [lia|exact H]. }
  destruct Z as (Z1 & Z2). split; [exact Z1|]. intros i Hi. apply Z2. lia.
Qed.
Lemma update_block_near idxc last qp q2 BA2 b2 w : let '(_, _, _, _, BA, RSQ) := update_block idxc last qp q2 BA2 b2 w in near (dN (q_dim qp)) qp BA RSQ.
Proof.
  unfold update_block. destruct (update_babt _ _ _ _ _ _) as [[w1 B1] b1]. pose proof (update_rsqrq_near idxc last qp w1 (d_H q2) (d_gz q2)) as H.
  destruct (update_rsqrq _ _ _ _ _ _) as [[[[BA RSQ] w2] H2] g]. destruct (update_dctd _ _ _ _ _) as [q t]. exact H.
Qed.
(** the same for COND_RSQRQ with cond_alg 0 *)
Lemma rsq_prop_near sq M qp n s : (1 <= n <= M)%nat -> rnear M qp s -> rnear M qp (rsq_prop sq qp n s).
Proof.
  intros Hn H. unfold rsq_prop. destruct sq.
  - destruct (POTRF_L_MN _ _ _ _ _ _ _ _ _) as [Lx dA]. destruct (singular _ _); [unfold rsq_prop_cls|unfold rsq_prop_sqrt]; unfold rnear; cbn [rs_BA rs_RSQ]; apply near_upd; solve [lia|exact H].
  - unfold rsq_prop_cls, rnear. cbn [rs_BA rs_RSQ]. apply near_upd; [lia|exact H].
Qed.
Lemma cond_block_near last sq diag qp q2 BA2 b2 w : let '(_, _, _, _, BA, RSQ) := cond_block last true sq diag qp q2 BA2 b2 w in near (dN (q_dim qp)) qp BA RSQ.
Proof.
  assert (R : forall k, near k qp (q_BAbt qp) (q_RSQ qp)) by (intros k; split; intros; split; reflexivity).
  unfold cond_block. destruct (cond_babt _ _ _ _ _) as [[w1 B1] b1].
  assert (H : let '(BA, RSQ, _, _, _) := cond_rsqrq true sq diag last qp w1 (d_H q2) (d_gz q2) in near (dN (q_dim qp)) qp BA RSQ).
  { unfold cond_rsqrq. set (M := last_stage last (dN (q_dim qp))). destruct (Nat.eqb_spec M 0); [apply R|].
    assert (HM : (M <= dN (q_dim qp))%nat) by (unfold M, last_stage; destruct last; lia).
    set (s0 := mkrst _ _ _ _ _ _ _ _ _). assert (Z : rnear M qp (rsq_alg0 sq qp (cw_Gamma w1) M (nsum (M + 1) (dnu (q_dim qp))) s0)).
    { unfold rsq_alg0. apply (loop_ind (fun _ s => rnear M qp s)); [apply R|]. intros k s Hk H. destruct (Nat.eqb_spec k (M - 1)); unfold rsq_emit0, rsq_emit, rnear; cbn [rs_BA rs_RSQ]; apply rsq_prop_near; solve [lia|exact H]. }
    destruct Z as (Z1 & Z2). split; [exact Z1|]. intros i Hi. apply Z2. lia. }
  destruct (cond_rsqrq _ _ _ _ _ _ _ _) as [[[[BA RSQ] w2] H2] g]. destruct (cond_dctd _ _ _ _) as [q t]. exact H.
Qed.
(** the sizes (and the unused equality part) of the condensed QP are left alone, so are the masks and the complementarity targets *)
Definition keeps (q q' : dqp F) : Prop := d_nv q' = d_nv q /\ d_ne q' = d_ne q /\ d_nb q' = d_nb q /\ d_ng q' = d_ng q /\ d_ns q' = d_ns q /\ d_A q' = d_A q /\ d_b q' = d_b q /\ d_mask q' = d_mask q /\ d_m q' = d_m q.
Lemma update_block_keeps idxc last qp q2 BA2 b2 w : keeps q2 (fst (fst (fst (fst (fst (update_block idxc last qp q2 BA2 b2 w)))))).
Proof.
  unfold update_block. destruct (update_babt _ _ _ _ _ _) as [[w1 x1] x2]. destruct (update_rsqrq _ _ _ _ _ _) as [[[[BA RSQ] w2] H] g]. unfold update_dctd.
  destruct (andb _ _); [repeat split; reflexivity|]. destruct (andb _ _); [repeat split; reflexivity|]. unfold u_dctd_main. destruct (u_gens _ _ _ _ _) as [s t]. repeat split; reflexivity.
Qed.
Lemma idx_of_none idxc n : (forall i, (i < n)%nat -> idxc i = false) -> idx_of idxc n = 0%nat.
Proof. intros H. unfold idx_of. apply (loop_ind (fun _ s => s = 0%nat)); [reflexivity|]. intros k s Hk ->. rewrite H by exact Hk. reflexivity. Qed.
(** no stage of the block is marked *)
Lemma update_block_unmarked idxc last qp q2 BA2 b2 w : last = true \/ (1 <= dN (q_dim qp))%nat -> (forall i, (i <= last_stage last (dN (q_dim qp)))%nat -> idxc i = false) ->
  update_block idxc last qp q2 BA2 b2 w = (q2, BA2, b2, w, q_BAbt qp, q_RSQ qp).
Proof.
  intros Hl Hi. unfold update_block, update_babt. assert (E1 : idx_of idxc (dN (q_dim qp)) = 0%nat).
  { apply idx_of_none. intros i L. apply Hi. unfold last_stage. destruct last; lia. }
  rewrite E1. cbn [Nat.eqb]. unfold update_rsqrq. set (M := last_stage last (dN (q_dim qp))). assert (E2 : idx_of idxc M = 0%nat) by (apply idx_of_none; intros i L; apply Hi; fold M; lia).
  rewrite E2, (Hi M) by (fold M; lia). cbn [Nat.eqb negb andb]. unfold update_dctd. cbn [q_dim with_mats]. fold M. rewrite E2, (Hi M) by (fold M; lia). cbn [Nat.eqb negb andb].
  destruct q2; destruct w; reflexivity.
Qed.

(** *** the loop over the blocks *)
Lemma stage_put_g (p : oqp F) ii q BA b : keeps (stage_q p ii) q -> stage_q (put_stage p ii q BA b) ii = q.
Proof.
  intros (E1 & E2 & E3 & E4 & E5 & E6 & E7 & _). unfold stage_q, put_stage in *. cbn [q_dim q_RSQ q_DCt q_rqz q_d q_mask q_m q_Z q_idxb q_idxs_rev] in *. rewrite !upd_same.
  destruct q as [nv ne nb ng ns H A Ct gz b0 d mask m Z idxb idxs]. cbn [d_nv d_ne d_nb d_ng d_ns d_A d_b d_H d_Ct d_gz d_d d_mask d_m d_Z d_idxb d_idxs_rev] in *. subst. reflexivity.
Qed.
Lemma stage_put_other_g (p : oqp F) ii q BA b k : k <> ii -> stage_q (put_stage p ii q BA b) k = stage_q p k.
Proof. intros H. unfold stage_q, put_stage. cbn [q_dim q_RSQ q_DCt q_rqz q_d q_mask q_m q_Z q_idxb q_idxs_rev]. rewrite !upd_other by exact H. reflexivity. Qed.
Lemma from_ext {A} o (f g : nat -> A) : (forall i, (o <= i)%nat -> f i = g i) -> from o f = from o g.
Proof. intros H. extensionality i. unfold from. apply H. lia. Qed.
Lemma sub_near qp BA RSQ o n : near o qp BA RSQ -> sub_qp (with_mats qp BA RSQ) o n = sub_qp qp o n.
Proof.
  intros (_ & H). unfold sub_qp. cbn [with_mats q_dim q_BAbt q_RSQ q_DCt q_b q_rqz q_d q_mask q_m q_Z q_idxb q_idxs_rev].
  rewrite (from_ext o BA (q_BAbt qp)) by (intros; apply H; assumption). rewrite (from_ext o RSQ (q_RSQ qp)) by (intros; apply H; assumption). reflexivity.
Qed.
Lemma near_merge qp BA RSQ o n BA' RSQ' : near o qp BA RSQ -> near n (sub_qp qp o n) BA' RSQ' -> near (o + n) qp (merge o BA' BA) (merge o RSQ' RSQ).
Proof.
  intros (I1 & I2) (J1 & J2). cbn [sub_qp q_dim sub_dims dnu dnx q_BAbt q_RSQ] in J1, J2. unfold from in J1, J2. split.
  - intros i r c Hr. unfold merge. destruct (Nat.leb_spec o i) as [L|L]; [|apply I1; exact Hr]. assert (E : (o + (i - o) = i)%nat) by lia. specialize (J1 (i - o)%nat r c). rewrite E in J1. exact (J1 Hr).
  - intros i Hi. unfold merge. destruct (Nat.leb_spec o i) as [L|L]; [|lia]. assert (E : (o + (i - o) = i)%nat) by lia. specialize (J2 (i - o)%nat). rewrite E in J2. apply J2. lia.
Qed.

(** a step of either kind: [blk ii o] processes block ii, which starts at stage o *)
Definition blk_t : Type := nat -> nat -> oqp F -> dqp F -> mat -> vec -> cws F -> dqp F * mat * vec * cws F * (nat -> mat) * (nat -> mat).
Definition sizes (q q' : dqp F) : Prop := d_nv q' = d_nv q /\ d_ne q' = d_ne q /\ d_nb q' = d_nb q /\ d_ng q' = d_ng q /\ d_ns q' = d_ns q /\ d_A q' = d_A q /\ d_b q' = d_b q.
Lemma update_block_sizes idxc last qp q2 BA2 b2 w : sizes q2 (fst (fst (fst (fst (fst (update_block idxc last qp q2 BA2 b2 w)))))).
Proof. destruct (update_block_keeps idxc last qp q2 BA2 b2 w) as (E1 & E2 & E3 & E4 & E5 & E6 & E7 & _). repeat split; assumption. Qed.
Section Loop.
Variables (bs : nat -> nat) (blk : blk_t) (qp p : oqp F) (ws : nat -> cws F).
Hypothesis Bnear : forall ii o q BA b w, let '(_, _, _, _, BA', RSQ') := blk ii o (sub_qp qp o (bs ii)) q BA b w in near (bs ii) (sub_qp qp o (bs ii)) BA' RSQ'.
Hypothesis Bsize : forall ii o B q BA b w, sizes q (fst (fst (fst (fst (fst (blk ii o B q BA b w)))))).
Definition gstep (ii : nat) (s : pst F) : pst F :=
  let o := p_o s in let qp := p_qp s in let p := p_q2 s in
  let '(q, BA2, b2, w, BA, RSQ) := blk ii o (sub_qp qp o (bs ii)) (stage_q p ii) (q_BAbt p ii) (q_b p ii) (p_ws s ii) in
  mkpst (with_mats qp (merge o BA (q_BAbt qp)) (merge o RSQ (q_RSQ qp))) (put_stage p ii q BA2 b2) (upd (p_ws s) ii w) (o + bs ii).
Definition at_stage (s : pst F) (ii : nat) (q : dqp F) (BA : mat) (b : vec) (w : cws F) : Prop := stage_q (p_q2 s) ii = q /\ q_BAbt (p_q2 s) ii = BA /\ q_b (p_q2 s) ii = b /\ p_ws s ii = w.
Definition done (s : pst F) (ii : nat) : Prop :=
  let '(q, BA, b, w, _, _) := blk ii (start bs ii) (sub_qp qp (start bs ii) (bs ii)) (stage_q p ii) (q_BAbt p ii) (q_b p ii) (ws ii) in at_stage s ii q BA b w.
Definition GINV (k : nat) (s : pst F) : Prop :=
  p_o s = start bs k /\ (exists BA RSQ, p_qp s = with_mats qp BA RSQ /\ near (start bs k) qp BA RSQ) /\ q_dim (p_q2 s) = q_dim p /\
  (forall ii, (k <= ii)%nat -> at_stage s ii (stage_q p ii) (q_BAbt p ii) (q_b p ii) (ws ii)) /\ (forall ii, (ii < k)%nat -> done s ii).
Lemma stage_put_s (p' : oqp F) ii q BA b : sizes (stage_q p' ii) q -> stage_q (put_stage p' ii q BA b) ii = q.
Proof.
  intros (E1 & E2 & E3 & E4 & E5 & E6 & E7). unfold stage_q, put_stage in *. cbn [q_dim q_RSQ q_DCt q_rqz q_d q_mask q_m q_Z q_idxb q_idxs_rev] in *. rewrite !upd_same.
  destruct q as [nv ne nb ng ns H A Ct gz b0 d mask m Z idxb idxs]. cbn [d_nv d_ne d_nb d_ng d_ns d_A d_b d_H d_Ct d_gz d_d d_mask d_m d_Z d_idxb d_idxs_rev] in *. subst. reflexivity.
Qed.
Lemma gstep_inv k s : GINV k s -> GINV (S k) (gstep k s).
Proof.
  intros (I1 & (BA & RSQ & I2 & I3) & I4 & I5 & I6). unfold gstep. rewrite I1, I2. rewrite sub_near by exact I3.
  destruct (I5 k (le_n k)) as (S1 & S2 & S3 & S4). rewrite S1, S2, S3, S4.
  pose proof (Bnear k (start bs k) (stage_q p k) (q_BAbt p k) (q_b p k) (ws k)) as N. pose proof (Bsize k (start bs k) (sub_qp qp (start bs k) (bs k)) (stage_q p k) (q_BAbt p k) (q_b p k) (ws k)) as Z.
  destruct (blk k (start bs k) (sub_qp qp (start bs k) (bs k)) (stage_q p k) (q_BAbt p k) (q_b p k) (ws k)) as [[[[[q BA2] b2] w] BA'] RSQ'] eqn:E. cbn [fst] in Z.
  assert (O : forall ii, ii <> k -> forall q' B' b' w', at_stage s ii q' B' b' w' -> at_stage (mkpst (with_mats (with_mats qp BA RSQ) (merge (start bs k) BA' (q_BAbt (with_mats qp BA RSQ))) (merge (start bs k) RSQ' (q_RSQ (with_mats qp BA RSQ)))) (put_stage (p_q2 s) k q BA2 b2) (upd (p_ws s) k w) (start bs k + bs k)) ii q' B' b' w').
  { intros ii Hne q' B' b' w' (H1 & H2 & H3 & H4). unfold at_stage. cbn [p_q2 p_ws]. rewrite stage_put_other_g by exact Hne. unfold put_stage. cbn [q_BAbt q_b]. rewrite !upd_other by exact Hne. repeat split; assumption. }
  unfold GINV. split; [reflexivity|]. split; [|split; [exact I4|split]].
  - exists (merge (start bs k) BA' BA), (merge (start bs k) RSQ' RSQ). split; [reflexivity|]. change (start bs (S k)) with (start bs k + bs k)%nat. apply near_merge; assumption.
  - intros ii Hii. apply O; [lia|]. apply I5. lia.
  - intros ii Hii. destruct (Nat.eq_dec ii k) as [->|Hne].
    + unfold done. rewrite E. unfold at_stage. cbn [p_q2 p_ws]. rewrite stage_put_s by (rewrite S1; exact Z). unfold put_stage. cbn [q_BAbt q_b]. rewrite !upd_same. repeat split; reflexivity.
    + specialize (I6 ii ltac:(lia)). unfold done in *. destruct (blk ii _ _ _ _ _ _) as [[[[[q' B'] b'] w'] x] y]. apply O; assumption.
Qed.
Lemma gloop_inv n : GINV n (loop n gstep (mkpst qp p ws 0)).
Proof.
  apply (loop_ind GINV).
  - split; [reflexivity|]. split; [exists (q_BAbt qp), (q_RSQ qp); split; [destruct qp; reflexivity|split; intros; split; reflexivity]|]. split; [reflexivity|]. split; [intros; repeat split; reflexivity|intros; lia].
  - intros k s _. apply gstep_inv.
Qed.
End Loop.

(** PART_COND_QP_UPDATE *)
Definition upd_blk (idxc : nat -> bool) (last : nat -> bool) : blk_t := fun ii o => update_block (from o idxc) (last ii).
Lemma part_update_inv idxc last bs qp p ws : GINV bs (upd_blk idxc last) qp p ws (dN (q_dim p) + 1) (part_update idxc last bs qp p ws).
Proof.
  apply (gloop_inv bs (upd_blk idxc last) qp p ws).
  - intros ii o q BA b w. exact (update_block_near (from o idxc) (last ii) (sub_qp qp o (bs ii)) q BA b w).
  - intros ii o B q BA b w. apply update_block_sizes.
Qed.
End P.
