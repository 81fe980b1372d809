(** PupdProofs2.v -- a partially condensed QP through a history of updates. *)
From Coq Require Import ZArith Bool Arith List Lia Reals Lra.
From Verif Require Import Base ArithF RSum Blas Blas2 OcpModel ResSpec ResProofs ResProofs2 CholProofs KktModel DenModel DenSpec CondModel CondSpec CondProofs CondCost CondCost2 CondCost3 CondCon CondCon2 CondCon3 CondSem CondFull CondProps ExpModel.
From Verif Require Import PartModel PartSpec PartProofs PartSem PartProps CupdModel CupdSpec CupdProofs CupdCost CupdFull PupdModel PupdSpec PupdProofs PupdBlk.
Local Open Scope R_scope.

(** every block of p is the condensed block of qp *)
Definition PINV (N2 : nat) (bs : nat -> nat) (qp p : oqp R) (ws : nat -> cws R) : Prop :=
  blocks_ok (dN (q_dim qp)) N2 bs /\ part_size qp N2 bs p /\ qp_wf qp /\ no_slacks qp /\
  (forall ii, (ii <= N2)%nat -> condensed_blk (last_default N2 ii) (block qp bs ii) (stage_q p ii) (q_BAbt p ii) (q_b p ii) (ws ii)).
Lemma blk_N ii N2 bs (qp : oqp R) : blocks_ok (dN (q_dim qp)) N2 bs -> (ii <= N2)%nat -> last_default N2 ii = false -> (1 <= dN (q_dim (block qp bs ii)))%nat.
Proof. unfold last_default. intros HB Hi E. apply Nat.eqb_neq in E. apply (proj1 HB). lia. Qed.
Lemma blk_end (qp : oqp R) N2 bs ii i : blocks_ok (dN (q_dim qp)) N2 bs -> (ii <= N2)%nat -> (i <= bs ii)%nat -> (start bs ii + i <= dN (q_dim qp))%nat.
Proof. intros (_ & E) H Hi. assert (A : (start bs (S ii) <= start bs (S N2))%nat) by (apply nsum_mono; lia). unfold start in *. cbn [nsum] in A, E |- *. lia. Qed.
Lemma blk_wf (qp : oqp R) N2 bs ii : blocks_ok (dN (q_dim qp)) N2 bs -> (ii <= N2)%nat -> qp_wf qp -> qp_wf (block qp bs ii).
Proof. intros HB H W i Hi. apply (W (start bs ii + i)%nat). apply (blk_end qp N2 bs ii i HB H Hi). Qed.
Lemma blk_ns (qp : oqp R) N2 bs ii : blocks_ok (dN (q_dim qp)) N2 bs -> (ii <= N2)%nat -> no_slacks qp -> no_slacks (block qp bs ii).
Proof. intros HB H W i Hi. apply (W (start bs ii + i)%nat). apply (blk_end qp N2 bs ii i HB H Hi). Qed.
Lemma PINV_sem N2 bs qp p ws : PINV N2 bs qp p ws -> forall ii, (ii <= N2)%nat -> block_sem (last_default N2 ii) (block qp bs ii) (stage_q p ii) (q_BAbt p ii) (q_b p ii).
Proof.
  intros (B & S & W & Ns & C) ii Hii. apply (condensed_blk_sem _ _ _ _ _ (ws ii)); [apply (blk_N ii N2); assumption|apply (blk_wf qp N2); assumption|apply (blk_ns qp N2); assumption|apply C; exact Hii].
Qed.

(** PART_COND_QP_COND *)
Definition cnd_blk (sq diag : nat -> bool) (last : nat -> bool) : @blk_t R := fun ii o => cond_block (last ii) true (sq ii) (from o diag).
Lemma cond_block_sizes last sq diag qp (q2 : dqp R) BA2 b2 w : sizes q2 (fst (fst (fst (fst (fst (cond_block last true sq diag qp q2 BA2 b2 w)))))).
Proof.
  unfold cond_block. destruct (cond_babt _ _ _ _ _) as [[w1 x1] x2]. destruct (cond_rsqrq _ _ _ _ _ _ _ _) as [[[[BA RSQ] w2] H] g]. unfold cond_dctd.
  destruct (andb _ _); [repeat split; reflexivity|]. unfold dctd_main. destruct (dctd_gens _ _ _ _ _) as [s t]. destruct (dctd_soft _ _ _) as [[s' Z] gz]. repeat split; reflexivity.
Qed.
Lemma part_cond_PINV sq diag N2 bs qp p0 ws : part_pre (fun _ => true) diag N2 bs qp p0 -> no_slacks qp ->
  let r := part_cond (last_default N2) (fun _ => true) sq diag bs qp p0 ws in PINV N2 bs qp (p_q2 r) (p_ws r) /\ q_dim (p_q2 r) = q_dim p0.
Proof.
  intros (P1 & P2 & P3 & P4 & _) Hns r.
  assert (G : GINV bs (cnd_blk sq diag (last_default N2)) qp p0 ws (dN (q_dim p0) + 1) r).
  { apply (gloop_inv bs (cnd_blk sq diag (last_default N2)) qp p0 ws).
    - intros ii o q BA b w. exact (cond_block_near (last_default N2 ii) (sq ii) (from o diag) (sub_qp qp o (bs ii)) q BA b w).
    - intros ii o B q BA b w. apply cond_block_sizes. }
  destruct G as (_ & _ & G3 & _ & G5). split; [|exact G3]. split; [exact P2|]. split; [unfold part_size; rewrite G3; exact P3|]. split; [exact P1|]. split; [exact Hns|].
  intros ii Hii. specialize (G5 ii ltac:(rewrite (proj1 P3); lia)). unfold done, cnd_blk in G5.
  pose proof (cond_blk_inv (last_default N2 ii) (sq ii) (from (start bs ii) diag) (sub_qp qp (start bs ii) (bs ii)) (stage_q p0 ii) (q_BAbt p0 ii) (q_b p0 ii) (ws ii)) as C. cbv zeta in C.
  specialize (C (blk_N ii N2 bs qp P2 Hii) (blk_wf qp N2 bs ii P2 Hii P1) (size_stage qp p0 N2 bs P3 p0 ii Hii eq_refl) (fun c Hc => P4 ii c Hii Hc)).
  destruct (cond_block _ _ _ _ _ _ _ _ _) as [[[[[q BA2] b2] w] BA'] RSQ']. destruct G5 as (E1 & E2 & E3 & E4). rewrite E1, E2, E3, E4. exact C.
Qed.

(** PART_COND_QP_UPDATE *)
Lemma blk_layout qp qp' bs ii : same_layout qp qp' -> same_layout (block qp bs ii) (block qp' bs ii).
Proof. intros (E1 & E2 & E3 & E4 & E5). unfold same_layout, block, window. cbn [q_dim q_idxb q_idxs_rev q_mask q_m]. rewrite E1, E2, E3, E4, E5. repeat split; reflexivity. Qed.
Lemma blk_marked idxc qp qp' N2 bs ii : blocks_ok (dN (q_dim qp)) N2 bs -> (ii <= N2)%nat -> marked idxc qp qp' -> marked (from (start bs ii) idxc) (block qp bs ii) (block qp' bs ii).
Proof. intros HB Hii H i Hi E. exact (H (start bs ii + i)%nat (blk_end qp N2 bs ii i HB Hii Hi) E). Qed.
Lemma blk_pd qp bs ii n : state_cost_pd qp (start bs ii + n) -> Qpd (block qp bs ii) n.
Proof. intros H x Hx. exact (H x Hx). Qed.
Lemma part_update_PINV idxc N2 bs qp qp' p ws : part_update_ok N2 bs idxc qp qp' -> PINV N2 bs qp p ws ->
  let r := part_update idxc (last_default N2) bs qp' p ws in PINV N2 bs qp' (p_q2 r) (p_ws r) /\ q_dim (p_q2 r) = q_dim p.
Proof.
  intros (L & Mk & Pr & Pd) (HB & HS & W & Ns & HC) r. pose proof (part_update_inv idxc (last_default N2) bs qp' p ws) as G. fold r in G. destruct G as (_ & _ & G3 & _ & G5).
  pose proof (proj1 L) as ED. split; [|exact G3].
  split; [rewrite ED; exact HB|]. split.
  { unfold part_size in *. rewrite G3, ED. destruct HS as (S1 & S2). split; [exact S1|]. intros ii Hii. specialize (S2 ii Hii). cbv zeta in *.
    assert (E1 : q_dim (block qp' bs ii) = q_dim (block qp bs ii)) by (unfold block, window; cbn [q_dim]; rewrite ED; reflexivity).
    assert (E2 : q_idxb (block qp' bs ii) = q_idxb (block qp bs ii)) by (unfold block, window; cbn [q_idxb]; rewrite (proj1 (proj2 L)); reflexivity).
    assert (E3 : forall M, n_box (block qp' bs ii) M = n_box (block qp bs ii) M) by (intros M; unfold n_box, stays_bound; rewrite E1, E2; reflexivity).
    assert (E4 : forall M, n_gen (block qp' bs ii) M = n_gen (block qp bs ii) M) by (intros M; unfold n_gen, stays_bound; rewrite E1, E2; reflexivity).
    rewrite E3, E4, E1. exact S2. }
  split; [apply (u_wf qp qp' L W)|]. split; [apply (u_ns qp qp' L Ns)|].
  intros ii Hii. specialize (G5 ii ltac:(rewrite (proj1 HS); lia)). unfold done, upd_blk in G5.
  pose proof (update_blk_inv (last_default N2 ii) (block qp bs ii) (block qp' bs ii) (from (start bs ii) idxc) (stage_q p ii) (q_BAbt p ii) (q_b p ii) (ws ii)) as U.
  specialize (U (blk_layout qp qp' bs ii L) (blk_marked idxc qp qp' N2 bs ii HB Hii Mk)).
  change (last_stage (last_default N2 ii) (dN (q_dim (block qp bs ii)))) with (blen N2 bs ii) in U.
  specialize (U (Pr ii Hii) (fun n Hn => blk_pd qp' bs ii n (Pd ii n Hii Hn)) (blk_N ii N2 bs qp HB Hii) (blk_wf qp N2 bs ii HB Hii W) (blk_ns qp N2 bs ii HB Hii Ns) (HC ii Hii)).
  change (sub_qp qp' (start bs ii) (bs ii)) with (block qp' bs ii) in G5.
  destruct (update_block _ _ _ _ _ _ _) as [[[[[q BA2] b2] w] BA'] RSQ']. destruct G5 as (E1 & E2 & E3 & E4). rewrite E1, E2, E3, E4. exact U.
Qed.
Lemma run_part_PINV N2 bs l : forall qp p ws, part_updates_ok N2 bs qp l -> PINV N2 bs qp p ws -> let '(p', ws') := run_part N2 bs l p ws in PINV N2 bs (last_qp qp l) p' ws' /\ q_dim p' = q_dim p.
Proof.
  induction l as [|[idxc qp'] l IH]; intros qp p ws Hok HP; cbn [run_part last_qp]; [split; [exact HP|reflexivity]|].
  destruct Hok as (H1 & H2). destruct (part_update_PINV idxc N2 bs qp qp' p ws H1 HP) as (U1 & U2). specialize (IH qp' _ _ H2 U1). destruct (run_part _ _ _ _ _) as [p' ws']. destruct IH as (I1 & I2). split; [exact I1|rewrite I2; exact U2].
Qed.
Lemma history_PINV sq diag N2 bs qp0 p0 ws l : part_pre (fun _ => true) diag N2 bs qp0 p0 -> no_slacks qp0 -> part_updates_ok N2 bs qp0 l ->
  exists ws', PINV N2 bs (last_qp qp0 l) (part_history sq diag N2 bs qp0 p0 ws l) ws'.
Proof.
  intros HP Hn Hok. unfold part_history. destruct (part_cond_PINV sq diag N2 bs qp0 p0 ws HP Hn) as (C & _). cbv zeta in C. pose proof (run_part_PINV N2 bs l qp0 _ _ Hok C) as R.
  destruct (run_part _ _ _ _ _) as [p' ws']. exists ws'. exact (proj1 R).
Qed.

(** a second QP whose blocks mean the blocks of the first is equivalent to it (the argument of PartProps.C43_equivalent) *)
Section Equiv.
Variables (qp p : oqp R) (N2 : nat) (bs : nat -> nat).
Hypothesis HB : blocks_ok (dN (q_dim qp)) N2 bs.
Hypothesis S : part_size qp N2 bs p.
Hypothesis Hsem : forall ii, (ii <= N2)%nat -> block_sem (last_default N2 ii) (block qp bs ii) (stage_q p ii) (q_BAbt p ii) (q_b p ii).
Lemma part_equiv : (forall z, feasible p z <-> feasible qp (ptraj qp N2 bs z)) /\ (forall z, ocp_optimal p z <-> ocp_optimal qp (ptraj qp N2 bs z)) /\
  (forall z, ocp_optimal qp z -> exists y, same_point qp (ptraj qp N2 bs y) z /\ ocp_optimal p y).
Proof.
  pose proof (part_cost qp p N2 bs HB S Hsem) as O. pose proof (part_dyn qp p N2 bs HB S Hsem) as DY. pose proof (part_con qp p N2 bs HB Hsem) as C. pose proof (part_num qp p N2 bs HB Hsem) as (M1 & M2 & M3).
  destruct O as (K & O). destruct (C43_trajectories N2 bs qp HB) as (T1 & _ & _ & T4). set (N := dN (q_dim qp)) in *. set (pos := ppos qp N2 bs) in *.
  assert (En : dN (q_dim p) = N2) by exact (proj1 S).
  assert (F : forall z, feasible p z <-> feasible qp (ptraj qp N2 bs z)).
  { intros z. split.
    - intros (Hd & H). split.
      + intros i j Hi Hj. destruct (end_dec qp N2 bs i Hi) as [(ii & A & E)|A]; [|apply T1; assumption].
        assert (Ei : i = (start bs (Datatypes.S ii) - 1)%nat) by lia. rewrite Ei. rewrite <- DY; [|exact A|destruct (proj2 S (Datatypes.S ii) ltac:(lia)) as (_ & S2 & _); rewrite S2, <- E; exact Hj].
        apply Hd; [lia|]. destruct (proj2 S (Datatypes.S ii) ltac:(lia)) as (_ & S2 & _). rewrite S2, <- E. exact Hj.
      + intros i c Hi Hc Hm. destruct (C z i c Hi Hc) as (C1 & C2 & _). destruct (M1 i c Hi Hc) as (L1 & L2). specialize (H (block_of N2 bs i) (pos i c) ltac:(lia) L2). rewrite C2 in H. specialize (H Hm). lra.
    - intros (Hd & H). split.
      + intros ii j Hii Hj. rewrite En in Hii. rewrite (DY z ii j Hii Hj). destruct (proj2 S (Datatypes.S ii) ltac:(lia)) as (_ & S2 & _). rewrite S2 in Hj. pose proof (start_S N N2 bs HB ii Hii) as Es. pose proof (in_le N N2 bs HB (Datatypes.S ii) 0 ltac:(lia) ltac:(lia)) as L.
        apply Hd; [lia|]. replace (Datatypes.S (start bs (Datatypes.S ii) - 1)) with (start bs (Datatypes.S ii)) by lia. exact Hj.
      + intros ii r Hii Hr Hm. rewrite En in Hii. destruct (M3 ii r Hii Hr) as (i & c & Hi & Hc & Eb & Er). destruct (C z i c Hi Hc) as (C1 & C2 & _). fold pos in Er. rewrite Eb, Er in C1, C2. rewrite C2 in Hm. specialize (H i c Hi Hc Hm). lra. }
  assert (P : forall z, feasible qp z -> exists y, same_point qp (ptraj qp N2 bs y) z /\ feasible p y).
  { intros z (Hz1 & Hz2). destruct (T4 z) as (y & Hy); [intros i j Hi Hj _; apply Hz1; assumption|]. exists y. split; [exact Hy|]. apply F. split.
    - intros i j Hi Hj. rewrite (same_dyn qp _ z i j Hy Hi Hj). apply Hz1; assumption.
    - intros i c Hi Hc Hm. rewrite (same_con qp _ z i c Hy Hi). apply Hz2; assumption. }
  assert (Opt : forall z, ocp_optimal p z <-> ocp_optimal qp (ptraj qp N2 bs z)).
  { intros z. split.
    - intros (H1 & H2). split; [apply F; exact H1|]. intros y Hy. destruct (P y Hy) as (vy & E1 & E2). rewrite <- (same_cost qp _ _ E1). specialize (H2 vy E2). rewrite !O in H2. lra.
    - intros (H1 & H2). split; [apply F; exact H1|]. intros y Hy. apply F in Hy. specialize (H2 _ Hy). rewrite !O. lra. }
  split; [exact F|]. split; [exact Opt|]. intros z (Hz1 & Hz2). destruct (P z Hz1) as (y & E1 & E2). exists y. split; [exact E1|]. apply Opt. split; [apply F; exact E2|]. intros u Hu. rewrite (same_cost qp _ _ E1). apply Hz2. exact Hu.
Qed.
End Equiv.
