(** PcsplitProofs2.v -- the loops over the blocks of partial condensing in two calls. *)
From Coq Require Import ZArith Bool Arith Lia Reals Lra.
From Verif Require Import Base ArithF RSum Blas Blas2 OcpModel ResSpec ResProofs ResProofs2 CholProofs CholPD KktModel KktProofs KktProofs2 DenModel DenSpec CondModel CondSpec CondProofs CondCost CondCost2 CondCost3 CondCon CondCon2 CondCon3 CondSem CondFull CondProps CsplitModel CsplitSpec CsplitProofs CsplitProofs2 CsplitCon CsplitFull PartModel PartSpec PartProofs PartSem PcsplitModel PcsplitProofs.
Local Open Scope R_scope.

Lemma sm_sym qp qp' : same_matrices qp qp' -> same_matrices qp' qp.
Proof.
  intros (E1 & E2 & E3 & E4 & E5 & E6 & E7). unfold same_matrices, nux. rewrite E1. do 5 (split; [congruence|]). split; intros; symmetry; [apply E6|apply E7]; assumption.
Qed.
Lemma sm_block qp qp' o n : same_matrices qp qp' -> same_matrices (window qp o n) (window qp' o n).
Proof.
  destruct qp as [D BA RSQ DCt b rqz d mask m Z idxb idxs]. destruct qp' as [D' BA' RSQ' DCt' b' rqz' d' mask' m' Z' idxb' idxs'].
  intros (E1 & E2 & E3 & E4 & E5 & E6 & E7). cbn [q_dim q_DCt q_Z q_idxb q_idxs_rev q_BAbt q_RSQ] in *. subst. unfold same_matrices, window. cbn [q_dim q_DCt q_Z q_idxb q_idxs_rev q_BAbt q_RSQ].
  do 5 (split; [reflexivity|]). unfold nux in *. cbn [q_dim dnu dnx] in *. split; intros i r c Hr; [apply E6|apply E7]; exact Hr.
Qed.
Lemma sm_RSQ qp RSQ : (forall i r c, (c <= r < nux qp i)%nat -> RSQ i r c = q_RSQ qp i r c) -> same_matrices qp (with_mats qp (q_BAbt qp) RSQ).
Proof. intros H. unfold same_matrices. do 5 (split; [reflexivity|]). split; [reflexivity|exact H]. Qed.
Lemma alg_blk_tr alg0 sq diag qp qp' M : same_matrices qp qp' -> alg_blk alg0 sq diag qp M -> alg_blk alg0 sq diag qp' M.
Proof.
  intros (E1 & _ & _ & _ & _ & _ & HR). unfold alg_blk. destruct alg0.
  - intros [H|H]; [left; exact H|right]. intros n Hn v. specialize (H n Hn v). rewrite E1. erewrite quadf_ext; [exact H| |reflexivity]. intros i j Hi Hj. unfold symL. destruct (Nat.leb_spec (dnu (q_dim qp) n + j) (dnu (q_dim qp) n + i)); apply HR; unfold nux; lia.
  - intros H n r c. unfold nux. rewrite E1. intros Hn Hd Hr Hc. rewrite HR by (unfold nux; lia). apply H; assumption.
Qed.
Lemma BI_stage last alg0 qp q0 (q : dqp R) BA2 w : d_ne q = 0%nat -> BI last alg0 qp q0 q BA2 w ->
  BI last alg0 qp q0 (mkdqp (d_nv q) 0 (d_nb q) (d_ng q) (d_ns q) (d_H q) (fun _ _ => f0) (d_Ct q) (d_gz q) (fun _ => f0) (d_d q) (d_mask q) (d_m q) (d_Z q) (d_idxb q) (d_idxs_rev q)) BA2 w.
Proof. intros E H. destruct q as [nv ne nb ng ns Hh A Ct gz b d mask m Z idxb idxs]. cbn [d_ne] in E. subst ne. exact H. Qed.

Section Loop.
Variables (qp p : oqp R) (N2 : nat) (bs : nat -> nat) (alg0 sq diag : nat -> bool).
Notation last := (last_default N2).
Notation blk qp ii := (block qp bs ii).
Notation len := (blen N2 bs).
Hypothesis Hwf : qp_wf qp.
Hypothesis HB : blocks_ok (dN (q_dim qp)) N2 bs.
Hypothesis HS : part_size qp N2 bs p.
Hypothesis Hidx : forall ii c, (ii <= N2)%nat -> (c < dnb (q_dim p) ii + dng (q_dim p) ii)%nat -> q_idxs_rev p ii c = (-1)%Z.
Hypothesis Hord : forall ii, (ii <= N2)%nat -> (ii = N2 /\ bs N2 = 0%nat) \/ slack_order (blk qp ii) (len ii).
Hypothesis Ha : forall ii, (ii <= N2)%nat -> alg_blk (alg0 ii) (sq ii) (from (start bs ii) diag) (blk qp ii) (len ii).

(** after the first call, or any number of second calls with these matrices *)
Definition PI (qk p' : oqp R) (ws : nat -> sws2 R) : Prop :=
  q_dim p' = q_dim p /\ (forall ii, q_m p' ii = q_m p ii) /\
  forall ii, (ii <= N2)%nat -> BI (last ii) (alg0 ii) (blk qk ii) (stage_q p ii) (stage_q p' ii) (q_BAbt p' ii) (ws ii).
Lemma PI_tr qk qk' p' ws : same_matrices qk qk' -> PI qk p' ws -> PI qk' p' ws.
Proof. intros H (P1 & P2 & P3). split; [exact P1|]. split; [exact P2|]. intros ii Hii. eapply BI_tr; [apply sm_block; exact H|exact (P3 ii Hii)]. Qed.
Lemma last_pos ii : (ii <= N2)%nat -> last ii = false -> (1 <= bs ii)%nat.
Proof. unfold last_default. intros Hii E. apply Nat.eqb_neq in E. apply (proj1 HB). lia. Qed.

Definition LINV (k : nat) (s : lpst R) : Prop :=
  lp_o s = start bs k /\ (exists RSQ, lp_qp s = with_mats qp (q_BAbt qp) RSQ /\ forall i r c, (c <= r < nux qp i)%nat -> RSQ i r c = q_RSQ qp i r c) /\ q_dim (lp_q2 s) = q_dim p /\ (forall ii, q_m (lp_q2 s) ii = q_m p ii) /\
  (forall ii, (k <= ii)%nat -> stage_q (lp_q2 s) ii = stage_q p ii) /\
  (forall ii, (ii < k)%nat -> BI (last ii) (alg0 ii) (blk qp ii) (stage_q p ii) (stage_q (lp_q2 s) ii) (q_BAbt (lp_q2 s) ii) (lp_ws s ii)).
Lemma lhs_step_R k s : (k <= N2)%nat -> LINV k s -> LINV (S k) (part_lhs_step last alg0 sq diag bs k s).
Proof.
  intros Hk (I1 & (RSQ & I2 & I3) & I4 & Im & I5 & I6). unfold part_lhs_step. rewrite I1, I2.
  set (sq1 := sub_qp (with_mats qp (q_BAbt qp) RSQ) (start bs k) (bs k)).
  assert (SM : same_matrices (blk qp k) sq1).
  { change sq1 with (window (with_mats qp (q_BAbt qp) RSQ) (start bs k) (bs k)). apply sm_block. apply sm_RSQ. exact I3. }
  pose proof (lhs_block_R (last k) (alg0 k) (sq k) (from (start bs k) diag) sq1 (stage_q (lp_q2 s) k) (q_BAbt (lp_q2 s) k) (lp_ws s k)) as C. cbv zeta in C.
  change (last_stage (last k) (dN (q_dim sq1))) with (len k) in C.
  assert (C4 : ddims_ok sq1 (len k) (stage_q (lp_q2 s) k)) by exact (size_stage qp p N2 bs HS (lp_q2 s) k Hk I4).
  specialize (C (last_pos k Hk) C4 (alg_blk_tr _ _ _ _ _ _ SM (Ha k Hk))).
  destruct (lhs_block _ _ _ _ _ _ _ _) as [[[q BA2] w] RSQ']. destruct C as (C & CR & _ & _ & _ & Cm). apply (BI_tr _ _ _ _ _ _ _ _ (sm_sym _ _ SM)) in C.
  unfold LINV. cbn [lp_o lp_qp lp_q2 lp_ws]. split; [reflexivity|]. split; [|split; [exact I4|split; [|split]]].
  - exists (merge (start bs k) RSQ' RSQ). split; [reflexivity|]. intros i r c Hr. unfold merge. destruct (Nat.leb_spec (start bs k) i) as [L|L]; [|apply I3; exact Hr].
    specialize (CR (i - start bs k)%nat r c). unfold sq1, nux in CR. cbn [sub_qp q_dim sub_dims with_mats dnu dnx q_RSQ] in CR. unfold from in CR. replace (start bs k + (i - start bs k))%nat with i in CR by lia. rewrite CR by exact Hr. apply I3. exact Hr.
  - intros ii. unfold put_stage. cbn [q_m]. destruct (Nat.eq_dec ii k) as [->|]; [rewrite upd_same|rewrite upd_other by assumption; apply Im]. rewrite Cm. exact (Im k).
  - intros ii Hii. rewrite stage_put_other by lia. apply I5. lia.
  - intros ii Hii. destruct (Nat.eq_dec ii k) as [->|].
    + assert (D0 : ddims_ok (block qp bs k) (len k) q) by exact (proj1 C). destruct D0 as (D1 & D2 & D3 & D4 & D5). destruct C4 as (E1 & E2 & E3 & E4 & E5). cbn [stage_q d_nv d_ne d_nb d_ng d_ns] in E1, E2, E3, E4, E5.
      rewrite stage_put; [|rewrite D1; symmetry; exact E1|rewrite D3; symmetry; exact E3|rewrite D4; symmetry; exact E4|rewrite D5; symmetry; exact E5]. unfold put_stage. cbn [q_BAbt q_b]. rewrite !upd_same.
      apply BI_stage; [exact D2|]. rewrite (I5 k (le_n k)) in C. exact C.
    + rewrite stage_put_other by assumption. unfold put_stage. cbn [q_BAbt q_b]. rewrite !upd_other by assumption. apply I6. lia.
Qed.
Lemma part_lhs_R ws : let s := part_lhs last alg0 sq diag bs qp p ws in PI qp (lp_q2 s) (lp_ws s) /\ same_matrices qp (lp_qp s) /\
  exists RSQ, lp_qp s = with_mats qp (q_BAbt qp) RSQ.
Proof.
  assert (X : LINV (S N2) (part_lhs last alg0 sq diag bs qp p ws)).
  { unfold part_lhs. rewrite (proj1 HS), Nat.add_1_r. apply (loop_ind LINV).
    - split; [reflexivity|]. split; [exists (q_RSQ qp); split; [destruct qp; reflexivity|reflexivity]|]. split; [reflexivity|]. split; [reflexivity|]. split; [reflexivity|intros; lia].
    - intros k s Hk. apply lhs_step_R. lia. }
  destruct X as (_ & (RSQ & X1 & X2) & X3 & X4 & _ & X5). cbv zeta. split; [|split; [rewrite X1; apply sm_RSQ; exact X2|exists RSQ; exact X1]]. split; [exact X3|]. split; [exact X4|]. intros ii Hii. apply X5. lia.
Qed.

(** the second call *)
Section Rhs.
Variable qk : oqp R.
Hypothesis HM : same_matrices qp qk.
Definition RINV (p1 : oqp R) (k : nat) (s : rpst R) : Prop :=
  rp_o s = start bs k /\ PI qk (rp_q2 s) (rp_ws s) /\ q_BAbt (rp_q2 s) = q_BAbt p1 /\
  (forall ii, (ii < k)%nat -> exists md, block_sem (last ii) (blk qk ii) (setm (stage_q (rp_q2 s) ii) md) (q_BAbt (rp_q2 s) ii) (q_b (rp_q2 s) ii)).
Lemma sm_dim : q_dim qk = q_dim qp.
Proof. exact (proj1 HM). Qed.
Lemma wf_k : qp_wf qk.
Proof.
  destruct HM as (E1 & _ & _ & E4 & E5 & _). intros i Hi. unfold nux. rewrite E1, E4, E5. rewrite E1 in Hi. exact (Hwf i Hi).
Qed.
Lemma ord_k ii : slack_order (blk qp ii) (len ii) -> slack_order (blk qk ii) (len ii).
Proof.
  generalize HM. clear. destruct qp as [D BA RSQ DCt b rqz d mask m Z idxb idxs]. destruct qk as [D' BA' RSQ' DCt' b' rqz' d' mask' m' Z' idxb' idxs'].
  intros (E1 & E2 & E3 & E4 & E5 & _). cbn [q_dim q_DCt q_Z q_idxb q_idxs_rev] in *. subst. exact (fun H => H).
Qed.
Lemma count_k ii : count_nbb (blk qk ii) (len ii) = count_nbb (blk qp ii) (len ii) /\ count_nbg (blk qk ii) (len ii) = count_nbg (blk qp ii) (len ii) /\ ngg_of (blk qk ii) (len ii) = ngg_of (blk qp ii) (len ii).
Proof.
  generalize HM. clear. destruct qp as [D BA RSQ DCt b rqz d mask m Z idxb idxs]. destruct qk as [D' BA' RSQ' DCt' b' rqz' d' mask' m' Z' idxb' idxs'].
  intros (E1 & E2 & E3 & E4 & E5 & _). cbn [q_dim q_DCt q_Z q_idxb q_idxs_rev] in *. subst. repeat split; reflexivity.
Qed.
Lemma rhs_step_R p1 k s : (k <= N2)%nat -> RINV p1 k s -> RINV p1 (S k) (part_rhs_step last alg0 diag bs qk k s).
Proof.
  intros Hk (I1 & (I2 & I3 & I4) & I5 & I6). unfold part_rhs_step. rewrite I1. change (sub_qp qk (start bs k) (bs k)) with (blk qk k).
  pose proof (rhs_block_R (last k) (alg0 k) (from (start bs k) diag) (blk qk k) (stage_q p k) (stage_q (rp_q2 s) k) (q_BAbt (rp_q2 s) k) (q_b (rp_q2 s) k) (rp_ws s k)) as C. cbv zeta in C.
  change (last_stage (last k) (dN (q_dim (blk qk k)))) with (len k) in C. cbn [stage_q d_gz d_d d_mask] in C.
  assert (C1 : last k = false -> (1 <= dN (q_dim (blk qk k)))%nat) by exact (last_pos k Hk).
  assert (C2 : wfM (blk qk k) (len k)). { apply (block_wf qk N2 bs wf_k); [rewrite sm_dim; exact HB|exact Hk]. }
  assert (C3 : (last k = true /\ len k = 0%nat) \/ slack_order (blk qk k) (len k)).
  { destruct (Hord k Hk) as [(-> & E)|E]; [left|right; apply ord_k; exact E]. unfold last_default, blen. rewrite Nat.eqb_refl. split; [reflexivity|exact E]. }
  assert (C4 : alg0 k = false -> diag_ok (blk qk k) (len k) (from (start bs k) diag)).
  { intros E. pose proof (alg_blk_tr _ _ _ _ _ _ (sm_block _ _ (start bs k) (bs k) HM) (Ha k Hk)) as A. unfold alg_blk in A. rewrite E in A. exact A. }
  assert (C5 : forall c, (c < count_nbb (blk qk k) (len k) + (count_nbg (blk qk k) (len k) + ngg_of (blk qk k) (len k)))%nat -> q_idxs_rev p k c = (-1)%Z).
  { intros c Hc. apply Hidx; [exact Hk|]. destruct (count_k k) as (K1 & K2 & K3). rewrite K1, K2, K3 in Hc. destruct (size_stage qp p N2 bs HS p k Hk eq_refl) as (_ & _ & E3 & E4 & _). cbn [stage_q d_nb d_ng] in E3, E4. rewrite E3, E4. exact Hc. }
  specialize (C C1 C2 C3 C4 C5 (I4 k Hk)). destruct (vecs_block _ _ _ _ _ _ _ _ _ _) as [[[[b g] d] mask] w]. destruct C as (C & md & CS).
  assert (ES : stage_q (put_vecs (rp_q2 s) k b g d mask) k = with_vecs (stage_q (rp_q2 s) k) g d mask).
  { unfold stage_q, put_vecs, with_vecs. cbn [q_dim q_RSQ q_DCt q_rqz q_d q_mask q_m q_Z q_idxb q_idxs_rev d_nv d_ne d_nb d_ng d_ns d_H d_A d_Ct d_gz d_b d_d d_mask d_m d_Z d_idxb d_idxs_rev]. rewrite !upd_same. reflexivity. }
  assert (EO : forall ii, ii <> k -> stage_q (put_vecs (rp_q2 s) k b g d mask) ii = stage_q (rp_q2 s) ii).
  { intros ii Hne. unfold stage_q, put_vecs. cbn [q_dim q_RSQ q_DCt q_rqz q_d q_mask q_m q_Z q_idxb q_idxs_rev]. rewrite !upd_other by exact Hne. reflexivity. }
  unfold RINV. cbn [rp_o rp_q2 rp_ws]. split; [reflexivity|]. split; [|split; [exact I5|]].
  - split; [exact I2|]. split; [exact I3|]. intros ii Hii. change (q_BAbt (put_vecs (rp_q2 s) k b g d mask)) with (q_BAbt (rp_q2 s)). destruct (Nat.eq_dec ii k) as [->|Hne].
    + rewrite ES, upd_same. exact C.
    + rewrite EO, upd_other by exact Hne. exact (I4 ii Hii).
  - intros ii Hii. change (q_BAbt (put_vecs (rp_q2 s) k b g d mask)) with (q_BAbt (rp_q2 s)). change (q_b (put_vecs (rp_q2 s) k b g d mask)) with (upd (q_b (rp_q2 s)) k b). destruct (Nat.eq_dec ii k) as [->|Hne].
    + exists md. rewrite ES, upd_same. exact CS.
    + rewrite EO, upd_other by exact Hne. apply I6. lia.
Qed.
Lemma part_rhs_R p1 ws : PI qk p1 ws -> let s := part_rhs last alg0 diag bs qk p1 ws in PI qk (rp_q2 s) (rp_ws s) /\
  (forall ii, (ii <= N2)%nat -> exists md, block_sem (last ii) (blk qk ii) (setm (stage_q (rp_q2 s) ii) md) (q_BAbt (rp_q2 s) ii) (q_b (rp_q2 s) ii)).
Proof.
  intros HP. assert (X : RINV p1 (S N2) (part_rhs last alg0 diag bs qk p1 ws)).
  { unfold part_rhs. rewrite (proj1 HP), (proj1 HS), Nat.add_1_r. apply (loop_ind (RINV p1)).
    - split; [reflexivity|]. split; [exact HP|]. split; [reflexivity|intros; lia].
    - intros k s Hk. apply rhs_step_R. lia. }
  destruct X as (_ & X1 & _ & X2). cbv zeta. split; [exact X1|]. intros ii Hii. apply X2. lia.
Qed.
End Rhs.
End Loop.
(** choose the complementarity targets that make all stages of the second QP right *)
Lemma choose {A} n (P : nat -> A -> Prop) (a : A) : (forall i, (i <= n)%nat -> exists x, P i x) -> exists f, forall i, (i <= n)%nat -> P i (f i).
Proof.
  induction n as [|n IH]; intros H.
  - destruct (H 0%nat (le_n _)) as (x & Hx). exists (fun _ => x). intros i Hi. replace i with 0%nat by lia. exact Hx.
  - destruct IH as (f & Hf); [intros i Hi; apply H; lia|]. destruct (H (S n) (le_n _)) as (x & Hx). exists (fun i => if (i =? S n)%nat then x else f i). intros i Hi. destruct (Nat.eqb_spec i (S n)) as [->|]; [exact Hx|apply Hf; lia].
Qed.
Definition with_m (p : oqp R) (md : nat -> rvec) : oqp R :=
  mkqp (q_dim p) (q_BAbt p) (q_RSQ p) (q_DCt p) (q_b p) (q_rqz p) (q_d p) (q_mask p) md (q_Z p) (q_idxb p) (q_idxs_rev p).
Lemma sem_with_m (qk p : oqp R) N2 bs : (forall ii, (ii <= N2)%nat -> exists md, block_sem (last_default N2 ii) (block qk bs ii) (setm (stage_q p ii) md) (q_BAbt p ii) (q_b p ii)) ->
  exists md, forall ii, (ii <= N2)%nat -> block_sem (last_default N2 ii) (block qk bs ii) (stage_q (with_m p md) ii) (q_BAbt (with_m p md) ii) (q_b (with_m p md) ii).
Proof. intros H. apply choose in H; [|exact (fun _ => 0)]. destruct H as (f & Hf). exists f. exact Hf. Qed.
