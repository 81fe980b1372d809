(** PartSem.v -- the partially condensed QP and the original one: blocks, trajectories, constraints, objective, dynamics. *)
From Coq Require Import ZArith Bool Arith Lia Reals Lra.
From Verif Require Import Base ArithF RSum Blas Blas2 OcpModel ResSpec ResProofs ResProofs2 CholProofs KktModel KktProofs KktProofs2 DenModel DenSpec CondModel CondSpec CondProofs CondCost CondCost2 CondCost3 CondCon CondCon2 CondCon3 CondSem CondFull CondProps ExpModel ExpProps PartModel PartSpec PartProofs.
Local Open Scope R_scope.

Lemma nsum_step n m : (m <= n)%nat -> nsum n (fun k => if (k <? m)%nat then 1 else 0)%nat = m.
Proof.
  revert m. induction n as [|n IH]; intros m Hm; [cbn [nsum]; lia|]. cbn [nsum]. destruct (Nat.eq_dec m (S n)) as [->|].
  - destruct (Nat.ltb_spec n (S n)); [|lia]. rewrite (nsum_ext n _ (fun k => if (k <? n)%nat then 1 else 0)%nat). 2:{ intros k Hk. destruct (Nat.ltb_spec k (S n)), (Nat.ltb_spec k n); try lia; reflexivity. }
    rewrite IH by lia. lia.
  - destruct (Nat.ltb_spec n m); [lia|]. rewrite IH by lia. lia.
Qed.
Lemma rsum_blocks n (len : nat -> nat) f : rsum (nsum n len) f = rsum n (fun ii => rsum (len ii) (fun i => f (nsum ii len + i)%nat)).
Proof. induction n as [|n IH]; [reflexivity|]. cbn [nsum rsum]. rewrite rsum_split, IH. reflexivity. Qed.

Section Blocks.
Variables (N N2 : nat) (bs : nat -> nat).
Hypothesis HB : blocks_ok N N2 bs.
Notation start := (start bs).
Notation blen := (blen N2 bs).
Notation blk := (block_of N2 bs).
Definition nst (ii : nat) : nat := if (ii =? N2)%nat then S (bs ii) else bs ii.
Lemma nst_blen ii : (ii <= N2)%nat -> nst ii = S (blen ii).
Proof. intros H. unfold nst, PartSpec.blen. destruct (Nat.eqb_spec ii N2); [reflexivity|]. pose proof (proj1 HB ii ltac:(lia)). lia. Qed.
Lemma start_nst ii : (ii <= N2)%nat -> nsum ii nst = start ii.
Proof. intros H. unfold PartSpec.start. apply nsum_ext. intros k Hk. unfold nst. destruct (Nat.eqb_spec k N2); [lia|reflexivity]. Qed.
Lemma total_nst : nsum (S N2) nst = S N.
Proof. destruct HB as (_ & E). cbn [nsum]. rewrite start_nst by lia. unfold nst. rewrite Nat.eqb_refl. unfold PartSpec.start in *. cbn [nsum] in E. lia. Qed.
Lemma start_S ii : (ii < N2)%nat -> start (S ii) = S (start ii + blen ii).
Proof. intros H. unfold PartSpec.start, PartSpec.blen. cbn [nsum]. destruct (Nat.eqb_spec ii N2); [lia|]. pose proof (proj1 HB ii H). lia. Qed.
Lemma start_mono a b : (a <= b)%nat -> (start a <= start b)%nat.
Proof. intros H. apply nsum_mono. exact H. Qed.
Lemma start_N : (start N2 + blen N2 = N)%nat.
Proof. destruct HB as (_ & E). unfold PartSpec.start, PartSpec.blen in *. rewrite Nat.eqb_refl. cbn [nsum] in E. exact E. Qed.
Lemma in_le ii i : (ii <= N2)%nat -> (i <= blen ii)%nat -> (start ii + i <= N)%nat.
Proof.
  intros H Hi. destruct (Nat.eq_dec ii N2) as [->|]; [pose proof start_N; lia|]. pose proof (start_S ii ltac:(lia)). pose proof (start_mono (S ii) N2 ltac:(lia)). pose proof start_N. lia.
Qed.
Lemma blk_at ii i : (ii <= N2)%nat -> (i <= blen ii)%nat -> blk (start ii + i) = ii.
Proof.
  intros H Hi. unfold block_of. etransitivity; [|exact (nsum_step N2 ii H)]. apply nsum_ext. intros k Hk. destruct (Nat.ltb_spec k ii) as [L|L].
  - pose proof (start_mono (S k) ii L). destruct (Nat.leb_spec (start (S k)) (start ii + i)); [reflexivity|lia].
  - pose proof (start_mono (S ii) (S k) ltac:(lia)). pose proof (start_S ii ltac:(lia)). destruct (Nat.leb_spec (start (S k)) (start ii + i)); [lia|reflexivity].
Qed.
Lemma locate i : (i <= N)%nat -> exists ii i', (ii <= N2)%nat /\ (i' <= blen ii)%nat /\ i = (start ii + i')%nat.
Proof.
  intros H. destruct (nsum_locate (S N2) nst i) as (ii & i' & A & B & C); [rewrite total_nst; lia|]. exists ii, i'. rewrite nst_blen in B by lia. rewrite start_nst in C by lia. repeat split; [lia|lia|exact C].
Qed.
Lemma rsum_stages f : rsum (S N) f = rsum (S N2) (fun ii => rsum (S (blen ii)) (fun i => f (start ii + i)%nat)).
Proof. rewrite <- total_nst, rsum_blocks. apply rsum_ext. intros ii Hii. rewrite nst_blen, start_nst by lia. reflexivity. Qed.
End Blocks.

Section Sem.
Variables (qp p : oqp R) (N2 : nat) (bs : nat -> nat).
Notation N := (dN (q_dim qp)).
Notation start := (start bs).
Notation blen := (blen N2 bs).
Notation blk := (block_of N2 bs).
Notation B := (block qp bs).
Notation ptr := (ptraj qp N2 bs).
Hypothesis HB : blocks_ok N N2 bs.
Hypothesis HS : part_size qp N2 bs p.
Hypothesis Hsem : forall ii, (ii <= N2)%nat -> block_sem (last_default N2 ii) (B ii) (stage_q p ii) (q_BAbt p ii) (q_b p ii).

Lemma ptraj_at z ii i k : (ii <= N2)%nat -> (i <= blen ii)%nat -> ptr z (start ii + i)%nat k = traj (B ii) (blen ii) (z ii) i k.
Proof. intros H Hi. unfold ptraj. rewrite (blk_at N N2 bs HB ii i H Hi). replace (start ii + i - start ii)%nat with i by lia. reflexivity. Qed.
Lemma con_at z ii i c : (ii <= N2)%nat -> (i <= blen ii)%nat -> con qp (ptr z) (start ii + i) c = con (B ii) (traj (B ii) (blen ii) (z ii)) i c.
Proof. intros H Hi. unfold con. apply rsum_ext. intros k _. rewrite ptraj_at by assumption. reflexivity. Qed.
Lemma cost_at z ii i : (ii <= N2)%nat -> (i <= blen ii)%nat -> stage_cost qp (ptr z) (start ii + i) = stage_cost (B ii) (traj (B ii) (blen ii) (z ii)) i.
Proof.
  intros H Hi. unfold stage_cost. apply f_equal2.
  - apply f_equal. apply rsum_ext. intros k _. apply rsum_ext. intros l _. rewrite !ptraj_at by assumption. reflexivity.
  - apply rsum_ext. intros k _. rewrite ptraj_at by assumption. reflexivity.
Qed.
Lemma stage_con z ii c : con p z ii c = den_con (stage_q p ii) (z ii) c.
Proof. reflexivity. Qed.
Lemma stage_cost_q z ii : stage_cost p z ii = den_cost (stage_q p ii) (z ii).
Proof. reflexivity. Qed.
Lemma stage_nct ii : nct (q_dim p) ii = d_nct (stage_q p ii).
Proof. reflexivity. Qed.

Lemma part_cost : exists K, forall z, cost p z = cost qp (ptr z) + K.
Proof.
  assert (X : forall n, (n <= S N2)%nat -> exists K, forall z, rsum n (stage_cost p z) = rsum n (fun ii => rsum (S (blen ii)) (fun i => stage_cost qp (ptr z) (start ii + i)%nat)) + K).
  { induction n as [|n IH]; intros Hn; [exists 0; intros z; cbn [rsum]; lra|]. destruct (IH ltac:(lia)) as (K1 & IK). destruct (Hsem n ltac:(lia)) as (_ & _ & _ & (K2 & S4) & _). exists (K1 + K2). intros z. assert (RS : forall f, rsum (S n) f = rsum n f + f n) by reflexivity. rewrite !(RS (stage_cost p z)), (RS (fun ii => rsum (S (blen ii)) _)). rewrite IK.
    rewrite stage_cost_q, S4. change (last_stage (last_default N2 n) (dN (q_dim (B n)))) with (blen n). rewrite (rsum_ext (S (blen n)) (fun i => stage_cost qp (ptr z) (start n + i)%nat) (stage_cost (B n) (traj (B n) (blen n) (z n)))) by (intros i Hi; apply cost_at; lia). lra. }
  destruct (X (S N2) (le_n _)) as (K & XK). exists K. intros z. unfold cost. rewrite (proj1 HS), !Nat.add_1_r. rewrite (rsum_stages N N2 bs HB). apply XK.
Qed.
(** place of the constraints *)
Definition ppos (i c : nat) : nat := let ii := blk i in pos (B ii) (blen ii) (i - start ii) c.
Lemma ppos_at ii i c : (ii <= N2)%nat -> (i <= blen ii)%nat -> ppos (start ii + i) c = pos (B ii) (blen ii) i c.
Proof. intros H Hi. unfold ppos. rewrite (blk_at N N2 bs HB ii i H Hi). replace (start ii + i - start ii)%nat with i by lia. reflexivity. Qed.
Lemma part_con z i c : (i <= N)%nat -> (c < nct (q_dim qp) i)%nat ->
  con p z (blk i) (ppos i c) - q_d p (blk i) (ppos i c) = con qp (ptr z) i c - q_d qp i c /\ q_mask p (blk i) (ppos i c) = q_mask qp i c /\ q_m p (blk i) (ppos i c) = q_m qp i c.
Proof.
  intros Hi Hc. destruct (locate N N2 bs HB i Hi) as (ii & i' & A1 & A2 & ->). rewrite (blk_at N N2 bs HB) by assumption. rewrite ppos_at by assumption. rewrite con_at by assumption.
  destruct (Hsem ii A1) as (_ & _ & S3 & _). exact (S3 (z ii) i' c A2 Hc).
Qed.
Lemma stage_nct_eq ii : (ii <= N2)%nat -> nct (q_dim p) ii = (2 * count_nbb (B ii) (blen ii) + 2 * (count_nbg (B ii) (blen ii) + ngg_of (B ii) (blen ii)) + 2 * n_soft (B ii) (blen ii))%nat.
Proof. intros H. destruct (Hsem ii H) as ((_ & _ & E3 & E4 & E5) & _). rewrite stage_nct. unfold d_nct. rewrite E3, E4, E5. reflexivity. Qed.
Lemma part_num : part_numbering qp p N2 bs ppos.
Proof.
  split; [|split].
  - intros i c Hi Hc. destruct (locate N N2 bs HB i Hi) as (ii & i' & A1 & A2 & ->). rewrite (blk_at N N2 bs HB) by assumption. split; [exact A1|]. rewrite ppos_at by assumption. rewrite stage_nct_eq by exact A1. apply pos_lt; [exact A2|exact Hc].
  - intros i c i' c' Hi Hc Hi' Hc'. destruct (locate N N2 bs HB i Hi) as (ii & k & A1 & A2 & ->). destruct (locate N N2 bs HB i' Hi') as (ii' & k' & A1' & A2' & ->). rewrite !(blk_at N N2 bs HB) by assumption. intros <-. rewrite !ppos_at by assumption. intros E.
    destruct (pos_inj (B ii) (blen ii) k c k' c' A2 Hc A2' Hc' E) as (-> & ->). split; reflexivity.
  - intros ii r H Hr. rewrite stage_nct_eq in Hr by exact H. destruct (pos_surj (B ii) (blen ii) r Hr) as (i & c & C1 & C2 & C3). exists (start ii + i)%nat, c. split; [apply (in_le N N2 bs HB); assumption|]. split; [exact C2|]. split; [apply (blk_at N N2 bs HB); assumption|]. rewrite ppos_at by assumption. exact C3.
Qed.
(** dynamics *)
Lemma nu_stage ii : (ii <= N2)%nat -> dnu (q_dim p) ii = (uoff (B ii) (blen ii) 0 + dnu (q_dim (B ii)) 0)%nat.
Proof.
  intros H. destruct (proj2 HS ii H) as (S1 & _). rewrite S1. pose proof (uoff_sum (B ii) (blen ii) 0 ltac:(lia)) as E. cbn [nsum] in E. cbn [nsum]. lia.
Qed.
Lemma ptraj_x0 z ii j : (ii <= N2)%nat -> (j < dnx (q_dim qp) (start ii))%nat -> ptr z (start ii) (dnu (q_dim qp) (start ii) + j)%nat = z ii (dnu (q_dim p) ii + j)%nat.
Proof.
  intros H Hj. replace (ptr z (start ii)) with (ptr z (start ii + 0)%nat) by (f_equal; lia). rewrite ptraj_at by lia. rewrite nu_stage by exact H.
  assert (E : dnu (q_dim (B ii)) 0 = dnu (q_dim qp) (start ii)) by (cbn [block window q_dim dnu]; f_equal; lia). rewrite <- E at 1. rewrite traj_x; [reflexivity|]. cbn [block window q_dim dnx]. rewrite Nat.add_0_r. exact Hj.
Qed.
Lemma part_dyn z ii j : (ii < N2)%nat -> (j < dnx (q_dim p) (S ii))%nat -> dyn p z ii j = dyn qp (ptr z) (start (S ii) - 1) j.
Proof.
  intros H Hj. destruct (proj2 HS (S ii) ltac:(lia)) as (_ & S2 & _). rewrite S2 in Hj. clear S2.
  pose proof (start_S N N2 bs HB ii H) as Es. rewrite Es. replace (S (start ii + blen ii) - 1)%nat with (start ii + blen ii)%nat by lia. unfold dyn. rewrite <- Es.
  rewrite ptraj_x0 by (try exact Hj; lia). apply (f_equal (fun u => u - z (S ii) (dnu (q_dim p) (S ii) + j)%nat)).
  destruct (Hsem ii ltac:(lia)) as ((E1 & _) & _ & _ & _ & S5).
  assert (EL : last_default N2 ii = false) by (unfold last_default; apply Nat.eqb_neq; lia). specialize (S5 EL (z ii) j).
  change (last_stage (last_default N2 ii) (dN (q_dim (B ii)))) with (blen ii) in *. change (dN (q_dim (B ii))) with (bs ii) in S5. cbn [stage_q d_nv] in E1.
  assert (Eb : bs ii = S (blen ii)). { unfold PartSpec.blen. destruct (Nat.eqb_spec ii N2); [lia|]. pose proof (proj1 HB ii H). lia. }
  unfold nux at 1. rewrite E1. etransitivity; [apply S5|].
  - cbn [block window q_dim dnx]. replace (start ii + bs ii)%nat with (start (S ii)) by reflexivity. exact Hj.
  - rewrite Eb, st_S. apply f_equal2; [|reflexivity]. apply rsum_ext. intros k _. rewrite ptraj_at by lia. reflexivity.
Qed.
Lemma inner_dyn z i j : (i < N)%nat -> (forall ii, (ii < N2)%nat -> S i <> start (S ii)) -> (j < dnx (q_dim qp) (S i))%nat -> dyn qp (ptr z) i j = 0.
Proof.
  intros Hi Hn Hj. destruct (locate N N2 bs HB i ltac:(lia)) as (ii & i' & A1 & A2 & ->).
  assert (L : (i' < blen ii)%nat).
  { destruct (Nat.eq_dec i' (blen ii)) as [->|]; [|lia]. exfalso. destruct (Nat.eq_dec ii N2) as [->|]; [pose proof (start_N N N2 bs HB); lia|]. apply (Hn ii ltac:(lia)). symmetry. apply (start_S N N2 bs HB). lia. }
  pose proof (traj_dyn (B ii) (blen ii) (z ii) i' j L) as T. unfold dyn in *. rewrite <- Nat.add_succ_r in *. rewrite ptraj_at by lia. rewrite <- T; [|exact Hj].
  apply f_equal2; [|reflexivity]. apply f_equal2; [|reflexivity]. apply rsum_ext. intros k _. rewrite ptraj_at by lia. reflexivity.
Qed.
(** a stage is a block end or not *)
Lemma end_dec i : (i < N)%nat -> (exists ii, (ii < N2)%nat /\ S i = start (S ii)) \/ (forall ii, (ii < N2)%nat -> S i <> start (S ii)).
Proof.
  intros _. clear. induction N2 as [|n IH]; [right; intros; lia|]. destruct IH as [(ii & A & E)|IH]; [left; exists ii; split; [lia|exact E]|]. destruct (Nat.eq_dec (S i) (start (S n))) as [E|E]; [left; exists n; split; [lia|exact E]|right].
  intros ii Hii. destruct (Nat.eq_dec ii n) as [->|]; [exact E|apply IH; lia].
Qed.
Definition unpack (z : nat -> nat -> R) (ii : nat) : nat -> R := pack (B ii) (blen ii) (fun i => z (start ii + i)%nat).
Lemma unpack_R z : (forall i j, (i < N)%nat -> (j < dnx (q_dim qp) (S i))%nat -> (forall ii, (ii < N2)%nat -> S i <> start (S ii)) -> dyn qp z i j = 0) -> same_point qp (ptr (unpack z)) z.
Proof.
  intros Hz i k Hi Hk. destruct (locate N N2 bs HB i Hi) as (ii & i' & A1 & A2 & ->). rewrite ptraj_at by assumption. unfold unpack. rewrite pack_traj; [reflexivity| |exact A2|exact Hk].
  intros i j Hij Hj. pose proof (in_le N N2 bs HB ii (S i) A1 ltac:(lia)) as Hle. rewrite <- (Hz (start ii + i)%nat j).
  - unfold dyn. cbn [block window q_dim q_BAbt q_b dnu]. rewrite <- Nat.add_succ_r. reflexivity.
  - lia.
  - rewrite <- Nat.add_succ_r. exact Hj.
  - intros kk Hkk E. rewrite <- Nat.add_succ_r in E. pose proof (blk_at N N2 bs HB ii (S i) A1 ltac:(lia)) as E1. pose proof (blk_at N N2 bs HB (S kk) 0 ltac:(lia) ltac:(lia)) as E2. rewrite Nat.add_0_r in E2. rewrite E in E1. assert (E3 : ii = S kk) by congruence. clear E1 E2. rewrite E3 in E. clear - E. lia.
Qed.
End Sem.
