(** PupdExpProps.v -- property C78, continued: expanding a solution of the second QP (PART_COND_QP_EXPAND_SOL) after updates. *)
From Coq Require Import ZArith Bool Arith List Lia Reals Lra.
From Verif Require Import Base ArithF RSum Blas Blas2 OcpModel ResSpec ResProofs ResProofs2 CholProofs KktModel DenModel DenSpec CondModel CondSpec CondProofs CondCost CondCost2 CondCost3 CondCon CondCon2 CondCon3 CondSem CondFull CondProps ExpModel ExpProofs ExpKkt ExpProps.
From Verif Require Import PartModel PartSpec PartProofs PartSem PartProps PartExp PartKkt PartExpProps PcsplitExp CupdModel CupdSpec CupdProofs CupdCost CupdFull PupdModel PupdSpec PupdProofs PupdBlk PupdProofs2 PupdProps.
Local Open Scope R_scope.

Lemma blk_sem_after last (qp : oqp R) BA RSQ q BA2 b2 : same_info qp BA RSQ -> block_sem last qp q BA2 b2 -> block_sem last (with_mats qp BA RSQ) q BA2 b2.
Proof.
  intros (I1 & I2) S. apply (block_sem_info last (with_mats qp BA RSQ) (q_BAbt qp) (q_RSQ qp)).
  - split; [intros i r c Hr; symmetry; exact (I1 i r c Hr)|intros i r c Hr; symmetry; exact (I2 i r c Hr)].
  - destruct qp. exact S.
Qed.
Lemma sem_after (qp p : oqp R) N2 bs BA RSQ : same_info qp BA RSQ ->
  (forall ii, (ii <= N2)%nat -> block_sem (last_default N2 ii) (block qp bs ii) (stage_q p ii) (q_BAbt p ii) (q_b p ii)) ->
  forall ii, (ii <= N2)%nat -> block_sem (last_default N2 ii) (block (with_mats qp BA RSQ) bs ii) (stage_q p ii) (q_BAbt p ii) (q_b p ii).
Proof.
  intros (I1 & I2) H ii Hii. apply (blk_sem_after (last_default N2 ii) (block qp bs ii) (from (start bs ii) BA) (from (start bs ii) RSQ)); [|exact (H ii Hii)].
  split; [intros i r c Hr; exact (I1 (start bs ii + i)%nat r c Hr)|intros i r c Hr; exact (I2 (start bs ii + i)%nat r c Hr)].
Qed.

(** The QP object the last call leaves is the one it was given but for entries of BAbt and RSQrq below the rows of the inputs and states *)
Theorem C78_object_left : forall idxc last bs (qp p : oqp R) ws, exists BA RSQ, p_qp (part_update idxc last bs qp p ws) = with_mats qp BA RSQ /\ same_info qp BA RSQ.
Proof.
  intros idxc last bs qp p ws. destruct (part_update_inv idxc last bs qp p ws) as (_ & (BA & RSQ & E & (Q & _)) & _). exists BA, RSQ. split; [exact E|].
  split; intros i r c Hr; apply Q; unfold nux in Hr; lia.
Qed.
(** *** expanding a solution of the second QP with that object: every residual of the KKT conditions of the present OCP QP is zero or one of the second QP; lam and t are copied *)
Theorem C78_expanded : forall sq diag N2 bs qp0 p0 ws l ps sol ws2 BA RSQ, part_pre (fun _ => true) diag N2 bs qp0 p0 -> no_slacks qp0 -> part_updates_ok N2 bs qp0 l ->
  let qp := last_qp qp0 l in let p := part_history sq diag N2 bs qp0 p0 ws l in same_info qp BA RSQ ->
  let s := e_sol (part_expand (last_default N2) (fun _ => true) (fun _ => true) (fun _ => true) bs N2 (with_mats qp BA RSQ) ps sol ws2) in let D := q_dim qp in
  ocp_lam_masked p (s_lam ps) ->
  same_point qp (s_ux s) (ptraj qp N2 bs (s_ux ps)) /\
  (forall i k, (i <= dN D)%nat -> (k < nvt D i)%nat -> part_eliminated qp N2 bs i k -> kkt_g qp (s_ux s) (s_pi s) (s_lam s) i k = 0) /\
  (forall i k, (i <= dN D)%nat -> (k < nvt D i)%nat -> ~ part_eliminated qp N2 bs i k -> let ii := block_of N2 bs i in exists k2, (ii <= N2)%nat /\ (k2 < nvt (q_dim p) ii)%nat /\
     s_ux s i k = s_ux ps ii k2 /\ kkt_g qp (s_ux s) (s_pi s) (s_lam s) i k = kkt_g p (s_ux ps) (s_pi ps) (s_lam ps) ii k2) /\
  (forall i j, (i < dN D)%nat -> (j < dnx D (S i))%nat -> dyn qp (s_ux s) i j = 0 \/ exists ii, (ii < N2)%nat /\ (j < dnx (q_dim p) (S ii))%nat /\ dyn qp (s_ux s) i j = dyn p (s_ux ps) ii j) /\
  (forall i c, (i <= dN D)%nat -> (c < nct D i)%nat -> let ii := block_of N2 bs i in exists c2, (ii <= N2)%nat /\ (c2 < nct (q_dim p) ii)%nat /\ s_lam s i c = s_lam ps ii c2 /\ s_t s i c = s_t ps ii c2 /\
     kkt_d qp (s_ux s) (s_t s) i c = kkt_d p (s_ux ps) (s_t ps) ii c2).
Proof.
  intros sq diag N2 bs qp0 p0 ws l ps sol ws2 BA RSQ HP Hn Hok qp p HI. destruct (history_PINV sq diag N2 bs qp0 p0 ws l HP Hn Hok) as (w & P). fold qp p in P. clearbody qp p. cbv zeta. intros HM.
  pose proof (sem_after qp p N2 bs BA RSQ HI (PINV_sem N2 bs qp p w P)) as F3. pose proof P as (F1 & F2 & _). destruct HI as (Q1 & Q2).
  pose proof (gen_facts N2 bs (with_mats qp BA RSQ) ps sol ws2 F1 true true) as (X & _). pose proof (gen_residuals N2 bs (with_mats qp BA RSQ) p ps sol ws2 F1 F2 F3 HM) as (R1 & R2 & R3 & R4). cbv zeta in *.
  set (s := e_sol _) in *. clearbody s.
  assert (DY : forall z i j, dyn (with_mats qp BA RSQ) z i j = dyn qp z i j).
  { intros z i j. unfold dyn. change (q_dim (with_mats qp BA RSQ)) with (q_dim qp). change (q_b (with_mats qp BA RSQ)) with (q_b qp). f_equal. f_equal. change (nux (with_mats qp BA RSQ) i) with (nux qp i).
    apply rsum_ext. intros k Hk. change (q_BAbt (with_mats qp BA RSQ)) with BA. rewrite Q1 by exact Hk. reflexivity. }
  split; [intros i k Hi Hk; rewrite <- (after_ptraj qp BA RSQ N2 bs (s_ux ps) i k Q1); exact (X i k Hi Hk)|].
  split; [intros i k Hi Hk He; rewrite <- (after_kkt_g qp BA RSQ Q1 Q2); exact (R1 i k Hi Hk He)|].
  split; [intros i k Hi Hk He; destruct (R2 i k Hi Hk He) as (k2 & A1 & A2 & A3 & A4); exists k2; split; [exact A1|]; split; [exact A2|]; split; [exact A3|]; rewrite <- (after_kkt_g qp BA RSQ Q1 Q2); exact A4|].
  split; [intros i j Hi Hj; rewrite <- DY; exact (R3 i j Hi Hj)|]. exact R4.
Qed.
(** an optimal point of the second QP expands to an optimal point of the present OCP QP *)
Theorem C78_optimal : forall sq diag N2 bs qp0 p0 ws l ps sol ws2 dineq deq BA RSQ, part_pre (fun _ => true) diag N2 bs qp0 p0 -> no_slacks qp0 -> part_updates_ok N2 bs qp0 l ->
  let qp := last_qp qp0 l in let p := part_history sq diag N2 bs qp0 p0 ws l in same_info qp BA RSQ ->
  ocp_optimal p (s_ux ps) -> ocp_optimal qp (s_ux (e_sol (part_expand (last_default N2) (fun _ => true) (fun _ => dineq) (fun _ => deq) bs N2 (with_mats qp BA RSQ) ps sol ws2))).
Proof.
  intros sq diag N2 bs qp0 p0 ws l ps sol ws2 dineq deq BA RSQ HP Hn Hok qp p HI HO. apply (proj1 (proj2 (C78_equivalent sq diag N2 bs qp0 p0 ws l HP Hn Hok))) in HO. fold qp in HO.
  destruct (history_PINV sq diag N2 bs qp0 p0 ws l HP Hn Hok) as (w & P). fold qp p in P. clearbody qp p. pose proof P as (F1 & _). destruct HI as (Q1 & _).
  pose proof (gen_facts N2 bs (with_mats qp BA RSQ) ps sol ws2 F1 dineq deq) as (X0 & _). cbv zeta in X0. set (s := e_sol _) in *. clearbody s.
  assert (X : same_point qp (s_ux s) (ptraj qp N2 bs (s_ux ps))) by (intros i k Hi Hk; rewrite <- (after_ptraj qp BA RSQ N2 bs (s_ux ps) i k Q1); exact (X0 i k Hi Hk)).
  destruct HO as ((O1 & O2) & O3). split; [split|].
  - intros i j Hi Hj. rewrite (same_dyn qp _ _ i j X Hi Hj). apply O1; assumption.
  - intros i c Hi Hc Hm. rewrite (same_con qp _ _ i c X Hi). apply O2; assumption.
  - intros y Hy. rewrite (same_cost qp _ _ X). apply O3. exact Hy.
Qed.
(** the hypotheses are met: the history of PupdProps.v, the object left by the last call, any nonnegative multipliers (every constraint is imposed) *)
Example px_expand_hyps : same_info (last_qp (px_qp 1 2) px_hist) (q_BAbt (px_qp 5 7)) (q_RSQ (px_qp 5 7)) /\
  ocp_lam_masked (part_history (fun _ => false) (fun _ => true) 2 px_bs (px_qp 1 2) px_p (fun _ => w0) px_hist) (fun _ _ => 1).
Proof.
  split; [split; reflexivity|]. destruct px_hyps as (H1 & H2 & H3).
  pose proof (C78_constraints (fun _ => false) (fun _ => true) 2 px_bs (px_qp 1 2) px_p (fun _ => w0) px_hist H1 H2 H3) as C. cbv zeta in C. destruct C as (S & _ & pos & (_ & _ & N3) & C).
  set (p := part_history _ _ _ _ _ _ _ _) in *. clearbody p. intros ii c Hii Hc. right. rewrite (proj1 S) in Hii. destruct (N3 ii c Hii Hc) as (i & c' & Hi & Hc' & <- & <-). destruct (C (fun _ _ => 0) i c' Hi Hc') as (_ & -> & _). reflexivity.
Qed.
Print Assumptions C78_object_left.
Print Assumptions C78_expanded.
Print Assumptions C78_optimal.
