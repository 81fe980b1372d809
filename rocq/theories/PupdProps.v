(** PupdProps.v -- property C78: updating a partially condensed QP (PART_COND_QP_UPDATE) after some stages of the OCP QP changed. *)
From Coq Require Import ZArith Bool Arith List Lia Reals Lra.
From Verif Require Import Base ArithF RSum Blas Blas2 OcpModel ResSpec ResProofs ResProofs2 CholProofs KktModel DenModel DenSpec CondModel CondSpec CondProofs CondCost CondCost2 CondCost3 CondCon CondCon2 CondCon3 CondSem CondFull CondProps ExpModel.
From Verif Require Import PartModel PartSpec PartProofs PartSem PartProps CupdModel CupdSpec CupdProofs CupdCost CupdFull PupdModel PupdSpec PupdProofs PupdBlk PupdProofs2.
Local Open Scope R_scope.

(** After PART_COND_QP_COND and any number of updates, the objective of the second QP at z is that of the present OCP QP at the trajectory of z, up to a constant *)
Theorem C78_objective : forall sq diag N2 bs qp0 p0 ws l, part_pre (fun _ => true) diag N2 bs qp0 p0 -> no_slacks qp0 -> part_updates_ok N2 bs qp0 l ->
  let qp := last_qp qp0 l in let p := part_history sq diag N2 bs qp0 p0 ws l in
  exists K, forall z, cost p z = cost qp (ptraj qp N2 bs z) + K.
Proof.
  intros sq diag N2 bs qp0 p0 ws l HP Hn Hok qp p. destruct (history_PINV sq diag N2 bs qp0 p0 ws l HP Hn Hok) as (w & P). fold qp p in P.
  pose proof P as (P1 & P2 & _). exact (part_cost qp p N2 bs P1 P2 (PINV_sem N2 bs qp p w P)).
Qed.
(** ... it has the sizes of the partially condensed problem, and its constraints are, one to one and block by block, those of the present OCP QP at the trajectory: same distance to the bound, same mask, same complementarity target *)
Theorem C78_constraints : forall sq diag N2 bs qp0 p0 ws l, part_pre (fun _ => true) diag N2 bs qp0 p0 -> no_slacks qp0 -> part_updates_ok N2 bs qp0 l ->
  let qp := last_qp qp0 l in let p := part_history sq diag N2 bs qp0 p0 ws l in
  part_size qp N2 bs p /\ qp_wf p /\
  exists pos, part_numbering qp p N2 bs pos /\ forall z i c, (i <= dN (q_dim qp))%nat -> (c < nct (q_dim qp) i)%nat -> let ii := block_of N2 bs i in
    con p z ii (pos i c) - q_d p ii (pos i c) = con qp (ptraj qp N2 bs z) i c - q_d qp i c /\ q_mask p ii (pos i c) = q_mask qp i c /\ q_m p ii (pos i c) = q_m qp i c.
Proof.
  intros sq diag N2 bs qp0 p0 ws l HP Hn Hok qp p. destruct (history_PINV sq diag N2 bs qp0 p0 ws l HP Hn Hok) as (w & P). fold qp p in P.
  pose proof P as (P1 & P2 & _). pose proof (PINV_sem N2 bs qp p w P) as F3. split; [exact P2|]. split.
  - intros ii Hii. rewrite (proj1 P2) in Hii. destruct (F3 ii Hii) as (_ & W & _). exact W.
  - exists (ppos qp N2 bs). split; [exact (part_num qp p N2 bs P1 F3)|]. intros z i c Hi Hc. exact (part_con qp p N2 bs P1 F3 z i c Hi Hc).
Qed.
(** ... its dynamics are those of the present OCP QP at the last stages of the blocks *)
Theorem C78_dynamics : forall sq diag N2 bs qp0 p0 ws l, part_pre (fun _ => true) diag N2 bs qp0 p0 -> no_slacks qp0 -> part_updates_ok N2 bs qp0 l ->
  let qp := last_qp qp0 l in let p := part_history sq diag N2 bs qp0 p0 ws l in
  forall z ii j, (ii < N2)%nat -> (j < dnx (q_dim p) (S ii))%nat -> dyn p z ii j = dyn qp (ptraj qp N2 bs z) (start bs (S ii) - 1) j.
Proof.
  intros sq diag N2 bs qp0 p0 ws l HP Hn Hok qp p z ii j. destruct (history_PINV sq diag N2 bs qp0 p0 ws l HP Hn Hok) as (w & P). fold qp p in P.
  pose proof P as (P1 & P2 & _). exact (part_dyn qp p N2 bs P1 P2 (PINV_sem N2 bs qp p w P) z ii j).
Qed.
(** ... and so the two problems have the same feasible points and the same minimisers *)
Theorem C78_equivalent : forall sq diag N2 bs qp0 p0 ws l, part_pre (fun _ => true) diag N2 bs qp0 p0 -> no_slacks qp0 -> part_updates_ok N2 bs qp0 l ->
  let qp := last_qp qp0 l in let p := part_history sq diag N2 bs qp0 p0 ws l in
  (forall z, feasible p z <-> feasible qp (ptraj qp N2 bs z)) /\
  (forall z, ocp_optimal p z <-> ocp_optimal qp (ptraj qp N2 bs z)) /\
  (forall z, ocp_optimal qp z -> exists y, same_point qp (ptraj qp N2 bs y) z /\ ocp_optimal p y).
Proof.
  intros sq diag N2 bs qp0 p0 ws l HP Hn Hok qp p. destruct (history_PINV sq diag N2 bs qp0 p0 ws l HP Hn Hok) as (w & P). fold qp p in P.
  pose proof P as (P1 & P2 & _). exact (part_equiv qp p N2 bs P1 P2 (PINV_sem N2 bs qp p w P)).
Qed.

(** ** whatever the arithmetic *)
(** each block is updated from its own stages of the OCP QP as the caller gave them, its own stage of the second QP and its own workspace *)
Theorem C78_blocks : forall (F : Type) (AF : Arith F) idxc last bs (qp p : oqp F) ws ii, (ii <= dN (q_dim p))%nat ->
  let r := part_update idxc last bs qp p ws in
  let '(q, BA, b, w, _, _) := update_block (fun i => idxc (start bs ii + i)%nat) (last ii) (sub_qp qp (start bs ii) (bs ii)) (stage_q p ii) (q_BAbt p ii) (q_b p ii) (ws ii) in
  stage_q (p_q2 r) ii = q /\ q_BAbt (p_q2 r) ii = BA /\ q_b (p_q2 r) ii = b /\ p_ws r ii = w.
Proof.
  intros F AF idxc last bs qp p ws ii Hii r. destruct (part_update_inv idxc last bs qp p ws) as (_ & _ & _ & _ & G). exact (G ii ltac:(lia)).
Qed.
(** a block none of whose stages is marked is left alone: its stage of the second QP and its workspace are as before *)
Theorem C78_unmarked_block : forall (F : Type) (AF : Arith F) idxc last bs (qp p : oqp F) ws ii, (ii <= dN (q_dim p))%nat -> last ii = true \/ (1 <= bs ii)%nat ->
  (forall i, (i <= if last ii then bs ii else bs ii - 1)%nat -> idxc (start bs ii + i)%nat = false) ->
  let r := part_update idxc last bs qp p ws in
  stage_q (p_q2 r) ii = stage_q p ii /\ q_BAbt (p_q2 r) ii = q_BAbt p ii /\ q_b (p_q2 r) ii = q_b p ii /\ p_ws r ii = ws ii.
Proof.
  intros F AF idxc last bs qp p ws ii Hii Hl Hm r. pose proof (C78_blocks F AF idxc last bs qp p ws ii Hii) as B. cbv zeta in B. fold r in B.
  rewrite (update_block_unmarked (fun i => idxc (start bs ii + i)%nat) (last ii) (sub_qp qp (start bs ii) (bs ii)) (stage_q p ii) (q_BAbt p ii) (q_b p ii) (ws ii)) in B; [exact B|exact Hl|].
  intros i Hi. apply Hm. exact Hi.
Qed.
(** the masks and the complementarity targets of the second QP are never updated, whatever is marked and whatever changed in them *)
Theorem C78_masks_not_updated : forall (F : Type) (AF : Arith F) idxc last bs (qp p : oqp F) ws ii, (ii <= dN (q_dim p))%nat ->
  let p' := p_q2 (part_update idxc last bs qp p ws) in q_mask p' ii = q_mask p ii /\ q_m p' ii = q_m p ii.
Proof.
  intros F AF idxc last bs qp p ws ii Hii p'. pose proof (C78_blocks F AF idxc last bs qp p ws ii Hii) as B. cbv zeta in B. fold p' in B.
  pose proof (update_block_keeps (fun i => idxc (start bs ii + i)%nat) (last ii) (sub_qp qp (start bs ii) (bs ii)) (stage_q p ii) (q_BAbt p ii) (q_b p ii) (ws ii)) as K.
  destruct (update_block _ _ _ _ _ _ _) as [[[[[q BA] b] w] BA'] RSQ']. cbn [fst] in K. destruct B as (B & _). destruct K as (_ & _ & _ & _ & _ & _ & _ & K1 & K2).
  change (q_mask p' ii) with (d_mask (stage_q p' ii)). change (q_m p' ii) with (d_m (stage_q p' ii)). rewrite B, K1, K2. split; reflexivity.
Qed.
(** the OCP QP object the caller passes loses no information: only rows of BAbt and RSQrq that hold copies of b and of the gradient change *)
Theorem C78_ocp_qp_unchanged : forall idxc last bs (qp p : oqp R) ws, let qp' := p_qp (part_update idxc last bs qp p ws) in
  q_dim qp' = q_dim qp /\ (forall z i j, dyn qp' z i j = dyn qp z i j) /\ (forall z i, stage_cost qp' z i = stage_cost qp z i) /\
  (forall z i c, con qp' z i c = con qp z i c) /\ q_d qp' = q_d qp /\ q_mask qp' = q_mask qp /\ q_m qp' = q_m qp.
Proof.
  intros idxc last bs qp p ws qp'. destruct (part_update_inv idxc last bs qp p ws) as (_ & (BA & RSQ & E & (Q & _)) & _). unfold qp'. rewrite E. unfold with_mats. repeat split; try reflexivity.
  - intros z i j. unfold dyn. cbn [q_BAbt q_b q_dim]. f_equal. f_equal. change (nux (mkqp (q_dim qp) BA RSQ (q_DCt qp) (q_b qp) (q_rqz qp) (q_d qp) (q_mask qp) (q_m qp) (q_Z qp) (q_idxb qp) (q_idxs_rev qp)) i) with (nux qp i).
    apply rsum_ext. intros k Hk. unfold nux in Hk. rewrite (proj1 (Q i k j Hk)). reflexivity.
  - intros z i. unfold stage_cost. cbn [q_dim q_rqz]. f_equal. f_equal. apply rsum_ext. intros k _. apply rsum_ext. intros l _. f_equal. f_equal. unfold Hess. cbn [q_RSQ q_Z].
    change (nux (mkqp (q_dim qp) BA RSQ (q_DCt qp) (q_b qp) (q_rqz qp) (q_d qp) (q_mask qp) (q_m qp) (q_Z qp) (q_idxb qp) (q_idxs_rev qp)) i) with (nux qp i).
    unfold H_co. destruct (Nat.ltb_spec k (nux qp i)); [|reflexivity]. destruct (Nat.ltb_spec l (nux qp i)); [|reflexivity]. unfold nux in *. destruct (Nat.leb_spec l k); apply Q; assumption.
Qed.

(** *** the hypotheses are met: horizon 4 in blocks of 3 and 1 stages and the last stage; first the data of stage 0 change, then those of all later stages *)
Definition px_dims : dims := mkdims 4 (fun _ => 1%nat) (fun i => if (i =? 4)%nat then 0%nat else 1%nat) (fun i => if (i =? 4)%nat then 1%nat else 2%nat) (fun _ => 1%nat) (fun _ => 0%nat).
Definition px_qp (a b : R) : oqp R := mkqp px_dims (fun i r _ => if (i =? 0)%nat then a else INR r + b) (fun i r c => if (r =? c)%nat then if (i =? 2)%nat then 1 + b * b else 2 else 0) (fun _ _ _ => 3) (fun i _ => if (i =? 0)%nat then a else b)
  (fun i _ => if (i =? 0)%nat then a else b) (fun i _ => if (i =? 0)%nat then a else b) (fun _ _ => 1) (fun _ _ => 0) (fun _ _ => 10) (fun i j => j) (fun i j => (-1)%Z).
Definition px_bs (ii : nat) : nat := if (ii =? 0)%nat then 3%nat else if (ii =? 1)%nat then 1%nat else 0%nat.
Definition px_p : oqp R := mkqp (mkdims 2 (fun _ => 1%nat) (fun ii => if (ii =? 0)%nat then 3%nat else if (ii =? 1)%nat then 1%nat else 0%nat) (fun ii => if (ii =? 0)%nat then 4%nat else if (ii =? 1)%nat then 2%nat else 1%nat)
    (fun ii => if (ii =? 0)%nat then 5%nat else 1%nat) (fun _ => 0%nat))
  (fun _ _ _ => 0) (fun _ _ _ => 0) (fun _ _ _ => 0) (fun _ _ => 0) (fun _ _ => 0) (fun _ _ => 0) (fun _ _ => 1) (fun _ _ => 0) (fun _ _ => 0) (fun _ _ => 0%nat) (fun _ _ => (-1)%Z).
Definition px_hist : list ((nat -> bool) * oqp R) := ((fun i => (i =? 0)%nat), px_qp 5 2) :: ((fun i => (1 <=? i)%nat), px_qp 5 7) :: nil.
Example px_pd a b n : (1 <= n <= 2)%nat -> state_cost_pd (px_qp a b) n.
Proof.
  intros Hn x (k & Hk & Hx). assert (E : n = 1%nat \/ n = 2%nat) by lia. destruct E as [-> | ->]; cbn in Hk; replace k with 0%nat in Hx by lia;
  cbv -[Rplus Rmult Rminus Ropp IZR Rinv Rdiv Rlt]; pose proof (Rsqr_pos_lt _ Hx) as Hs; unfold Rsqr in Hs; pose proof (Rle_0_sqr b) as Hb; unfold Rsqr in Hb; nra.
Qed.
Example px_pds a b ii n : (ii <= 2)%nat -> (1 <= n <= blen 2 px_bs ii)%nat -> state_cost_pd (px_qp a b) (start px_bs ii + n).
Proof.
  intros Hii Hn. assert (E : ii = 0%nat \/ ii = 1%nat \/ ii = 2%nat) by lia. destruct E as [-> | [-> | ->]]; cbn in Hn; try lia. apply (px_pd a b n). lia.
Qed.
Example px_hyps : part_pre (fun _ => true) (fun _ => true) 2 px_bs (px_qp 1 2) px_p /\ no_slacks (px_qp 1 2) /\ part_updates_ok 2 px_bs (px_qp 1 2) px_hist.
Proof.
  split; [|split].
  - split; [|split; [|split; [|split]]].
    + intros i Hi. assert (E : i = 0%nat \/ i = 1%nat \/ i = 2%nat \/ i = 3%nat \/ i = 4%nat) by (cbn in Hi; lia). split; [|intros j Hj; left; reflexivity]. intros j Hj. destruct E as [-> | [-> | [-> | [-> | ->]]]]; cbn in *; lia.
    + split; [|reflexivity]. intros ii Hii. assert (E : ii = 0%nat \/ ii = 1%nat) by lia. destruct E as [-> | ->]; cbn; lia.
    + split; [reflexivity|]. intros ii Hii. assert (E : ii = 0%nat \/ ii = 1%nat \/ ii = 2%nat) by lia. destruct E as [-> | [-> | ->]]; cbv zeta; repeat split; reflexivity.
    + reflexivity.
    + intros ii Hii. left. reflexivity.
  - intros i _. reflexivity.
  - cbn [part_updates_ok px_hist]. split; [|split; [|exact I]].
    + split; [repeat split; reflexivity|]. split; [|split; [|intros ii n H1 H2; apply px_pds; assumption]].
      * intros i Hi E. apply Nat.eqb_neq in E. unfold same_stage. cbn [px_qp q_BAbt q_b q_RSQ q_rqz q_DCt q_d]. destruct (Nat.eqb_spec i 0); [lia|]. repeat split; reflexivity.
      * intros ii Hii E. assert (D : ii = 0%nat \/ ii = 1%nat \/ ii = 2%nat) by lia. destruct D as [-> | [-> | ->]]; cbn in E; discriminate.
    + split; [repeat split; reflexivity|]. split; [|split; [|intros ii n H1 H2; apply px_pds; assumption]].
      * intros i Hi E. apply Nat.leb_gt in E. replace i with 0%nat by lia. repeat split; reflexivity.
      * intros ii Hii _. assert (D : ii = 0%nat \/ ii = 1%nat \/ ii = 2%nat) by lia. destruct D as [-> | [-> | ->]]; [right; reflexivity|left; cbn; lia|left; cbn; lia].
Qed.

(** *** the last stage of a block of three marked alone: the cost of x_2 changes from 1/2 x^2 to x^2 and only stage 2 is marked; x_2 = u_1.  The Hessian entry of u_1 keeps the old cost. *)
Definition pl_dims : dims := mkdims 3 (fun i => if (i =? 2)%nat then 1%nat else 0%nat) (fun i => if (i =? 1)%nat then 1%nat else 0%nat) (fun _ => 0%nat) (fun _ => 0%nat) (fun _ => 0%nat).
Definition pl_qp (Q : R) : oqp R := mkqp pl_dims (fun _ r _ => if (r =? 0)%nat then 1 else 0) (fun i r c => if (i =? 2)%nat then Q else 0) (fun _ _ _ => 0) (fun _ _ => 0) (fun _ _ => 0) (fun _ _ => 0) (fun _ _ => 1) (fun _ _ => 0) (fun _ _ => 0) (fun _ _ => 0%nat) (fun _ _ => (-1)%Z).
Definition pl_bs (ii : nat) : nat := if (ii =? 0)%nat then 3%nat else 0%nat.
Definition pl_p : oqp R := mkqp (mkdims 1 (fun _ => 0%nat) (fun ii => if (ii =? 0)%nat then 1%nat else 0%nat) (fun _ => 0%nat) (fun _ => 0%nat) (fun _ => 0%nat))
  (fun _ _ _ => 0) (fun _ _ _ => 0) (fun _ _ _ => 0) (fun _ _ => 0) (fun _ _ => 0) (fun _ _ => 0) (fun _ _ => 1) (fun _ _ => 0) (fun _ _ => 0) (fun _ _ => 0%nat) (fun _ _ => (-1)%Z).
Definition pl_idxc (i : nat) : bool := (i =? 2)%nat.
Theorem C78_block_last_stage_alone_refuted :
  let p := part_history (fun _ => false) (fun _ => false) 1 pl_bs (pl_qp 1) pl_p (fun _ => w0) ((pl_idxc, pl_qp 2) :: nil) in
  part_pre (fun _ => true) (fun _ => false) 1 pl_bs (pl_qp 1) pl_p /\ no_slacks (pl_qp 1) /\ same_layout (pl_qp 1) (pl_qp 2) /\ marked pl_idxc (pl_qp 1) (pl_qp 2) /\
  (forall ii n, (ii <= 1)%nat -> (1 <= n <= blen 1 pl_bs ii)%nat -> state_cost_pd (pl_qp 2) (start pl_bs ii + n)) /\
  ~ (exists K, forall z, cost p z = cost (pl_qp 2) (ptraj (pl_qp 2) 1 pl_bs z) + K).
Proof.
  cbv zeta. split; [|split; [|split; [|split; [|split]]]].
  - split; [|split; [|split; [|split]]].
    + intros i Hi. split; intros j Hj; cbn in Hj; lia.
    + split; [|reflexivity]. intros ii Hii. assert (ii = 0%nat) by lia. subst ii. cbn. lia.
    + split; [reflexivity|]. intros ii Hii. assert (E : ii = 0%nat \/ ii = 1%nat) by lia. destruct E as [-> | ->]; cbv zeta; repeat split; reflexivity.
    + reflexivity.
    + intros ii Hii. left. reflexivity.
  - intros i _. reflexivity.
  - repeat split; reflexivity.
  - intros i Hi E. apply Nat.eqb_neq in E. unfold same_stage. cbn [pl_qp q_BAbt q_b q_RSQ q_rqz q_DCt q_d]. destruct (Nat.eqb_spec i 2); [lia|]. repeat split; reflexivity.
  - intros ii n Hii Hn. assert (E : ii = 0%nat \/ ii = 1%nat) by lia. destruct E as [-> | ->]; cbn in Hn; [|lia]. intros x (k & Hk & Hx).
    assert (D : n = 1%nat \/ n = 2%nat) by lia. destruct D as [-> | ->]; cbn in Hk; [lia|]. replace k with 0%nat in Hx by lia.
    cbv -[Rplus Rmult Rminus Ropp IZR Rinv Rdiv Rlt]; pose proof (Rsqr_pos_lt _ Hx) as Hs; unfold Rsqr in Hs; nra.
  - intros (K & HK). pose proof (HK (fun _ _ => 0)) as A. pose proof (HK (fun _ k => if (k =? 0)%nat then 1 else 0)) as B. clear HK.
    cbv -[Rplus Rmult Rminus Ropp IZR Rinv Rdiv] in A, B. lra.
Qed.
Print Assumptions C78_objective.
Print Assumptions C78_constraints.
Print Assumptions C78_dynamics.
Print Assumptions C78_equivalent.
Print Assumptions C78_blocks.
Print Assumptions C78_unmarked_block.
Print Assumptions C78_masks_not_updated.
Print Assumptions C78_ocp_qp_unchanged.
Print Assumptions C78_block_last_stage_alone_refuted.
