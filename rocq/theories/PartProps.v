(** PartProps.v -- property C43: partial condensing (PART_COND_QP_COND) is exact. *)
From Coq Require Import ZArith Bool Arith Lia Reals Lra.
From Verif Require Import Base ArithF RSum Blas Blas2 OcpModel ResSpec ResProofs ResProofs2 CholProofs KktModel DenModel DenSpec CondModel CondSpec CondProofs CondCost CondCost2 CondCost3 CondCon CondCon2 CondCon3 CondSem CondFull CondProps PartModel PartSpec PartProofs PartSem.
From Verif Require IntModel IntProofs IntProps.
Local Open Scope R_scope.

(** What the caller has to provide: legal index data in the QP; block sizes adding up to the horizon, none zero but possibly the last;
    a second QP object of the right sizes whose soft-constraint indices are as OCP_QP_CREATE leaves them; and, for blocks condensed with
    cond_alg = 1 (not the default), honest diag_H_flag and no input in the last stage of the block, or a block of one stage. *)
Definition part_pre (alg0 diag : nat -> bool) (N2 : nat) (bs : nat -> nat) (qp p0 : oqp R) : Prop :=
  qp_wf qp /\ blocks_ok (dN (q_dim qp)) N2 bs /\ part_size qp N2 bs p0 /\
  (forall ii c, (ii <= N2)%nat -> (c < dnb (q_dim p0) ii + dng (q_dim p0) ii)%nat -> q_idxs_rev p0 ii c = (-1)%Z) /\
  (forall ii, (ii <= N2)%nat -> alg0 ii = true \/ (dnu (q_dim qp) (start bs ii + blen N2 bs ii) = 0%nat /\ diag_flag_ok qp diag) \/ blen N2 bs ii = 0%nat).
Lemma part_pre_INV alg0 sq diag N2 bs qp p0 ws : part_pre alg0 diag N2 bs qp p0 -> INV qp p0 N2 bs (S N2) (part_cond (last_default N2) alg0 sq diag bs qp p0 ws).
Proof.
  intros (P1 & P2 & P3 & P4 & P5). apply part_cond_R; try assumption. intros ii Hii. destruct (P5 ii Hii) as [A|[(A1 & A2)|A]]; [left; exact A|right; left|right; right; exact A].
  split; [exact A1|]. intros n r c Hn Hd Hr Hc. pose proof (in_le _ N2 bs P2 ii n Hii ltac:(lia)) as L. apply (A2 (start bs ii + n)%nat r c); [lia|exact Hd|exact Hr|exact Hc].
Qed.
(** the second QP after the call *)
Notation part_qp alg0 sq diag N2 bs qp p0 ws := (p_q2 (part_cond (last_default N2) alg0 sq diag bs qp p0 ws)).

Lemma part_facts alg0 sq diag N2 bs qp p0 ws : part_pre alg0 diag N2 bs qp p0 -> let p := part_qp alg0 sq diag N2 bs qp p0 ws in
  blocks_ok (dN (q_dim qp)) N2 bs /\ part_size qp N2 bs p /\
  (forall ii, (ii <= N2)%nat -> block_sem (last_default N2 ii) (block qp bs ii) (stage_q p ii) (q_BAbt p ii) (q_b p ii)).
Proof.
  intros HP p. destruct (part_pre_INV alg0 sq diag N2 bs qp p0 ws HP) as (_ & _ & I4 & _ & I6). destruct HP as (_ & P2 & P3 & _).
  split; [exact P2|]. split; [unfold part_size, p; rewrite I4; exact P3|]. intros ii Hii. apply I6. lia.
Qed.

(** the objective of the second QP at z is the objective of the first one at the trajectory of z, up to a constant *)
Theorem C43_objective : forall alg0 sq diag N2 bs qp p0 ws, part_pre alg0 diag N2 bs qp p0 ->
  let p := part_qp alg0 sq diag N2 bs qp p0 ws in exists K, forall z, cost p z = cost qp (ptraj qp N2 bs z) + K.
Proof. intros alg0 sq diag N2 bs qp p0 ws HP p. destruct (part_facts alg0 sq diag N2 bs qp p0 ws HP) as (F1 & F2 & F3). exact (part_cost qp p N2 bs F1 F2 F3). Qed.

(** its constraints are, one to one and block by block, the constraints of the first QP at the trajectory: same distance to the bound, same mask, same complementarity target *)
Theorem C43_constraints : forall alg0 sq diag N2 bs qp p0 ws, part_pre alg0 diag N2 bs qp p0 ->
  let p := part_qp alg0 sq diag N2 bs qp p0 ws in
  part_size qp N2 bs p /\ qp_wf p /\
  exists pos, part_numbering qp p N2 bs pos /\ forall z i c, (i <= dN (q_dim qp))%nat -> (c < nct (q_dim qp) i)%nat -> let ii := block_of N2 bs i in
    con p z ii (pos i c) - q_d p ii (pos i c) = con qp (ptraj qp N2 bs z) i c - q_d qp i c /\ q_mask p ii (pos i c) = q_mask qp i c /\ q_m p ii (pos i c) = q_m qp i c.
Proof.
  intros alg0 sq diag N2 bs qp p0 ws HP p. destruct (part_facts alg0 sq diag N2 bs qp p0 ws HP) as (F1 & F2 & F3). split; [exact F2|]. split.
  - intros ii Hii. fold p in F2. rewrite (proj1 F2) in Hii. destruct (F3 ii Hii) as (_ & W & _). exact W.
  - exists (ppos qp N2 bs). split; [exact (part_num qp p N2 bs F1 F3)|]. intros z i c Hi Hc. exact (part_con qp p N2 bs F1 F3 z i c Hi Hc).
Qed.

(** its dynamics are those of the first QP at the last stages of the blocks *)
Theorem C43_dynamics : forall alg0 sq diag N2 bs qp p0 ws, part_pre alg0 diag N2 bs qp p0 ->
  let p := part_qp alg0 sq diag N2 bs qp p0 ws in
  forall z ii j, (ii < N2)%nat -> (j < dnx (q_dim p) (S ii))%nat -> dyn p z ii j = dyn qp (ptraj qp N2 bs z) (start bs (S ii) - 1) j.
Proof. intros alg0 sq diag N2 bs qp p0 ws HP p z ii j. destruct (part_facts alg0 sq diag N2 bs qp p0 ws HP) as (F1 & F2 & F3). exact (part_dyn qp p N2 bs F1 F2 F3 z ii j). Qed.

(** the points z describe exactly the trajectories satisfying the dynamics at all stages that are not the last of a block but one; the
    trajectory of z has the inputs of z and, at the start of each block, the state of z *)
Theorem C43_trajectories : forall N2 bs (qp : oqp R), blocks_ok (dN (q_dim qp)) N2 bs -> let N := dN (q_dim qp) in
  (forall z i j, (i < N)%nat -> (j < dnx (q_dim qp) (S i))%nat -> (forall ii, (ii < N2)%nat -> S i <> start bs (S ii)) -> dyn qp (ptraj qp N2 bs z) i j = 0) /\
  (forall z ii i k, (ii <= N2)%nat -> (i <= blen N2 bs ii)%nat -> (k < dnu (q_dim qp) (start bs ii + i))%nat ->
     ptraj qp N2 bs z (start bs ii + i)%nat k = z ii (uoff (block qp bs ii) (blen N2 bs ii) i + k)%nat) /\
  (forall z ii j, (ii <= N2)%nat -> (j < dnx (q_dim qp) (start bs ii))%nat ->
     ptraj qp N2 bs z (start bs ii) (dnu (q_dim qp) (start bs ii) + j)%nat = z ii (nsum (S (blen N2 bs ii)) (dnu (q_dim (block qp bs ii))) + j)%nat) /\
  (forall z, (forall i j, (i < N)%nat -> (j < dnx (q_dim qp) (S i))%nat -> (forall ii, (ii < N2)%nat -> S i <> start bs (S ii)) -> dyn qp z i j = 0) ->
     exists y, same_point qp (ptraj qp N2 bs y) z).
Proof.
  intros N2 bs qp HB N. split; [|split; [|split]].
  - intros z i j Hi Hj Hn. exact (inner_dyn qp N2 bs HB z i j Hi Hn Hj).
  - intros z ii i k Hii Hi Hk. rewrite (ptraj_at qp N2 bs HB) by assumption. apply traj_u. exact Hk.
  - intros z ii j Hii Hj. replace (ptraj qp N2 bs z (start bs ii)) with (ptraj qp N2 bs z (start bs ii + 0)%nat) by (f_equal; lia). rewrite (ptraj_at qp N2 bs HB) by lia.
    assert (E : dnu (q_dim (block qp bs ii)) 0 = dnu (q_dim qp) (start bs ii)) by (cbn [block window q_dim dnu]; f_equal; lia). rewrite <- E at 1. rewrite traj_x by (cbn [block window q_dim dnx]; rewrite Nat.add_0_r; exact Hj).
    cbn [st]. f_equal. pose proof (uoff_sum (block qp bs ii) (blen N2 bs ii) 0 ltac:(lia)) as U. cbn [nsum] in U |- *. lia.
  - intros z Hz. exists (unpack qp N2 bs z). exact (unpack_R qp N2 bs HB z Hz).
Qed.

Lemma same_dyn qp y z i j : same_point qp y z -> (i < dN (q_dim qp))%nat -> (j < dnx (q_dim qp) (S i))%nat -> dyn qp y i j = dyn qp z i j.
Proof.
  intros H Hi Hj. unfold dyn. rewrite (H (S i) (dnu (q_dim qp) (S i) + j)%nat) by (unfold nvt; lia). f_equal. f_equal. apply rsum_ext. intros k Hk. rewrite (H i k); [reflexivity|lia|unfold nux, nvt in *; lia].
Qed.

(** the two problems are equivalent: same feasible set, same minimisers *)
Theorem C43_equivalent : forall alg0 sq diag N2 bs qp p0 ws, part_pre alg0 diag N2 bs qp p0 ->
  let p := part_qp alg0 sq diag N2 bs qp p0 ws in
  (forall z, feasible p z <-> feasible qp (ptraj qp N2 bs z)) /\
  (forall z, ocp_optimal p z <-> ocp_optimal qp (ptraj qp N2 bs z)) /\
  (forall z, ocp_optimal qp z -> exists y, same_point qp (ptraj qp N2 bs y) z /\ ocp_optimal p y).
Proof.
  intros alg0 sq diag N2 bs qp p0 ws HP p. pose proof (C43_constraints alg0 sq diag N2 bs qp p0 ws HP) as C. pose proof (C43_objective alg0 sq diag N2 bs qp p0 ws HP) as O. pose proof (C43_dynamics alg0 sq diag N2 bs qp p0 ws HP) as DY. cbv zeta in C, O, DY. fold p in C, O, DY.
  destruct C as (S & _ & pos & (M1 & M2 & M3) & C). destruct O as (K & O). pose proof HP as (_ & HB & _).
  destruct (C43_trajectories N2 bs qp HB) as (T1 & _ & _ & T4). set (N := dN (q_dim qp)) in *.
  assert (En : dN (q_dim p) = N2) by exact (proj1 S).
  assert (F : forall z, feasible p z <-> feasible qp (ptraj qp N2 bs z)).
  { intros z. split.
    - intros (Hd & H). split.
      + intros i j Hi Hj. destruct (end_dec qp N2 bs i Hi) as [(ii & A & E)|A]; [|apply T1; assumption].
        assert (Ei : i = (start bs (Datatypes.S ii) - 1)%nat) by lia. rewrite Ei. rewrite <- DY; [|exact A|destruct (proj2 S (Datatypes.S ii) ltac:(lia)) as (_ & S2 & _); rewrite S2, <- E; exact Hj].
        apply Hd; [lia|]. destruct (proj2 S (Datatypes.S ii) ltac:(lia)) as (_ & S2 & _). rewrite S2, <- E. exact Hj.
      + intros i c Hi Hc Hm. destruct (C z i c Hi Hc) as (C1 & C2 & _). destruct (M1 i c Hi Hc) as (L1 & L2). specialize (H (block_of N2 bs i) (pos i c) ltac:(lia) L2). rewrite C2 in H. specialize (H Hm). lra.
    - intros (Hd & H). split.
      + intros ii j Hii Hj. rewrite En in Hii. rewrite (DY z ii j Hii Hj). destruct (proj2 S (Datatypes.S ii) ltac:(lia)) as (_ & S2 & _). rewrite S2 in Hj. pose proof (start_S N N2 bs HB ii Hii) as Es. pose proof (in_le N N2 bs HB (Datatypes.S ii) 0 ltac:(lia) ltac:(lia)) as L.
        apply Hd; [lia|]. replace (Datatypes.S (start bs (Datatypes.S ii) - 1)) with (start bs (Datatypes.S ii)) by lia. exact Hj.
      + intros ii r Hii Hr Hm. rewrite En in Hii. destruct (M3 ii r Hii Hr) as (i & c & Hi & Hc & Eb & <-). destruct (C z i c Hi Hc) as (C1 & C2 & _). rewrite Eb in C1, C2. rewrite C2 in Hm. specialize (H i c Hi Hc Hm). lra. }
  assert (P : forall z, feasible qp z -> exists y, same_point qp (ptraj qp N2 bs y) z /\ feasible p y).
  { intros z (Hz1 & Hz2). destruct (T4 z) as (y & Hy); [intros i j Hi Hj _; apply Hz1; assumption|]. exists y. split; [exact Hy|]. apply F. split.
    - intros i j Hi Hj. rewrite (same_dyn qp _ z i j Hy Hi Hj). apply Hz1; assumption.
    - intros i c Hi Hc Hm. rewrite (same_con qp _ z i c Hy Hi). apply Hz2; assumption. }
  assert (Opt : forall z, ocp_optimal p z <-> ocp_optimal qp (ptraj qp N2 bs z)).
  { intros z. split.
    - intros (H1 & H2). split; [apply F; exact H1|]. intros y Hy. destruct (P y Hy) as (vy & E1 & E2). rewrite <- (same_cost qp _ _ E1). specialize (H2 vy E2). rewrite !O in H2. lra.
    - intros (H1 & H2). split; [apply F; exact H1|]. intros y Hy. apply F in Hy. specialize (H2 _ Hy). rewrite !O. lra. }
  split; [exact F|]. split; [exact Opt|]. intros z (Hz1 & Hz2). destruct (P z Hz1) as (y & E1 & E2). exists y. split; [exact E1|]. apply Opt. split; [apply F; exact E2|]. intros u Hu. rewrite (same_cost qp _ _ E1). apply Hz2. exact Hu.
Qed.

(** the first QP object loses no information: only BAbt and RSQrq change, in places that matter to neither dynamics nor cost *)
Theorem C43_ocp_qp_unchanged : forall alg0 sq diag N2 bs qp p0 ws, part_pre alg0 diag N2 bs qp p0 ->
  let qp' := p_qp (part_cond (last_default N2) alg0 sq diag bs qp p0 ws) in
  q_dim qp' = q_dim qp /\ (forall z i j, dyn qp' z i j = dyn qp z i j) /\ (forall z i, stage_cost qp' z i = stage_cost qp z i) /\
  (forall z i c, con qp' z i c = con qp z i c) /\ q_d qp' = q_d qp /\ q_mask qp' = q_mask qp /\ q_m qp' = q_m qp.
Proof.
  intros alg0 sq diag N2 bs qp p0 ws HP qp'. destruct (part_pre_INV alg0 sq diag N2 bs qp p0 ws HP) as (_ & (BA & RSQ & E & Q1 & Q2) & _). unfold qp'. rewrite E. unfold with_mats. repeat split; try reflexivity.
  - intros z i j. unfold dyn. cbn [q_BAbt q_b q_dim]. f_equal. f_equal. change (nux (mkqp (q_dim qp) BA RSQ (q_DCt qp) (q_b qp) (q_rqz qp) (q_d qp) (q_mask qp) (q_m qp) (q_Z qp) (q_idxb qp) (q_idxs_rev qp)) i) with (nux qp i).
    apply rsum_ext. intros k Hk. rewrite Q1 by exact Hk. reflexivity.
  - intros z i. unfold stage_cost. cbn [q_dim q_rqz]. f_equal. f_equal. apply rsum_ext. intros k _. apply rsum_ext. intros l _. f_equal. f_equal. unfold Hess. cbn [q_RSQ q_Z].
    change (nux (mkqp (q_dim qp) BA RSQ (q_DCt qp) (q_b qp) (q_rqz qp) (q_d qp) (q_mask qp) (q_m qp) (q_Z qp) (q_idxb qp) (q_idxs_rev qp)) i) with (nux qp i).
    unfold H_co. destruct (Nat.ltb_spec k (nux qp i)); [|reflexivity]. destruct (Nat.ltb_spec l (nux qp i)); [|reflexivity]. destruct (Nat.leb_spec l k); apply Q2; lia.
Qed.

(** the dimensions computed by PART_COND_QP_COMPUTE_DIM are the right sizes (if nbu, nbx count the bounds on inputs and on states) *)
Definition qp_dim_of (p : oqp R) (ii : nat) (s : IntModel.sdim) : Prop := let D := q_dim p in
  IntModel.s_nx s = Z.of_nat (dnx D ii) /\ IntModel.s_nu s = Z.of_nat (dnu D ii) /\ IntModel.s_nb s = Z.of_nat (dnb D ii) /\ IntModel.s_ng s = Z.of_nat (dng D ii) /\ IntModel.s_ns s = Z.of_nat (dns D ii).
Lemma zsum_nsum n f g : (forall i, (i < n)%nat -> f i = Z.of_nat (g i)) -> IntProofs.zsum n f = Z.of_nat (nsum n g).
Proof. induction n as [|n IH]; intros H; [reflexivity|]. cbn [IntProofs.zsum nsum]. rewrite IH by (intros; apply H; lia). rewrite H by lia. lia. Qed.
Theorem C43_dimensions : forall N2 bs (qp p : oqp R) (src dst : IntModel.barr IntModel.sdim) (bsa : IntModel.barr Z), let N := dN (q_dim qp) in
  blocks_ok N N2 bs -> IntModel.blen src = (N + 1)%nat -> IntModel.blen dst = (N2 + 1)%nat -> IntModel.blen bsa = (N2 + 1)%nat ->
  (forall ii, (ii <= N2)%nat -> IntModel.bdat bsa ii = Z.of_nat (bs ii)) ->
  (forall i, (i <= N)%nat -> dim_of qp i (IntModel.bdat src i) /\ qp_dim_of qp i (IntModel.bdat src i)) ->
  exists d, IntModel.part_cond_dim (Z.of_nat N2) src bsa dst = Ok d /\
    (dN (q_dim p) = N2 -> (forall ii, (ii <= N2)%nat -> qp_dim_of p ii (IntModel.bdat d ii)) -> part_size qp N2 bs p).
Proof.
  intros N2 bs qp p src dst bsa N HB L1 L2 L3 Hb HD.
  assert (HNB : forall i, (i <= N)%nat -> IntModel.s_nb (IntModel.bdat src i) = (IntModel.s_nbx (IntModel.bdat src i) + IntModel.s_nbu (IntModel.bdat src i))%Z).
  { intros i Hi. destruct (HD i Hi) as ((_ & _ & _ & _ & A5 & A6) & (_ & _ & B3 & _)). rewrite A5, A6, B3. pose proof (nsum_cmp (dnb (q_dim qp) i) (fun j => q_idxb qp i j <? dnu (q_dim qp) i)%nat) as E. cbv beta in E. lia. }
  destruct (IntProofs.part_cond_dim_spec N N2 src dst bsa bs L1 L2 L3 Hb (proj1 HB) (eq_trans (f_equal (fun k => nsum k bs) (Nat.add_1_r N2)) (proj2 HB)) HNB) as (d & E & _ & C1 & C2).
  exists d. split; [exact E|]. intros Hp1 Hp2. split; [exact Hp1|]. intros ii Hii B M.
  assert (C : IntProofs.conserved (IntModel.bdat d ii) (IntModel.bdat src) (start bs ii) (S M)).
  { unfold M, blen. destruct (Nat.eqb_spec ii N2) as [->|Hn]; [replace (S (bs N2)) with (bs N2 + 1)%nat by lia; exact C2|]. replace (S (bs ii - 1)) with (bs ii) by (pose proof (proj1 HB ii ltac:(lia)); lia). apply C1. lia. }
  destruct C as (K1 & K2 & K3 & K4 & K5 & K6 & K7). destruct (Hp2 ii Hii) as (Q1 & Q2 & Q3 & Q4 & Q5).
  assert (LE : forall j, (j < S M)%nat -> (start bs ii + j <= N)%nat) by (intros j Hj; apply (in_le N N2 bs HB ii j Hii); unfold M in Hj; lia).
  assert (G : forall j, (j < S M)%nat -> dim_of qp (start bs ii + j) (IntModel.bdat src (start bs ii + j)%nat) /\ qp_dim_of qp (start bs ii + j) (IntModel.bdat src (start bs ii + j)%nat)) by (intros j Hj; apply HD; apply LE; exact Hj).
  rewrite (zsum_nsum (S M) _ (dnu (q_dim B))) in K3 by (intros j Hj; exact (proj1 (proj2 (proj1 (G j Hj))))).
  rewrite (zsum_nsum (S M) _ (fun j => nsum (dnb (q_dim B) j) (fun c => if q_idxb B j c <? dnu (q_dim B) j then 1 else 0)%nat)) in K4 by (intros j Hj; exact (proj1 (proj2 (proj2 (proj2 (proj2 (proj1 (G j Hj)))))))).
  rewrite (zsum_nsum (S M) _ (dns (q_dim B))) in K5 by (intros j Hj; exact (proj1 (proj2 (proj2 (proj2 (proj1 (G j Hj))))))).
  rewrite (zsum_nsum (S M) _ (fun j => dnb (q_dim B) j + dng (q_dim B) j)%nat) in K6.
  2:{ intros j Hj. destruct (G j Hj) as (_ & (_ & _ & G3 & G4 & _)). unfold IntProofs.s_ineq. rewrite G3, G4. cbn [B block window q_dim dnb dng]. lia. }
  destruct (G 0%nat ltac:(lia)) as ((G1 & _ & _ & _ & G5 & G6) & (_ & _ & G3 & _)). rewrite Nat.add_0_r in G1, G5, G6, G3.
  assert (X1 : n_box B M = (nsum (dnb (q_dim qp) (start bs ii)) (fun c => if q_idxb qp (start bs ii) c <? dnu (q_dim qp) (start bs ii) then 0 else 1)%nat
      + nsum (S M) (fun j => nsum (dnb (q_dim B) j) (fun c => if q_idxb B j c <? dnu (q_dim B) j then 1 else 0)%nat))%nat).
  { unfold n_box. rewrite <- Nat.add_1_l, !(nsum_split 1 M). cbn [nsum].
    rewrite (nsum_ext M _ (fun j => nsum (dnb (q_dim B) (1 + j)) (fun c => if q_idxb B (1 + j)%nat c <? dnu (q_dim B) (1 + j) then 1 else 0)%nat)) by (intros j _; reflexivity).
    assert (Y : nsum (dnb (q_dim B) 0) (fun c => if stays_bound B 0 c then 1 else 0)%nat = dnb (q_dim qp) (start bs ii)).
    { cbn [B block window q_dim dnb]. rewrite Nat.add_0_r. unfold stays_bound. cbn [Nat.eqb orb]. clear. induction (dnb (q_dim qp) (start bs ii)) as [|m IHm]; cbn [nsum]; lia. }
    rewrite Y. pose proof (nsum_cmp (dnb (q_dim qp) (start bs ii)) (fun c => q_idxb qp (start bs ii) c <? dnu (q_dim qp) (start bs ii))%nat) as E2. cbv beta in E2.
    assert (Y2 : nsum (dnb (q_dim B) 0) (fun c => if q_idxb B 0%nat c <? dnu (q_dim B) 0 then 1 else 0)%nat = nsum (dnb (q_dim qp) (start bs ii)) (fun c => if q_idxb qp (start bs ii) c <? dnu (q_dim qp) (start bs ii) then 1 else 0)%nat) by (cbn [B block window q_dim dnb dnu q_idxb]; rewrite Nat.add_0_r; reflexivity).
    rewrite Y2. lia. }
  assert (X2 : (n_box B M + n_gen B M)%nat = nsum (S M) (fun j => dnb (q_dim B) j + dng (q_dim B) j)%nat).
  { unfold n_box, n_gen. rewrite Nat.add_assoc. rewrite nsum_add. f_equal. rewrite <- nsum_add. apply nsum_ext. intros j _. apply (nsum_cmp (dnb (q_dim B) j) (stays_bound B j)). }
  rewrite Q2 in K3. rewrite Q5 in K5. rewrite Q1, G1 in K1. unfold IntProofs.s_ineq in K6. rewrite Q3, Q4 in K6. rewrite K2, K4, Q3, G6 in K7.
  repeat split; lia.
Qed.
(** the block sizes computed by PART_COND_QP_COMPUTE_BLOCK_SIZE are legal for 1 <= N2 <= N *)
Theorem C43_block_sizes : forall (N N2 : nat) (bsa : IntModel.barr Z), (1 <= N2 <= N)%nat -> (N2 + 1 <= IntModel.blen bsa)%nat ->
  exists b, IntModel.part_cond_block_size (Z.of_nat N) (Z.of_nat N2) bsa = Ok b /\
    (forall ii, (ii <= N2)%nat -> IntModel.bdat b ii = Z.of_nat (Z.to_nat (IntModel.bdat b ii))) /\ blocks_ok N N2 (fun ii => Z.to_nat (IntModel.bdat b ii)).
Proof.
  intros N N2 bsa H HL. destruct (IntProps.C09_block_sizes_partition N N2 bsa ltac:(lia) HL) as (b & E & _ & B3 & _ & _ & B6 & _ & B8). exists b. split; [exact E|].
  assert (P : forall ii, (ii <= N2)%nat -> IntModel.bdat b ii = Z.of_nat (Z.to_nat (IntModel.bdat b ii))).
  { intros ii Hii. destruct (Nat.eq_dec ii N2) as [->|]; [rewrite B6; reflexivity|]. specialize (B8 ltac:(lia) ii ltac:(lia)). lia. }
  split; [exact P|]. split.
  - intros ii Hii. specialize (B8 ltac:(lia) ii Hii). lia.
  - unfold start. apply Nat2Z.inj. rewrite <- B3, Nat.add_1_r. symmetry. apply zsum_nsum. intros i Hi. apply P. lia.
Qed.

(** *** the hypotheses are met: horizon 3 in blocks of 2 and 1 stages, inputs, bounds on inputs and states, general and soft constraints *)
Definition pex_dims : dims := mkdims 3 (fun _ => 1%nat) (fun i => if (i =? 3)%nat then 0%nat else 1%nat) (fun i => if (i =? 3)%nat then 1%nat else 2%nat) (fun i => if (i =? 3)%nat then 0%nat else 1%nat) (fun _ => 1%nat).
Definition pex_qp : oqp R := mkqp pex_dims (fun _ r _ => INR r + 1) (fun _ r c => if (r =? c)%nat then 2 else 0) (fun _ _ _ => 3) (fun _ _ => 1) (fun _ _ => 1) (fun _ _ => -1) (fun _ _ => 1) (fun _ _ => 0) (fun _ _ => 10)
  (fun i j => j) (fun i j => if (j =? 0)%nat then 0%Z else (-1)%Z).
Definition pex_bs (ii : nat) : nat := if (ii =? 0)%nat then 2%nat else if (ii =? 1)%nat then 1%nat else 0%nat.
Definition pex_p : oqp R := mkqp (mkdims 2 (fun _ => 1%nat) (fun ii => if (ii =? 0)%nat then 2%nat else if (ii =? 1)%nat then 1%nat else 0%nat) (fun ii => if (ii =? 0)%nat then 3%nat else if (ii =? 1)%nat then 2%nat else 1%nat)
    (fun ii => if (ii =? 0)%nat then 3%nat else if (ii =? 1)%nat then 1%nat else 0%nat) (fun ii => if (ii =? 0)%nat then 2%nat else 1%nat))
  (fun _ _ _ => 0) (fun _ _ _ => 0) (fun _ _ _ => 0) (fun _ _ => 0) (fun _ _ => 0) (fun _ _ => 0) (fun _ _ => 1) (fun _ _ => 0) (fun _ _ => 0) (fun _ _ => 0%nat) (fun _ _ => (-1)%Z).
Example pex_pre : part_pre (fun ii => (ii =? 0)%nat) (fun _ => true) 2 pex_bs pex_qp pex_p.
Proof.
  split; [|split; [|split; [|split]]].
  - intros i Hi. assert (E : i = 0%nat \/ i = 1%nat \/ i = 2%nat \/ i = 3%nat) by (cbn in Hi; lia). split.
    + intros j Hj. destruct E as [-> | [-> | [-> | ->]]]; cbn in *; lia.
    + intros j Hj. cbn. destruct (j =? 0)%nat; [right; lia|left; reflexivity].
  - split; [|reflexivity]. intros ii Hii. assert (E : ii = 0%nat \/ ii = 1%nat) by lia. destruct E as [-> | ->]; cbn; lia.
  - split; [reflexivity|]. intros ii Hii. assert (E : ii = 0%nat \/ ii = 1%nat \/ ii = 2%nat) by lia. destruct E as [-> | [-> | ->]]; vm_compute; repeat split; reflexivity.
  - reflexivity.
  - intros ii Hii. assert (E : ii = 0%nat \/ ii = 1%nat \/ ii = 2%nat) by lia. destruct E as [-> | [-> | ->]]; [left; reflexivity|right; right; reflexivity|right; right; reflexivity].
Qed.

(** *** cond_alg = 1 on a block of two stages with inputs in both: the gradient of the second QP is wrong *)
Definition pbad_dims : dims := mkdims 2 (fun _ => 0%nat) (fun i => if (i =? 2)%nat then 0%nat else 1%nat) (fun _ => 0%nat) (fun _ => 0%nat) (fun _ => 0%nat).
Definition pbad_qp : oqp R := mkqp pbad_dims (fun _ _ _ => 0) (fun _ _ _ => 1) (fun _ _ _ => 0) (fun _ _ => 0) (fun i _ => if (i =? 0)%nat then 5 else 7) (fun _ _ => 0) (fun _ _ => 1) (fun _ _ => 0) (fun _ _ => 0) (fun _ _ => 0%nat) (fun _ _ => (-1)%Z).
Definition pbad_bs (ii : nat) : nat := if (ii =? 0)%nat then 2%nat else 0%nat.
Definition pbad_p : oqp R := mkqp (mkdims 1 (fun _ => 0%nat) (fun ii => if (ii =? 0)%nat then 2%nat else 0%nat) (fun _ => 0%nat) (fun _ => 0%nat) (fun _ => 0%nat))
  (fun _ _ _ => 0) (fun _ _ _ => 0) (fun _ _ _ => 0) (fun _ _ => 0) (fun _ _ => 0) (fun _ _ => 0) (fun _ _ => 1) (fun _ _ => 0) (fun _ _ => 0) (fun _ _ => 0%nat) (fun _ _ => (-1)%Z).
Theorem C43_alg1_block_input_refuted :
  let p := part_qp (fun _ => false) (fun _ => false) (fun _ => false) 1 pbad_bs pbad_qp pbad_p (fun _ => w0) in
  qp_wf pbad_qp /\ blocks_ok 2 1 pbad_bs /\ part_size pbad_qp 1 pbad_bs pbad_p /\ diag_flag_ok pbad_qp (fun _ => false) /\
  ~ (exists K, forall z, cost p z = cost pbad_qp (ptraj pbad_qp 1 pbad_bs z) + K).
Proof.
  cbv zeta. split; [intros i Hi; split; intros j Hj; cbn in Hj; lia|]. split; [split; [intros ii Hii; assert (ii = 0%nat) by lia; subst ii; cbn; lia|reflexivity]|]. split.
  { split; [reflexivity|]. intros ii Hii. assert (E : ii = 0%nat \/ ii = 1%nat) by lia. destruct E as [-> | ->]; vm_compute; repeat split; reflexivity. }
  split; [intros n r c _ E; discriminate|].
  intros (K & HK). pose proof (HK (fun _ k => if (k =? 1)%nat then 1 else 0)) as A. pose proof (HK (fun _ k => if (k =? 1)%nat then -1 else 0)) as B. clear HK.
  cbv -[Rplus Rmult Rminus Ropp IZR Rinv Rdiv] in A, B. lra.
Qed.
Print Assumptions C43_objective.
Print Assumptions C43_constraints.
Print Assumptions C43_dynamics.
Print Assumptions C43_trajectories.
Print Assumptions C43_equivalent.
Print Assumptions C43_ocp_qp_unchanged.
Print Assumptions C43_dimensions.
Print Assumptions C43_block_sizes.
Print Assumptions C43_alg1_block_input_refuted.
