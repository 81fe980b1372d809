(** CondProps.v -- property C28: full condensing (COND_QP_COND) is exact. *)
From Coq Require Import ZArith Bool Arith Lia Reals Lra.
From Verif Require Import Base ArithF RSum Blas Blas2 OcpModel ResSpec ResProofs ResProofs2 CholProofs KktModel DenModel DenSpec CondModel CondSpec CondProofs CondCost CondCost2 CondCost3 CondCon CondCon2 CondCon3 CondSem CondFull.
From Verif Require IntModel.
Local Open Scope R_scope.

Lemma n_box_eq qp M : n_box qp M = count_nbb qp M.
Proof. rewrite nb2_eq, <- cb_0. change (n_box qp M) with (nsum (S M) (cb qp)). rewrite <- (roff_sum M (cb qp) 0) by lia. cbn [nsum]. reflexivity. Qed.
Lemma n_gen_eq qp M : n_gen qp M = (count_nbg qp M + ngg_of qp M)%nat.
Proof.
  unfold n_gen. f_equal; [|unfold ngg_of; f_equal; lia]. rewrite nbg_eq.
  rewrite (nsum_ext (S M) _ (cg qp)). 2:{ intros i _. unfold cg, cnt. apply nsum_ext. intros j _. unfold nbox, box, stays_bound, is_input. destruct (orb _ _); reflexivity. }
  rewrite <- (roff_sum M (cg qp) 0) by lia. cbn [nsum]. rewrite cg_0. lia.
Qed.
Lemma size_ddims qp q : dense_size qp (dN (q_dim qp)) q -> ddims_ok qp (dN (q_dim qp)) q.
Proof. intros (A & B & C & E & F). unfold ddims_ok. rewrite A, B, C, E, F, n_box_eq, n_gen_eq. repeat split; reflexivity. Qed.

(** What the caller has to provide: legal index data in the QP; a dense QP object of the right size whose soft-constraint indices are as
    DENSE_QP_CREATE leaves them; and, for cond_alg = 1, honest diag_H_flag and no input in the last stage. *)
Definition cond_pre (alg0 : bool) (diag : nat -> bool) (qp : oqp R) (q0 : dqp R) : Prop :=
  qp_wf qp /\ dense_size qp (dN (q_dim qp)) q0 /\ (forall p, (p < d_nb q0 + d_ng q0)%nat -> d_idxs_rev q0 p = (-1)%Z) /\
  (alg0 = true \/ (dnu (q_dim qp) (dN (q_dim qp)) = 0%nat /\ diag_flag_ok qp diag)).
Lemma cond_pre_post alg0 sq diag qp q0 w : cond_pre alg0 diag qp q0 -> let '(q, w', BA, RSQ) := cond_qp alg0 sq diag qp q0 w in cond_post qp q BA RSQ.
Proof.
  intros (P1 & P2 & P3 & P4). apply cond_qp_R; [exact P1| |apply size_ddims; exact P2|exact P3].
  destruct P4 as [P4|P4]; [left; exact P4|right; left; exact P4].
Qed.

(** the objective of the dense QP at v is the objective of the OCP QP at the trajectory of v, up to a constant *)
Theorem C28_objective : forall alg0 sq diag qp q0 w, cond_pre alg0 diag qp q0 ->
  let '(q, _, _, _) := cond_qp alg0 sq diag qp q0 w in exists K, forall v, den_cost q v = cost qp (traj qp (dN (q_dim qp)) v) + K.
Proof.
  intros alg0 sq diag qp q0 w HP. pose proof (cond_pre_post alg0 sq diag qp q0 w HP) as Q. destruct (cond_qp alg0 sq diag qp q0 w) as [[[q w'] BA] RSQ]. exact (proj1 (proj2 (proj2 Q))).
Qed.

(** the constraints of the dense QP are, one to one, the constraints of the OCP QP at the trajectory: same distance to the bound, same mask, same complementarity target *)
Theorem C28_constraints : forall alg0 sq diag qp q0 w, cond_pre alg0 diag qp q0 ->
  let '(q, _, _, _) := cond_qp alg0 sq diag qp q0 w in
  dense_size qp (dN (q_dim qp)) q /\ den_wf q /\
  exists pos, numbering qp q pos /\ forall v i c, (i <= dN (q_dim qp))%nat -> (c < nct (q_dim qp) i)%nat ->
    den_con q v (pos i c) - d_d q (pos i c) = con qp (traj qp (dN (q_dim qp)) v) i c - q_d qp i c /\ d_mask q (pos i c) = q_mask qp i c /\ d_m q (pos i c) = q_m qp i c.
Proof.
  intros alg0 sq diag qp q0 w HP. pose proof (cond_pre_post alg0 sq diag qp q0 w HP) as Q. destruct (cond_qp alg0 sq diag qp q0 w) as [[[q w'] BA] RSQ].
  destruct Q as (Q1 & (Gm & Gb & Q2 & Q3) & _). destruct HP as (P1 & _).
  assert (W : wfM qp (dN (q_dim qp))) by (intros i Hi; apply P1; exact Hi).
  split; [|split; [exact (den_wf_ok qp _ Gm Gb q Q1 W Q2)|]].
  { destruct Q1 as (E1 & E2 & E3 & E4 & E5). unfold dense_size. rewrite n_box_eq, n_gen_eq. repeat split; assumption. }
  exists (pos qp (dN (q_dim qp))). split.
  - destruct Q1 as (E1 & E2 & E3 & E4 & E5). unfold numbering, d_nct. rewrite E3, E4, E5. split; [|split].
    + intros i c Hi Hc. apply pos_lt; assumption.
    + intros i c i' c'. apply pos_inj.
    + intros p Hp. apply pos_surj. exact Hp.
  - intros v i c Hi Hc. exact (con_traj qp _ Gm Gb q Q1 W Q2 Q3 v i c Hi Hc).
Qed.

(** the trajectories are exactly the points satisfying the dynamics; they keep the inputs and the initial state given in v *)
Theorem C28_trajectories : forall qp : oqp R, let N := dN (q_dim qp) in
  (forall v i j, (i < N)%nat -> (j < dnx (q_dim qp) (S i))%nat -> dyn qp (traj qp N v) i j = 0) /\
  (forall v i k, (k < dnu (q_dim qp) i)%nat -> traj qp N v i k = v (uoff qp N i + k)%nat) /\
  (forall v k, (k < dnx (q_dim qp) 0)%nat -> traj qp N v 0%nat (dnu (q_dim qp) 0 + k)%nat = v (uoff qp N 0 + dnu (q_dim qp) 0 + k)%nat) /\
  (forall z, (forall i j, (i < N)%nat -> (j < dnx (q_dim qp) (S i))%nat -> dyn qp z i j = 0) -> exists v, same_point qp (traj qp N v) z).
Proof.
  intros qp N. split; [|split; [|split]].
  - intros v i j. apply traj_dyn.
  - intros v i k. apply traj_u.
  - intros v k Hk. rewrite traj_x by exact Hk. reflexivity.
  - intros z Hz. exists (pack qp N z). intros i k. apply pack_traj. exact Hz.
Qed.

Lemma same_con qp y z i c : same_point qp y z -> (i <= dN (q_dim qp))%nat -> con qp y i c = con qp z i c.
Proof. intros H Hi. unfold con. apply rsum_ext. intros k Hk. rewrite (H i k Hi Hk). reflexivity. Qed.
Lemma same_cost qp y z : same_point qp y z -> cost qp y = cost qp z.
Proof.
  intros H. unfold cost. apply rsum_ext. intros i Hi. unfold stage_cost. f_equal.
  - f_equal. apply rsum_ext. intros k Hk. apply rsum_ext. intros l Hl. rewrite (H i k), (H i l) by lia. reflexivity.
  - apply rsum_ext. intros k Hk. rewrite (H i k) by lia. reflexivity.
Qed.

(** the two problems are equivalent: same feasible set, same minimisers *)
Theorem C28_equivalent : forall alg0 sq diag qp q0 w, cond_pre alg0 diag qp q0 ->
  let '(q, _, _, _) := cond_qp alg0 sq diag qp q0 w in
  (forall v, den_feasible q v <-> feasible qp (traj qp (dN (q_dim qp)) v)) /\
  (forall v, den_optimal q v <-> ocp_optimal qp (traj qp (dN (q_dim qp)) v)) /\
  (forall z, ocp_optimal qp z -> exists v, same_point qp (traj qp (dN (q_dim qp)) v) z /\ den_optimal q v).
Proof.
  intros alg0 sq diag qp q0 w HP. pose proof (C28_constraints alg0 sq diag qp q0 w HP) as C. pose proof (C28_objective alg0 sq diag qp q0 w HP) as O.
  destruct (cond_qp alg0 sq diag qp q0 w) as [[[q w'] BA] RSQ]. destruct C as (S & _ & pos & (N1 & N2 & N3) & C). destruct O as (K & O).
  set (N := dN (q_dim qp)) in *. pose proof (C28_trajectories qp) as T. cbv zeta in T. fold N in T. destruct T as (T1 & _ & _ & T4).
  assert (F : forall v, den_feasible q v <-> feasible qp (traj qp N v)).
  { intros v. split.
    - intros (_ & H). split; [intros i j; apply T1|]. intros i c Hi Hc Hm. destruct (C v i c Hi Hc) as (C1 & C2 & _). specialize (H (pos i c) (N1 i c Hi Hc)). rewrite C2 in H. specialize (H Hm). lra.
    - intros (_ & H). split; [destruct S as (_ & S & _); rewrite S; intros; lia|]. intros p Hp Hm. destruct (N3 p Hp) as (i & c & Hi & Hc & <-). destruct (C v i c Hi Hc) as (C1 & C2 & _). rewrite C2 in Hm. specialize (H i c Hi Hc Hm). lra. }
  assert (P : forall z, feasible qp z -> exists v, same_point qp (traj qp N v) z /\ den_feasible q v).
  { intros z (Hz1 & Hz2). destruct (T4 z Hz1) as (v & Hv). exists v. split; [exact Hv|]. apply F. split; [intros i j; apply T1|]. intros i c Hi Hc Hm. rewrite (same_con qp _ z i c Hv Hi). apply Hz2; assumption. }
  assert (Opt : forall v, den_optimal q v <-> ocp_optimal qp (traj qp N v)).
  { intros v. split.
    - intros (H1 & H2). split; [apply F; exact H1|]. intros y Hy. destruct (P y Hy) as (vy & E1 & E2). rewrite <- (same_cost qp _ _ E1). specialize (H2 vy E2). rewrite !O in H2. lra.
    - intros (H1 & H2). split; [apply F; exact H1|]. intros y Hy. apply F in Hy. specialize (H2 _ Hy). rewrite !O. lra. }
  split; [exact F|]. split; [exact Opt|]. intros z (Hz1 & Hz2). destruct (P z Hz1) as (v & E1 & E2). exists v. split; [exact E1|]. apply Opt. split; [apply F; exact E2|]. intros y Hy. rewrite (same_cost qp _ _ E1). apply Hz2. exact Hy.
Qed.

(** the call overwrites parts of BAbt and RSQrq of the OCP QP object that carry no information: dynamics and cost are unchanged *)
Theorem C28_ocp_qp_unchanged : forall alg0 sq diag qp q0 w, cond_pre alg0 diag qp q0 ->
  let '(_, _, BA, RSQ) := cond_qp alg0 sq diag qp q0 w in
  let qp' := mkqp (q_dim qp) BA RSQ (q_DCt qp) (q_b qp) (q_rqz qp) (q_d qp) (q_mask qp) (q_m qp) (q_Z qp) (q_idxb qp) (q_idxs_rev qp) in
  (forall z i j, dyn qp' z i j = dyn qp z i j) /\ (forall z i, stage_cost qp' z i = stage_cost qp z i).
Proof.
  intros alg0 sq diag qp q0 w HP. pose proof (cond_pre_post alg0 sq diag qp q0 w HP) as Q. destruct (cond_qp alg0 sq diag qp q0 w) as [[[q w'] BA] RSQ].
  destruct Q as (_ & _ & _ & Q1 & Q2). cbv zeta. split.
  - intros z i j. unfold dyn. cbn [q_BAbt q_b q_dim]. f_equal. f_equal. change (nux (mkqp (q_dim qp) BA RSQ (q_DCt qp) (q_b qp) (q_rqz qp) (q_d qp) (q_mask qp) (q_m qp) (q_Z qp) (q_idxb qp) (q_idxs_rev qp)) i) with (nux qp i).
    apply rsum_ext. intros k Hk. rewrite Q1 by exact Hk. reflexivity.
  - intros z i. unfold stage_cost. cbn [q_dim q_rqz]. f_equal. f_equal. apply rsum_ext. intros k _. apply rsum_ext. intros l _. f_equal. f_equal. unfold Hess. cbn [q_RSQ q_Z].
    change (nux (mkqp (q_dim qp) BA RSQ (q_DCt qp) (q_b qp) (q_rqz qp) (q_d qp) (q_mask qp) (q_m qp) (q_Z qp) (q_idxb qp) (q_idxs_rev qp)) i) with (nux qp i).
    unfold H_co. destruct (Nat.ltb_spec k (nux qp i)); [|reflexivity]. destruct (Nat.ltb_spec l (nux qp i)); [|reflexivity]. destruct (Nat.leb_spec l k); apply Q2; lia.
Qed.

(** the dimensions computed by COND_QP_COMPUTE_DIM are those of the condensed problem, if nbu and nbx count the bounds on inputs and on states *)
Definition dim_of (qp : oqp R) (i : nat) : IntModel.sdim -> Prop := fun s =>
  let D := q_dim qp in
  IntModel.s_nx s = Z.of_nat (dnx D i) /\ IntModel.s_nu s = Z.of_nat (dnu D i) /\ IntModel.s_ng s = Z.of_nat (dng D i) /\ IntModel.s_ns s = Z.of_nat (dns D i) /\
  IntModel.s_nbu s = Z.of_nat (nsum (dnb D i) (fun j => if q_idxb qp i j <? dnu D i then 1 else 0)%nat) /\
  IntModel.s_nbx s = Z.of_nat (nsum (dnb D i) (fun j => if q_idxb qp i j <? dnu D i then 0 else 1)%nat).
Lemma nsum_cmp n (P : nat -> bool) : (nsum n (fun j => if P j then 1 else 0) + nsum n (fun j => if P j then 0 else 1) = n)%nat.
Proof. induction n as [|n IH]; [reflexivity|]. cbn [nsum]. destruct (P n); lia. Qed.
Theorem C28_dimensions : forall qp (src : IntModel.barr IntModel.sdim), let N := dN (q_dim qp) in
  IntModel.blen src = S N -> (forall i, (i <= N)%nat -> dim_of qp i (IntModel.bdat src i)) ->
  exists d, IntModel.cond_dim (Z.of_nat N) src = Ok d /\
    IntModel.d_nv d = Z.of_nat (n_hard qp N) /\ IntModel.d_ne d = 0%Z /\ IntModel.d_nb d = Z.of_nat (n_box qp N) /\ IntModel.d_ng d = Z.of_nat (n_gen qp N) /\ IntModel.d_ns d = Z.of_nat (n_soft qp N).
Proof.
  intros qp src N HL HS. set (D := q_dim qp).
  assert (HG : forall i, (i <= N)%nat -> IntModel.bget src (Z.of_nat i) = Ok (IntModel.bdat src i)).
  { intros i Hi. unfold IntModel.bget. rewrite HL. destruct (Z.leb_spec 0 (Z.of_nat i)); [|lia]. destruct (Z.ltb_spec (Z.of_nat i) (Z.of_nat (S N))); [|lia]. cbn [andb]. rewrite Nat2Z.id. reflexivity. }
  unfold IntModel.cond_dim. pose proof (HG 0%nat ltac:(lia)) as G0. cbn [Z.of_nat] in G0. rewrite G0. cbn [obind]. unfold IntModel.zfor. replace (Z.to_nat (Z.of_nat N + 1 - 1)) with N by lia.
  set (P k (d : IntModel.ddim) := IntModel.d_nv d = Z.of_nat (dnx D 0 + nsum (S k) (dnu D)) /\ IntModel.d_ne d = 0%Z /\
     IntModel.d_nb d = Z.of_nat (nsum (S k) (fun i => nsum (dnb D i) (fun j => if stays_bound qp i j then 1 else 0)%nat)) /\
     IntModel.d_ng d = Z.of_nat (nsum (S k) (fun i => nsum (dnb D i) (fun j => if stays_bound qp i j then 0 else 1)%nat) + nsum (S k) (dng D)) /\ IntModel.d_ns d = Z.of_nat (nsum (S k) (dns D))).
  set (f := fun k : nat => _). set (d0 := IntModel.mkdd _ _ _ _ _).
  assert (X : forall k, (k <= N)%nat -> exists d, oloop k f d0 = Ok d /\ P k d).
  { induction k as [|k IH]; intros Hk.
    - exists d0. split; [reflexivity|]. destruct (HS 0%nat ltac:(lia)) as (A1 & A2 & A3 & A4 & A5 & A6). unfold P, d0. cbn [IntModel.d_nv IntModel.d_ne IntModel.d_nb IntModel.d_ng IntModel.d_ns nsum]. rewrite A1, A2, A3, A4, A5, A6. fold D.
      unfold stays_bound. cbn [Nat.eqb orb]. pose proof (nsum_cmp (dnb D 0) (fun _ => true)) as E1. pose proof (nsum_cmp (dnb D 0) (fun j => q_idxb qp 0%nat j <? dnu D 0)%nat) as E2. cbv beta iota in E1.
      assert (E3 : nsum (dnb D 0) (fun _ => 1%nat) = dnb D 0) by (clear; induction (dnb D 0%nat) as [|m IHm]; cbn [nsum]; lia).
      repeat split; lia.
    - destruct (IH ltac:(lia)) as (d & E & (B1 & B2 & B3 & B4 & B5)). cbn [oloop]. rewrite E. cbn [obind]. unfold f at 1. replace (1 + Z.of_nat k)%Z with (Z.of_nat (S k)) by lia. rewrite (HG (S k) Hk). cbn [obind]. eexists. split; [reflexivity|].
      destruct (HS (S k) Hk) as (A1 & A2 & A3 & A4 & A5 & A6). fold D in A1, A2, A3, A4, A5, A6. unfold P. cbn [IntModel.d_nv IntModel.d_ne IntModel.d_nb IntModel.d_ng IntModel.d_ns]. rewrite A2, A3, A4, A5, A6, B1, B2, B3, B4, B5.
      change (nsum (S (S k)) (fun i => nsum (dnb D i) (fun j => if stays_bound qp i j then 1 else 0)%nat)) with (nsum (S k) (fun i => nsum (dnb D i) (fun j => if stays_bound qp i j then 1 else 0)%nat) + nsum (dnb D (S k)) (fun j => if q_idxb qp (S k) j <? dnu D (S k) then 1 else 0)%nat)%nat.
      change (nsum (S (S k)) (fun i => nsum (dnb D i) (fun j => if stays_bound qp i j then 0 else 1)%nat)) with (nsum (S k) (fun i => nsum (dnb D i) (fun j => if stays_bound qp i j then 0 else 1)%nat) + nsum (dnb D (S k)) (fun j => if q_idxb qp (S k) j <? dnu D (S k) then 0 else 1)%nat)%nat.
      change (nsum (S (S k)) (dnu D)) with (nsum (S k) (dnu D) + dnu D (S k))%nat. change (nsum (S (S k)) (dns D)) with (nsum (S k) (dns D) + dns D (S k))%nat. change (nsum (S (S k)) (dng D)) with (nsum (S k) (dng D) + dng D (S k))%nat.
      repeat split; lia. }
  destruct (X N ltac:(lia)) as (d & E & (B1 & B2 & B3 & B4 & B5)). exists d. split; [exact E|]. rewrite B1, B2, B3, B4, B5.
  pose proof (roff_sum N (dnu D) 0 ltac:(lia)) as U. pose proof (roff_sum N (dns D) 0 ltac:(lia)) as V. cbn [nsum Nat.add] in U, V. unfold n_hard, n_soft. change (uoff qp N 0) with (roff N (dnu D) 0). change (soff qp N 0) with (roff N (dns D) 0). fold D.
  change (nsum (S N) (dnu D)) with (nsum N (dnu D) + dnu D N)%nat. change (nsum (S N) (dns D)) with (nsum N (dns D) + dns D N)%nat.
  unfold n_box, n_gen. fold D. repeat split; lia.
Qed.

(** *** the hypotheses are met: two stages, input, soft state bound and soft general constraint; both algorithms *)
Definition ex_dims : dims := mkdims 1 (fun _ => 1%nat) (fun i => if (i =? 0)%nat then 1%nat else 0%nat) (fun i => if (i =? 0)%nat then 2%nat else 1%nat) (fun i => i) (fun _ => 1%nat).
Definition ex_qp : oqp R := mkqp ex_dims (fun _ r _ => INR r + 1) (fun _ r c => if (r =? c)%nat then 2 else 0) (fun _ _ _ => 3) (fun _ _ => 1) (fun _ _ => 1) (fun _ _ => -1) (fun _ _ => 1) (fun _ _ => 0) (fun _ _ => 10)
  (fun i j => j) (fun i j => if (j =? 1)%nat then 0%Z else (-1)%Z).
Definition ex_den : dqp R := mkdqp 2 0 2 2 2 (fun _ _ => 0) (fun _ _ => 0) (fun _ _ => 0) (fun _ => 0) (fun _ => 0) (fun _ => 0) (fun _ => 1) (fun _ => 0) (fun _ => 0) (fun _ => 0%nat) (fun _ => (-1)%Z).
Example ex_cond_pre : forall alg0, cond_pre alg0 (fun _ => true) ex_qp ex_den.
Proof.
  intros alg0. split; [|split; [|split]].
  - intros i Hi. assert (E : i = 0%nat \/ i = 1%nat) by (cbn in Hi; lia). split.
    + intros j Hj. destruct E as [-> | ->]; cbn in *; lia.
    + intros j Hj. cbn. destruct (j =? 1)%nat; [right; lia|left; reflexivity].
  - unfold dense_size. repeat split; reflexivity.
  - reflexivity.
  - right. split; [reflexivity|]. intros n r c _ _ _ Hc. cbn. destruct (Nat.eqb_spec r c); [lia|reflexivity].
Qed.

(** *** cond_alg = 1 with inputs in the last stage: the gradient of the dense QP is wrong *)
Definition bad_dims : dims := mkdims 1 (fun _ => 0%nat) (fun _ => 1%nat) (fun _ => 0%nat) (fun _ => 0%nat) (fun _ => 0%nat).
Definition bad_qp : oqp R := mkqp bad_dims (fun _ _ _ => 0) (fun _ _ _ => 1) (fun _ _ _ => 0) (fun _ _ => 0) (fun i _ => if (i =? 0)%nat then 5 else 7) (fun _ _ => 0) (fun _ _ => 1) (fun _ _ => 0) (fun _ _ => 0) (fun _ _ => 0%nat) (fun _ _ => (-1)%Z).
Definition bad_den : dqp R := mkdqp 2 0 0 0 0 (fun _ _ => 0) (fun _ _ => 0) (fun _ _ => 0) (fun _ => 0) (fun _ => 0) (fun _ => 0) (fun _ => 1) (fun _ => 0) (fun _ => 0) (fun _ => 0%nat) (fun _ => (-1)%Z).
Definition w0 : cws R := mkcws (fun _ _ _ => 0) (fun _ _ => 0) (fun _ _ _ => 0) (fun _ _ => 0) (fun _ => 0) (fun _ _ => 0) (fun _ _ => 0) (fun _ => 0) (fun _ => 0).
Theorem C28_alg1_last_input_refuted :
  let q := fst (fst (fst (cond_qp false false (fun _ => false) bad_qp bad_den w0))) in
  qp_wf bad_qp /\ dense_size bad_qp 1 bad_den /\ diag_flag_ok bad_qp (fun _ => false) /\ ~ (exists K, forall v, den_cost q v = cost bad_qp (traj bad_qp 1 v) + K).
Proof.
  cbv zeta. split; [intros i Hi; split; intros j Hj; cbn in Hj; lia|]. split; [repeat split; reflexivity|]. split; [intros n r c _ E; discriminate|].
  intros (K & HK). pose proof (HK (fun k => if (k =? 1)%nat then 1 else 0)) as A. pose proof (HK (fun k => if (k =? 1)%nat then -1 else 0)) as B. clear HK.
  cbv -[Rplus Rmult Rminus Ropp IZR Rinv Rdiv] in A, B. lra.
Qed.

(** *** condensing again into the same dense QP after other constraints have been softened: the old indices stay, and a hard bound is relaxed *)
Definition re_dims : dims := mkdims 1 (fun _ => 0%nat) (fun i => if (i =? 0)%nat then 2%nat else 0%nat) (fun i => if (i =? 0)%nat then 2%nat else 0%nat) (fun _ => 0%nat) (fun i => if (i =? 0)%nat then 1%nat else 0%nat).
Definition re_qp (s : nat) : oqp R := mkqp re_dims (fun _ _ _ => 0) (fun _ _ _ => 1) (fun _ _ _ => 0) (fun _ _ => 0) (fun _ _ => 0) (fun _ c => if (c =? 0)%nat then 1 else -9) (fun _ _ => 1) (fun _ _ => 0) (fun _ _ => 1) (fun _ j => j) (fun _ j => if (j =? s)%nat then 0%Z else (-1)%Z).
Definition re_den : dqp R := mkdqp 2 0 2 0 1 (fun _ _ => 0) (fun _ _ => 0) (fun _ _ => 0) (fun _ => 0) (fun _ => 0) (fun _ => 0) (fun _ => 1) (fun _ => 0) (fun _ => 0) (fun _ => 0%nat) (fun _ => (-1)%Z).
Definition re_q1 : dqp R := fst (fst (fst (cond_qp true false (fun _ => false) (re_qp 0) re_den w0))).
Definition re_w1 : cws R := snd (fst (fst (cond_qp true false (fun _ => false) (re_qp 0) re_den w0))).
Definition re_q2 : dqp R := fst (fst (fst (cond_qp true false (fun _ => false) (re_qp 1) re_q1 re_w1))).
Theorem C28_recondense_stale_soft_refuted :
  qp_wf (re_qp 0) /\ qp_wf (re_qp 1) /\ dense_size (re_qp 0) 1 re_den /\ dense_size (re_qp 1) 1 re_den /\
  exists v, den_feasible re_q2 v /\ ~ feasible (re_qp 1) (traj (re_qp 1) 1 v).
Proof.
  assert (W : forall s, qp_wf (re_qp s)).
  { intros s i Hi. assert (E : i = 0%nat \/ i = 1%nat) by (cbn in Hi; lia). split.
    - intros j Hj. destruct E as [-> | ->]; cbn in *; lia.
    - intros j Hj. cbn. destruct E as [-> | ->]; cbn in Hj; [|lia]. cbn. destruct (j =? s)%nat; [right; lia|left; reflexivity]. }
  split; [apply W|]. split; [apply W|]. split; [repeat split; reflexivity|]. split; [repeat split; reflexivity|].
  exists (fun k => if (k =? 2)%nat then 1 else 0). split.
  - assert (En : d_ne re_q2 = 0%nat) by (vm_compute; reflexivity). assert (Ec : d_nct re_q2 = 6%nat) by (vm_compute; reflexivity). split; [intros j Hj; rewrite En in Hj; lia|]. intros c Hc _. rewrite Ec in Hc. do 6 (destruct c as [|c]; [cbv -[Rplus Rmult Rminus Ropp IZR Rinv Rdiv Rge]; lra|]). lia.
  - intros (_ & F). specialize (F 0%nat 0%nat ltac:(cbn; lia) ltac:(cbn; lia)). cbv -[Rplus Rmult Rminus Ropp IZR Rinv Rdiv Rge] in F. specialize (F ltac:(lra)). lra.
Qed.
Print Assumptions C28_equivalent.
Print Assumptions C28_ocp_qp_unchanged.
Print Assumptions C28_dimensions.
Print Assumptions C28_alg1_last_input_refuted.
Print Assumptions C28_recondense_stale_soft_refuted.
