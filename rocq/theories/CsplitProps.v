(** CsplitProps.v -- property C51: condensing in two calls (COND_QP_COND_LHS, COND_QP_COND_RHS) is exact. *)
From Coq Require Import ZArith Bool Arith Lia Reals Lra List.
From Coq Require Import SpecFloat.
From Verif Require Import Base ArithF RSum Blas Blas2 OcpModel ResSpec ResProofs ResProofs2 CholProofs CholPD KktModel UncProps DenModel DenSpec CondModel CondSpec CondProofs CondCost CondCost2 CondCost3 CondCon CondCon2 CondCon3 CondSem CondFull CondProps CsplitModel CsplitSpec CsplitProofs CsplitProofs2 CsplitCon CsplitFull.
Import ListNotations.
Local Open Scope R_scope.

(** What the caller has to provide: legal index data; a dense QP object of the right size whose soft-constraint indices are as
    DENSE_QP_CREATE leaves them; slacks numbered in the order in which the constraints are scanned; with square_root_alg a convex cost of
    the states; for cond_alg = 1 honest diag_H_flag (inputs in the last stage are allowed, unlike in C28). *)
Definition split_pre (alg0 sq : bool) (diag : nat -> bool) (qp : oqp R) (q0 : dqp R) : Prop :=
  qp_wf qp /\ dense_size qp (dN (q_dim qp)) q0 /\ (forall p, (p < d_nb q0 + d_ng q0)%nat -> d_idxs_rev q0 p = (-1)%Z) /\
  (dN (q_dim qp) = 0%nat \/ slack_order qp (dN (q_dim qp))) /\
  (if alg0 then sq = false \/ states_convex qp else diag_flag_ok qp diag).
(** the matrices of [qp], then the vectors of the QPs in the list, in that order *)
Definition rhs_all (alg0 : bool) (diag : nat -> bool) (qps : list (oqp R)) (s : dqp R * sws2 R) : dqp R * sws2 R :=
  fold_left (fun s qp => cond_rhs alg0 diag qp (fst s) (snd s)) qps s.
Definition split_run (alg0 sq : bool) (diag : nat -> bool) (qp : oqp R) (qps : list (oqp R)) (qp' : oqp R) (q0 : dqp R) (w : sws2 R) : dqp R :=
  let '(q1, w1, _) := cond_lhs alg0 sq diag qp q0 w in fst (rhs_all alg0 diag (qps ++ [qp']) (q1, w1)).

Lemma same_mat_refl qp : same_matrices qp qp.
Proof. unfold same_matrices. repeat split; reflexivity. Qed.
Lemma wf_tr qp qp' : same_matrices qp qp' -> qp_wf qp -> qp_wf qp'.
Proof.
  destruct qp as [D BA RSQ DCt b rqz d mask m Z idxb idxs]. destruct qp' as [D' BA' RSQ' DCt' b' rqz' d' mask' m' Z' idxb' idxs'].
  intros (E1 & E2 & E3 & E4 & E5 & _). cbn [q_dim q_DCt q_Z q_idxb q_idxs_rev] in *. subst. exact (fun H => H).
Qed.
Lemma so_tr qp qp' : same_matrices qp qp' -> dN (q_dim qp) = 0%nat \/ slack_order qp (dN (q_dim qp)) -> dN (q_dim qp') = 0%nat \/ slack_order qp' (dN (q_dim qp')).
Proof.
  destruct qp as [D BA RSQ DCt b rqz d mask m Z idxb idxs]. destruct qp' as [D' BA' RSQ' DCt' b' rqz' d' mask' m' Z' idxb' idxs'].
  intros (E1 & E2 & E3 & E4 & E5 & _). cbn [q_dim q_DCt q_Z q_idxb q_idxs_rev] in *. subst. exact (fun H => H).
Qed.
Lemma df_tr qp qp' diag : same_matrices qp qp' -> diag_flag_ok qp diag -> diag_flag_ok qp' diag.
Proof. intros (E1 & _ & _ & _ & _ & _ & HR) H n r c. unfold nux. rewrite E1. intros Hn Hd Hr Hc. rewrite HR by (unfold nux; lia). apply H; assumption. Qed.
Lemma size_tr qp qp' q : same_matrices qp qp' -> dense_size qp (dN (q_dim qp)) q -> dense_size qp' (dN (q_dim qp')) q.
Proof.
  destruct qp as [D BA RSQ DCt b rqz d mask m Z idxb idxs]. destruct qp' as [D' BA' RSQ' DCt' b' rqz' d' mask' m' Z' idxb' idxs'].
  intros (E1 & E2 & E3 & E4 & E5 & _). cbn [q_dim q_DCt q_Z q_idxb q_idxs_rev] in *. subst. exact (fun H => H).
Qed.
Lemma convex_psd qp n : states_convex qp -> (1 <= n <= dN (q_dim qp))%nat -> Qpsd qp n.
Proof.
  intros H Hn v. specialize (H n v Hn). unfold quadf. erewrite rsum_ext; [exact H|]. intros i Hi. apply rsum_ext. intros j Hj. cbv beta. f_equal. f_equal. symmetry. apply Hess_hard; unfold nux; lia.
Qed.
Lemma split_pre_post alg0 sq diag qp qps qp' q0 w : split_pre alg0 sq diag qp q0 -> Forall (same_matrices qp) qps -> same_matrices qp qp' ->
  let q := split_run alg0 sq diag qp qps qp' q0 w in split_post qp' q /\ d_m q = d_m q0.
Proof.
  intros (P1 & P2 & P3 & P4 & P5) HF HS. cbv zeta. unfold split_run.
  assert (Ha : alg2_ok alg0 sq diag qp). { unfold alg2_ok. destruct alg0; [|exact P5]. destruct P5 as [P5|P5]; [left; exact P5|right]. intros n Hn. apply convex_psd; assumption. }
  assert (Hdf : alg0 = false -> diag_flag_ok qp diag) by (intros ->; exact P5).
  pose proof (lhs_INV alg0 sq diag qp q0 w (size_ddims qp q0 P2) Ha) as L. destruct (cond_lhs alg0 sq diag qp q0 w) as [[q1 w1] RSQ]. destruct L as (L1 & _ & _ & _ & _ & L2).
  assert (S : forall qk q w, same_matrices qp qk -> INV alg0 qp q0 q w -> let '(q', w') := cond_rhs alg0 diag qk q w in INV alg0 qk q0 q' w' /\ split_post qk q' /\ d_m q' = d_m q).
  { intros qk q w2 HSk HI. apply rhs_R.
    - exact (wf_tr _ _ HSk P1).
    - exact (so_tr _ _ HSk P4).
    - intros E. apply (df_tr qp); [exact HSk|apply Hdf; exact E].
    - intros p Hp. apply P3. pose proof (size_tr qp qk q0 HSk P2) as (_ & _ & E3 & E4 & _). rewrite E3, E4, n_box_eq, n_gen_eq. exact Hp.
    - exact (INV_tr alg0 qp qk q0 q w2 HSk HI). }
  assert (B : forall qk, same_matrices qp qk -> same_matrices qk qp).
  { intros qk (E1 & E2 & E3 & E4 & E5 & E6 & E7). unfold same_matrices, nux. rewrite E1. do 5 (split; [congruence|]). split; intros; symmetry; [apply E6|apply E7]; assumption. }
  assert (I : forall l q w, Forall (same_matrices qp) l -> INV alg0 qp q0 q w -> let '(q', w') := rhs_all alg0 diag l (q, w) in INV alg0 qp q0 q' w' /\ d_m q' = d_m q).
  { induction l as [|qk l IH]; intros q w2 Hl HI; [split; [exact HI|reflexivity]|]. inversion Hl as [|? ? Hk Hl']; subst. unfold rhs_all. cbn [fold_left fst snd].
    specialize (S qk q w2 Hk HI). destruct (cond_rhs alg0 diag qk q w2) as [q3 w3]. destruct S as (S1 & _ & S3). specialize (IH q3 w3 Hl' (INV_tr alg0 qk qp q0 q3 w3 (B qk Hk) S1)).
    unfold rhs_all in IH. destruct (fold_left _ l (q3, w3)) as [q4 w4]. rewrite <- S3. exact IH. }
  unfold rhs_all. rewrite fold_left_app. fold (rhs_all alg0 diag qps (q1, w1)). specialize (I qps q1 w1 HF L1). destruct (rhs_all alg0 diag qps (q1, w1)) as [q2 w2]. destruct I as (I1 & I2). cbn [fold_left fst snd].
  specialize (S qp' q2 w2 HS I1). destruct (cond_rhs alg0 diag qp' q2 w2) as [q w3]. cbn [fst]. destruct S as (_ & S2 & S3). split; [exact S2|congruence].
Qed.

(** the objective *)
Theorem C51_objective : forall alg0 sq diag qp qps qp' q0 w, split_pre alg0 sq diag qp q0 -> Forall (same_matrices qp) qps -> same_matrices qp qp' ->
  let q := split_run alg0 sq diag qp qps qp' q0 w in exists K, forall v, den_cost q v = cost qp' (traj qp' (dN (q_dim qp')) v) + K.
Proof. intros alg0 sq diag qp qps qp' q0 w HP HF HS. exact (proj2 (proj2 (proj1 (split_pre_post alg0 sq diag qp qps qp' q0 w HP HF HS)))). Qed.

(** the constraints, one to one; the complementarity targets m of the dense QP are left alone *)
Theorem C51_constraints : forall alg0 sq diag qp qps qp' q0 w, split_pre alg0 sq diag qp q0 -> Forall (same_matrices qp) qps -> same_matrices qp qp' ->
  let q := split_run alg0 sq diag qp qps qp' q0 w in
  dense_size qp' (dN (q_dim qp')) q /\ den_wf q /\ d_m q = d_m q0 /\
  exists pos, numbering qp' q pos /\ forall v i c, (i <= dN (q_dim qp'))%nat -> (c < nct (q_dim qp') i)%nat ->
    den_con q v (pos i c) - d_d q (pos i c) = con qp' (traj qp' (dN (q_dim qp')) v) i c - q_d qp' i c /\ d_mask q (pos i c) = q_mask qp' i c.
Proof.
  intros alg0 sq diag qp qps qp' q0 w HP HF HS q. destruct (split_pre_post alg0 sq diag qp qps qp' q0 w HP HF HS) as ((Q1 & (Gm & Gb & md & Q2 & Q3) & _) & Em). fold q in Q1, Q2, Em. clearbody q.
  destruct HP as (P1 & _). apply (wf_tr _ _ HS) in P1. assert (W : wfM qp' (dN (q_dim qp'))) by (intros i Hi; apply P1; exact Hi).
  assert (Q1' : ddims_ok qp' (dN (q_dim qp')) (setm q md)) by exact Q1.
  split; [|split; [exact (den_wf_ok qp' _ Gm Gb (setm q md) Q1' W Q2)|split; [exact Em|]]].
  { destruct Q1 as (E1 & E2 & E3 & E4 & E5). unfold dense_size. rewrite n_box_eq, n_gen_eq. repeat split; assumption. }
  exists (pos qp' (dN (q_dim qp'))). split.
  - destruct Q1 as (E1 & E2 & E3 & E4 & E5). unfold numbering, d_nct. rewrite E3, E4, E5. split; [|split].
    + intros i c Hi Hc. apply pos_lt; assumption.
    + intros i c i' c'. apply pos_inj.
    + intros p Hp. apply pos_surj. exact Hp.
  - intros v i c Hi Hc. destruct (con_traj qp' _ Gm Gb (setm q md) Q1' W Q2 Q3 v i c Hi Hc) as (A & B & _). split; [exact A|exact B].
Qed.

(** the two problems are equivalent: same feasible set, same minimisers *)
Theorem C51_equivalent : forall alg0 sq diag qp qps qp' q0 w, split_pre alg0 sq diag qp q0 -> Forall (same_matrices qp) qps -> same_matrices qp qp' ->
  let q := split_run alg0 sq diag qp qps qp' q0 w in
  (forall v, den_feasible q v <-> feasible qp' (traj qp' (dN (q_dim qp')) v)) /\
  (forall v, den_optimal q v <-> ocp_optimal qp' (traj qp' (dN (q_dim qp')) v)) /\
  (forall z, ocp_optimal qp' z -> exists v, same_point qp' (traj qp' (dN (q_dim qp')) v) z /\ den_optimal q v).
Proof.
  intros alg0 sq diag qp qps qp' q0 w HP HF HS q. pose proof (C51_constraints alg0 sq diag qp qps qp' q0 w HP HF HS) as C. pose proof (C51_objective alg0 sq diag qp qps qp' q0 w HP HF HS) as O. cbv zeta in C, O. fold q in C, O. clearbody q.
  destruct C as (S & _ & _ & pos & (N1 & N2 & N3) & C). destruct O as (K & O). rename qp' into p.
  set (N := dN (q_dim p)) in *. pose proof (C28_trajectories p) as T. cbv zeta in T. fold N in T. destruct T as (T1 & _ & _ & T4).
  assert (F : forall v, den_feasible q v <-> feasible p (traj p N v)).
  { intros v. split.
    - intros (_ & H). split; [intros i j; apply T1|]. intros i c Hi Hc Hm. destruct (C v i c Hi Hc) as (C1 & C2). specialize (H (pos i c) (N1 i c Hi Hc)). rewrite C2 in H. specialize (H Hm). lra.
    - intros (_ & H). split; [destruct S as (_ & S & _); rewrite S; intros; lia|]. intros k Hk Hm. destruct (N3 k Hk) as (i & c & Hi & Hc & <-). destruct (C v i c Hi Hc) as (C1 & C2). rewrite C2 in Hm. specialize (H i c Hi Hc Hm). lra. }
  assert (P : forall z, feasible p z -> exists v, same_point p (traj p N v) z /\ den_feasible q v).
  { intros z (Hz1 & Hz2). destruct (T4 z Hz1) as (v & Hv). exists v. split; [exact Hv|]. apply F. split; [intros i j; apply T1|]. intros i c Hi Hc Hm. rewrite (same_con p _ z i c Hv Hi). apply Hz2; assumption. }
  assert (Opt : forall v, den_optimal q v <-> ocp_optimal p (traj p N v)).
  { intros v. split.
    - intros (H1 & H2). split; [apply F; exact H1|]. intros y Hy. destruct (P y Hy) as (vy & E1 & E2). rewrite <- (same_cost p _ _ E1). specialize (H2 vy E2). rewrite !O in H2. lra.
    - intros (H1 & H2). split; [apply F; exact H1|]. intros y Hy. apply F in Hy. specialize (H2 _ Hy). rewrite !O. lra. }
  split; [exact F|]. split; [exact Opt|]. intros z (Hz1 & Hz2). destruct (P z Hz1) as (v & E1 & E2). exists v. split; [exact E1|]. apply Opt. split; [apply F; exact E2|]. intros y Hy. rewrite (same_cost p _ _ E1). apply Hz2. exact Hy.
Qed.
(** in particular the two calls on one QP give the problem that the single call COND_QP_COND gives *)
Theorem C51_same_as_single_call : forall alg0 sq diag qp q0 w w', cond_pre alg0 diag qp q0 -> split_pre alg0 sq diag qp q0 ->
  let q := split_run alg0 sq diag qp [] qp q0 w in let '(q', _, _, _) := cond_qp alg0 sq diag qp q0 w' in
  (exists K, forall v, den_cost q v = den_cost q' v + K) /\ (forall v, den_feasible q v <-> den_feasible q' v) /\ (forall v, den_optimal q v <-> den_optimal q' v).
Proof.
  intros alg0 sq diag qp q0 w w' H1 H2 q. pose proof (C51_objective alg0 sq diag qp [] qp q0 w H2 (Forall_nil _) (same_mat_refl qp)) as O. pose proof (C51_equivalent alg0 sq diag qp [] qp q0 w H2 (Forall_nil _) (same_mat_refl qp)) as E. cbv zeta in O, E. fold q in O, E. clearbody q.
  pose proof (C28_objective alg0 sq diag qp q0 w' H1) as O'. pose proof (C28_equivalent alg0 sq diag qp q0 w' H1) as E'. destruct (cond_qp alg0 sq diag qp q0 w') as [[[q' x1] x2] x3].
  destruct O as (K & O). destruct O' as (K' & O'). destruct E as (E1 & E2 & _). destruct E' as (F1 & F2 & _). split; [exists (K - K'); intros v; rewrite O, O'; lra|]. split; intros v; [rewrite E1, F1|rewrite E2, F2]; reflexivity.
Qed.
(** the first call writes parts of RSQrq of the OCP QP object that carry no information: the object can be used for the second call *)
Theorem C51_ocp_qp_unchanged : forall alg0 sq diag qp q0 w, split_pre alg0 sq diag qp q0 -> let '(_, _, RSQ) := cond_lhs alg0 sq diag qp q0 w in
  same_matrices qp (mkqp (q_dim qp) (q_BAbt qp) RSQ (q_DCt qp) (q_b qp) (q_rqz qp) (q_d qp) (q_mask qp) (q_m qp) (q_Z qp) (q_idxb qp) (q_idxs_rev qp)).
Proof.
  intros alg0 sq diag qp q0 w (P1 & P2 & P3 & P4 & P5).
  assert (Ha : alg2_ok alg0 sq diag qp). { unfold alg2_ok. destruct alg0; [|exact P5]. destruct P5 as [P5|P5]; [left; exact P5|right]. intros n Hn. apply convex_psd; assumption. }
  pose proof (lhs_INV alg0 sq diag qp q0 w (size_ddims qp q0 P2) Ha) as L. destruct (cond_lhs alg0 sq diag qp q0 w) as [[q1 w1] RSQ]. destruct L as (_ & L & _).
  unfold same_matrices. cbn [q_dim q_BAbt q_RSQ q_DCt q_Z q_idxb q_idxs_rev]. repeat (split; [reflexivity|]). exact L.
Qed.

(** *** the condition on the order of the slacks holds when only bounds are softened, in order (in particular without slacks) *)
Lemma nsum_0 n (f : nat -> nat) : (forall k, (k < n)%nat -> f k = 0%nat) -> nsum n f = 0%nat.
Proof. induction n as [|n IH]; intros H; [reflexivity|]. cbn [nsum]. rewrite IH by (intros; apply H; lia). rewrite H by lia. reflexivity. Qed.
Theorem C51_soft_bounds : forall qp : oqp R, soft_bounds_in_order qp -> slack_order qp (dN (q_dim qp)).
Proof.
  intros qp H. set (N := dN (q_dim qp)) in *. assert (E : forall i, (i <= N)%nat -> nsum (N - i) (fun k => n_sb qp (N - k)) = soff qp N i).
  { intros i Hi. unfold soff. apply nsum_ext. intros k Hk. apply H. fold N. lia. }
  split.
  - intros i j Hi Hj Hs. destruct (H i Hi) as (_ & H1 & H2). unfold scan. destruct (Nat.ltb_spec j (dnb (q_dim qp) i)) as [Hb|Hb].
    + rewrite (H1 j Hb Hs). rewrite E by exact Hi. lia.
    + specialize (H2 (j - dnb (q_dim qp) i)%nat ltac:(lia)). replace (dnb (q_dim qp) i + (j - dnb (q_dim qp) i))%nat with j in H2 by lia. congruence.
  - rewrite (nsum_0 (S N) (n_sg qp)).
    + rewrite (nsum_ext (S N) (n_sb qp) (dns (q_dim qp))) by (intros i Hi; apply H; fold N; lia). pose proof (roff_sum N (dns (q_dim qp)) 0 ltac:(lia)) as R. cbn [nsum Nat.add] in R. unfold n_soft. change (soff qp N 0) with (roff N (dns (q_dim qp)) 0). cbn [nsum]. lia.
    + intros i Hi. unfold n_sg. apply nsum_0. intros l Hl. destruct (H i ltac:(fold N; lia)) as (_ & _ & H2). rewrite H2 by exact Hl. reflexivity.
Qed.
(** *** a concrete case: two stages, softened input/state bounds, inputs in both stages, general constraint; all algorithms *)
Definition sx_dims : dims := mkdims 1 (fun _ => 1%nat) (fun _ => 1%nat) (fun _ => 2%nat) (fun i => i) (fun _ => 1%nat).
Definition sx_qp (g : R) : oqp R := mkqp sx_dims (fun _ r _ => INR r + 1) (fun _ r c => if (r =? c)%nat then 2 else 0) (fun _ _ _ => 3) (fun _ _ => g) (fun _ _ => 1 + g) (fun _ _ => -1 - g) (fun _ _ => 1) (fun _ _ => 0) (fun _ _ => 10)
  (fun i j => j) (fun i j => if (j =? 1)%nat then 0%Z else (-1)%Z).
Definition sx_den : dqp R := mkdqp 3 0 3 2 2 (fun _ _ => 0) (fun _ _ => 0) (fun _ _ => 0) (fun _ => 0) (fun _ => 0) (fun _ => 0) (fun _ => 1) (fun _ => 0) (fun _ => 0) (fun _ => 0%nat) (fun _ => (-1)%Z).
Theorem C51_hypotheses_met : forall alg0 sq, split_pre alg0 sq (fun _ => true) (sx_qp 0) sx_den /\ Forall (same_matrices (sx_qp 0)) [sx_qp 1; sx_qp 5] /\ same_matrices (sx_qp 0) (sx_qp 7).
Proof.
  intros alg0 sq. assert (S : forall g, same_matrices (sx_qp 0) (sx_qp g)) by (intros g; unfold same_matrices; repeat split; reflexivity).
  split; [|split; [repeat constructor; apply S|apply S]]. split; [|split; [|split; [|split]]].
  - intros i Hi. assert (E : i = 0%nat \/ i = 1%nat) by (cbn in Hi; lia). split.
    + intros j Hj. destruct E as [-> | ->]; cbn in *; lia.
    + intros j Hj. cbn. destruct (j =? 1)%nat; [right; lia|left; reflexivity].
  - unfold dense_size. repeat split; reflexivity.
  - reflexivity.
  - right. apply (C51_soft_bounds (sx_qp 0)). intros i Hi. assert (E : i = 0%nat \/ i = 1%nat) by (cbn in Hi; lia). destruct E as [-> | ->]; (split; [reflexivity|split; [|intros [|l] Hl; cbn in Hl; first [lia|reflexivity]]]);
      intros j Hj Hs; cbn in Hj; destruct j as [|[|j]]; try discriminate; try reflexivity; lia.
  - destruct alg0; [right|intros n r c _ _ _ Hc; cbn; destruct (Nat.eqb_spec r c); [lia|reflexivity]].
    intros n z Hn. assert (n = 1%nat) as -> by (cbn in Hn; lia). cbn. nra.
Qed.

(** *** slacks numbered in another order: the two calls pair the slacks differently from the expansion of the solution (C29), which uses the
    offsets of the stages; a feasible point of the dense QP is expanded to an infeasible trajectory.  The single call is right. *)
Definition so_qp : oqp R := mkqp ex_dims (fun _ r _ => 0) (fun _ r c => if (r =? c)%nat then 2 else 0) (fun _ _ _ => 1) (fun _ _ => 0) (fun _ _ => 1)
  (fun i c => if (i =? 0)%nat then if (c =? 1)%nat then 1 else -1 else if (c <? 4)%nat then -1 else 0) (fun _ _ => 1) (fun _ _ => 0) (fun _ _ => 10)
  (fun i j => j) (fun i j => if (j =? 1)%nat then 0%Z else (-1)%Z).
Definition so_v : nat -> R := fun k => if (k =? 2)%nat then 1 else 0.
Definition so_q : dqp R := split_run true false (fun _ => true) so_qp [] so_qp ex_den (mksw w0 (fun _ _ => 0)).
Definition so_q1 : dqp R := fst (fst (fst (cond_qp true false (fun _ => true) so_qp ex_den w0))).
Theorem C51_slack_order_refuted : cond_pre true (fun _ => true) so_qp ex_den /\ ~ slack_order so_qp 1 /\
  den_feasible so_q so_v /\ ~ feasible so_qp (traj so_qp 1 so_v) /\ ~ den_feasible so_q1 so_v.
Proof.
  assert (W : qp_wf so_qp).
  { intros i Hi. assert (E : i = 0%nat \/ i = 1%nat) by (cbn in Hi; lia). split.
    - intros j Hj. destruct E as [-> | ->]; cbn in *; lia.
    - intros j Hj. cbn. destruct (j =? 1)%nat; [right; lia|left; reflexivity]. }
  assert (NF : ~ feasible so_qp (traj so_qp 1 so_v)).
  { intros (_ & F). specialize (F 0%nat 1%nat ltac:(cbn; lia) ltac:(cbn; lia)). cbv -[Rplus Rmult Rminus Ropp IZR Rinv Rdiv Rge] in F. specialize (F ltac:(lra)). lra. }
  assert (P : cond_pre true (fun _ => true) so_qp ex_den).
  { split; [exact W|]. split; [repeat split; reflexivity|]. split; [reflexivity|left; reflexivity]. }
  split; [exact P|]. split; [intros (H & _); specialize (H 0%nat 1%nat ltac:(cbn; lia) ltac:(cbn; lia) eq_refl); cbn in H; lia|].
  split; [|split; [exact NF|]].
  - assert (En : d_ne so_q = 0%nat) by (vm_compute; reflexivity). assert (Ec : d_nct so_q = 12%nat) by (vm_compute; reflexivity). split; [intros j Hj; rewrite En in Hj; lia|]. intros c Hc _. rewrite Ec in Hc.
    do 12 (destruct c as [|c]; [cbv -[Rplus Rmult Rminus Ropp IZR Rinv Rdiv Rge]; lra|]). lia.
  - intros F. pose proof (C28_equivalent true false (fun _ => true) so_qp ex_den w0 P) as E. unfold so_q1 in F. destruct (cond_qp true false (fun _ => true) so_qp ex_den w0) as [[[q' x1] x2] x3]. cbn [fst] in F. apply (proj1 E) in F. exact (NF F).
Qed.
(** *** the complementarity targets m are not condensed by the two calls *)
Theorem C51_m_refuted : exists qp q0, split_pre true false (fun _ => true) qp q0 /\ d_m (split_run true false (fun _ => true) qp [] qp q0 (mksw w0 (fun _ _ => 0))) 0%nat = 0 /\
  d_m (fst (fst (fst (cond_qp true false (fun _ => true) qp q0 w0)))) 0%nat = 1 /\ q_m qp 1%nat 0%nat = 1.
Proof.
  set (qp := mkqp sx_dims (fun _ r _ => INR r + 1) (fun _ r c => if (r =? c)%nat then 2 else 0) (fun _ _ _ => 3) (fun _ _ => 0) (fun _ _ => 1) (fun _ _ => -1) (fun _ _ => 1) (fun _ _ => 1) (fun _ _ => 10)
    (fun i j => j) (fun i j => if (j =? 1)%nat then 0%Z else (-1)%Z)).
  exists qp, sx_den. split; [|split; [|split; reflexivity]].
  - destruct (C51_hypotheses_met true false) as ((P1 & P2 & P3 & P4 & P5) & _). split; [exact P1|split; [exact P2|split; [exact P3|split; [exact P4|left; reflexivity]]]].
  - reflexivity.
Qed.
(** *** square_root_alg = 1 factorises the cost of the states without checking it: if it is not convex, the Hessian is wrong, where the single call
    falls back to the other algorithm (the QP below, min u^2 - x_1^2/2 with x_1 = u, is convex in u) *)
Section Sqrt.
Notation F := spec_float.
Definition iv0 : nat -> F := fun _ => lit 0 1. Definition im0 : nat -> nat -> F := fun _ _ => lit 0 1.
Definition ind_dims : dims := mkdims 1 (fun i => i) (fun i => (1 - i)%nat) (fun _ => 0%nat) (fun _ => 0%nat) (fun _ => 0%nat).
Definition ind_qp : oqp F := mkqp ind_dims (fun _ r _ => if (r =? 0)%nat then lit 1 1 else lit 0 1) (fun i r c => if (r =? 0)%nat then if (i =? 0)%nat then lit 2 1 else lit (-1) 1 else lit 0 1) (fun _ => im0) (fun _ => iv0) (fun _ => iv0) (fun _ => iv0) (fun _ => iv0) (fun _ => iv0) (fun _ => iv0) (fun _ _ => 0%nat) (fun _ _ => (-1)%Z).
Definition ind_den : dqp F := mkdqp 1 0 0 0 0 im0 im0 im0 iv0 iv0 iv0 iv0 iv0 iv0 (fun _ => 0%nat) (fun _ => (-1)%Z).
Definition iw0 : cws F := mkcws (fun _ => im0) (fun _ => iv0) (fun _ => im0) im0 iv0 im0 im0 iv0 iv0.
Theorem C51_sqrt_indefinite_refuted :
  d_H (fst (fst (cond_lhs true true (fun _ => false) ind_qp ind_den (mksw iw0 (fun _ => iv0))))) 0%nat 0%nat = lit 2 1 /\
  d_H (fst (fst (cond_lhs true false (fun _ => false) ind_qp ind_den (mksw iw0 (fun _ => iv0))))) 0%nat 0%nat = lit 1 1 /\
  d_H (fst (fst (fst (cond_qp true true (fun _ => false) ind_qp ind_den iw0)))) 0%nat 0%nat = lit 1 1.
Proof. repeat split; vm_compute; reflexivity. Qed.
End Sqrt.
Print Assumptions C51_objective.
Print Assumptions C51_constraints.
Print Assumptions C51_equivalent.
Print Assumptions C51_same_as_single_call.
Print Assumptions C51_ocp_qp_unchanged.
Print Assumptions C51_soft_bounds.
Print Assumptions C51_slack_order_refuted.
Print Assumptions C51_m_refuted.
Print Assumptions C51_sqrt_indefinite_refuted.
