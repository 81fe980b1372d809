(** CsplitSeedProps.v -- property C51, continued: condensing of sensitivity seeds (COND_QP_COND_SEED) in between the calls for the vectors, and the
    expansion of solutions of the dense QP made in several calls (COND_QP_EXPAND_SOL, COND_QP_EXPAND_SOL_SEED). *)
From Coq Require Import ZArith Bool Arith Lia Reals Lra List.
From Verif Require Import Base ArithF RSum Blas Blas2 OcpModel ResSpec ResProofs ResProofs2 CholProofs CholPD KktModel SolveModel SensModel DenModel DenSpec CondModel ExpModel CondSpec CondProofs CondCost CondCost2 CondCost3 CondCon CondCon2 CondCon3 CondSem CondFull CondProps ExpProofs ExpKkt ExpProps CsplitModel CsplitSpec CsplitProofs CsplitProofs2 CsplitCon CsplitFull CsplitProps PcsplitSeed.
Import ListNotations.
Local Open Scope R_scope.

(** the calls that may follow the condensing of the matrices *)
Inductive dcall := DVecs (qk : oqp R) | DSeed (qk : oqp R) (sd : seed R).
Definition dcall_qp (c : dcall) : oqp R := match c with DVecs qk => qk | DSeed qk _ => qk end.
(** dense QP, seed_g and seed_d of the dense seed, workspace *)
Definition dcst := (dqp R * (rvec * rvec) * sws2 R)%type.
Definition do_dcall (alg0 : bool) (diag : nat -> bool) (s : dcst) (c : dcall) : dcst :=
  let '(q, (g, d), w) := s in
  match c with
  | DVecs qk => let '(q, w) := cond_rhs alg0 diag qk q w in (q, (g, d), w)
  | DSeed qk sd => let '(g, d, w) := cond_seed alg0 diag qk sd g d w in (q, (g, d), w)
  end.
Definition dc_run (alg0 sq : bool) (diag : nat -> bool) (qp : oqp R) (cs : list dcall) (q0 : dqp R) (s0 : rvec * rvec) (w : sws2 R) : dcst :=
  let '(q1, w1, _) := cond_lhs alg0 sq diag qp q0 w in fold_left (do_dcall alg0 diag) cs (q1, s0, w1).
Definition dcalls_ok (qp : oqp R) (cs : list dcall) : Prop := Forall (fun c => same_matrices qp (dcall_qp c)) cs.
(** the dense QP with the dense seed in place of its vectors *)
Definition den_seed_qp (q : dqp R) (g d : rvec) : dqp R :=
  mkdqp (d_nv q) (d_ne q) (d_nb q) (d_ng q) (d_ns q) (d_H q) (d_A q) (d_Ct q) g (d_b q) d (d_mask q) (d_m q) (d_Z q) (d_idxb q) (d_idxs_rev q).

(** the seed call gives the vectors of the other call for the QP with the seed in place of its vectors *)
Lemma dseed_sim alg0 diag (qp : oqp R) sd (q : dqp R) g d w : let '(g', d', w') := cond_seed alg0 diag qp sd g d w in let '(q', w2) := cond_rhs alg0 diag (seed_qp qp sd) (den_seed_qp q g d) w in
  w2 = w' /\ exists mask, q' = mkdqp (d_nv q) (d_ne q) (d_nb q) (d_ng q) (d_ns q) (d_H q) (d_A q) (d_Ct q) g' (d_b q) d' mask (d_m q) (d_Z q) (d_idxb q) (d_idxs_rev q).
Proof.
  unfold cond_seed, cond_rhs, cond_vecs. cbn [den_seed_qp d_nv d_ne d_nb d_ng d_ns d_H d_A d_Ct d_gz d_b d_d d_mask d_m d_Z d_idxb d_idxs_rev].
  destruct (cond_b true (seed_qp qp sd) (cw_Gammab (sw_c w)) (fun _ => f0)) as [Gb b']. destruct (cond_rq _ _ _ _ _ _) as [w' g'].
  destruct (mf_d (seed_qp qp sd) Gb true (mkdst d (d_mask q) g' (cw_nbg (sw_c w')) 0 0 0) (mkdst d (fun _ => f0) g' (cw_nbg (sw_c w')) 0 0 0) eq_refl) as (E1 & E2 & E3). rewrite E1, E2, E3. split; [reflexivity|eexists; reflexivity].
Qed.
Section Calls.
Variables (alg0 sq : bool) (diag : nat -> bool) (qp : oqp R) (q0 : dqp R).
Hypothesis HP : split_pre alg0 sq diag qp q0.
Lemma sm_sym' qk : same_matrices qp qk -> same_matrices qk qp.
Proof. intros (E1 & E2 & E3 & E4 & E5 & E6 & E7). unfold same_matrices, nux. rewrite E1. do 5 (split; [congruence|]). split; intros; symmetry; [apply E6|apply E7]; assumption. Qed.
Lemma dc_rhs qk q w : same_matrices qp qk -> INV alg0 qp q0 q w -> let '(q', w') := cond_rhs alg0 diag qk q w in INV alg0 qp q0 q' w' /\ split_post qk q' /\ d_m q' = d_m q.
Proof.
  intros HM HI. destruct HP as (P1 & P2 & P3 & P4 & P5).
  pose proof (rhs_R alg0 diag qk q0 q w (wf_tr _ _ HM P1) (so_tr _ _ HM P4)) as X. destruct (cond_rhs alg0 diag qk q w) as [q' w'].
  destruct X as (X1 & X2).
  - intros ->. apply (df_tr qp); [exact HM|exact P5].
  - intros p Hp. apply P3. pose proof (size_tr qp qk q0 HM P2) as (_ & _ & E3 & E4 & _). rewrite E3, E4, n_box_eq, n_gen_eq. exact Hp.
  - exact (INV_tr alg0 qp qk q0 q w HM HI).
  - split; [exact (INV_tr alg0 qk qp q0 q' w' (sm_sym' qk HM) X1)|exact X2].
Qed.
Lemma dc_seed qk sd q g d w : same_matrices qp qk -> INV alg0 qp q0 q w -> let '(g', d', w') := cond_seed alg0 diag qk sd g d w in
  INV alg0 qp q0 q w' /\ exists mask, split_post (seed_qp qk sd) (mkdqp (d_nv q) (d_ne q) (d_nb q) (d_ng q) (d_ns q) (d_H q) (d_A q) (d_Ct q) g' (d_b q) d' mask (d_m q) (d_Z q) (d_idxb q) (d_idxs_rev q)).
Proof.
  intros HM HI. pose proof (dseed_sim alg0 diag qk sd q g d w) as S. pose proof (dc_rhs (seed_qp qk sd) (den_seed_qp q g d) w HM HI) as X.
  destruct (cond_seed alg0 diag qk sd g d w) as [[g' d'] w']. destruct (cond_rhs alg0 diag (seed_qp qk sd) (den_seed_qp q g d) w) as [q' w2]. destruct S as (-> & mask & ->). destruct X as (X1 & X2 & _). split; [exact X1|]. exists mask. exact X2.
Qed.
Lemma dc_inv cs s : dcalls_ok qp cs -> INV alg0 qp q0 (fst (fst s)) (snd s) -> let s' := fold_left (do_dcall alg0 diag) cs s in INV alg0 qp q0 (fst (fst s')) (snd s') /\ d_m (fst (fst s')) = d_m (fst (fst s)).
Proof.
  revert s. induction cs as [|c cs IH]; intros [[q [g d]] w] Hc HI; [split; [exact HI|reflexivity]|]. inversion Hc as [|? ? Hc1 Hc2]; subst. cbn [fold_left]. cbv zeta in *.
  destruct c as [qk|qk sd]; cbn [do_dcall dcall_qp fst snd] in *.
  - pose proof (dc_rhs qk q w Hc1 HI) as X. destruct (cond_rhs alg0 diag qk q w) as [q' w']. destruct X as (X1 & _ & X3). rewrite <- X3. apply (IH (q', (g, d), w')); [exact Hc2|exact X1].
  - pose proof (dc_seed qk sd q g d w Hc1 HI) as X. destruct (cond_seed alg0 diag qk sd g d w) as [[g' d'] w']. apply (IH (q, (g', d'), w')); [exact Hc2|exact (proj1 X)].
Qed.
Lemma dc_start w : let '(q, w1, _) := cond_lhs alg0 sq diag qp q0 w in INV alg0 qp q0 q w1 /\ d_m q = d_m q0.
Proof.
  destruct HP as (P1 & P2 & P3 & P4 & P5).
  assert (Ha : alg2_ok alg0 sq diag qp). { unfold alg2_ok. destruct alg0; [|exact P5]. destruct P5 as [P5|P5]; [left; exact P5|right]. intros n Hn. apply convex_psd; assumption. }
  pose proof (lhs_INV alg0 sq diag qp q0 w (size_ddims qp q0 P2) Ha) as L. destruct (cond_lhs alg0 sq diag qp q0 w) as [[q1 w1] RSQ]. destruct L as (L1 & _ & _ & _ & _ & L2). split; [exact L1|exact L2].
Qed.
Lemma dc_facts cs qk s0 w : dcalls_ok qp cs -> same_matrices qp qk -> let '(q, _, _) := dc_run alg0 sq diag qp (cs ++ [DVecs qk]) q0 s0 w in split_post qk q /\ d_m q = d_m q0.
Proof.
  intros HC HM. unfold dc_run. pose proof (dc_start w) as S. destruct (cond_lhs alg0 sq diag qp q0 w) as [[q1 w1] RSQ]. destruct S as (S1 & S2). rewrite fold_left_app. cbn [fold_left].
  pose proof (dc_inv cs (q1, s0, w1) HC S1) as I. cbv zeta in I. destruct (fold_left _ cs _) as [[q [g d]] w2]. cbn [fst snd do_dcall] in *. destruct I as (I1 & I2). pose proof (dc_rhs qk q w2 HM I1) as X. destruct (cond_rhs alg0 diag qk q w2) as [q' w']. destruct X as (_ & X2 & X3). split; [exact X2|congruence].
Qed.
Lemma dc_seed_facts cs qk sd s0 w : dcalls_ok qp cs -> same_matrices qp qk -> let '(q, (g, d), _) := dc_run alg0 sq diag qp (cs ++ [DSeed qk sd]) q0 s0 w in
  q = fst (fst (dc_run alg0 sq diag qp cs q0 s0 w)) /\ exists mask, split_post (seed_qp qk sd) (mkdqp (d_nv q) (d_ne q) (d_nb q) (d_ng q) (d_ns q) (d_H q) (d_A q) (d_Ct q) g (d_b q) d mask (d_m q) (d_Z q) (d_idxb q) (d_idxs_rev q)).
Proof.
  intros HC HM. unfold dc_run. pose proof (dc_start w) as S. destruct (cond_lhs alg0 sq diag qp q0 w) as [[q1 w1] RSQ]. destruct S as (S1 & S2). rewrite fold_left_app. cbn [fold_left].
  pose proof (dc_inv cs (q1, s0, w1) HC S1) as I. cbv zeta in I. destruct (fold_left _ cs _) as [[q [g d]] w2]. cbn [fst snd do_dcall] in *. destruct I as (I1 & I2). pose proof (dc_seed qk sd q g d w2 HM I1) as X. destruct (cond_seed alg0 diag qk sd g d w2) as [[g' d'] w']. destruct X as (_ & X2). split; [reflexivity|exact X2].
Qed.
End Calls.
(** *** the equivalence of C51 also holds when seeds are condensed in between the calls *)
Theorem C51_vectors_after_seeds : forall alg0 sq diag qp cs qk q0 s0 w, split_pre alg0 sq diag qp q0 -> dcalls_ok qp cs -> same_matrices qp qk ->
  let q := fst (fst (dc_run alg0 sq diag qp (cs ++ [DVecs qk]) q0 s0 w)) in let N := dN (q_dim qk) in
  dense_size qk N q /\ den_wf q /\ d_m q = d_m q0 /\ (exists K, forall v, den_cost q v = cost qk (traj qk N v) + K) /\
  exists pos, numbering qk q pos /\ forall v i c, (i <= N)%nat -> (c < nct (q_dim qk) i)%nat -> den_con q v (pos i c) - d_d q (pos i c) = con qk (traj qk N v) i c - q_d qk i c /\ d_mask q (pos i c) = q_mask qk i c.
Proof.
  intros alg0 sq diag qp cs qk q0 s0 w HP HC HM. cbv zeta. pose proof (dc_facts alg0 sq diag qp q0 HP cs qk s0 w HC HM) as X. destruct (dc_run _ _ _ _ _ _ _ _) as [[q gd] w']. cbn [fst]. destruct X as ((Q1 & (Gm & Gb & md & Q2 & Q3) & QK) & Em).
  destruct HP as (P1 & _). apply (wf_tr _ _ HM) in P1. assert (W : wfM qk (dN (q_dim qk))) by (intros i Hi; apply P1; exact Hi).
  assert (Q1' : ddims_ok qk (dN (q_dim qk)) (setm q md)) by exact Q1.
  split; [|split; [exact (den_wf_ok qk _ Gm Gb (setm q md) Q1' W Q2)|split; [exact Em|split; [exact QK|]]]].
  { destruct Q1 as (E1 & E2 & E3 & E4 & E5). unfold dense_size. rewrite n_box_eq, n_gen_eq. repeat split; assumption. }
  exists (pos qk (dN (q_dim qk))). split.
  - destruct Q1 as (E1 & E2 & E3 & E4 & E5). unfold numbering, d_nct. rewrite E3, E4, E5. split; [|split].
    + intros i c Hi Hc. apply pos_lt; assumption.
    + intros i c i' c'. apply pos_inj.
    + intros p Hp. apply pos_surj. exact Hp.
  - intros v i c Hi Hc. destruct (con_traj qk _ Gm Gb (setm q md) Q1' W Q2 Q3 v i c Hi Hc) as (A & B & _). split; [exact A|exact B].
Qed.
(** *** the seed: with the dense seed in place of its vectors, the dense QP is the condensed form of the OCP QP with the seed in place of its vectors; the dense QP is not touched *)
Theorem C51_seed : forall alg0 sq diag qp cs qk sd q0 s0 w, split_pre alg0 sq diag qp q0 -> dcalls_ok qp cs -> same_matrices qp qk ->
  let '(q, (g, d), _) := dc_run alg0 sq diag qp (cs ++ [DSeed qk sd]) q0 s0 w in let u := seed_qp qk sd in let v := den_seed_qp q g d in let N := dN (q_dim qk) in
  (exists K, forall z, den_cost v z = cost u (traj u N z) + K) /\
  (exists pos, numbering u v pos /\ forall z i c, (i <= N)%nat -> (c < nct (q_dim qk) i)%nat -> den_con v z (pos i c) - d (pos i c) = con u (traj u N z) i c - sd_d sd i c) /\
  q = fst (fst (dc_run alg0 sq diag qp cs q0 s0 w)).
Proof.
  intros alg0 sq diag qp cs qk sd q0 s0 w HP HC HM. pose proof (dc_seed_facts alg0 sq diag qp q0 HP cs qk sd s0 w HC HM) as X. destruct (dc_run _ _ _ _ (cs ++ _) _ _ _) as [[q [g d]] w']. destruct X as (X0 & mask & Q1 & (Gm & Gb & md & Q2 & Q3) & QK). cbv zeta. set (u := seed_qp qk sd) in *. set (qm := mkdqp _ _ _ _ _ _ _ _ _ _ _ _ _ _ _ _) in *.
  destruct HP as (P1 & _). apply (wf_tr _ _ HM) in P1. assert (W : wfM u (dN (q_dim u))) by (intros i Hi; apply P1; exact Hi).
  assert (Q1' : ddims_ok u (dN (q_dim u)) (setm qm md)) by exact Q1.
  split; [exact QK|]. split; [|exact X0]. exists (pos u (dN (q_dim u))). split.
  - destruct Q1 as (E1 & E2 & E3 & E4 & E5). cbn [qm d_nb d_ng d_ns] in E3, E4, E5. unfold numbering, d_nct. cbn [den_seed_qp d_nb d_ng d_ns]. rewrite E3, E4, E5. split; [|split].
    + intros i c Hi Hc. apply pos_lt; assumption.
    + intros i c i' c'. apply pos_inj.
    + intros p Hp. apply pos_surj. exact Hp.
  - intros z i c Hi Hc. exact (proj1 (con_traj u _ Gm Gb (setm qm md) Q1' W Q2 Q3 z i c Hi Hc)).
Qed.

(** residuals of an expanded solution, for any dense QP that stands for the OCP QP *)
Lemma split_residuals qp q ds sol w2 : qp_wf qp -> split_post qp q -> lam_masked q (ds_lam ds) ->
  let s := fst (expand_sol true true true true qp ds sol w2) in let D := q_dim qp in let N := dN D in
  same_point qp (s_ux s) (traj qp N (ds_v ds)) /\
  (forall i k, (i <= N)%nat -> (k < nvt D i)%nat -> eliminated qp i k -> kkt_g qp (s_ux s) (s_pi s) (s_lam s) i k = 0) /\
  (forall i k, (i <= N)%nat -> (k < nvt D i)%nat -> ~ eliminated qp i k -> exists p, (p < dnv q)%nat /\ s_ux s i k = ds_v ds p /\ kkt_g qp (s_ux s) (s_pi s) (s_lam s) i k = den_kkt_g q (ds_v ds) (ds_pi ds) (ds_lam ds) p) /\
  (forall i j, (i < N)%nat -> (j < dnx D (S i))%nat -> dyn qp (s_ux s) i j = 0) /\
  (forall i c, (i <= N)%nat -> (c < nct D i)%nat -> let p := pos qp N i c in (p < d_nct q)%nat /\ s_lam s i c = ds_lam ds p /\ s_t s i c = ds_t ds p /\ d_mask q p = q_mask qp i c /\
     kkt_d qp (s_ux s) (s_t s) i c = den_kkt_d q (ds_v ds) (ds_t ds) p).
Proof.
  intros P1 (Q1 & (Gm & Gb & md & Q2 & Q3) & (K & Q4)) HM. cbv zeta. set (D := q_dim qp). set (N := dN D).
  assert (W : wfM qp N) by (intros i Hi; apply P1; exact Hi). assert (Q1' : ddims_ok qp N (setm q md)) by exact Q1.
  pose proof (expand_facts qp ds sol w2 true true) as X. cbv zeta in X. fold D in X. fold N in X. set (s := fst _) in *. clearbody s. destruct X as (ST & X2 & X3). specialize (X2 eq_refl). specialize (X3 eq_refl).
  assert (HL : forall i c, (i <= N)%nat -> (c < nct D i)%nat -> s_lam s i c = ds_lam ds (pos qp N i c)) by (intros i c Hi Hc; apply X2; assumption).
  assert (HT : forall i c, (i <= N)%nat -> (c < nct D i)%nat -> s_t s i c = ds_t ds (pos qp N i c)) by (intros i c Hi Hc; apply X2; assumption).
  assert (Hpos : forall i c, (i <= N)%nat -> (c < nct D i)%nat -> (pos qp N i c < d_nct q)%nat).
  { intros i c Hi Hc. pose proof (pos_lt qp N i c Hi Hc). destruct Q1 as (_ & _ & E3 & E4 & E5). unfold d_nct. fold D N in E3, E4, E5. rewrite E3, E4, E5. exact H. }
  assert (K0 : forall i j, (1 <= i <= N)%nat -> (j < dnx D i)%nat -> kkt_g qp (traj qp N (ds_v ds)) (s_pi s) (s_lam s) i (dnu D i + j)%nat = 0).
  { intros i j Hi Hj. rewrite <- (same_kkt_g qp _ _ (s_pi s) (s_lam s) i _ ST) by (fold D N; lia). apply (pif_kkt qp); [exact Hi|exact Hj| |apply X3; assumption].
    intros c Hc. destruct (con_traj qp N Gm Gb (setm q md) Q1' W Q2 Q3 (ds_v ds) i c ltac:(lia) Hc) as (_ & C2 & _). change (d_mask (setm q md)) with (d_mask q) in C2. rewrite HL by (try exact Hc; lia). rewrite <- C2.
    destruct (HM _ (Hpos i c ltac:(lia) Hc)) as [(_ & E)|E]; rewrite E; ring. }
  split; [exact ST|]. split; [|split; [|split]].
  - intros i k Hi Hk (E1 & E2). rewrite (same_kkt_g qp _ _ (s_pi s) (s_lam s) i _ ST) by exact Hi. replace k with (dnu D i + (k - dnu D i))%nat by (unfold D; lia). apply K0; [lia|]. unfold nux in E2. fold D in E2. lia.
  - intros i k Hi Hk E.
    assert (FF : free qp i k). { split; [exact Hi|]. split; [exact Hk|]. unfold eliminated in E. lia. }
    exists (ExpKkt.slot qp i k). split; [exact (slot_lt qp (setm q md) Q1' i k FF)|]. rewrite (ST i k Hi Hk). split; [apply traj_slot; exact FF|]. rewrite (same_kkt_g qp _ _ (s_pi s) (s_lam s) i _ ST) by exact Hi.
    exact (kkt_g_free qp Gm Gb (setm q md) Q1' W Q2 Q3 K Q4 (ds_v ds) (ds_pi ds) (s_pi s) (ds_lam ds) (s_lam s) HL K0 i k FF).
  - intros i j Hi Hj. pose proof (C28_trajectories qp) as T. cbv zeta in T. destruct T as (T1 & _). rewrite <- (T1 (ds_v ds) i j Hi Hj). unfold dyn. fold D N. rewrite (ST (S i)) by (fold D; try lia; unfold nvt; lia). f_equal. f_equal. apply rsum_ext. intros k Hk. unfold nux in Hk. rewrite (ST i k) by (fold D; try lia; unfold nvt; fold D in Hk; lia). reflexivity.
  - intros i c Hi Hc. split; [apply Hpos; assumption|]. split; [apply HL; assumption|]. split; [apply HT; assumption|]. split; [exact (proj1 (proj2 (con_traj qp N Gm Gb (setm q md) Q1' W Q2 Q3 (ds_v ds) i c Hi Hc)))|].
    transitivity (kkt_d qp (traj qp N (ds_v ds)) (s_t s) i c); [unfold kkt_d; f_equal; f_equal; apply same_con; assumption|]. exact (kkt_d_pos qp Gm Gb (setm q md) Q1' W Q2 Q3 (ds_v ds) (ds_t ds) (s_t s) i c HT Hi Hc).
Qed.
(** *** COND_QP_EXPAND_SOL after the calls: every residual is zero or that of the dense solution; lam and t are copied *)
Theorem C51_expanded : forall alg0 sq diag qp cs qk q0 s0 w ds sol w2, split_pre alg0 sq diag qp q0 -> dcalls_ok qp cs -> same_matrices qp qk ->
  let q := fst (fst (dc_run alg0 sq diag qp (cs ++ [DVecs qk]) q0 s0 w)) in lam_masked q (ds_lam ds) ->
  let s := fst (expand_sol true true true true qk ds sol w2) in let D := q_dim qk in
  same_point qk (s_ux s) (traj qk (dN D) (ds_v ds)) /\
  (forall i k, (i <= dN D)%nat -> (k < nvt D i)%nat -> eliminated qk i k -> kkt_g qk (s_ux s) (s_pi s) (s_lam s) i k = 0) /\
  (forall i k, (i <= dN D)%nat -> (k < nvt D i)%nat -> ~ eliminated qk i k -> exists p, (p < dnv q)%nat /\ s_ux s i k = ds_v ds p /\ kkt_g qk (s_ux s) (s_pi s) (s_lam s) i k = den_kkt_g q (ds_v ds) (ds_pi ds) (ds_lam ds) p) /\
  (forall i j, (i < dN D)%nat -> (j < dnx D (S i))%nat -> dyn qk (s_ux s) i j = 0) /\
  (forall i c, (i <= dN D)%nat -> (c < nct D i)%nat -> exists p, (p < d_nct q)%nat /\ s_lam s i c = ds_lam ds p /\ s_t s i c = ds_t ds p /\ d_mask q p = q_mask qk i c /\
     kkt_d qk (s_ux s) (s_t s) i c = den_kkt_d q (ds_v ds) (ds_t ds) p).
Proof.
  intros alg0 sq diag qp cs qk q0 s0 w ds sol w2 HP HC HM. cbv zeta. pose proof (dc_facts alg0 sq diag qp q0 HP cs qk s0 w HC HM) as X. destruct (dc_run _ _ _ _ _ _ _ _) as [[q gd] w']. cbn [fst]. destruct X as (X & _). intros HL.
  destruct HP as (P1 & _). apply (wf_tr _ _ HM) in P1. pose proof (split_residuals qk q ds sol w2 P1 X HL) as (R1 & R2 & R3 & R4 & R5). split; [exact R1|]. split; [exact R2|]. split; [exact R3|]. split; [exact R4|]. intros i c Hi Hc. eexists. exact (R5 i c Hi Hc).
Qed.
(** *** COND_QP_EXPAND_SOL_SEED (x_cond.c lines 543-569: EXPAND_SOL with the seed in place of the vectors) for a solution of the linear system of the sensitivities of the dense QP *)
Theorem C51_seed_expanded : forall alg0 sq diag qp cs qk sd q0 s0 w ds sol w2, split_pre alg0 sq diag qp q0 -> dcalls_ok qp cs -> same_matrices qp qk ->
  let '(q, (g, d), _) := dc_run alg0 sq diag qp (cs ++ [DVecs qk; DSeed qk sd]) q0 s0 w in lam_masked q (ds_lam ds) ->
  let u := seed_qp qk sd in let v := den_seed_qp q g d in let s := fst (expand_sol true true true true u ds sol w2) in let D := q_dim qk in
  (forall i k, (i <= dN D)%nat -> (k < nvt D i)%nat -> eliminated qk i k -> kkt_g u (s_ux s) (s_pi s) (s_lam s) i k = 0) /\
  (forall i k, (i <= dN D)%nat -> (k < nvt D i)%nat -> ~ eliminated qk i k -> exists p, (p < dnv q)%nat /\ s_ux s i k = ds_v ds p /\ kkt_g u (s_ux s) (s_pi s) (s_lam s) i k = den_kkt_g v (ds_v ds) (ds_pi ds) (ds_lam ds) p) /\
  (forall i j, (i < dN D)%nat -> (j < dnx D (S i))%nat -> dyn u (s_ux s) i j = 0) /\
  (forall i c, (i <= dN D)%nat -> (c < nct D i)%nat -> exists p, (p < d_nct q)%nat /\ s_lam s i c = ds_lam ds p /\ s_t s i c = ds_t ds p /\ d_mask q p = q_mask qk i c /\
     kkt_d u (s_ux s) (s_t s) i c = den_kkt_d v (ds_v ds) (ds_t ds) p).
Proof.
  intros alg0 sq diag qp cs qk sd q0 s0 w ds sol w2 HP HC HM. change (cs ++ [DVecs qk; DSeed qk sd]) with (cs ++ ([DVecs qk] ++ [DSeed qk sd])). rewrite app_assoc.
  assert (HC' : dcalls_ok qp (cs ++ [DVecs qk])) by (apply Forall_app; split; [exact HC|constructor; [exact HM|constructor]]).
  pose proof (dc_facts alg0 sq diag qp q0 HP cs qk s0 w HC HM) as F. pose proof (dc_seed_facts alg0 sq diag qp q0 HP (cs ++ [DVecs qk]) qk sd s0 w HC' HM) as X.
  destruct (dc_run alg0 sq diag qp (cs ++ [DVecs qk]) q0 s0 w) as [[qv gd] w1]. destruct F as (F & _). destruct (dc_run alg0 sq diag qp ((cs ++ [DVecs qk]) ++ [DSeed qk sd]) q0 s0 w) as [[q [g d]] w']. cbn [fst] in X. destruct X as (-> & mask & X). intros HL. cbv zeta. set (u := seed_qp qk sd) in *. set (qm := mkdqp _ _ _ _ _ _ _ _ _ _ _ _ _ _ _ _) in *.
  destruct HP as (P1 & _). apply (wf_tr _ _ HM) in P1. assert (P1u : qp_wf u) by exact P1.
  assert (EM : forall p, (p < d_nct qv)%nat -> mask p = d_mask qv p).
  { intros p Hp. destruct F as (D1 & (Gm & Gb & md & D2 & D3) & _). destruct X as (D1' & (Gm' & Gb' & md' & D2' & D3') & _).
    assert (W : wfM qk (dN (q_dim qk))) by (intros i Hi; apply P1; exact Hi).
    destruct (pos_surj qk (dN (q_dim qk)) p) as (i & c & Hi & Hc & <-). { destruct D1 as (_ & _ & E3 & E4 & E5). unfold d_nct in Hp. rewrite E3, E4, E5 in Hp. exact Hp. }
    pose proof (proj1 (proj2 (con_traj qk _ Gm Gb (setm qv md) D1 W D2 D3 (fun _ => 0) i c Hi Hc))) as A. pose proof (proj1 (proj2 (con_traj u _ Gm' Gb' (setm qm md') D1' W D2' D3' (fun _ => 0) i c Hi Hc))) as B.
    change (d_mask qv (pos qk (dN (q_dim qk)) i c) = q_mask qk i c) in A. change (mask (pos qk (dN (q_dim qk)) i c) = q_mask qk i c) in B. congruence. }
  assert (HL' : lam_masked qm (ds_lam ds)). { intros p Hp. change (d_mask qm p) with (mask p). rewrite (EM p Hp). exact (HL p Hp). }
  pose proof (split_residuals u qm ds sol w2 P1u X HL') as (_ & R2 & R3 & R4 & R5). cbv zeta in *. set (s := fst _) in *. clearbody s.
  assert (EG : forall p, den_kkt_g qm (ds_v ds) (ds_pi ds) (ds_lam ds) p = den_kkt_g (den_seed_qp qv g d) (ds_v ds) (ds_pi ds) (ds_lam ds) p).
  { intros p. unfold den_kkt_g. f_equal. apply rsum_ext. intros c Hc. change (d_mask qm c) with (mask c). change (d_mask (den_seed_qp qv g d) c) with (d_mask qv c). rewrite (EM c Hc). reflexivity. }
  split; [exact R2|]. split; [|split; [exact R4|]].
  - intros i k Hi Hk He. destruct (R3 i k Hi Hk He) as (p & A1 & A2 & A3). exists p. split; [exact A1|]. split; [exact A2|]. rewrite A3. apply EG.
  - intros i c Hi Hc. destruct (R5 i c Hi Hc) as (A1 & A2 & A3 & A4 & A5). eexists. split; [exact A1|]. split; [exact A2|]. split; [exact A3|]. change (d_mask qm) with mask in A4. rewrite (EM _ A1) in A4. split; [exact A4|]. rewrite A5. unfold den_kkt_d. change (d_mask qm) with mask. rewrite (EM _ A1). reflexivity.
Qed.
(** *** the hypotheses are met by the QP of C51_hypotheses_met with seeds in between *)
Definition sx_sd : seed R := mkseed (fun _ _ => 1) (fun _ _ => 2) (fun _ _ => 3) (fun _ _ => 4).
Theorem C51_seed_hypotheses_met : forall alg0 sq, split_pre alg0 sq (fun _ => true) (sx_qp 0) sx_den /\ dcalls_ok (sx_qp 0) [DVecs (sx_qp 1); DSeed (sx_qp 1) sx_sd; DVecs (sx_qp 5)] /\ same_matrices (sx_qp 0) (sx_qp 7).
Proof.
  intros alg0 sq. destruct (C51_hypotheses_met alg0 sq) as (A & _ & B). assert (S : forall g, same_matrices (sx_qp 0) (sx_qp g)) by (intros g; unfold same_matrices; repeat split; reflexivity). split; [exact A|]. split; [repeat constructor; apply S|exact B].
Qed.
Print Assumptions C51_vectors_after_seeds.
Print Assumptions C51_seed.
Print Assumptions C51_expanded.
Print Assumptions C51_seed_expanded.
Print Assumptions C51_seed_hypotheses_met.
