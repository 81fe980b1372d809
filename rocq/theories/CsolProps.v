(** CsolProps.v -- property C67: condensing a solution (COND_QP_COND_SOL), full condensing. *)
From Coq Require Import ZArith Bool Arith List Lia Reals Lra.
From Verif Require Import Base ArithF RSum Blas Blas2 OcpModel ResSpec ResProofs ResProofs2 CholProofs KktModel DenModel DenSpec CondModel ExpModel CondSpec CondProofs CondCost CondCost2 CondCon CondCon2 CondCon3 CondSem CondFull ExpProofs ExpKkt CondProps ExpProps PartModel PartExpProps CsplitSpec CsolModel CsolProofs CsolPart.
From Verif Require CsplitProps CsplitProps.
Local Open Scope R_scope.

(** the point satisfies the dynamics *)
Definition dynamics_hold (qp : oqp R) (z : nat -> nat -> R) : Prop := forall i j, (i < dN (q_dim qp))%nat -> (j < dnx (q_dim qp) (S i))%nat -> dyn qp z i j = 0.
(** the gradient of the Lagrangian vanishes with respect to the variables eliminated by condensing *)
Definition states_stationary (qp : oqp R) (s : osol R) : Prop := forall i k, (i <= dN (q_dim qp))%nat -> eliminated qp i k -> kkt_g qp (s_ux s) (s_pi s) (s_lam s) i k = 0.

(** *** parts not requested are left as they are; without the flag of the last stage the multiplier of the equalities is not touched either *)
Theorem C67_flags : forall F (AF : Arith F) last (qp : oqp F) sol ds prim dineq deq, let s := cond_sol last prim dineq deq qp sol ds in
  (prim = false -> ds_v s = ds_v ds) /\ (dineq = false -> ds_lam s = ds_lam ds /\ ds_t s = ds_t ds) /\ (deq = false \/ last = true -> ds_pi s = ds_pi ds).
Proof.
  cbv zeta. intros F AF last qp sol ds prim dineq deq. unfold cond_sol. destruct (andb (Nat.eqb _ 0) last); cbn [ds_v ds_lam ds_t ds_pi].
  - split; [intros ->; reflexivity|]. split; [intros ->; split; reflexivity|reflexivity].
  - split; [intros ->; reflexivity|]. split; [intros ->; split; reflexivity|]. intros [-> | ->]; [reflexivity|]. rewrite andb_false_r. reflexivity.
Qed.

(** *** the dense variables are those of the OCP point: if it satisfies the dynamics, it is the trajectory of the dense vector *)
Theorem C67_trajectory : forall (qp : oqp R) sol ds dineq deq, qp_wf qp -> slack_order qp (dN (q_dim qp)) -> dynamics_hold qp (s_ux sol) ->
  same_point qp (traj qp (dN (q_dim qp)) (ds_v (cond_sol true true dineq deq qp sol ds))) (s_ux sol).
Proof.
  intros qp sol ds dineq deq Hwf HO HD. pose proof (cond_sol_R true qp sol ds dineq deq) as X. cbv zeta in X. change (last_stage true (dN (q_dim qp))) with (dN (q_dim qp)) in X.
  destruct X as (X & _); [discriminate|intros i Hi; apply Hwf; exact Hi|exact HO|]. intros i k Hi Hk. apply holds_traj; assumption.
Qed.
(** feasible points give feasible points, minimisers give minimisers *)
Theorem C67_optimal : forall alg0 sq diag qp q0 w sol ds dineq deq, cond_pre alg0 diag qp q0 -> slack_order qp (dN (q_dim qp)) ->
  let '(q, _, _, _) := cond_qp alg0 sq diag qp q0 w in let v := ds_v (cond_sol true true dineq deq qp sol ds) in
  (feasible qp (s_ux sol) -> den_feasible q v) /\ (ocp_optimal qp (s_ux sol) -> den_optimal q v).
Proof.
  intros alg0 sq diag qp q0 w sol ds dineq deq HP HO. pose proof (C28_equivalent alg0 sq diag qp q0 w HP) as E. destruct (cond_qp alg0 sq diag qp q0 w) as [[[q w'] BA] RSQ]. destruct E as (E1 & E2 & _). cbv zeta.
  pose proof (C67_trajectory qp sol ds dineq deq (proj1 HP) HO) as T. set (v := ds_v _) in *. clearbody v.
  assert (FE : feasible qp (s_ux sol) -> feasible qp (traj qp (dN (q_dim qp)) v)).
  { intros (F1 & F2). specialize (T F1). split; [intros i j; apply traj_dyn|]. intros i c Hi Hc Hm. rewrite (same_con qp _ _ i c T Hi). apply F2; assumption. }
  split; [intros H; apply E1; exact (FE H)|]. intros (O1 & O2). apply E2. split; [exact (FE O1)|]. intros y Hy. rewrite (same_cost qp _ _ (T (proj1 O1))). apply O2. exact Hy.
Qed.

(** *** expanding the condensed solution gives the solution back: primal, inequality multipliers and slacks whenever it satisfies the dynamics; the
    multipliers of the dynamics (which condensing drops) whenever it is stationary in the eliminated states *)
Theorem C67_expand_condensed : forall (qp : oqp R) sol ds sol0 w, qp_wf qp -> slack_order qp (dN (q_dim qp)) -> dynamics_hold qp (s_ux sol) ->
  let s := fst (expand_sol true true true true qp (cond_sol true true true true qp sol ds) sol0 w) in let D := q_dim qp in
  same_point qp (s_ux s) (s_ux sol) /\
  (forall i c, (i <= dN D)%nat -> (c < nct D i)%nat -> s_lam s i c = s_lam sol i c /\ s_t s i c = s_t sol i c) /\
  (ocp_lam_masked qp (s_lam sol) -> states_stationary qp sol -> forall i j, (i < dN D)%nat -> (j < dnx D (S i))%nat -> s_pi s i j = s_pi sol i j).
Proof.
  intros qp sol ds sol0 w Hwf HO HD. cbv zeta. pose proof (cond_sol_R true qp sol ds true true) as X. cbv zeta in X. change (last_stage true (dN (q_dim qp))) with (dN (q_dim qp)) in X.
  destruct X as (X1 & X2 & _); [discriminate|intros i Hi; apply Hwf; exact Hi|exact HO|]. specialize (X2 eq_refl). set (d := cond_sol _ _ _ _ _ _ _) in *. clearbody d.
  pose proof (expand_facts qp d sol0 w true true) as Y. cbv zeta in Y. destruct Y as (Y1 & Y2 & Y3). specialize (Y2 eq_refl). specialize (Y3 eq_refl). set (s := fst _) in *. clearbody s. set (D := q_dim qp) in *. set (N := dN D) in *.
  assert (A1 : same_point qp (s_ux s) (s_ux sol)). { intros i k Hi Hk. rewrite (Y1 i k Hi Hk). apply holds_traj; assumption. }
  assert (A2 : forall i c, (i <= N)%nat -> (c < nct D i)%nat -> s_lam s i c = s_lam sol i c /\ s_t s i c = s_t sol i c).
  { intros i c Hi Hc. destruct (Y2 i c Hi Hc) as (-> & ->). apply X2; assumption. }
  split; [exact A1|]. split; [exact A2|]. intros HM HS.
  assert (K0 : forall i j, (1 <= i <= N)%nat -> (j < dnx D i)%nat -> kkt_g qp (s_ux s) (s_pi s) (s_lam s) i (dnu D i + j)%nat = 0).
  { intros i j Hi Hj. apply pif_kkt; [exact Hi|exact Hj| |apply Y3; assumption]. intros c Hc. destruct (A2 i c ltac:(lia) Hc) as (-> & _). destruct (HM i c ltac:(fold D N; lia) Hc) as [(E1 & E2)|E]; [rewrite E1, E2|rewrite E]; ring. }
  enough (Z : forall n i, (N - n <= i)%nat -> (i < N)%nat -> forall j, (j < dnx D (S i))%nat -> s_pi s i j = s_pi sol i j) by (intros i j Hi; apply (Z N i); [lia|exact Hi]).
  induction n as [|n IH]; intros i Hn Hi j Hj; [lia|].
  pose proof (kkt_g_pi qp (s_ux s) (s_ux sol) (s_pi s) (s_pi sol) (s_lam s) (s_lam sol) (S i) j) as P. cbv zeta in P. fold D N in P. replace (S i - 1)%nat with i in P by lia. apply P.
  - lia.
  - exact Hj.
  - intros k Hk. apply A1; [fold D N; lia|exact Hk].
  - intros c Hc. apply A2; [lia|exact Hc].
  - intros L l Hl. apply IH; [lia|exact L|exact Hl].
  - apply K0; [lia|exact Hj].
  - apply HS; [fold D N; lia|]. split; [lia|]. unfold nux. fold D. lia.
Qed.
(** *** condensing the expanded solution gives the dense solution back *)
Theorem C67_condensed_expanded : forall (qp : oqp R) q ds sol0 w ds0 deq, qp_wf qp -> slack_order qp (dN (q_dim qp)) -> dense_size qp (dN (q_dim qp)) q ->
  let s := cond_sol true true true true qp (fst (expand_sol true true true deq qp ds sol0 w)) ds0 in
  (forall p, (p < dnv q)%nat -> ds_v s p = ds_v ds p) /\ (forall c, (c < d_nct q)%nat -> ds_lam s c = ds_lam ds c /\ ds_t s c = ds_t ds c).
Proof.
  intros qp q ds sol0 w ds0 deq Hwf HO HS. cbv zeta. pose proof (expand_facts qp ds sol0 w true deq) as Y. cbv zeta in Y. destruct Y as (Y1 & Y2 & _). specialize (Y2 eq_refl). set (o := fst _) in *. clearbody o.
  pose proof (cond_sol_R true qp o ds0 true true) as X. cbv zeta in X. change (last_stage true (dN (q_dim qp))) with (dN (q_dim qp)) in X. destruct X as (X1 & X2 & _); [discriminate|intros i Hi; apply Hwf; exact Hi|exact HO|]. specialize (X2 eq_refl).
  apply size_ddims in HS. destruct HS as (E1 & E2 & E3 & E4 & E5). split.
  - intros p Hp. unfold dnv in Hp. rewrite E1, E5 in Hp. destruct (slot_surj qp p ltac:(lia)) as (i & k & FF & <-). rewrite (holds_slot qp (s_ux o) _ i k X1 FF). rewrite (Y1 i k (proj1 FF) (proj1 (proj2 FF))). apply traj_slot. exact FF.
  - intros c Hc. unfold d_nct in Hc. rewrite E3, E4, E5 in Hc. destruct (pos_surj qp (dN (q_dim qp)) c Hc) as (i & c' & Hi & Hc' & <-). destruct (X2 i c' Hi Hc') as (-> & ->). apply Y2; assumption.
Qed.

(** *** every KKT residual of the condensed solution is a KKT residual of the OCP solution *)
Theorem C67_residuals : forall alg0 sq diag qp q0 w sol ds, cond_pre alg0 diag qp q0 -> slack_order qp (dN (q_dim qp)) -> dynamics_hold qp (s_ux sol) -> states_stationary qp sol ->
  let '(q, _, _, _) := cond_qp alg0 sq diag qp q0 w in let s := cond_sol true true true true qp sol ds in let D := q_dim qp in
  (forall p, (p < dnv q)%nat -> exists i k, (i <= dN D)%nat /\ (k < nvt D i)%nat /\ ~ eliminated qp i k /\ ds_v s p = s_ux sol i k /\ den_kkt_g q (ds_v s) (ds_pi s) (ds_lam s) p = kkt_g qp (s_ux sol) (s_pi sol) (s_lam sol) i k) /\
  d_ne q = 0%nat /\
  (forall p, (p < d_nct q)%nat -> exists i c, (i <= dN D)%nat /\ (c < nct D i)%nat /\ ds_lam s p = s_lam sol i c /\ ds_t s p = s_t sol i c /\
     den_kkt_d q (ds_v s) (ds_t s) p = kkt_d qp (s_ux sol) (s_t sol) i c /\ den_kkt_m q (ds_lam s) (ds_t s) p = kkt_m qp (s_lam sol) (s_t sol) i c).
Proof.
  intros alg0 sq diag qp q0 w sol ds HP HO HD HS. pose proof (cond_pre_post alg0 sq diag qp q0 w HP) as Q. destruct (cond_qp alg0 sq diag qp q0 w) as [[[q w'] BA] RSQ].
  destruct Q as (Q1 & (Gm & Gb & Q2 & Q3) & (K & Q4) & _). destruct HP as (P1 & _). cbv zeta.
  assert (W : wfM qp (dN (q_dim qp))) by (intros i Hi; apply P1; exact Hi).
  pose proof (C67_trajectory qp sol ds true true P1 HO HD) as T. pose proof (cond_sol_R true qp sol ds true true) as X. cbv zeta in X. change (last_stage true (dN (q_dim qp))) with (dN (q_dim qp)) in X. destruct X as (X1 & X2 & _); [discriminate|exact W|exact HO|]. specialize (X2 eq_refl).
  set (s := cond_sol _ _ _ _ _ _ _) in *. clearbody s. set (D := q_dim qp) in *. set (N := dN D) in *.
  assert (HL : forall i c, (i <= N)%nat -> (c < nct D i)%nat -> s_lam sol i c = ds_lam s (pos qp N i c)) by (intros i c Hi Hc; symmetry; apply X2; assumption).
  assert (HT : forall i c, (i <= N)%nat -> (c < nct D i)%nat -> s_t sol i c = ds_t s (pos qp N i c)) by (intros i c Hi Hc; symmetry; apply X2; assumption).
  assert (K0 : forall i j, (1 <= i <= N)%nat -> (j < dnx D i)%nat -> kkt_g qp (traj qp N (ds_v s)) (s_pi sol) (s_lam sol) i (dnu D i + j)%nat = 0).
  { intros i j Hi Hj. rewrite (same_kkt_g qp _ _ (s_pi sol) (s_lam sol) i _ T) by (fold D N; lia). apply HS; [fold D N; lia|]. split; [lia|]. unfold nux. fold D. lia. }
  split; [|split].
  - intros p Hp. unfold dnv in Hp. destruct Q1 as (E1 & E2 & E3 & E4 & E5) eqn:EQ. rewrite E1, E5 in Hp. destruct (slot_surj qp p ltac:(fold D N in Hp |- *; lia)) as (i & k & FF & <-). exists i, k.
    split; [exact (proj1 FF)|]. split; [exact (proj1 (proj2 FF))|]. split. { destruct FF as (_ & _ & F3). unfold eliminated. fold D. fold D in F3. lia. } split; [exact (holds_slot qp (s_ux sol) _ i k X1 FF)|].
    rewrite <- (same_kkt_g qp _ _ (s_pi sol) (s_lam sol) i k T (proj1 FF)). symmetry. exact (kkt_g_free qp Gm Gb q Q1 W Q2 Q3 K Q4 (ds_v s) (ds_pi s) (s_pi sol) (ds_lam s) (s_lam sol) HL K0 i k FF).
  - exact (proj1 (proj2 Q1)).
  - intros p Hp. unfold d_nct in Hp. destruct Q1 as (E1 & E2 & E3 & E4 & E5) eqn:EQ. rewrite E3, E4, E5 in Hp. destruct (pos_surj qp N p Hp) as (i & c & Hi & Hc & <-). exists i, c. split; [exact Hi|]. split; [exact Hc|]. split; [symmetry; apply HL; assumption|]. split; [symmetry; apply HT; assumption|]. split.
    + transitivity (kkt_d qp (traj qp N (ds_v s)) (s_t sol) i c). { symmetry. exact (kkt_d_pos qp Gm Gb q Q1 W Q2 Q3 (ds_v s) (ds_t s) (s_t sol) i c HT Hi Hc). } unfold kkt_d. f_equal. f_equal. apply same_con; assumption.
    + symmetry. apply (kkt_m_pos qp Gm Gb q Q1 W Q2 Q3); assumption.
Qed.
(** a KKT point condenses to a KKT point: a warm start at the solution is a warm start at the solution *)
Theorem C67_kkt_point : forall alg0 sq diag qp q0 w sol ds, cond_pre alg0 diag qp q0 -> slack_order qp (dN (q_dim qp)) -> ocp_kkt_point qp sol ->
  let '(q, _, _, _) := cond_qp alg0 sq diag qp q0 w in den_kkt_point q (cond_sol true true true true qp sol ds).
Proof.
  intros alg0 sq diag qp q0 w sol ds HP HO (K1 & K2 & K3). pose proof (C67_residuals alg0 sq diag qp q0 w sol ds HP HO K2) as R. specialize (R ltac:(intros i k Hi (E1 & E2); apply K1; [exact Hi|unfold nvt; unfold nux in E2; lia])).
  destruct (cond_qp alg0 sq diag qp q0 w) as [[[q w'] BA] RSQ]. cbv zeta in R. destruct R as (R1 & R2 & R3). split; [|split].
  - intros p Hp. destruct (R1 p Hp) as (i & k & Hi & Hk & _ & _ & ->). apply K1; assumption.
  - intros j Hj. lia.
  - intros p Hp. destruct (R3 p Hp) as (i & c & Hi & Hc & -> & -> & -> & ->). apply K3; assumption.
Qed.

(** *** the condition on the order of the slacks: holds without slacks, and when only bounds are softened, in order *)
Theorem C67_no_slacks : forall qp : oqp R, qp_wf qp -> (forall i, (i <= dN (q_dim qp))%nat -> dns (q_dim qp) i = 0%nat) -> slack_order qp (dN (q_dim qp)).
Proof.
  intros qp Hwf H0. apply CsplitProps.C51_soft_bounds. intros i Hi. destruct (Hwf i Hi) as (_ & W). specialize (H0 i Hi).
  assert (NS : forall j, (j < dnb (q_dim qp) i + dng (q_dim qp) i)%nat -> softened qp i j = false).
  { intros j Hj. destruct (W j Hj) as [E|(E1 & E2)]; unfold softened; [rewrite E; reflexivity|]. rewrite H0 in *. lia. }
  split; [|split].
  - rewrite H0. unfold n_sb. apply CsplitProps.nsum_0. intros j Hj. rewrite NS by lia. reflexivity.
  - intros j Hj E. rewrite NS in E by lia. discriminate.
  - intros l Hl. apply NS. lia.
Qed.
Theorem C67_soft_bounds : forall qp : oqp R, soft_bounds_in_order qp -> slack_order qp (dN (q_dim qp)).
Proof. exact CsplitProps.C51_soft_bounds. Qed.

(** *** a concrete case: horizon 2, softened input bounds, an active state bound, a KKT point with all multipliers of the dynamics nonzero *)
Definition cx_dims : dims := mkdims 2 (fun _ => 1%nat) (fun i => if (i =? 2)%nat then 0%nat else 1%nat) (fun _ => 1%nat) (fun _ => 0%nat) (fun i => if (i =? 2)%nat then 0%nat else 1%nat).
(** row i, column k of a table *)
Definition tab (l : list (list R)) (i k : nat) : R := List.nth k (List.nth i l nil) 0.
Definition cx_qp : oqp R := mkqp cx_dims (fun _ _ _ => 1) (fun _ r c => if (r =? c)%nat then 2 else 0) (fun _ _ _ => 0) (fun _ _ => 1)
  (tab ((1 :: -1 :: 1 :: 1:: nil)%list :: (0 :: -3 :: 1 :: 1:: nil)%list :: (1:: nil)%list :: nil)%list) (tab ((1 :: -5 :: 0 :: 0:: nil)%list :: (1 :: -5 :: 0 :: 0:: nil)%list :: (2 :: -5:: nil)%list :: nil)%list)
  (fun _ _ => 1) (fun _ _ => 0) (fun _ _ => 1) (fun _ _ => 0%nat) (fun i _ => if (i =? 2)%nat then (-1)%Z else 0%Z).
Definition cx_sol : osol R := mksol (tab ((0 :: 0 :: 1 :: 0:: nil)%list :: (0 :: 1 :: 1 :: 0:: nil)%list :: (2:: nil)%list :: nil)%list) (tab ((1:: nil)%list :: (2:: nil)%list :: nil)%list)
  (tab ((2 :: 0 :: 0 :: 1:: nil)%list :: (2 :: 0 :: 0 :: 1:: nil)%list :: (3 :: 0:: nil)%list :: nil)%list) (tab ((0 :: 5 :: 1 :: 0:: nil)%list :: (0 :: 5 :: 1 :: 0:: nil)%list :: (0 :: 3:: nil)%list :: nil)%list).
Definition cx_den : dqp R := mkdqp 3 0 2 1 2 (fun _ _ => 0) (fun _ _ => 0) (fun _ _ => 0) (fun _ => 0) (fun _ => 0) (fun _ => 0) (fun _ => 1) (fun _ => 0) (fun _ => 0) (fun _ => 0%nat) (fun _ => (-1)%Z).
Ltac cx_cases Hi := match type of Hi with (?i <= _)%nat => let E := fresh "E" in assert (E : i = 0%nat \/ i = 1%nat \/ i = 2%nat) by (cbn in Hi; lia); destruct E as [-> | [-> | ->]] end.
Lemma cx_order : soft_bounds_in_order cx_qp.
Proof.
  intros i Hi. cx_cases Hi; (split; [reflexivity|split; [|intros l Hl; cbn in Hl; lia]]); intros [|j] Hj Hs; cbn in Hj; first [lia|reflexivity|discriminate].
Qed.
Lemma cx_kkt : ocp_kkt_point cx_qp cx_sol /\ ocp_lam_masked cx_qp (s_lam cx_sol).
Proof.
  split; [|intros i c _ _; right; reflexivity]. split; [|split].
  - intros i k Hi Hk. cx_cases Hi; cbn in Hk; do 4 (destruct k as [|k]; [try (exfalso; lia); cbv -[Rplus Rmult Rminus Ropp IZR Rinv Rdiv]; lra|]); lia.
  - intros i j Hi Hj. assert (E : i = 0%nat \/ i = 1%nat) by (cbn in Hi; lia). destruct E as [-> | ->]; cbn in Hj; (destruct j as [|j]; [cbv -[Rplus Rmult Rminus Ropp IZR Rinv Rdiv]; lra|lia]).
  - intros i c Hi Hc. cx_cases Hi; cbn in Hc; do 4 (destruct c as [|c]; [try (exfalso; lia); cbv -[Rplus Rmult Rminus Ropp IZR Rinv Rdiv Rle]; repeat split; lra|]); lia.
Qed.
Theorem C67_hypotheses_met : cond_pre true (fun _ => true) cx_qp cx_den /\ slack_order cx_qp (dN (q_dim cx_qp)) /\ ocp_kkt_point cx_qp cx_sol /\ ocp_lam_masked cx_qp (s_lam cx_sol).
Proof.
  split; [|split; [apply C67_soft_bounds; exact cx_order|exact cx_kkt]]. split; [|split; [|split; [reflexivity|left; reflexivity]]].
  - intros i Hi. split; [intros j Hj; cx_cases Hi; cbn in *; lia|]. intros j Hj. cx_cases Hi; cbn in *; [right|right|left]; lia.
  - unfold dense_size. repeat split; reflexivity.
Qed.

(** *** slacks in another order (a softened bound in an early stage, a softened general constraint in a later one): the slacks are put in places
    different from those condensing and expansion use; a feasible point condenses to an infeasible one *)
Definition cso_sol : osol R := mksol (fun i k => if andb (i =? 0)%nat (k =? 2)%nat then 1 else 0) (fun _ _ => 0) (fun _ _ => 0) (fun _ _ => 0).
Definition cso_q : dqp R := fst (fst (fst (cond_qp true false (fun _ => true) CsplitProps.so_qp ex_den w0))).
Theorem C67_slack_order_refuted : cond_pre true (fun _ => true) CsplitProps.so_qp ex_den /\ feasible CsplitProps.so_qp (s_ux cso_sol) /\
  ~ den_feasible cso_q (ds_v (cond_sol true true true true CsplitProps.so_qp cso_sol (mkdsol (fun _ => 0) (fun _ => 0) (fun _ => 0) (fun _ => 0)))).
Proof.
  split; [|split].
  - split; [|split; [|split; [reflexivity|left; reflexivity]]].
    + intros i Hi. assert (E : i = 0%nat \/ i = 1%nat) by (cbn in Hi; lia). split.
      * intros j Hj. destruct E as [-> | ->]; cbn in *; lia.
      * intros j Hj. cbn. destruct (j =? 1)%nat; [right; lia|left; reflexivity].
    + unfold dense_size. repeat split; reflexivity.
  - split.
    + intros i j Hi Hj. assert (i = 0%nat) by (cbn in Hi; lia). subst i. cbn in Hj. destruct j as [|j]; [|lia]. cbv -[Rplus Rmult Rminus Ropp IZR Rinv Rdiv]. lra.
    + intros i c Hi Hc _. assert (E : i = 0%nat \/ i = 1%nat) by (cbn in Hi; lia). destruct E as [-> | ->]; cbn in Hc; do 6 (destruct c as [|c]; [try (exfalso; lia); cbv -[Rplus Rmult Rminus Ropp IZR Rinv Rdiv Rge Rle]; lra|]); lia.
  - intros (_ & F). assert (Ec : d_nct cso_q = 12%nat) by (vm_compute; reflexivity). specialize (F 1%nat ltac:(rewrite Ec; lia)). cbv -[Rplus Rmult Rminus Ropp IZR Rinv Rdiv Rge Rle] in F. specialize (F ltac:(lra)). lra.
Qed.
Print Assumptions C67_optimal.
Print Assumptions C67_expand_condensed.
Print Assumptions C67_condensed_expanded.
Print Assumptions C67_kkt_point.
Print Assumptions C67_slack_order_refuted.
