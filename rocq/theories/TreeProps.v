(** TreeProps.v -- C53: residuals, duality gap and optimality certificate of tree-structured OCP QPs.
    The specification (tree OCP QP as mathematics) is TreeSpec.v.  All statements are over the real numbers. *)
From Coq Require Import ZArith Bool Arith List Lia Reals Lra.
From Verif Require Import Base IntModel SctreeModel SctreeProps ArithF RSum Blas OcpModel TreeModel ResSpec TreeSpec ResProofs ResProofs2 ResProps TreeProofs.
Local Open Scope R_scope.

(** C53: TREE_OCP_QP_RES_COMPUTE.  Whatever was in the residual object and workspace before, on every tree and for every
    primal-dual point with zero multipliers on the masked constraints, every entry computed is the KKT residual. *)
Theorem C53_residuals (T : ttree) (qp : oqp R) (sol : osol R) valid res0 ws0 :
  qp_wf qp -> valid_ok valid qp -> mask01 qp -> tree_ok (dN (q_dim qp) + 1) T -> masked_zero qp (s_lam sol) ->
  let D := q_dim qp in let r := fst (tree_res_compute valid T qp sol res0 ws0) in
  (forall i k, (i <= dN D)%nat -> (k < nvt D i)%nat -> r_g r i k = tkkt_g T qp (s_ux sol) (s_pi sol) (s_lam sol) i k) /\
  (forall i jj j, (i <= dN D)%nat -> (jj < t_nk T i)%nat -> (j < dnx D (t_kid T i jj))%nat ->
     r_b r (t_kid T i jj - 1)%nat j = tdyn qp (s_ux sol) i (t_kid T i jj) j) /\
  (forall i c, (i <= dN D)%nat -> (c < nct D i)%nat -> r_d r i c = kkt_d qp (s_ux sol) (s_t sol) i c) /\
  (forall i c, (i <= dN D)%nat -> (c < nct D i)%nat -> r_m r i c = kkt_m qp (s_lam sol) (s_t sol) i c) /\
  r_obj r = cost qp (s_ux sol).
Proof.
  intros Hwf Hv Hm Ht Hz. cbv zeta. destruct (tree_res_compute_R T qp Hwf Ht sol valid res0 ws0 Hv) as (A & B & C & E & F & _).
  split; [|split; [|split; [|split]]]; try assumption.
  intros i k Hi Hk. rewrite A by assumption. unfold node_g. destruct (k <? nux qp i)%nat; [|lra]. rewrite rsum_0; [lra|].
  intros c Hc. destruct (Hm i c Hi Hc) as [E0|E0]; [rewrite (Hz i c Hi Hc E0)|rewrite E0]; lra.
Qed.
(** C53, for every point: the exact value of what the code reports as stationarity residual and as duality gap.  It deviates
    from the KKT residual by the multipliers of masked constraints (lines 516 and 563 read lam where the OCP QP code and
    TREE_OCP_QP_RES_COMPUTE_LIN read the masked copy). *)
Theorem C53_residuals_exact (T : ttree) (qp : oqp R) (sol : osol R) valid res0 ws0 :
  qp_wf qp -> valid_ok valid qp -> tree_ok (dN (q_dim qp) + 1) T ->
  let D := q_dim qp in let r := fst (tree_res_compute valid T qp sol res0 ws0) in
  let z := s_ux sol in let pi := s_pi sol in let lam := s_lam sol in
  (forall i k, (i <= dN D)%nat -> (k < nvt D i)%nat ->
     r_g r i k = tkkt_g T qp z pi lam i k - (if (k <? nux qp i)%nat then rsum (nct D i) (fun c => G qp i c k * ((1 - q_mask qp i c) * lam i c)) else 0)) /\
  r_gap r = cost qp z - (tlagr T qp z pi lam - rsum (dN D + 1) (fun i => rsum (nvt D i) (fun k => tkkt_g T qp z pi lam i k * z i k)))
     - rsum (dN D + 1) (fun i => rsum (nct D i) (fun c => q_d qp i c * ((1 - q_mask qp i c) * lam i c))).
Proof.
  intros Hwf Hv Ht. cbv zeta. destruct (tree_res_compute_R T qp Hwf Ht sol valid res0 ws0 Hv) as (A & _ & _ & _ & _ & E & _).
  split; [exact A|]. pose proof (tgap_identity T qp Ht (s_ux sol) (s_pi sol) (s_lam sol) (s_t sol)) as H. unfold dot2 in H.
  rewrite E. replace sol with (mksol (s_ux sol) (s_pi sol) (s_lam sol) (s_t sol)) at 1 by (destruct sol; reflexivity). lra.
Qed.

(** C53: on a tree, tkkt_g is the gradient of the Lagrangian: exact second-order expansion. *)
Theorem C53_stationarity_is_gradient (T : ttree) (qp : oqp R) z pi lam (y : nat -> nat -> R) : tree_ok (dN (q_dim qp) + 1) T ->
  let D := q_dim qp in
  tlagr T qp y pi lam = tlagr T qp z pi lam
    + rsum (dN D + 1) (fun i => rsum (nvt D i) (fun k => tkkt_g T qp z pi lam i k * (y i k - z i k)))
    + 1 / 2 * rsum (dN D + 1) (fun i => rsum (nvt D i) (fun k => rsum (nvt D i) (fun l => (y i k - z i k) * Hess qp i k l * (y i l - z i l)))).
Proof. intros Ht. exact (tlagr_expand T qp Ht z pi lam y). Qed.

(** C53: the linear residual (TREE_OCP_QP_RES_COMPUTE_LIN) has no such proviso. *)
Theorem C53_linear_residuals (T : ttree) (qp : oqp R) (sol stp : osol R) valid res0 ws0 : qp_wf qp -> tree_ok (dN (q_dim qp) + 1) T ->
  (match valid with None => True | Some mc => mc = true \/ masks_one (q_dim qp) (q_mask qp) end) ->
  let D := q_dim qp in let r := fst (treelin_compute valid T qp sol stp res0 ws0) in
  (forall i k, (i <= dN D)%nat -> (k < nvt D i)%nat -> r_g r i k = tkkt_g T qp (s_ux stp) (s_pi stp) (s_lam stp) i k) /\
  (forall i jj j, (i <= dN D)%nat -> (jj < t_nk T i)%nat -> (j < dnx D (t_kid T i jj))%nat ->
     r_b r (t_kid T i jj - 1)%nat j = tdyn qp (s_ux stp) i (t_kid T i jj) j) /\
  (forall i c, (i <= dN D)%nat -> (c < nct D i)%nat -> r_d r i c = kkt_d qp (s_ux stp) (s_t stp) i c) /\
  (forall i c, (i <= dN D)%nat -> (c < nct D i)%nat ->
     r_m r i c = q_mask qp i c * (q_m qp i c + s_lam sol i c * s_t stp i c + s_lam stp i c * s_t sol i c)).
Proof. intros Hwf Ht Hv. exact (treelin_compute_R T qp Hwf Ht sol stp valid res0 ws0 Hv). Qed.

(** C53: norms and complementarity measure. *)
Theorem C53_norms (D : dims) (res : ores R) : let '(a, b, c, e) := tree_inf_norm D res in
  max_abs (dN D + 1) (nvt D) (r_g res) a /\ max_abs (dN D) (fun i => dnx D (S i)) (r_b res) b /\
  max_abs (dN D + 1) (nct D) (r_d res) c /\ max_abs (dN D + 1) (nct D) (r_m res) e.
Proof. exact (tree_inf_norm_R D res). Qed.
Theorem C53_mu (T : ttree) (qp : oqp R) (sol : osol R) res0 ws0 : qp_wf qp -> mask01 qp -> tree_ok (dN (q_dim qp) + 1) T ->
  let D := q_dim qp in let r := fst (tree_res_compute None T qp sol res0 ws0) in
  let n_active := rsum (dN D + 1) (fun i => rsum (nct D i) (fun c => q_mask qp i c)) in
  r_mu r * n_active = rsum (dN D + 1) (fun i => rsum (nct D i) (fun c => Rabs (kkt_m qp (s_lam sol) (s_t sol) i c))) /\
  (n_active = 0 -> r_mu r = 0).
Proof.
  intros Hwf Hm Ht. cbv zeta. destruct (tree_res_compute_R T qp Hwf Ht sol None res0 ws0 I) as (_ & _ & _ & _ & _ & _ & E & F).
  destruct (res_compute_R qp sol Hwf None res0 ws0 I) as (_ & _ & _ & _ & _ & _ & E' & F'). specialize (F eq_refl). specialize (F' eq_refl). cbv zeta in F, F'.
  pose proof (C18_mu qp sol res0 ws0 Hwf Hm) as H. cbv zeta in H. rewrite F', E' in H. rewrite F, E. exact H.
Qed.

(** C53: the tree version of the certificate: the objective exceeds that of any feasible point by at most the reported gap plus
    ||res_g||_inf ||y||_1 *)
Theorem C53_suboptimality (T : ttree) (qp : oqp R) (sol : osol R) valid res0 ws0 (y : nat -> nat -> R) :
  qp_wf qp -> valid_ok valid qp -> mask01 qp -> psd qp -> tree_ok (dN (q_dim qp) + 1) T -> masked_zero qp (s_lam sol) ->
  (forall i c, (i <= dN (q_dim qp))%nat -> (c < nct (q_dim qp) i)%nat -> q_mask qp i c <> 0 -> 0 <= s_lam sol i c) ->
  tfeasible T qp y ->
  let D := q_dim qp in let r := fst (tree_res_compute valid T qp sol res0 ws0) in let '(ng, _, _, _) := tree_inf_norm D r in
  cost qp (s_ux sol) - cost qp y <= r_gap r + ng * rsum (dN D + 1) (fun i => rsum (nvt D i) (fun k => Rabs (y i k))).
Proof.
  intros Hwf Hv Hm Hpsd Ht Hz Hl Hf. cbv zeta.
  pose proof (C53_residuals T qp sol valid res0 ws0 Hwf Hv Hm Ht Hz) as (A & _). cbv zeta in A.
  pose proof (C53_residuals_exact T qp sol valid res0 ws0 Hwf Hv Ht) as (_ & Hg). cbv zeta in Hg.
  set (r := fst (tree_res_compute valid T qp sol res0 ws0)) in *. clearbody r.
  set (D := q_dim qp) in *.
  rewrite (rsum_0 (dN D + 1) (fun i => rsum (nct D i) _)) in Hg.
  2:{ intros i Hi. apply rsum_0. intros c Hc. destruct (Hm i c ltac:(unfold D in *; lia) Hc) as [E0|E0]; [rewrite (Hz i c ltac:(unfold D in *; lia) Hc E0)|rewrite E0]; lra. }
  pose proof (tlagr_le_cost T qp (s_pi sol) (s_lam sol) y Hf Hm Hl) as H1.
  pose proof (C53_stationarity_is_gradient T qp (s_ux sol) (s_pi sol) (s_lam sol) y Ht) as H2. cbv zeta in H2. fold D in H2.
  assert (H3 : 0 <= rsum (dN D + 1) (fun i => rsum (nvt D i) (fun k => rsum (nvt D i) (fun l => (y i k - s_ux sol i k) * Hess qp i k l * (y i l - s_ux sol i l))))).
  { apply rsum_nonneg. intros i Hi. apply (Hpsd i (fun k => y i k - s_ux sol i k)). unfold D in *; lia. }
  assert (H4 : rsum (dN D + 1) (fun i => rsum (nvt D i) (fun k => tkkt_g T qp (s_ux sol) (s_pi sol) (s_lam sol) i k * (y i k - s_ux sol i k))) =
    rsum (dN D + 1) (fun i => rsum (nvt D i) (fun k => tkkt_g T qp (s_ux sol) (s_pi sol) (s_lam sol) i k * y i k)) -
    rsum (dN D + 1) (fun i => rsum (nvt D i) (fun k => tkkt_g T qp (s_ux sol) (s_pi sol) (s_lam sol) i k * s_ux sol i k))).
  { rewrite <- rsum_sub. apply rsum_ext. intros i _. rewrite <- rsum_sub. apply rsum_ext. intros k _. lra. }
  pose proof (C53_norms D r) as Hn. destruct (tree_inf_norm D r) as [[[a b] c] e]. destruct Hn as ((Ha0 & Ha & _) & _).
  assert (H5 : - (a * rsum (dN D + 1) (fun i => rsum (nvt D i) (fun k => Rabs (y i k)))) <= rsum (dN D + 1) (fun i => rsum (nvt D i) (fun k => tkkt_g T qp (s_ux sol) (s_pi sol) (s_lam sol) i k * y i k))).
  { rewrite <- rsum_scal, <- rsum_opp. apply rsum_le. intros i Hi. rewrite <- rsum_scal, <- rsum_opp. apply rsum_le. intros k Hk.
    specialize (Ha i k Hi Hk). rewrite A in Ha by (try assumption; lia).
    assert (Hab : Rabs (tkkt_g T qp (s_ux sol) (s_pi sol) (s_lam sol) i k * y i k) <= a * Rabs (y i k)).
    { rewrite Rabs_mult. apply Rmult_le_compat_r; [apply Rabs_pos|exact Ha]. }
    pose proof (Rle_abs (- (tkkt_g T qp (s_ux sol) (s_pi sol) (s_lam sol) i k * y i k))). rewrite Rabs_Ropp in H. lra. }
  lra.
Qed.

(** C53: zero residuals (m = 0, lam and t nonnegative, convex nodes) certify a global minimum over the whole tree. *)
Theorem C53_zero_residuals_optimal (T : ttree) (qp : oqp R) (sol : osol R) valid res0 ws0 :
  qp_wf qp -> valid_ok valid qp -> mask01 qp -> psd qp -> tree_ok (dN (q_dim qp) + 1) T -> masked_zero qp (s_lam sol) ->
  let D := q_dim qp in let r := fst (tree_res_compute valid T qp sol res0 ws0) in
  (forall i c, (i <= dN D)%nat -> (c < nct D i)%nat -> q_mask qp i c <> 0 -> 0 <= s_lam sol i c /\ 0 <= s_t sol i c /\ q_m qp i c = 0) ->
  (forall i k, (i <= dN D)%nat -> (k < nvt D i)%nat -> r_g r i k = 0) ->
  (forall k j, (k < dN D)%nat -> (j < dnx D (S k))%nat -> r_b r k j = 0) ->
  (forall i c, (i <= dN D)%nat -> (c < nct D i)%nat -> r_d r i c = 0) ->
  (forall i c, (i <= dN D)%nat -> (c < nct D i)%nat -> r_m r i c = 0) ->
  tfeasible T qp (s_ux sol) /\ (forall y, tfeasible T qp y -> cost qp (s_ux sol) <= cost qp y) /\ r_gap r = 0.
Proof.
  intros Hwf Hv Hm Hpsd Ht Hz. cbv zeta. intros Hpos Hg Hb Hd Hmm.
  pose proof (C53_residuals T qp sol valid res0 ws0 Hwf Hv Hm Ht Hz) as (A & B & C & E & _). cbv zeta in A, B, C, E.
  pose proof (C53_residuals_exact T qp sol valid res0 ws0 Hwf Hv Ht) as (_ & Hgap). cbv zeta in Hgap.
  set (r := fst (tree_res_compute valid T qp sol res0 ws0)) in *. clearbody r. set (D := q_dim qp) in *.
  rewrite (rsum_0 (dN D + 1) (fun i => rsum (nct D i) (fun c => q_d qp i c * _))) in Hgap.
  2:{ intros i Hi. apply rsum_0. intros c Hc. destruct (Hm i c ltac:(unfold D in *; lia) Hc) as [E0|E0]; [rewrite (Hz i c ltac:(unfold D in *; lia) Hc E0)|rewrite E0]; lra. }
  assert (Hdyn : forall i jj j, (i <= dN D)%nat -> (jj < t_nk T i)%nat -> (j < dnx D (t_kid T i jj))%nat -> tdyn qp (s_ux sol) i (t_kid T i jj) j = 0).
  { intros i jj j Hi Hjj Hj. rewrite <- B by assumption. destruct (proj1 Ht i jj ltac:(lia) Hjj). apply Hb; [lia|].
    replace (S (t_kid T i jj - 1)) with (t_kid T i jj) by lia. exact Hj. }
  assert (Hcon : forall i c, (i <= dN D)%nat -> (c < nct D i)%nat -> q_mask qp i c <> 0 -> con qp (s_ux sol) i c - q_d qp i c = s_t sol i c /\ q_mask qp i c = 1).
  { intros i c Hi Hc Hne. specialize (C i c Hi Hc). rewrite Hd in C by assumption. unfold kkt_d in C. destruct (Hm i c Hi Hc) as [H|H]; [contradiction|]. rewrite H in C. split; [lra|exact H]. }
  assert (Hz0 : forall i, (i < dN D + 1)%nat -> rsum (nvt D i) (fun k => tkkt_g T qp (s_ux sol) (s_pi sol) (s_lam sol) i k * s_ux sol i k) = 0).
  { intros i Hi. apply rsum_0. intros k Hk. rewrite <- A, Hg by (try assumption; lia). lra. }
  assert (Hlag : tlagr T qp (s_ux sol) (s_pi sol) (s_lam sol) = cost qp (s_ux sol)).
  { unfold tlagr, edges. fold D. rewrite (rsum_0 (dN D + 1) (fun i => rsum (t_nk T i) _)).
    2:{ intros i Hi. apply rsum_0. intros jj Hjj. apply rsum_0. intros j Hj. rewrite Hdyn by (try assumption; lia). lra. }
    rewrite (rsum_0 (dN D + 1)); [lra|]. intros i Hi. apply rsum_0. intros c Hc.
    destruct (Hm i c ltac:(unfold D in *; lia) Hc) as [H|H]; [rewrite H; lra|].
    destruct (Hcon i c ltac:(lia) Hc ltac:(rewrite H; lra)) as [H1 _]. rewrite H1, H.
    specialize (E i c ltac:(lia) Hc). rewrite Hmm in E by (try assumption; lia). unfold kkt_m in E.
    destruct (Hpos i c ltac:(lia) Hc ltac:(rewrite H; lra)) as (_ & _ & H0). rewrite H, H0 in E. lra. }
  assert (Hfeas : tfeasible T qp (s_ux sol)).
  { split; [exact Hdyn|]. intros i c Hi Hc Hne. destruct (Hcon i c Hi Hc Hne). destruct (Hpos i c Hi Hc Hne) as (_ & H9 & _). lra. }
  split; [exact Hfeas|]. split.
  - intros y Hy. pose proof (tlagr_le_cost T qp (s_pi sol) (s_lam sol) y Hy Hm (fun i c Hi Hc Hn => proj1 (Hpos i c Hi Hc Hn))) as H1.
    pose proof (C53_stationarity_is_gradient T qp (s_ux sol) (s_pi sol) (s_lam sol) y Ht) as H2. cbv zeta in H2. fold D in H2.
    rewrite (rsum_0 (dN D + 1) (fun i => rsum (nvt D i) (fun k => tkkt_g _ _ _ _ _ i k * (y i k - s_ux sol i k)))) in H2.
    2:{ intros i Hi. apply rsum_0. intros k Hk. rewrite <- A, Hg by (try assumption; lia). lra. }
    assert (H3 : 0 <= rsum (dN D + 1) (fun i => rsum (nvt D i) (fun k => rsum (nvt D i) (fun l => (y i k - s_ux sol i k) * Hess qp i k l * (y i l - s_ux sol i l))))).
    { apply rsum_nonneg. intros i Hi. apply (Hpsd i (fun k => y i k - s_ux sol i k)). unfold D in *; lia. }
    lra.
  - rewrite Hgap, Hlag. rewrite (rsum_0 (dN D + 1)); [lra|exact Hz0].
Qed.

(** ** the trees of the scenario-tree constructor are trees *)
Definition sct_tree (s : ststate) : ttree :=
  mktree (fun i => Z.to_nat (n_nkids (bdat (st_root s) i))) (fun i jj => Z.to_nat (bdat (st_kids s) (Z.to_nat (n_kids (bdat (st_root s) i)) + jj)%nat)).
Theorem C53_scenario_trees (md Nr Nh : nat) (jn : nat -> node) (jk : nat -> Z) : (1 <= md)%nat -> (Nr <= Nh)%nat ->
  exists (Nn : nat) (s : ststate), sctree_create (Z.of_nat md) (Z.of_nat Nr) (Z.of_nat Nh) jn jk = Ok (Z.of_nat Nn, s) /\ tree_ok Nn (sct_tree s).
Proof.
  intros Hmd HN. destruct (C12_scenario_tree_wf md Nr Nh jn jk Hmd HN) as (Nn & s & E & _ & H). exists Nn, s. split; [exact E|].
  cbv zeta in H. destruct H as (H1 & H2 & H3 & H4). unfold sct_tree, tree_ok. cbn [t_nk t_kid].
  assert (K : forall i jj, (i < Nn)%nat -> (jj < Z.to_nat (n_nkids (bdat (st_root s) i)))%nat -> exists k : nat,
     (1 <= k < Nn)%nat /\ Z.to_nat (bdat (st_kids s) (Z.to_nat (n_kids (bdat (st_root s) i)) + jj)%nat) = k /\ n_dad (bdat (st_root s) k) = Z.of_nat i /\ n_idxkid (bdat (st_root s) k) = Z.of_nat jj).
  { intros i jj Hi Hj. destruct (H4 i jj Hi ltac:(lia)) as (k & A1 & A2 & _ & _ & A3 & A4 & A5). exists k. split; [lia|]. split; [rewrite A3; lia|]. split; assumption. }
  split; [|split].
  - intros i jj Hi Hj. destruct (K i jj Hi Hj) as (k & Hk & -> & Hd & _). split; [|lia].
    destruct (H3 k ltac:(lia) ltac:(lia)) as (d & ix & D1 & D2 & _). lia.
  - intros k Hk. destruct (H3 k ltac:(lia) ltac:(lia)) as (d & ix & D1 & D2 & _ & _ & D3 & D4 & _). exists d, ix.
    split; [lia|]. split; [lia|]. rewrite D4. lia.
  - intros i jj i' jj' Hi Hj Hi' Hj' Heq. destruct (K i jj Hi Hj) as (k & Hk & Ek & Hd & Hx). destruct (K i' jj' Hi' Hj') as (k' & Hk' & Ek' & Hd' & Hx').
    assert (Ekk : k' = k) by congruence. rewrite Ekk in Hd', Hx'. split; lia.
Qed.

(** ** a concrete case: root with two kids; minimise 1/2 u^2 + 1/2 x1^2 + 1/2 (x2)^2, x1 = u, x2 = 2u, u >= 1 (upper bound masked) *)
Definition txT : ttree := mktree (fun i => match i with 0%nat => 2%nat | _ => 0%nat end) (fun i jj => S jj).
Definition txD : dims := mkdims 2 (fun i => match i with 0%nat => 0%nat | _ => 1%nat end) (fun i => match i with 0%nat => 1%nat | _ => 0%nat end)
  (fun i => match i with 0%nat => 1%nat | _ => 0%nat end) (fun _ => 0%nat) (fun _ => 0%nat).
Definition txqp : oqp R := mkqp txD (fun e _ _ => match e with 0%nat => 1 | _ => 2 end) (fun _ _ _ => 1) (fun _ _ _ => 0) (fun _ _ => 0) (fun _ _ => 0)
  (fun _ c => match c with 0%nat => 1 | _ => 0 end) (fun _ c => match c with 0%nat => 1 | _ => 0 end) (fun _ _ => 0) (fun _ _ => 0) (fun _ _ => 0%nat) (fun _ _ => (-1)%Z).
Definition txsol (l : R) : osol R := mksol (fun i _ => match i with 2%nat => 2 | _ => 1 end) (fun e _ => match e with 0%nat => 1 | _ => 2 end)
  (fun _ c => match c with 0%nat => 6 | _ => l end) (fun _ _ => 0).
Lemma tx_tree : tree_ok 3 txT.
Proof.
  split; [|split].
  - intros i jj Hi Hj. destruct i; cbn in *; lia.
  - intros k Hk. exists 0%nat, (k - 1)%nat. cbn. lia.
  - intros i jj i' jj' Hi Hj Hi' Hj' E. destruct i, i'; cbn in *; lia.
Qed.
Lemma tx_wf : qp_wf txqp.
Proof. intros i Hi. split; cbn; intros j Hj; [|left; reflexivity]. destruct i as [|[|[|i]]]; cbn in *; lia. Qed.
Lemma tx_mask : mask01 txqp.
Proof. intros i c Hi Hc. cbn. destruct c; [right|left]; reflexivity. Qed.
Lemma tx_psd : psd txqp.
Proof.
  intros i v Hi. cbn in Hi. assert (Hc : i = 0%nat \/ i = 1%nat \/ i = 2%nat) by lia.
  destruct Hc as [-> | [-> | ->]]; cbn; pose proof (Rle_0_sqr (v 0%nat)) as H; unfold Rsqr in H; lra.
Qed.
Theorem C53_hypotheses_met (res0 : ores R) (ws0 : rws R) :
  qp_wf txqp /\ valid_ok None txqp /\ mask01 txqp /\ psd txqp /\ tree_ok (dN (q_dim txqp) + 1) txT /\ masked_zero txqp (s_lam (txsol 0)) /\ cost txqp (s_ux (txsol 0)) = 3 /\
  let D := q_dim txqp in let r := fst (tree_res_compute None txT txqp (txsol 0) res0 ws0) in
  (forall i c, (i <= dN D)%nat -> (c < nct D i)%nat -> q_mask txqp i c <> 0 -> 0 <= s_lam (txsol 0) i c /\ 0 <= s_t (txsol 0) i c /\ q_m txqp i c = 0) /\
  (forall i k, (i <= dN D)%nat -> (k < nvt D i)%nat -> r_g r i k = 0) /\
  (forall k j, (k < dN D)%nat -> (j < dnx D (S k))%nat -> r_b r k j = 0) /\
  (forall i c, (i <= dN D)%nat -> (c < nct D i)%nat -> r_d r i c = 0) /\
  (forall i c, (i <= dN D)%nat -> (c < nct D i)%nat -> r_m r i c = 0).
Proof.
  assert (Hz : masked_zero txqp (s_lam (txsol 0))).
  { intros i c Hi Hc. cbn. destruct c; [intros; lra|reflexivity]. }
  split; [exact tx_wf|]. split; [exact I|]. split; [exact tx_mask|]. split; [exact tx_psd|]. split; [exact tx_tree|]. split; [exact Hz|].
  split; [unfold cost; cbn; unfold stage_cost; cbn; lra|].
  pose proof (C53_residuals txT txqp (txsol 0) None res0 ws0 tx_wf I tx_mask tx_tree Hz) as (A & B & C & E & _). cbv zeta in *.
  split; [intros i c _ _ Hne; destruct c; cbn in *; [split; [lra|split; [lra|reflexivity]]|lra]|]. split; [|split; [|split]].
  - intros i k Hi Hk. rewrite A by assumption. cbn in Hi. destruct i as [|[|[|i]]]; [| | |lia]; cbn in Hk; assert (k = 0%nat) by lia; subst k; unfold tkkt_g; cbn; lra.
  - intros k j Hk Hj. cbn in Hk. specialize (B 0%nat k j ltac:(cbn; lia) ltac:(cbn; lia)). cbn [t_kid txT] in B. replace (S k - 1)%nat with k in B by lia.
    rewrite B by assumption. destruct k as [|[|k]]; [| |lia]; unfold tdyn; cbn; lra.
  - intros i c Hi Hc. rewrite C by assumption. cbn in Hi. destruct i as [|[|[|i]]]; [| | |lia]; cbn in Hc; try lia. destruct c as [|[|c]]; [| |lia]; unfold kkt_d; cbn; unfold con; cbn; lra.
  - intros i c Hi Hc. rewrite E by assumption. cbn in Hi. destruct i as [|[|[|i]]]; [| | |lia]; cbn in Hc; try lia. destruct c as [|[|c]]; [| |lia]; unfold kkt_m; cbn; lra.
Qed.

(** C53 is false without the proviso on masked multipliers: at the same optimal point with the multiplier 5 on the masked upper
    bound (which the problem does not have), the tree code reports a stationarity residual of 5, its own linear version and the
    OCP QP version report none. *)
Theorem C53_masked_multiplier_refuted (res0 : ores R) (ws0 : rws R) :
  tkkt_g txT txqp (s_ux (txsol 5)) (s_pi (txsol 5)) (s_lam (txsol 5)) 0 0 = 0 /\
  r_g (fst (tree_res_compute None txT txqp (txsol 5) res0 ws0)) 0%nat 0%nat = 5 /\
  r_g (fst (treelin_compute None txT txqp (txsol 5) (txsol 5) res0 ws0)) 0%nat 0%nat = 0.
Proof.
  assert (E : tkkt_g txT txqp (s_ux (txsol 5)) (s_pi (txsol 5)) (s_lam (txsol 5)) 0 0 = 0) by (unfold tkkt_g; cbn; lra).
  split; [exact E|]. split.
  - pose proof (C53_residuals_exact txT txqp (txsol 5) None res0 ws0 tx_wf I tx_tree) as (A & _). cbv zeta in A.
    rewrite A by (cbn; lia). rewrite E. cbn. lra.
  - pose proof (C53_linear_residuals txT txqp (txsol 5) (txsol 5) None res0 ws0 tx_wf tx_tree I) as (A & _). cbv zeta in A.
    rewrite A by (cbn; lia). exact E.
Qed.

Print Assumptions C53_residuals.
Print Assumptions C53_residuals_exact.
Print Assumptions C53_linear_residuals.
Print Assumptions C53_mu.
Print Assumptions C53_suboptimality.
Print Assumptions C53_zero_residuals_optimal.
Print Assumptions C53_scenario_trees.
Print Assumptions C53_masked_multiplier_refuted.
