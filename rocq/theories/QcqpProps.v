(** QcqpProps.v -- C59: residuals, objective, duality gap and optimality certificate of the OCP QCQP residual routine.
    The specification (the QCQP as mathematics) is QcqpSpec.v.  Exact arithmetic. *)
From Coq Require Import ZArith Bool Arith Lia Reals Lra.
From Verif Require Import Base ArithF RSum Blas OcpModel ResSpec ResProofs ResProofs2 ResProps QcqpModel QcqpSpec QcqpProofs QcqpProofs2 QcqpProofs3.
Local Open Scope R_scope.

(** C59: whatever the residual object and workspace held before, every entry is the KKT residual of the QCQP; the lower sides of the
    quadratic constraints carry no multiplier.  [cache_ok]: the constraint values and adjoints cached by the IPM, if used, are those of
    the point; without cache (None) it is trivially true. *)
Theorem C59_residuals cache (qc : oqcqp R) (sol : osol R) valid res0 ws0 : qc_wf qc -> cache_ok cache qc (s_ux sol) (s_lam sol) -> qvalid_ok valid qc ->
  let D := c_dim qc in let r := fst (qcres_compute cache valid qc sol res0 ws0) in
  (forall i k, (i <= dN D)%nat -> (k < cnv qc i)%nat -> r_g r i k = qkkt_g qc (s_ux sol) (s_pi sol) (s_lam sol) i k) /\
  (forall i j, (i < dN D)%nat -> (j < dnx D (S i))%nat -> r_b r i j = qdyn qc (s_ux sol) i j) /\
  (forall i c, (i <= dN D)%nat -> (c < cnc qc i)%nat -> r_d r i c = qkkt_d qc (s_ux sol) (s_t sol) i c) /\
  (forall i c, (i <= dN D)%nat -> (c < cnc qc i)%nat -> r_m r i c = qkkt_m qc (s_lam sol) (s_t sol) i c) /\
  r_obj r = qcost qc (s_ux sol).
Proof. intros Hwf Hc Hv. destruct (qcres_compute_R cache qc sol Hwf Hc valid res0 ws0 Hv) as (A & B & C & E & O & _). repeat split; assumption. Qed.

(** C59: qkkt_g is the gradient of the Lagrangian: exact second-order expansion in every direction, quadratic constraints included. *)
Theorem C59_stationarity_is_gradient (qc : oqcqp R) z pi lam (y : nat -> nat -> R) : qc_wf qc ->
  let D := c_dim qc in
  qlagr qc y pi lam = qlagr qc z pi lam
    + rsum (dN D + 1) (fun i => rsum (cnv qc i) (fun k => qkkt_g qc z pi lam i k * (y i k - z i k)))
    + 1 / 2 * rsum (dN D + 1) (fun i => rsum (cnv qc i) (fun k => rsum (cnv qc i) (fun l => (y i k - z i k) * qlHess qc lam i k l * (y i l - z i l)))).
Proof. intros Hwf. exact (qlagr_expand qc z pi lam y Hwf). Qed.

(** C59: the complementarity measure: the sum over the active sides of lam*t, divided by the number of unmasked entries. *)
Theorem C59_mu cache (qc : oqcqp R) (sol : osol R) res0 ws0 : qc_wf qc -> cache_ok cache qc (s_ux sol) (s_lam sol) -> qmask01 qc ->
  let D := c_dim qc in let r := fst (qcres_compute cache None qc sol res0 ws0) in
  let n := rsum (dN D + 1) (fun i => rsum (cnc qc i) (fun c => c_mask qc i c)) in
  r_mu r * n = rsum (dN D + 1) (fun i => rsum (cnc qc i) (fun c => act qc i c * s_lam sol i c * s_t sol i c)) /\ (n = 0 -> r_mu r = 0).
Proof.
  intros Hwf Hc Hm. cbv zeta. destruct (qcres_compute_R cache qc sol Hwf Hc None res0 ws0 I) as (_ & _ & _ & _ & _ & _ & E & F).
  specialize (F eq_refl). cbv zeta in F. set (r := fst _) in *. set (D := c_dim qc) in *.
  assert (En : rsum (dN D + 1) (fun i => rsum (cnc qc i) (fun c => c_mask qc i c)) = INR (nsum (dN D + 1) (fun i => nsum (cnc qc i) (fun c => is1 (c_mask qc i c))))).
  { assert (Hs : forall n f, INR (nsum n f) = rsum n (fun k => INR (f k))).
    { intros n f. induction n as [|n IH]; cbn [nsum rsum]; [reflexivity|]. rewrite plus_INR, IH. reflexivity. }
    rewrite Hs. apply rsum_ext. intros i Hi. rewrite Hs. apply rsum_ext. intros c Hc'. unfold is1.
    destruct (Hm i c ltac:(unfold D in *; lia) Hc') as [H|H]; rewrite H; destruct (Reqb_spec 0 1), (Reqb_spec 1 1); try lra; reflexivity. }
  rewrite En, F. destruct (Nat.eqb_spec (nsum (dN D + 1) (fun i => nsum (cnc qc i) (fun c => is1 (c_mask qc i c)))) 0) as [E0|E0].
  - split; [|reflexivity]. rewrite E0. cbn [INR]. symmetry. rewrite Rmult_0_l. apply rsum_0. intros i Hi. apply rsum_0. intros c Hc'.
    unfold act. destruct (lowerq qc i c); [lra|]. destruct (Hm i c ltac:(unfold D in *; lia) Hc') as [H|H]; [rewrite H; lra|].
    exfalso. assert (Hle : (nsum (cnc qc i) (fun c => is1 (c_mask qc i c)) <= 0)%nat).
    { rewrite <- E0. transitivity (nsum (S i) (fun i => nsum (cnc qc i) (fun c => is1 (c_mask qc i c)))); [cbn [nsum]; lia|apply nsum_mono; lia]. }
    assert (Hl2 : (is1 (c_mask qc i c) <= 0)%nat).
    { etransitivity; [|exact Hle]. transitivity (nsum (S c) (fun c => is1 (c_mask qc i c))); [cbn [nsum]; lia|apply nsum_mono; lia]. }
    unfold is1 in Hl2. rewrite H in Hl2. destruct (Reqb_spec 1 1); [lia|lra].
  - split.
    + rewrite E. unfold qmu_stage, Rdiv. rewrite Rmult_assoc, Rinv_l; [rewrite Rmult_1_r; reflexivity|]. apply not_0_INR. exact E0.
    + intros H. change 0 with (INR 0) in H. apply INR_eq in H. contradiction.
Qed.
(** C59: the four norms reported are the maxima of the absolute values. *)
Theorem C59_norms (qc : oqcqp R) (res : ores R) : let D := c_dim qc in let '(a, b, c, e) := qcres_inf_norm D (c_nq qc) res in
  max_abs (dN D + 1) (cnv qc) (r_g res) a /\ max_abs (dN D) (fun i => dnx D (S i)) (r_b res) b /\
  max_abs (dN D + 1) (cnc qc) (r_d res) c /\ max_abs (dN D + 1) (cnc qc) (r_m res) e.
Proof.
  cbv zeta. unfold qcres_inf_norm. pose proof (res_inf_norm_R (qp_dims (c_dim qc) (c_nq qc)) res) as H.
  destruct (res_inf_norm _ _) as [[[a b] c] e]. destruct H as (H1 & H2 & (H3 & H3' & H3'') & (H4 & H4' & H4'')).
  assert (Ec : forall x i, (x < cnc qc i)%nat <-> (x < nct (qp_dims (c_dim qc) (c_nq qc)) i)%nat) by (intros; rewrite cnc_eq; reflexivity).
  repeat split; try assumption; try apply H1; try apply H2.
  - intros i j Hi Hj. apply H3'; [exact Hi|apply Ec; exact Hj].
  - destruct H3'' as [H|(i & j & A & B & C)]; [left; exact H|right; exists i, j; split; [exact A|split; [apply Ec; exact B|exact C]]].
  - intros i j Hi Hj. apply H4'; [exact Hi|apply Ec; exact Hj].
  - destruct H4'' as [H|(i & j & A & B & C)]; [left; exact H|right; exists i, j; split; [exact A|split; [apply Ec; exact B|exact C]]].
Qed.

(** C59: the reported gap is the objective minus (Lagrangian - gradient . z): the dual value of the problem linearised at the point. *)
Theorem C59_gap_identity cache (qc : oqcqp R) (sol : osol R) valid res0 ws0 : qc_wf qc -> cache_ok cache qc (s_ux sol) (s_lam sol) -> qvalid_ok valid qc ->
  let D := c_dim qc in let r := fst (qcres_compute cache valid qc sol res0 ws0) in
  let z := s_ux sol in let pi := s_pi sol in let lam := s_lam sol in
  r_gap r = qcost qc z - (qlagr qc z pi lam - rsum (dN D + 1) (fun i => rsum (cnv qc i) (fun k => qkkt_g qc z pi lam i k * z i k))).
Proof.
  intros Hwf Hc Hv. cbv zeta. destruct (qcres_compute_R cache qc sol Hwf Hc valid res0 ws0 Hv) as (_ & _ & _ & _ & _ & E & _).
  rewrite E. pose proof (qgap_identity qc sol Hwf). lra.
Qed.

(** C59: convex cost, convex quadratic constraints, nonnegative multipliers: objective - gap + res_g . y is a lower bound on the cost of
    every feasible y. *)
Theorem C59_lower_bound cache (qc : oqcqp R) (sol : osol R) valid res0 ws0 (y : nat -> nat -> R) :
  qc_wf qc -> cache_ok cache qc (s_ux sol) (s_lam sol) -> qvalid_ok valid qc -> qmask01 qc -> qpsd qc -> qcon_psd qc ->
  (forall i c, (i <= dN (c_dim qc))%nat -> (c < cnc qc i)%nat -> act qc i c <> 0 -> 0 <= s_lam sol i c) ->
  qfeasible qc y ->
  let D := c_dim qc in let r := fst (qcres_compute cache valid qc sol res0 ws0) in
  r_obj r - r_gap r + rsum (dN D + 1) (fun i => rsum (cnv qc i) (fun k => r_g r i k * y i k)) <= qcost qc y.
Proof.
  intros Hwf Hc Hv Hm Hpsd Hcp Hl Hf. cbv zeta.
  pose proof (C59_residuals cache qc sol valid res0 ws0 Hwf Hc Hv) as (A & _ & _ & _ & O). cbv zeta in A, O.
  rewrite O. rewrite C59_gap_identity by assumption. set (D := c_dim qc) in *.
  rewrite (rsum_ext (dN D + 1) (fun i => rsum (cnv qc i) (fun k => r_g (fst (qcres_compute cache valid qc sol res0 ws0)) i k * y i k))
    (fun i => rsum (cnv qc i) (fun k => qkkt_g qc (s_ux sol) (s_pi sol) (s_lam sol) i k * y i k))).
  2:{ intros i Hi. apply rsum_ext. intros k Hk. rewrite A by (try assumption; lia). reflexivity. }
  assert (Hl' : forall i c, (i <= dN D)%nat -> (c < cnc qc i)%nat -> 0 <= act qc i c * s_lam sol i c).
  { intros i c Hi Hc'. destruct (Req_dec (act qc i c) 0) as [E|E]; [rewrite E; lra|]. specialize (Hl i c Hi Hc' E).
    apply Rmult_le_pos; [|exact Hl]. unfold act in *. destruct (lowerq qc i c); [lra|]. destruct (Hm i c Hi Hc') as [H|H]; lra. }
  pose proof (qlagr_le_cost qc sol y Hf Hl') as H1.
  pose proof (C59_stationarity_is_gradient qc (s_ux sol) (s_pi sol) (s_lam sol) y Hwf) as H2. cbv zeta in H2. fold D in H2.
  assert (H3 : 0 <= rsum (dN D + 1) (fun i => rsum (cnv qc i) (fun k => rsum (cnv qc i) (fun l => (y i k - s_ux sol i k) * qlHess qc (s_lam sol) i k l * (y i l - s_ux sol i l))))).
  { apply rsum_nonneg. intros i Hi. apply (qlHess_psd qc sol i (fun k => y i k - s_ux sol i k) Hpsd Hcp); [unfold D in *; lia|]. intros c Hc'. apply Hl'; [lia|exact Hc']. }
  assert (H4 : rsum (dN D + 1) (fun i => rsum (cnv qc i) (fun k => qkkt_g qc (s_ux sol) (s_pi sol) (s_lam sol) i k * (y i k - s_ux sol i k))) =
    rsum (dN D + 1) (fun i => rsum (cnv qc i) (fun k => qkkt_g qc (s_ux sol) (s_pi sol) (s_lam sol) i k * y i k)) -
    rsum (dN D + 1) (fun i => rsum (cnv qc i) (fun k => qkkt_g qc (s_ux sol) (s_pi sol) (s_lam sol) i k * s_ux sol i k))).
  { rewrite <- rsum_sub. apply rsum_ext. intros i _. rewrite <- rsum_sub. apply rsum_ext. intros k _. lra. }
  lra.
Qed.

(** C59: at zero stationarity, dynamics and constraint residuals the gap is the complementarity sum. *)
Theorem C59_gap_is_complementarity cache (qc : oqcqp R) (sol : osol R) valid res0 ws0 : qc_wf qc -> cache_ok cache qc (s_ux sol) (s_lam sol) -> qvalid_ok valid qc -> qmask01 qc ->
  let D := c_dim qc in let r := fst (qcres_compute cache valid qc sol res0 ws0) in
  (forall i k, (i <= dN D)%nat -> (k < cnv qc i)%nat -> r_g r i k = 0) ->
  (forall i j, (i < dN D)%nat -> (j < dnx D (S i))%nat -> r_b r i j = 0) ->
  (forall i c, (i <= dN D)%nat -> (c < cnc qc i)%nat -> act qc i c <> 0 -> r_d r i c = 0) ->
  r_gap r = rsum (dN D + 1) (fun i => rsum (cnc qc i) (fun c => act qc i c * s_lam sol i c * s_t sol i c)).
Proof.
  intros Hwf Hca Hv Hm. cbv zeta. intros Hg Hb Hd. rewrite C59_gap_identity by assumption. cbv zeta.
  pose proof (C59_residuals cache qc sol valid res0 ws0 Hwf Hca Hv) as (A & B & C & _). cbv zeta in A, B, C. set (D := c_dim qc) in *.
  unfold qlagr. fold D.
  rewrite (rsum_0 (dN D + 1) (fun i => rsum (cnv qc i) _)).
  2:{ intros i Hi. apply rsum_0. intros k Hk. rewrite <- A, Hg by (try assumption; lia). lra. }
  rewrite (rsum_0 (dN D)).
  2:{ intros i Hi. apply rsum_0. intros j Hj. rewrite <- B, Hb by assumption. lra. }
  assert (E : rsum (dN D + 1) (fun i => rsum (cnc qc i) (fun c => act qc i c * s_lam sol i c * (qcon qc (s_ux sol) i c - c_d qc i c))) =
    rsum (dN D + 1) (fun i => rsum (cnc qc i) (fun c => act qc i c * s_lam sol i c * s_t sol i c))).
  { apply rsum_ext. intros i Hi. apply rsum_ext. intros c Hc. destruct (Req_dec (act qc i c) 0) as [E|E]; [rewrite E; lra|].
    specialize (C i c ltac:(lia) Hc). rewrite Hd in C by (try assumption; lia). unfold qkkt_d in C.
    assert (c_mask qc i c = 1). { unfold act in E. destruct (lowerq qc i c); [lra|]. destruct (Hm i c ltac:(unfold D in *; lia) Hc) as [H|H]; [contradiction|exact H]. }
    rewrite H in C. replace (qcon qc (s_ux sol) i c - c_d qc i c) with (s_t sol i c) by lra. lra. }
  rewrite E. lra.
Qed.

(** C59: zero residuals (m = 0, nonnegative lam, t) at a point of a convex QCQP certify a global minimum.  Nothing is asked of the lower sides
    of the quadratic constraints. *)
Theorem C59_zero_residuals_optimal cache (qc : oqcqp R) (sol : osol R) valid res0 ws0 :
  qc_wf qc -> cache_ok cache qc (s_ux sol) (s_lam sol) -> qvalid_ok valid qc -> qmask01 qc -> qpsd qc -> qcon_psd qc ->
  let D := c_dim qc in let r := fst (qcres_compute cache valid qc sol res0 ws0) in
  (forall i c, (i <= dN D)%nat -> (c < cnc qc i)%nat -> act qc i c <> 0 -> 0 <= s_lam sol i c /\ 0 <= s_t sol i c /\ c_m qc i c = 0) ->
  (forall i k, (i <= dN D)%nat -> (k < cnv qc i)%nat -> r_g r i k = 0) ->
  (forall i j, (i < dN D)%nat -> (j < dnx D (S i))%nat -> r_b r i j = 0) ->
  (forall i c, (i <= dN D)%nat -> (c < cnc qc i)%nat -> act qc i c <> 0 -> r_d r i c = 0 /\ r_m r i c = 0) ->
  qfeasible qc (s_ux sol) /\ forall y, qfeasible qc y -> qcost qc (s_ux sol) <= qcost qc y.
Proof.
  intros Hwf Hca Hv Hm Hpsd Hcp. cbv zeta. intros Hpos Hg Hb Hdm.
  pose proof (C59_residuals cache qc sol valid res0 ws0 Hwf Hca Hv) as (A & B & C & E & O). cbv zeta in A, B, C, E, O. set (D := c_dim qc) in *.
  assert (Hm1 : forall i c, (i <= dN D)%nat -> (c < cnc qc i)%nat -> act qc i c <> 0 -> c_mask qc i c = 1).
  { intros i c Hi Hc Hn. unfold act in Hn. destruct (lowerq qc i c); [lra|]. destruct (Hm i c Hi Hc) as [H|H]; [contradiction|exact H]. }
  assert (Ha1 : forall i c, (i <= dN D)%nat -> (c < cnc qc i)%nat -> act qc i c <> 0 -> act qc i c = 1).
  { intros i c Hi Hc Hn. pose proof (Hm1 i c Hi Hc Hn) as H. unfold act in *. destruct (lowerq qc i c); [lra|exact H]. }
  split.
  - split.
    + intros i j Hi Hj. rewrite <- B by assumption. apply Hb; assumption.
    + intros i c Hi Hc Hne. fold D in Hi. specialize (C i c Hi Hc). destruct (Hdm i c Hi Hc Hne) as [Hd _]. rewrite Hd in C. unfold qkkt_d in C.
      destruct (Hpos i c Hi Hc Hne) as (_ & Ht & _). rewrite (Hm1 i c Hi Hc Hne) in C. lra.
  - intros y Hy.
    pose proof (C59_lower_bound cache qc sol valid res0 ws0 y Hwf Hca Hv Hm Hpsd Hcp (fun i c Hi Hc Hn => proj1 (Hpos i c Hi Hc Hn)) Hy) as H1. cbv zeta in H1. fold D in H1.
    rewrite (rsum_0 (dN D + 1)) in H1. 2:{ intros i Hi. apply rsum_0. intros k Hk. rewrite Hg by (try assumption; lia). lra. }
    pose proof (C59_gap_is_complementarity cache qc sol valid res0 ws0 Hwf Hca Hv Hm Hg Hb (fun i c Hi Hc Hn => proj1 (Hdm i c Hi Hc Hn))) as H2. fold D in H2.
    rewrite (rsum_0 (dN D + 1)) in H2.
    2:{ intros i Hi. apply rsum_0. intros c Hc. destruct (Req_dec (act qc i c) 0) as [E0|Hn]; [rewrite E0; lra|].
        specialize (E i c ltac:(lia) Hc). destruct (Hdm i c ltac:(lia) Hc Hn) as [_ Hz0]. rewrite Hz0 in E. unfold qkkt_m in E.
        destruct (Hpos i c ltac:(lia) Hc Hn) as (_ & _ & Hz). rewrite (Hm1 i c ltac:(lia) Hc Hn), Hz in E. lra. }
    rewrite O in H1. lra.
Qed.

(** C59, with tolerances. *)
Theorem C59_suboptimality cache (qc : oqcqp R) (sol : osol R) valid res0 ws0 (y : nat -> nat -> R) :
  qc_wf qc -> cache_ok cache qc (s_ux sol) (s_lam sol) -> qvalid_ok valid qc -> qmask01 qc -> qpsd qc -> qcon_psd qc ->
  (forall i c, (i <= dN (c_dim qc))%nat -> (c < cnc qc i)%nat -> act qc i c <> 0 -> 0 <= s_lam sol i c) ->
  qfeasible qc y ->
  let D := c_dim qc in let r := fst (qcres_compute cache valid qc sol res0 ws0) in let '(ng, _, _, _) := qcres_inf_norm D (c_nq qc) r in
  qcost qc (s_ux sol) - qcost qc y <= r_gap r + ng * rsum (dN D + 1) (fun i => rsum (cnv qc i) (fun k => Rabs (y i k))).
Proof.
  intros Hwf Hca Hv Hm Hpsd Hcp Hl Hf. cbv zeta.
  pose proof (C59_lower_bound cache qc sol valid res0 ws0 y Hwf Hca Hv Hm Hpsd Hcp Hl Hf) as H1. cbv zeta in H1.
  destruct (C59_residuals cache qc sol valid res0 ws0 Hwf Hca Hv) as (_ & _ & _ & _ & O). cbv zeta in O. rewrite O in H1.
  set (r := fst (qcres_compute cache valid qc sol res0 ws0)) in *.
  pose proof (C59_norms qc r) as Hn. cbv zeta in Hn. destruct (qcres_inf_norm _ _ r) as [[[a b] c] e]. destruct Hn as ((Ha0 & Ha & _) & _).
  set (D := c_dim qc) in *.
  assert (H2 : - (a * rsum (dN D + 1) (fun i => rsum (cnv qc i) (fun k => Rabs (y i k)))) <= rsum (dN D + 1) (fun i => rsum (cnv qc i) (fun k => r_g r i k * y i k))).
  { rewrite <- rsum_scal, <- rsum_opp. apply rsum_le. intros i Hi. rewrite <- rsum_scal, <- rsum_opp. apply rsum_le. intros k Hk.
    specialize (Ha i k Hi Hk). assert (Hab : Rabs (r_g r i k * y i k) <= a * Rabs (y i k)).
    { rewrite Rabs_mult. apply Rmult_le_compat_r; [apply Rabs_pos|exact Ha]. }
    pose proof (Rle_abs (- (r_g r i k * y i k))). rewrite Rabs_Ropp in H. lra. }
  lra.
Qed.

(** A concrete case, one stage: min u  s.t.  u^2/2 <= 1/2, at its optimum u = -1 with multiplier 1 (lower side: the code masks it, here it
    even carries junk, mask 1, multiplier 7, slack 1). *)
Definition xq_D : dims := mkdims 0 (fun _ => 0%nat) (fun _ => 1%nat) (fun _ => 0%nat) (fun _ => 0%nat) (fun _ => 0%nat).
Definition xqc : oqcqp R := mkqc xq_D (fun _ => 1%nat) (fun _ _ _ => 0) (fun _ _ _ => 0) (fun _ _ _ => 0) (fun _ _ _ _ => 1) (fun _ _ => 0) (fun _ _ => 1)
  (fun _ c => match c with 1%nat => - / 2 | _ => 0 end) (fun _ _ => 1) (fun _ _ => 0) (fun _ _ => 0) (fun _ _ => 0%nat) (fun _ _ => (-1)%Z).
Definition xqs : osol R := mksol (fun _ _ => -1) (fun _ _ => 0) (fun _ c => match c with 1%nat => 1 | _ => 7 end) (fun _ c => match c with 1%nat => 0 | _ => 1 end).
Lemma xq_wf : qc_wf xqc.
Proof. intros i Hi. split; intros j Hj; [cbn in Hj; lia|left; reflexivity]. Qed.
Lemma xq_01 : qmask01 xqc.
Proof. intros i c _ _. right. reflexivity. Qed.
Lemma xq_psd : qpsd xqc.
Proof. intros i v _. cbn. unfold qHess, H_co. cbn. lra. Qed.
Lemma xq_cpsd : qcon_psd xqc.
Proof. intros i j v _ _ _. cbn. unfold Hsym. cbn. pose proof (Rle_0_sqr (v 0%nat)) as H. unfold Rsqr in H. lra. Qed.
Example C59_hypotheses_met (res0 : ores R) ws0 :
  qc_wf xqc /\ cache_ok None xqc (s_ux xqs) (s_lam xqs) /\ qvalid_ok None xqc /\ qmask01 xqc /\ qpsd xqc /\ qcon_psd xqc /\ qcost xqc (s_ux xqs) = -1 /\
  let D := c_dim xqc in let r := fst (qcres_compute None None xqc xqs res0 ws0) in
  (forall i c, (i <= dN D)%nat -> (c < cnc xqc i)%nat -> act xqc i c <> 0 -> 0 <= s_lam xqs i c /\ 0 <= s_t xqs i c /\ c_m xqc i c = 0) /\
  (forall i k, (i <= dN D)%nat -> (k < cnv xqc i)%nat -> r_g r i k = 0) /\
  (forall i j, (i < dN D)%nat -> (j < dnx D (S i))%nat -> r_b r i j = 0) /\
  (forall i c, (i <= dN D)%nat -> (c < cnc xqc i)%nat -> act xqc i c <> 0 -> r_d r i c = 0 /\ r_m r i c = 0).
Proof.
  split; [exact xq_wf|]. split; [exact I|]. split; [exact I|]. split; [exact xq_01|]. split; [exact xq_psd|]. split; [exact xq_cpsd|].
  split; [unfold qcost; cbn; unfold qHess, H_co; cbn; lra|].
  pose proof (C59_residuals None xqc xqs None res0 ws0 xq_wf I I) as (A & B & C & E & _). cbv zeta in *.
  split; [intros i [|[|c]] _ _ _; cbn; repeat split; lra|]. split; [|split].
  - intros i k Hi Hk. rewrite A by assumption. cbn in Hi. assert (i = 0%nat) by lia; subst i. cbn in Hk. assert (k = 0%nat) by lia; subst k.
    unfold qkkt_g, qHess, H_co, dqcon, dtwo, qgrad, act, lowerq, Hsym. cbn. lra.
  - intros i j Hi. cbn in Hi. lia.
  - intros i c Hi Hc Hn. rewrite C, E by assumption. cbn in Hi. assert (i = 0%nat) by lia; subst i. cbn in Hc.
    destruct c as [|[|c]]; [|split|lia]; [unfold act, lowerq in Hn; cbn in Hn; lra| |].
    + unfold qkkt_d, qcon, two, qfun, slk, Hsym. cbn. lra.
    + unfold qkkt_m, act, lowerq. cbn. lra.
Qed.
(** C59, the reported complementarity measure with the masks that OCP_QCQP_CREATE sets (all 1): the averages count the lower sides of the quadratic
    constraints although these contribute nothing, so the value is half of the mean lam*t of the constraint imposed.  (Only OCP_QCQP_IPM_SOLVE
    masks them.) *)
Theorem C59_mu_counts_lower_refuted : exists (qc : oqcqp R) (sol : osol R), qc_wf qc /\ qmask01 qc /\
  (forall i c, (c < cnc qc i)%nat -> act qc i c <> 0 -> s_lam sol i c * s_t sol i c = 1) /\ (exists c, (c < cnc qc 0)%nat /\ act qc 0 c <> 0) /\
  forall res0 ws0, r_mu (fst (qcres_compute None None qc sol res0 ws0)) = 1 / 2.
Proof.
  exists xqc, (mksol (fun _ _ => 0) (fun _ _ => 0) (fun _ _ => 1) (fun _ _ => 1)). split; [exact xq_wf|]. split; [exact xq_01|].
  split; [intros; cbn; lra|]. split; [exists 1%nat; split; [cbn; lia|unfold act, lowerq; cbn; lra]|]. intros res0 ws0.
  destruct (C59_mu None xqc (mksol (fun _ _ => 0) (fun _ _ => 0) (fun _ _ => 1) (fun _ _ => 1)) res0 ws0 xq_wf I xq_01) as [H _]. cbv zeta in H.
  set (x := r_mu _) in *. unfold act, lowerq in H. cbn in H. lra.
Qed.

Print Assumptions C59_residuals.
Print Assumptions C59_stationarity_is_gradient.
Print Assumptions C59_mu.
Print Assumptions C59_norms.
Print Assumptions C59_lower_bound.
Print Assumptions C59_gap_is_complementarity.
Print Assumptions C59_zero_residuals_optimal.
Print Assumptions C59_suboptimality.
Print Assumptions C59_mu_counts_lower_refuted.
