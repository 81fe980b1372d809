(** ResProps.v -- C18 (residuals), C19 (objective and duality gap), C20 (optimality certificate).
    The specification (OCP QP as mathematics, Lagrangian, KKT residuals) is ResSpec.v.
    All statements are over the real numbers (exact arithmetic). *)
From Coq Require Import ZArith Bool Arith List Lia Reals Lra.
From Verif Require Import Base ArithF RSum Blas OcpModel ResSpec ResProofs ResProofs2.
Local Open Scope R_scope.

(** C18: whatever was in the residual object and workspace before, every entry computed is the KKT residual of the QP.
    [valid_ok]: the mask information cached in the workspace by the IPM, if any, is correct. *)
Theorem C18_residuals (qp : oqp R) (sol : osol R) valid res0 ws0 : qp_wf qp -> valid_ok valid qp ->
  let D := q_dim qp in let r := fst (res_compute valid qp sol res0 ws0) in
  (forall i k, (i <= dN D)%nat -> (k < nvt D i)%nat -> r_g r i k = kkt_g qp (s_ux sol) (s_pi sol) (s_lam sol) i k) /\
  (forall i j, (i < dN D)%nat -> (j < dnx D (S i))%nat -> r_b r i j = dyn qp (s_ux sol) i j) /\
  (forall i c, (i <= dN D)%nat -> (c < nct D i)%nat -> r_d r i c = kkt_d qp (s_ux sol) (s_t sol) i c) /\
  (forall i c, (i <= dN D)%nat -> (c < nct D i)%nat -> r_m r i c = kkt_m qp (s_lam sol) (s_t sol) i c).
Proof. intros Hwf Hv. destruct (res_compute_R qp sol Hwf valid res0 ws0 Hv) as (A & B & C & E & _). repeat split; assumption. Qed.

(** C18: kkt_g is the gradient of the Lagrangian: exact second-order expansion around z in every direction. *)
Theorem C18_stationarity_is_gradient (qp : oqp R) z pi lam (y : nat -> nat -> R) :
  let D := q_dim qp in
  lagr qp y pi lam = lagr qp z pi lam
    + rsum (dN D + 1) (fun i => rsum (nvt D i) (fun k => kkt_g qp z pi lam i k * (y i k - z i k)))
    + 1 / 2 * rsum (dN D + 1) (fun i => rsum (nvt D i) (fun k => rsum (nvt D i) (fun l => (y i k - z i k) * Hess qp i k l * (y i l - z i l)))).
Proof. exact (lagr_expand qp z pi lam y). Qed.

(** C18: the reported complementarity measure and the four reported norms. *)
Theorem C18_mu (qp : oqp R) (sol : osol R) res0 ws0 : qp_wf qp -> mask01 qp ->
  let D := q_dim qp in let r := fst (res_compute None qp sol res0 ws0) in
  let n_active := rsum (dN D + 1) (fun i => rsum (nct D i) (fun c => q_mask qp i c)) in
  r_mu r * n_active = rsum (dN D + 1) (fun i => rsum (nct D i) (fun c => Rabs (kkt_m qp (s_lam sol) (s_t sol) i c))) /\
  (n_active = 0 -> r_mu r = 0).
Proof.
  intros Hwf Hm. cbv zeta. destruct (res_compute_R qp sol Hwf None res0 ws0 I) as (_ & _ & _ & _ & _ & _ & E & F).
  specialize (F eq_refl). cbv zeta in F. set (D := q_dim qp) in *. set (r := fst _) in *.
  assert (En : rsum (dN D + 1) (fun i => rsum (nct D i) (fun c => q_mask qp i c)) = INR (nsum (dN D + 1) (fun i => nsum (nct D i) (fun c => is1 (q_mask qp i c))))).
  { assert (Hs : forall n f, INR (nsum n f) = rsum n (fun k => INR (f k))).
    { intros n f. induction n as [|n IH]; cbn [nsum rsum]; [reflexivity|]. rewrite plus_INR, IH. reflexivity. }
    rewrite Hs. apply rsum_ext. intros i Hi. rewrite Hs. apply rsum_ext. intros c Hc. unfold is1.
    destruct (Hm i c ltac:(unfold D in *; lia) Hc) as [H|H]; rewrite H; destruct (Reqb_spec 0 1), (Reqb_spec 1 1); try lra; reflexivity. }
  rewrite En. rewrite F. destruct (Nat.eqb_spec (nsum (dN D + 1) (fun i => nsum (nct D i) (fun c => is1 (q_mask qp i c)))) 0) as [E0|E0].
  - split; [|reflexivity]. rewrite E0. cbn [INR]. symmetry. rewrite Rmult_0_l. apply rsum_0. intros i Hi. apply rsum_0. intros c Hc.
    destruct (Hm i c ltac:(unfold D in *; lia) Hc) as [H|H].
    + unfold kkt_m. rewrite H. rewrite Rmult_0_l. apply Rabs_R0.
    + exfalso. assert (Hle : (nsum (nct D i) (fun c => is1 (q_mask qp i c)) <= 0)%nat).
      { rewrite <- E0. transitivity (nsum (S i) (fun i => nsum (nct D i) (fun c => is1 (q_mask qp i c)))); [cbn [nsum]; lia|apply nsum_mono; lia]. }
      assert (Hl2 : (is1 (q_mask qp i c) <= 0)%nat).
      { etransitivity; [|exact Hle]. transitivity (nsum (S c) (fun c => is1 (q_mask qp i c))); [cbn [nsum]; lia|apply nsum_mono; lia]. }
      unfold is1 in Hl2. rewrite H in Hl2. destruct (Reqb_spec 1 1); [lia|lra].
  - split.
    + unfold stage_mu in E. rewrite E. unfold Rdiv. rewrite Rmult_assoc, Rinv_l; [rewrite Rmult_1_r; reflexivity|]. apply not_0_INR. exact E0.
    + intros H. change 0 with (INR 0) in H. apply INR_eq in H. contradiction.
Qed.
Theorem C18_norms (D : dims) (res : ores R) : let '(a, b, c, e) := res_inf_norm D res in
  max_abs (dN D + 1) (nvt D) (r_g res) a /\ max_abs (dN D) (fun i => dnx D (S i)) (r_b res) b /\
  max_abs (dN D + 1) (nct D) (r_d res) c /\ max_abs (dN D + 1) (nct D) (r_m res) e.
Proof. exact (res_inf_norm_R D res). Qed.

(** C18, linear residual: same rows for the step, with the linearised complementarity around the iterate. *)
Theorem C18_linear_residuals (qp : oqp R) (sol stp : osol R) valid res0 ws0 : qp_wf qp ->
  (match valid with None => True | Some mc => mc = true \/ masks_one (q_dim qp) (q_mask qp) end) ->
  let D := q_dim qp in let r := fst (reslin_compute valid qp sol stp res0 ws0) in
  (forall i k, (i <= dN D)%nat -> (k < nvt D i)%nat -> r_g r i k = kkt_g qp (s_ux stp) (s_pi stp) (s_lam stp) i k) /\
  (forall i j, (i < dN D)%nat -> (j < dnx D (S i))%nat -> r_b r i j = dyn qp (s_ux stp) i j) /\
  (forall i c, (i <= dN D)%nat -> (c < nct D i)%nat -> r_d r i c = kkt_d qp (s_ux stp) (s_t stp) i c) /\
  (forall i c, (i <= dN D)%nat -> (c < nct D i)%nat ->
     r_m r i c = q_mask qp i c * (q_m qp i c + s_lam sol i c * s_t stp i c + s_lam stp i c * s_t sol i c)).
Proof. intros Hwf Hv. exact (reslin_compute_R qp sol stp Hwf valid res0 ws0 Hv). Qed.

(** C19: the reported objective is the objective. *)
Theorem C19_objective (qp : oqp R) (sol : osol R) valid res0 ws0 : qp_wf qp -> valid_ok valid qp ->
  r_obj (fst (res_compute valid qp sol res0 ws0)) = cost qp (s_ux sol).
Proof. intros Hwf Hv. destruct (res_compute_R qp sol Hwf valid res0 ws0 Hv) as (_ & _ & _ & _ & E & _). exact E. Qed.

(** C19: gap = primal objective - Wolfe dual objective (Lagrangian minus its gradient times z). *)
Theorem C19_gap_identity (qp : oqp R) (sol : osol R) valid res0 ws0 : qp_wf qp -> valid_ok valid qp ->
  let D := q_dim qp in let r := fst (res_compute valid qp sol res0 ws0) in
  let z := s_ux sol in let pi := s_pi sol in let lam := s_lam sol in
  r_gap r = cost qp z - (lagr qp z pi lam - rsum (dN D + 1) (fun i => rsum (nvt D i) (fun k => kkt_g qp z pi lam i k * z i k))).
Proof.
  intros Hwf Hv. cbv zeta. destruct (res_compute_R qp sol Hwf valid res0 ws0 Hv) as (_ & _ & _ & _ & _ & E & _).
  pose proof (gap_identity qp (s_ux sol) (s_pi sol) (s_lam sol) (s_t sol)) as H. unfold dot2 in H.
  rewrite E. replace sol with (mksol (s_ux sol) (s_pi sol) (s_lam sol) (s_t sol)) at 1 by (destruct sol; reflexivity). lra.
Qed.

(** C19: with zero stationarity residual and nonnegative multipliers, objective - gap is a lower bound on the objective of
    every feasible trajectory; in general the bound is off by res_g . y. *)
Theorem C19_lower_bound (qp : oqp R) (sol : osol R) valid res0 ws0 (y : nat -> nat -> R) : qp_wf qp -> valid_ok valid qp -> mask01 qp -> psd qp ->
  (forall i c, (i <= dN (q_dim qp))%nat -> (c < nct (q_dim qp) i)%nat -> q_mask qp i c <> 0 -> 0 <= s_lam sol i c) ->
  feasible qp y ->
  let D := q_dim qp in let r := fst (res_compute valid qp sol res0 ws0) in
  r_obj r - r_gap r + rsum (dN D + 1) (fun i => rsum (nvt D i) (fun k => r_g r i k * y i k)) <= cost qp y.
Proof.
  intros Hwf Hv Hm Hpsd Hl Hf. cbv zeta.
  rewrite C19_objective, C19_gap_identity by assumption.
  pose proof (C18_residuals qp sol valid res0 ws0 Hwf Hv) as (A & _). cbv zeta in A.
  set (D := q_dim qp) in *.
  rewrite (rsum_ext (dN D + 1) (fun i => rsum (nvt D i) (fun k => r_g (fst (res_compute valid qp sol res0 ws0)) i k * y i k))
    (fun i => rsum (nvt D i) (fun k => kkt_g qp (s_ux sol) (s_pi sol) (s_lam sol) i k * y i k))).
  2:{ intros i Hi. apply rsum_ext. intros k Hk. rewrite A by (try assumption; lia). reflexivity. }
  pose proof (lagr_le_cost qp (s_pi sol) (s_lam sol) y Hf Hm Hl) as H1.
  pose proof (C18_stationarity_is_gradient qp (s_ux sol) (s_pi sol) (s_lam sol) y) as H2. cbv zeta in H2. fold D in H2.
  assert (H3 : 0 <= rsum (dN D + 1) (fun i => rsum (nvt D i) (fun k => rsum (nvt D i) (fun l => (y i k - s_ux sol i k) * Hess qp i k l * (y i l - s_ux sol i l))))).
  { apply rsum_nonneg. intros i Hi. apply (Hpsd i (fun k => y i k - s_ux sol i k)). unfold D in *; lia. }
  assert (H4 : rsum (dN D + 1) (fun i => rsum (nvt D i) (fun k => kkt_g qp (s_ux sol) (s_pi sol) (s_lam sol) i k * (y i k - s_ux sol i k))) =
    rsum (dN D + 1) (fun i => rsum (nvt D i) (fun k => kkt_g qp (s_ux sol) (s_pi sol) (s_lam sol) i k * y i k)) -
    rsum (dN D + 1) (fun i => rsum (nvt D i) (fun k => kkt_g qp (s_ux sol) (s_pi sol) (s_lam sol) i k * s_ux sol i k))).
  { rewrite <- rsum_sub. apply rsum_ext. intros i _. rewrite <- rsum_sub. apply rsum_ext. intros k _. lra. }
  lra.
Qed.

(** C19: at zero stationarity, dynamics and inequality residuals the gap is the complementarity sum. *)
Theorem C19_gap_is_complementarity (qp : oqp R) (sol : osol R) valid res0 ws0 : qp_wf qp -> valid_ok valid qp -> mask01 qp ->
  let D := q_dim qp in let r := fst (res_compute valid qp sol res0 ws0) in
  (forall i k, (i <= dN D)%nat -> (k < nvt D i)%nat -> r_g r i k = 0) ->
  (forall i j, (i < dN D)%nat -> (j < dnx D (S i))%nat -> r_b r i j = 0) ->
  (forall i c, (i <= dN D)%nat -> (c < nct D i)%nat -> r_d r i c = 0) ->
  r_gap r = rsum (dN D + 1) (fun i => rsum (nct D i) (fun c => if Req_EM_T (q_mask qp i c) 0 then 0 else s_lam sol i c * s_t sol i c)).
Proof.
  intros Hwf Hv Hm. cbv zeta. intros Hg Hb Hd. rewrite C19_gap_identity by assumption. cbv zeta.
  pose proof (C18_residuals qp sol valid res0 ws0 Hwf Hv) as (A & B & C & _). cbv zeta in A, B, C. set (D := q_dim qp) in *.
  unfold lagr. fold D.
  rewrite (rsum_0 (dN D + 1) (fun i => rsum (nvt D i) _)).
  2:{ intros i Hi. apply rsum_0. intros k Hk. rewrite <- A, Hg by (try assumption; lia). lra. }
  rewrite (rsum_0 (dN D)).
  2:{ intros i Hi. apply rsum_0. intros j Hj. rewrite <- B, Hb by assumption. lra. }
  assert (E : rsum (dN D + 1) (fun i => rsum (nct D i) (fun c => q_mask qp i c * s_lam sol i c * (con qp (s_ux sol) i c - q_d qp i c))) =
    rsum (dN D + 1) (fun i => rsum (nct D i) (fun c => if Req_EM_T (q_mask qp i c) 0 then 0 else s_lam sol i c * s_t sol i c))).
  { apply rsum_ext. intros i Hi. apply rsum_ext. intros c Hc. specialize (C i c ltac:(lia) Hc). rewrite Hd in C by (try assumption; lia). unfold kkt_d in C.
    destruct (Hm i c ltac:(unfold D in *; lia) Hc) as [H|H]; rewrite H in *.
    - destruct (Req_EM_T 0 0); [lra|contradiction].
    - destruct (Req_EM_T 1 0); [lra|]. replace (con qp (s_ux sol) i c - q_d qp i c) with (s_t sol i c) by lra. lra. }
  rewrite E. lra.
Qed.

(** C20: zero residuals (with m = 0, nonnegative lam and t, convex stages) certify a global minimum.  The entries of lam, t
    of masked constraints are irrelevant. *)
Theorem C20_zero_residuals_optimal (qp : oqp R) (sol : osol R) valid res0 ws0 : qp_wf qp -> valid_ok valid qp -> mask01 qp -> psd qp ->
  let D := q_dim qp in let r := fst (res_compute valid qp sol res0 ws0) in
  (forall i c, (i <= dN D)%nat -> (c < nct D i)%nat -> q_mask qp i c <> 0 -> 0 <= s_lam sol i c /\ 0 <= s_t sol i c /\ q_m qp i c = 0) ->
  (forall i k, (i <= dN D)%nat -> (k < nvt D i)%nat -> r_g r i k = 0) ->
  (forall i j, (i < dN D)%nat -> (j < dnx D (S i))%nat -> r_b r i j = 0) ->
  (forall i c, (i <= dN D)%nat -> (c < nct D i)%nat -> r_d r i c = 0) ->
  (forall i c, (i <= dN D)%nat -> (c < nct D i)%nat -> r_m r i c = 0) ->
  feasible qp (s_ux sol) /\ forall y, feasible qp y -> cost qp (s_ux sol) <= cost qp y.
Proof.
  intros Hwf Hv Hm Hpsd. cbv zeta. intros Hpos Hg Hb Hd Hmm.
  pose proof (C18_residuals qp sol valid res0 ws0 Hwf Hv) as (A & B & C & E). cbv zeta in A, B, C, E. set (D := q_dim qp) in *. split.
  - split.
    + intros i j Hi Hj. rewrite <- B by assumption. apply Hb; assumption.
    + intros i c Hi Hc Hne. fold D in Hi, Hc. specialize (C i c Hi Hc). rewrite Hd in C by assumption. unfold kkt_d in C.
      destruct (Hpos i c Hi Hc Hne) as (_ & Ht & _). destruct (Hm i c Hi Hc) as [H|H]; [contradiction|]. rewrite H in C. lra.
  - intros y Hy.
    pose proof (C19_lower_bound qp sol valid res0 ws0 y Hwf Hv Hm Hpsd (fun i c Hi Hc Hn => proj1 (Hpos i c Hi Hc Hn)) Hy) as H1. cbv zeta in H1. fold D in H1.
    rewrite (rsum_0 (dN D + 1)) in H1. 2:{ intros i Hi. apply rsum_0. intros k Hk. rewrite Hg by (try assumption; lia). lra. }
    pose proof (C19_gap_is_complementarity qp sol valid res0 ws0 Hwf Hv Hm Hg Hb Hd) as H2. fold D in H2.
    rewrite (rsum_0 (dN D + 1)) in H2.
    2:{ intros i Hi. apply rsum_0. intros c Hc. destruct (Req_EM_T (q_mask qp i c) 0) as [|Hn]; [reflexivity|].
        specialize (E i c ltac:(lia) Hc). rewrite Hmm in E by (try assumption; lia). unfold kkt_m in E.
        destruct (Hpos i c ltac:(lia) Hc Hn) as (_ & _ & Hz). destruct (Hm i c ltac:(unfold D in *; lia) Hc) as [H|H]; [contradiction|].
        rewrite H, Hz in E. lra. }
    rewrite C19_objective in H1 by assumption. lra.
Qed.

(** C20, with tolerances: from the returned residuals alone, the objective exceeds the minimum by at most the reported gap plus
    ||res_g||_inf * ||y||_1 for every feasible y. *)
Theorem C20_suboptimality (qp : oqp R) (sol : osol R) valid res0 ws0 (y : nat -> nat -> R) : qp_wf qp -> valid_ok valid qp -> mask01 qp -> psd qp ->
  (forall i c, (i <= dN (q_dim qp))%nat -> (c < nct (q_dim qp) i)%nat -> q_mask qp i c <> 0 -> 0 <= s_lam sol i c) ->
  feasible qp y ->
  let D := q_dim qp in let r := fst (res_compute valid qp sol res0 ws0) in let '(ng, _, _, _) := res_inf_norm D r in
  cost qp (s_ux sol) - cost qp y <= r_gap r + ng * rsum (dN D + 1) (fun i => rsum (nvt D i) (fun k => Rabs (y i k))).
Proof.
  intros Hwf Hv Hm Hpsd Hl Hf. cbv zeta.
  pose proof (C19_lower_bound qp sol valid res0 ws0 y Hwf Hv Hm Hpsd Hl Hf) as H1. cbv zeta in H1.
  rewrite C19_objective in H1 by assumption.
  set (r := fst (res_compute valid qp sol res0 ws0)) in *.
  pose proof (C18_norms (q_dim qp) r) as Hn. destruct (res_inf_norm (q_dim qp) r) as [[[a b] c] e]. destruct Hn as ((Ha0 & Ha & _) & _).
  set (D := q_dim qp) in *.
  assert (H2 : - (a * rsum (dN D + 1) (fun i => rsum (nvt D i) (fun k => Rabs (y i k)))) <= rsum (dN D + 1) (fun i => rsum (nvt D i) (fun k => r_g r i k * y i k))).
  { rewrite <- rsum_scal, <- rsum_opp. apply rsum_le. intros i Hi. rewrite <- rsum_scal, <- rsum_opp. apply rsum_le. intros k Hk.
    specialize (Ha i k Hi Hk). assert (Hab : Rabs (r_g r i k * y i k) <= a * Rabs (y i k)).
    { rewrite Rabs_mult. apply Rmult_le_compat_r; [apply Rabs_pos|exact Ha]. }
    pose proof (Rle_abs (- (r_g r i k * y i k))). rewrite Rabs_Ropp in H. lra. }
  lra.
Qed.

(** A concrete case: min 1/2 u^2 + 1/2 x^2, x = u, u >= 1 (upper bound masked), at its optimum u = x = 1, lam = 2, pi = 1. *)
Definition exD : dims := mkdims 1 (fun i => match i with 1%nat => 1%nat | _ => 0%nat end) (fun i => match i with 0%nat => 1%nat | _ => 0%nat end)
  (fun i => match i with 0%nat => 1%nat | _ => 0%nat end) (fun _ => 0%nat) (fun _ => 0%nat).
Definition exqp : oqp R := mkqp exD (fun _ _ _ => 1) (fun _ _ _ => 1) (fun _ _ _ => 0) (fun _ _ => 0) (fun _ _ => 0)
  (fun _ c => match c with 0%nat => 1 | _ => 0 end) (fun _ c => match c with 0%nat => 1 | _ => 0 end) (fun _ _ => 0) (fun _ _ => 0) (fun _ _ => 0%nat) (fun _ _ => (-1)%Z).
Definition exsol : osol R := mksol (fun _ _ => 1) (fun _ _ => 1) (fun _ _ => 2) (fun _ _ => 0).
Lemma ex_wf : qp_wf exqp.
Proof. intros i Hi. split; cbn; intros j Hj; [|left; reflexivity]. destruct i as [|[|i]]; cbn in *; lia. Qed.
Lemma ex_mask : mask01 exqp.
Proof. intros i c Hi Hc. cbn. destruct c; [right|left]; reflexivity. Qed.
Lemma ex_psd : psd exqp.
Proof.
  intros i v Hi. cbn in Hi. assert (Hc : i = 0%nat \/ i = 1%nat) by lia. destruct Hc as [-> | ->]; cbn; pose proof (Rle_0_sqr (v 0%nat)) as H; unfold Rsqr in H; lra.
Qed.
Example C20_hypotheses_met (res0 : ores R) (ws0 : rws R) :
  qp_wf exqp /\ valid_ok None exqp /\ mask01 exqp /\ psd exqp /\ cost exqp (s_ux exsol) = 1 /\
  let D := q_dim exqp in let r := fst (res_compute None exqp exsol res0 ws0) in
  (forall i c, (i <= dN D)%nat -> (c < nct D i)%nat -> q_mask exqp i c <> 0 -> 0 <= s_lam exsol i c /\ 0 <= s_t exsol i c /\ q_m exqp i c = 0) /\
  (forall i k, (i <= dN D)%nat -> (k < nvt D i)%nat -> r_g r i k = 0) /\
  (forall i j, (i < dN D)%nat -> (j < dnx D (S i))%nat -> r_b r i j = 0) /\
  (forall i c, (i <= dN D)%nat -> (c < nct D i)%nat -> r_d r i c = 0) /\
  (forall i c, (i <= dN D)%nat -> (c < nct D i)%nat -> r_m r i c = 0).
Proof.
  split; [exact ex_wf|]. split; [exact I|]. split; [exact ex_mask|]. split; [exact ex_psd|].
  split; [unfold cost; cbn; unfold stage_cost; cbn; lra|].
  pose proof (C18_residuals exqp exsol None res0 ws0 ex_wf I) as (A & B & C & E). cbv zeta in *.
  split; [intros; cbn; split; [lra|split; [lra|reflexivity]]|]. split; [|split; [|split]].
  - intros i k Hi Hk. rewrite A by assumption. cbn in Hi. destruct i as [|[|i]]; [| |lia]; cbn in Hk; assert (k = 0%nat) by lia; subst k; unfold kkt_g; cbn; lra.
  - intros i j Hi Hj. rewrite B by assumption. cbn in Hi. destruct i as [|i]; [|lia]. cbn in Hj. assert (j = 0%nat) by lia; subst j. unfold dyn. cbn. lra.
  - intros i c Hi Hc. rewrite C by assumption. cbn in Hi. destruct i as [|[|i]]; [| |lia]; cbn in Hc; [|lia]. destruct c as [|[|c]]; [| |lia]; unfold kkt_d; cbn; unfold con; cbn; lra.
  - intros i c Hi Hc. rewrite E by assumption. cbn in Hi. destruct i as [|[|i]]; [| |lia]; cbn in Hc; [|lia]. destruct c as [|[|c]]; [| |lia]; unfold kkt_m; cbn; lra.
Qed.

Print Assumptions C18_residuals.
Print Assumptions C18_mu.
Print Assumptions C18_linear_residuals.
Print Assumptions C19_lower_bound.
Print Assumptions C19_gap_is_complementarity.
Print Assumptions C20_zero_residuals_optimal.
Print Assumptions C20_suboptimality.
