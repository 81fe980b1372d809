(** DqcProps.v -- C73: residuals, objective, duality gap and optimality certificate of the dense QCQP residual routine.
    The specification (the dense QCQP as mathematics) is DqcSpec.v.  Exact arithmetic. *)
From Coq Require Import ZArith Bool Arith Lia Reals Lra.
From Verif Require Import Base ArithF RSum Blas Blas2 OcpModel ResSpec ResProofs ResProofs2 ResProps DenModel DenSpec QcqpModel QcqpSpec QcqpProofs QcqpProofs2 QcqpProofs3 QcqpProps
  DqcModel DqcSpec DqcProofs.
Local Open Scope R_scope.

(** C73: whatever the residual object and workspace held before, every entry is the KKT residual of the dense QCQP and the objective its cost. *)
Theorem C73_residuals cache (q : dqcqp R) (sol : dsol R) valid res0 ws0 : dqc_wf q -> dq_cache_ok q cache (ds_v sol) (ds_lam sol) -> dq_valid_ok q valid ->
  let r := fst (dqc_res_compute cache valid q sol res0 ws0) in
  (forall k, (k < dqnv q)%nat -> dr_g r k = dq_kkt_g q (ds_v sol) (ds_pi sol) (ds_lam sol) k) /\
  (forall j, (j < dq_ne q)%nat -> dr_b r j = dq_eq q (ds_v sol) j) /\
  (forall c, (c < dqnc q)%nat -> dr_d r c = dq_kkt_d q (ds_v sol) (ds_t sol) c) /\
  (forall c, (c < dqnc q)%nat -> dr_m r c = dq_kkt_m q (ds_lam sol) (ds_t sol) c) /\
  dr_obj r = dq_cost q (ds_v sol).
Proof.
  intros Hwf Hca Hv. cbv zeta. destruct (dqc_is_one cache valid q sol res0 ws0) as (A & B & C & E & O & _).
  destruct (C59_residuals (oneq_cache cache) (one_qc q) (oneq_sol sol) valid (oneq_res res0) ws0 (oneq_wf q Hwf) (oneq_cacheok q cache _ _ Hca) (oneq_valid q valid Hv)) as (A1 & _ & C1 & E1 & O1).
  cbv zeta in A1, C1, E1, O1. set (o := fst (qcres_compute _ _ _ _ _ _)) in *. clearbody o.
  rewrite A, B, C, E, O. destruct (eqq_part_R q sol res0 (r_g o 0%nat)) as (P1 & P2 & P3).
  split; [|split; [exact P3|split; [|split]]].
  - intros k Hk. specialize (A1 0%nat k (Nat.le_refl 0) Hk). cbn [oneq_sol s_ux s_pi s_lam] in A1. rewrite oneq_kkt_g in A1.
    destruct (Nat.ltb_spec k (dq_nv q)) as [H|H]; [rewrite P1 by exact H|rewrite P2 by exact H]; rewrite A1; lra.
  - intros c Hc. exact (C1 0%nat c (Nat.le_refl 0) Hc).
  - intros c Hc. exact (E1 0%nat c (Nat.le_refl 0) Hc).
  - rewrite O1. apply oneq_cost.
Qed.

(** C73: dq_kkt_g is the gradient of the Lagrangian: exact second-order expansion in every direction, quadratic constraints included. *)
Theorem C73_stationarity_is_gradient (q : dqcqp R) z pi lam (y : nat -> R) : dqc_wf q ->
  dq_lagr q y pi lam = dq_lagr q z pi lam + rsum (dqnv q) (fun k => dq_kkt_g q z pi lam k * (y k - z k))
  + 1 / 2 * rsum (dqnv q) (fun k => rsum (dqnv q) (fun l => (y k - z k) * dq_lHess q lam k l * (y l - z l))).
Proof. apply dq_lagr_expand. Qed.

(** C73: the reported gap is the objective minus (Lagrangian - gradient . z). *)
Theorem C73_gap_identity cache (q : dqcqp R) (sol : dsol R) valid res0 ws0 : dqc_wf q -> dq_cache_ok q cache (ds_v sol) (ds_lam sol) -> dq_valid_ok q valid ->
  let z := ds_v sol in let pi := ds_pi sol in let lam := ds_lam sol in
  dr_gap (fst (dqc_res_compute cache valid q sol res0 ws0)) =
  dq_cost q z - (dq_lagr q z pi lam - rsum (dqnv q) (fun k => dq_kkt_g q z pi lam k * z k)).
Proof.
  intros Hwf Hca Hv. cbv zeta. destruct (dqc_is_one cache valid q sol res0 ws0) as (_ & _ & _ & _ & _ & E & _). rewrite E.
  pose proof (C59_gap_identity (oneq_cache cache) (one_qc q) (oneq_sol sol) valid (oneq_res res0) ws0 (oneq_wf q Hwf) (oneq_cacheok q cache _ _ Hca) (oneq_valid q valid Hv)) as H.
  cbv zeta in H. rewrite H. clear H E.
  cbn [oneq_sol s_ux s_pi s_lam]. rewrite oneq_cost, oneq_lagr, dqkkt_dot. change (dN (c_dim (one_qc q)) + 1)%nat with 1%nat. cbn [rsum]. change (cnv (one_qc q) 0) with (dqnv q).
  set (l1 := qlagr _ _ _ _). set (s1 := rsum (dqnv q) _).
  assert (Hb : (if (0 <? dq_ne q)%nat then DOT (dq_ne q) (dq_b q) 0 (ds_pi sol) 0 else 0) = rsum (dq_ne q) (fun j => dq_b q j * ds_pi sol j)).
  { destruct (Nat.ltb_spec 0 (dq_ne q)) as [H|H]; [|replace (dq_ne q) with 0%nat by lia; reflexivity].
    unfold DOT. rewrite fsum_R. apply rsum_ext. intros j _. cbn [Nat.add]. reflexivity. }
  rewrite Hb.
  assert (Hd : rsum (dq_ne q) (fun j => ds_pi sol j * dq_eq q (ds_v sol) j) = rsum (dq_ne q) (fun j => dq_b q j * ds_pi sol j) - rsum (dq_ne q) (fun j => ds_pi sol j * rsum (dq_nv q) (fun k => dq_A q j k * ds_v sol k))).
  { rewrite <- rsum_sub. apply rsum_ext. intros j _. unfold dq_eq. lra. }
  rewrite Hd. lra.
Qed.

(** C73: the complementarity measure: the sum over the sides imposed of lam*t, divided by the number of unmasked entries. *)
Theorem C73_mu cache (q : dqcqp R) (sol : dsol R) res0 ws0 : dqc_wf q -> dq_cache_ok q cache (ds_v sol) (ds_lam sol) -> dq_mask01 q ->
  let r := fst (dqc_res_compute cache None q sol res0 ws0) in let n := rsum (dqnc q) (fun c => dq_mask q c) in
  dr_mu r * n = rsum (dqnc q) (fun c => dq_act q c * ds_lam sol c * ds_t sol c) /\ (n = 0 -> dr_mu r = 0).
Proof.
  intros Hwf Hca Hm. cbv zeta. destruct (dqc_is_one cache None q sol res0 ws0) as (_ & _ & _ & _ & _ & _ & _ & E). rewrite E.
  destruct (C59_mu (oneq_cache cache) (one_qc q) (oneq_sol sol) (oneq_res res0) ws0 (oneq_wf q Hwf) (oneq_cacheok q cache _ _ Hca) (oneq_mask01 q Hm)) as [H1 H2].
  cbv zeta in H1, H2. change (dN (c_dim (one_qc q)) + 1)%nat with 1%nat in H1, H2. cbn [rsum] in H1, H2. rewrite !Rplus_0_l in *. split; [exact H1|exact H2].
Qed.

(** C73: the four norms reported are the largest absolute values. *)
Theorem C73_norms (q : dqcqp R) (res : dres R) : let '(a, b, c, e) := dqc_inf_norm q res in
  max_abs1 (dqnv q) (dr_g res) a /\ max_abs1 (dq_ne q) (dr_b res) b /\ max_abs1 (dqnc q) (dr_d res) c /\ max_abs1 (dqnc q) (dr_m res) e.
Proof.
  unfold dqc_inf_norm. replace (2 * dq_nb q + 2 * dq_ng q + 2 * dq_nq q + 2 * dq_ns q)%nat with (dqnc q) by (unfold dqnc, dqn2; lia).
  assert (H : forall n v, max_abs1 n v (VECNRM_INF n v 0)).
  { intros n v. apply VECNRM_INF_R. }
  repeat split; apply H.
Qed.

(** C73: convex cost and quadratic constraints, nonnegative multipliers: objective - gap + res_g . y is a lower bound on the cost of every feasible y. *)
Theorem C73_lower_bound cache (q : dqcqp R) (sol : dsol R) valid res0 ws0 (y : nat -> R) :
  dqc_wf q -> dq_cache_ok q cache (ds_v sol) (ds_lam sol) -> dq_valid_ok q valid -> dq_mask01 q -> dq_psd q -> dq_con_psd q ->
  (forall c, (c < dqnc q)%nat -> dq_act q c <> 0 -> 0 <= ds_lam sol c) -> dq_feasible q y ->
  let r := fst (dqc_res_compute cache valid q sol res0 ws0) in
  dr_obj r - dr_gap r + rsum (dqnv q) (fun k => dr_g r k * y k) <= dq_cost q y.
Proof.
  intros Hwf Hca Hv Hm Hpsd Hcp Hl Hf. cbv zeta.
  destruct (C73_residuals cache q sol valid res0 ws0 Hwf Hca Hv) as (A & _ & _ & _ & O). cbv zeta in A, O.
  rewrite O. rewrite C73_gap_identity by assumption. cbv zeta.
  rewrite (rsum_ext (dqnv q) (fun k => dr_g _ k * y k) (fun k => dq_kkt_g q (ds_v sol) (ds_pi sol) (ds_lam sol) k * y k)) by (intros k Hk; rewrite A by exact Hk; reflexivity).
  assert (Hl' : forall c, (c < dqnc q)%nat -> 0 <= dq_act q c * ds_lam sol c).
  { intros c Hc. destruct (Req_dec (dq_act q c) 0) as [E|E]; [rewrite E; lra|]. specialize (Hl c Hc E). apply Rmult_le_pos; [|exact Hl].
    unfold dq_act in *. destruct (dq_lower q c); [lra|]. destruct (Hm c Hc) as [H|H]; rewrite H; lra. }
  pose proof (dq_lagr_le_cost q (ds_pi sol) (ds_lam sol) y Hf Hl') as H1.
  pose proof (dq_lagr_expand q (ds_v sol) (ds_pi sol) (ds_lam sol) y Hwf) as H2.
  pose proof (dq_lHess_psd q (ds_lam sol) (fun k => y k - ds_v sol k) Hpsd Hcp Hl') as H3. cbv beta in H3.
  assert (H4 : rsum (dqnv q) (fun k => dq_kkt_g q (ds_v sol) (ds_pi sol) (ds_lam sol) k * (y k - ds_v sol k)) =
    rsum (dqnv q) (fun k => dq_kkt_g q (ds_v sol) (ds_pi sol) (ds_lam sol) k * y k) - rsum (dqnv q) (fun k => dq_kkt_g q (ds_v sol) (ds_pi sol) (ds_lam sol) k * ds_v sol k)).
  { rewrite <- rsum_sub. apply rsum_ext. intros k _. lra. }
  lra.
Qed.

(** C73: at zero stationarity, equality and constraint residuals the gap is the complementarity sum. *)
Theorem C73_gap_is_complementarity cache (q : dqcqp R) (sol : dsol R) valid res0 ws0 :
  dqc_wf q -> dq_cache_ok q cache (ds_v sol) (ds_lam sol) -> dq_valid_ok q valid -> dq_mask01 q ->
  let r := fst (dqc_res_compute cache valid q sol res0 ws0) in
  (forall k, (k < dqnv q)%nat -> dr_g r k = 0) -> (forall j, (j < dq_ne q)%nat -> dr_b r j = 0) -> (forall c, (c < dqnc q)%nat -> dq_act q c <> 0 -> dr_d r c = 0) ->
  dr_gap r = rsum (dqnc q) (fun c => dq_act q c * ds_lam sol c * ds_t sol c).
Proof.
  intros Hwf Hca Hv Hm. cbv zeta. intros Hg Hb Hd. rewrite C73_gap_identity by assumption. cbv zeta.
  destruct (C73_residuals cache q sol valid res0 ws0 Hwf Hca Hv) as (A & B & C & _). cbv zeta in A, B, C.
  unfold dq_lagr. rewrite (rsum_0 (dqnv q) (fun k => dq_kkt_g _ _ _ _ _ * _)) by (intros k Hk; rewrite <- A, Hg by exact Hk; lra).
  rewrite (rsum_0 (dq_ne q)) by (intros j Hj; rewrite <- B, Hb by exact Hj; lra).
  rewrite (rsum_ext (dqnc q) (fun c => dq_act q c * ds_lam sol c * (dq_con _ _ _ - _)) (fun c => dq_act q c * ds_lam sol c * ds_t sol c)); [lra|].
  intros c Hc. destruct (Req_dec (dq_act q c) 0) as [E|E]; [rewrite E; lra|].
  specialize (C c Hc). rewrite Hd in C by assumption. unfold dq_kkt_d in C.
  assert (dq_mask q c = 1). { unfold dq_act in E. destruct (dq_lower q c); [lra|]. destruct (Hm c Hc) as [H|H]; [contradiction|exact H]. }
  rewrite H in C. replace (dq_con q (ds_v sol) c - dq_d q c) with (ds_t sol c) by lra. lra.
Qed.

(** C73: zero residuals (m = 0, nonnegative lam, t) at a point of a convex dense QCQP certify a global minimum.  Nothing is asked of the lower
    sides of the quadratic constraints. *)
Theorem C73_zero_residuals_optimal cache (q : dqcqp R) (sol : dsol R) valid res0 ws0 :
  dqc_wf q -> dq_cache_ok q cache (ds_v sol) (ds_lam sol) -> dq_valid_ok q valid -> dq_mask01 q -> dq_psd q -> dq_con_psd q ->
  let r := fst (dqc_res_compute cache valid q sol res0 ws0) in
  (forall c, (c < dqnc q)%nat -> dq_act q c <> 0 -> 0 <= ds_lam sol c /\ 0 <= ds_t sol c /\ dq_m q c = 0) ->
  (forall k, (k < dqnv q)%nat -> dr_g r k = 0) -> (forall j, (j < dq_ne q)%nat -> dr_b r j = 0) ->
  (forall c, (c < dqnc q)%nat -> dq_act q c <> 0 -> dr_d r c = 0 /\ dr_m r c = 0) ->
  dq_feasible q (ds_v sol) /\ forall y, dq_feasible q y -> dq_cost q (ds_v sol) <= dq_cost q y.
Proof.
  intros Hwf Hca Hv Hm Hpsd Hcp. cbv zeta. intros Hpos Hg Hb Hdm.
  destruct (C73_residuals cache q sol valid res0 ws0 Hwf Hca Hv) as (A & B & C & E & O). cbv zeta in A, B, C, E, O.
  assert (Hm1 : forall c, (c < dqnc q)%nat -> dq_act q c <> 0 -> dq_mask q c = 1).
  { intros c Hc Hn. unfold dq_act in Hn. destruct (dq_lower q c); [lra|]. destruct (Hm c Hc) as [H|H]; [contradiction|exact H]. }
  assert (Ha1 : forall c, (c < dqnc q)%nat -> dq_act q c <> 0 -> dq_act q c = 1).
  { intros c Hc Hn. pose proof (Hm1 c Hc Hn) as H. unfold dq_act in *. destruct (dq_lower q c); [lra|exact H]. }
  split.
  - split.
    + intros j Hj. rewrite <- B by exact Hj. apply Hb; exact Hj.
    + intros c Hc Hne. specialize (C c Hc). destruct (Hdm c Hc Hne) as [Hd _]. rewrite Hd in C. unfold dq_kkt_d in C.
      destruct (Hpos c Hc Hne) as (_ & Ht & _). rewrite (Hm1 c Hc Hne) in C. lra.
  - intros y Hy.
    pose proof (C73_lower_bound cache q sol valid res0 ws0 y Hwf Hca Hv Hm Hpsd Hcp (fun c Hc Hn => proj1 (Hpos c Hc Hn)) Hy) as H1. cbv zeta in H1.
    rewrite (rsum_0 (dqnv q)) in H1 by (intros k Hk; rewrite Hg by exact Hk; lra).
    pose proof (C73_gap_is_complementarity cache q sol valid res0 ws0 Hwf Hca Hv Hm Hg Hb (fun c Hc Hn => proj1 (Hdm c Hc Hn))) as H2. cbv zeta in H2.
    rewrite (rsum_0 (dqnc q)) in H2.
    2:{ intros c Hc. destruct (Req_dec (dq_act q c) 0) as [E0|Hn]; [rewrite E0; lra|].
        specialize (E c Hc). destruct (Hdm c Hc Hn) as [_ Hz0]. rewrite Hz0 in E. unfold dq_kkt_m in E.
        destruct (Hpos c Hc Hn) as (_ & _ & Hz). rewrite (Hm1 c Hc Hn), Hz in E. lra. }
    rewrite O in H1. lra.
Qed.

(** C73, with tolerances: the reported gap and stationarity norm bound the suboptimality. *)
Theorem C73_suboptimality cache (q : dqcqp R) (sol : dsol R) valid res0 ws0 (y : nat -> R) :
  dqc_wf q -> dq_cache_ok q cache (ds_v sol) (ds_lam sol) -> dq_valid_ok q valid -> dq_mask01 q -> dq_psd q -> dq_con_psd q ->
  (forall c, (c < dqnc q)%nat -> dq_act q c <> 0 -> 0 <= ds_lam sol c) -> dq_feasible q y ->
  let r := fst (dqc_res_compute cache valid q sol res0 ws0) in let '(ng, _, _, _) := dqc_inf_norm q r in
  dq_cost q (ds_v sol) - dq_cost q y <= dr_gap r + ng * rsum (dqnv q) (fun k => Rabs (y k)).
Proof.
  intros Hwf Hca Hv Hm Hpsd Hcp Hl Hf. cbv zeta.
  pose proof (C73_lower_bound cache q sol valid res0 ws0 y Hwf Hca Hv Hm Hpsd Hcp Hl Hf) as H1. cbv zeta in H1.
  destruct (C73_residuals cache q sol valid res0 ws0 Hwf Hca Hv) as (_ & _ & _ & _ & O). cbv zeta in O. rewrite O in H1.
  set (r := fst (dqc_res_compute cache valid q sol res0 ws0)) in *.
  pose proof (C73_norms q r) as Hn. destruct (dqc_inf_norm q r) as [[[a b] c] e]. destruct Hn as ((Ha0 & Ha & _) & _).
  assert (H2 : - (a * rsum (dqnv q) (fun k => Rabs (y k))) <= rsum (dqnv q) (fun k => dr_g r k * y k)).
  { rewrite <- rsum_scal, <- rsum_opp. apply rsum_le. intros k Hk.
    specialize (Ha k Hk). assert (Hab : Rabs (dr_g r k * y k) <= a * Rabs (y k)).
    { rewrite Rabs_mult. apply Rmult_le_compat_r; [apply Rabs_pos|exact Ha]. }
    pose proof (Rle_abs (- (dr_g r k * y k))) as H. rewrite Rabs_Ropp in H. lra. }
  lra.
Qed.

(** A concrete case:  min v0 + v1  s.t.  v1 = 2,  v0^2/2 <= 1/2,  at its optimum (-1, 2) with multipliers pi = 1 and 1; the lower side of the
    quadratic constraint carries junk (mask 1, multiplier 7, slack 1). *)
Definition xdq : dqcqp R := mkdqc 2 1 0 0 1 0 (fun _ _ => 0) (fun _ k => match k with 1%nat => 1 | _ => 0 end) (fun _ _ => 0)
  (fun _ k l => match k, l with 0%nat, 0%nat => 1 | _, _ => 0 end) (fun _ => 1) (fun _ => 2)
  (fun c => match c with 1%nat => - / 2 | _ => 0 end) (fun _ => 1) (fun _ => 0) (fun _ => 0) (fun _ => 0%nat) (fun _ => (-1)%Z).
Definition xds : dsol R := mkdsol (fun k => match k with 0%nat => -1 | _ => 2 end) (fun _ => 1) (fun c => match c with 1%nat => 1 | _ => 7 end) (fun c => match c with 1%nat => 0 | _ => 1 end).
Lemma xdq_wf : dqc_wf xdq. Proof. split; intros j Hj; [cbn in Hj; lia|left; reflexivity]. Qed.
Lemma xdq_01 : dq_mask01 xdq. Proof. intros c _. right. reflexivity. Qed.
Lemma xdq_psd : dq_psd xdq. Proof. intros v. cbn. unfold dq_Hess, H_co. cbn. lra. Qed.
Lemma xdq_cpsd : dq_con_psd xdq.
Proof. intros j v _ _. cbn. unfold dq_Hsym. cbn. pose proof (Rle_0_sqr (v 0%nat)) as H. unfold Rsqr in H. lra. Qed.
Example C73_hypotheses_met (res0 : dres R) ws0 :
  dqc_wf xdq /\ dq_cache_ok xdq None (ds_v xds) (ds_lam xds) /\ dq_valid_ok xdq None /\ dq_mask01 xdq /\ dq_psd xdq /\ dq_con_psd xdq /\ dq_cost xdq (ds_v xds) = 1 /\
  let r := fst (dqc_res_compute None None xdq xds res0 ws0) in
  (forall c, (c < dqnc xdq)%nat -> dq_act xdq c <> 0 -> 0 <= ds_lam xds c /\ 0 <= ds_t xds c /\ dq_m xdq c = 0) /\
  (forall k, (k < dqnv xdq)%nat -> dr_g r k = 0) /\ (forall j, (j < dq_ne xdq)%nat -> dr_b r j = 0) /\
  (forall c, (c < dqnc xdq)%nat -> dq_act xdq c <> 0 -> dr_d r c = 0 /\ dr_m r c = 0).
Proof.
  split; [exact xdq_wf|]. split; [exact I|]. split; [exact I|]. split; [exact xdq_01|]. split; [exact xdq_psd|]. split; [exact xdq_cpsd|].
  split; [unfold dq_cost; cbn; unfold dq_Hess, H_co; cbn; lra|].
  pose proof (C73_residuals None xdq xds None res0 ws0 xdq_wf I I) as (A & B & C & E & _). cbv zeta in *.
  split; [intros [|[|c]] _ _; cbn; repeat split; lra|]. split; [|split].
  - intros k Hk. rewrite A by assumption. cbn in Hk. unfold dq_kkt_g, dq_Hess, H_co, dq_dcon, dq_dtwo, dq_grad, dq_act, dq_lower, dq_Hsym.
    destruct k as [|[|k]]; [cbn; lra|cbn; lra|lia].
  - intros j Hj. rewrite B by assumption. unfold dq_eq. cbn. lra.
  - intros c Hc Hn. rewrite C, E by assumption. cbn in Hc.
    destruct c as [|[|c]]; [|split|lia]; [unfold dq_act, dq_lower in Hn; cbn in Hn; lra| |].
    + unfold dq_kkt_d, dq_con, dq_two, dq_fun, dq_slk, dq_Hsym. cbn. lra.
    + unfold dq_kkt_m, dq_act, dq_lower. cbn. lra.
Qed.

Print Assumptions C73_residuals.
Print Assumptions C73_stationarity_is_gradient.
Print Assumptions C73_gap_identity.
Print Assumptions C73_mu.
Print Assumptions C73_norms.
Print Assumptions C73_lower_bound.
Print Assumptions C73_gap_is_complementarity.
Print Assumptions C73_zero_residuals_optimal.
Print Assumptions C73_suboptimality.
