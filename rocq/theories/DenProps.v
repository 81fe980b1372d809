(** DenProps.v -- C35 (dense QP residuals and optimality certificate).  The specification is DenSpec.v.  Exact arithmetic. *)
From Coq Require Import ZArith Bool Arith List Lia Reals Lra.
From Verif Require Import Base ArithF RSum Blas OcpModel ResSpec ResProofs ResProofs2 ResProps DenModel DenSpec DenProofs.
Local Open Scope R_scope.

(** Whatever was in the residual object and workspace, every entry computed is the KKT residual of the dense QP. *)
Theorem C35_residuals (q : dqp R) (sol : dsol R) valid res0 ws0 : den_wf q -> den_valid_ok q valid ->
  let r := fst (den_res_compute valid q sol res0 ws0) in
  (forall k, (k < dnv q)%nat -> dr_g r k = den_kkt_g q (ds_v sol) (ds_pi sol) (ds_lam sol) k) /\
  (forall j, (j < d_ne q)%nat -> dr_b r j = den_eq q (ds_v sol) j) /\
  (forall c, (c < d_nct q)%nat -> dr_d r c = den_kkt_d q (ds_v sol) (ds_t sol) c) /\
  (forall c, (c < d_nct q)%nat -> dr_m r c = den_kkt_m q (ds_lam sol) (ds_t sol) c).
Proof.
  intros Hwf Hv. cbv zeta. destruct (den_is_one_stage valid q sol res0 ws0) as (A & B & C & E & _).
  destruct (C18_residuals (one_stage q) (one_sol sol) valid (one_res res0) ws0 (one_wf q Hwf) (one_valid q valid Hv)) as (A1 & _ & C1 & E1).
  cbv zeta in A1, C1, E1. set (o := fst (res_compute _ _ _ _ _)) in *. clearbody o.
  rewrite A, B, C, E. destruct (eq_part_R q sol res0 (r_g o 0%nat)) as (P1 & P2 & P3).
  split; [|split; [exact P3|split]].
  - intros k Hk. specialize (A1 0%nat k (Nat.le_refl 0) Hk). cbn [one_sol s_ux s_pi s_lam] in A1. rewrite one_kkt_g in A1.
    destruct (Nat.ltb_spec k (d_nv q)) as [H|H]; [rewrite P1 by exact H|rewrite P2 by exact H]; rewrite A1; lra.
  - intros c Hc. exact (C1 0%nat c (Nat.le_refl 0) Hc).
  - intros c Hc. exact (E1 0%nat c (Nat.le_refl 0) Hc).
Qed.

(** den_kkt_g is the gradient of the Lagrangian. *)
Theorem C35_stationarity_is_gradient (q : dqp R) z pi lam (y : nat -> R) :
  den_lagr q y pi lam = den_lagr q z pi lam + rsum (dnv q) (fun k => den_kkt_g q z pi lam k * (y k - z k))
  + 1 / 2 * rsum (dnv q) (fun k => rsum (dnv q) (fun l => (y k - z k) * den_Hess q k l * (y l - z l))).
Proof. apply den_lagr_expand. Qed.

Theorem C35_objective (q : dqp R) (sol : dsol R) valid res0 ws0 : den_wf q -> den_valid_ok q valid ->
  dr_obj (fst (den_res_compute valid q sol res0 ws0)) = den_cost q (ds_v sol).
Proof.
  intros Hwf Hv. destruct (den_is_one_stage valid q sol res0 ws0) as (_ & _ & _ & _ & E & _). rewrite E.
  rewrite C19_objective by (first [exact (one_wf q Hwf)|exact (one_valid q valid Hv)]). apply one_cost.
Qed.

(** gap = primal objective - Wolfe dual objective *)
Theorem C35_gap_identity (q : dqp R) (sol : dsol R) valid res0 ws0 : den_wf q -> den_valid_ok q valid ->
  let z := ds_v sol in let pi := ds_pi sol in let lam := ds_lam sol in
  dr_gap (fst (den_res_compute valid q sol res0 ws0)) =
  den_cost q z - (den_lagr q z pi lam - rsum (dnv q) (fun k => den_kkt_g q z pi lam k * z k)).
Proof.
  intros Hwf Hv. cbv zeta. destruct (den_is_one_stage valid q sol res0 ws0) as (_ & _ & _ & _ & _ & E & _). rewrite E.
  pose proof (C19_gap_identity (one_stage q) (one_sol sol) valid (one_res res0) ws0 (one_wf q Hwf) (one_valid q valid Hv)) as H. cbv zeta in H. rewrite H. clear H E.
  cbn [one_sol s_ux s_pi s_lam]. rewrite one_cost, one_lagr, dkkt_dot. unfold dot2. change (dN (q_dim (one_stage q)) + 1)%nat with 1%nat.
  set (l1 := lagr _ _ _ _). set (s1 := rsum 1 _).
  assert (Hb : (if (0 <? d_ne q)%nat then DOT (d_ne q) (d_b q) 0 (ds_pi sol) 0 else 0) = rsum (d_ne q) (fun j => d_b q j * ds_pi sol j)).
  { destruct (Nat.ltb_spec 0 (d_ne q)) as [H|H]; [|replace (d_ne q) with 0%nat by lia; reflexivity].
    unfold DOT. rewrite fsum_R. apply rsum_ext. intros j _. cbn [Nat.add]. reflexivity. }
  rewrite Hb.
  assert (Hd : rsum (d_ne q) (fun j => ds_pi sol j * den_eq q (ds_v sol) j) = rsum (d_ne q) (fun j => d_b q j * ds_pi sol j) - rsum (d_ne q) (fun j => ds_pi sol j * rsum (d_nv q) (fun k => d_A q j k * ds_v sol k))).
  { rewrite <- rsum_sub. apply rsum_ext. intros j _. unfold den_eq. lra. }
  rewrite Hd. lra.
Qed.

(** objective - gap (+ res_g . y) bounds the objective of every feasible point from below *)
Theorem C35_lower_bound (q : dqp R) (sol : dsol R) valid res0 ws0 (y : nat -> R) : den_wf q -> den_valid_ok q valid -> den_mask01 q -> den_psd q ->
  (forall c, (c < d_nct q)%nat -> d_mask q c <> 0 -> 0 <= ds_lam sol c) -> den_feasible q y ->
  let r := fst (den_res_compute valid q sol res0 ws0) in
  dr_obj r - dr_gap r + rsum (dnv q) (fun k => dr_g r k * y k) <= den_cost q y.
Proof.
  intros Hwf Hv Hm Hpsd Hl Hf. cbv zeta. rewrite C35_objective, C35_gap_identity by assumption.
  destruct (C35_residuals q sol valid res0 ws0 Hwf Hv) as (A & _). cbv zeta in A.
  rewrite (rsum_ext (dnv q) (fun k => dr_g _ k * y k) (fun k => den_kkt_g q (ds_v sol) (ds_pi sol) (ds_lam sol) k * y k)) by (intros k Hk; rewrite A by exact Hk; reflexivity).
  pose proof (den_lagr_le_cost q (ds_pi sol) (ds_lam sol) y Hf Hm Hl) as H1.
  pose proof (den_lagr_expand q (ds_v sol) (ds_pi sol) (ds_lam sol) y) as H2.
  pose proof (Hpsd (fun k => y k - ds_v sol k)) as H3. cbv beta in H3.
  assert (H4 : rsum (dnv q) (fun k => den_kkt_g q (ds_v sol) (ds_pi sol) (ds_lam sol) k * (y k - ds_v sol k)) =
    rsum (dnv q) (fun k => den_kkt_g q (ds_v sol) (ds_pi sol) (ds_lam sol) k * y k) - rsum (dnv q) (fun k => den_kkt_g q (ds_v sol) (ds_pi sol) (ds_lam sol) k * ds_v sol k)).
  { rewrite <- rsum_sub. apply rsum_ext. intros k _. lra. }
  lra.
Qed.

(** at zero stationarity, equality and inequality residuals the gap is the complementarity sum *)
Theorem C35_gap_is_complementarity (q : dqp R) (sol : dsol R) valid res0 ws0 : den_wf q -> den_valid_ok q valid -> den_mask01 q ->
  let r := fst (den_res_compute valid q sol res0 ws0) in
  (forall k, (k < dnv q)%nat -> dr_g r k = 0) -> (forall j, (j < d_ne q)%nat -> dr_b r j = 0) -> (forall c, (c < d_nct q)%nat -> dr_d r c = 0) ->
  dr_gap r = rsum (d_nct q) (fun c => if Req_EM_T (d_mask q c) 0 then 0 else ds_lam sol c * ds_t sol c).
Proof.
  intros Hwf Hv Hm. cbv zeta. intros Hg Hb Hd. rewrite C35_gap_identity by assumption. cbv zeta.
  destruct (C35_residuals q sol valid res0 ws0 Hwf Hv) as (A & B & C & _). cbv zeta in A, B, C.
  unfold den_lagr. rewrite (rsum_0 (dnv q) (fun k => den_kkt_g _ _ _ _ _ * _)) by (intros k Hk; rewrite <- A, Hg by exact Hk; lra).
  rewrite (rsum_0 (d_ne q)) by (intros j Hj; rewrite <- B, Hb by exact Hj; lra).
  rewrite (rsum_ext (d_nct q) (fun c => d_mask q c * ds_lam sol c * _) (fun c => if Req_EM_T (d_mask q c) 0 then 0 else ds_lam sol c * ds_t sol c)); [lra|].
  intros c Hc. specialize (C c Hc). rewrite Hd in C by exact Hc. unfold den_kkt_d in C. destruct (Hm c Hc) as [H|H]; rewrite H in *.
  - destruct (Req_EM_T 0 0); [lra|contradiction].
  - destruct (Req_EM_T 1 0); [lra|]. replace (den_con q (ds_v sol) c - d_d q c) with (ds_t sol c) by lra. lra.
Qed.

(** zero residuals with nonnegative lam, t and convex cost certify a global minimum *)
Theorem C35_zero_residuals_optimal (q : dqp R) (sol : dsol R) valid res0 ws0 : den_wf q -> den_valid_ok q valid -> den_mask01 q -> den_psd q ->
  let r := fst (den_res_compute valid q sol res0 ws0) in
  (forall c, (c < d_nct q)%nat -> d_mask q c <> 0 -> 0 <= ds_lam sol c /\ 0 <= ds_t sol c /\ d_m q c = 0) ->
  (forall k, (k < dnv q)%nat -> dr_g r k = 0) -> (forall j, (j < d_ne q)%nat -> dr_b r j = 0) ->
  (forall c, (c < d_nct q)%nat -> dr_d r c = 0) -> (forall c, (c < d_nct q)%nat -> dr_m r c = 0) ->
  den_feasible q (ds_v sol) /\ forall y, den_feasible q y -> den_cost q (ds_v sol) <= den_cost q y.
Proof.
  intros Hwf Hv Hm Hpsd. cbv zeta. intros Hpos Hg Hb Hd Hmm.
  destruct (C35_residuals q sol valid res0 ws0 Hwf Hv) as (A & B & C & E). cbv zeta in A, B, C, E. split.
  - split.
    + intros j Hj. rewrite <- B by exact Hj. apply Hb; exact Hj.
    + intros c Hc Hne. specialize (C c Hc). rewrite Hd in C by exact Hc. unfold den_kkt_d in C.
      destruct (Hpos c Hc Hne) as (_ & Ht & _). destruct (Hm c Hc) as [H|H]; [contradiction|]. rewrite H in C. lra.
  - intros y Hy.
    pose proof (C35_lower_bound q sol valid res0 ws0 y Hwf Hv Hm Hpsd (fun c Hc Hn => proj1 (Hpos c Hc Hn)) Hy) as H1. cbv zeta in H1.
    rewrite (rsum_0 (dnv q)) in H1 by (intros k Hk; rewrite Hg by exact Hk; lra).
    pose proof (C35_gap_is_complementarity q sol valid res0 ws0 Hwf Hv Hm Hg Hb Hd) as H2.
    rewrite (rsum_0 (d_nct q)) in H2.
    2:{ intros c Hc. destruct (Req_EM_T (d_mask q c) 0) as [|Hn]; [reflexivity|].
        specialize (E c Hc). rewrite Hmm in E by exact Hc. unfold den_kkt_m in E.
        destruct (Hpos c Hc Hn) as (_ & _ & Hz). destruct (Hm c Hc) as [H|H]; [contradiction|]. rewrite H, Hz in E. lra. }
    rewrite C35_objective in H1 by assumption. lra.
Qed.

(** with tolerances, in terms of the reported norms *)
Theorem C35_norms (q : dqp R) (r : dres R) : let '(a, b, c, e) := den_inf_norm q r in
  max_abs1 (dnv q) (dr_g r) a /\ max_abs1 (d_ne q) (dr_b r) b /\ max_abs1 (d_nct q) (dr_d r) c /\ max_abs1 (d_nct q) (dr_m r) e.
Proof. unfold den_inf_norm. repeat split; apply (VECNRM_INF_R _ _ 0). Qed.

Theorem C35_suboptimality (q : dqp R) (sol : dsol R) valid res0 ws0 (y : nat -> R) : den_wf q -> den_valid_ok q valid -> den_mask01 q -> den_psd q ->
  (forall c, (c < d_nct q)%nat -> d_mask q c <> 0 -> 0 <= ds_lam sol c) -> den_feasible q y ->
  let r := fst (den_res_compute valid q sol res0 ws0) in let '(ng, _, _, _) := den_inf_norm q r in
  den_cost q (ds_v sol) - den_cost q y <= dr_gap r + ng * rsum (dnv q) (fun k => Rabs (y k)).
Proof.
  intros Hwf Hv Hm Hpsd Hl Hf. cbv zeta.
  pose proof (C35_lower_bound q sol valid res0 ws0 y Hwf Hv Hm Hpsd Hl Hf) as H1. cbv zeta in H1. rewrite C35_objective in H1 by assumption.
  set (r := fst _) in *. pose proof (C35_norms q r) as Hn. destruct (den_inf_norm q r) as [[[a b] c] e]. destruct Hn as ((Ha0 & Ha & _) & _).
  assert (H2 : - (a * rsum (dnv q) (fun k => Rabs (y k))) <= rsum (dnv q) (fun k => dr_g r k * y k)).
  { rewrite <- rsum_scal, <- rsum_opp. apply rsum_le. intros k Hk. specialize (Ha k Hk).
    assert (Hab : Rabs (dr_g r k * y k) <= a * Rabs (y k)) by (rewrite Rabs_mult; apply Rmult_le_compat_r; [apply Rabs_pos|exact Ha]).
    pose proof (Rle_abs (- (dr_g r k * y k))). rewrite Rabs_Ropp in H. lra. }
  lra.
Qed.

(** the complementarity measure: average of |res_m| over the active constraints *)
Theorem C35_mu (q : dqp R) (sol : dsol R) res0 ws0 : den_wf q -> den_mask01 q ->
  let r := fst (den_res_compute None q sol res0 ws0) in
  let n_active := rsum (d_nct q) (d_mask q) in
  dr_mu r * n_active = rsum (d_nct q) (fun c => Rabs (den_kkt_m q (ds_lam sol) (ds_t sol) c)) /\ (n_active = 0 -> dr_mu r = 0).
Proof.
  intros Hwf Hm. cbv zeta. destruct (den_is_one_stage None q sol res0 ws0) as (_ & _ & _ & _ & _ & _ & _ & E). rewrite E.
  assert (Hm1 : mask01 (one_stage q)) by (intros i c _ Hc; exact (Hm c Hc)).
  pose proof (C18_mu (one_stage q) (one_sol sol) (one_res res0) ws0 (one_wf q Hwf) Hm1) as (A & B). cbv zeta in A, B.
  change (dN (q_dim (one_stage q)) + 1)%nat with 1%nat in A, B. cbn [rsum] in A, B. rewrite !Rplus_0_l in A. rewrite Rplus_0_l in B. split; [exact A|exact B].
Qed.

(** linearised residual at a step *)
Theorem C35_linear_residuals (q : dqp R) (sol stp : dsol R) valid res0 ws0 : den_wf q ->
  (match valid with None => True | Some mc => mc = true \/ den_masks_one q end) ->
  let r := fst (den_reslin_compute valid q sol stp res0 ws0) in
  (forall k, (k < dnv q)%nat -> dr_g r k = den_kkt_g q (ds_v stp) (ds_pi stp) (ds_lam stp) k) /\
  (forall j, (j < d_ne q)%nat -> dr_b r j = den_eq q (ds_v stp) j) /\
  (forall c, (c < d_nct q)%nat -> dr_d r c = den_kkt_d q (ds_v stp) (ds_t stp) c) /\
  (forall c, (c < d_nct q)%nat -> dr_m r c = d_mask q c * (d_m q c + ds_lam sol c * ds_t stp c + ds_lam stp c * ds_t sol c)).
Proof.
  intros Hwf Hv. cbv zeta. destruct (den_reslin_one_stage valid q sol stp res0 ws0) as (A & B & C & E).
  assert (Hv1 : match valid with None => True | Some mc => mc = true \/ masks_one (q_dim (one_stage q)) (q_mask (one_stage q)) end).
  { destruct valid as [mc|]; [|exact I]. destruct Hv as [H|H]; [left; exact H|right; intros i c _ Hc; exact (H c Hc)]. }
  destruct (C18_linear_residuals (one_stage q) (one_sol sol) (one_sol stp) valid (one_res res0) ws0 (one_wf q Hwf) Hv1) as (A1 & _ & C1 & E1).
  cbv zeta in A1, C1, E1. set (o := fst (reslin_compute _ _ _ _ _ _)) in *. clearbody o.
  rewrite A, B, C, E. destruct (eq_part_R q stp res0 (r_g o 0%nat)) as (P1 & P2 & P3).
  split; [|split; [exact P3|split]].
  - intros k Hk. specialize (A1 0%nat k (Nat.le_refl 0) Hk). cbn [one_sol s_ux s_pi s_lam] in A1. rewrite one_kkt_g in A1.
    destruct (Nat.ltb_spec k (d_nv q)) as [H|H]; [rewrite P1 by exact H|rewrite P2 by exact H]; rewrite A1; lra.
  - intros c Hc. exact (C1 0%nat c (Nat.le_refl 0) Hc).
  - intros c Hc. exact (E1 0%nat c (Nat.le_refl 0) Hc).
Qed.

(** A concrete case: min 1/2 (x^2 + y^2) s.t. x + y = 3, x >= 2 (upper bound masked): optimum x = 2, y = 1, pi = 1, lam = 1. *)
Definition exd : dqp R := mkdqp 2 1 1 0 0 (fun i j => if Nat.eqb i j then 1 else 0) (fun _ _ => 1) (fun _ _ => 0) (fun _ => 0) (fun _ => 3)
  (fun c => match c with 0%nat => 2 | _ => 0 end) (fun c => match c with 0%nat => 1 | _ => 0 end) (fun _ => 0) (fun _ => 0) (fun _ => 0%nat) (fun _ => (-1)%Z).
Definition exds : dsol R := mkdsol (fun k => match k with 0%nat => 2 | _ => 1 end) (fun _ => 1) (fun _ => 1) (fun _ => 0).
Lemma exd_wf : den_wf exd. Proof. split; cbn; intros j Hj; [lia|left; reflexivity]. Qed.
Example C35_hypotheses_met (res0 : dres R) (ws0 : rws R) :
  den_wf exd /\ den_valid_ok exd None /\ den_mask01 exd /\ den_psd exd /\ den_cost exd (ds_v exds) = 5 / 2 /\
  let r := fst (den_res_compute None exd exds res0 ws0) in
  (forall c, (c < d_nct exd)%nat -> d_mask exd c <> 0 -> 0 <= ds_lam exds c /\ 0 <= ds_t exds c /\ d_m exd c = 0) /\
  (forall k, (k < dnv exd)%nat -> dr_g r k = 0) /\ (forall j, (j < d_ne exd)%nat -> dr_b r j = 0) /\
  (forall c, (c < d_nct exd)%nat -> dr_d r c = 0) /\ (forall c, (c < d_nct exd)%nat -> dr_m r c = 0).
Proof.
  split; [exact exd_wf|]. split; [exact I|]. split; [intros c Hc; cbn; destruct c; [right|left]; reflexivity|].
  split. { intros v. cbn. pose proof (Rle_0_sqr (v 0%nat)) as H. pose proof (Rle_0_sqr (v 1%nat)) as H'. unfold Rsqr in *. lra. }
  split; [unfold den_cost; cbn; lra|].
  destruct (C35_residuals exd exds None res0 ws0 exd_wf I) as (A & B & C & E). cbv zeta in *.
  split; [intros; cbn; split; [lra|split; [lra|reflexivity]]|]. split; [|split; [|split]].
  - intros k Hk. rewrite A by exact Hk. cbn in Hk. destruct k as [|[|k]]; [| |lia]; unfold den_kkt_g; cbn; lra.
  - intros j Hj. rewrite B by exact Hj. cbn in Hj. assert (j = 0%nat) by lia; subst j. unfold den_eq. cbn. lra.
  - intros c Hc. rewrite C by exact Hc. cbn in Hc. destruct c as [|[|c]]; [| |lia]; unfold den_kkt_d; cbn; unfold den_con; cbn; lra.
  - intros c Hc. rewrite E by exact Hc. cbn in Hc. destruct c as [|[|c]]; [| |lia]; unfold den_kkt_m; cbn; lra.
Qed.

Print Assumptions C35_residuals.
Print Assumptions C35_lower_bound.
Print Assumptions C35_gap_is_complementarity.
Print Assumptions C35_zero_residuals_optimal.
Print Assumptions C35_suboptimality.
Print Assumptions C35_mu.
Print Assumptions C35_linear_residuals.
