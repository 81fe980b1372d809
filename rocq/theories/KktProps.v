(** KktProps.v -- C27: the interior-point KKT solver (both Riccati algorithms) returns the Newton step; C39: it returns.
    Specification: ResSpec.v (the QP), KktSpec.v.  Exact arithmetic unless said otherwise. *)
From Coq Require Import ZArith Bool Arith Lia Reals Lra.
From Coq Require Import Floats.SpecFloat.
From Verif Require Import Base ArithF RSum Blas Blas2 CoreModel CoreProofs OcpModel ResSpec KktSpec ResProofs ResProps CholProofs CholPD KktModel KktProofs KktProofs2 KktProofs3 KktProofs4 KktProofs5 KktProofs6 KktProofs7.
Local Open Scope R_scope.

(** C27: whatever was in the workspace and the step before, with either algorithm and after any number of regularised retries,
    a returned step solves the Newton system of the QP regularised by reg_diag. *)
Theorem C27_newton_step (a : kargs R) (qp : oqp R) fuel sq tinv0 Gam0 gam0 stp w step preg w' :
  qp_wf qp -> (1 <= dN (q_dim qp))%nat -> soft_inj qp -> mask01 qp -> ipm_point a qp -> BAok qp w -> a_dual a = true ->
  fact_solve_kkt fuel sq a qp tinv0 Gam0 gam0 stp w = Some (step, preg, w') ->
  let D := q_dim qp in
  (forall i k, (i <= dN D)%nat -> (k < nvt D i)%nat -> kkt_g qp (s_ux step) (s_pi step) (s_lam step) i k + reg_diag qp (a_reg a) preg i k * s_ux step i k = 0) /\
  (forall i j, (i < dN D)%nat -> (j < dnx D (S i))%nat -> dyn qp (s_ux step) i j = 0) /\
  (forall i c, (i <= dN D)%nat -> (c < nct D i)%nat -> q_d qp i c + s_t step i c - con qp (s_ux step) i c = 0) /\
  (forall i c, (i <= dN D)%nat -> (c < nct D i)%nat -> q_m qp i c + a_lam a i c * s_t step i c + s_lam step i c * a_t a i c = 0).
Proof.
  intros Hwf HN Hinj Hm Hip HB Hd H. cbv zeta. destruct (fact_solve_R a qp Hwf HN Hinj Hip fuel sq tinv0 Gam0 gam0 stp w step preg w' Hm HB Hd H) as (A & B & C & E).
  split; [|split; [exact B|split; [exact C|exact E]]]. intros i k Hi Hk. rewrite A by assumption. lra.
Qed.

(** C27: the linear residual the library itself computes for that step (OCP_QP_RES_COMPUTE_LIN) is zero, up to the regularisation. *)
Theorem C27_linear_residual (a : kargs R) (qp : oqp R) fuel sq tinv0 Gam0 gam0 stp w step preg w' sol valid res0 ws0 :
  qp_wf qp -> (1 <= dN (q_dim qp))%nat -> soft_inj qp -> mask01 qp -> ipm_point a qp -> BAok qp w -> a_dual a = true ->
  (match valid with None => True | Some mc => mc = true \/ masks_one (q_dim qp) (q_mask qp) end) ->
  (forall i c, s_lam sol i c = a_lam a i c /\ s_t sol i c = a_t a i c) ->
  fact_solve_kkt fuel sq a qp tinv0 Gam0 gam0 stp w = Some (step, preg, w') ->
  let D := q_dim qp in let r := fst (reslin_compute valid qp sol step res0 ws0) in
  (forall i k, (i <= dN D)%nat -> (k < nvt D i)%nat -> r_g r i k = - reg_diag qp (a_reg a) preg i k * s_ux step i k) /\
  (a_reg a = 0 -> preg = 0 -> forall i k, (i <= dN D)%nat -> (k < nvt D i)%nat -> r_g r i k = 0) /\
  (forall i j, (i < dN D)%nat -> (j < dnx D (S i))%nat -> r_b r i j = 0) /\
  (forall i c, (i <= dN D)%nat -> (c < nct D i)%nat -> r_d r i c = 0) /\
  (forall i c, (i <= dN D)%nat -> (c < nct D i)%nat -> r_m r i c = 0).
Proof.
  intros Hwf HN Hinj Hm Hip HB Hd Hv Hsol H. cbv zeta.
  destruct (C27_newton_step a qp fuel sq tinv0 Gam0 gam0 stp w step preg w' Hwf HN Hinj Hm Hip HB Hd H) as (A & B & C & E).
  destruct (C18_linear_residuals qp sol step valid res0 ws0 Hwf Hv) as (A' & B' & C' & E'). cbv zeta in *.
  assert (Ag : forall i k, (i <= dN (q_dim qp))%nat -> (k < nvt (q_dim qp) i)%nat -> r_g (fst (reslin_compute valid qp sol step res0 ws0)) i k = - reg_diag qp (a_reg a) preg i k * s_ux step i k).
  { intros i k Hi Hk. rewrite A' by assumption. specialize (A i k Hi Hk). lra. }
  split; [exact Ag|]. split; [|split; [|split]].
  - intros E1 E2 i k Hi Hk. rewrite Ag by assumption. unfold reg_diag. rewrite E1, E2. destruct (_ || _)%bool; lra.
  - intros i j Hi Hj. rewrite B' by assumption. apply B; assumption.
  - intros i c Hi Hc. rewrite C' by assumption. unfold kkt_d. rewrite C by assumption. lra.
  - intros i c Hi Hc. rewrite E' by assumption. destruct (Hsol i c) as (-> & ->). specialize (E i c Hi Hc). rewrite E. lra.
Qed.

(** C27/C39: for a strictly convex QP at an interior point neither algorithm breaks down: a step is returned by the first attempt
    (any fuel, even 0) and the regularisation stays reg. *)
Theorem C39_convex_returns (a : kargs R) (qp : oqp R) fuel sq tinv0 Gam0 gam0 stp w :
  qp_wf qp -> (1 <= dN (q_dim qp))%nat -> ipm_convex a qp ->
  (a_tlm a <> 1%Z \/ forall i c, (i <= dN (q_dim qp))%nat -> (c < nct (q_dim qp) i)%nat -> a_t_min a <= a_t a i c /\ a_lam_min a <= a_lam a i c) ->
  BAok qp w ->
  exists step w', fact_solve_kkt fuel sq a qp tinv0 Gam0 gam0 stp w = Some (step, a_reg a, w').
Proof.
  intros Hwf HN Hc Hcl HB. set (D := q_dim qp) in *.
  set (Gam := kkt_Gam a qp tinv0 Gam0 gam0). set (gam := kkt_gam a qp tinv0 Gam0 gam0).
  assert (EG : forall i c, (i <= dN D)%nat -> (c < nct D i)%nat -> Gam i c = wgt a i c).
  { intros i c Hi Hk. unfold Gam, kkt_Gam, kkt_Gg, Gamgam. fold D.
    pose proof (compute_Gamma_gamma_spec (a_tlm a) (nct D i) (a_lam a i) (a_t a i) (a_lam_min a) (a_t_min a) (a_t_min_inv a) (q_d qp i) (q_m qp i) (tinv0 i) (Gam0 i) (gam0 i) c) as H.
    destruct (compute_Gamma_gamma _ _ _ _ _ _ _ _ _ _) as [[ti G0] g0]. cbn [fst snd]. destruct H as (H1 & H2 & H3). apply Nat.ltb_lt in Hk as Hc'. rewrite Hc' in *.
    revert H2. rsimp. rewrite R_lit11. intros H2. rewrite H2. unfold wgt.
    destruct (Z.eqb_spec (a_tlm a) 1) as [E|E]; [|unfold Rdiv; lra].
    destruct Hcl as [E'|Hcl]; [contradiction|]. destruct (Hcl i c Hi Hk) as (C1 & C2).
    destruct (Rltb_spec (a_t a i c) (a_t_min a)); [lra|]. destruct (Rltb_spec (a_lam a i c) (a_lam_min a)); [lra|]. unfold Rdiv. lra. }
  assert (HG : forall i c, (i <= dN D)%nat -> (c < nct D i)%nat -> 0 <= Gam i c).
  { intros i c Hi Hk. rewrite EG by assumption. destruct (ic_t _ _ Hc i c Hi Hk). unfold wgt, Rdiv. apply Rmult_le_pos; [assumption|]. left. apply Rinv_0_lt_compat. assumption. }
  assert (Hp : forall i k, (i <= dN D)%nat -> (k < 2 * dns D i)%nat -> 0 < slack_pivot qp (a_reg a) (Gam i) i k).
  { intros i k Hi Hk. unfold slack_pivot. fold D. pose proof (ic_Z _ _ Hc i k Hi Hk) as HZ. fold D in HZ.
    assert (Hg : 0 <= Gam i (2 * dnb D i + 2 * dng D i + k)%nat) by (apply HG; [exact Hi|unfold nct; lia]).
    set (S := rsum _ _). assert (HS : 0 <= S).
    { unfold S. apply rsum_nonneg. intros j Hj. assert (0 <= Gam i j) by (apply HG; [exact Hi|unfold nct; lia]). assert (0 <= Gam i (dnb D i + dng D i + j)%nat) by (apply HG; [exact Hi|unfold nct; lia]).
      assert (0 <= soft_co (q_idxs_rev qp i) 0 j k * Gam i j) by (apply Rmult_le_pos; [apply soft_co_01|assumption]).
      assert (0 <= soft_co (q_idxs_rev qp i) (dns D i) j k * Gam i (dnb D i + dng D i + j)%nat) by (apply Rmult_le_pos; [apply soft_co_01|assumption]). lra. }
    destruct (ic_slack _ _ Hc i k Hi Hk) as [H|H]; [lra|]. fold D in H.
    assert (0 < Gam i (2 * dnb D i + 2 * dng D i + k)%nat); [|lra].
    rewrite EG by (try assumption; unfold nct; lia). destruct (ic_t _ _ Hc i (2 * dnb D i + 2 * dng D i + k)%nat Hi ltac:(fold D; unfold nct; lia)). unfold wgt. apply Rdiv_lt_0_compat; assumption. }
  assert (HH : forall i, (i <= dN D)%nat -> PD (nux qp i) (fun k l => symL (q_RSQ qp i) k l + if (k =? l)%nat then a_reg a else 0)).
  { intros i Hi v Hv. pose proof (ic_H _ _ Hc i v Hi Hv) as H. rewrite quadf_add. unfold quadf.
    replace (rsum (nux qp i) (fun k => rsum (nux qp i) (fun l => v k * symL (q_RSQ qp i) k l * v l))) with (rsum (nux qp i) (fun k => rsum (nux qp i) (fun l => v k * Hess qp i k l * v l))).
    - replace (rsum (nux qp i) (fun k => rsum (nux qp i) (fun l => v k * (if (k =? l)%nat then a_reg a else 0) * v l))) with (a_reg a * rsum (nux qp i) (fun k => v k * v k)); [exact H|].
      rewrite <- rsum_scal. apply rsum_ext. intros k Hk. rewrite (rsum_ext _ _ (fun l => if (l =? k)%nat then a_reg a * (v k * v k) else 0)).
      + rewrite (rsum_one _ k (fun _ => a_reg a * (v k * v k)) Hk). reflexivity.
      + intros l Hl. rewrite (Nat.eqb_sym l k). destruct (Nat.eqb_spec k l) as [-> | ]; ring.
    - apply rsum_ext. intros k Hk. apply rsum_ext. intros l Hl. f_equal. f_equal. unfold Hess, H_co, symL. destruct (Nat.ltb_spec k (nux qp i)); [|lia]. destruct (Nat.ltb_spec l (nux qp i)); [reflexivity|lia]. }
  unfold fact_solve_kkt. assert (E : exists w2, kkt_factor a qp tinv0 Gam0 gam0 fuel sq w = Some (w2, a_reg a)).
  { unfold kkt_factor. fold Gam gam. destruct sq.
    - pose proof (sqrt_nb qp (a_reg a) Gam gam Hwf HG (ic_Z _ _ Hc) Hp HH w HB) as Hs. destruct (fact_sqrt _ _ _ _ _ w) as [w1 sg]. cbn [snd] in Hs. subst sg. eexists. reflexivity.
    - pose proof (cls_nb qp (a_reg a) Gam gam Hwf HG (ic_Z _ _ Hc) Hp HH w HN HB) as Hs. destruct (fact_cls _ _ _ _ _ w) as [w1 sg]. cbn [snd] in Hs. subst sg. eexists. reflexivity. }
  destruct E as (w2 & ->). eexists. eexists. reflexivity.
Qed.

(** C27, total form: strictly convex QP, interior point, masks all one, no regularisation: the step exists and is the exact Newton step. *)
Theorem C27_convex_newton (a : kargs R) (qp : oqp R) fuel sq tinv0 Gam0 gam0 stp w :
  qp_wf qp -> (1 <= dN (q_dim qp))%nat -> soft_inj qp -> masks_one (q_dim qp) (q_mask qp) -> ipm_convex a qp -> a_tlm a <> 1%Z -> a_reg a = 0 -> BAok qp w -> a_dual a = true ->
  let D := q_dim qp in
  exists step w', fact_solve_kkt fuel sq a qp tinv0 Gam0 gam0 stp w = Some (step, 0, w') /\
  (forall i k, (i <= dN D)%nat -> (k < nvt D i)%nat -> kkt_g qp (s_ux step) (s_pi step) (s_lam step) i k = 0) /\
  (forall i j, (i < dN D)%nat -> (j < dnx D (S i))%nat -> dyn qp (s_ux step) i j = 0) /\
  (forall i c, (i <= dN D)%nat -> (c < nct D i)%nat -> q_d qp i c + s_t step i c - con qp (s_ux step) i c = 0) /\
  (forall i c, (i <= dN D)%nat -> (c < nct D i)%nat -> q_m qp i c + a_lam a i c * s_t step i c + s_lam step i c * a_t a i c = 0).
Proof.
  intros Hwf HN Hinj Hm Hc Hcl Hr HB Hd. cbv zeta.
  destruct (C39_convex_returns a qp fuel sq tinv0 Gam0 gam0 stp w Hwf HN Hc (or_introl Hcl) HB) as (step & w' & E). exists step, w'. rewrite Hr in E. split; [exact E|].
  assert (Hp : forall i k, (i <= dN (q_dim qp))%nat -> (k < 2 * dns (q_dim qp) i)%nat -> slack_pivot qp (a_reg a) (wgt a i) i k <> 0).
  { intros i k Hi Hk. set (D := q_dim qp) in *.
    assert (HG : forall c, (c < nct D i)%nat -> 0 <= wgt a i c).
    { intros c Hk'. destruct (ic_t _ _ Hc i c Hi Hk'). unfold wgt, Rdiv. apply Rmult_le_pos; [assumption|]. left. apply Rinv_0_lt_compat. assumption. }
    unfold slack_pivot. fold D. pose proof (ic_Z _ _ Hc i k Hi Hk) as HZ. fold D in HZ.
    assert (Hg : 0 <= wgt a i (2 * dnb D i + 2 * dng D i + k)%nat) by (apply HG; unfold nct; lia).
    set (S := rsum _ _). assert (HS : 0 <= S).
    { unfold S. apply rsum_nonneg. intros j Hj. assert (0 <= wgt a i j) by (apply HG; unfold nct; lia). assert (0 <= wgt a i (dnb D i + dng D i + j)%nat) by (apply HG; unfold nct; lia).
      assert (0 <= soft_co (q_idxs_rev qp i) 0 j k * wgt a i j) by (apply Rmult_le_pos; [apply soft_co_01|assumption]).
      assert (0 <= soft_co (q_idxs_rev qp i) (dns D i) j k * wgt a i (dnb D i + dng D i + j)%nat) by (apply Rmult_le_pos; [apply soft_co_01|assumption]). lra. }
    destruct (ic_slack _ _ Hc i k Hi Hk) as [H|H]; [lra|]. fold D in H.
    assert (0 < wgt a i (2 * dnb D i + 2 * dng D i + k)%nat); [|lra].
    destruct (ic_t _ _ Hc i (2 * dnb D i + 2 * dng D i + k)%nat Hi ltac:(fold D; unfold nct; lia)). unfold wgt. apply Rdiv_lt_0_compat; assumption. }
  assert (Hip : ipm_point a qp).
  { split; [|left; exact Hcl| |exact Hp].
    - intros i c Hi Hk. destruct (ic_t _ _ Hc i c Hi Hk). lra.
    - intros i c Hi Hk H0. rewrite (Hm i c Hi Hk) in H0. lra. }
  assert (Hm01 : mask01 qp) by (intros i c Hi Hk; right; apply Hm; assumption).
  destruct (C27_newton_step a qp fuel sq tinv0 Gam0 gam0 stp w step 0 w' Hwf HN Hinj Hm01 Hip HB Hd E) as (A & B & C & F). cbv zeta in *.
  split; [|split; [exact B|split; [exact C|exact F]]]. intros i k Hi Hk. specialize (A i k Hi Hk). unfold reg_diag in A. rewrite Hr in A. destruct (_ || _)%bool in A; lra.
Qed.

(** A concrete case: two stages, x1 = u0 + b, bound on u0 softened, a masked bound. *)
Definition kxD : dims := mkdims 1 (fun i => match i with 1%nat => 1%nat | _ => 0%nat end) (fun i => match i with 0%nat => 1%nat | _ => 0%nat end)
  (fun _ => 1%nat) (fun _ => 0%nat) (fun i => match i with 0%nat => 1%nat | _ => 0%nat end).
Definition kxqp : oqp R := mkqp kxD (fun _ _ _ => 1) (fun _ _ _ => 1) (fun _ _ _ => 0) (fun _ _ => 3) (fun _ _ => 2)
  (fun _ _ => -1) (fun _ _ => 1) (fun _ _ => 1) (fun _ _ => 1) (fun _ _ => 0%nat) (fun i j => match i with 0%nat => 0%Z | _ => (-1)%Z end).
Definition kxa : kargs R := mkka 0 true 0 (fun _ _ => 2) (fun _ _ => 3) 0 0 0 0.
Example C27_hypotheses_met : qp_wf kxqp /\ (1 <= dN (q_dim kxqp))%nat /\ soft_inj kxqp /\ masks_one (q_dim kxqp) (q_mask kxqp) /\ ipm_convex kxa kxqp /\ a_tlm kxa <> 1%Z /\ a_reg kxa = 0 /\
  nvt (q_dim kxqp) 0 = 3%nat /\ nct (q_dim kxqp) 0 = 4%nat.
Proof.
  split.
  { intros i Hi. cbn in Hi. destruct i as [|[|i]]; [| |lia]; split; cbn; intros j Hj; try lia; auto. }
  split; [cbn; lia|]. split.
  { intros i j j' Hi Hj Hj' _ _. cbn in *. destruct i as [|[|i]]; cbn in *; lia. }
  split; [intros i c _ _; reflexivity|]. split; [|split; [cbn; lia|split; [reflexivity|split; reflexivity]]].
  split; cbn; intros; try lra.
  assert (Hi : i = 0%nat \/ i = 1%nat) by lia. destruct H0 as (k & Hk & Hv). unfold nux in *. destruct Hi as [-> | ->]; cbn in *; assert (k = 0%nat) by lia; subst k; unfold Hess, H_co; cbn; nra.
Qed.

(** Outside soft_inj (two constraints pointing to the same slack) the returned step is not the Newton step: the cross terms are missing.
    binary64 run: two bounds on the two inputs share the slack; the stationarity residual of the returned step is not small. *)
Section Shared.
Let f (z : Z) : spec_float := sf_of_Z z.
Definition shD : dims := mkdims 1 (fun _ => 0%nat) (fun i => match i with 0%nat => 2%nat | _ => 0%nat end) (fun i => match i with 0%nat => 2%nat | _ => 0%nat end) (fun _ => 0%nat) (fun i => match i with 0%nat => 1%nat | _ => 0%nat end).
Definition shqp : oqp spec_float := mkqp shD (fun _ _ _ => f 0) (fun _ i j => if Nat.eqb i j then f 1 else f 0) (fun _ _ _ => f 0) (fun _ _ => f 0) (fun _ _ => f 1)
  (fun _ _ => f 0) (fun _ _ => f 1) (fun _ _ => f 0) (fun _ _ => f 1) (fun _ j => j) (fun _ _ => 0%Z).
Definition sha : kargs spec_float := mkka (f 0) true (f 0) (fun _ _ => f 1) (fun _ _ => f 1) 0 (f 0) (f 0) (f 0).
Definition v0 : nat -> spec_float := fun _ => f 0.
Definition shw : kws spec_float := mkkws (fun _ _ => v0) (fun _ _ => v0) (fun _ => v0) (fun _ _ => v0) (fun _ => v0) (fun _ => v0) (fun _ => v0) (fun _ => v0) (fun _ => v0) v0 (fun _ => v0) (fun _ => v0) (fun _ => v0) (fun _ => v0).
Definition shs0 : osol spec_float := mksol (fun _ => v0) (fun _ => v0) (fun _ => v0) (fun _ => v0).
Definition sh_res (sq : bool) : option (spec_float * spec_float) :=
  match fact_solve_kkt 1 sq sha shqp (fun _ => v0) (fun _ => v0) (fun _ => v0) shs0 shw with
  | None => None
  | Some (step, preg, _) =>
      let r := fst (reslin_compute None shqp (mksol (fun _ => v0) (fun _ => v0) (a_lam sha) (a_t sha)) step (mkres (fun _ => v0) (fun _ => v0) (fun _ => v0) (fun _ => v0) (f 0) (f 0) (f 0) (f 0)) (mkrws v0 v0 v0)) in
      Some (r_g r 0%nat 0%nat, preg)
  end.
End Shared.
Theorem C27_shared_slack_refuted (sq : bool) : exists r, sh_res sq = Some (r, S754_zero false) /\ SFltb (lit 1 10) r = true.
Proof. destruct sq; eexists; split; vm_compute; reflexivity. Qed.

(** C39, the general claim "the KKT solve always returns" is false: a NaN in the input block of the last stage's Hessian makes the
    retry loop run forever (no number of retries ends it), whatever the rest of the problem, the point and the workspace. *)
Section Nan.
Lemma nan_singular n (dA : nat -> spec_float) : (0 < n)%nat -> dA 0%nat = lit 0 1 -> singular n dA = true.
Proof.
  intros Hn H. unfold singular. induction n as [|n IH]; [lia|]. cbn [loop]. destruct n as [|n]; [cbn [loop]; rewrite H; reflexivity|]. rewrite IH by lia. reflexivity.
Qed.
Lemma potrf_dA0 m n (C D : nat -> nat -> spec_float) dA : (0 < n)%nat -> C 0%nat 0%nat = S754_nan -> snd (POTRF_L_MN m n C 0 0 D 0 0 dA) 0%nat = lit 0 1.
Proof.
  intros Hn HC. unfold POTRF_L_MN. induction n as [|n IH]; [lia|]. cbn [loop]. destruct n as [|n].
  - cbn [loop]. unfold potrf_col. cbn [snd Nat.add]. rewrite upd_same. rewrite HC. reflexivity.
  - specialize (IH ltac:(lia)). destruct (loop (S n) _ _) as [D' dA'] eqn:E. unfold potrf_col. cbn [snd] in *. rewrite upd_other by lia. exact IH.
Qed.
Variables (qp : oqp spec_float).
Notation D := (q_dim qp).
Hypothesis Hnu : (0 < dnu D (dN D))%nat.
Hypothesis Hb : dnb D (dN D) = 0%nat.
Hypothesis Hg : dng D (dN D) = 0%nat.
Hypothesis Hnan : q_RSQ qp (dN D) 0%nat 0%nat = S754_nan.
Lemma nan_build reg preg (full : bool) Gamma gamma L s : fst (stage_build (fun L => if full then DIARE (dnu D (dN D) + dnx D (dN D)) preg L 0 0 else DIARE (dnx D (dN D)) reg (DIARE (dnu D (dN D)) preg L 0 0) (dnu D (dN D)) (dnu D (dN D))) reg qp Gamma gamma (dN D) L s) 0%nat 0%nat = S754_nan.
Proof.
  unfold stage_build. destruct s as [[tmp Zs] dux]. rewrite Hb, Hg. cbn [Nat.ltb Nat.leb Nat.add].
  set (n := (dnu D (dN D) + dnx D (dN D))%nat). assert (Hn : (0 < n)%nat) by (unfold n; lia).
  destruct (if (0 <? dns D (dN D))%nat then _ else _) as [[t1 z1] d1]. cbn [fst].
  set (L1 := TRCP_L n (q_RSQ qp (dN D)) 0 0 L 0 0). assert (E1 : L1 0%nat 0%nat = S754_nan).
  { unfold L1, TRCP_L, mupd, low. destruct (Nat.ltb_spec 0 (0 + n)); [|lia]. cbn. exact Hnan. }
  assert (EDn : forall k al (M : nat -> nat -> spec_float), M 0%nat 0%nat = S754_nan -> DIARE k al M 0 0 0%nat 0%nat = S754_nan).
  { intros k al M HM. unfold DIARE, mupd. destruct (_ && _)%bool; [|exact HM]. cbn [Nat.eqb Nat.sub Nat.add]. rewrite HM. reflexivity. }
  assert (EDo : forall k al o (M : nat -> nat -> spec_float), (0 < o)%nat -> M 0%nat 0%nat = S754_nan -> DIARE k al M o o 0%nat 0%nat = S754_nan).
  { intros k al o M Ho HM. unfold DIARE, mupd. destruct (Nat.leb_spec o 0); [lia|]. exact HM. }
  unfold ROWIN, mblk. destruct (Nat.leb_spec n 0); [lia|]. cbn [andb].
  destruct full; [apply EDn; exact E1|apply EDo; [exact Hnu|apply EDn; exact E1]].
Qed.
Lemma nan_last_sqrt reg preg Gam gam w : snd (fact_sqrt_last reg preg qp Gam gam w) = true.
Proof.
  unfold fact_sqrt_last. pose proof (nan_build reg preg true (Gam (dN D)) (gam (dN D)) (k_L w (dN D)) (k_tmp w, k_Zs w (dN D), k_ux w (dN D))) as H. cbv iota in H.
  destruct (stage_build _ _ _ _ _ _ _ _) as [L [[tmp Zs] dux]]. cbn [fst] in H. rewrite Hg. cbn [Nat.ltb Nat.leb].
  pose proof (potrf_dA0 (dnu D (dN D) + dnx D (dN D) + 1) (dnu D (dN D) + dnx D (dN D)) L L (k_dA w (dN D)) ltac:(lia) H) as HP. destruct (POTRF_L_MN _ _ _ _ _ _ _ _ _) as [L0 dA]. cbn [snd] in *.
  apply nan_singular; [lia|exact HP].
Qed.
Lemma nan_last_cls reg preg Gam gam w : snd (fact_cls_last reg preg qp Gam gam w) = true.
Proof.
  unfold fact_cls_last. pose proof (nan_build reg preg false (Gam (dN D)) (gam (dN D)) (k_L w (dN D)) (k_tmp w, k_Zs w (dN D), k_ux w (dN D))) as H. cbv iota in H.
  destruct (stage_build _ _ _ _ _ _ _ _) as [L [[tmp Zs] dux]]. cbn [fst] in H. rewrite Hg. cbn [Nat.ltb Nat.leb].
  pose proof (potrf_dA0 (dnu D (dN D) + dnx D (dN D) + 1) (dnu D (dN D)) L L (k_dA w (dN D)) Hnu H) as HP. destruct (POTRF_L_MN _ _ _ _ _ _ _ _ _) as [L0 dA]. destruct (P_of_L _ _ _ _ _) as [Ls P]. cbn [snd] in *.
  apply nan_singular; [exact Hnu|exact HP].
Qed.
Lemma nan_sqrt reg preg Gam gam w : snd (fact_sqrt reg preg qp Gam gam w) = true.
Proof.
  unfold fact_sqrt. generalize (dN D) at 1. intros K. induction K as [|K IH]; cbn [loop]; [apply nan_last_sqrt|]. destruct (loop K _ _) as [w1 b]. cbn [snd] in IH. subst b. reflexivity.
Qed.
Lemma nan_cls reg preg Gam gam w : snd (fact_cls reg preg qp Gam gam w) = true.
Proof.
  unfold fact_cls. assert (H : forall K, snd (loop K (fun nn '(w, sg) => if (sg : bool) then (w, sg) else fact_cls_mid false reg preg qp Gam gam (dN D - nn - 1) w) (fact_cls_last reg preg qp Gam gam w)) = true).
  { induction K as [|K IH]; cbn [loop]; [apply nan_last_cls|]. destruct (loop K _ _) as [w1 b]. cbn [snd] in IH. subst b. reflexivity. }
  specialize (H (dN D - 1)%nat). destruct (loop _ _ _) as [w1 b]. cbn [snd] in H. subst b. reflexivity.
Qed.
Lemma nan_retry fuel reg last Gam gam : forall init preg w, retry fuel reg last qp Gam gam init preg w = None.
Proof.
  induction fuel as [|fuel IH]; intros init preg w; [reflexivity|]. cbn [retry]. set (p := next_preg _ _ _ _). pose proof (nan_cls reg p Gam gam w) as H. destruct (fact_cls _ _ _ _ _ _) as [w1 b]. cbn [snd] in H. subst b. apply IH.
Qed.
End Nan.
Theorem C39_nan_hessian_never_returns_refuted (qp : oqp spec_float) (a : kargs spec_float) fuel sq tinv0 Gam0 gam0 stp w :
  let N := dN (q_dim qp) in
  (0 < dnu (q_dim qp) N)%nat -> dnb (q_dim qp) N = 0%nat -> dng (q_dim qp) N = 0%nat -> q_RSQ qp N 0%nat 0%nat = S754_nan ->
  fact_solve_kkt fuel sq a qp tinv0 Gam0 gam0 stp w = None.
Proof.
  cbv zeta. intros Hnu Hb Hg Hn. unfold fact_solve_kkt, kkt_factor. destruct sq.
  - pose proof (nan_sqrt qp Hnu Hb Hg Hn (a_reg a) (a_reg a) (kkt_Gam a qp tinv0 Gam0 gam0) (kkt_gam a qp tinv0 Gam0 gam0) w) as H. destruct (fact_sqrt _ _ _ _ _ _) as [w1 b]. cbn [snd] in H. subst b. rewrite nan_retry by assumption. reflexivity.
  - pose proof (nan_cls qp Hnu Hb Hg Hn (a_reg a) (a_reg a) (kkt_Gam a qp tinv0 Gam0 gam0) (kkt_gam a qp tinv0 Gam0 gam0) w) as H. destruct (fact_cls _ _ _ _ _ _) as [w1 b]. cbn [snd] in H. subst b. rewrite nan_retry by assumption. reflexivity.
Qed.
(** such problems exist: one input per stage, NaN weight on the last one *)
Example C39_nan_instance : exists qp : oqp spec_float, let N := dN (q_dim qp) in
  (0 < dnu (q_dim qp) N)%nat /\ dnb (q_dim qp) N = 0%nat /\ dng (q_dim qp) N = 0%nat /\ q_RSQ qp N 0%nat 0%nat = S754_nan.
Proof.
  exists (mkqp (mkdims 2 (fun _ => 1%nat) (fun _ => 1%nat) (fun _ => 0%nat) (fun _ => 0%nat) (fun _ => 0%nat)) (fun _ _ _ => sf_of_Z 1) (fun i _ _ => if Nat.eqb i 2 then S754_nan else sf_of_Z 1)
    (fun _ _ _ => sf_of_Z 0) (fun _ _ => sf_of_Z 0) (fun _ _ => sf_of_Z 0) (fun _ _ => sf_of_Z 0) (fun _ _ => sf_of_Z 1) (fun _ _ => sf_of_Z 0) (fun _ _ => sf_of_Z 0) (fun _ _ => 0%nat) (fun _ _ => (-1)%Z)).
  cbn. repeat split; auto.
Qed.

Print Assumptions C27_newton_step.
Print Assumptions C27_linear_residual.
Print Assumptions C27_convex_newton.
Print Assumptions C27_shared_slack_refuted.
Print Assumptions C39_convex_returns.
Print Assumptions C39_nan_hessian_never_returns_refuted.
