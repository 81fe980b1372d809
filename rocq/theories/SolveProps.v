(** SolveProps.v -- C45: re-solving with a stored factorisation.
    Once a KKT matrix has been factorised at an interior point, OCP_QP_SOLVE_KKT_STEP returns the Newton solution of every other right-hand side
    (gradients, dynamics offsets, constraint and complementarity vectors), as often as it is called.
    Specification: ResSpec.v (the QP), KktSpec.v and the definitions below.  Exact arithmetic unless said otherwise. *)
From Coq Require Import ZArith Bool Arith Lia Reals Lra.
From Coq Require Import Floats.SpecFloat.
From Verif Require Import Base ArithF RSum Blas Blas2 CoreModel CoreProofs OcpModel ResSpec KktSpec ResProofs ResProps CholProofs CholPD KktModel KktProofs KktProofs2 KktProofs3 KktProofs4 KktProofs5 KktProofs6 KktProofs7 KktProps.
From Verif Require Import SolveModel SolveProofs SolveProofs2 SolveProofs3 SolveProofs4 NewtonUniq.
Local Open Scope R_scope.

(** the offsets b of the dynamics are those of the factorised problem (the stored products P*b may then be used) *)
Definition same_b (qp : oqp R) (b : nat -> nat -> R) : Prop := forall i j, (i < dN (q_dim qp))%nat -> (j < dnx (q_dim qp) (S i))%nat -> b i j = q_b qp i j.
(** workspaces reachable from w by any number of solves: any right-hand sides, any previous content of the solution structs,
    with or without the stored products P*b ([pb]: the factorisation has stored them) *)
Inductive solves (pb sq : bool) (a : kargs R) (qp : oqp R) (tinv Gam : nat -> nat -> R) (w : kws R) : kws R -> Prop :=
| solves_0 : solves pb sq a qp tinv Gam w w
| solves_S w1 usePb g b d m gam0 stp : solves pb sq a qp tinv Gam w w1 -> (usePb = true -> pb = true /\ same_b qp b) ->
    solves pb sq a qp tinv Gam w (snd (solve_kkt sq usePb a (with_rhs qp g b d m) tinv Gam gam0 stp w1)).

Section Gen.
Variables (a : kargs R) (qp : oqp R) (tinv Gam : nat -> rvec) (pb sq : bool) (preg : R).
Notation D := (q_dim qp).
Notation N := (dN D).
Hypothesis Hwf : qp_wf qp.
Hypothesis HN : (1 <= N)%nat.
Hypothesis Hinj : soft_inj qp.
Hypothesis Hip : ipm_point a qp.
Hypothesis Hm : mask01 qp.
Hypothesis Hdual : a_dual a = true.
Hypothesis HtG : forall ss c, (ss <= N)%nat -> (c < nct D ss)%nat -> tinv ss c = 1 / a_t a ss c /\ Gam ss c = wgt a ss c.
Notation rho := (reg_diag qp (a_reg a) preg).

Lemma Pb_rhs w g b d m : same_b qp b -> Pb_ok qp sq w -> Pb_ok (with_rhs qp g b d m) sq w.
Proof.
  intros Hb H ss k Hss Hk. cbn [q_dim with_rhs] in Hss, Hk. rewrite (H ss k Hss Hk). cbn [q_dim q_b with_rhs].
  apply rsum_ext. intros l Hl. rewrite <- (Hb ss l Hss Hl). reflexivity.
Qed.
Lemma ip_rhs g b d m : (forall i c, (i <= N)%nat -> (c < nct D i)%nat -> q_mask qp i c = 0 -> m i c = 0) -> ipm_point a (with_rhs qp g b d m).
Proof.
  intros H. split.
  - exact (ip_t _ _ Hip).
  - exact (ip_clip _ _ Hip).
  - intros i c Hi Hc E. split; [apply (ip_mask _ _ Hip i c Hi Hc E)|apply H; assumption].
  - exact (ip_piv _ _ Hip).
Qed.
Lemma solves_keep w w1 : lhs_ok qp (a_reg a) Gam sq rho w -> (pb = true -> Pb_ok qp sq w) -> solves pb sq a qp tinv Gam w w1 -> same_lhs w w1.
Proof.
  intros HL HP H. induction H as [|w1 usePb g b d m gam0 stp H IH Hb]; [apply same_refl|].
  eapply same_trans; [exact IH|]. destruct (solve_kkt _ _ _ _ _ _ _ _ _) as [st w2] eqn:E. cbn [snd].
  eapply (solve_keeps a (with_rhs qp g b d m) Hwf HN Hdual tinv Gam sq usePb preg); [| |exact E].
  - exact (same_ok qp (a_reg a) Gam sq rho w w1 IH HL).
  - intros Eu. destruct (Hb Eu) as (Ep & Eb). apply Pb_rhs; [exact Eb|]. exact (same_Pb qp sq w w1 IH (HP Ep)).
Qed.
Lemma solves_R w w1 usePb g b d m gam1 stp1 : lhs_ok qp (a_reg a) Gam sq rho w -> (pb = true -> Pb_ok qp sq w) -> solves pb sq a qp tinv Gam w w1 ->
  (forall i c, (i <= N)%nat -> (c < nct D i)%nat -> q_mask qp i c = 0 -> m i c = 0) -> (usePb = true -> pb = true /\ same_b qp b) ->
  newton_solution a (with_rhs qp g b d m) preg (fst (solve_kkt sq usePb a (with_rhs qp g b d m) tinv Gam gam1 stp1 w1)).
Proof.
  intros HL HP HS Hmm Hb. destruct (solve_kkt _ _ _ _ _ _ _ _ _) as [step w2] eqn:E. cbn [fst].
  pose proof (solves_keep w w1 HL HP HS) as K.
  destruct (solve_R a (with_rhs qp g b d m) Hwf HN Hinj (ip_rhs g b d m Hmm) Hm Hdual tinv Gam HtG sq usePb preg gam1 stp1 w1 step w2
    (same_ok qp (a_reg a) Gam sq rho w w1 K HL) (fun Eu => Pb_rhs w1 g b d m (proj2 (Hb Eu)) (same_Pb qp sq w w1 K (HP (proj1 (Hb Eu))))) E) as (A & B & C & F).
  split; [|split; [exact B|split; [exact C|exact F]]]. intros i k Hi Hk. rewrite A by assumption. lra.
Qed.
End Gen.

(** C45: after a factorisation that needed no regularised retry (square-root algorithm) or with the classical algorithm and any number of
    retries, every later solve is exact, whatever happened to the workspace through earlier solves. *)
Theorem C45_resolve (a : kargs R) (qp : oqp R) fuel sq tinv0 Gam0 gam0 stp w step0 preg w0 w1 usePb g b d m gam1 stp1 :
  qp_wf qp -> (1 <= dN (q_dim qp))%nat -> soft_inj qp -> mask01 qp -> ipm_point a qp -> BAok qp w -> a_dual a = true ->
  sq = false \/ fuel = 0%nat ->
  fact_solve_kkt fuel sq a qp tinv0 Gam0 gam0 stp w = Some (step0, preg, w0) ->
  let tinv := kkt_tinv a qp tinv0 Gam0 gam0 in let Gam := kkt_Gam a qp tinv0 Gam0 gam0 in
  solves true sq a qp tinv Gam w0 w1 ->
  (forall i c, (i <= dN (q_dim qp))%nat -> (c < nct (q_dim qp) i)%nat -> q_mask qp i c = 0 -> m i c = 0) ->
  (usePb = true -> same_b qp b) ->
  newton_solution a (with_rhs qp g b d m) preg (fst (solve_kkt sq usePb a (with_rhs qp g b d m) tinv Gam gam1 stp1 w1)).
Proof.
  intros Hwf HN Hinj Hm Hip HB Hd Hsq H. cbv zeta. intros HS Hmm Hb. unfold fact_solve_kkt in H.
  destruct (kkt_factor a qp tinv0 Gam0 gam0 fuel sq w) as [[w2 p2]|] eqn:E; [|discriminate]. apply Some_inj, pair_inj in H. destruct H as (H & <-). apply pair_inj in H. destruct H as (_ & <-).
  destruct (factor_lhs a qp Hwf HN tinv0 Gam0 gam0 fuel sq w w2 p2 HB E) as (L1 & L2).
  { intros ->. destruct Hsq as [Hsq| ->]; [discriminate|]. unfold kkt_factor in E. destruct (fact_sqrt _ _ _ _ _ w) as [w3 [|]]; [discriminate|reflexivity]. }
  eapply solves_R with (pb := true); try eassumption.
  - intros ss c Hss Hc. destruct (Gamgam_R a qp Hip tinv0 Gam0 gam0 ss c Hss Hc) as (G1 & G2 & _). split; assumption.
  - intros _. exact L2.
  - intros Eu. split; [reflexivity|auto].
Qed.

(** Strict convexity: what the factorisations need. *)
Section Convex.
Variables (a : kargs R) (qp : oqp R).
Notation D := (q_dim qp).
Notation N := (dN D).
Hypothesis Hc : ipm_convex a qp.
Lemma cx_wgt i c : (i <= N)%nat -> (c < nct D i)%nat -> 0 <= wgt a i c.
Proof. intros Hi Hk. destruct (ic_t _ _ Hc i c Hi Hk). unfold wgt, Rdiv. apply Rmult_le_pos; [assumption|]. left. apply Rinv_0_lt_compat. assumption. Qed.
Lemma cx_piv i k : (i <= N)%nat -> (k < 2 * dns D i)%nat -> 0 < slack_pivot qp (a_reg a) (wgt a i) i k.
Proof.
  intros Hi Hk. pose proof (fun c => cx_wgt i c Hi) as HG.
  unfold slack_pivot. pose proof (ic_Z _ _ Hc i k Hi Hk) as HZ.
  assert (Hg : 0 <= wgt a i (2 * dnb D i + 2 * dng D i + k)%nat) by (apply HG; unfold nct; lia).
  set (S := rsum _ _). assert (HS : 0 <= S).
  { unfold S. apply rsum_nonneg. intros j Hj. assert (0 <= wgt a i j) by (apply HG; unfold nct; lia). assert (0 <= wgt a i (dnb D i + dng D i + j)%nat) by (apply HG; unfold nct; lia).
    assert (0 <= soft_co (q_idxs_rev qp i) 0 j k * wgt a i j) by (apply Rmult_le_pos; [apply soft_co_01|assumption]).
    assert (0 <= soft_co (q_idxs_rev qp i) (dns D i) j k * wgt a i (dnb D i + dng D i + j)%nat) by (apply Rmult_le_pos; [apply soft_co_01|assumption]). lra. }
  destruct (ic_slack _ _ Hc i k Hi Hk) as [H|H]; [lra|].
  assert (0 < wgt a i (2 * dnb D i + 2 * dng D i + k)%nat); [|lra].
  destruct (ic_t _ _ Hc i (2 * dnb D i + 2 * dng D i + k)%nat Hi ltac:(unfold nct; lia)). unfold wgt. apply Rdiv_lt_0_compat; assumption.
Qed.
Lemma cx_pd i : (i <= N)%nat -> PD (nux qp i) (fun k l => symL (q_RSQ qp i) k l + if (k =? l)%nat then a_reg a else 0).
Proof.
  intros Hi v Hv. pose proof (ic_H _ _ Hc i v Hi Hv) as H. rewrite quadf_add. unfold quadf.
  replace (rsum (nux qp i) (fun k => rsum (nux qp i) (fun l => v k * symL (q_RSQ qp i) k l * v l))) with (rsum (nux qp i) (fun k => rsum (nux qp i) (fun l => v k * Hess qp i k l * v l))).
  - replace (rsum (nux qp i) (fun k => rsum (nux qp i) (fun l => v k * (if (k =? l)%nat then a_reg a else 0) * v l))) with (a_reg a * rsum (nux qp i) (fun k => v k * v k)); [exact H|].
    rewrite <- rsum_scal. apply rsum_ext. intros k Hk. rewrite (rsum_ext _ _ (fun l => if (l =? k)%nat then a_reg a * (v k * v k) else 0)).
    + rewrite (rsum_one _ k (fun _ => a_reg a * (v k * v k)) Hk). reflexivity.
    + intros l Hl. rewrite (Nat.eqb_sym l k). destruct (Nat.eqb_spec k l) as [-> | ]; ring.
  - apply rsum_ext. intros k Hk. apply rsum_ext. intros l Hl. f_equal. f_equal. unfold Hess, H_co, symL. destruct (Nat.ltb_spec k (nux qp i)); [|lia]. destruct (Nat.ltb_spec l (nux qp i)); [reflexivity|lia].
Qed.
Lemma cx_point : masks_one D (q_mask qp) -> a_tlm a <> 1%Z -> ipm_point a qp.
Proof.
  intros Hm Hcl. split; [|left; exact Hcl| |].
  - intros i c Hi Hk. destruct (ic_t _ _ Hc i c Hi Hk). lra.
  - intros i c Hi Hk H0. rewrite (Hm i c Hi Hk) in H0. lra.
  - intros i k Hi Hk. pose proof (cx_piv i k Hi Hk). lra.
Qed.
End Convex.

(** C45, total form: strictly convex QP at an interior point, masks all one, no regularisation; either algorithm; any later right-hand side. *)
Theorem C45_convex_resolve (a : kargs R) (qp : oqp R) fuel sq tinv0 Gam0 gam0 stp w :
  qp_wf qp -> (1 <= dN (q_dim qp))%nat -> soft_inj qp -> masks_one (q_dim qp) (q_mask qp) -> ipm_convex a qp -> a_tlm a <> 1%Z -> BAok qp w -> a_dual a = true ->
  let tinv := kkt_tinv a qp tinv0 Gam0 gam0 in let Gam := kkt_Gam a qp tinv0 Gam0 gam0 in
  exists step0 w0, fact_solve_kkt fuel sq a qp tinv0 Gam0 gam0 stp w = Some (step0, a_reg a, w0) /\
  forall w1 usePb g b d m gam1 stp1, solves true sq a qp tinv Gam w0 w1 -> (usePb = true -> same_b qp b) ->
    newton_solution a (with_rhs qp g b d m) (a_reg a) (fst (solve_kkt sq usePb a (with_rhs qp g b d m) tinv Gam gam1 stp1 w1)).
Proof.
  intros Hwf HN Hinj Hm Hc Hcl HB Hd. cbv zeta.
  assert (E : forall f, exists step w', fact_solve_kkt f sq a qp tinv0 Gam0 gam0 stp w = Some (step, a_reg a, w')) by (intros f; apply C39_convex_returns; auto).
  destruct (E fuel) as (step & w0 & E1). exists step, w0. split; [exact E1|]. intros w1 usePb g b d m gam1 stp1 HS Hb.
  assert (E0 : fact_solve_kkt 0 sq a qp tinv0 Gam0 gam0 stp w = Some (step, a_reg a, w0)).
  { destruct (E 0%nat) as (step' & w0' & E0). rewrite <- E1. revert E0. unfold fact_solve_kkt, kkt_factor. destruct (if sq then _ else _) as [w3 [|]]; [discriminate|reflexivity]. }
  eapply C45_resolve with (fuel := 0%nat); try eassumption.
  - intros i c Hi Hk. right. apply Hm; assumption.
  - apply cx_point; assumption.
  - right. reflexivity.
  - intros i c Hi Hk H0. rewrite (Hm i c Hi Hk) in H0. lra.
Qed.

(** the entries of two steps that belong to the problem coincide *)
Definition same_step (D : dims) (s1 s2 : osol R) : Prop :=
  (forall i k, (i <= dN D)%nat -> (k < nvt D i)%nat -> s_ux s1 i k = s_ux s2 i k) /\
  (forall i j, (i < dN D)%nat -> (j < dnx D (S i))%nat -> s_pi s1 i j = s_pi s2 i j) /\
  (forall i c, (i <= dN D)%nat -> (c < nct D i)%nat -> s_lam s1 i c = s_lam s2 i c) /\
  (forall i c, (i <= dN D)%nat -> (c < nct D i)%nat -> s_t s1 i c = s_t s2 i c).
(** C27: for a strictly convex QP at an interior point the Newton system determines the step (masked constraints carry no multiplier). *)
Theorem C27_newton_unique (a : kargs R) (qp : oqp R) s1 s2 : ipm_convex a qp -> mask01 qp ->
  (forall i c, (i <= dN (q_dim qp))%nat -> (c < nct (q_dim qp) i)%nat -> q_mask qp i c = 0 -> a_lam a i c = 0) ->
  newton_solution a qp (a_reg a) s1 -> newton_solution a qp (a_reg a) s2 -> same_step (q_dim qp) s1 s2.
Proof. intros Hc Hm Hl H1 H2. exact (newton_unique_mask a qp s1 s2 Hc Hm Hl H1 H2). Qed.
(** C45: both algorithms, the first solve and any later re-solve of the same right-hand side give the same step (strictly convex QP). *)
Theorem C45_same_step (a : kargs R) (qp : oqp R) fuel sq tinv0 Gam0 gam0 stp w fuel' sq' tinv0' Gam0' gam0' stp' w' gX bX dX mX usePb gam1 stp1 :
  qp_wf qp -> (1 <= dN (q_dim qp))%nat -> soft_inj qp -> masks_one (q_dim qp) (q_mask qp) -> ipm_convex a qp -> a_tlm a <> 1%Z -> BAok qp w -> BAok qp w' -> a_dual a = true ->
  (usePb = true -> same_b (with_rhs qp gX bX dX mX) (q_b qp)) ->
  exists step w1 step0 preg0 w2,
  fact_solve_kkt fuel sq a qp tinv0 Gam0 gam0 stp w = Some (step, a_reg a, w1) /\
  fact_solve_kkt fuel' sq' a (with_rhs qp gX bX dX mX) tinv0' Gam0' gam0' stp' w' = Some (step0, preg0, w2) /\
  same_step (q_dim qp) step (fst (solve_kkt sq' usePb a qp (kkt_tinv a (with_rhs qp gX bX dX mX) tinv0' Gam0' gam0') (kkt_Gam a (with_rhs qp gX bX dX mX) tinv0' Gam0' gam0') gam1 stp1 w2)).
Proof.
  intros Hwf HN Hinj Hm Hc Hcl HB HB' Hd Hb.
  destruct (C39_convex_returns a qp fuel sq tinv0 Gam0 gam0 stp w Hwf HN Hc (or_introl Hcl) HB) as (step & w1 & E).
  assert (Hc' : ipm_convex a (with_rhs qp gX bX dX mX)). { split; [exact (ic_t _ _ Hc)|exact (ic_Z _ _ Hc)|exact (ic_slack _ _ Hc)|exact (ic_H _ _ Hc)]. }
  destruct (C45_convex_resolve a (with_rhs qp gX bX dX mX) fuel' sq' tinv0' Gam0' gam0' stp' w' Hwf HN Hinj Hm Hc' Hcl HB' Hd) as (step0 & w2 & E0 & HS).
  exists step, w1, step0, (a_reg a), w2. split; [exact E|]. split; [exact E0|].
  specialize (HS w2 usePb (q_rqz qp) (q_b qp) (q_d qp) (q_m qp) gam1 stp1 (solves_0 _ _ _ _ _ _ _) Hb).
  assert (Eq : with_rhs (with_rhs qp gX bX dX mX) (q_rqz qp) (q_b qp) (q_d qp) (q_m qp) = qp) by (destruct qp; reflexivity).
  rewrite Eq in HS.
  assert (H1 : newton_solution a qp (a_reg a) step).
  { assert (Hm01 : mask01 qp) by (intros i c Hi Hk; right; apply Hm; assumption). exact (C27_newton_step a qp fuel sq tinv0 Gam0 gam0 stp w step (a_reg a) w1 Hwf HN Hinj Hm01 (cx_point a qp Hc Hm Hcl) HB Hd E). }
  apply (C27_newton_unique a qp); try assumption.
  - intros i c Hi Hk. right. apply Hm; assumption.
  - intros i c Hi Hk H0. rewrite (Hm i c Hi Hk) in H0. lra.
Qed.

(** C45, factorisation alone (OCP_QP_FACT_KKT_STEP, used for the sensitivities after the last iteration) followed by any number of solves;
    this factorisation does not store the products P*b. *)
Theorem C45_factorise_then_solve (a : kargs R) (qp : oqp R) sq tinv0 Gam0 w w1 g b d m gam1 stp1 :
  qp_wf qp -> (1 <= dN (q_dim qp))%nat -> soft_inj qp -> masks_one (q_dim qp) (q_mask qp) -> ipm_convex a qp -> a_tlm a <> 1%Z -> BAok qp w -> a_dual a = true ->
  let tinv := kf_tinv a qp tinv0 Gam0 in let Gam := kf_Gam a qp tinv0 Gam0 in
  solves false sq a qp tinv Gam (fact_kkt sq a qp tinv0 Gam0 w) w1 ->
  newton_solution a (with_rhs qp g b d m) (a_reg a) (fst (solve_kkt sq false a (with_rhs qp g b d m) tinv Gam gam1 stp1 w1)).
Proof.
  intros Hwf HN Hinj Hm Hc Hcl HB Hd. cbv zeta. intros HS.
  pose proof (cx_point a qp Hc Hm Hcl) as Hip.
  assert (HtG : forall ss c, (ss <= dN (q_dim qp))%nat -> (c < nct (q_dim qp) ss)%nat -> kf_tinv a qp tinv0 Gam0 ss c = 1 / a_t a ss c /\ kf_Gam a qp tinv0 Gam0 ss c = wgt a ss c).
  { intros ss c Hss Hk. unfold kf_tinv, kf_Gam, kf_tG.
    pose proof (compute_Ggamma_spec (a_tlm a) (nct (q_dim qp) ss) (a_lam a ss) (a_t a ss) (a_lam_min a) (a_t_min a) (a_t_min_inv a) (tinv0 ss) (Gam0 ss) c) as H.
    destruct (compute_Ggamma _ _ _ _ _ _ _ _) as [ti G0]. cbn [fst snd]. destruct H as (H1 & H2). apply Nat.ltb_lt in Hk as Hk'. rewrite Hk' in *.
    revert H1 H2. rsimp. rewrite R_lit11. intros H1 H2. split; [exact H1|]. rewrite H2. unfold wgt. apply Z.eqb_neq in Hcl. rewrite Hcl. unfold Rdiv. lra. }
  set (tinv := kf_tinv a qp tinv0 Gam0) in *. set (Gam := kf_Gam a qp tinv0 Gam0) in *.
  assert (HL : lhs_ok qp (a_reg a) Gam sq (reg_diag qp (a_reg a) (a_reg a)) (fact_kkt sq a qp tinv0 Gam0 w)).
  { unfold fact_kkt. fold Gam. eapply fact_kkt_lhs; try eassumption.
    intros ss Hss. apply stH_pd; try assumption.
    - intros i c Hi Hk. destruct (HtG i c Hi Hk) as (_ & ->). apply (cx_wgt a qp Hc); assumption.
    - apply Hc.
    - intros i k Hi Hk. replace (slack_pivot qp (a_reg a) (Gam i) i k) with (slack_pivot qp (a_reg a) (wgt a i) i k); [apply cx_piv; assumption|].
      unfold slack_pivot. f_equal; [f_equal; symmetry; apply HtG; [exact Hi|unfold nct; lia]|]. apply rsum_ext. intros j Hj.
      destruct (HtG i j Hi ltac:(unfold nct; lia)) as (_ & ->). destruct (HtG i (dnb (q_dim qp) i + dng (q_dim qp) i + j)%nat Hi ltac:(unfold nct; lia)) as (_ & ->). reflexivity.
    - intros i Hi. apply cx_pd; assumption.
    - reflexivity. }
  eapply solves_R with (pb := false); try eassumption.
  - intros i c Hi Hk. right. apply Hm; assumption.
  - discriminate.
  - intros i c Hi Hk H0. rewrite (Hm i c Hi Hk) in H0. lra.
  - discriminate.
Qed.

(** Outside the hypothesis of C45_resolve -- square-root algorithm selected, factorisation regularised: the retry falls back to the classical
    algorithm through a local variable only (x_ocp_qp_kkt.c lines 1158-1197), so that a later solve reads the classical factor as a square root.
    binary64 run: x1 = u0 + 3, last-stage weight -1/2 (the reduced Hessian is positive); the step of FACT_SOLVE is the Newton step,
    the step of SOLVE for the same right-hand side is not. *)
Section Retry.
Let f (z : Z) : spec_float := sf_of_Z z.
Definition rtD : dims := mkdims 1 (fun i => match i with 1%nat => 1%nat | _ => 0%nat end) (fun i => match i with 0%nat => 1%nat | _ => 0%nat end) (fun _ => 0%nat) (fun _ => 0%nat) (fun _ => 0%nat).
Definition rtqp : oqp spec_float := mkqp rtD (fun _ _ _ => f 1) (fun i _ _ => match i with 0%nat => f 1 | _ => lit (-1) 2 end) (fun _ _ _ => f 0) (fun _ _ => f 3) (fun _ _ => f 1)
  (fun _ _ => f 0) (fun _ _ => f 1) (fun _ _ => f 0) (fun _ _ => f 0) (fun _ _ => 0%nat) (fun _ _ => (-1)%Z).
Definition rtw : kws spec_float := mkkws (fun _ _ _ => f 1) (fun _ _ => v0) (fun _ => v0) (fun _ _ => v0) (fun _ => v0) (fun _ => v0) (fun _ => v0) (fun _ => v0) (fun _ => v0) v0 (fun _ => v0) (fun _ => v0) (fun _ => v0) (fun _ => v0).
Definition rt_g (step : osol spec_float) : spec_float * spec_float :=
  let r := fst (reslin_compute None rtqp (mksol (fun _ => v0) (fun _ => v0) (a_lam sha) (a_t sha)) step (mkres (fun _ => v0) (fun _ => v0) (fun _ => v0) (fun _ => v0) (f 0) (f 0) (f 0) (f 0)) (mkrws v0 v0 v0)) in
  (r_g r 0%nat 0%nat, r_g r 1%nat 0%nat).
Definition rt_run (usePb : bool) : option (spec_float * (spec_float * spec_float) * (spec_float * spec_float)) :=
  match fact_solve_kkt 1 true sha rtqp (fun _ => v0) (fun _ => v0) (fun _ => v0) shs0 rtw with
  | None => None
  | Some (step, preg, w) =>
      Some (preg, rt_g step, rt_g (fst (solve_kkt true usePb sha rtqp (kkt_tinv sha rtqp (fun _ => v0) (fun _ => v0) (fun _ => v0)) (kkt_Gam sha rtqp (fun _ => v0) (fun _ => v0) (fun _ => v0)) (fun _ => v0) step w)))
  end.
End Retry.
Theorem C45_resolve_after_retry_refuted (usePb : bool) : exists preg r1 r2 r3 r4, rt_run usePb = Some (preg, (r1, r2), (r3, r4)) /\
  SFltb (SFabs r1) (lit 1 1000) = true /\ SFltb (SFabs r2) (lit 1 1000) = true /\ SFltb (lit 1 1) (SFabs r3) = true /\ SFltb (lit 1 1) (SFabs r4) = true.
Proof. destruct usePb; do 5 eexists; split; [vm_compute; reflexivity| |vm_compute; reflexivity|]; repeat split; vm_compute; reflexivity. Qed.

(** the concrete case of KktProps.v meets the hypotheses *)
Example C45_hypotheses_met : qp_wf kxqp /\ (1 <= dN (q_dim kxqp))%nat /\ soft_inj kxqp /\ masks_one (q_dim kxqp) (q_mask kxqp) /\ ipm_convex kxa kxqp /\ a_tlm kxa <> 1%Z /\ a_dual kxa = true /\
  BAok kxqp (mkkws (q_BAbt kxqp) (fun _ _ _ => 0) (fun _ _ => 0) (fun _ _ _ => 0) (fun _ _ => 0) (fun _ _ => 0) (fun _ _ => 0) (fun _ _ => 0) (fun _ _ => 0) (fun _ => 0) (fun _ _ => 0) (fun _ _ => 0) (fun _ _ => 0) (fun _ _ => 0)).
Proof. destruct C27_hypotheses_met as (A & B & C & E & F & G0 & _). repeat (split; [assumption || reflexivity|]). intros ss i j _ _ _. reflexivity. Qed.

Print Assumptions C45_resolve.
Print Assumptions C45_convex_resolve.
Print Assumptions C45_factorise_then_solve.
Print Assumptions C27_newton_unique.
Print Assumptions C45_same_step.
Print Assumptions C45_resolve_after_retry_refuted.
