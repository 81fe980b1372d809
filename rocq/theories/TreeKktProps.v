(** TreeKktProps.v -- C54: the Newton steps of tree-structured OCP QPs.
    TREE_OCP_QP_FACT_SOLVE_KKT_STEP returns, at an interior point of a strictly convex problem, the one solution of the interior-point
    Newton system of the whole tree; TREE_OCP_QP_SOLVE_KKT_STEP afterwards does so for every other right-hand side, as often as it is called;
    on a path the step is that of the OCP QP solver.  Specification: TreeSpec.v, TreeKktSpec.v, KktSpec.v.  Exact arithmetic unless said otherwise. *)
From Coq Require Import ZArith Bool Arith Lia Reals Lra.
From Coq Require Import Floats.SpecFloat.
From Verif Require Import Base ArithF RSum Blas Blas2 CoreModel CoreProofs OcpModel ResSpec KktSpec ResProofs ResProps CholProofs CholPD KktModel KktProofs KktProofs2 KktProofs3 KktProofs4 KktProofs5 KktProofs6 KktProofs7 KktProps.
From Verif Require Import SolveModel SolveProofs SolveProofs2 SolveProofs3 NewtonUniq SolveProps TreeModel TreeSpec TreeProofs TreeProps TreeKktModel TreeKktProofs TreeKktProofs2 TreeKktProofs3 TreeKktProofs4 TreeKktSpec TreeUniq.
Local Open Scope R_scope.

(** thresholds of t_lam_min inactive; masked constraints carry no multiplier and no complementarity target *)
Definition no_clip (a : kargs R) (qp : oqp R) : Prop :=
  a_tlm a <> 1%Z \/ forall i c, (i <= dN (q_dim qp))%nat -> (c < nct (q_dim qp) i)%nat -> a_t_min a <= a_t a i c /\ a_lam_min a <= a_lam a i c.
Definition masked_idle (a : kargs R) (qp : oqp R) : Prop :=
  forall i c, (i <= dN (q_dim qp))%nat -> (c < nct (q_dim qp) i)%nat -> q_mask qp i c = 0 -> a_lam a i c = 0 /\ q_m qp i c = 0.

Lemma tx_point a qp : ipm_convex a qp -> no_clip a qp -> masked_idle a qp -> ipm_point a qp.
Proof.
  intros Hc Hcl Hmi. split; [|exact Hcl|exact Hmi|].
  - intros i c Hi Hk. destruct (ic_t _ _ Hc i c Hi Hk). lra.
  - intros i k Hi Hk. pose proof (cx_piv a qp Hc i k Hi Hk). lra.
Qed.
Lemma t_pd a qp tinv0 Gam0 gam0 : qp_wf qp -> ipm_convex a qp -> ipm_point a qp ->
  forall i, (i <= dN (q_dim qp))%nat -> PD (nux qp i) (stH qp (a_reg a) (kkt_Gam a qp tinv0 Gam0 gam0) (fun _ => a_reg a) i).
Proof.
  intros Hwf Hc Hip i Hi. pose proof (Gamgam_R a qp Hip tinv0 Gam0 gam0) as HG. apply stH_pd.
  - exact Hwf.
  - intros s c Hs Hk. destruct (HG s c Hs Hk) as (_ & E & _). rewrite E. apply (cx_wgt a qp Hc); assumption.
  - intros s k Hs Hk. apply (ic_Z _ _ Hc); assumption.
  - intros s k Hs Hk. pose proof (cx_piv a qp Hc s k Hs Hk) as P. replace (slack_pivot qp (a_reg a) (kkt_Gam a qp tinv0 Gam0 gam0 s) s k) with (slack_pivot qp (a_reg a) (wgt a s) s k); [exact P|].
    unfold slack_pivot. f_equal; [f_equal|].
    + symmetry. apply HG; [exact Hs|unfold nct; lia].
    + apply rsum_ext. intros j Hj. f_equal; f_equal; symmetry; (apply HG; [exact Hs|unfold nct; lia]).
  - intros s Hs. apply (cx_pd a qp Hc); assumption.
  - exact Hi.
  - reflexivity.
Qed.

(** C54: factorise and solve *)
Theorem C54_newton_step (a : kargs R) (T : ttree) (qp : oqp R) tinv0 Gam0 gam0 stp w :
  qp_wf qp -> tree_ok (dN (q_dim qp) + 1) T -> soft_inj qp -> mask01 qp -> ipm_convex a qp -> no_clip a qp -> masked_idle a qp -> a_dual a = true ->
  tnewton a T qp (fst (tree_fact_solve a T qp tinv0 Gam0 gam0 stp w)).
Proof.
  intros Hwf HT Hinj Hm Hc Hcl Hmi Hd. pose proof (tx_point a qp Hc Hcl Hmi) as Hip.
  pose proof (tfactor_R a T qp (kkt_Gam a qp tinv0 Gam0 gam0) (kkt_gam a qp tinv0 Gam0 gam0) Hwf HT (t_pd a qp tinv0 Gam0 gam0 Hwf Hc Hip) w) as (S & _).
  unfold tree_fact_solve, tree_factor. rewrite Hd. cbn [fst]. set (w2 := tfwd true T qp _) in *. clearbody w2.
  pose proof (tcomb a T qp Hwf HT Hinj Hip Hm (kkt_tinv a qp tinv0 Gam0 gam0) (kkt_Gam a qp tinv0 Gam0 gam0) (kkt_gam a qp tinv0 Gam0 gam0) (Gamgam_R a qp Hip tinv0 Gam0 gam0)
    w2 stp (kkt_ut a qp tinv0 Gam0 gam0 stp w2) (kkt_lt a qp tinv0 Gam0 gam0 stp w2) S (fun ss => eq_refl) (fun ss => eq_refl)) as (A & B & C & E). cbv zeta in *.
  unfold tnewton, kkt_step. cbn [s_ux s_pi s_lam s_t]. split; [|split; [exact B|split; [exact C|exact E]]].
  intros i v Hi Hv. rewrite A by assumption. lra.
Qed.

(** C54: the Newton system determines the step *)
Theorem C54_newton_unique (a : kargs R) (T : ttree) (qp : oqp R) s1 s2 :
  tree_ok (dN (q_dim qp) + 1) T -> mask01 qp -> ipm_convex a qp ->
  (forall i c, (i <= dN (q_dim qp))%nat -> (c < nct (q_dim qp) i)%nat -> q_mask qp i c = 0 -> a_lam a i c = 0) ->
  tnewton a T qp s1 -> tnewton a T qp s2 -> same_step (q_dim qp) s1 s2.
Proof. intros HT Hm Hc Hl H1 H2. exact (tnewton_unique a T qp s1 s2 HT Hc Hm Hl H1 H2). Qed.

(** ** re-solving *)
(** workspaces reachable from w by any number of solves *)
Inductive tsolves (a : kargs R) (T : ttree) (qp : oqp R) (tinv Gam : nat -> nat -> R) (w : kws R) : kws R -> Prop :=
| tsolves_0 : tsolves a T qp tinv Gam w w
| tsolves_S w1 usePb g b d m gam0 stp : tsolves a T qp tinv Gam w w1 -> (usePb = true -> same_b qp b) ->
    tsolves a T qp tinv Gam w (snd (tree_solve usePb a T (with_rhs qp g b d m) tinv Gam gam0 stp w1)).

Section Re.
Variables (a : kargs R) (T : ttree) (qp : oqp R) (tinv Gam : nat -> rvec).
Notation D := (q_dim qp).
Notation N := (dN D).
Hypothesis Hwf : qp_wf qp.
Hypothesis HT : tree_ok (N + 1) T.
Hypothesis Hd : a_dual a = true.
Lemma tPb_rhs w g b d m : same_b qp b -> tPb T qp w -> tPb T (with_rhs qp g b d m) w.
Proof.
  intros Hb H i Hi jj j Hjj. cbv zeta. intros Hj. cbn [q_dim with_rhs] in *. pose proof (H i Hi jj j Hjj Hj) as E. cbv zeta in E. rewrite E. apply rsum_ext. intros m0 Hm0. cbn [q_b with_rhs].
  pose proof (proj1 HT i jj ltac:(lia) Hjj). rewrite Hb; [reflexivity|lia|]. replace (S (t_kid T i jj - 1)) with (t_kid T i jj) by lia. exact Hm0.
Qed.
Lemma tsolves_keep w w1 : tlhs a T qp Gam w -> tPb T qp w -> tsolves a T qp tinv Gam w w1 -> same_lhs w w1.
Proof.
  intros HL HP H. induction H as [|w1 usePb g b d m gam0 stp H IH Hb]; [apply same_refl|].
  eapply same_trans; [exact IH|]. unfold tree_solve, tsol_ws. cbn [snd]. rewrite Hd.
  pose proof (tsweeps_R a T (with_rhs qp g b d m) Gam (sol_gam a (with_rhs qp g b d m) tinv gam0) Hwf HT usePb (with_sol w1 stp)) as TS.
  destruct TS as (_ & K).
  - intros i Hi. apply (nd_lhs_same T qp (a_reg a) Gam w w1 i IH). apply HL. exact Hi.
  - intros Eu. apply tPb_rhs; [apply Hb; exact Eu|]. intros i Hi. apply (nd_Pb_same T qp w w1 i IH). apply HP. exact Hi.
  - exact K.
Qed.
End Re.

(** C54: after a factorisation, and any number of solves, a solve returns the Newton step of its own right-hand side (the stored
    products P*b may be used if the offsets b are those of the factorisation) *)
Theorem C54_resolve (a : kargs R) (T : ttree) (qp : oqp R) tinv0 Gam0 gam0 stp w w1 usePb g b d m gam1 stp1 :
  qp_wf qp -> tree_ok (dN (q_dim qp) + 1) T -> soft_inj qp -> mask01 qp -> ipm_convex a qp -> no_clip a qp -> masked_idle a qp -> a_dual a = true ->
  let tinv := kkt_tinv a qp tinv0 Gam0 gam0 in let Gam := kkt_Gam a qp tinv0 Gam0 gam0 in
  tsolves a T qp tinv Gam (snd (tree_fact_solve a T qp tinv0 Gam0 gam0 stp w)) w1 ->
  (forall i c, (i <= dN (q_dim qp))%nat -> (c < nct (q_dim qp) i)%nat -> q_mask qp i c = 0 -> m i c = 0) ->
  (usePb = true -> same_b qp b) ->
  tnewton a T (with_rhs qp g b d m) (fst (tree_solve usePb a T (with_rhs qp g b d m) tinv Gam gam1 stp1 w1)).
Proof.
  intros Hwf HT Hinj Hm Hc Hcl Hmi Hd. cbv zeta. intros HS Hmm Hb. pose proof (tx_point a qp Hc Hcl Hmi) as Hip.
  pose proof (tfactor_R a T qp (kkt_Gam a qp tinv0 Gam0 gam0) (kkt_gam a qp tinv0 Gam0 gam0) Hwf HT (t_pd a qp tinv0 Gam0 gam0 Hwf Hc Hip) w) as (_ & L & P).
  unfold tree_fact_solve, tree_factor in HS. rewrite Hd in HS. cbn [snd] in HS. set (w0 := tfwd true T qp _) in *. clearbody w0.
  pose proof (Gamgam_R a qp Hip tinv0 Gam0 gam0) as HG0. set (tinv := kkt_tinv a qp tinv0 Gam0 gam0) in *. set (Gam := kkt_Gam a qp tinv0 Gam0 gam0) in *. clearbody tinv Gam.
  pose proof (tsolves_keep a T qp tinv Gam Hwf HT Hd w0 w1 L P HS) as K.
  set (qp2 := with_rhs qp g b d m). set (gam := sol_gam a qp2 tinv gam1).
  assert (Hip2 : ipm_point a qp2) by (apply ip_rhs; assumption).
  destruct (tsweeps_R a T qp2 Gam gam Hwf HT usePb (with_sol w1 stp1)) as (S & _).
  { intros i Hi. apply (nd_lhs_same T qp (a_reg a) Gam w0 w1 i K). apply L. exact Hi. }
  { intros Eu. apply tPb_rhs; [exact HT|apply Hb; exact Eu|]. intros i Hi. apply (nd_Pb_same T qp w0 w1 i K). apply P. exact Hi. }
  assert (HG : forall ss c, (ss <= dN (q_dim qp2))%nat -> (c < nct (q_dim qp2) ss)%nat -> tinv ss c = 1 / a_t a ss c /\ Gam ss c = wgt a ss c /\ gam ss c = 1 / a_t a ss c * (q_m qp2 ss c - a_lam a ss c * q_d qp2 ss c)).
  { intros ss c Hss Hk. destruct (HG0 ss c Hss Hk) as (E1 & E2 & _). split; [exact E1|]. split; [exact E2|]. unfold gam, sol_gam. rewrite compute_gamma_R by assumption. rewrite E1. reflexivity. }
  assert (EW : tsol_ws usePb a T qp2 tinv Gam gam1 stp1 w1 = tfwds true T qp2 (tbwd usePb T qp2 Gam gam (with_sol w1 stp1))) by (unfold tsol_ws; rewrite Hd; reflexivity).
  rewrite <- EW in S. clear EW.
  pose proof (tcomb a T qp2 Hwf HT Hinj Hip2 Hm tinv Gam gam HG (tsol_ws usePb a T qp2 tinv Gam gam1 stp1 w1) stp1
     (tsol_ut usePb a T qp2 tinv Gam gam1 stp1 w1) (tsol_lt usePb a T qp2 tinv Gam gam1 stp1 w1) S (fun ss => eq_refl) (fun ss => eq_refl)) as (A & B & C & E). cbv zeta in *.
  unfold tnewton, tree_solve. cbn [fst s_ux s_pi s_lam s_t]. split; [|split; [exact B|split; [exact C|exact E]]].
  intros i v Hi Hv. rewrite A by assumption. lra.
Qed.

(** C54: what RES_COMPUTE_LIN reports for the returned step: nothing but the regularisation *)
Theorem C54_linear_residuals_vanish (a : kargs R) (T : ttree) (qp : oqp R) tinv0 Gam0 gam0 stp w res0 ws0 :
  qp_wf qp -> tree_ok (dN (q_dim qp) + 1) T -> soft_inj qp -> mask01 qp -> ipm_convex a qp -> no_clip a qp -> masked_idle a qp -> a_dual a = true ->
  let step := fst (tree_fact_solve a T qp tinv0 Gam0 gam0 stp w) in
  let r := fst (treelin_compute None T qp (mksol (s_ux stp) (s_pi stp) (a_lam a) (a_t a)) step res0 ws0) in let D := q_dim qp in
  (forall i v, (i <= dN D)%nat -> (v < nvt D i)%nat -> r_g r i v = - a_reg a * s_ux step i v) /\
  (forall k j, (k < dN D)%nat -> (j < dnx D (S k))%nat -> r_b r k j = 0) /\
  (forall i c, (i <= dN D)%nat -> (c < nct D i)%nat -> r_d r i c = 0) /\
  (forall i c, (i <= dN D)%nat -> (c < nct D i)%nat -> r_m r i c = 0).
Proof.
  intros Hwf HT Hinj Hm Hc Hcl Hmi Hd. cbv zeta. pose proof (C54_newton_step a T qp tinv0 Gam0 gam0 stp w Hwf HT Hinj Hm Hc Hcl Hmi Hd) as (A & B & C & E). cbv zeta in *.
  set (step := fst _) in *. clearbody step.
  pose proof (C53_linear_residuals T qp (mksol (s_ux stp) (s_pi stp) (a_lam a) (a_t a)) step None res0 ws0 Hwf HT I) as (R1 & R2 & R3 & R4). cbv zeta in *.
  set (r := fst _) in *. clearbody r. split; [|split; [|split]].
  - intros i v Hi Hv. rewrite R1 by assumption. specialize (A i v Hi Hv). lra.
  - intros k j Hk Hj. destruct HT as (_ & H2 & _). destruct (H2 (S k) ltac:(lia)) as (i & jj & Hi & Hjj & Ek). specialize (R2 i jj j ltac:(lia) Hjj). rewrite Ek in R2. replace (S k - 1)%nat with k in R2 by lia. rewrite R2 by assumption.
    specialize (B i jj j ltac:(lia) Hjj). rewrite Ek in B. apply B. exact Hj.
  - intros i c Hi Hk. rewrite R3 by assumption. specialize (C i c Hi Hk). unfold kkt_d. rewrite C. lra.
  - intros i c Hi Hk. rewrite R4 by assumption. specialize (E i c Hi Hk). cbn [s_lam s_t]. rewrite E. lra.
Qed.

(** ** a path is an OCP QP *)
Lemma path_ok N : tree_ok (N + 1) (path_tree N).
Proof.
  split; [|split]; cbn [path_tree t_nk t_kid].
  - intros i jj Hi Hj. destruct (Nat.ltb_spec i N); lia.
  - intros k Hk. exists (k - 1)%nat, 0%nat. split; [lia|]. destruct (Nat.ltb_spec (k - 1) N); lia.
  - intros i jj i' jj' Hi Hj Hi' Hj' E. destruct (Nat.ltb_spec i N), (Nat.ltb_spec i' N); lia.
Qed.
Lemma path_newton a qp step : newton_solution a qp (a_reg a) step -> tnewton a (path_tree (dN (q_dim qp))) qp step.
Proof.
  intros (A & B & C & E). cbv zeta in *. split; [|split; [|split; [exact C|exact E]]]; cbv zeta.
  - intros i v Hi Hv. rewrite <- (A i v Hi Hv). rewrite rd. f_equal. unfold tkkt_g, kkt_g. cbn [path_tree t_nk t_kid]. f_equal. f_equal. f_equal.
    destruct (v <? nux qp i)%nat; rewrite ?andb_true_r, ?andb_false_r; [|reflexivity]. destruct (i <? dN (q_dim qp))%nat; cbn [rsum]; [|reflexivity]. rewrite Rplus_0_l. replace (S i - 1)%nat with i by lia. reflexivity.
  - intros i jj j Hi Hjj. cbn [path_tree t_nk t_kid] in *. destruct (Nat.ltb_spec i (dN (q_dim qp))); [|lia]. intros Hj. unfold tdyn. replace (S i - 1)%nat with i by lia. apply B; assumption.
Qed.
(** C54: on a path the step is the one the OCP QP solver returns (both its algorithms) *)
Theorem C54_path_is_ocp (a : kargs R) (qp : oqp R) tinv0 Gam0 gam0 stp w fuel sq tinv0' Gam0' gam0' stp' w' :
  qp_wf qp -> (1 <= dN (q_dim qp))%nat -> soft_inj qp -> mask01 qp -> ipm_convex a qp -> no_clip a qp -> masked_idle a qp -> a_dual a = true -> BAok qp w' ->
  exists step' w'', fact_solve_kkt fuel sq a qp tinv0' Gam0' gam0' stp' w' = Some (step', a_reg a, w'') /\
  same_step (q_dim qp) (fst (tree_fact_solve a (path_tree (dN (q_dim qp))) qp tinv0 Gam0 gam0 stp w)) step'.
Proof.
  intros Hwf HN Hinj Hm Hc Hcl Hmi Hd HB. pose proof (tx_point a qp Hc Hcl Hmi) as Hip.
  destruct (C39_convex_returns a qp fuel sq tinv0' Gam0' gam0' stp' w' Hwf HN Hc Hcl HB) as (step' & w'' & E). exists step', w''. split; [exact E|].
  destruct (C27_newton_step a qp fuel sq tinv0' Gam0' gam0' stp' w' step' (a_reg a) w'' Hwf HN Hinj Hm Hip HB Hd E) as (A & B & C & F). cbv zeta in *.
  apply (C54_newton_unique a (path_tree (dN (q_dim qp))) qp); [apply path_ok|exact Hm|exact Hc| | |].
  - intros i c Hi Hk H0. apply (Hmi i c Hi Hk H0).
  - apply C54_newton_step; try assumption. apply path_ok.
  - apply path_newton. split; [|split; [exact B|split; [exact C|exact F]]]. intros i k Hi Hk. rewrite A by assumption. lra.
Qed.

(** ** a concrete case: a root with two kids, a bound on the root's input whose upper side is masked *)
Definition txa : kargs R := mkka 0 true 0 (fun _ c => match c with 0%nat => 2 | _ => 0 end) (fun _ _ => 3) 0 0 0 0.
Lemma txa_convex : ipm_convex txa txqp.
Proof.
  split; cbn [txa a_t a_lam a_reg].
  - intros i c _ _. destruct c; lra.
  - intros i k Hi Hk. cbn in Hk. lia.
  - intros i k Hi Hk. cbn in Hk. lia.
  - intros i v Hi (k & Hk & Hv). cbn in Hi. assert (Hc : i = 0%nat \/ i = 1%nat \/ i = 2%nat) by lia. unfold nux in *. cbn in *.
    destruct Hc as [-> | [-> | ->]]; cbn in *; assert (k = 0%nat) by lia; subst k; unfold Hess, H_co; cbn; nra.
Qed.
Theorem C54_hypotheses_met tinv0 Gam0 gam0 stp w :
  qp_wf txqp /\ tree_ok (dN (q_dim txqp) + 1) txT /\ soft_inj txqp /\ mask01 txqp /\ ipm_convex txa txqp /\ no_clip txa txqp /\ masked_idle txa txqp /\ a_dual txa = true /\
  t_nk txT 0 = 2%nat /\ nct (q_dim txqp) 0 = 2%nat /\
  (let u := s_ux (fst (tree_fact_solve txa txT txqp tinv0 Gam0 gam0 stp w)) 0%nat 0%nat in u <> 0) .
Proof.
  assert (Hs : soft_inj txqp) by (intros i j j' _ _ _ H; cbn in H; lia).
  assert (Hn : no_clip txa txqp) by (left; cbn; lia).
  assert (Hm : masked_idle txa txqp) by (intros i c _ _; cbn; destruct c; [intros; lra|intros; split; reflexivity]).
  split; [exact tx_wf|]. split; [exact tx_tree|]. split; [exact Hs|]. split; [exact tx_mask|]. split; [exact txa_convex|]. split; [exact Hn|]. split; [exact Hm|]. split; [reflexivity|]. split; [reflexivity|]. split; [reflexivity|].
  destruct (C54_newton_step txa txT txqp tinv0 Gam0 gam0 stp w tx_wf tx_tree Hs tx_mask txa_convex Hn Hm eq_refl) as (A & B & C & E). cbv zeta in *.
  set (s := fst _) in *. clearbody s.
  pose proof (A 0%nat 0%nat ltac:(cbn; lia) ltac:(cbn; lia)) as A0. pose proof (A 1%nat 0%nat ltac:(cbn; lia) ltac:(cbn; lia)) as A1. pose proof (A 2%nat 0%nat ltac:(cbn; lia) ltac:(cbn; lia)) as A2.
  pose proof (B 0%nat 0%nat 0%nat ltac:(cbn; lia) ltac:(cbn; lia) ltac:(cbn; lia)) as B1. pose proof (B 0%nat 1%nat 0%nat ltac:(cbn; lia) ltac:(cbn; lia) ltac:(cbn; lia)) as B2.
  pose proof (C 0%nat 0%nat ltac:(cbn; lia) ltac:(cbn; lia)) as C0. pose proof (E 0%nat 0%nat ltac:(cbn; lia) ltac:(cbn; lia)) as E0.
  clear A B C E. unfold tkkt_g in *. unfold tdyn, con in *. cbn in *. intros H0. rewrite ?H0 in *. lra.
Qed.

(** C54 is false without convexity, and nothing in the tree solver says so: the factorisation is not checked (the OCP QP solver detects the
    non-positive pivot and retries with a larger regularisation).  One node, one input, cost -u^2/2 + u: the Newton equation -u + 1 = 0 has the
    solution 1, the solver returns no such step: the residual of what it returns is not below 1/2 (binary64 run of the model, where the
    substitution divides by the zero diagonal and gives NaN; a BLASFEO which multiplies by the stored inverse 0 gives the step 0, residual 1). *)
Section Indef.
Let f (z : Z) : spec_float := sf_of_Z z.
Definition inD : dims := mkdims 0 (fun _ => 0%nat) (fun _ => 1%nat) (fun _ => 0%nat) (fun _ => 0%nat) (fun _ => 0%nat).
Definition inT : ttree := mktree (fun _ => 0%nat) (fun _ _ => 0%nat).
Definition inqp : oqp spec_float := mkqp inD (fun _ _ _ => f 0) (fun _ _ _ => f (-1)) (fun _ _ _ => f 0) (fun _ _ => f 0) (fun _ _ => f 1)
  (fun _ _ => f 0) (fun _ _ => f 1) (fun _ _ => f 0) (fun _ _ => f 0) (fun _ j => j) (fun _ _ => (-1)%Z).
Definition in_run : spec_float * spec_float :=
  let step := fst (tree_fact_solve sha inT inqp (fun _ => v0) (fun _ => v0) (fun _ => v0) shs0 shw) in
  let r := fst (treelin_compute None inT inqp (mksol (fun _ => v0) (fun _ => v0) (a_lam sha) (a_t sha)) step (mkres (fun _ => v0) (fun _ => v0) (fun _ => v0) (fun _ => v0) (f 0) (f 0) (f 0) (f 0)) (mkrws v0 v0 v0)) in
  (s_ux step 0%nat 0%nat, r_g r 0%nat 0%nat).
End Indef.
Theorem C54_indefinite_not_detected_refuted : SFltb (SFabs (snd in_run)) (lit 1 2) = false.
Proof. vm_compute; reflexivity. Qed.

Print Assumptions C54_newton_step.
Print Assumptions C54_newton_unique.
Print Assumptions C54_resolve.
Print Assumptions C54_linear_residuals_vanish.
Print Assumptions C54_path_is_ocp.
Print Assumptions C54_hypotheses_met.
Print Assumptions C54_indefinite_not_detected_refuted.
