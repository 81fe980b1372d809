(** KktProofs6.v -- fact_solve_kkt as a whole. *)
From Coq Require Import ZArith Bool Arith Lia Reals Lra.
From Verif Require Import Base ArithF RSum Blas Blas2 CoreModel CoreProofs OcpModel ResSpec KktSpec ResProofs CholProofs KktModel KktProofs KktProofs2 KktProofs3 KktProofs4 KktProofs5.
Local Open Scope R_scope.

Lemma Some_inj {A} (x y : A) : Some x = Some y -> x = y.
Proof. congruence. Qed.
Lemma pair_inj {A B} (x x' : A) (y y' : B) : (x, y) = (x', y') -> x = x' /\ y = y'.
Proof. intros H. split; congruence. Qed.

Section Kkt.
Variables (a : kargs R) (qp : oqp R).
Notation D := (q_dim qp).
Notation N := (dN D).
Hypothesis Hwf : qp_wf qp.
Hypothesis HN : (1 <= N)%nat.
Hypothesis Hinj : soft_inj qp.
Hypothesis Hip : ipm_point a qp.

Section GG.
Variables (tinv0 Gam0 gam0 : nat -> rvec).
Notation Gam := (kkt_Gam a qp tinv0 Gam0 gam0).
Notation gam := (kkt_gam a qp tinv0 Gam0 gam0).
Notation tinv := (kkt_tinv a qp tinv0 Gam0 gam0).

Lemma Gamgam_R ss c : (ss <= N)%nat -> (c < nct D ss)%nat ->
  tinv ss c = 1 / a_t a ss c /\ Gam ss c = wgt a ss c /\ gam ss c = 1 / a_t a ss c * (q_m qp ss c - a_lam a ss c * q_d qp ss c).
Proof.
  intros Hss Hc. unfold kkt_tinv, kkt_Gam, kkt_gam, kkt_Gg, Gamgam.
  pose proof (compute_Gamma_gamma_spec (a_tlm a) (nct D ss) (a_lam a ss) (a_t a ss) (a_lam_min a) (a_t_min a) (a_t_min_inv a) (q_d qp ss) (q_m qp ss) (tinv0 ss) (Gam0 ss) (gam0 ss) c) as H.
  destruct (compute_Gamma_gamma _ _ _ _ _ _ _ _ _ _) as [[ti G0] g0]. cbn [fst snd]. destruct H as (H1 & H2 & H3). apply Nat.ltb_lt in Hc as Hc'. rewrite Hc' in *.
  revert H1 H2 H3. rsimp. rewrite R_lit11. intros H1 H2 H3. split; [exact H1|]. split; [|exact H3]. rewrite H2. unfold wgt.
  destruct (Z.eqb_spec (a_tlm a) 1) as [E|E]; [|unfold Rdiv; lra].
  destruct (ip_clip _ _ Hip) as [E'|Hcl]; [contradiction|]. destruct (Hcl ss c Hss Hc) as (C1 & C2).
  destruct (Rltb_spec (a_t a ss c) (a_t_min a)); [lra|]. destruct (Rltb_spec (a_lam a ss c) (a_lam_min a)); [lra|]. unfold Rdiv. lra.
Qed.

(** what the factorisation + forward pass provide *)
Definition solved preg (w : kws R) : Prop :=
  (forall ss k, (ss <= N)%nat -> (k < 2 * dns D ss)%nat -> k_Zs w ss k = Zq qp ss (a_reg a) (Gam ss) k /\ k_ux w ss (nux qp ss + k)%nat = Rq qp ss (gam ss) k) /\
  (forall ss j, (ss < N)%nat -> (j < dnx D (S ss))%nat -> k_ux w (S ss) (dnu D (S ss) + j)%nat = rsum (nux qp ss) (fun i => q_BAbt qp ss i j * k_ux w ss i) + q_b qp ss j) /\
  (forall ss i, (ss <= N)%nat -> (i < nux qp ss)%nat ->
    rsum (nux qp ss) (fun j => stH qp (a_reg a) Gam (reg_diag qp (a_reg a) preg ss) ss i j * k_ux w ss j) + sth qp (a_reg a) Gam gam ss i
    + (if (ss <? N)%nat then rsum (dnx D (S ss)) (fun l => q_BAbt qp ss i l * k_pi w ss l) else 0)
    - (if ((0 <? ss) && (dnu D ss <=? i))%nat then k_pi w (ss - 1)%nat (i - dnu D ss)%nat else 0) = 0).

Lemma stH_rho rho rho' ss i j : (i < nux qp ss)%nat -> (forall i, (i < nux qp ss)%nat -> rho i = rho' i) -> stH qp (a_reg a) Gam rho ss i j = stH qp (a_reg a) Gam rho' ss i j.
Proof. intros Hi H. unfold stH. f_equal. f_equal. destruct (i =? j)%nat; [apply H; exact Hi|reflexivity]. Qed.
Lemma FR_rho rho rho' P p ss nf0 L Q q : (forall i, (i < nux qp ss)%nat -> rho i = rho' i) -> FR qp (a_reg a) Gam gam rho P p ss nf0 L Q q -> FR qp (a_reg a) Gam gam rho' P p ss nf0 L Q q.
Proof. intros H (A & B & C). split; [|split; assumption]. intros i j Hi Hj. rewrite <- A by assumption. f_equal. symmetry. apply stH_rho; assumption. Qed.

Lemma solved_gen (vP : nat -> rmat) (vp : nat -> rvec) fwd preg w :
  (forall ss, (1 <= ss <= N)%nat -> FR qp (a_reg a) Gam gam (reg_diag qp (a_reg a) preg ss) (vP (S ss)) (vp (S ss)) ss (dnu D ss) (k_L w ss) (embQ (dnu D ss) (vP ss)) (embq (dnu D ss) (vp ss))) ->
  FR qp (a_reg a) Gam gam (reg_diag qp (a_reg a) preg 0) (vP 1%nat) (vp 1%nat) 0 (nux qp 0) (k_L w 0%nat) (fun _ _ => 0) (fun _ => 0) ->
  (forall ss, (ss <= N)%nat -> SLok qp (a_reg a) Gam gam w ss) -> (forall ss, (1 <= ss <= N)%nat -> Psym (vP ss) (dnx D ss)) ->
  BAok qp w -> fwd_ok qp vP vp fwd w -> solved preg (forward fwd qp w).
Proof.
  intros F1 F0 HS HP HB Hf.
  assert (FRall : forall ss, (ss <= N)%nat -> FR qp (a_reg a) Gam gam (reg_diag qp (a_reg a) preg ss) (vP (S ss)) (vp (S ss)) ss (nf qp ss) (k_L w ss) (if (ss =? 0)%nat then fun _ _ => 0 else embQ (dnu D ss) (vP ss)) (if (ss =? 0)%nat then fun _ => 0 else embq (dnu D ss) (vp ss))).
  { intros ss Hss. unfold nf. destruct (Nat.eqb_spec ss 0) as [->|Hne]; [exact F0|]. apply F1. lia. }
  assert (Hd : forall ss k, (ss <= N)%nat -> (k < nf qp ss)%nat -> k_L w ss k k <> 0).
  { intros ss k Hss Hk. destruct (FRall ss Hss) as (_ & _ & H). specialize (H k Hk). lra. }
  pose proof (forward_R qp vP vp fwd w HN Hf HB Hd) as FP. pose proof FP as (_ & G2 & _ & G4 & G5).
  split; [|split].
  - intros ss k Hss Hk. rewrite G5, G4 by lia. apply HS; assumption.
  - exact G2.
  - intros ss i Hss Hi. apply (stat_elim qp (a_reg a) Gam gam vP vp (reg_diag qp (a_reg a) preg ss) w (forward fwd qp w) ss Hss HN HP (FRall ss Hss) FP i Hi).
Qed.

Lemma solved_sqrt w w' : BAok qp w -> fact_sqrt (a_reg a) (a_reg a) qp Gam gam w = (w', false) -> solved (a_reg a) (forward (fwd_sqrt true qp) qp w').
Proof.
  intros HB H. destruct (fact_sqrt_R qp (a_reg a) Gam gam Hwf (a_reg a) w w' HB H) as (HB' & HS).
  assert (Er : forall ss i, (i < nux qp ss)%nat -> a_reg a = reg_diag qp (a_reg a) (a_reg a) ss i). { intros. unfold reg_diag. destruct (_ || _)%bool; reflexivity. }
  apply (solved_gen (fun ss => VPs (k_L w' ss) (dnu D ss) (dnx D ss)) (fun ss => vps (k_L w' ss) (dnu D ss) (dnx D ss))).
  - intros ss Hss. destruct (HS ss ltac:(lia)) as (A & _). apply (FR_rho (fun _ => a_reg a)); [apply Er|]. apply FR_sqrt_nu. exact A.
  - destruct (HS 0%nat ltac:(lia)) as (A & _). apply (FR_rho (fun _ => a_reg a)); [apply Er|]. exact A.
  - intros ss Hss. apply HS. exact Hss.
  - intros ss _ l m _ _. apply VPs_sym.
  - exact HB'.
  - apply fwd_sqrt_ok; reflexivity.
Qed.
Lemma solved_cls preg w w' : BAok qp w -> fact_cls (a_reg a) preg qp Gam gam w = (w', false) -> solved preg (forward (fwd_cls true qp) qp w').
Proof.
  intros HB H. destruct (fact_cls_R qp (a_reg a) Gam gam Hwf preg w w' HN HB H) as (HB' & HS & H0 & HS0).
  apply (solved_gen (k_P w') (fun ss => k_P w' ss (dnx D ss))).
  - intros ss Hss. destruct (HS ss Hss) as (A & _). eapply FR_rho; [|exact A]. intros i Hi. unfold cls_rho, reg_diag. destruct (Nat.eqb_spec ss 0); [lia|]. cbn [andb]. rewrite orb_false_r. reflexivity.
  - eapply FR_rho; [|exact H0]. intros i Hi. unfold reg_diag. cbn [Nat.eqb andb]. apply Nat.ltb_lt in Hi. rewrite Hi, orb_true_r. reflexivity.
  - intros ss Hss. destruct (Nat.eq_dec ss 0) as [->|Hne]; [exact HS0|]. apply HS. lia.
  - intros ss Hss. apply HS. exact Hss.
  - exact HB'.
  - apply fwd_cls_ok; reflexivity.
Qed.
Lemma retry_R fuel : forall init preg w r, BAok qp w -> retry fuel (a_reg a) (a_preg_last a) qp Gam gam init preg w = Some r -> solved (snd r) (forward (fwd_cls true qp) qp (fst r)).
Proof.
  induction fuel as [|fuel IH]; intros init preg w r HB H; [discriminate|]. cbn [retry] in H.
  set (p' := next_preg _ _ _ _) in H. destruct (fact_cls _ p' _ _ _ w) as [w1 sg] eqn:E. destruct sg.
  - eapply IH; [|exact H]. eapply fact_cls_BA; [exact HB|exact E].
  - apply Some_inj in H. subst r. cbn [fst snd]. eapply solved_cls; eassumption.
Qed.

Lemma factor_R fuel sq w w2 preg : BAok qp w -> a_dual a = true -> kkt_factor a qp tinv0 Gam0 gam0 fuel sq w = Some (w2, preg) -> solved preg w2.
Proof.
  intros HB Hd H. unfold kkt_factor in H. rewrite Hd in H. destruct sq.
  - destruct (fact_sqrt _ _ _ _ _ w) as [w1 sg] eqn:E. destruct sg.
    + destruct (retry _ _ _ _ _ _ _ _ w1) as [[w3 p3]|] eqn:ER; [|discriminate]. apply Some_inj, pair_inj in H. destruct H as (<- & <-).
      apply (retry_R fuel false (a_reg a) w1 (w3, p3)); [|exact ER]. eapply fact_sqrt_BA; [exact HB|exact E].
    + apply Some_inj, pair_inj in H. destruct H as (<- & <-). eapply solved_sqrt; [exact HB|exact E].
  - destruct (fact_cls _ _ _ _ _ w) as [w1 sg] eqn:E. destruct sg.
    + destruct (retry _ _ _ _ _ _ _ _ w1) as [[w3 p3]|] eqn:ER; [|discriminate]. apply Some_inj, pair_inj in H. destruct H as (<- & <-).
      apply (retry_R fuel false (a_reg a) w1 (w3, p3)); [|exact ER]. eapply fact_cls_BA; [exact HB|exact E].
    + apply Some_inj, pair_inj in H. destruct H as (<- & <-). eapply solved_cls; [exact HB|exact E].
Qed.
End GG.

Lemma fact_solve_R fuel sq tinv0 Gam0 gam0 stp w step preg w' : mask01 qp -> BAok qp w -> a_dual a = true ->
  fact_solve_kkt fuel sq a qp tinv0 Gam0 gam0 stp w = Some (step, preg, w') ->
  (forall i k, (i <= N)%nat -> (k < nvt D i)%nat -> kkt_g qp (s_ux step) (s_pi step) (s_lam step) i k = - reg_diag qp (a_reg a) preg i k * s_ux step i k) /\
  (forall i j, (i < N)%nat -> (j < dnx D (S i))%nat -> dyn qp (s_ux step) i j = 0) /\
  (forall i c, (i <= N)%nat -> (c < nct D i)%nat -> q_d qp i c + s_t step i c - con qp (s_ux step) i c = 0) /\
  (forall i c, (i <= N)%nat -> (c < nct D i)%nat -> q_m qp i c + a_lam a i c * s_t step i c + s_lam step i c * a_t a i c = 0).
Proof.
  intros Hm HB Hdual H. unfold fact_solve_kkt in H. destruct (kkt_factor _ _ _ _ _ _ _ w) as [[w2 p2]|] eqn:EF; [|discriminate].
  apply Some_inj, pair_inj in H. destruct H as (H & _). apply pair_inj in H. destruct H as (Hst & Hp). subst p2.
  pose proof (Gamgam_R tinv0 Gam0 gam0) as HG. destruct (factor_R tinv0 Gam0 gam0 fuel sq w w2 preg HB Hdual EF) as (S1 & S2 & S3). clear EF.
  set (Gam := kkt_Gam a qp tinv0 Gam0 gam0) in *. set (gam := kkt_gam a qp tinv0 Gam0 gam0) in *. set (tinv := kkt_tinv a qp tinv0 Gam0 gam0) in *.
  set (ut := kkt_ut a qp tinv0 Gam0 gam0 stp w2). set (lt := kkt_lt a qp tinv0 Gam0 gam0 stp w2).
  assert (Eu : s_ux step = fun ss => fst (ut ss)) by (subst step; reflexivity). assert (Ep : s_pi step = k_pi w2) by (subst step; reflexivity).
  assert (El : s_lam step = fun ss => fst (lt ss)) by (subst step; reflexivity). assert (Et : s_t step = fun ss => snd (lt ss)) by (subst step; reflexivity).
  rewrite Eu, Ep, El, Et. clear Eu Ep El Et Hst.
  assert (Elt : forall ss, lt ss = compute_lam_t (nct D ss) (a_lam a ss) (tinv ss) (q_d qp ss) (q_m qp ss) (s_lam stp ss, snd (ut ss))) by (intros; reflexivity).
  assert (Eut : forall ss, ut ss = lin_stage qp (Gam ss) (k_Zs w2 ss) ss (k_ux w2 ss, s_t stp ss)) by (intros; reflexivity).
  clearbody ut lt. clearbody Gam gam tinv.
  assert (LT : forall ss c, (ss <= N)%nat -> (c < nct D ss)%nat -> fst (lt ss) c = - (Gam ss c * snd (ut ss) c + gam ss c) /\ snd (lt ss) c = snd (ut ss) c - q_d qp ss c).
  { intros ss c Hss Hc. rewrite Elt. pose proof (compute_lam_t_spec (nct D ss) (a_lam a ss) (tinv ss) (q_d qp ss) (q_m qp ss) (s_lam stp ss) (snd (ut ss)) c) as HL.
    destruct (compute_lam_t _ _ _ _ _ _) as [dl dt]. cbn [fst snd]. apply Nat.ltb_lt in Hc as Hc'. rewrite Hc' in HL. destruct HL as (L1 & L2). split; [|exact L2]. rewrite L1.
    destruct (HG ss c Hss Hc) as (E1 & E2 & E3). rewrite E1, E2, E3. unfold wgt. rsimp. unfold Rdiv. ring. }
  assert (UL : forall ss, (ss <= N)%nat -> (forall i, (i < nux qp ss)%nat -> fst (ut ss) i = k_ux w2 ss i) /\ (forall c, (c < nct D ss)%nat -> snd (ut ss) c = con qp (fun s => fst (ut s)) ss c)).
  { intros ss Hss. pose proof (lin_stage_R qp (Gam ss) (k_Zs w2 ss) ss (k_ux w2 ss) (s_t stp ss) (Hwf ss Hss)) as HL. rewrite <- Eut in HL. unfold con. destruct (ut ss) as [u t]. cbn [fst snd]. destruct HL as (U & _ & T). split; assumption. }
  split; [|split; [|split]].
  - intros i k Hi Hk. unfold kkt_g.
    pose proof (newton_stage qp (a_reg a) Gam gam (reg_diag qp (a_reg a) preg i) i (k_ux w2 i) (s_t stp i) (k_Zs w2 i) (k_pi w2) (fst (lt i)) Hi Hwf Hinj) as NS.
    assert (Epiv : forall l, (l < 2 * dns D i)%nat -> slack_pivot qp (a_reg a) (Gam i) i l = slack_pivot qp (a_reg a) (wgt a i) i l).
    { intros l Hl. unfold slack_pivot. f_equal; [f_equal|].
      - apply HG; [exact Hi|unfold nct; lia].
      - apply rsum_ext. intros j Hj. assert (E1 : Gam i j = wgt a i j) by (apply HG; [exact Hi|unfold nct; lia]). assert (E2 : Gam i (dnb D i + dng D i + j)%nat = wgt a i (dnb D i + dng D i + j)%nat) by (apply HG; [exact Hi|unfold nct; lia]). rewrite E1, E2. reflexivity. }
    specialize (NS ltac:(intros l Hl; rewrite Epiv by exact Hl; apply Hip; assumption) (fun l Hl => S1 i l Hi Hl) (fun l Hl => S3 i l Hi Hl)).
    rewrite <- Eut in NS. pose proof (fun c Hc => proj1 (LT i c Hi Hc)) as LTi. destruct (ut i) as [u t] eqn:EU. cbn [fst snd] in LTi. specialize (NS LTi k Hk).
    cbn [fst snd].
    transitivity (- (if (k <? nux qp i)%nat then reg_diag qp (a_reg a) preg i k else a_reg a) * u k).
    + rewrite <- NS. f_equal. apply rsum_ext. intros c Hc. f_equal.
      destruct (Req_EM_T (q_mask qp i c) 0) as [E|E].
      * destruct (ip_mask _ _ Hip i c Hi Hc E) as (M1 & M2). rewrite E, Rmult_0_l. rewrite LTi by exact Hc. destruct (HG i c Hi Hc) as (_ & E2 & E3). rewrite E2, E3. unfold wgt. rewrite M1, M2. unfold Rdiv. ring.
      * destruct (Hm i c Hi Hc) as [E0|E0]; [contradiction|]. rewrite E0. lra.
    + f_equal. f_equal. unfold reg_diag. destruct (Nat.ltb_spec k (nux qp i)); [reflexivity|]. replace (k <? dnu D i)%nat with false by (symmetry; apply Nat.ltb_ge; unfold nux in *; lia).
      destruct (Nat.eqb_spec i 0) as [-> | ]; cbn [andb orb]; [|reflexivity]. replace (k <? nux qp 0)%nat with false by (symmetry; apply Nat.ltb_ge; lia). reflexivity.
  - intros i j Hi Hj. unfold dyn. destruct (UL i ltac:(lia)) as (U & _). destruct (UL (S i) ltac:(lia)) as (U' & _). rewrite U' by (unfold nux; lia). rewrite S2 by assumption.
    rewrite (rsum_ext _ (fun k => q_BAbt qp i k j * fst (ut i) k) (fun k => q_BAbt qp i k j * k_ux w2 i k)); [lra|]. intros k Hk. rewrite U by exact Hk. reflexivity.
  - intros i c Hi Hc. destruct (LT i c Hi Hc) as (_ & ->). destruct (UL i Hi) as (_ & T). rewrite T by exact Hc. lra.
  - intros i c Hi Hc. destruct (LT i c Hi Hc) as (L1 & L2). rewrite L1, L2. destruct (HG i c Hi Hc) as (_ & E2 & E3). rewrite E2, E3. unfold wgt. field. apply Hip; assumption.
Qed.
End Kkt.
