(** SolveProofs3.v -- a solve after a factorisation returns the Newton step of its right-hand side. *)
From Coq Require Import ZArith Bool Arith Lia Reals Lra.
From Verif Require Import Base ArithF RSum Blas Blas2 CoreModel CoreProofs OcpModel ResSpec KktSpec ResProofs CholProofs KktModel KktProofs KktProofs2 KktProofs3 KktProofs4 KktProofs5 KktProofs6 SolveModel SolveProofs SolveProofs2.
Local Open Scope R_scope.

Lemma compute_gamma_R nc (lam ti d m g : rvec) c : (c < nc)%nat -> compute_gamma nc lam ti d m g c = ti c * (m c - lam c * d c).
Proof.
  intros Hc. unfold compute_gamma. assert (H : forall p, (p <= nc)%nat -> (c < p)%nat -> loop p (fun (ii : nat) (gamma : nat -> R) => upd gamma ii (ti ii * (m ii - lam ii * d ii))%F) g c = ti c * (m c - lam c * d c)).
  { induction p as [|p IH]; intros Hp Hcp; [lia|]. cbn [loop]. destruct (Nat.eq_dec c p) as [->|Hne]; [rewrite upd_same; rsimp; reflexivity|]. rewrite upd_other by assumption. apply IH; lia. }
  apply H; lia.
Qed.

Section Solve.
Variables (a : kargs R) (qp : oqp R).
Notation D := (q_dim qp).
Notation N := (dN D).
Hypothesis Hwf : qp_wf qp.
Hypothesis HN : (1 <= N)%nat.
Hypothesis Hinj : soft_inj qp.
Hypothesis Hip : ipm_point a qp.
Hypothesis Hm : mask01 qp.
Hypothesis Hdual : a_dual a = true.
Variables (tinv Gam : nat -> rvec).
Hypothesis HtG : forall ss c, (ss <= N)%nat -> (c < nct D ss)%nat -> tinv ss c = 1 / a_t a ss c /\ Gam ss c = wgt a ss c.

Lemma solve_R (sq usePb : bool) preg gam0 stp w step w' :
  lhs_ok qp (a_reg a) Gam sq (reg_diag qp (a_reg a) preg) w -> (usePb = true -> Pb_ok qp sq w) ->
  solve_kkt sq usePb a qp tinv Gam gam0 stp w = (step, w') ->
  (forall i k, (i <= N)%nat -> (k < nvt D i)%nat -> kkt_g qp (s_ux step) (s_pi step) (s_lam step) i k = - reg_diag qp (a_reg a) preg i k * s_ux step i k) /\
  (forall i j, (i < N)%nat -> (j < dnx D (S i))%nat -> dyn qp (s_ux step) i j = 0) /\
  (forall i c, (i <= N)%nat -> (c < nct D i)%nat -> q_d qp i c + s_t step i c - con qp (s_ux step) i c = 0) /\
  (forall i c, (i <= N)%nat -> (c < nct D i)%nat -> q_m qp i c + a_lam a i c * s_t step i c + s_lam step i c * a_t a i c = 0).
Proof.
  intros HL HPb H. unfold solve_kkt in H. apply pair_inj in H. destruct H as (Hst & _).
  set (gam := sol_gam a qp tinv gam0) in *.
  assert (HG : forall ss c, (ss <= N)%nat -> (c < nct D ss)%nat -> tinv ss c = 1 / a_t a ss c /\ Gam ss c = wgt a ss c /\ gam ss c = 1 / a_t a ss c * (q_m qp ss c - a_lam a ss c * q_d qp ss c)).
  { intros ss c Hss Hc. destruct (HtG ss c Hss Hc) as (E1 & E2). split; [exact E1|]. split; [exact E2|]. unfold gam, sol_gam. rewrite compute_gamma_R by assumption. rewrite E1. reflexivity. }
  assert (HL' : lhs_ok qp (a_reg a) Gam sq (reg_diag qp (a_reg a) preg) (with_sol w stp)) by exact HL.
  destruct (sweeps_R qp (a_reg a) Gam gam Hwf HN sq usePb (reg_diag qp (a_reg a) preg) (with_sol w stp) HL' HPb) as (_ & S1 & S2 & S3).
  set (w2 := sol_ws sq usePb a qp tinv Gam gam0 stp w) in *.
  assert (Ew : w2 = fwd_solve sq true qp (backward sq usePb qp Gam gam (with_sol w stp))) by (unfold w2, sol_ws; rewrite Hdual; reflexivity).
  rewrite <- Ew in S1, S2, S3. clear HL HL' HPb.
  set (ut := sol_ut sq usePb a qp tinv Gam gam0 stp w) in *. set (lt := sol_lt sq usePb a qp tinv Gam gam0 stp w) in *.
  assert (Eu : s_ux step = fun ss => fst (ut ss)) by (subst step; reflexivity). assert (Ep : s_pi step = k_pi w2) by (subst step; reflexivity).
  assert (El : s_lam step = fun ss => fst (lt ss)) by (subst step; reflexivity). assert (Et : s_t step = fun ss => snd (lt ss)) by (subst step; reflexivity).
  rewrite Eu, Ep, El, Et. clear Eu Ep El Et Hst.
  assert (Elt : forall ss, lt ss = compute_lam_t (nct D ss) (a_lam a ss) (tinv ss) (q_d qp ss) (q_m qp ss) (s_lam stp ss, snd (ut ss))) by (intros; reflexivity).
  assert (Eut : forall ss, ut ss = lin_stage qp (Gam ss) (k_Zs w2 ss) ss (k_ux w2 ss, s_t stp ss)) by (intros; reflexivity).
  clearbody ut lt. clearbody gam w2. clear Ew.
  assert (LT : forall ss c, (ss <= N)%nat -> (c < nct D ss)%nat -> fst (lt ss) c = - (Gam ss c * snd (ut ss) c + gam ss c) /\ snd (lt ss) c = snd (ut ss) c - q_d qp ss c).
  { intros ss c Hss Hc. rewrite Elt. pose proof (compute_lam_t_spec (nct D ss) (a_lam a ss) (tinv ss) (q_d qp ss) (q_m qp ss) (s_lam stp ss) (snd (ut ss)) c) as HC.
    destruct (compute_lam_t _ _ _ _ _ _) as [dl dt]. cbn [fst snd]. apply Nat.ltb_lt in Hc as Hc'. rewrite Hc' in HC. destruct HC as (L1 & L2). split; [|exact L2]. rewrite L1.
    destruct (HG ss c Hss Hc) as (E1 & E2 & E3). rewrite E1, E2, E3. unfold wgt. rsimp. unfold Rdiv. ring. }
  assert (UL : forall ss, (ss <= N)%nat -> (forall i, (i < nux qp ss)%nat -> fst (ut ss) i = k_ux w2 ss i) /\ (forall c, (c < nct D ss)%nat -> snd (ut ss) c = con qp (fun s => fst (ut s)) ss c)).
  { intros ss Hss. pose proof (lin_stage_R qp (Gam ss) (k_Zs w2 ss) ss (k_ux w2 ss) (s_t stp ss) (Hwf ss Hss)) as HC. rewrite <- Eut in HC. unfold con. destruct (ut ss) as [u t]. cbn [fst snd]. destruct HC as (U & _ & T). split; assumption. }
  split; [|split; [|split]].
  - intros i k Hi Hk. unfold kkt_g.
    pose proof (newton_stage qp (a_reg a) Gam gam (reg_diag qp (a_reg a) preg i) i (k_ux w2 i) (s_t stp i) (k_Zs w2 i) (k_pi w2) (fst (lt i)) Hi Hwf Hinj) as NS.
    assert (Epiv : forall l, (l < 2 * dns D i)%nat -> slack_pivot qp (a_reg a) (Gam i) i l = slack_pivot qp (a_reg a) (wgt a i) i l).
    { intros l Hl. unfold slack_pivot. f_equal; [f_equal|].
      - apply HG; [exact Hi|unfold nct; lia].
      - apply rsum_ext. intros j Hj. assert (E1 : Gam i j = wgt a i j) by (apply HG; [exact Hi|unfold nct; lia]). assert (E2 : Gam i (dnb D i + dng D i + j)%nat = wgt a i (dnb D i + dng D i + j)%nat) by (apply HG; [exact Hi|unfold nct; lia]). rewrite E1, E2. reflexivity. }
    specialize (NS ltac:(intros l Hl; rewrite Epiv by exact Hl; apply Hip; assumption) (fun l Hl => S1 i l Hi Hl) (fun l Hl => S3 i l Hi Hl)).
    rewrite <- Eut in NS. pose proof (fun c Hc => proj1 (LT i c Hi Hc)) as LTi. destruct (ut i) as [u t] eqn:EU. cbn [fst snd] in LTi. specialize (NS LTi k Hk).
    cbn [fst snd].
    transitivity (- (if (k <? nux qp i)%nat then reg_diag qp (a_reg a) preg i k else a_reg a) * u k).
    + rewrite <- NS. f_equal. apply rsum_ext. intros c Hc. f_equal.
      destruct (Req_EM_T (q_mask qp i c) 0) as [E|E].
      * destruct (ip_mask _ _ Hip i c Hi Hc E) as (M1 & M2). rewrite E, Rmult_0_l. rewrite LTi by exact Hc. destruct (HG i c Hi Hc) as (_ & E2 & E3). rewrite E2, E3. unfold wgt. rewrite M1, M2. unfold Rdiv. ring.
      * destruct (Hm i c Hi Hc) as [E0|E0]; [contradiction|]. rewrite E0. lra.
    + f_equal. f_equal. unfold reg_diag. destruct (Nat.ltb_spec k (nux qp i)); [reflexivity|]. replace (k <? dnu D i)%nat with false by (symmetry; apply Nat.ltb_ge; unfold nux in *; lia).
      destruct (Nat.eqb_spec i 0) as [-> | ]; cbn [andb orb]; [|reflexivity]. replace (k <? nux qp 0)%nat with false by (symmetry; apply Nat.ltb_ge; lia). reflexivity.
  - intros i j Hi Hj. unfold dyn. destruct (UL i ltac:(lia)) as (U & _). destruct (UL (S i) ltac:(lia)) as (U' & _). rewrite U' by (unfold nux; lia). rewrite S2 by assumption.
    rewrite (rsum_ext _ (fun k => q_BAbt qp i k j * fst (ut i) k) (fun k => q_BAbt qp i k j * k_ux w2 i k)); [lra|]. intros k Hk. rewrite U by exact Hk. reflexivity.
  - intros i c Hi Hc. destruct (LT i c Hi Hc) as (_ & ->). destruct (UL i Hi) as (_ & T). rewrite T by exact Hc. lra.
  - intros i c Hi Hc. destruct (LT i c Hi Hc) as (L1 & L2). rewrite L1, L2. destruct (HG i c Hi Hc) as (_ & E2 & E3). rewrite E2, E3. unfold wgt. field. apply Hip; assumption.
Qed.
(** a solve leaves the factorisation as it was *)
Lemma solve_keeps (sq usePb : bool) preg gam0 stp w step w' :
  lhs_ok qp (a_reg a) Gam sq (reg_diag qp (a_reg a) preg) w -> (usePb = true -> Pb_ok qp sq w) ->
  solve_kkt sq usePb a qp tinv Gam gam0 stp w = (step, w') -> same_lhs w w'.
Proof.
  intros HL HPb H. unfold solve_kkt in H. apply pair_inj in H. destruct H as (_ & <-).
  assert (HL' : lhs_ok qp (a_reg a) Gam sq (reg_diag qp (a_reg a) preg) (with_sol w stp)) by exact HL.
  destruct (sweeps_R qp (a_reg a) Gam (sol_gam a qp tinv gam0) Hwf HN sq usePb (reg_diag qp (a_reg a) preg) (with_sol w stp) HL' HPb) as (S0 & _).
  unfold sol_ws. rewrite Hdual. exact S0.
Qed.
End Solve.

(** ** what OCP_QP_FACT_SOLVE_KKT_STEP leaves *)
Section Fact.
Variables (a : kargs R) (qp : oqp R).
Notation D := (q_dim qp).
Notation N := (dN D).
Hypothesis Hwf : qp_wf qp.
Hypothesis HN : (1 <= N)%nat.
Variables (Gam gam : nat -> rvec).
Notation reg := (a_reg a).

Lemma FR_rho' rho rho' P p ss nf0 L Q q : (forall i, (i < nux qp ss)%nat -> rho i = rho' i) -> FR qp reg Gam gam rho P p ss nf0 L Q q -> FR qp reg Gam gam rho' P p ss nf0 L Q q.
Proof. intros H (A & B & C). split; [|split; assumption]. intros i j Hi Hj. rewrite <- A by assumption. f_equal. unfold stH. f_equal. f_equal. destruct (i =? j)%nat; [symmetry; apply H; exact Hi|reflexivity]. Qed.
Lemma lhs_of_sqrt w w' : BAok qp w -> fact_sqrt reg reg qp Gam gam w = (w', false) -> lhs_ok qp reg Gam true (reg_diag qp reg reg) w'.
Proof.
  intros HB H. destruct (fact_sqrt_R qp reg Gam gam Hwf reg w w' HB H) as (HB' & HS).
  assert (Er : forall ss i, reg = reg_diag qp reg reg ss i). { intros. unfold reg_diag. destruct (_ || _)%bool; reflexivity. }
  assert (FA : forall ss, (ss <= N)%nat -> exists p q, FR qp reg Gam gam (reg_diag qp reg reg ss) (valP qp true w' (S ss)) p ss (nf qp ss) (k_L w' ss) (if (ss =? 0)%nat then fun _ _ => 0 else embQ (dnu D ss) (valP qp true w' ss)) q).
  { intros ss Hss. destruct (HS ss Hss) as (A & _). eapply FR_rho' in A; [|intros i _; apply (Er ss i)]. unfold nf, valP. destruct (Nat.eqb_spec ss 0) as [->|Hne]; do 2 eexists; [exact A|]. apply FR_sqrt_nu. exact A. }
  split; [|split; [|split; [|split]]].
  - intros ss i j Hss Hi Hj. destruct (FA ss Hss) as (p & q & A & _). rewrite A by assumption. f_equal. destruct (ss =? 0)%nat; reflexivity.
  - intros ss k Hss Hk. destruct (FA ss Hss) as (p & q & _ & _ & A). apply A. exact Hk.
  - intros ss k Hss Hk. destruct (HS ss Hss) as (_ & A). apply A. exact Hk.
  - intros ss _ l m _ _. apply VPs_sym.
  - exact HB'.
Qed.
Lemma lhs_of_cls preg w w' : BAok qp w -> fact_cls reg preg qp Gam gam w = (w', false) -> lhs_ok qp reg Gam false (reg_diag qp reg preg) w'.
Proof.
  intros HB H. destruct (fact_cls_R qp reg Gam gam Hwf preg w w' HN HB H) as (HB' & HS & H0 & HS0).
  assert (FA : forall ss, (ss <= N)%nat -> exists p q, FR qp reg Gam gam (reg_diag qp reg preg ss) (valP qp false w' (S ss)) p ss (nf qp ss) (k_L w' ss) (if (ss =? 0)%nat then fun _ _ => 0 else embQ (dnu D ss) (valP qp false w' ss)) q).
  { intros ss Hss. unfold nf, valP. destruct (Nat.eqb_spec ss 0) as [->|Hne].
    - do 2 eexists. eapply FR_rho'; [|exact H0]. intros i Hi. unfold reg_diag. cbn [Nat.eqb andb]. apply Nat.ltb_lt in Hi. rewrite Hi, orb_true_r. reflexivity.
    - destruct (HS ss ltac:(lia)) as (A & _). do 2 eexists. eapply FR_rho'; [|exact A]. intros i Hi. unfold cls_rho, reg_diag. destruct (Nat.eqb_spec ss 0); [lia|]. cbn [andb]. rewrite orb_false_r. reflexivity. }
  split; [|split; [|split; [|split]]].
  - intros ss i j Hss Hi Hj. destruct (FA ss Hss) as (p & q & A & _). rewrite A by assumption. f_equal. destruct (ss =? 0)%nat; reflexivity.
  - intros ss k Hss Hk. destruct (FA ss Hss) as (p & q & _ & _ & A). apply A. exact Hk.
  - intros ss k Hss Hk. destruct (Nat.eq_dec ss 0) as [->|Hne]; [apply HS0; exact Hk|]. destruct (HS ss ltac:(lia)) as (_ & A & _). apply A. exact Hk.
  - intros ss Hss. destruct (HS ss Hss) as (_ & _ & A). exact A.
  - exact HB'.
Qed.

Lemma sqrt_mid_Pb preg ss w w' b : (ss < N)%nat -> fact_sqrt_mid reg preg qp Gam gam ss w = (w', b) ->
  (forall t, t <> ss -> k_Pb w' t = k_Pb w t) /\ (forall m, (m < dnx D (S ss))%nat -> k_Pb w' ss m = rsum (dnx D (S ss)) (fun l => valP qp true w (S ss) m l * q_b qp ss l)).
Proof.
  intros Hss. unfold fact_sqrt_mid. rewrite (Nat.add_1_r ss). destruct (stage_build _ _ _ _ _ _ _ _) as [L [[tmp Zs] dux]].
  destruct (Nat.ltb 0 _); destruct (SYRK_POTRF_LN_MN _ _ _ _ _ _ _ _ _ _ _ _ _ _ _ _) as [L0 dA]; intros H; injection H as <- _; cbn [k_Pb].
  all: split; [intros t Ht; apply upd_other; exact Ht|]. all: intros m Hm; rewrite upd_same.
  all: change (dnu D ss + dnx D ss)%nat with (nux qp ss); set (n := nux qp ss) in *; set (BA := ROWIN _ _ _ _ _ _ _); set (nu1 := dnu D (S ss)) in *; set (nx1 := dnx D (S ss)) in *; set (L1 := k_L w (S ss)) in *; set (A0 := TRMM_RLNN _ _ _ _ _ _ _ _ _ _ _ _); set (q := ROWEX _ _ _ _ _ _ _).
  all: assert (HB2 : forall l, (l < nx1)%nat -> BA n l = q_b qp ss l) by (intros l Hl; unfold BA, ROWIN; rewrite mblk_i by lia; cbn [Nat.add]; rewrite Nat.sub_0_r; rsimp; rewrite R_lit11; lra).
  all: clearbody BA; assert (Hq : forall l, (l < nx1)%nat -> q l = rsum nx1 (fun k => lt L1 (nu1 + k) (nu1 + l) * q_b qp ss k)).
  1, 3: intros l Hl; unfold q, ROWEX; rewrite vset0 by assumption; cbn [Nat.add]; unfold A0, TRMM_RLNN; rewrite mblk_i by lia; rewrite !Nat.sub_0_r, fsum_R; cbn [Nat.add]; rsimp; rewrite R_lit11, !Rmult_1_l;
    rewrite <- (rsum_high nx1 l (fun k => BA n k * L1 (nu1 + k)%nat (nu1 + l)%nat)) by lia; apply rsum_ext; intros k Hk; unfold lt; rewrite HB2 by assumption; destruct (Nat.leb_spec l k), (Nat.leb_spec (nu1 + l) (nu1 + k)); try lia; lra.
  all: clearbody q; unfold TRMV_LNN; rewrite vset0 by assumption; rewrite fsum_R; cbn [Nat.add]; rsimp; unfold valP, VPs; fold L1 nu1 nx1.
  all: rewrite <- (rsum_low nx1 m (fun k => L1 (nu1 + m)%nat (nu1 + k)%nat * q k)) by assumption.
  all: rewrite (rsum_ext nx1 _ (fun k => rsum nx1 (fun l => lt L1 (nu1 + m) (nu1 + k) * lt L1 (nu1 + l) (nu1 + k) * q_b qp ss l))).
  1, 3: rewrite rsum_swap; apply rsum_ext; intros l Hl; rewrite rsum_scal_r; reflexivity.
  all: intros k Hk; unfold lt at 1; destruct (Nat.leb_spec k m), (Nat.leb_spec (nu1 + k) (nu1 + m)); try lia.
  1, 3: rewrite Hq by assumption; rewrite <- rsum_scal; apply rsum_ext; intros; lra.
  all: rewrite (rsum_0 nx1) by (intros; lra); lra.
Qed.
Lemma last_Pb preg w w' b : fact_sqrt_last reg preg qp Gam gam w = (w', b) -> k_Pb w' = k_Pb w.
Proof.
  unfold fact_sqrt_last. destruct (stage_build _ _ _ _ _ _ _ _) as [L [[tmp Zs] dux]].
  destruct (Nat.ltb 0 _); [destruct (SYRK_POTRF_LN_MN _ _ _ _ _ _ _ _ _ _ _ _ _ _ _ _) as [L0 dA]|destruct (POTRF_L_MN _ _ _ _ _ _ _ _ _) as [L0 dA]]; intros H; injection H as <- _; reflexivity.
Qed.
Lemma Pb_of_sqrt preg w w' : fact_sqrt reg preg qp Gam gam w = (w', false) -> Pb_ok qp true w'.
Proof.
  intros H. unfold fact_sqrt in H.
  enough (G : forall K, (K <= N)%nat -> forall w', loop K (fun nn '(w, sg) => if (sg : bool) then (w, sg) else fact_sqrt_mid reg preg qp Gam gam (N - nn - 1) w) (fact_sqrt_last reg preg qp Gam gam w) = (w', false) ->
    forall ss m, (N - K <= ss < N)%nat -> (m < dnx D (S ss))%nat -> k_Pb w' ss m = rsum (dnx D (S ss)) (fun l => valP qp true w' (S ss) m l * q_b qp ss l)).
  { intros ss m Hss Hm. apply (G N (le_n _) w' H); [lia|exact Hm]. }
  clear w' H. induction K as [|K IH]; intros HK w' H ss m Hss Hm; cbn [loop] in H; [lia|].
  destruct (loop K _ _) as [w1 b1]. destruct b1; [discriminate|]. specialize (IH ltac:(lia) w1 eq_refl).
  pose proof (fact_sqrt_mid_frame _ _ _ _ _ _ _ _ _ H) as (F1 & _). set (q := (N - K - 1)%nat) in *.
  destruct (sqrt_mid_Pb preg q w1 w' false ltac:(unfold q; lia) H) as (P1 & P2).
  assert (EV : valP qp true w' (S ss) = valP qp true w1 (S ss)). { unfold valP. destruct (F1 (S ss) ltac:(unfold q; lia)) as (E & _). rewrite E. reflexivity. }
  rewrite EV. destruct (Nat.eq_dec ss q) as [->|Hne]; [apply P2; exact Hm|]. rewrite P1 by assumption. apply IH; [unfold q in Hne; lia|exact Hm].
Qed.

Lemma cls_mid_Pb full preg ss w w' b : (ss < N)%nat -> fact_cls_mid full reg preg qp Gam gam ss w = (w', b) ->
  (forall t, t <> ss -> k_Pb w' t = k_Pb w t) /\ (forall m, (m < dnx D (S ss))%nat -> k_Pb w' ss m = rsum (dnx D (S ss)) (fun l => k_P w (S ss) m l * q_b qp ss l)).
Proof.
  intros Hss H. unfold fact_cls_mid in H. rewrite (Nat.add_1_r ss) in H. change (dnu D ss + dnx D ss)%nat with (nux qp ss) in H. set (n := nux qp ss) in *. set (nx1 := dnx D (S ss)) in *.
  set (BA := ROWIN nx1 f1 (q_b qp ss) 0 (k_BAbt w ss) n 0) in *. set (A0 := GEMM_NT _ _ _ _ _ _ _ _ _ _ _ _ _ _ _ _ _) in *. set (Pb := ROWEX nx1 f1 A0 n 0 (k_Pb w ss) 0) in *.
  assert (HP : forall m, (m < nx1)%nat -> Pb m = rsum nx1 (fun l => k_P w (S ss) m l * q_b qp ss l)).
  { intros m Hm. unfold Pb, ROWEX. rewrite vset0 by assumption. cbn [Nat.add]. unfold A0, GEMM_NT. rewrite mblk_i by lia. rewrite !Nat.sub_0_r, fsum_R. cbn [Nat.add]. rsimp. rewrite R_lit01, R_lit11.
    rewrite (rsum_ext nx1 (fun l => BA n l * k_P w (S ss) m l) (fun l => k_P w (S ss) m l * q_b qp ss l)); [lra|]. intros l Hl. unfold BA, ROWIN. rewrite mblk_i by lia. cbn [Nat.add]. rewrite Nat.sub_0_r. rsimp. rewrite R_lit11. lra. }
  clearbody Pb. destruct (stage_build _ _ _ _ _ _ _ _) as [L [[tmp Zs] dux]]. destruct (if Nat.ltb 0 _ then _ else _) as [L' AL]. destruct full.
  - destruct (SYRK_POTRF_LN_MN _ _ _ _ _ _ _ _ _ _ _ _ _ _ _ _) as [L0 dA]. apply pair_inj in H. destruct H as (<- & _). cbn [k_Pb]. split; [intros t Ht; apply upd_other; exact Ht|]. intros m Hm. rewrite upd_same. apply HP. exact Hm.
  - destruct (POTRF_L_MN _ _ _ _ _ _ _ _ _) as [L0 dA]. destruct (if singular _ _ then _ else _) as [Ls P]. apply pair_inj in H. destruct H as (<- & _). cbn [k_Pb]. split; [intros t Ht; apply upd_other; exact Ht|]. intros m Hm. rewrite upd_same. apply HP. exact Hm.
Qed.
Lemma Pb_of_cls preg w w' : fact_cls reg preg qp Gam gam w = (w', false) -> Pb_ok qp false w'.
Proof.
  intros H. rewrite fact_cls_eq in H. destruct (cls_sweep _ _ _ _ _ _ _) as [w1 b1] eqn:E1. destruct b1; [discriminate|]. destruct (Nat.ltb_spec 0 N); [|lia].
  assert (G : forall K, (K < N)%nat -> forall w', cls_sweep qp Gam gam reg preg K w = (w', false) ->
    forall ss m, (N - K <= ss < N)%nat -> (m < dnx D (S ss))%nat -> k_Pb w' ss m = rsum (dnx D (S ss)) (fun l => k_P w' (S ss) m l * q_b qp ss l)).
  { clear w' H w1 E1. induction K as [|K IH]; intros HK w' H ss m Hss Hm; unfold cls_sweep in H; cbn [loop] in H; [lia|].
    fold (cls_sweep qp Gam gam reg preg K w) in H. destruct (cls_sweep _ _ _ _ _ K w) as [w1 b1]. destruct b1; [discriminate|]. specialize (IH ltac:(lia) w1 eq_refl).
    pose proof (fact_cls_mid_frame _ _ _ _ _ _ _ _ _ _ H) as (F1 & _). set (q := (N - K - 1)%nat) in *.
    destruct (cls_mid_Pb false preg q w1 w' false ltac:(unfold q; lia) H) as (P1 & P2).
    assert (EV : k_P w' (S ss) = k_P w1 (S ss)). { destruct (F1 (S ss) ltac:(unfold q; lia)) as (_ & E & _). exact E. }
    rewrite EV. destruct (Nat.eq_dec ss q) as [->|Hne]; [apply P2; exact Hm|]. rewrite P1 by assumption. apply IH; [unfold q in Hne; lia|exact Hm]. }
  intros ss m Hss Hm. unfold valP. specialize (G (N - 1)%nat ltac:(lia) w1 E1).
  pose proof (fact_cls_mid_frame _ _ _ _ _ _ _ _ _ _ H) as (F1 & _). destruct (cls_mid_Pb true preg 0 w1 w' false ltac:(lia) H) as (P1 & P2).
  destruct (F1 (S ss) ltac:(lia)) as (_ & E & _). rewrite E. destruct (Nat.eq_dec ss 0) as [->|Hne]; [apply P2; exact Hm|]. rewrite P1 by assumption. apply G; [lia|exact Hm].
Qed.

(** the forward pass of the factorisation leaves it unchanged *)
Lemma forward_keeps fwd w : (forall nsol ss w, same_lhs w (fwd nsol ss w)) -> same_lhs w (forward fwd qp w).
Proof.
  intros H. unfold forward. set (w1 := fwd _ 0%nat w). assert (S1 : same_lhs w w1) by apply H. set (w2 := loop _ _ w1).
  assert (S2 : same_lhs w w2). { unfold w2. generalize (N - 1)%nat. intros K. induction K as [|K IH]; cbn [loop]; [exact S1|]. eapply same_trans; [exact IH|apply H]. }
  clearbody w2. eapply same_trans; [exact S2|]. unfold fwd_last, same_lhs. cbn [k_BAbt k_L k_P k_Zs k_Pb]. repeat split.
Qed.
Lemma fwd_sqrt_keeps d nsol ss w : same_lhs w (fwd_sqrt d qp nsol ss w).
Proof. unfold fwd_sqrt, same_lhs. cbn [k_BAbt k_L k_P k_Zs k_Pb]. repeat split. Qed.
Lemma fwd_cls_keeps d nsol ss w : same_lhs w (fwd_cls d qp nsol ss w).
Proof. unfold fwd_cls, same_lhs. cbn [k_BAbt k_L k_P k_Zs k_Pb]. repeat split. Qed.

Lemma retry_lhs fuel : forall init preg w r, BAok qp w -> retry fuel reg (a_preg_last a) qp Gam gam init preg w = Some r -> lhs_ok qp reg Gam false (reg_diag qp reg (snd r)) (fst r) /\ Pb_ok qp false (fst r).
Proof.
  induction fuel as [|fuel IH]; intros init preg w r HB H; [discriminate|]. cbn [retry] in H.
  set (p' := next_preg _ _ _ _) in H. destruct (fact_cls _ p' _ _ _ w) as [w1 sg] eqn:E. destruct sg.
  - eapply IH; [|exact H]. eapply fact_cls_BA; [exact HB|exact E].
  - apply Some_inj in H. subst r. cbn [fst snd]. split; [eapply lhs_of_cls; eassumption|eapply Pb_of_cls; eassumption].
Qed.
End Fact.

Section Fact2.
Variables (a : kargs R) (qp : oqp R).
Notation D := (q_dim qp).
Notation N := (dN D).
Hypothesis Hwf : qp_wf qp.
Hypothesis HN : (1 <= N)%nat.
Variables (tinv0 Gam0 gam0 : nat -> rvec).
Notation Gam := (kkt_Gam a qp tinv0 Gam0 gam0).
Notation gam := (kkt_gam a qp tinv0 Gam0 gam0).
(** [sq = true] and no retry: the square-root factor is stored; otherwise the classical one *)
Lemma factor_lhs fuel (sq : bool) w w2 preg : BAok qp w -> kkt_factor a qp tinv0 Gam0 gam0 fuel sq w = Some (w2, preg) ->
  (sq = true -> snd (fact_sqrt (a_reg a) (a_reg a) qp Gam gam w) = false) ->
  lhs_ok qp (a_reg a) Gam sq (reg_diag qp (a_reg a) preg) w2 /\ Pb_ok qp sq w2.
Proof.
  intros HB H Hsq. unfold kkt_factor in H. destruct sq.
  - destruct (fact_sqrt _ _ _ _ _ w) as [w1 sg] eqn:E. specialize (Hsq eq_refl). cbn [snd] in Hsq. subst sg. apply Some_inj, pair_inj in H. destruct H as (<- & <-).
    pose proof (forward_keeps qp (fwd_sqrt (a_dual a) qp) w1 (fwd_sqrt_keeps qp (a_dual a))) as K. split.
    + eapply same_ok; [exact K|]. eapply lhs_of_sqrt; eassumption.
    + eapply same_Pb; [exact K|]. eapply Pb_of_sqrt; eassumption.
  - clear Hsq. destruct (fact_cls _ _ _ _ _ w) as [w1 sg] eqn:E. destruct sg.
    + destruct (retry _ _ _ _ _ _ _ _ w1) as [[w3 p3]|] eqn:ER; [|discriminate]. apply Some_inj, pair_inj in H. destruct H as (<- & <-).
      pose proof (forward_keeps qp (fwd_cls (a_dual a) qp) w3 (fwd_cls_keeps qp (a_dual a))) as K.
      pose proof (retry_lhs a qp Hwf HN Gam gam fuel false (a_reg a) w1 (w3, p3) (fact_cls_BA _ _ _ _ _ _ _ _ HB E) ER) as (R1 & R2). cbn [fst snd] in R1, R2.
      split; [eapply same_ok; eassumption|eapply same_Pb; eassumption].
    + apply Some_inj, pair_inj in H. destruct H as (<- & <-).
      pose proof (forward_keeps qp (fwd_cls (a_dual a) qp) w1 (fwd_cls_keeps qp (a_dual a))) as K.
      split; [eapply same_ok; [exact K|eapply lhs_of_cls; eassumption]|eapply same_Pb; [exact K|eapply Pb_of_cls; eassumption]].
Qed.
End Fact2.
