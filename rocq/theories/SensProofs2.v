(** SensProofs2.v -- the stored factorisation across sensitivity and prediction calls; derivatives of solution curves. *)
From Coq Require Import ZArith Bool Arith Lia Reals Lra.
From Verif Require Import Base ArithF RSum Blas CoreModel CoreProofs OcpModel ResSpec KktSpec ResProofs ResProofs2 ResProps CholProofs CholPD KktModel KktProofs KktProofs2 KktProofs3 KktProofs4 KktProofs5 KktProofs6 KktProofs7 KktProps.
From Verif Require Import SolveModel SolveProofs SolveProofs2 SolveProofs3 SolveProofs4 NewtonUniq SolveProps SensModel SensSpec SensProofs.
Local Open Scope R_scope.

Section Hist.
Variables (sq : bool) (a : kargs R) (qp : oqp R).
Notation D := (q_dim qp).
Notation N := (dN D).
Hypothesis Hwf : qp_wf qp.
Hypothesis HN : (1 <= N)%nat.
Hypothesis Hinj : soft_inj qp.
Hypothesis Hm : mask01 qp.
Hypothesis Hip : interior a qp.
Hypothesis Hdual : a_dual a = true.

Lemma ip_seed g b d m : masked_zero qp m -> ipm_point a (with_rhs qp g b d m).
Proof.
  intros H. split.
  - exact (ip_t _ _ Hip).
  - exact (ip_clip _ _ Hip).
  - intros i c Hi Hc E. split; [apply (ip_mask _ _ Hip i c Hi Hc E)|apply H; assumption].
  - exact (ip_piv _ _ Hip).
Qed.
Lemma factored_ok pb bX preg tinv Gam w : factored sq a qp pb bX preg tinv Gam w ->
  (forall ss c, (ss <= N)%nat -> (c < nct D ss)%nat -> tinv ss c = 1 / a_t a ss c /\ Gam ss c = wgt a ss c) /\
  lhs_ok qp (a_reg a) Gam sq (reg_diag qp (a_reg a) preg) w /\ (pb = true -> forall b, same_b (with_rhs qp (fun _ _ => 0) bX (fun _ _ => 0) (fun _ _ => 0)) b -> forall g d m, Pb_ok (with_rhs qp g b d m) sq w).
Proof.
  intros [fuel g d m tinv0 Gam0 gam0 stp w' step preg' w0 bX' HB Hsq Hmm H | tinv0 Gam0 w' bX' HB Hc Hm1 Hcl].
  - pose proof (ip_seed g bX' d m Hmm) as Hip'. unfold fact_solve_kkt in H.
    destruct (kkt_factor a (with_rhs qp g bX' d m) tinv0 Gam0 gam0 fuel sq w') as [[w2 p2]|] eqn:E; [|discriminate]. apply Some_inj, pair_inj in H. destruct H as (H & <-). apply pair_inj in H. destruct H as (_ & <-).
    destruct (factor_lhs a (with_rhs qp g bX' d m) Hwf HN tinv0 Gam0 gam0 fuel sq w' w2 p2 HB E) as (L1 & L2).
    { intros ->. destruct Hsq as [Hsq| ->]; [discriminate|]. unfold kkt_factor in E. destruct (fact_sqrt _ _ _ _ _ w') as [w3 [|]]; [discriminate|reflexivity]. }
    split; [|split; [exact L1|]].
    + intros ss c Hss Hc. destruct (Gamgam_R a (with_rhs qp g bX' d m) Hip' tinv0 Gam0 gam0 ss c Hss Hc) as (G1 & G2 & _). split; assumption.
    + intros _ b Hb g' d' m' ss k Hss Hk. rewrite (L2 ss k Hss Hk). apply rsum_ext. intros l Hl. cbn [q_b with_rhs]. rewrite (Hb ss l Hss Hl). reflexivity.
  - split; [|split].
    + intros ss c Hss Hk. unfold kf_tinv, kf_Gam, kf_tG.
      pose proof (compute_Ggamma_spec (a_tlm a) (nct (q_dim qp) ss) (a_lam a ss) (a_t a ss) (a_lam_min a) (a_t_min a) (a_t_min_inv a) (tinv0 ss) (Gam0 ss) c) as H.
      destruct (compute_Ggamma _ _ _ _ _ _ _ _) as [ti G0]. cbn [fst snd]. destruct H as (H1 & H2). apply Nat.ltb_lt in Hk as Hk'. rewrite Hk' in *.
      revert H1 H2. rsimp. rewrite R_lit11. intros H1 H2. split; [exact H1|]. rewrite H2. unfold wgt. apply Z.eqb_neq in Hcl. rewrite Hcl. unfold Rdiv. lra.
    + assert (HtG : forall ss c, (ss <= dN (q_dim qp))%nat -> (c < nct (q_dim qp) ss)%nat -> kf_tinv a qp tinv0 Gam0 ss c = 1 / a_t a ss c /\ kf_Gam a qp tinv0 Gam0 ss c = wgt a ss c).
      { intros ss c Hss Hk. unfold kf_tinv, kf_Gam, kf_tG.
        pose proof (compute_Ggamma_spec (a_tlm a) (nct (q_dim qp) ss) (a_lam a ss) (a_t a ss) (a_lam_min a) (a_t_min a) (a_t_min_inv a) (tinv0 ss) (Gam0 ss) c) as H.
        destruct (compute_Ggamma _ _ _ _ _ _ _ _) as [ti G0]. cbn [fst snd]. destruct H as (H1 & H2). apply Nat.ltb_lt in Hk as Hk'. rewrite Hk' in *.
        revert H1 H2. rsimp. rewrite R_lit11. intros H1 H2. split; [exact H1|]. rewrite H2. unfold wgt. apply Z.eqb_neq in Hcl. rewrite Hcl. unfold Rdiv. lra. }
      set (GG := kf_Gam a qp tinv0 Gam0) in *.
      unfold fact_kkt. fold GG. eapply fact_kkt_lhs; try eassumption.
      intros ss Hss. apply stH_pd; try assumption.
      * intros i c Hi Hk. destruct (HtG i c Hi Hk) as (_ & ->). apply (cx_wgt a qp Hc); assumption.
      * apply Hc.
      * intros i k Hi Hk. replace (slack_pivot qp (a_reg a) (GG i) i k) with (slack_pivot qp (a_reg a) (wgt a i) i k); [apply cx_piv; assumption|].
        unfold slack_pivot. f_equal; [f_equal; symmetry; apply HtG; [exact Hi|unfold nct; lia]|]. apply rsum_ext. intros j Hj.
        destruct (HtG i j Hi ltac:(unfold nct; lia)) as (_ & ->). destruct (HtG i (dnb (q_dim qp) i + dng (q_dim qp) i + j)%nat Hi ltac:(unfold nct; lia)) as (_ & ->). reflexivity.
      * intros i Hi. apply cx_pd; assumption.
      * reflexivity.
    + discriminate.
Qed.

Variables (pb : bool) (bX : nat -> nat -> R) (preg : R) (tinv Gam : nat -> rvec) (w0 : kws R) (bkp : osol R).
Hypothesis Hf : factored sq a qp pb bX preg tinv Gam w0.
Hypothesis Hbkp : saved_point a D bkp.

(** one solve with the arguments seen through a struct loaded from the backup *)
Lemma one_keeps a' usePb g b d m gam0 stp w : at_point a a' D -> lhs_ok qp (a_reg a) Gam sq (reg_diag qp (a_reg a) preg) w -> (usePb = true -> Pb_ok (with_rhs qp g b d m) sq w) ->
  same_lhs w (snd (solve_kkt sq usePb a' (with_rhs qp g b d m) tinv Gam gam0 stp w)).
Proof.
  intros Ha HL HP. destruct (solve_kkt _ _ _ _ _ _ _ _ _) as [st w2] eqn:E. cbn [snd].
  eapply (solve_keeps a' (with_rhs qp g b d m) Hwf HN) with (preg := preg); [|  |exact HP|exact E].
  - destruct Ha as (_ & -> & _). exact Hdual.
  - destruct Ha as (-> & _). exact HL.
Qed.
Lemma load_at out : at_point a (alias_args a (load D bkp out)) D.
Proof. eapply alias_at; [|reflexivity]. intros i c Hi Hc. destruct (Hbkp i c Hi Hc). split; assumption. Qed.
Lemma history_keeps w : history sq a qp pb bX tinv Gam bkp w0 w -> same_lhs w0 w.
Proof.
  destruct (factored_ok _ _ _ _ _ _ Hf) as (_ & HL & HP).
  intros H. induction H as [|w1 usePb g b d m gam0 stp H IH Hb|w1 sd gam0 out H IH|w1 sd gam0 tmp out H IH|w1 g b d m ap ad gam0 res0 rw0 stp out H IH|w1 g b d m gam0 out H IH]; [apply same_refl| | | | |];
  (eapply same_trans; [exact IH|]; pose proof (same_ok qp (a_reg a) Gam sq _ w0 w1 IH HL) as HL1).
  - apply one_keeps; [repeat split|exact HL1|]. intros Eu. destruct (Hb Eu) as (Ep & Eb). apply (same_Pb (with_rhs qp g b d m) sq w0 w1 IH). apply HP; assumption.
  - unfold sens_frw. rewrite solve_alias_ws. unfold seed_qp. apply one_keeps; [apply load_at|exact HL1|discriminate].
  - unfold sens_adj. destruct (solve_kkt_alias _ _ _ _ _ _ _ _) as [s w2] eqn:E. cbn [fst snd]. assert (E2 : w2 = snd (s, w2)) by reflexivity. rewrite E2, <- E, solve_alias_ws. unfold seed_qp.
    apply one_keeps; [apply load_at|exact HL1|discriminate].
  - unfold predict. match goal with |- context [solve_kkt ?x1 ?x2 ?x3 ?x4 ?x5 ?x6 ?x7 ?x8 ?x9] => set (S := solve_kkt x1 x2 x3 x4 x5 x6 x7 x8 x9) end. assert (E2 : same_lhs w1 (snd S)).
    { unfold S. apply (one_keeps _ false); [apply load_at|exact HL1|discriminate]. }
    destruct S as [step w2]. destruct (ocp_update _ _ _ _ _ _ _ _ _) as [x' b']. cbn [snd] in *. exact E2.
  - unfold predict_abs. rewrite solve_alias_ws. apply one_keeps; [apply load_at|exact HL1|discriminate].
Qed.
(** a solve through the loaded struct is exact *)
Lemma one_solve a' w g b d m gam0 stp : history sq a qp pb bX tinv Gam bkp w0 w -> at_point a a' D -> masked_zero qp m ->
  newton_solution a (with_rhs qp g b d m) preg (fst (solve_kkt sq false a' (with_rhs qp g b d m) tinv Gam gam0 stp w)).
Proof.
  intros H Ha Hmm. destruct (factored_ok _ _ _ _ _ _ Hf) as (HtG & HL & HP). pose proof (history_keeps w H) as K.
  apply (newton_at a a'); [exact Ha|]. destruct (solve_kkt _ _ _ _ _ _ _ _ _) as [step w2] eqn:E. cbn [fst].
  assert (Ha' := Ha). destruct Ha' as (Er & Ed & _ & _ & _ & Hp).
  destruct (solve_R a' (with_rhs qp g b d m) Hwf HN Hinj) with (tinv := tinv) (Gam := Gam) (sq := sq) (usePb := false) (preg := preg) (gam0 := gam0) (stp := stp) (w := w) (step := step) (w' := w2) as (A & B & C & M); try assumption.
  - apply (ip_at a); [exact Ha|apply ip_seed; exact Hmm].
  - congruence.
  - intros ss c Hss Hc. destruct (Hp ss c Hss Hc) as (_ & E2). rewrite E2, (wgt_at a a' D ss c Ha Hss Hc). apply HtG; assumption.
  - rewrite Er. exact (same_ok qp (a_reg a) Gam sq _ w0 w K HL).
  - discriminate.
  - split; [|split; [exact B|split; [exact C|exact M]]]. intros i k Hi Hk. rewrite A by assumption. lra.
Qed.
Lemma alias_solve w g b d m gam0 out : history sq a qp pb bX tinv Gam bkp w0 w -> masked_zero qp m ->
  newton_solution a (with_rhs qp g b d m) preg (fst (solve_kkt_alias sq a (with_rhs qp g b d m) tinv Gam gam0 (load D bkp out) w)).
Proof.
  intros H Hmm. destruct (solve_alias sq a (with_rhs qp g b d m) tinv Gam gam0 (load D bkp out) w) as (E1 & E2 & E3 & E4).
  eapply newton_same; [intros; symmetry; apply E1|intros; symmetry; apply E2|intros; symmetry; apply E3|intros; symmetry; apply E4|].
  apply one_solve; [exact H|apply load_at|exact Hmm].
Qed.
Lemma frw_R w sd gam0 out : history sq a qp pb bX tinv Gam bkp w0 w -> masked_zero qp (sd_m sd) ->
  newton_solution a (seed_qp qp sd) preg (fst (sens_frw sq a qp sd bkp tinv Gam gam0 out w)).
Proof. intros H Hmm. unfold sens_frw, seed_qp. apply alias_solve; assumption. Qed.
Lemma adj_R w sd gam0 tmp out : history sq a qp pb bX tinv Gam bkp w0 w -> masked_zero qp (sd_m sd) ->
  let s := fst (fst (fst (sens_adj sq a qp sd bkp tinv Gam gam0 tmp out w))) in
  exists s0, newton_solution a (with_rhs qp (sd_g sd) (sd_b sd) (sd_d sd) (fun i c => sd_m sd i c * a_t a i c)) preg s0 /\
    s_ux s = s_ux s0 /\ s_pi s = s_pi s0 /\ s_lam s = s_lam s0 /\ forall i c, (i <= N)%nat -> (c < nct D i)%nat -> s_t s i c = s_t s0 i c / a_t a i c.
Proof.
  intros H Hmm. cbv zeta. unfold sens_adj. set (x := load D bkp out).
  set (sd1 := mkseed (sd_g sd) (sd_b sd) (sd_d sd) (fun ss => snd (scale_m (nct D ss) (s_t x ss) (tmp ss, sd_m sd ss)))).
  assert (Em : forall i c, (i <= N)%nat -> (c < nct D i)%nat -> sd_m sd1 i c = sd_m sd i c * a_t a i c).
  { intros i c Hi Hc. unfold sd1. cbn [sd_m]. rewrite (proj2 (scale_m_val (nct D i) (s_t x i) (tmp i) (sd_m sd i) c)). apply Nat.ltb_lt in Hc as Hc'. rewrite Hc'. rsimp.
    f_equal. unfold x. rewrite load_t by assumption. apply Hbkp; assumption. }
  assert (Hmm1 : masked_zero qp (sd_m sd1)). { intros i c Hi Hc E. rewrite Em by assumption. rewrite (Hmm i c Hi Hc E). ring. }
  pose proof (alias_solve w (sd_g sd1) (sd_b sd1) (sd_d sd1) (sd_m sd1) gam0 out H Hmm1) as HS. fold (seed_qp qp sd1) in HS. fold x in HS.
  destruct (solve_kkt_alias sq a (seed_qp qp sd1) tinv Gam gam0 x w) as [s w2]. cbn [fst snd] in *. exists s. split; [|split; [reflexivity|split; [reflexivity|split; [reflexivity|]]]].
  - eapply rhs_m; [|exact HS]. exact Em.
  - intros i c Hi Hc. cbn [s_t]. rewrite scale_t_val. apply Nat.ltb_lt in Hc as Hc'. rewrite Hc'. destruct (factored_ok _ _ _ _ _ _ Hf) as (HtG & _). destruct (HtG i c Hi Hc) as (-> & _). rsimp. unfold Rdiv. ring.
Qed.
End Hist.

(** ** derivatives *)
Lemma dlim_ext_loc (f g : R -> R) x l eps : 0 < eps -> (forall h, Rabs (h - x) < eps -> f h = g h) -> derivable_pt_lim f x l -> derivable_pt_lim g x l.
Proof.
  intros He H Hf e He'. destruct (Hf e He') as (del & Hd). assert (Hp : 0 < Rmin del eps) by (apply Rmin_pos; [apply (cond_pos del)|exact He]).
  exists (mkposreal _ Hp). cbn. intros h Hh0 Hh. rewrite <- !H.
  - apply Hd; [exact Hh0|]. eapply Rlt_le_trans; [exact Hh|apply Rmin_l].
  - replace (x - x) with 0 by ring. rewrite Rabs_R0. exact He.
  - replace (x + h - x) with h by ring. eapply Rlt_le_trans; [exact Hh|apply Rmin_r].
Qed.
Lemma dlim_zero (f : R -> R) x l eps : 0 < eps -> (forall h, Rabs (h - x) < eps -> f h = 0) -> derivable_pt_lim f x l -> l = 0.
Proof.
  intros He H Hf. apply (uniqueness_limite (fun _ => 0) x).
  - eapply dlim_ext_loc; [exact He|intros h Hh; exact (H h Hh)|exact Hf].
  - exact (derivable_pt_lim_const 0 x).
Qed.
Lemma dlim_rsum n (f : nat -> R -> R) (l : nat -> R) x : (forall k, (k < n)%nat -> derivable_pt_lim (f k) x (l k)) -> derivable_pt_lim (fun h => rsum n (fun k => f k h)) x (rsum n l).
Proof.
  induction n as [|n IH]; intros H; cbn [rsum]; [apply derivable_pt_lim_const|].
  apply (derivable_pt_lim_plus (fun h => rsum n (fun k => f k h)) (f n)); [apply IH; intros; apply H; lia|apply H; lia].
Qed.
Lemma dlim_scal c (f : R -> R) x l : derivable_pt_lim f x l -> derivable_pt_lim (fun h => c * f h) x (c * l).
Proof. apply derivable_pt_lim_scal. Qed.
Lemma dlim_lin n (c : nat -> R) (f : R -> nat -> R) (l : nat -> R) x : (forall k, (k < n)%nat -> derivable_pt_lim (fun h => f h k) x (l k)) -> derivable_pt_lim (fun h => rsum n (fun k => c k * f h k)) x (rsum n (fun k => c k * l k)).
Proof. intros H. apply (dlim_rsum n (fun k h => c k * f h k)). intros k Hk. apply dlim_scal. apply H. exact Hk. Qed.

Section Deriv.
Variables (a : kargs R) (qp : oqp R).
Notation D := (q_dim qp).
Notation N := (dN D).
Variables (c : curve) (l : osol R) (sd : seed R) (eps : R).
Hypothesis Hwf : qp_wf qp.
Hypothesis Hm : masks_one D (q_mask qp).
Hypothesis Hreg : a_reg a = 0.
Hypothesis He : 0 < eps.
Hypothesis Hsol : forall h, Rabs h < eps -> relaxed_kkt (with_rhs qp (c_g c h) (c_b c h) (c_d c h) (c_m c h)) (mksol (c_ux c h) (c_pi c h) (c_lam c h) (c_t c h)).
Hypothesis Hpt : forall i k, (i <= N)%nat -> (k < nct D i)%nat -> c_lam c 0 i k = a_lam a i k /\ c_t c 0 i k = a_t a i k.
Hypothesis Hdata : data_derivative D c sd.
Hypothesis Hd : curve_derivative D c l.

Lemma deriv_newton : newton_solution a (seed_qp qp sd) 0 l.
Proof.
  destruct Hdata as (Dg & Db & Dd & Dm). destruct Hd as (Du & Dp & Dl & Dt).
  assert (Hin : forall h, Rabs (h - 0) < eps -> Rabs h < eps) by (intros h; rewrite Rminus_0_r; auto).
  split; [|split; [|split]]; cbn [q_dim seed_qp with_rhs q_d q_m].
  - intros i k Hi Hk. assert (reg_diag qp (a_reg a) 0 i k = 0) as E0 by (unfold reg_diag; rewrite Hreg; destruct (_ || _)%bool; reflexivity).
    change (reg_diag (seed_qp qp sd)) with (reg_diag qp). rewrite E0. rewrite Rmult_0_l, Rplus_0_r.
    apply (dlim_zero (fun h => kkt_g (with_rhs qp (c_g c h) (c_b c h) (c_d c h) (c_m c h)) (c_ux c h) (c_pi c h) (c_lam c h) i k) 0 _ eps He).
    { intros h Hh. destruct (Hsol h (Hin h Hh)) as (A & _). apply A; assumption. }
    unfold kkt_g. cbn [q_dim q_rqz q_BAbt q_mask with_rhs seed_qp]. change (nux (seed_qp qp sd)) with (nux qp).
    change (Hess (seed_qp qp sd)) with (Hess qp). change (G (seed_qp qp sd)) with (G qp).
    apply (derivable_pt_lim_minus (fun h => rsum (nvt D i) (fun l0 => Hess qp i k l0 * c_ux c h i l0) + c_g c h i k + (if (i <? N)%nat && (k <? nux qp i)%nat then rsum (dnx D (S i)) (fun j => q_BAbt qp i k j * c_pi c h i j) else 0) - (if (0 <? i)%nat && (dnu D i <=? k)%nat && (k <? nux qp i)%nat then c_pi c h (i - 1)%nat (k - dnu D i)%nat else 0)) (fun h => rsum (nct D i) (fun c0 => G qp i c0 k * (q_mask qp i c0 * c_lam c h i c0)))).
    2:{ apply (dlim_rsum (nct D i) (fun c0 h => G qp i c0 k * (q_mask qp i c0 * c_lam c h i c0))). intros c0 Hc0. apply (dlim_scal (G qp i c0 k) (fun h => q_mask qp i c0 * c_lam c h i c0)). apply (dlim_scal _ (fun h => c_lam c h i c0)). apply Dl; assumption. }
    apply (derivable_pt_lim_minus (fun h => rsum (nvt D i) (fun l0 => Hess qp i k l0 * c_ux c h i l0) + c_g c h i k + (if (i <? N)%nat && (k <? nux qp i)%nat then rsum (dnx D (S i)) (fun j => q_BAbt qp i k j * c_pi c h i j) else 0)) (fun h => (if (0 <? i)%nat && (dnu D i <=? k)%nat && (k <? nux qp i)%nat then c_pi c h (i - 1)%nat (k - dnu D i)%nat else 0))).
    2:{ destruct (Nat.ltb_spec 0 i); cbn [andb]; [|exact (derivable_pt_lim_const 0 0)]. destruct (Nat.leb_spec (dnu D i) k); cbn [andb]; [|exact (derivable_pt_lim_const 0 0)].
        destruct (Nat.ltb_spec k (nux qp i)) as [Hku|]; [|exact (derivable_pt_lim_const 0 0)]. apply Dp; [lia|]. replace (S (i - 1)) with i by lia. unfold nux in Hku. lia. }
    apply (derivable_pt_lim_plus (fun h => rsum (nvt D i) (fun l0 => Hess qp i k l0 * c_ux c h i l0) + c_g c h i k) (fun h => (if (i <? N)%nat && (k <? nux qp i)%nat then rsum (dnx D (S i)) (fun j => q_BAbt qp i k j * c_pi c h i j) else 0))).
    2:{ destruct (Nat.ltb_spec i N); cbn [andb]; [|exact (derivable_pt_lim_const 0 0)]. destruct (k <? nux qp i)%nat; [|exact (derivable_pt_lim_const 0 0)].
        apply (dlim_lin (dnx D (S i)) (fun j => q_BAbt qp i k j) (fun h j => c_pi c h i j)). intros j Hj. apply Dp; assumption. }
    apply (derivable_pt_lim_plus (fun h => rsum (nvt D i) (fun l0 => Hess qp i k l0 * c_ux c h i l0)) (fun h => c_g c h i k)); [|apply Dg; assumption].
    apply (dlim_lin (nvt D i) (fun m => Hess qp i k m) (fun h m => c_ux c h i m)). intros m Hm'. apply Du; assumption.
  - intros i j Hi Hj.
    apply (dlim_zero (fun h => dyn (with_rhs qp (c_g c h) (c_b c h) (c_d c h) (c_m c h)) (c_ux c h) i j) 0 _ eps He).
    { intros h Hh. destruct (Hsol h (Hin h Hh)) as (_ & A & _). apply A; assumption. }
    unfold dyn. cbn [q_dim q_b q_BAbt with_rhs seed_qp]. change (nux (seed_qp qp sd)) with (nux qp).
    apply (derivable_pt_lim_minus (fun h => rsum (nux qp i) (fun k => q_BAbt qp i k j * c_ux c h i k) + c_b c h i j) (fun h => c_ux c h (S i) (dnu D (S i) + j)%nat)).
    2:{ apply Du; [lia|unfold nvt; lia]. }
    apply (derivable_pt_lim_plus (fun h => rsum (nux qp i) (fun k => q_BAbt qp i k j * c_ux c h i k)) (fun h => c_b c h i j)); [|apply Db; assumption].
    apply (dlim_lin (nux qp i) (fun m => q_BAbt qp i m j) (fun h m => c_ux c h i m)). intros m Hm'. apply Du; [lia|unfold nvt, nux in *; lia].
  - intros i k Hi Hk.
    apply (dlim_zero (fun h => c_d c h i k + c_t c h i k - con qp (c_ux c h) i k) 0 _ eps He).
    { intros h Hh. destruct (Hsol h (Hin h Hh)) as (_ & _ & A & _). apply A; assumption. }
    change (con (seed_qp qp sd)) with (con qp).
    apply (derivable_pt_lim_minus (fun h => c_d c h i k + c_t c h i k) (fun h => con qp (c_ux c h) i k)).
    + apply (derivable_pt_lim_plus (fun h => c_d c h i k) (fun h => c_t c h i k)); [apply Dd|apply Dt]; assumption.
    + unfold con. apply (dlim_lin (nvt D i) (fun m => G qp i k m) (fun h m => c_ux c h i m)). intros m Hm'. apply Du; assumption.
  - intros i k Hi Hk. destruct (Hpt i k Hi Hk) as (<- & <-).
    enough (E : s_lam l i k * c_t c 0 i k + c_lam c 0 i k * s_t l i k - (- sd_m sd i k) = 0) by lra.
    apply (dlim_zero (fun h => c_lam c h i k * c_t c h i k - c_m c h i k) 0 _ eps He).
    { intros h Hh. destruct (Hsol h (Hin h Hh)) as (_ & _ & _ & A). specialize (A i k Hi Hk). cbn [s_lam s_t q_m with_rhs] in A. lra. }
    apply (derivable_pt_lim_minus (fun h => c_lam c h i k * c_t c h i k) (fun h => c_m c h i k)); [|apply Dm; assumption].
    apply (derivable_pt_lim_mult (fun h => c_lam c h i k) (fun h => c_t c h i k)); [apply Dl|apply Dt]; assumption.
Qed.
End Deriv.
