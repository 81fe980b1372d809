(** RicProofs2.v -- what the getters return; the state across getter calls; trajectories from any state (reals). *)
From Coq Require Import ZArith Bool Arith Lia Reals Lra.
From Verif Require Import Base ArithF RSum Blas Blas2 CoreModel CoreProofs OcpModel ResSpec KktSpec ResProofs ResProofs2 ResProps CholProofs KktModel KktProofs KktProofs2 KktProofs3 KktProofs4 KktProofs5 KktProofs6 KktProofs7 KktProps.
From Verif Require Import SolveModel SolveProofs SolveProofs2 SolveProofs3 NewtonUniq SolveProps QpDataModel QpDataProofs SensModel SensSpec SensProofs SensProofs2 RicModel RicSpec RicProofs.
Local Open Scope R_scope.

Lemma mupd_sel (B : rmat) bi bj m n sel g r c : sel (r - bi)%nat (c - bj)%nat = false -> mupd B bi bj m n sel g r c = B r c.
Proof. intros H. unfold mupd. rewrite H. repeat destruct (_ <=? _)%nat; repeat destruct (_ <? _)%nat; reflexivity. Qed.
(** ** entries of the returned arrays *)
Section Out.
Variables (sq : bool) (qp : oqp R).
Notation D := (q_dim qp).
Lemma idx_mod r m nu : (r < nu)%nat -> ((r + m * nu) mod nu = r)%nat.
Proof. intros H. rewrite Nat.mod_add by lia. apply Nat.mod_small. exact H. Qed.
Lemma idx_div r m nu : (r < nu)%nat -> ((r + m * nu) / nu = m)%nat.
Proof. intros H. rewrite Nat.div_add by lia. rewrite Nat.div_small by lia. reflexivity. Qed.
Lemma idx_lt r m nu nx : (r < nu)%nat -> (m < nx)%nat -> (r + m * nu < nu * nx)%nat.
Proof. intros. assert (S m * nu <= nx * nu)%nat by (apply Nat.mul_le_mono_r; lia). cbn [Nat.mul] in *. lia. Qed.
Definition Kent i (s : ric R) r m : R := fst (get_K qp i s (fun _ => 0)) (r + m * dnu D i)%nat.
Lemma get_K_out i s out r m : (r < dnu D i)%nat -> (m < dnx D i)%nat ->
  fst (get_K qp i s out) (r + m * dnu D i)%nat = TRSV_LTN (dnu D i) (k_L (ri_w s) i) 0 0 (fun k => -1 * k_L (ri_w s) i (dnu D i + m)%nat k) 0 (fun _ => 0) 0 r.
Proof.
  intros Hr Hm. unfold get_K. cbn [fst]. rewrite CVTT_in; [|apply idx_lt; assumption|reflexivity].
  rewrite idx_mod, idx_div by assumption. unfold TRSM_RLNN. rewrite mblk_i by lia. rewrite ?Nat.sub_0_r. cbn [Nat.add]. rsimp. rewrite ?R_lit11, ?R_lit01. reflexivity.
Qed.
Lemma get_K_HK i s out : (forall k, (k < dnu D i)%nat -> k_L (ri_w s) i k k <> 0) -> forall k m, (k < dnu D i)%nat -> (m < dnx D i)%nat ->
  rsum (dnu D i) (fun r => lt (k_L (ri_w s) i) r k * fst (get_K qp i s out) (r + m * dnu D i)%nat) = - k_L (ri_w s) i (dnu D i + m)%nat k.
Proof.
  intros Hd k m Hk Hm. rewrite (rsum_ext (dnu D i) _ (fun r => lt (k_L (ri_w s) i) r k * TRSV_LTN (dnu D i) (k_L (ri_w s) i) 0 0 (fun k => -1 * k_L (ri_w s) i (dnu D i + m)%nat k) 0 (fun _ => 0) 0 r)).
  2:{ intros r Hr. rewrite get_K_out by assumption. reflexivity. }
  destruct (trsv_ltn_R (dnu D i) (dnu D i) (k_L (ri_w s) i) (fun k => -1 * k_L (ri_w s) i (dnu D i + m)%nat k) (fun _ => 0) (le_n _) Hd) as (A & _).
  unfold TRSV_LTN. rewrite A by exact Hk. lra.
Qed.
Context (a : kargs R) (bkp : osol R) (tinv Gam : nat -> rvec).
Notation rv := (ric_vec sq a qp bkp tinv Gam).
Lemma get_k_out i s out r : (r < dnu D i)%nat ->
  fst (get_k sq a qp bkp tinv Gam i s out) r = - TRSV_LTN (dnu D i) (k_L (ri_w (rv s)) i) 0 0 (k_l (ri_w (rv s)) i) 0 (k_nux (ri_w (rv s))) 0 r.
Proof.
  intros Hr. unfold get_k. cbn [fst]. unfold UNPACK_VEC. rewrite vset0 by assumption. cbn [Nat.add]. unfold VECSC. rewrite vset0 by assumption. cbn [Nat.add]. rsimp. rewrite ?R_lit11. lra.
Qed.
Lemma get_k_Hk i s out : (forall k, (k < dnu D i)%nat -> k_L (ri_w (rv s)) i k k <> 0) -> forall k, (k < dnu D i)%nat ->
  rsum (dnu D i) (fun r => lt (k_L (ri_w (rv s)) i) r k * fst (get_k sq a qp bkp tinv Gam i s out) r) = - k_l (ri_w (rv s)) i k.
Proof.
  intros Hd k Hk. rewrite (rsum_ext (dnu D i) _ (fun r => -1 * (lt (k_L (ri_w (rv s)) i) r k * TRSV_LTN (dnu D i) (k_L (ri_w (rv s)) i) 0 0 (k_l (ri_w (rv s)) i) 0 (k_nux (ri_w (rv s))) 0 r))).
  2:{ intros r Hr. rewrite get_k_out by assumption. lra. }
  rewrite rsum_scal. destruct (trsv_ltn_R (dnu D i) (dnu D i) (k_L (ri_w (rv s)) i) (k_l (ri_w (rv s)) i) (k_nux (ri_w (rv s))) (le_n _) Hd) as (A & _).
  unfold TRSV_LTN. rewrite A by exact Hk. lra.
Qed.
Lemma get_P_out i s m0 m1 out j m : (j < dnx D i)%nat -> (m < dnx D i)%nat ->
  get_P sq qp i s m0 m1 out (j + m * dnx D i)%nat = ricP qp sq (ri_w s) i j m.
Proof.
  intros Hj Hm. unfold get_P, ricP. destruct (Nat.eqb_spec i 0) as [->|Hi].
  - rewrite orb_true_r. rewrite CVT_in; [|apply idx_lt; assumption|reflexivity]. rewrite idx_mod, idx_div by assumption. cbn [Nat.add].
    set (n := dnx D 0%nat) in *. set (L := k_L (ri_w s) 0%nat). set (nu := dnu D 0%nat). set (T := TRCP_L _ _ _ _ _ _ _).
    assert (ET : forall r c, (r < n)%nat -> (c < n)%nat -> T r c = lt L (nu + r) (nu + c)).
    { intros r c Hr Hc. unfold T, TRCP_L. destruct (Nat.leb_spec c r).
      - rewrite mupd_i by (try lia; unfold low; apply Nat.leb_le; lia). rewrite !Nat.sub_0_r. rewrite lt_in by lia. reflexivity.
      - rewrite mupd_sel by (unfold low; apply Nat.leb_gt; lia). rewrite lt_out by lia. unfold GESE. rewrite mblk_i by lia. rsimp. rewrite ?R_lit01. reflexivity. }
    clearbody T.
    assert (ES : forall r c, (r < n)%nat -> (c < n)%nat -> (c <= r)%nat -> SYRK_LN_MN n n n f1 T 0 0 T 0 0 f0 m1 0 0 m1 0 0 r c = VPs L nu n r c).
    { intros r c Hr Hc Hcr. rewrite SYRK_R by assumption. rsimp. rewrite ?R_lit01, ?R_lit11. unfold VPs. rewrite (rsum_ext n _ (fun k => lt L (nu + r) (nu + k) * lt L (nu + c) (nu + k))); [lra|]. intros k Hk. cbn [Nat.add]. rewrite !ET by lia. reflexivity. }
    set (S := SYRK_LN_MN _ _ _ _ _ _ _ _ _ _ _ _ _ _ _ _ _) in *. clearbody S. unfold TRTR_L. destruct (Nat.leb_spec j m).
    + rewrite mupd_i by (try lia; apply Nat.leb_le; lia). rewrite !Nat.sub_0_r. cbn [Nat.add]. rewrite ES by lia. apply VPs_sym with (nx := n); assumption.
    + rewrite mupd_sel by (apply Nat.leb_gt; lia). apply ES; lia.
  - rewrite orb_false_r. unfold valP. destruct sq.
    + rewrite CVT_in; [|apply idx_lt; assumption|reflexivity]. rewrite idx_mod, idx_div by assumption. cbn [Nat.add].
    set (n := dnx D i) in *. set (L := k_L (ri_w s) i). set (nu := dnu D i). set (T := TRCP_L _ _ _ _ _ _ _).
    assert (ET : forall r c, (r < n)%nat -> (c < n)%nat -> T r c = lt L (nu + r) (nu + c)).
    { intros r c Hr Hc. unfold T, TRCP_L. destruct (Nat.leb_spec c r).
      - rewrite mupd_i by (try lia; unfold low; apply Nat.leb_le; lia). rewrite !Nat.sub_0_r. rewrite lt_in by lia. reflexivity.
      - rewrite mupd_sel by (unfold low; apply Nat.leb_gt; lia). rewrite lt_out by lia. unfold GESE. rewrite mblk_i by lia. rsimp. rewrite ?R_lit01. reflexivity. }
    clearbody T.
    assert (ES : forall r c, (r < n)%nat -> (c < n)%nat -> (c <= r)%nat -> SYRK_LN_MN n n n f1 T 0 0 T 0 0 f0 m1 0 0 m1 0 0 r c = VPs L nu n r c).
    { intros r c Hr Hc Hcr. rewrite SYRK_R by assumption. rsimp. rewrite ?R_lit01, ?R_lit11. unfold VPs. rewrite (rsum_ext n _ (fun k => lt L (nu + r) (nu + k) * lt L (nu + c) (nu + k))); [lra|]. intros k Hk. cbn [Nat.add]. rewrite !ET by lia. reflexivity. }
    set (S := SYRK_LN_MN _ _ _ _ _ _ _ _ _ _ _ _ _ _ _ _ _) in *. clearbody S. unfold TRTR_L. destruct (Nat.leb_spec j m).
    * rewrite mupd_i by (try lia; apply Nat.leb_le; lia). rewrite !Nat.sub_0_r. cbn [Nat.add]. rewrite ES by lia. apply VPs_sym with (nx := n); assumption.
    * rewrite mupd_sel by (apply Nat.leb_gt; lia). apply ES; lia.
    + rewrite CVT_in; [|apply idx_lt; assumption|reflexivity]. rewrite idx_mod, idx_div by assumption. reflexivity.
Qed.
Lemma get_p_out i s out j : ri_p (rv s) = true -> (j < dnx D i)%nat ->
  fst (get_p sq a qp bkp tinv Gam i s out) j = if (i =? 0)%nat then rsum (dnx D 0) (fun k => k_l (ri_w (rv s)) 0%nat (dnu D 0 + k)%nat * lt (k_L (ri_w (rv s)) 0%nat) (dnu D 0 + j) (dnu D 0 + k)) else k_l (ri_w (rv s)) i (dnu D i + j)%nat.
Proof.
  intros Hp Hj. unfold get_p. rewrite Hp. cbn [negb orb]. destruct (Nat.eqb_spec i 0) as [->|Hi]; cbn [fst]; unfold UNPACK_VEC; rewrite vset0 by assumption; cbn [Nat.add]; [|reflexivity].
  unfold TRMV_LNN. rewrite vset0 by assumption. rewrite fsum_R. rewrite <- (rsum_low (dnx D 0) j) by exact Hj. apply rsum_ext. intros k Hk. unfold lt.
  destruct (Nat.leb_spec k j), (Nat.leb_spec (dnu D 0 + k) (dnu D 0 + j)); try lia; rsimp; ring.
Qed.
End Out.

(** ** the state across getter calls *)
Section State.
Variables (sq : bool) (a : kargs R) (qp : oqp R).
Notation D := (q_dim qp).
Notation N := (dN D).
Hypothesis Hwf : qp_wf qp.
Hypothesis HN : (1 <= N)%nat.
Hypothesis Hinj : soft_inj qp.
Hypothesis Hm : mask01 qp.
Hypothesis Hip : interior a qp.
Hypothesis Hmz : masked_zero qp (q_m qp).
Hypothesis Hdual : a_dual a = true.
Variables (preg : R) (tinv Gam : nat -> rvec) (w0 : kws R) (bkp : osol R).
Hypothesis HtG : forall ss c, (ss <= N)%nat -> (c < nct D ss)%nat -> tinv ss c = 1 / a_t a ss c /\ Gam ss c = wgt a ss c.
Hypothesis HL : lhs_ok qp (a_reg a) Gam sq (reg_diag qp (a_reg a) preg) w0.
Hypothesis Hbkp : saved_point a D bkp.

Definition vec_ok (s : ric R) : Prop := ri_p s = true /\ exists gam wb st,
  (forall ss c, (ss <= N)%nat -> (c < nct D ss)%nat -> gam ss c = 1 / a_t a ss c * (q_m qp ss c - a_lam a ss c * q_d qp ss c)) /\
  (forall ss, (ss <= N)%nat -> bwd_all qp (a_reg a) Gam gam sq w0 wb ss) /\
  l_saved qp (ri_w s) (k_ux wb) /\ newton_solution a qp preg st /\
  (forall ss k, (ss <= N)%nat -> (k < nf qp ss)%nat -> rsum (nux qp ss) (fun r => lt (k_L w0 ss) r k * s_ux st ss r) = - k_ux wb ss k) /\
  (forall ss j, (ss < N)%nat -> (j < dnx D (S ss))%nat -> s_pi st ss j = rsum (dnx D (S ss)) (fun m => valP qp sq w0 (S ss) j m * s_ux st (S ss) (dnu D (S ss) + m)%nat) + nxt qp wb (S ss) j).
Definition ric_ok (s : ric R) : Prop := same_lhs w0 (ri_w s) /\ (ri_vec s = true -> vec_ok s).
Notation rv := (ric_vec sq a qp bkp tinv Gam).

Lemma qp_ip : ipm_point a qp.
Proof. pose proof (ip_seed a qp Hip (q_rqz qp) (q_b qp) (q_d qp) (q_m qp) Hmz) as H. destruct qp. exact H. Qed.
Lemma at_load out : at_point a (alias_args a (load D bkp out)) D.
Proof. eapply alias_at; [|reflexivity]. intros i c Hi Hc. destruct (Hbkp i c Hi Hc). split; assumption. Qed.
Lemma lhs_at w : same_lhs w0 w -> lhs_ok qp (a_reg a) Gam sq (reg_diag qp (a_reg a) preg) w.
Proof. intros H. exact (same_ok qp (a_reg a) Gam sq _ w0 w H HL). Qed.

Lemma ric_vec_ok s : ric_ok s -> same_lhs w0 (ri_w (rv s)) /\ vec_ok (rv s) /\ ri_vec (rv s) = true.
Proof.
  intros (K & HV). unfold ric_vec. destruct (ri_vec s) eqn:EV; [split; [exact K|]; split; [apply HV; reflexivity|exact EV]|].
  set (x := load D bkp (ri_it s)). pose proof (at_load (ri_it s)) as Ha. fold x in Ha. set (a' := alias_args a x) in *.
  assert (Ha' := Ha). destruct Ha' as (Er & Ed & _ & _ & _ & Hp). rewrite Hdual in Ed.
  assert (Hip' : ipm_point a' qp) by (apply (ip_at a); [exact Ha|apply qp_ip]).
  assert (HtG' : forall ss c, (ss <= N)%nat -> (c < nct D ss)%nat -> tinv ss c = 1 / a_t a' ss c /\ Gam ss c = wgt a' ss c).
  { intros ss c Hss Hc. destruct (Hp ss c Hss Hc) as (_ & E2). rewrite E2, (wgt_at a a' D ss c Ha Hss Hc). apply HtG; assumption. }
  pose proof (lhs_at _ K) as HLs. rewrite <- Er in HLs.
  destruct (solve_kkt sq false a' qp tinv Gam (ri_gam s) x (ri_w s)) as [step w2] eqn:E.
  destruct (solve_R a' qp Hwf HN Hinj Hip' Hm Ed tinv Gam HtG' sq false preg (ri_gam s) x (ri_w s) step w2 HLs ltac:(discriminate) E) as (NA & NB & NC & NM).
  pose proof (solve_keeps a' qp Hwf HN Ed tinv Gam sq false preg (ri_gam s) x (ri_w s) step w2 HLs ltac:(discriminate) E) as KK.
  destruct (solve_kkt_alias sq a qp tinv Gam (ri_gam s) x (ri_w s)) as [x' w'] eqn:EA. cbn [ri_w ri_p ri_vec].
  assert (Ew : w' = w2).
  { pose proof (solve_alias_ws sq a qp tinv Gam (ri_gam s) x (ri_w s)) as X. rewrite EA in X. fold a' in X. rewrite E in X. exact X. }
  subst w'. split; [exact (same_trans _ _ _ K KK)|]. split; [|reflexivity].
  split; [reflexivity|].
  set (gam := sol_gam a' qp tinv (ri_gam s)). set (wb := backward sq false qp Gam gam (with_sol (ri_w s) x)).
  assert (E2 : w2 = fwd_solve sq true qp wb).
  { unfold solve_kkt in E. apply pair_inj in E. destruct E as (_ & <-). unfold sol_ws. rewrite Ed. reflexivity. }
  exists gam, wb, step. rewrite Er in *.
  assert (HLw : lhs_ok qp (a_reg a) Gam sq (reg_diag qp (a_reg a) preg) (with_sol (ri_w s) x)) by exact HLs.
  destruct (backward_R qp (a_reg a) Gam gam Hwf HN sq false (reg_diag qp (a_reg a) preg) (with_sol (ri_w s) x) HLw ltac:(discriminate)) as (B1 & B2). fold wb in B1, B2.
  assert (K0 : same_lhs w0 wb) by (exact (same_trans _ _ _ K B1)).
  pose proof (lhs_at wb K0) as HLb. destruct (fwd_solve_R qp (a_reg a) Gam HN sq _ wb HLb) as (G1 & G2 & G3 & _). rewrite <- E2 in G1, G2, G3.
  assert (EL : k_L (ri_w s) = k_L w0) by apply K. assert (EP : k_P (ri_w s) = k_P w0) by apply K.
  assert (EV1 : forall ss, valP qp sq (with_sol (ri_w s) x) ss = valP qp sq w0 ss). { intros ss. unfold valP. cbn [with_sol k_L k_P]. rewrite EL, EP. reflexivity. }
  assert (EV2 : forall ss, valP qp sq wb ss = valP qp sq w0 ss). { intros ss. unfold valP. destruct K0 as (_ & -> & -> & _). reflexivity. }
  assert (Eu : forall ss, (ss <= N)%nat -> forall k, (k < nux qp ss)%nat -> s_ux step ss k = k_ux w2 ss k).
  { intros ss Hss k Hk. unfold solve_kkt in E. apply pair_inj in E. destruct E as (<- & <-). cbn [s_ux]. unfold sol_ut. set (wk := sol_ws _ _ _ _ _ _ _ _ _). clearbody wk.
    pose proof (lin_stage_R qp (Gam ss) (k_Zs wk ss) ss (k_ux wk ss) (s_t x ss) (Hwf ss Hss)) as HC. destruct (lin_stage _ _ _ _ _) as [u t]. cbn [fst]. apply HC. exact Hk. }
  assert (Ep : s_pi step = k_pi w2). { unfold solve_kkt in E. apply pair_inj in E. destruct E as (<- & <-). reflexivity. }
  split; [|split; [|split; [|split; [|split]]]].
  - intros ss c Hss Hc. unfold gam, sol_gam. rewrite compute_gamma_R by assumption. destruct (HtG ss c Hss Hc) as (-> & _). destruct (Hp ss c Hss Hc) as (-> & _). reflexivity.
  - intros ss Hss. destruct (B2 ss Hss) as (X1 & X2). split; [|exact X2]. intros i Hi. specialize (X1 i Hi). rewrite EV1 in X1. rewrite X1. cbn [with_sol k_L]. rewrite EL. reflexivity.
  - rewrite E2. apply fwd_solve_l. exact HN.
  - apply (newton_at a a'); [exact Ha|]. split; [|split; [exact NB|split; [exact NC|exact NM]]]. intros i k Hi Hk. rewrite NA by assumption. rewrite Er. lra.
  - intros ss k Hss Hk. rewrite <- G1 by assumption. destruct K0 as (_ & -> & _). apply rsum_ext. intros r Hr. rewrite Eu by assumption. reflexivity.
  - intros ss j Hss Hj. rewrite Ep. rewrite G3 by assumption. rewrite EV2. f_equal. apply rsum_ext. intros m Hmm. rewrite Eu by (unfold nux; lia). reflexivity.
Qed.

Lemma ric_ok_vec s : ric_ok s -> ric_ok (rv s).
Proof. intros H. destruct (ric_vec_ok s H) as (A & B & _). split; [exact A|]. intros _. exact B. Qed.
Lemma ric_ok_upd s s' : ric_ok s -> same_lhs (ri_w s) (ri_w s') -> k_l (ri_w s') = k_l (ri_w s) -> ri_vec s' = ri_vec s -> ri_p s' = ri_p s -> ric_ok s'.
Proof.
  intros (A & B) E1 E2 E3 E4. split; [exact (same_trans _ _ _ A E1)|]. rewrite E3. intros Ev. destruct (B Ev) as (B0 & gam & wb & st & B1 & B2 & B3 & B4).
  split; [rewrite E4; exact B0|]. exists gam, wb, st. split; [exact B1|]. split; [exact B2|]. split; [|exact B4]. unfold l_saved in *. rewrite E2. exact B3.
Qed.
Lemma set_nux_ok s v : ric_ok s -> ric_ok (set_nux s v).
Proof. intros H. apply (ric_ok_upd s); [exact H|repeat split|reflexivity|reflexivity|reflexivity]. Qed.
Lemma getters_ok s0 s : ric_ok s0 -> getters sq a qp tinv Gam bkp s0 s -> ric_ok s.
Proof.
  intros H0 H. induction H as [|s i o H IH|s i o H IH|s i o H IH|s i o H IH]; [exact H0| | | |].
  - cbn [get_lr snd]. apply ric_ok_vec. exact IH.
  - unfold get_p. destruct (orb _ _); cbn [snd]; [apply set_nux_ok|]; apply ric_ok_vec; exact IH.
  - unfold get_K. cbn [snd]. apply (ric_ok_upd s); [exact IH|repeat split|reflexivity|reflexivity|reflexivity].
  - unfold get_k. cbn [snd]. apply set_nux_ok, ric_ok_vec. exact IH.
Qed.
End State.
