(** DrunProofs2.v -- dense solver: one iteration with exact linear algebra; the direction taken is a Newton direction, whatever the predictor-corrector and refinement branches. *)
From Coq Require Import ZArith Bool Arith List Lia Reals Lra.
From Verif Require Import Base ArithF RSum Blas Blas2 QpDataProofs OcpModel ResSpec ResProofs2 CoreModel CoreProofs ArgModel DenModel DenSpec DenProofs DenProps DenKktModel DenKktSpec
  DenIpmModel DenIpmProofs DenIpmProofs2 DenIpmProps DenIpmInit DenInitProps DenIpmReal DrunProofs.
Local Open Scope R_scope.

Section S.
Context {K : Type} (OP : dkops (F := R) K) (A : arg R).
Variables (cne : nat) (lq smax : Z) (qp : dqp R).
Notation C := (mk_ctx cne lq smax qp).
Notation nc := (d_nct qp).
Notation ne := (d_ne qp).
Notation q0 := (dq0 qp).
Hypothesis Hm : den_mask01 qp.
Hypothesis Hwf : den_wf qp.
Hypothesis Hcne : (ne <= cne)%nat.
(** whether the linear algebra meets the equality constraints exactly (no dual regularisation force) *)
Variable EX : Prop.
Notation rv := (nat -> R).
(** t positive, imposed multipliers positive, masked multipliers zero *)
Definition point (s : dsol R) : Prop := forall c, (c < nc)%nat -> 0 < ds_t s c /\ (d_mask qp c = 1 -> 0 < ds_lam s c) /\ (d_mask qp c = 0 -> ds_lam s c = 0).
Definition mz (m : rv) : Prop := forall c, (c < nc)%nat -> d_mask qp c = 0 -> m c = 0.
(** the step solves the Newton system; stationarity only without regularisation *)
Definition nsol (sol : dsol R) (g b d m : rv) (s : dsol R) : Prop :=
  (ar A reg_prim = 0 -> forall k, (k < dnv qp)%nat -> den_kkt_g q0 (ds_v s) (ds_pi s) (ds_lam s) k = - g k) /\
  (EX -> forall j, (j < ne)%nat -> den_eq q0 (ds_v s) j = - b j) /\
  (forall c, (c < nc)%nat -> ds_t s c - den_con qp (ds_v s) c = - d c) /\
  (forall c, (c < nc)%nat -> ds_lam sol c * ds_t s c + ds_lam s c * ds_t sol c = - m c).
Variables (I : K -> Prop) (FC : K -> dsol R -> Prop).
Hypothesis FC_I : forall k s, FC k s -> I k.
Hypothesis H_fs : forall k g b d m sol stp, I k -> point sol -> mz m -> let r := op_fact_solve K OP k (den_with_rhs qp g b d m) sol stp in nsol sol g b d m (fst r) /\ FC (snd r) sol.
Hypothesis H_sv : forall k g b d m sol stp, FC k sol -> point sol -> mz m -> let r := op_solve K OP k (den_with_rhs qp g b d m) sol stp in nsol sol g b d m (fst r) /\ FC (snd r) sol.
Hypothesis Hlq : lq = 0%Z \/ lq = 1%Z /\ ar A reg_prim = 0 /\ EX.

Lemma mask_sq c : (c < nc)%nat -> d_mask qp c * d_mask qp c = d_mask qp c.
Proof. intros Hc. destruct (Hm c Hc) as [E|E]; rewrite E; lra. Qed.
Section X.
Variable x : vars R.
Notation X := (view x).
Hypothesis HX : point X.
(** the full step would satisfy the linear equations *)
Definition DIR (s : dsol R) : Prop :=
  (EX -> forall j, (j < ne)%nat -> den_eq q0 (ds_v s) j = - den_eq qp (ds_v X) j) /\
  (forall c, (c < nc)%nat -> d_mask qp c = 1 -> ds_t s c - den_con qp (ds_v s) c = - (d_d qp c + ds_t X c - den_con qp (ds_v X) c)) /\
  (ar A reg_prim = 0 -> forall k, (k < dnv qp)%nat -> den_kkt_g q0 (ds_v s) (ds_pi s) (ds_lam s) k = - den_kkt_g qp (ds_v X) (ds_pi X) (ds_lam X) k).
Definition HOM (s : dsol R) : Prop :=
  (EX -> forall j, (j < ne)%nat -> den_eq q0 (ds_v s) j = 0) /\
  (forall c, (c < nc)%nat -> d_mask qp c = 1 -> ds_t s c - den_con qp (ds_v s) c = 0) /\
  (ar A reg_prim = 0 -> forall k, (k < dnv qp)%nat -> den_kkt_g q0 (ds_v s) (ds_pi s) (ds_lam s) k = 0).
(** s' = s + al * e on the entries that matter *)
Definition comb (al : R) (s e s' : dsol R) : Prop :=
  (forall k, (k < dnv qp)%nat -> ds_v s' k = ds_v s k + al * ds_v e k) /\
  (forall j, (j < ne)%nat -> ds_pi s' j = ds_pi s j + al * ds_pi e j) /\
  (forall c, (c < nc)%nat -> d_mask qp c * ds_lam s' c = d_mask qp c * ds_lam s c + al * (d_mask qp c * ds_lam e c)) /\
  (forall c, (c < nc)%nat -> d_mask qp c = 1 -> ds_t s' c = ds_t s c + al * ds_t e c).
Lemma DIR_comb al s e s' : comb al s e s' -> DIR s -> HOM e -> DIR s'.
Proof.
  intros (C1 & C2 & C3 & C4) (D1 & D2 & D3) (H1 & H2 & H3). split; [|split].
  - intros Hex j Hj. rewrite (deq_lin qp (ds_v s') (ds_v s) (ds_v e) al j C1), D1, H1 by assumption. lra.
  - intros c Hc E. rewrite (dcon_lin qp (ds_v s') (ds_v s) (ds_v e) al c C1), C4 by assumption. pose proof (D2 c Hc E). pose proof (H2 c Hc E). nra.
  - intros Er k Hk. rewrite (dg_lin qp _ (ds_v s) (ds_v e) _ (ds_pi s) (ds_pi e) _ (ds_lam s) (ds_lam e) al k C1 C2 C3), D3, H3 by assumption. lra.
Qed.
Lemma comb_refl s s' : comb 0 s s s' -> DIR s -> DIR s'.
Proof.
  intros (C1 & C2 & C3 & C4) (D1 & D2 & D3). split; [|split].
  - intros Hex j Hj. rewrite (deq_lin qp (ds_v s') (ds_v s) (ds_v s) 0 j C1), D1 by assumption. lra.
  - intros c Hc E. rewrite (dcon_lin qp (ds_v s') (ds_v s) (ds_v s) 0 c C1), C4 by assumption. pose proof (D2 c Hc E). lra.
  - intros Er k Hk. rewrite (dg_lin qp _ (ds_v s) (ds_v s) _ (ds_pi s) (ds_pi s) _ (ds_lam s) (ds_lam s) 0 k C1 C2 C3), D3 by assumption. lra.
Qed.
Lemma comb_mask v : comb 0 (view v) (view v) (view (mask_lt C v)).
Proof.
  split; [|split; [|split]]; cbn [view mask_lt ds_v ds_pi ds_lam ds_t va_v va_pi va_lam va_t].
  - intros k Hk. lra.
  - intros k Hk. lra.
  - intros c Hc. rewrite (domask_val cne lq smax qp Hm) by exact Hc. rewrite <- Rmult_assoc, mask_sq by exact Hc. lra.
  - intros c Hc E. rewrite (domask_val cne lq smax qp Hm) by exact Hc. rewrite E. lra.
Qed.
Lemma DIR_mask v : DIR (view v) -> DIR (view (mask_lt C v)).
Proof. apply comb_refl. apply comb_mask. Qed.
Lemma HOM_mask v : HOM (view v) -> HOM (view (mask_lt C v)).
Proof.
  destruct (comb_mask v) as (C1 & C2 & C3 & C4). intros (H1 & H2 & H3). split; [|split].
  - intros Hex j Hj. rewrite (deq_lin qp _ _ _ 0 j C1), H1 by assumption. lra.
  - intros c Hc E. rewrite (dcon_lin qp _ _ _ 0 c C1), C4 by assumption. pose proof (H2 c Hc E). lra.
  - intros Er k Hk. rewrite (dg_lin qp _ _ _ _ _ _ _ _ _ 0 k C1 C2 C3), H3 by assumption. lra.
Qed.
Lemma comb_axpy n al a b : (ne <= n)%nat -> comb al (view b) (view a) (view (axpy_sol C n al a b)).
Proof.
  intros Hn. split; [|split; [|split]]; cbn [view axpy_sol ds_v ds_pi ds_lam ds_t va_v va_pi va_lam va_t]; change (c_qp C) with qp; intros; unfold AXPY; rewrite !vset0_in by (first [assumption|lia]); cbn [Nat.add]; rsimp; try lra.
Qed.

(** *** delta formulation *)
Variables (g0 b0 d0 : rv).
Hypothesis Rg : forall k, (k < dnv qp)%nat -> g0 k = den_kkt_g qp (ds_v X) (ds_pi X) (ds_lam X) k.
Hypothesis Rb : forall j, (j < ne)%nat -> b0 j = den_eq qp (ds_v X) j.
Hypothesis Rd : forall c, (c < nc)%nat -> d0 c = den_kkt_d qp (ds_v X) (ds_t X) c.
Definition RES (w : @wk R K) : Prop := dr_g (wk_res w) = g0 /\ dr_b (wk_res w) = b0 /\ dr_d (wk_res w) = d0 /\ mz (dr_m (wk_res w)).
Definition W (w : @wk R K) : Prop := RES w /\ DIR (view (wk_stp w)) /\ FC (wk_k w) X.
Lemma nsol_DIR m s : nsol X g0 b0 d0 m s -> DIR s.
Proof.
  intros (N1 & N2 & N3 & _). split; [|split].
  - intros Hex j Hj. rewrite N2, Rb by assumption. reflexivity.
  - intros c Hc E. rewrite N3, Rd by assumption. unfold den_kkt_d. rewrite E. lra.
  - intros Er k Hk. rewrite N1, Rg by assumption. reflexivity.
Qed.
Lemma qp_rhs_eq res : qp_rhs C res = den_with_rhs qp (dr_g res) (dr_b res) (dr_d res) (dr_m res).
Proof. reflexivity. Qed.
Lemma RES_rhs w : RES w -> qp_rhs C (wk_res w) = den_with_rhs qp g0 b0 d0 (dr_m (wk_res w)).
Proof. intros (<- & <- & <- & _). reflexivity. Qed.
Lemma W_put f w : W w -> W (put_stat f w).
Proof. intros H. exact H. Qed.
Lemma mz_domask f r : mz (dr_m (set_resm r (domask C f))).
Proof. intros c Hc E. cbn [set_resm dr_m]. rewrite (domask_val cne lq smax qp Hm) by assumption. rewrite E. lra. Qed.
Lemma RES_resm f w : RES w -> RES (put_resm C f w).
Proof. intros (E1 & E2 & E3 & _). split; [exact E1|]. split; [exact E2|]. split; [exact E3|]. apply mz_domask. Qed.
Lemma W_resm f w : W w -> W (put_resm C f w).
Proof. intros (E & H). split; [apply RES_resm; exact E|exact H]. Qed.

(** linear residuals of the current direction *)
Lemma lin_valid : c_mc C = true \/ den_masks_one qp.
Proof. exact (ctx_valid_ok cne lq smax qp Hm). Qed.
Lemma call_lin_R w : let '(w', q) := call_lin C x w in let r := wk_rit w' in
  wk_stp w' = wk_stp w /\ wk_itr w' = wk_itr w /\ wk_res w' = wk_res w /\ wk_k w' = wk_k w /\ q = den_inf_norm qp r /\
  (RES w -> let s := view (wk_stp w) in
   (forall k, (k < dnv qp)%nat -> dr_g r k = den_kkt_g q0 (ds_v s) (ds_pi s) (ds_lam s) k + g0 k) /\
   (forall j, (j < ne)%nat -> dr_b r j = den_eq q0 (ds_v s) j + b0 j) /\
   (forall c, (c < nc)%nat -> dr_d r c = d_mask qp c * (d0 c + ds_t s c - den_con qp (ds_v s) c)) /\
   (forall c, (c < nc)%nat -> dr_m r c = d_mask qp c * (dr_m (wk_res w) c + ds_lam X c * ds_t s c + ds_lam s c * ds_t X c))).
Proof.
  unfold call_lin. destruct (den_reslin_compute (Some (c_mc C)) (qp_rhs C (wk_res w)) (view x) (view (wk_stp w)) (wk_rit w) (wk_rw w)) as [rit rw] eqn:E.
  cbn [wk_stp wk_itr wk_res wk_k wk_rit]. do 4 (split; [reflexivity|]). split; [reflexivity|]. intros HR.
  pose proof (C35_linear_residuals (qp_rhs C (wk_res w)) X (view (wk_stp w)) (Some (c_mc C)) (wk_rit w) (wk_rw w) Hwf lin_valid) as L. cbv zeta in L.
  rewrite E in L. cbn [fst] in L. rewrite (RES_rhs w HR) in L. destruct L as (L1 & L2 & L3 & L4).
  split; [|split; [|split]].
  - intros k Hk. rewrite L1 by exact Hk. apply dg_rhs.
  - intros j Hj. rewrite L2 by exact Hj. apply deq_rhs.
  - intros c Hc. rewrite L3 by exact Hc. reflexivity.
  - exact L4.
Qed.
Lemma W_lin w : W w -> W (fst (call_lin C x w)).
Proof.
  intros HW. pose proof (call_lin_R w) as L. destruct (call_lin C x w) as [w' q]. destruct L as (E1 & _ & E2 & E3 & _). cbn [fst].
  unfold W, RES. rewrite E1, E2, E3. exact HW.
Qed.
(** the linear residual is zero in the linear equations *)
Definition RIT (w : @wk R K) : Prop :=
  (ar A reg_prim = 0 -> forall k, (k < dnv qp)%nat -> dr_g (wk_rit w) k = 0) /\
  (EX -> forall j, (j < ne)%nat -> dr_b (wk_rit w) j = 0) /\ (forall c, (c < nc)%nat -> d_mask qp c = 1 -> dr_d (wk_rit w) c = 0) /\ mz (dr_m (wk_rit w)).
Lemma W_RIT w : W w -> RIT (fst (call_lin C x w)).
Proof.
  intros HW. pose proof (call_lin_R w) as L. destruct (call_lin C x w) as [w' q]. destruct L as (_ & _ & _ & _ & _ & L). cbn [fst].
  destruct (L (proj1 HW)) as (L1 & L2 & L3 & L4). clear L. destruct HW as (_ & (D1 & D2 & D3) & _). split; [|split; [|split]].
  - intros Er k Hk. rewrite L1, D3, Rg by assumption. lra.
  - intros Hex j Hj. rewrite L2, D1, Rb by assumption. lra.
  - intros c Hc E. rewrite L3 by assumption. pose proof (D2 c Hc E). rewrite Rd by assumption. unfold den_kkt_d. rewrite E. lra.
  - intros c Hc E. rewrite L4, E by assumption. lra.
Qed.

Lemma W_fs w : RES w -> I (wk_k w) -> W (call_fs OP C x w).
Proof.
  intros HR HI. unfold call_fs. rewrite (RES_rhs w HR).
  pose proof (H_fs (wk_k w) g0 b0 d0 (dr_m (wk_res w)) X (view (wk_stp w)) HI HX (proj2 (proj2 (proj2 HR)))) as H. cbv zeta in H.
  destruct (op_fact_solve K OP _ _ _ _) as [s k]. cbn [fst snd] in H. destruct H as (H1 & H2).
  split; [exact HR|]. split; [|exact H2]. cbn [wk_stp]. apply DIR_mask. exact (nsol_DIR _ _ H1).
Qed.
Lemma W_solve w : W w -> W (call_solve OP C x w).
Proof.
  intros (HR & _ & HF). unfold call_solve. rewrite (RES_rhs w HR).
  pose proof (H_sv (wk_k w) g0 b0 d0 (dr_m (wk_res w)) X (view (wk_stp w)) HF HX (proj2 (proj2 (proj2 HR)))) as H. cbv zeta in H.
  destruct (op_solve K OP _ _ _ _) as [s k]. cbn [fst snd] in H. destruct H as (H1 & H2).
  split; [exact HR|]. split; [|exact H2]. cbn [wk_stp]. apply DIR_mask. exact (nsol_DIR _ _ H1).
Qed.
(** the predictor never falls back to the LQ factorisation *)
Lemma lq_accurate w : RES w -> I (wk_k w) -> ar A reg_prim = 0 -> EX -> let '(w1, q) := call_lin C x (call_fs OP C x w) in inaccurate (wk_rit w1) q = false.
Proof.
  intros HR HI Er Hex. pose proof (W_fs w HR HI) as HW. pose proof (call_lin_R (call_fs OP C x w)) as L. pose proof (W_RIT _ HW) as TT.
  destruct (call_lin C x (call_fs OP C x w)) as [w1 q]. destruct L as (_ & _ & _ & _ & Eq & L). destruct (L (proj1 HW)) as (_ & _ & L3 & L4). clear L. destruct TT as (T1 & T2 & T3 & _). cbn [fst] in *.
  assert (M : forall c, (c < nc)%nat -> dr_m (wk_rit w1) c = 0).
  { intros c Hc. rewrite L4 by assumption. destruct (Hm c Hc) as [E|E]; rewrite E; [lra|]. rewrite Rmult_1_l.
    unfold call_fs. rewrite (RES_rhs w HR).
    pose proof (H_fs (wk_k w) g0 b0 d0 (dr_m (wk_res w)) X (view (wk_stp w)) HI HX (proj2 (proj2 (proj2 HR)))) as H. cbv zeta in H.
    destruct (op_fact_solve K OP _ _ _ _) as [s k]. cbn [fst snd] in H. destruct H as ((_ & _ & _ & N4) & _). cbn [wk_stp wk_res].
    cbn [view mask_lt flat ds_lam ds_t va_lam va_t]. rewrite !(domask_val cne lq smax qp Hm) by exact Hc. rewrite E. pose proof (N4 c Hc) as Q. cbn [view ds_lam ds_t] in Q. nra. }
  assert (Dz : forall c, (c < nc)%nat -> dr_d (wk_rit w1) c = 0).
  { intros c Hc. destruct (Hm c Hc) as [E|E]; [rewrite L3, E by exact Hc; lra|]. apply T3; assumption. }
  assert (Z0 : forall n v y, max_abs1 n v y -> (forall k, (k < n)%nat -> v k = 0) -> y = 0).
  { intros n v y (_ & _ & [Y|(k & Hk & Y)]) Hz; [exact Y|]. rewrite Y, Hz by exact Hk. apply Rabs_R0. }
  pose proof (C35_norms qp (wk_rit w1)) as Nn. rewrite <- Eq in Nn. destruct q as [[[a b] c] e]. destruct Nn as (Na & Nb & Nc & Ne).
  assert (a = 0) by (eapply Z0; [exact Na|exact (T1 Er)]).
  assert (b = 0) by (eapply Z0; [exact Nb|exact (T2 Hex)]).
  assert (c = 0) by (eapply Z0; [exact Nc|exact Dz]).
  assert (e = 0) by (eapply Z0; [exact Ne|exact M]). subst.
  unfold inaccurate, isnan, tol5. rsimp. rewrite R_lit01. destruct (Reqb_spec (dr_g (wk_rit w1) 0%nat) (dr_g (wk_rit w1) 0%nat)) as [_|Hn]; [|contradiction]. cbn [negb]. rewrite andb_false_r. cbn [orb].
  destruct (Rltb_spec (1 / 100000) 0) as [H|_]; [lra|]. reflexivity.
Qed.
Lemma W_predictor kk w : RES w -> I (wk_k w) -> W (predictor OP C kk x w).
Proof.
  intros HR HI. unfold predictor. change (c_lq C) with lq. destruct Hlq as [El|(El & Er & Hex)]; destruct (Z.eqb_spec lq 0) as [E0|E0]; [|lia|lia|].
  - apply W_put. apply W_fs; assumption.
  - destruct (Z.eqb_spec lq 1) as [E1|E1]; [|lia]. pose proof (lq_accurate w HR HI Er Hex) as L. pose proof (W_lin _ (W_fs w HR HI)) as HW. destruct (call_lin C x (call_fs OP C x w)) as [w1 q]. cbn [fst] in HW.
    change (wk_rit (stat_lq OP C kk w1)) with (wk_rit w1). rewrite L. apply W_put. exact HW.
Qed.
(** refinement *)
Lemma W_refine w : W w -> RIT w -> W (refine OP C x w) /\ HOM (view (wk_itr (refine OP C x w))).
Proof.
  intros (HR & HD & HF) (T1 & T2 & T3 & T4). unfold refine. rewrite qp_rhs_eq.
  pose proof (H_sv (wk_k w) (dr_g (wk_rit w)) (dr_b (wk_rit w)) (dr_d (wk_rit w)) (dr_m (wk_rit w)) X (view (wk_itr w)) HF HX T4) as H. cbv zeta in H.
  destruct (op_solve K OP _ _ _ _) as [s k]. cbn [fst snd] in H. destruct H as ((N1 & N2 & N3 & _) & H2). cbn [wk_itr].
  assert (HH : HOM (view (mask_lt C (flat s)))).
  { apply HOM_mask. split; [|split]; cbn [view flat ds_v ds_pi ds_lam ds_t va_v va_pi va_lam va_t].
    - intros Hex j Hj. rewrite N2, T2 by assumption. lra.
    - intros c Hc E. rewrite N3, T3 by assumption. lra.
    - intros Er k' Hk. rewrite N1, T1 by assumption. lra. }
  split; [|exact HH]. split; [exact HR|]. split; [|exact H2]. cbn [wk_stp].
  eapply DIR_comb; [apply comb_axpy; change (c_qp C) with qp; lia|exact HD|exact HH].
Qed.
Lemma W_itref kk rmax n : forall it did w q mx, W w -> RIT w -> W (fst (fst (itref_loop OP A C kk x rmax n it did w q mx))).
Proof.
  induction n as [|n IH]; intros it did w q mx HW HTT; cbn [itref_loop]; [exact HW|].
  destruct (accurate A rmax q); [exact HW|].
  destruct (W_refine w HW HTT) as (W1 & H1). pose proof (W_lin _ W1) as W2. pose proof (W_RIT _ W1) as T2.
  pose proof (call_lin_R (refine OP C x w)) as L. destruct (call_lin C x (refine OP C x w)) as [w1 q']. cbn [fst] in W2, T2. destruct L as (_ & Ei & _).
  destruct (fleb mx (max4 q')).
  - cbn [fst]. apply W_put. destruct W2 as (V1 & V2 & V3). split; [exact V1|]. split; [|exact V3].
    cbn [unrefine wk_stp put_stat wk_itr]. eapply DIR_comb; [apply comb_axpy; change (c_qp C) with qp; lia|exact V2|]. rewrite Ei. exact H1.
  - apply IH; [exact W2|exact T2].
Qed.
Lemma W_itref_pred kk rmax w : W w -> W (fst (itref_pred OP A C kk x rmax w)).
Proof.
  intros HW. unfold itref_pred. destruct (Z.eqb (ai A itref_pred_max) 0); [exact HW|].
  pose proof (W_lin w HW) as W2. pose proof (W_RIT w HW) as T2. destruct (call_lin C x w) as [w1 q]. cbn [fst] in *.
  pose proof (W_itref kk rmax (Z.to_nat (ai A itref_pred_max)) 0 false (put_stat (wstat4 C kk q) w1) q (max4 q) W2 T2) as H.
  destruct (itref_loop _ _ _ _ _ _ _ _ _ _ _ _) as [[w2 it] did]. exact H.
Qed.
Lemma W_alpha w : W w -> W (call_alpha A C x w).
Proof. intros H. unfold call_alpha. destruct (compute_alpha _ _ _ _ _ _ _ _ _) as [ap ad]. exact H. Qed.
Lemma W_itref_corr kk rmax w : W w -> W (fst (itref_corr OP A C kk x rmax w)).
Proof.
  intros HW. unfold itref_corr. destruct (Z.ltb 0 (ai A itref_corr_max)); [|exact HW].
  pose proof (W_lin w HW) as W2. pose proof (W_RIT w HW) as T2. destruct (call_lin C x w) as [w1 q]. cbn [fst] in *.
  pose proof (W_itref kk rmax (Z.to_nat (ai A itref_corr_max)) 0 false (put_stat (wstat4 C kk q) w1) q (max4 q) W2 T2) as H.
  destruct (itref_loop _ _ _ _ _ _ _ _ _ _ _ _) as [[w2 it] did]. cbn [fst] in *. destruct did; [apply W_put, W_alpha|]; exact H.
Qed.
Lemma W_corrector kk mu mbk w : W w -> W (corrector OP A C kk x mu mbk w).
Proof.
  intros HW. unfold corrector.
  set (w2 := put_stat (wstat C kk 3 _) (call_sigma mu _)). assert (H2 : W w2) by exact HW. clearbody w2.
  set (w3 := call_solve OP C x (put_resm C _ w2)). assert (H3 : W w3) by (apply W_solve, W_resm; exact H2). clearbody w3.
  set (w4 := stat_alpha C kk 4 (call_alpha A C x w3)). assert (H4 : W w4) by (apply W_put, W_alpha; exact H3). clearbody w4.
  destruct (Z.eqb (ai A cond_pred_corr) 1); [|exact H4].
  destruct (fltb _ _); [|exact H4]. apply W_put, W_alpha, W_solve, W_resm. exact H4.
Qed.
Lemma W_delta_dir kk mu rmax mbk w : dr_g (wk_res w) = g0 -> dr_b (wk_res w) = b0 -> dr_d (wk_res w) = d0 -> I (wk_k w) -> W (delta_dir OP A C kk x mu rmax mbk w).
Proof.
  intros E1 E2 E3 HI. unfold delta_dir.
  set (w0 := put_resm C _ w). assert (R0 : RES w0) by (split; [exact E1|]; split; [exact E2|]; split; [exact E3|]; apply mz_domask). assert (I0 : I (wk_k w0)) by exact HI. clearbody w0.
  set (w1 := predictor OP C kk x w0). assert (H1 : W w1) by (apply W_predictor; assumption). clearbody w1.
  pose proof (W_itref_pred kk rmax w1 H1) as H2. destruct (itref_pred OP A C kk x rmax w1) as [w2 it0]. cbn [fst] in H2.
  set (w3 := stat_alpha C kk 0 _). assert (H3 : W w3) by (apply W_put, W_alpha, W_put; exact H2). clearbody w3.
  set (p := if Z.eqb (ai A pred_corr) 1 then _ else _).
  assert (H4 : W (fst p)) by (unfold p; destruct (Z.eqb (ai A pred_corr) 1); [apply W_itref_corr, W_corrector|]; exact H3).
  clearbody p. destruct p as [w4 it1]. cbn [fst] in H4. apply W_put, W_put. destruct (Z.eqb (ai A itref_corr_max) 0); exact H4.
Qed.
(** *** absolute formulation *)
Definition WA (w : @wk R K) : Prop := DIR (view (wk_stp w)) /\ FC (wk_k w) X /\ mz (dr_m (wk_res w)).
Lemma nsol_DIR_abs m s : nsol X (d_gz qp) (d_b qp) (d_d qp) m s -> DIR (view (mask_lt C (axpy_sol C cne (- f1)%F x (flat s)))).
Proof.
  intros (N1 & N2 & N3 & _). apply DIR_mask.
  assert (Ef : (- f1)%F = -1) by (rsimp; rewrite R_lit11; reflexivity).
  destruct (comb_axpy cne (- f1)%F x (flat s) Hcne) as (C1 & C2 & C3 & C4). set (s' := view (axpy_sol C cne (- f1)%F x (flat s))) in *. clearbody s'.
  rewrite Ef in *. cbn [view flat ds_v ds_pi ds_lam ds_t va_v va_pi va_lam va_t] in C1, C2, C3, C4.
  split; [|split].
  - intros Hex j Hj. rewrite (deq_lin qp (ds_v s') (ds_v s) (ds_v X) (-1) j C1), N2, (deq_qp qp) by assumption. lra.
  - intros c Hc E. rewrite (dcon_lin qp (ds_v s') (ds_v s) (ds_v X) (-1) c C1), C4 by assumption. pose proof (N3 c Hc). cbn [view ds_t ds_v]. lra.
  - intros Er k Hk. rewrite (dg_lin qp _ (ds_v s) (ds_v X) _ (ds_pi s) (ds_pi X) _ (ds_lam s) (ds_lam X) (-1) k C1 C2 C3), N1, (dg_qp qp) by assumption. lra.
Qed.
Lemma qp_abs_eq res : qp_rhs_abs C res = den_with_rhs qp (d_gz qp) (d_b qp) (d_d qp) (dr_m res).
Proof. reflexivity. Qed.
Lemma WA_fs w : I (wk_k w) -> mz (dr_m (wk_res w)) -> WA (call_abs (K := K) C x (op_fact_solve K OP) w).
Proof.
  intros HI Hz. unfold call_abs. rewrite qp_abs_eq.
  pose proof (H_fs (wk_k w) (d_gz qp) (d_b qp) (d_d qp) (dr_m (wk_res w)) X (view (wk_stp w)) HI HX Hz) as H. cbv zeta in H.
  destruct (op_fact_solve K OP _ _ _ _) as [s k]. cbn [fst snd] in H. destruct H as (H1 & H2). split; [|split; [exact H2|exact Hz]]. cbn [wk_stp]. eapply nsol_DIR_abs. exact H1.
Qed.
Lemma WA_solve f w : WA w -> WA (call_abs (K := K) C x (op_solve K OP) (put_resm C f w)).
Proof.
  intros (_ & HF & _). unfold call_abs. rewrite qp_abs_eq.
  pose proof (H_sv (wk_k w) (d_gz qp) (d_b qp) (d_d qp) (dr_m (wk_res (put_resm C f w))) X (view (wk_stp w)) HF HX (mz_domask _ _)) as H. cbv zeta in H.
  change (wk_k (put_resm C f w)) with (wk_k w). change (wk_stp (put_resm C f w)) with (wk_stp w).
  destruct (op_solve K OP _ _ _ _) as [s k]. cbn [fst snd] in H. destruct H as (H1 & H2). split; [|split; [exact H2|apply mz_domask]]. cbn [wk_stp]. eapply nsol_DIR_abs. exact H1.
Qed.
Lemma WA_alpha w : WA w -> WA (call_alpha A C x w).
Proof. intros H. unfold call_alpha. destruct (compute_alpha _ _ _ _ _ _ _ _ _) as [ap ad]. exact H. Qed.
Lemma WA_abs_dir kk mu mbk w : I (wk_k w) -> WA (abs_dir OP A C kk x mu mbk w).
Proof.
  intros HI. unfold abs_dir.
  set (w1 := call_abs C x (op_fact_solve K OP) _). assert (H1 : WA w1) by (apply WA_fs; [exact HI|apply mz_domask]). clearbody w1.
  set (w2 := stat_alpha C kk 0 _). assert (H2 : WA w2). { exact (WA_alpha (put_stat (wstat C kk 20 (lit (op_npd K OP (wk_k w1)) 1)) w1) H1). } clearbody w2.
  destruct (Z.eqb (ai A pred_corr) 1); [|exact H2].
  set (w4 := put_stat (wstat C kk 3 _) (call_sigma mu _)). assert (H4 : WA w4) by exact H2. clearbody w4.
  set (w5 := stat_alpha C kk 4 _). assert (H5 : WA w5).
  { pose proof (WA_alpha _ (WA_solve (fun r => centering_correction nc (va_lam (wk_stp w4)) (va_t (wk_stp w4)) r mbk (wk_sig w4) mu (ar A tau_min)) w4 H4)) as H. exact H. } clearbody w5.
  destruct (Z.eqb (ai A cond_pred_corr) 1); [|exact H5]. destruct (fltb _ _); [|exact H5].
  pose proof (WA_alpha _ (WA_solve (fun r => centering nc r mbk (wk_sig (call_muaff C x w5)) mu (ar A tau_min)) (call_muaff C x w5) H5)) as H. exact H.
Qed.
End X.
End S.
