(** TipmProofs.v -- control flow of the tree interior point solver (adapted from IpmProofs.v), whatever the arithmetic and the linear algebra do. *)
From Coq Require Import ZArith Bool Arith List Lia.
From Verif Require Import Base ArithF Blas Blas2 OcpModel CoreModel ArgModel IpmModel IpmProofs TreeModel TipmModel.

Section P.
Context {F : Type} {AF : Arith F} {K : Type} (OP : kops (F := F) K) (A : arg F) (T : ttree).
Notation vec := (nat -> F).
Notation ist := (@ist F K). Notation wk := (@wk F K).

(** *** the statistics table: [trow_only k st st']: st' differs from st at most in row k+1, and only if that row exists *)
Definition trow_only (C : ctx (F := F)) (kk : Z) (st st' : vec) : Prop :=
  forall j, (st' j = st j) \/ ((kk + 1 < c_smax C)%Z /\ (Z.to_nat (20 * (kk + 1)) <= j < Z.to_nat (20 * (kk + 1)) + 20)%nat).
Variable C : ctx (F := F).
Lemma trow_refl kk st : trow_only C kk st st. Proof. intros j. left; reflexivity. Qed.
Lemma trow_trans kk a b c : trow_only C kk a b -> trow_only C kk b c -> trow_only C kk a c.
Proof. intros H1 H2 j. destruct (H2 j) as [E|E]; [|right; exact E]. rewrite E. apply H1. Qed.
Lemma trow_wstat kk col v st : (col < 20)%nat -> trow_only C kk st (twstat C kk col v st).
Proof.
  intros Hc j. unfold twstat. destruct (Z.ltb_spec (kk + 1) (c_smax C)) as [H|H]; [|left; reflexivity].
  destruct (Nat.eq_dec j (Z.to_nat (20 * (kk + 1)) + col)) as [->|Hn]; [right; split; [exact H|lia]|left; apply upd_other; exact Hn].
Qed.
Lemma trow_wstat4 kk q st : trow_only C kk st (twstat4 C kk q st).
Proof. destruct q as [[[a b] c] e]. unfold twstat4. repeat (eapply trow_trans; [|apply trow_wstat; lia]). apply trow_refl. Qed.
Lemma trow_wstat_res kk q r st : trow_only C kk st (twstat_res C kk q r st).
Proof. destruct q as [[[a b] c] e]. unfold twstat_res. repeat (eapply trow_trans; [|apply trow_wstat; lia]). apply trow_refl. Qed.

(** [twfr kk w w']: the statistics are changed at most in row kk+1 *)
Definition twfr (kk : Z) (w w' : wk) : Prop := trow_only C kk (wk_stat w) (wk_stat w').
Lemma twfr_refl kk w : twfr kk w w. Proof. apply trow_refl. Qed.
Lemma twfr_trans kk a b c : twfr kk a b -> twfr kk b c -> twfr kk a c. Proof. apply trow_trans. Qed.
Lemma twfr_eq kk w w' : wk_stat w' = wk_stat w -> twfr kk w w'. Proof. intros E. unfold twfr. rewrite E. apply trow_refl. Qed.
Lemma twfr_put kk f (w : wk) : (forall st, trow_only C kk st (f st)) -> twfr kk w (put_stat f w).
Proof. intros H. unfold twfr, put_stat. cbn [wk_stat]. apply H. Qed.

Section It.
Variables (kk : Z) (x : vars F) (mu : F) (rmax : F * F * F * F) (mbk : vec).
Lemma twfr_call_fs w : twfr kk w (call_fs OP C x w).
Proof. unfold call_fs. destruct (op_fact_solve K OP _ _ _ _) as [s k]. apply twfr_eq. reflexivity. Qed.
Lemma twfr_call_lq w : twfr kk w (call_lq OP C x w).
Proof. unfold call_lq. destruct (op_fact_lq K OP _ _ _ _) as [s k]. apply twfr_eq. reflexivity. Qed.
Lemma twfr_call_lin w : twfr kk w (fst (tcall_lin T C x w)).
Proof. unfold tcall_lin, tcall_lin0. destruct (treelin_compute _ _ _ _ _ _ _) as [rit rw]. apply twfr_eq. reflexivity. Qed.
Lemma twfr_call_lin_mask w : twfr kk w (fst (tcall_lin_mask T C x w)).
Proof. unfold tcall_lin_mask, tcall_lin0. destruct (treelin_compute _ _ _ _ _ _ _) as [rit rw]. apply twfr_eq. reflexivity. Qed.
Lemma twfr_stat_lq v (w : wk) : twfr kk w (tstat_lq C kk v w).
Proof. apply twfr_put. intros st. apply trow_wstat. lia. Qed.
Lemma twfr_predictor w : twfr kk w (tpredictor OP T C kk x w).
Proof.
  unfold tpredictor. destruct (Z.eqb (c_lq C) 0); [eapply twfr_trans; [apply twfr_call_fs|apply twfr_stat_lq]|].
  destruct (Z.eqb (c_lq C) 1); [|eapply twfr_trans; [apply twfr_call_lq|apply twfr_stat_lq]].
  pose proof (twfr_call_lin_mask (call_fs OP C x w)) as H. destruct (tcall_lin_mask T C x (call_fs OP C x w)) as [w1 q]. cbn [fst] in H.
  assert (H2 : twfr kk w (tstat_lq C kk f0 w1)) by (eapply twfr_trans; [apply twfr_call_fs|eapply twfr_trans; [exact H|apply twfr_stat_lq]]).
  destruct (inaccurate _ q); [|exact H2].
  eapply twfr_trans; [exact H2|]. eapply twfr_trans; [apply twfr_call_lq|apply twfr_stat_lq].
Qed.
Lemma twfr_refine w : twfr kk w (refine OP C x w).
Proof. unfold refine. destruct (op_solve K OP _ _ _ _ _) as [s k]. apply twfr_eq. reflexivity. Qed.
Lemma twfr_itref sh n : forall it did w q mx, twfr kk w (fst (fst (titref_loop OP A T C kk x rmax sh n it did w q mx))).
Proof.
  induction n as [|n IH]; intros it did w q mx; cbn [titref_loop]; [apply twfr_refl|].
  destruct (accurate A rmax q); [apply twfr_refl|].
  pose proof (twfr_call_lin (refine OP C x w)) as H. destruct (tcall_lin T C x (refine OP C x w)) as [w1 q']. cbn [fst] in H.
  assert (H2 : twfr kk w (put_stat (twstat4 C kk q') w1)).
  { eapply twfr_trans; [apply twfr_refine|]. eapply twfr_trans; [exact H|]. apply twfr_put. intros; apply trow_wstat4. }
  destruct (fleb mx (max4 q')).
  - cbn [fst]. eapply twfr_trans; [exact H2|]. eapply twfr_trans; [|apply twfr_put; intros; apply trow_wstat4]. apply twfr_eq. reflexivity.
  - eapply twfr_trans; [exact H2|apply IH].
Qed.
Lemma twfr_itref_pred w : twfr kk w (fst (titref_pred OP A T C kk x rmax w)).
Proof.
  unfold titref_pred. destruct (Z.eqb (ai A itref_pred_max) 0); [apply twfr_put; intros; apply trow_wstat4|].
  pose proof (twfr_call_lin w) as H. destruct (tcall_lin T C x w) as [w1 q]. cbn [fst] in H.
  pose proof (twfr_itref true (Z.to_nat (ai A itref_pred_max)) 0 false (put_stat (twstat4 C kk q) w1) q (max4 q)) as H2.
  destruct (titref_loop _ _ _ _ _ _ _ _ _ _ _ _ _ _) as [[w2 it] did]. cbn [fst] in *.
  eapply twfr_trans; [exact H|]. eapply twfr_trans; [|exact H2]. apply twfr_put. intros; apply trow_wstat4.
Qed.
Lemma twfr_alpha w : twfr kk w (call_alpha A C x w).
Proof. unfold call_alpha. destruct (compute_alpha _ _ _ _ _ _ _ _ _) as [ap ad]. apply twfr_eq. reflexivity. Qed.
Lemma twfr_stat_alpha c0 w : (c0 < 19)%nat -> twfr kk w (tstat_alpha C kk c0 w).
Proof. intros H. apply twfr_put. intros st. eapply trow_trans; apply trow_wstat; lia. Qed.
Lemma twfr_muaff w : twfr kk w (call_muaff C x w). Proof. apply twfr_eq. reflexivity. Qed.
Lemma twfr_sigma (w : wk) : twfr kk w (call_sigma mu w). Proof. apply twfr_eq. reflexivity. Qed.
Lemma twfr_resm f (w : wk) : twfr kk w (put_resm C f w). Proof. apply twfr_eq. reflexivity. Qed.
Lemma twfr_solve w : twfr kk w (call_solve OP C x w).
Proof. unfold call_solve. destruct (op_solve K OP _ _ _ _ _) as [s k]. apply twfr_eq. reflexivity. Qed.
Lemma twfr_put1 c v (w : wk) : (c < 20)%nat -> twfr kk w (put_stat (twstat C kk c v) w).
Proof. intros H. apply twfr_put. intros st. apply trow_wstat. exact H. Qed.
Lemma twfr_corrector w : twfr kk w (tcorrector OP A C kk x mu mbk w).
Proof.
  unfold tcorrector.
  set (w1 := put_stat (twstat C kk 2 _) (call_muaff C x w)).
  assert (H1 : twfr kk w w1) by (eapply twfr_trans; [apply twfr_muaff|apply twfr_put1; lia]). clearbody w1.
  set (w2 := put_stat (twstat C kk 3 _) (call_sigma mu w1)).
  assert (H2 : twfr kk w w2) by (eapply twfr_trans; [exact H1|]; eapply twfr_trans; [apply twfr_sigma|apply twfr_put1; lia]). clearbody w2.
  set (w3 := call_solve OP C x (put_resm C _ w2)).
  assert (H3 : twfr kk w w3) by (eapply twfr_trans; [exact H2|]; eapply twfr_trans; [apply twfr_resm|apply twfr_solve]). clearbody w3.
  set (w4 := tstat_alpha C kk 4 (call_alpha A C x w3)).
  assert (H4 : twfr kk w w4) by (eapply twfr_trans; [exact H3|]; eapply twfr_trans; [apply twfr_alpha|apply twfr_stat_alpha; lia]). clearbody w4.
  destruct (Z.eqb (ai A cond_pred_corr) 1); [|exact H4].
  assert (H5 : twfr kk w (call_muaff C x w4)) by (eapply twfr_trans; [exact H4|apply twfr_muaff]).
  destruct (fltb _ _); [|exact H5].
  eapply twfr_trans; [exact H5|]. eapply twfr_trans; [apply twfr_resm|]. eapply twfr_trans; [apply twfr_solve|].
  eapply twfr_trans; [apply twfr_alpha|apply twfr_stat_alpha; lia].
Qed.
Lemma twfr_itref_corr w : twfr kk w (fst (titref_corr OP A T C kk x rmax w)).
Proof.
  unfold titref_corr. destruct (Z.ltb 0 (ai A itref_corr_max)); [|apply twfr_refl].
  pose proof (twfr_call_lin w) as H. destruct (tcall_lin T C x w) as [w1 q]. cbn [fst] in H.
  pose proof (twfr_itref false (Z.to_nat (ai A itref_corr_max)) 0 false (put_stat (twstat4 C kk q) w1) q (max4 q)) as H2.
  destruct (titref_loop _ _ _ _ _ _ _ _ _ _ _ _ _ _) as [[w2 it] did]. cbn [fst] in *.
  assert (H3 : twfr kk w w2) by (eapply twfr_trans; [exact H|]; eapply twfr_trans; [|exact H2]; apply twfr_put; intros; apply trow_wstat4).
  destruct did; [|exact H3]. eapply twfr_trans; [exact H3|]. eapply twfr_trans; [apply twfr_alpha|apply twfr_stat_alpha; lia].
Qed.
Lemma twfr_delta_dir w : twfr kk w (tdelta_dir OP A T C kk x mu rmax mbk w).
Proof.
  unfold tdelta_dir.
  set (w1 := tpredictor OP T C kk x _).
  assert (H1 : twfr kk w w1) by (eapply twfr_trans; [apply twfr_resm|apply twfr_predictor]). clearbody w1.
  pose proof (twfr_itref_pred w1) as H2. destruct (titref_pred OP A T C kk x rmax w1) as [w2 it0]. cbn [fst] in H2.
  set (w3 := tstat_alpha C kk 0 _).
  assert (H3 : twfr kk w w3).
  { eapply twfr_trans; [exact H1|]. eapply twfr_trans; [exact H2|]. eapply twfr_trans; [|apply twfr_stat_alpha; lia]. eapply twfr_trans; [|apply twfr_alpha].
    apply twfr_put1; lia. }
  clearbody w3.
  set (p := if Z.eqb (ai A pred_corr) 1 then _ else _).
  assert (H4 : twfr kk w (fst p)).
  { unfold p. destruct (Z.eqb (ai A pred_corr) 1); [|exact H3].
    eapply twfr_trans; [exact H3|]. eapply twfr_trans; [apply twfr_corrector|apply twfr_itref_corr]. }
  clearbody p. destruct p as [w4 it1]. cbn [fst] in H4.
  eapply twfr_trans; [|apply twfr_put1; lia].
  destruct (Z.eqb (ai A itref_corr_max) 0); [|exact H4]. eapply twfr_trans; [exact H4|]. apply twfr_put; intros; apply trow_wstat4.
Qed.
Lemma twfr_abs sv w : twfr kk w (call_abs (K := K) C x sv w).
Proof. unfold call_abs. destruct (sv _ _ _ _) as [s k]. apply twfr_eq. reflexivity. Qed.
Lemma twfr_abs_dir w : twfr kk w (tabs_dir OP A C kk x mu mbk w).
Proof.
  unfold tabs_dir.
  set (w1 := call_abs C x (op_fact_solve K OP) _).
  assert (H1 : twfr kk w w1) by (eapply twfr_trans; [apply twfr_resm|apply twfr_abs]). clearbody w1.
  set (w2 := tstat_alpha C kk 0 _).
  assert (H2 : twfr kk w w2).
  { eapply twfr_trans; [exact H1|]. eapply twfr_trans; [|apply twfr_stat_alpha; lia]. apply twfr_alpha. }
  clearbody w2. destruct (Z.eqb (ai A pred_corr) 1); [|exact H2].
  set (w3 := put_stat (twstat C kk 2 _) (call_muaff C x w2)).
  assert (H3 : twfr kk w w3) by (eapply twfr_trans; [exact H2|]; eapply twfr_trans; [apply twfr_muaff|apply twfr_put1; lia]). clearbody w3.
  set (w4 := put_stat (twstat C kk 3 _) (call_sigma mu w3)).
  assert (H4 : twfr kk w w4) by (eapply twfr_trans; [exact H3|]; eapply twfr_trans; [apply twfr_sigma|apply twfr_put1; lia]). clearbody w4.
  set (w5 := tstat_alpha C kk 4 _).
  assert (H5 : twfr kk w w5).
  { eapply twfr_trans; [exact H4|]. eapply twfr_trans; [apply twfr_resm|]. eapply twfr_trans; [apply twfr_abs|]. eapply twfr_trans; [apply twfr_alpha|apply twfr_stat_alpha; lia]. }
  clearbody w5. destruct (Z.eqb (ai A cond_pred_corr) 1); [|exact H5].
  assert (H6 : twfr kk w (call_muaff C x w5)) by (eapply twfr_trans; [exact H5|apply twfr_muaff]).
  destruct (fltb _ _); [|exact H6].
  eapply twfr_trans; [exact H6|]. eapply twfr_trans; [apply twfr_resm|]. eapply twfr_trans; [apply twfr_abs|].
  eapply twfr_trans; [apply twfr_alpha|apply twfr_stat_alpha; lia].
Qed.

(** *** the step lengths used are those of the step taken *)
Notation alpha_ok := (IpmProofs.alpha_ok (K := K) A C x).
Lemma talpha_call w : alpha_ok (call_alpha A C x w).
Proof. unfold call_alpha, IpmProofs.alpha_ok. destruct (compute_alpha _ _ _ _ _ _ _ _ _) as [ap ad] eqn:E. cbn [wk_stp wk_ap wk_ad]. symmetry. exact E. Qed.
Lemma talpha_put f w : alpha_ok w -> alpha_ok (put_stat f w). Proof. intros H. exact H. Qed.
Lemma talpha_stat c0 w : alpha_ok w -> alpha_ok (tstat_alpha C kk c0 w). Proof. intros H. exact H. Qed.
Lemma talpha_muaff w : alpha_ok w -> alpha_ok (call_muaff C x w). Proof. intros H. exact H. Qed.
Lemma talpha_corrector w : alpha_ok (tcorrector OP A C kk x mu mbk w).
Proof.
  unfold tcorrector. set (w3 := call_solve OP C x _). clearbody w3.
  assert (H : alpha_ok (tstat_alpha C kk 4 (call_alpha A C x w3))) by (apply talpha_stat, talpha_call).
  set (w4 := tstat_alpha C kk 4 _) in *. clearbody w4.
  destruct (Z.eqb (ai A cond_pred_corr) 1); [|exact H].
  destruct (fltb _ _); [|apply talpha_muaff; exact H]. apply talpha_stat, talpha_call.
Qed.
Lemma titref_did sh n : forall it did w q mx, let r := titref_loop OP A T C kk x rmax sh n it did w q mx in
  snd r = false -> fst (fst r) = w.
Proof.
  induction n as [|n IH]; intros it did w q mx; cbn [titref_loop]; [reflexivity|].
  destruct (accurate A rmax q); [reflexivity|].
  destruct (tcall_lin T C x (refine OP C x w)) as [w1 q']. destruct (fleb mx (max4 q')); [cbn; discriminate|].
  cbv zeta. intros H. exfalso. revert H.
  assert (G : forall n it w q mx, snd (titref_loop OP A T C kk x rmax sh n it true w q mx) = true).
  { clear. induction n as [|n IH]; intros it w q mx; cbn [titref_loop]; [reflexivity|].
    destruct (accurate A rmax q); [reflexivity|]. destruct (tcall_lin T C x (refine OP C x w)) as [w1 q']. destruct (fleb mx (max4 q')); [reflexivity|apply IH]. }
  rewrite G. discriminate.
Qed.
Lemma talpha_itref_corr w : alpha_ok w -> alpha_ok (fst (titref_corr OP A T C kk x rmax w)).
Proof.
  intros H. unfold titref_corr. destruct (Z.ltb 0 (ai A itref_corr_max)); [|exact H].
  assert (H1 : alpha_ok (fst (tcall_lin T C x w))).
  { unfold tcall_lin, tcall_lin0. destruct (treelin_compute _ _ _ _ _ _ _) as [rit rw]. exact H. }
  destruct (tcall_lin T C x w) as [w1 q]. cbn [fst] in H1.
  pose proof (titref_did false (Z.to_nat (ai A itref_corr_max)) 0 false (put_stat (twstat4 C kk q) w1) q (max4 q)) as H2. cbv zeta in H2.
  destruct (titref_loop _ _ _ _ _ _ _ _ _ _ _ _ _ _) as [[w2 it] did]. cbn [fst snd] in *.
  destruct did; [apply talpha_stat, talpha_call|]. rewrite H2 by reflexivity. apply talpha_put. exact H1.
Qed.
Lemma talpha_delta_dir w : alpha_ok (tdelta_dir OP A T C kk x mu rmax mbk w).
Proof.
  unfold tdelta_dir. destruct (titref_pred OP A T C kk x rmax _) as [w2 it0].
  set (w3 := tstat_alpha C kk 0 _). assert (H3 : alpha_ok w3) by (apply talpha_stat, talpha_call). clearbody w3.
  set (p := if Z.eqb (ai A pred_corr) 1 then _ else _).
  assert (H4 : alpha_ok (fst p)) by (unfold p; destruct (Z.eqb (ai A pred_corr) 1); [apply talpha_itref_corr, talpha_corrector|exact H3]).
  clearbody p. destruct p as [w4 it1]. cbn [fst] in H4.
  apply talpha_put. destruct (Z.eqb (ai A itref_corr_max) 0); [apply talpha_put; exact H4|exact H4].
Qed.
Lemma talpha_abs_dir w : alpha_ok (tabs_dir OP A C kk x mu mbk w).
Proof.
  unfold tabs_dir. set (w1 := call_abs C x (op_fact_solve K OP) _). clearbody w1.
  set (w2 := tstat_alpha C kk 0 _). assert (H2 : alpha_ok w2) by (apply talpha_stat, talpha_call). clearbody w2.
  destruct (Z.eqb (ai A pred_corr) 1); [|exact H2].
  set (w4 := call_sigma mu _). clearbody w4.
  set (w5 := tstat_alpha C kk 4 _). assert (H5 : alpha_ok w5) by (apply talpha_stat, talpha_call). clearbody w5.
  destruct (Z.eqb (ai A cond_pred_corr) 1); [|exact H5].
  destruct (fltb _ _); [apply talpha_stat, talpha_call|apply talpha_muaff; exact H5].
Qed.
End It.
End P.
