(** DenIpmProofs.v -- control flow of the dense interior point solver, whatever the arithmetic and the linear algebra do. *)
From Coq Require Import ZArith Bool Arith List Lia.
From Verif Require Import Base ArithF Blas Blas2 OcpModel CoreModel ArgModel DenModel DenIpmModel.

Section P.
Context {F : Type} {AF : Arith F} {K : Type} (OP : dkops (F := F) K) (A : arg F).
Notation vec := (nat -> F).
Notation ist := (@ist F K). Notation wk := (@wk F K).

(** *** the loop *)
Lemma ipm_for_inv (go : Z -> ist -> bool) body (P : Z -> ist -> Prop) n : forall kk s,
  P kk s -> (forall k s, (kk <= k)%Z -> P k s -> go k s = true -> P (k + 1)%Z (body k s)) ->
  let r := ipm_for go body n kk s in P (fst r) (snd r) /\ (kk <= fst r <= kk + Z.of_nat n)%Z.
Proof.
  induction n as [|n IH]; intros kk s H0 HS; cbn [ipm_for].
  - cbn. split; [exact H0|lia].
  - destruct (go kk s) eqn:E; [|cbn; split; [exact H0|lia]].
    destruct (IH (kk + 1)%Z (body kk s)) as [H1 H2].
    + apply HS; [lia|exact H0|exact E].
    + intros k s' Hk. apply HS. lia.
    + cbv zeta. split; [exact H1|lia].
Qed.
(** with n = iter_max the fuel does not cut the loop short: the C loop condition is false on exit *)
Lemma ipm_for_exit (go : Z -> ist -> bool) body m s : (forall k s, go k s = true -> (k < m)%Z) ->
  let r := ipm_for go body (Z.to_nat m) 0 s in go (fst r) (snd r) = false.
Proof.
  intros Hgo. cbv zeta.
  assert (G : forall n kk s, (m <= kk + Z.of_nat n)%Z -> let r := ipm_for go body n kk s in go (fst r) (snd r) = false).
  { induction n as [|n IH]; intros kk s' Hle; cbn [ipm_for].
    - cbn. destruct (go kk s') eqn:E; [|reflexivity]. apply Hgo in E. lia.
    - destruct (go kk s') eqn:E; [|exact E]. apply IH. lia. }
  apply G. lia.
Qed.
Lemma delta_go_lt C k (s : ist) : delta_go A C k s = true -> (k < ai A iter_max)%Z.
Proof. unfold delta_go. destruct (i_max s) as [[[a b] c] e]. intros H. apply andb_prop in H. destruct H as [H _]. apply Z.ltb_lt in H. exact H. Qed.
Lemma abs_go_lt k (s : ist) : abs_go A k s = true -> (k < ai A iter_max)%Z.
Proof. unfold abs_go. intros H. apply andb_prop in H. destruct H as [H _]. apply Z.ltb_lt in H. exact H. Qed.

(** *** the statistics table: [row_only k st st']: st' differs from st at most in row k+1, and only if that row exists *)
Definition row_only (C : ctx (F := F)) (kk : Z) (st st' : vec) : Prop :=
  forall j, (st' j = st j) \/ ((kk + 1 < c_smax C)%Z /\ (Z.to_nat (21 * (kk + 1)) <= j < Z.to_nat (21 * (kk + 1)) + 21)%nat).
Variable C : ctx (F := F).
Lemma row_refl kk st : row_only C kk st st. Proof. intros j. left; reflexivity. Qed.
Lemma row_trans kk a b c : row_only C kk a b -> row_only C kk b c -> row_only C kk a c.
Proof. intros H1 H2 j. destruct (H2 j) as [E|E]; [|right; exact E]. rewrite E. apply H1. Qed.
Lemma row_wstat kk col v st : (col < 21)%nat -> row_only C kk st (wstat C kk col v st).
Proof.
  intros Hc j. unfold wstat. destruct (Z.ltb_spec (kk + 1) (c_smax C)) as [H|H]; [|left; reflexivity].
  destruct (Nat.eq_dec j (Z.to_nat (21 * (kk + 1)) + col)) as [->|Hn]; [right; split; [exact H|lia]|left; apply upd_other; exact Hn].
Qed.
Lemma row_wstat4 kk q st : row_only C kk st (wstat4 C kk q st).
Proof. destruct q as [[[a b] c] e]. unfold wstat4. repeat (eapply row_trans; [|apply row_wstat; lia]). apply row_refl. Qed.
Lemma row_wstat_res kk q r st : row_only C kk st (wstat_res C kk q r st).
Proof. destruct q as [[[a b] c] e]. unfold wstat_res. repeat (eapply row_trans; [|apply row_wstat; lia]). apply row_refl. Qed.

(** [wfr kk w w']: the statistics are changed at most in row kk+1 *)
Definition wfr (kk : Z) (w w' : wk) : Prop := row_only C kk (wk_stat w) (wk_stat w').
Lemma wfr_refl kk w : wfr kk w w. Proof. apply row_refl. Qed.
Lemma wfr_trans kk a b c : wfr kk a b -> wfr kk b c -> wfr kk a c. Proof. apply row_trans. Qed.
Lemma wfr_eq kk w w' : wk_stat w' = wk_stat w -> wfr kk w w'. Proof. intros E. unfold wfr. rewrite E. apply row_refl. Qed.
Lemma wfr_put kk f (w : wk) : (forall st, row_only C kk st (f st)) -> wfr kk w (put_stat f w).
Proof. intros H. unfold wfr, put_stat. cbn [wk_stat]. apply H. Qed.

Section It.
Variables (kk : Z) (x : vars F) (mu : F) (rmax : F * F * F * F) (mbk : vec).
Lemma wfr_call_fs w : wfr kk w (call_fs OP C x w).
Proof. unfold call_fs. destruct (op_fact_solve K OP _ _ _ _) as [s k]. apply wfr_eq. reflexivity. Qed.
Lemma wfr_call_lq w : wfr kk w (call_lq OP C x w).
Proof. unfold call_lq. destruct (op_fact_lq K OP _ _ _ _) as [s k]. apply wfr_eq. reflexivity. Qed.
Lemma wfr_call_lin w : wfr kk w (fst (call_lin C x w)).
Proof. unfold call_lin. destruct (den_reslin_compute _ _ _ _ _ _) as [rit rw]. apply wfr_eq. reflexivity. Qed.
Lemma wfr_stat_lq w : wfr kk w (stat_lq OP C kk w).
Proof. apply wfr_put. intros st. apply row_wstat. lia. Qed.
Lemma wfr_predictor w : wfr kk w (predictor OP C kk x w).
Proof.
  unfold predictor. destruct (Z.eqb (c_lq C) 0); [eapply wfr_trans; [apply wfr_call_fs|apply wfr_stat_lq]|].
  destruct (Z.eqb (c_lq C) 1); [|eapply wfr_trans; [apply wfr_call_lq|apply wfr_stat_lq]].
  pose proof (wfr_call_lin (call_fs OP C x w)) as H. destruct (call_lin C x (call_fs OP C x w)) as [w1 q]. cbn [fst] in H.
  assert (H2 : wfr kk w (stat_lq OP C kk w1)) by (eapply wfr_trans; [apply wfr_call_fs|eapply wfr_trans; [exact H|apply wfr_stat_lq]]).
  destruct (inaccurate _ q); [|exact H2].
  eapply wfr_trans; [exact H2|]. eapply wfr_trans; [apply wfr_call_lq|apply wfr_stat_lq].
Qed.
Lemma wfr_refine w : wfr kk w (refine OP C x w).
Proof. unfold refine. destruct (op_solve K OP _ _ _ _) as [s k]. apply wfr_eq. reflexivity. Qed.
Lemma wfr_itref n : forall it did w q mx, wfr kk w (fst (fst (itref_loop OP A C kk x rmax n it did w q mx))).
Proof.
  induction n as [|n IH]; intros it did w q mx; cbn [itref_loop]; [apply wfr_refl|].
  destruct (accurate A rmax q); [apply wfr_refl|].
  pose proof (wfr_call_lin (refine OP C x w)) as H. destruct (call_lin C x (refine OP C x w)) as [w1 q']. cbn [fst] in H.
  assert (H2 : wfr kk w (put_stat (wstat4 C kk q') w1)).
  { eapply wfr_trans; [apply wfr_refine|]. eapply wfr_trans; [exact H|]. apply wfr_put. intros; apply row_wstat4. }
  destruct (fleb mx (max4 q')).
  - cbn [fst]. eapply wfr_trans; [exact H2|]. eapply wfr_trans; [|apply wfr_put; intros; apply row_wstat4]. apply wfr_eq. reflexivity.
  - eapply wfr_trans; [exact H2|apply IH].
Qed.
Lemma wfr_itref_pred w : wfr kk w (fst (itref_pred OP A C kk x rmax w)).
Proof.
  unfold itref_pred. destruct (Z.eqb (ai A itref_pred_max) 0); [apply wfr_put; intros; apply row_wstat4|].
  pose proof (wfr_call_lin w) as H. destruct (call_lin C x w) as [w1 q]. cbn [fst] in H.
  pose proof (wfr_itref (Z.to_nat (ai A itref_pred_max)) 0 false (put_stat (wstat4 C kk q) w1) q (max4 q)) as H2.
  destruct (itref_loop _ _ _ _ _ _ _ _ _ _ _ _) as [[w2 it] did]. cbn [fst] in *.
  eapply wfr_trans; [exact H|]. eapply wfr_trans; [|exact H2]. apply wfr_put. intros; apply row_wstat4.
Qed.
Lemma wfr_alpha w : wfr kk w (call_alpha A C x w).
Proof. unfold call_alpha. destruct (compute_alpha _ _ _ _ _ _ _ _ _) as [ap ad]. apply wfr_eq. reflexivity. Qed.
Lemma wfr_stat_alpha c0 w : (c0 < 20)%nat -> wfr kk w (stat_alpha C kk c0 w).
Proof. intros H. apply wfr_put. intros st. eapply row_trans; apply row_wstat; lia. Qed.
Lemma wfr_muaff w : wfr kk w (call_muaff C x w). Proof. apply wfr_eq. reflexivity. Qed.
Lemma wfr_sigma (w : wk) : wfr kk w (call_sigma mu w). Proof. apply wfr_eq. reflexivity. Qed.
Lemma wfr_resm f (w : wk) : wfr kk w (put_resm C f w). Proof. apply wfr_eq. reflexivity. Qed.
Lemma wfr_solve w : wfr kk w (call_solve OP C x w).
Proof. unfold call_solve. destruct (op_solve K OP _ _ _ _) as [s k]. apply wfr_eq. reflexivity. Qed.
Lemma wfr_put1 c v (w : wk) : (c < 21)%nat -> wfr kk w (put_stat (wstat C kk c v) w).
Proof. intros H. apply wfr_put. intros st. apply row_wstat. exact H. Qed.
Lemma wfr_corrector w : wfr kk w (corrector OP A C kk x mu mbk w).
Proof.
  unfold corrector.
  set (w1 := put_stat (wstat C kk 2 _) (call_muaff C x w)).
  assert (H1 : wfr kk w w1) by (eapply wfr_trans; [apply wfr_muaff|apply wfr_put1; lia]). clearbody w1.
  set (w2 := put_stat (wstat C kk 3 _) (call_sigma mu w1)).
  assert (H2 : wfr kk w w2) by (eapply wfr_trans; [exact H1|]; eapply wfr_trans; [apply wfr_sigma|apply wfr_put1; lia]). clearbody w2.
  set (w3 := call_solve OP C x (put_resm C _ w2)).
  assert (H3 : wfr kk w w3) by (eapply wfr_trans; [exact H2|]; eapply wfr_trans; [apply wfr_resm|apply wfr_solve]). clearbody w3.
  set (w4 := stat_alpha C kk 4 (call_alpha A C x w3)).
  assert (H4 : wfr kk w w4) by (eapply wfr_trans; [exact H3|]; eapply wfr_trans; [apply wfr_alpha|apply wfr_stat_alpha; lia]). clearbody w4.
  destruct (Z.eqb (ai A cond_pred_corr) 1); [|exact H4].
  assert (H5 : wfr kk w (call_muaff C x w4)) by (eapply wfr_trans; [exact H4|apply wfr_muaff]).
  destruct (fltb _ _); [|exact H5].
  eapply wfr_trans; [exact H5|]. eapply wfr_trans; [apply wfr_resm|]. eapply wfr_trans; [apply wfr_solve|].
  eapply wfr_trans; [apply wfr_alpha|apply wfr_stat_alpha; lia].
Qed.
Lemma wfr_itref_corr w : wfr kk w (fst (itref_corr OP A C kk x rmax w)).
Proof.
  unfold itref_corr. destruct (Z.ltb 0 (ai A itref_corr_max)); [|apply wfr_refl].
  pose proof (wfr_call_lin w) as H. destruct (call_lin C x w) as [w1 q]. cbn [fst] in H.
  pose proof (wfr_itref (Z.to_nat (ai A itref_corr_max)) 0 false (put_stat (wstat4 C kk q) w1) q (max4 q)) as H2.
  destruct (itref_loop _ _ _ _ _ _ _ _ _ _ _ _) as [[w2 it] did]. cbn [fst] in *.
  assert (H3 : wfr kk w w2) by (eapply wfr_trans; [exact H|]; eapply wfr_trans; [|exact H2]; apply wfr_put; intros; apply row_wstat4).
  destruct did; [|exact H3]. eapply wfr_trans; [exact H3|]. eapply wfr_trans; [apply wfr_alpha|apply wfr_stat_alpha; lia].
Qed.
Lemma wfr_delta_dir w : wfr kk w (delta_dir OP A C kk x mu rmax mbk w).
Proof.
  unfold delta_dir.
  set (w1 := predictor OP C kk x _).
  assert (H1 : wfr kk w w1) by (eapply wfr_trans; [apply wfr_resm|apply wfr_predictor]). clearbody w1.
  pose proof (wfr_itref_pred w1) as H2. destruct (itref_pred OP A C kk x rmax w1) as [w2 it0]. cbn [fst] in H2.
  set (w3 := stat_alpha C kk 0 _).
  assert (H3 : wfr kk w w3).
  { eapply wfr_trans; [exact H1|]. eapply wfr_trans; [exact H2|]. eapply wfr_trans; [|apply wfr_stat_alpha; lia]. eapply wfr_trans; [|apply wfr_alpha].
    apply wfr_put. intros st. eapply row_trans; apply row_wstat; lia. }
  clearbody w3.
  set (p := if Z.eqb (ai A pred_corr) 1 then _ else _).
  assert (H4 : wfr kk w (fst p)).
  { unfold p. destruct (Z.eqb (ai A pred_corr) 1); [|exact H3].
    eapply wfr_trans; [exact H3|]. eapply wfr_trans; [apply wfr_corrector|apply wfr_itref_corr]. }
  clearbody p. destruct p as [w4 it1]. cbn [fst] in H4.
  eapply wfr_trans; [|apply wfr_stat_alpha; lia]. eapply wfr_trans; [|apply wfr_put1; lia].
  destruct (Z.eqb (ai A itref_corr_max) 0); [|exact H4]. eapply wfr_trans; [exact H4|]. apply wfr_put; intros; apply row_wstat4.
Qed.
Lemma wfr_abs sv w : wfr kk w (call_abs (K := K) C x sv w).
Proof. unfold call_abs. destruct (sv _ _ _ _) as [s k]. apply wfr_eq. reflexivity. Qed.
Lemma wfr_abs_dir w : wfr kk w (abs_dir OP A C kk x mu mbk w).
Proof.
  unfold abs_dir.
  set (w1 := call_abs C x (op_fact_solve K OP) _).
  assert (H1 : wfr kk w w1) by (eapply wfr_trans; [apply wfr_resm|apply wfr_abs]). clearbody w1.
  set (w2 := stat_alpha C kk 0 _).
  assert (H2 : wfr kk w w2).
  { eapply wfr_trans; [exact H1|]. eapply wfr_trans; [|apply wfr_stat_alpha; lia]. eapply wfr_trans; [|apply wfr_alpha]. apply wfr_put1; lia. }
  clearbody w2. destruct (Z.eqb (ai A pred_corr) 1); [|exact H2].
  set (w3 := put_stat (wstat C kk 2 _) (call_muaff C x w2)).
  assert (H3 : wfr kk w w3) by (eapply wfr_trans; [exact H2|]; eapply wfr_trans; [apply wfr_muaff|apply wfr_put1; lia]). clearbody w3.
  set (w4 := put_stat (wstat C kk 3 _) (call_sigma mu w3)).
  assert (H4 : wfr kk w w4) by (eapply wfr_trans; [exact H3|]; eapply wfr_trans; [apply wfr_sigma|apply wfr_put1; lia]). clearbody w4.
  set (w5 := stat_alpha C kk 4 _).
  assert (H5 : wfr kk w w5).
  { eapply wfr_trans; [exact H4|]. eapply wfr_trans; [apply wfr_resm|]. eapply wfr_trans; [apply wfr_abs|]. eapply wfr_trans; [apply wfr_alpha|apply wfr_stat_alpha; lia]. }
  clearbody w5. destruct (Z.eqb (ai A cond_pred_corr) 1); [|exact H5].
  assert (H6 : wfr kk w (call_muaff C x w5)) by (eapply wfr_trans; [exact H5|apply wfr_muaff]).
  destruct (fltb _ _); [|exact H6].
  eapply wfr_trans; [exact H6|]. eapply wfr_trans; [apply wfr_resm|]. eapply wfr_trans; [apply wfr_abs|].
  eapply wfr_trans; [apply wfr_alpha|apply wfr_stat_alpha; lia].
Qed.

(** *** the step lengths used are those of the step taken *)
Definition alpha_ok (w : wk) : Prop :=
  (wk_ap w, wk_ad w) = compute_alpha (ai A split_step) (c_mzero C) (d_nct (c_qp C)) (ar A m_safe) (va_lam x) (va_t x) (va_lam (wk_stp w)) (va_t (wk_stp w)) (c_m C).
Lemma alpha_call w : alpha_ok (call_alpha A C x w).
Proof. unfold call_alpha, alpha_ok. destruct (compute_alpha _ _ _ _ _ _ _ _ _) as [ap ad] eqn:E. cbn [wk_stp wk_ap wk_ad]. symmetry. exact E. Qed.
Lemma alpha_put f w : alpha_ok w -> alpha_ok (put_stat f w). Proof. intros H. exact H. Qed.
Lemma alpha_stat c0 w : alpha_ok w -> alpha_ok (stat_alpha C kk c0 w). Proof. intros H. exact H. Qed.
Lemma alpha_muaff w : alpha_ok w -> alpha_ok (call_muaff C x w). Proof. intros H. exact H. Qed.
Lemma alpha_corrector w : alpha_ok (corrector OP A C kk x mu mbk w).
Proof.
  unfold corrector. set (w3 := call_solve OP C x _). clearbody w3.
  assert (H : alpha_ok (stat_alpha C kk 4 (call_alpha A C x w3))) by (apply alpha_stat, alpha_call).
  set (w4 := stat_alpha C kk 4 _) in *. clearbody w4.
  destruct (Z.eqb (ai A cond_pred_corr) 1); [|exact H].
  destruct (fltb _ _); [|apply alpha_muaff; exact H]. apply alpha_stat, alpha_call.
Qed.
Lemma itref_did n : forall it did w q mx, let r := itref_loop OP A C kk x rmax n it did w q mx in
  snd r = false -> fst (fst r) = w.
Proof.
  induction n as [|n IH]; intros it did w q mx; cbn [itref_loop]; [reflexivity|].
  destruct (accurate A rmax q); [reflexivity|].
  destruct (call_lin C x (refine OP C x w)) as [w1 q']. destruct (fleb mx (max4 q')); [cbn; discriminate|].
  cbv zeta. intros H. exfalso. revert H.
  assert (G : forall n it w q mx, snd (itref_loop OP A C kk x rmax n it true w q mx) = true).
  { clear. induction n as [|n IH]; intros it w q mx; cbn [itref_loop]; [reflexivity|].
    destruct (accurate A rmax q); [reflexivity|]. destruct (call_lin C x (refine OP C x w)) as [w1 q']. destruct (fleb mx (max4 q')); [reflexivity|apply IH]. }
  rewrite G. discriminate.
Qed.
Lemma alpha_itref_corr w : alpha_ok w -> alpha_ok (fst (itref_corr OP A C kk x rmax w)).
Proof.
  intros H. unfold itref_corr. destruct (Z.ltb 0 (ai A itref_corr_max)); [|exact H].
  assert (H1 : alpha_ok (fst (call_lin C x w))).
  { unfold call_lin. destruct (den_reslin_compute _ _ _ _ _ _) as [rit rw]. exact H. }
  destruct (call_lin C x w) as [w1 q]. cbn [fst] in H1.
  pose proof (itref_did (Z.to_nat (ai A itref_corr_max)) 0 false (put_stat (wstat4 C kk q) w1) q (max4 q)) as H2. cbv zeta in H2.
  destruct (itref_loop _ _ _ _ _ _ _ _ _ _ _ _) as [[w2 it] did]. cbn [fst snd] in *.
  destruct did; [apply alpha_stat, alpha_call|]. rewrite H2 by reflexivity. apply alpha_put. exact H1.
Qed.
Lemma alpha_delta_dir w : alpha_ok (delta_dir OP A C kk x mu rmax mbk w).
Proof.
  unfold delta_dir. destruct (itref_pred OP A C kk x rmax _) as [w2 it0].
  set (w3 := stat_alpha C kk 0 _). assert (H3 : alpha_ok w3) by (apply alpha_stat, alpha_call). clearbody w3.
  set (p := if Z.eqb (ai A pred_corr) 1 then _ else _).
  assert (H4 : alpha_ok (fst p)) by (unfold p; destruct (Z.eqb (ai A pred_corr) 1); [apply alpha_itref_corr, alpha_corrector|exact H3]).
  clearbody p. destruct p as [w4 it1]. cbn [fst] in H4.
  apply alpha_stat, alpha_put. destruct (Z.eqb (ai A itref_corr_max) 0); [apply alpha_put; exact H4|exact H4].
Qed.
Lemma alpha_abs_dir w : alpha_ok (abs_dir OP A C kk x mu mbk w).
Proof.
  unfold abs_dir. set (w1 := call_abs C x (op_fact_solve K OP) _). clearbody w1.
  set (w2 := stat_alpha C kk 0 _). assert (H2 : alpha_ok w2) by (apply alpha_stat, alpha_call). clearbody w2.
  destruct (Z.eqb (ai A pred_corr) 1); [|exact H2].
  set (w4 := call_sigma mu _). clearbody w4.
  set (w5 := stat_alpha C kk 4 _). assert (H5 : alpha_ok w5) by (apply alpha_stat, alpha_call). clearbody w5.
  destruct (Z.eqb (ai A cond_pred_corr) 1); [|exact H5].
  destruct (fltb _ _); [apply alpha_stat, alpha_call|apply alpha_muaff; exact H5].
Qed.
End It.
End P.
