(** DenKktProofs7.v -- dense KKT solver over the reals: the scale flag, and retry loops that never end. *)
From Coq Require Import ZArith Bool Arith Lia Reals Lra.
From Verif Require Import Base ArithF RSum Blas Blas2 CoreModel CoreProofs OcpModel ResSpec ResProofs CholProofs CholPD KktModel KktSpec KktProofs KktProofs2 KktProofs7 SolveProofs DenModel DenSpec DenProofs DenKktModel DenKktSpec DenKktProofs DenKktAlg DenKktProofs2 DenKktProofs3 DenKktProofs4 DenKktProofs5 DenKktProofs6.
Local Open Scope R_scope.

Section Den.
Variables (a : dka R) (q : dqp R) (lq : nat -> nat -> rmat -> rmat * rmat -> rmat * rmat) (scr : nat -> rvec).
Notation nv := (d_nv q). Notation ne := (d_ne q). Notation nb := (d_nb q). Notation ng := (d_ng q). Notation ns := (d_ns q).

Lemma attempt_scale Gamma gamma preg dreg w s w' s' st : den_attempt a q lq scr Gamma gamma preg dreg w s = (w', s', st) -> w_scale w' = w_scale w.
Proof.
  unfold den_attempt. destruct s as [dv dpi]. destruct (0 <? ne)%nat.
  - unfold den_fact_ne. destruct (da_alg a =? 0)%Z; [|destruct (da_scale a)].
    + unfold den_fact_null. destruct (den_lq _ _ _) as [[? ?] ?], (den_tmp0 _ _ _ _), (den_syrk _ _ _ _), (POTRF_L_MN _ _ _ _ _ _ _ _ _). destruct (singular _ _); [|destruct (den_tmp1 _ _ _ _ _)]; intros E; injection E as <- _ _; reflexivity.
    + unfold den_fact_schur_sc. destruct (den_tmp0 _ _ _ _), (den_syrk _ _ _ _), (POTRF_L_MN nv nv _ _ _ _ _ _ _). destruct (singular nv _); [intros E; injection E as <- _ _; reflexivity|].
      destruct (POTRF_L_MN _ _ _ _ _ _ _ _ _). destruct (singular _ _); [|destruct (den_tmp1 _ _ _ _ _)]; intros E; injection E as <- _ _; reflexivity.
    + unfold den_fact_schur. destruct (den_tmp0 _ _ _ _), (if (0 <? ng)%nat then _ else _) as [[? ?] ?]. destruct (singular nv _); [intros E; injection E as <- _ _; reflexivity|].
      destruct (SYRK_POTRF_LN_MN _ _ _ _ _ _ _ _ _ _ _ _ _ _). destruct (singular _ _); [|destruct (den_tmp1 _ _ _ _ _)]; intros E; injection E as <- _ _; reflexivity.
  - destruct (da_scale a).
    + unfold den_fact_sc. destruct (den_tmp0 _ _ _ _), (den_syrk _ _ _ _), (POTRF_L_MN _ _ _ _ _ _ _ _ _). destruct (singular _ _); [|destruct (den_tmp1 _ _ _ _ _)]; intros E; injection E as <- _ _; reflexivity.
    + unfold den_fact_plain. destruct (den_tmp0 _ _ _ _), (den_tmp1 _ _ _ _ _), (if (0 <? ng)%nat then _ else _) as [[? ?] ?]. destruct (singular _ _); intros E; injection E as <- _ _; reflexivity.
Qed.
Lemma attempt_npd Gamma gamma preg dreg w s w' s' st : den_attempt a q lq scr Gamma gamma preg dreg w s = (w', s', st) -> w_npd w' = w_npd w.
Proof.
  unfold den_attempt. destruct s as [dv dpi]. destruct (0 <? ne)%nat.
  - unfold den_fact_ne. destruct (da_alg a =? 0)%Z; [|destruct (da_scale a)].
    + unfold den_fact_null. destruct (den_lq _ _ _) as [[? ?] ?], (den_tmp0 _ _ _ _), (den_syrk _ _ _ _), (POTRF_L_MN _ _ _ _ _ _ _ _ _). destruct (singular _ _); [|destruct (den_tmp1 _ _ _ _ _)]; intros E; injection E as <- _ _; reflexivity.
    + unfold den_fact_schur_sc. destruct (den_tmp0 _ _ _ _), (den_syrk _ _ _ _), (POTRF_L_MN nv nv _ _ _ _ _ _ _). destruct (singular nv _); [intros E; injection E as <- _ _; reflexivity|].
      destruct (POTRF_L_MN _ _ _ _ _ _ _ _ _). destruct (singular _ _); [|destruct (den_tmp1 _ _ _ _ _)]; intros E; injection E as <- _ _; reflexivity.
    + unfold den_fact_schur. destruct (den_tmp0 _ _ _ _), (if (0 <? ng)%nat then _ else _) as [[? ?] ?]. destruct (singular nv _); [intros E; injection E as <- _ _; reflexivity|].
      destruct (SYRK_POTRF_LN_MN _ _ _ _ _ _ _ _ _ _ _ _ _ _). destruct (singular _ _); [|destruct (den_tmp1 _ _ _ _ _)]; intros E; injection E as <- _ _; reflexivity.
  - destruct (da_scale a).
    + unfold den_fact_sc. destruct (den_tmp0 _ _ _ _), (den_syrk _ _ _ _), (POTRF_L_MN _ _ _ _ _ _ _ _ _). destruct (singular _ _); [|destruct (den_tmp1 _ _ _ _ _)]; intros E; injection E as <- _ _; reflexivity.
    + unfold den_fact_plain. destruct (den_tmp0 _ _ _ _), (den_tmp1 _ _ _ _ _), (if (0 <? ng)%nat then _ else _) as [[? ?] ?]. destruct (singular _ _); intros E; injection E as <- _ _; reflexivity.
Qed.
Lemma loop_scale Gamma gamma fuel : forall pi preg di dreg w s w' s' p' d', den_loop a q lq scr fuel Gamma gamma pi preg di dreg w s = Some (w', s', p', d') -> w_scale w' = w_scale w.
Proof.
  induction fuel as [|fuel IH]; intros pi preg di dreg w s w' s' p' d'; cbn [den_loop]; [discriminate|].
  destruct (den_attempt a q lq scr Gamma gamma preg dreg w s) as [[w1 s1] st] eqn:E. apply attempt_scale in E. rewrite <- E. destruct st.
  - intros X. injection X as <- _ _ _. reflexivity.
  - intros X. apply IH in X. exact X.
  - intros X. apply IH in X. exact X.
Qed.
Lemma fact_solve_scale fuel g3 stp w s pd g w' : den_fact_solve a q lq scr fuel g3 stp w = Some (s, pd, g, w') -> w_scale w' = w_scale w.
Proof.
  unfold den_fact_solve. destruct (den_Gg a q g3) as [[ti Gm] gm]. destruct (den_loop _ _ _ _ _ _ _ _ _ _ _ _ _) as [[[[w1 [dv dpi]] [pi1 pr1]] [di1 dr1]]|] eqn:EL; [|discriminate].
  apply loop_scale in EL. destruct (den_epilogue _ _ _ _ _ _ _ _) as [[? ?] ?]. intros E. injection E as _ _ _ <-. exact EL.
Qed.
Lemma fact_kkt_scale g2 w : w_scale (snd (den_fact_kkt a q lq g2 w)) = w_scale w.
Proof.
  unfold den_fact_kkt. set (g := if (0 <? nb + ng + ns)%nat then _ else _). clearbody g. cbn [snd]. destruct (0 <? ne)%nat; [|destruct (da_scale a)].
  - unfold den_fact_ne. destruct (da_alg a =? 0)%Z; [|destruct (da_scale a)].
    + unfold den_fact_null. destruct (den_lq _ _ _) as [[? ?] ?], (den_tmp0 _ _ _ _), (den_syrk _ _ _ _), (POTRF_L_MN _ _ _ _ _ _ _ _ _). reflexivity.
    + unfold den_fact_schur_sc. destruct (den_tmp0 _ _ _ _), (den_syrk _ _ _ _), (POTRF_L_MN nv nv _ _ _ _ _ _ _). destruct (singular nv _); [reflexivity|]. destruct (POTRF_L_MN _ _ _ _ _ _ _ _ _). reflexivity.
    + unfold den_fact_schur. destruct (den_tmp0 _ _ _ _), (if (0 <? ng)%nat then _ else _) as [[? ?] ?]. destruct (singular nv _); [reflexivity|]. destruct (SYRK_POTRF_LN_MN _ _ _ _ _ _ _ _ _ _ _ _ _ _). reflexivity.
  - unfold den_fact_sc. destruct (den_tmp0 _ _ _ _), (den_syrk _ _ _ _), (POTRF_L_MN _ _ _ _ _ _ _ _ _). reflexivity.
  - unfold den_fact_plain0. destruct (den_tmp0 _ _ _ _), (if (0 <? ng)%nat then _ else _) as [[? ?] ?]. reflexivity.
Qed.

Hypothesis Hwf : den_wf q.
Hypothesis Hne : ne <> 0%nat.
Hypothesis Halg : da_alg a <> 0%Z.

Lemma noalg_lq w : lq_ready a q lq w.
Proof. intros _ E. contradiction. Qed.
(** Schur complement method without scaling: the regularisation of the primal block never grows *)
Lemma schur_stuck (v : rvec) fuel Gamma gamma pi preg di dreg w s : da_scale a = false -> d_nct q = 0%nat ->
  (exists k, (k < nv)%nat /\ v k <> 0) -> den_quad q v + da_reg a * rsum nv (fun k => v k * v k) <= 0 -> den_loop a q lq scr fuel Gamma gamma pi preg di dreg w s = None.
Proof.
  intros Hsc Hnc Hv Hq. destruct (den_loop _ _ _ _ _ _ _ _ _ _ _ _ _) as [[[[w1 s1] p1] d1]|] eqn:E; [exfalso|reflexivity].
  destruct (loop_R a q lq scr Hwf Gamma gamma fuel _ _ _ _ _ _ _ _ _ _ (noalg_lq w) E) as (_ & (_ & F) & _). apply Nat.eqb_neq in Hne. rewrite Hne, Hsc in F. apply Z.eqb_neq in Halg. rewrite Halg in F. destruct F as ((_ & Ld & LL) & _).
  pose proof (chol_PD nv _ (w_Lv w1) Ld LL v Hv) as P. rewrite quadf_add, quadf_delta in P.
  rewrite (quadf_ext nv _ (den_Hess q) v v) in P; [|intros i j Hi Hj|reflexivity].
  - change (quadf nv (den_Hess q) v) with (den_quad q v) in P. lra.
  - unfold dM, stH. unfold d_nct in Hnc. replace (dnb (q_dim (one_stage q)) 0 + dng (q_dim (one_stage q)) 0)%nat with 0%nat by (cbn; lia). cbn [rsum].
    unfold den_Hess, H_co, symL. cbn [one_stage q_RSQ]. destruct (Nat.ltb_spec i nv); [|lia]. destruct (Nat.ltb_spec j nv); [|lia]. destruct (i =? j)%nat; lra.
Qed.
(** dependent equality constraints, no dual regularisation *)
Lemma sok_dep (y : rvec) sc Gamma preg w : (exists j, (j < ne)%nat /\ y j <> 0) -> (forall k, (k < nv)%nat -> rsum ne (fun j => y j * d_A q j k) = 0) -> fac_ok a q sc Gamma preg 0 w -> False.
Proof.
  intros (j0 & Hj0 & Ej0) Hdep (_ & F). assert (N := Hne). apply Nat.eqb_neq in N. rewrite N in F. assert (Al := Halg). apply Z.eqb_neq in Al. rewrite Al in F.
  assert (X : exists s e rho, (forall i, (i < nv)%nat -> 0 < s i) /\ Lok a q Gamma s rho w /\ Sok q s e 0 w) by (destruct sc; destruct F as (L & S); [exists (w_sv w), (w_se w), preg|exists (fun _ => 1), (fun _ => 1), (da_reg a)]; (split; [exact (proj1 L)|split; assumption])).
  destruct X as (s & e & rho & Hs & (_ & Ld & _) & (He & Sd & HAL & HL)). set (yy := fun j => y j / e j).
  assert (Hyy : exists j, (j < ne)%nat /\ yy j <> 0) by (exists j0; split; [exact Hj0|]; unfold yy, Rdiv; specialize (He j0 Hj0); apply Rmult_integral_contrapositive; split; [exact Ej0|apply Rinv_neq_0_compat; lra]).
  pose proof (chol_PD ne _ (w_Le w) Sd HL yy Hyy) as P. rewrite quadf_add, quadf_delta, Rmult_0_l, Rplus_0_r in P.
  rewrite (quadf_ext ne _ (fun i j => rsum nv (fun k => (e i * w_AL w i k) * (e j * w_AL w j k))) yy yy) in P; [|intros i j _ _; rewrite <- rsum_scal, <- rsum_scal_r; apply rsum_ext; intros; ring|reflexivity].
  rewrite quadf_sq in P. rewrite rsum_0 in P; [lra|]. intros l Hl. enough (Z : rsum ne (fun i => yy i * (e i * w_AL w i l)) = 0) by (rewrite Z; lra).
  set (z := fun l => rsum ne (fun i => yy i * (e i * w_AL w i l))). change (z l = 0).
  apply (lt_inj nv (w_Lv w) z (fun _ => 0)); [intros i Hi; specialize (Ld i Hi); lra| |exact Hl].
  intros j Hj. rewrite (rsum_0 nv (fun k => lt (w_Lv w) j k * 0)) by (intros; ring). unfold z.
  rewrite (rsum_ext nv _ (fun k => rsum ne (fun i => y i * (w_AL w i k * lt (w_Lv w) j k)))).
  - rewrite rsum_swap. rewrite (rsum_ext ne _ (fun i => y i * d_A q i j * s j)) by (intros i Hi; rewrite rsum_scal, HAL by assumption; ring). rewrite rsum_scal_r, Hdep by exact Hj. lra.
  - intros k Hk. rewrite <- rsum_scal. apply rsum_ext. intros i Hi. unfold yy. specialize (He i Hi). field. lra.
Qed.
Lemma dual_stuck (y : rvec) Gamma gamma : (exists j, (j < ne)%nat /\ y j <> 0) -> (forall k, (k < nv)%nat -> rsum ne (fun j => y j * d_A q j k) = 0) -> da_reg a <> 0 ->
  forall fuel pi preg di w s, w_dreg w = 0 -> den_loop a q lq scr fuel Gamma gamma pi preg di 0 w s = None.
Proof.
  intros Hy Hdep Hr. induction fuel as [|fuel IH]; intros pi preg di w [dv dpi] Hw; cbn [den_loop]; [reflexivity|].
  destruct (den_attempt a q lq scr Gamma gamma preg 0 w (dv, dpi)) as [[w1 s1] st] eqn:E. destruct (attempt_keep a q lq scr Gamma gamma preg 0 w (dv, dpi) w1 s1 st E) as (_ & K2).
  destruct (attempt_R a q lq scr Hwf Gamma gamma preg 0 w dv dpi w1 s1 st (noalg_lq w) E) as (_ & _ & _ & HS). rewrite Hw in K2. destruct st.
  - exfalso. destruct (HS eq_refl) as (F & _). exact (sok_dep y (da_scale a) Gamma preg w1 Hy Hdep F).
  - apply IH. exact K2.
  - replace (next_preg (da_reg a) (w_dreg w1) di 0) with 0; [apply IH; exact K2|]. unfold next_preg. rewrite K2. rsimp. destruct (Reqb_spec 0 (da_reg a)) as [X|X]; [congruence|]. destruct di; lra.
Qed.
End Den.
