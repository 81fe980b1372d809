(** DenKktProofs6.v -- dense KKT solver over the reals: the retry loop terminates; uniqueness of the Newton step; what a returned Schur
    factorisation implies. *)
From Coq Require Import ZArith Bool Arith Lia Reals Lra.
From Verif Require Import Base ArithF RSum Blas Blas2 CoreModel CoreProofs OcpModel ResSpec ResProofs CholProofs CholPD KktModel KktSpec KktProofs KktProofs2 KktProofs7 SolveProofs DenModel DenSpec DenProofs DenKktModel DenKktSpec DenKktProofs DenKktAlg DenKktProofs2 DenKktProofs3 DenKktProofs4 DenKktProofs5.
Local Open Scope R_scope.

Definition asum (n : nat) (M : rmat) : R := rsum n (fun i => rsum n (fun j => Rabs (M i j))).
Lemma asum_nonneg n M : 0 <= asum n M.
Proof. apply rsum_nonneg. intros. apply rsum_nonneg. intros. apply Rabs_pos. Qed.
Lemma sq_le n (v : rvec) i : (i < n)%nat -> v i * v i <= rsum n (fun k => v k * v k).
Proof.
  intros Hi. replace n with (i + S (n - S i))%nat by lia. rewrite rsum_split, rsum_S_l, Nat.add_0_r.
  pose proof (sq_nonneg i v). pose proof (sq_nonneg (n - S i) (fun l => v (i + S l)%nat)). cbv beta in *. lra.
Qed.
Lemma quadf_lb n (M : rmat) (v : rvec) : - asum n M * rsum n (fun k => v k * v k) <= quadf n M v.
Proof.
  unfold quadf, asum. set (S := rsum n (fun k => v k * v k)). rewrite Ropp_mult_distr_l_reverse, <- rsum_scal_r, <- rsum_opp. apply rsum_le. intros i Hi. rewrite <- rsum_scal_r, <- rsum_opp. apply rsum_le. intros j Hj.
  pose proof (sq_le n v i Hi) as A. pose proof (sq_le n v j Hj) as B. fold S in A, B.
  assert (C : Rabs (v i * v j) <= S). { apply Rabs_le. split; nra. }
  assert (E : Rabs (v i * M i j * v j) <= Rabs (M i j) * S).
  { replace (v i * M i j * v j) with (M i j * (v i * v j)) by ring. rewrite Rabs_mult. apply Rmult_le_compat_l; [apply Rabs_pos|exact C]. }
  pose proof (Rle_abs (- (v i * M i j * v j))) as D. rewrite Rabs_Ropp in D. lra.
Qed.
Lemma big_pd n (M : rmat) rho : asum n M < rho -> PD n (fun i j => M i j + (if (i =? j)%nat then rho else 0)).
Proof. intros H v (k & Hk & Ev). rewrite quadf_add, quadf_delta. pose proof (quadf_lb n M v). pose proof (sq_pos n v k Hk Ev). nra. Qed.

Section Den.
Variables (a : dka R) (q : dqp R) (lq : nat -> nat -> rmat -> rmat * rmat -> rmat * rmat) (scr : nat -> rvec).
Notation nv := (d_nv q). Notation ne := (d_ne q). Notation nb := (d_nb q). Notation ng := (d_ng q). Notation ns := (d_ns q).
Hypothesis Hwf : den_wf q.

(** enough primal regularisation *)
Lemma ppos_large Gamma : ne = 0%nat \/ da_alg a = 0%Z \/ da_scale a = true -> exists K, forall preg, K < preg -> ppos a q Gamma preg.
Proof.
  intros Hmeth. set (M := dM a q Gamma). set (Ms := fun i j => scl (M i i) * M i j * scl (M j j)). exists (asum nv M + asum nv Ms). intros preg HK.
  pose proof (asum_nonneg nv M). pose proof (asum_nonneg nv Ms).
  assert (HM : Mpd a q Gamma preg).
  { intros s [Hs|Hs].
    - apply (PD_ext nv (fun i j => M i j + (if (i =? j)%nat then preg else 0))); [intros i j _ _; rewrite !Hs; fold M; lra|]. apply big_pd. lra.
    - apply (PD_ext nv (fun i j => Ms i j + (if (i =? j)%nat then preg else 0))); [intros i j Hi Hj; rewrite !Hs by assumption; reflexivity|]. apply big_pd. lra. }
  unfold ppos. destruct (Nat.eqb_spec ne 0) as [E|E]; [exact HM|]. destruct (Z.eqb_spec (da_alg a) 0) as [Ea|Ea].
  - intros p _ (k & Hk & Ek). pose proof (quadf_lb nv M p). pose proof (sq_pos nv p k Hk Ek). fold M. nra.
  - destruct Hmeth as [X|[X|X]]; [contradiction|contradiction|]. rewrite X. exact HM.
Qed.

Lemma attempt_keep Gamma gamma preg dreg w s w' s' st : den_attempt a q lq scr Gamma gamma preg dreg w s = (w', s', st) -> w_preg w' = w_preg w /\ w_dreg w' = w_dreg w.
Proof.
  unfold den_attempt. destruct s as [dv dpi]. destruct (0 <? ne)%nat.
  - unfold den_fact_ne. destruct (da_alg a =? 0)%Z; [|destruct (da_scale a)].
    + unfold den_fact_null. destruct (den_lq _ _ _) as [[? ?] ?], (den_tmp0 _ _ _ _), (den_syrk _ _ _ _), (POTRF_L_MN _ _ _ _ _ _ _ _ _). destruct (singular _ _); [|destruct (den_tmp1 _ _ _ _ _)]; intros E; injection E as <- _ _; split; reflexivity.
    + unfold den_fact_schur_sc. destruct (den_tmp0 _ _ _ _), (den_syrk _ _ _ _), (POTRF_L_MN nv nv _ _ _ _ _ _ _). destruct (singular nv _); [intros E; injection E as <- _ _; split; reflexivity|].
      destruct (POTRF_L_MN _ _ _ _ _ _ _ _ _). destruct (singular _ _); [|destruct (den_tmp1 _ _ _ _ _)]; intros E; injection E as <- _ _; split; reflexivity.
    + unfold den_fact_schur. destruct (den_tmp0 _ _ _ _), (if (0 <? ng)%nat then _ else _) as [[? ?] ?]. destruct (singular nv _); [intros E; injection E as <- _ _; split; reflexivity|].
      destruct (SYRK_POTRF_LN_MN _ _ _ _ _ _ _ _ _ _ _ _ _ _). destruct (singular _ _); [|destruct (den_tmp1 _ _ _ _ _)]; intros E; injection E as <- _ _; split; reflexivity.
  - destruct (da_scale a).
    + unfold den_fact_sc. destruct (den_tmp0 _ _ _ _), (den_syrk _ _ _ _), (POTRF_L_MN _ _ _ _ _ _ _ _ _). destruct (singular _ _); [|destruct (den_tmp1 _ _ _ _ _)]; intros E; injection E as <- _ _; split; reflexivity.
    + unfold den_fact_plain. destruct (den_tmp0 _ _ _ _), (den_tmp1 _ _ _ _ _), (if (0 <? ng)%nat then _ else _) as [[? ?] ?]. destruct (singular _ _); intros E; injection E as <- _ _; split; reflexivity.
Qed.

Lemma next_grow reg last preg : 0 < preg -> 8 * preg <= next_preg reg last true preg.
Proof. intros H. unfold next_preg. rsimp. destruct (Reqb_spec last reg); lra. Qed.
Lemma next_first reg last preg : 0 <= reg -> (last = reg \/ 0 < last) -> 0 < next_preg reg last false preg.
Proof. intros H1 H2. unfold next_preg. rsimp. destruct (Reqb_spec last reg) as [E|E]; [lra|]. destruct H2; [contradiction|]. lra. Qed.

Section Term.
Variables (Gamma gamma : rvec) (K : R).
Hypothesis HK : forall preg, K < preg -> ppos a q Gamma preg.
Hypothesis Hr : 0 <= da_reg a.

Lemma dpos_pos dreg : 0 < dreg -> dpos a q dreg.
Proof. intros H _ _. split; [lra|]. intros y _. left. exact H. Qed.
Lemma term1 n : forall preg di dreg w s, lq_ready a q lq w -> 0 < preg -> K < preg * 8 ^ n -> 0 < dreg -> exists fuel r, den_loop a q lq scr fuel Gamma gamma true preg di dreg w s = Some r.
Proof.
  induction n as [|n IH]; intros preg di dreg w [dv dpi] Hlq Hp HKn Hd; (destruct (den_attempt a q lq scr Gamma gamma preg dreg w (dv, dpi)) as [[w1 s1] st] eqn:E);
    destruct (attempt_R a q lq scr Hwf Gamma gamma preg dreg w dv dpi w1 s1 st Hlq E) as (I & P1 & P2 & _); specialize (P2 (dpos_pos dreg Hd)).
  - cbn [pow] in HKn. rewrite Rmult_1_r in HKn. specialize (P1 (HK _ HKn)). assert (st = Fok) as -> by (destruct st; congruence). exists 1%nat. cbn [den_loop]. rewrite E. eexists. reflexivity.
  - destruct st; [exists 1%nat; cbn [den_loop]; rewrite E; eexists; reflexivity| |congruence].
    pose proof (next_grow (da_reg a) (w_preg w1) preg Hp) as G. set (p1 := next_preg (da_reg a) (w_preg w1) true preg) in *. assert (Hp1 : 0 < p1) by lra.
    destruct (IH p1 di dreg (set_npd w1) s1 I Hp1) as (f & r & Ef); [|exact Hd|].
    + cbn [pow] in HKn. pose proof (pow_lt 8 n ltac:(lra)). nra.
    + exists (S f). cbn [den_loop]. rewrite E. exists r. exact Ef.
Qed.
Lemma term2 n : forall preg w s, lq_ready a q lq w -> 0 < preg -> K < preg * 8 ^ n -> (w_dreg w = da_reg a \/ 0 < w_dreg w) -> exists fuel r, den_loop a q lq scr fuel Gamma gamma true preg false (da_dreg a) w s = Some r.
Proof.
  induction n as [|n IH]; intros preg w [dv dpi] Hlq Hp HKn Hl; (destruct (den_attempt a q lq scr Gamma gamma preg (da_dreg a) w (dv, dpi)) as [[w1 s1] st] eqn:E);
    destruct (attempt_R a q lq scr Hwf Gamma gamma preg (da_dreg a) w dv dpi w1 s1 st Hlq E) as (I & P1 & P2 & _); destruct (attempt_keep _ _ _ _ _ _ _ _ _ E) as (K1 & K2); rewrite <- K2 in Hl.
  - cbn [pow] in HKn. rewrite Rmult_1_r in HKn. specialize (P1 (HK _ HKn)). destruct st; [exists 1%nat; cbn [den_loop]; rewrite E; eexists; reflexivity|congruence|].
    destruct (term1 0 preg true (next_preg (da_reg a) (w_dreg w1) false (da_dreg a)) (set_npd w1) s1 I Hp ltac:(cbn [pow]; lra) (next_first _ _ _ Hr Hl)) as (f & r & Ef). exists (S f), r. cbn [den_loop]. rewrite E. exact Ef.
  - destruct st; [exists 1%nat; cbn [den_loop]; rewrite E; eexists; reflexivity| |].
    + pose proof (next_grow (da_reg a) (w_preg w1) preg Hp) as G. set (p1 := next_preg (da_reg a) (w_preg w1) true preg) in *. assert (Hp1 : 0 < p1) by lra.
      destruct (IH p1 (set_npd w1) s1 I Hp1) as (f & r & Ef); [|exact Hl|].
      * cbn [pow] in HKn. pose proof (pow_lt 8 n ltac:(lra)). nra.
      * exists (S f). cbn [den_loop]. rewrite E. exists r. exact Ef.
    + destruct (term1 (S n) preg true (next_preg (da_reg a) (w_dreg w1) false (da_dreg a)) (set_npd w1) s1 I Hp HKn (next_first _ _ _ Hr Hl)) as (f & r & Ef). exists (S f), r. cbn [den_loop]. rewrite E. exact Ef.
Qed.
Lemma big_pow p : 0 < p -> exists n, K < p * 8 ^ n.
Proof.
  intros H. destruct (Pow_x_infinity 8 ltac:(rewrite Rabs_pos_eq; lra) (K / p + 1)) as (n & Hn). exists n. specialize (Hn n (le_n _)). rewrite Rabs_pos_eq in Hn by (left; apply pow_lt; lra).
  assert (K / p < 8 ^ n) by lra. apply (Rmult_lt_compat_l p) in H0; [|exact H]. replace (p * (K / p)) with K in H0 by (field; lra). exact H0.
Qed.
Hypothesis Hd0 : 0 <= da_dreg a.
Lemma term3 di dreg preg w s : lq_ready a q lq w -> (w_preg w = da_reg a \/ 0 < w_preg w) -> 0 < dreg -> exists fuel r, den_loop a q lq scr fuel Gamma gamma false preg di dreg w s = Some r.
Proof.
  intros Hlq Hl Hd. destruct s as [dv dpi]. destruct (den_attempt a q lq scr Gamma gamma preg dreg w (dv, dpi)) as [[w1 s1] st] eqn:E.
  destruct (attempt_R a q lq scr Hwf Gamma gamma preg dreg w dv dpi w1 s1 st Hlq E) as (I & _ & P2 & _). specialize (P2 (dpos_pos dreg Hd)). destruct (attempt_keep _ _ _ _ _ _ _ _ _ E) as (K1 & K2). rewrite <- K1 in Hl.
  destruct st; [exists 1%nat; cbn [den_loop]; rewrite E; eexists; reflexivity| |congruence].
  pose proof (next_first (da_reg a) (w_preg w1) preg Hr Hl) as G. destruct (big_pow _ G) as (n & Hn). destruct (term1 n _ di dreg (set_npd w1) s1 I G Hn Hd) as (f & r & Ef). exists (S f), r. cbn [den_loop]. rewrite E. exact Ef.
Qed.
Lemma term4 preg w s : lq_ready a q lq w -> (w_preg w = da_reg a \/ 0 < w_preg w) -> (0 < da_dreg a \/ w_dreg w = da_reg a \/ 0 < w_dreg w) -> exists fuel r, den_loop a q lq scr fuel Gamma gamma false preg false (da_dreg a) w s = Some r.
Proof.
  intros Hlq Hl [Hd|Hd]; [apply term3; assumption|].
  destruct s as [dv dpi]. destruct (den_attempt a q lq scr Gamma gamma preg (da_dreg a) w (dv, dpi)) as [[w1 s1] st] eqn:E.
  destruct (attempt_R a q lq scr Hwf Gamma gamma preg (da_dreg a) w dv dpi w1 s1 st Hlq E) as (I & _ & _ & _). destruct (attempt_keep _ _ _ _ _ _ _ _ _ E) as (K1 & K2). rewrite <- K1 in Hl. rewrite <- K2 in Hd.
  destruct st; [exists 1%nat; cbn [den_loop]; rewrite E; eexists; reflexivity| |].
  - pose proof (next_first (da_reg a) (w_preg w1) preg Hr Hl) as G. destruct (big_pow _ G) as (n & Hn). destruct (term2 n _ (set_npd w1) s1 I G Hn Hd) as (f & r & Ef). exists (S f), r. cbn [den_loop]. rewrite E. exact Ef.
  - destruct (term3 true (next_preg (da_reg a) (w_dreg w1) false (da_dreg a)) preg (set_npd w1) s1 I Hl (next_first _ _ _ Hr Hd)) as (f & r & Ef). exists (S f), r. cbn [den_loop]. rewrite E. exact Ef.
Qed.
End Term.
End Den.

(** a Cholesky factor with positive diagonal: the matrix is positive definite *)
Lemma chol_PD n (M L : rmat) : (forall i, (i < n)%nat -> 0 < L i i) -> (forall i j, (i < n)%nat -> (j < n)%nat -> M i j = rsum n (fun k => lt L i k * lt L j k)) -> PD n M.
Proof.
  intros Hd HM v Hv. rewrite (quadf_ext n M (fun i j => rsum n (fun k => lt L i k * lt L j k)) v v HM ltac:(reflexivity)). rewrite quadf_sq. set (z := fun l => rsum n (fun i => v i * lt L i l)).
  change (0 < rsum n (fun l => z l * z l)). destruct (nz_dec n z) as [(l & Hl & El)|Z]; [apply (sq_pos n z l Hl El)|exfalso]. destruct Hv as (k & Hk & Ek). apply Ek.
  apply (ltT_inj n L v (fun _ => 0)); [intros i Hi; specialize (Hd i Hi); lra| |exact Hk].
  intros i Hi. specialize (Z i Hi). unfold z in Z. rewrite (rsum_ext n _ (fun j => v j * lt L j i)) by (intros; ring). rewrite Z. symmetry. apply rsum_0. intros; ring.
Qed.

(** ** uniqueness of the exact Newton step *)
Lemma quad_full (q : dqp R) (v : rvec) : rsum (dnv q) (fun k => rsum (dnv q) (fun l => v k * den_Hess q k l * v l)) = den_quad q v + rsum (2 * d_ns q) (fun k => d_Z q k * (v (d_nv q + k)%nat * v (d_nv q + k)%nat)).
Proof.
  unfold dnv. rewrite rsum_split. f_equal.
  - unfold den_quad. apply rsum_ext. intros k Hk. rewrite rsum_split. rewrite (rsum_0 (2 * d_ns q)); [lra|]. intros l Hl. unfold den_Hess, H_co. destruct (Nat.ltb_spec k (d_nv q)); [|lia]. destruct (Nat.ltb_spec (d_nv q + l) (d_nv q)); [lia|]. lra.
  - apply rsum_ext. intros k Hk. rewrite (rsum_ext _ _ (fun l => v (d_nv q + k)%nat * (den_Hess q (d_nv q + k)%nat l * v l))) by (intros; ring). rewrite rsum_scal. unfold den_Hess. rewrite H_slack by lia. replace (d_nv q + k - d_nv q)%nat with k by lia. ring.
Qed.
Lemma G_slack_con (q : dqp R) (v : rvec) k : (k < 2 * d_ns q)%nat -> den_con q v (2 * d_nb q + 2 * d_ng q + k)%nat = v (d_nv q + k)%nat.
Proof. intros Hk. unfold den_con, den_G. unfold dnv. rewrite G_val_sl by lia. f_equal. lia. Qed.

Section Uniq.
Variables (a : dka R) (q : dqp R) (s1 s2 : dsol R).
Hypothesis Hc : den_convex a q.
Hypothesis Hr : da_reg a = 0.
Hypothesis Hm : forall c, (c < d_nct q)%nat -> d_mask q c = 1 \/ (d_mask q c = 0 /\ da_lam a c = 0 /\ d_m q c = 0).
Hypothesis HA : forall y : rvec, (forall k, (k < d_nv q)%nat -> rsum (d_ne q) (fun j => d_A q j k * y j) = 0) -> forall j, (j < d_ne q)%nat -> y j = 0.
Notation zero := (fun _ : nat => 0).
Hypothesis H1 : den_newton a q zero zero s1.
Hypothesis H2 : den_newton a q zero zero s2.
Notation nv := (d_nv q). Notation ne := (d_ne q). Notation nct := (d_nct q).
Let v k := ds_v s1 k - ds_v s2 k.
Let pi k := ds_pi s1 k - ds_pi s2 k.
Let lam k := ds_lam s1 k - ds_lam s2 k.
Let t k := ds_t s1 k - ds_t s2 k.

Lemma un_t c : (c < nct)%nat -> t c = den_con q v c.
Proof.
  intros Hcc. destruct H1 as (_ & _ & A & _). destruct H2 as (_ & _ & B & _). specialize (A c Hcc). specialize (B c Hcc). unfold t. enough (den_con q v c = den_con q (ds_v s1) c - den_con q (ds_v s2) c) by lra.
  unfold den_con. rewrite <- rsum_sub. apply rsum_ext. intros. unfold v. ring.
Qed.
Lemma un_lam c : (c < nct)%nat -> lam c = - den_wgt a c * den_con q v c.
Proof.
  intros Hcc. rewrite <- un_t by exact Hcc. destruct H1 as (_ & _ & _ & A). destruct H2 as (_ & _ & _ & B). specialize (A c Hcc). specialize (B c Hcc). destruct (dc_t _ _ Hc c Hcc) as (T & _). unfold lam, t, den_wgt.
  apply (Rmult_eq_reg_r (da_t a c)); [|lra]. field_simplify; [|lra]. lra.
Qed.
Lemma un_eq j : (j < ne)%nat -> rsum nv (fun k => d_A q j k * v k) = 0.
Proof.
  intros Hj. destruct H1 as (_ & A & _). destruct H2 as (_ & B & _). specialize (A j Hj). specialize (B j Hj). unfold den_eq in *.
  replace (rsum nv (fun k => d_A q j k * v k)) with (rsum nv (fun k => d_A q j k * ds_v s1 k) - rsum nv (fun k => d_A q j k * ds_v s2 k)); [lra|]. rewrite <- rsum_sub. apply rsum_ext. intros. unfold v. ring.
Qed.
Lemma un_g k : (k < dnv q)%nat -> rsum (dnv q) (fun l => den_Hess q k l * v l) - (if (k <? nv)%nat then rsum ne (fun j => d_A q j k * pi j) else 0) - rsum nct (fun c => den_G q c k * lam c) = 0.
Proof.
  intros Hk. destruct H1 as (A & _). destruct H2 as (B & _). specialize (A k Hk). specialize (B k Hk). unfold den_kkt_g in *.
  replace (rsum (dnv q) (fun l => den_Hess q k l * v l)) with (rsum (dnv q) (fun l => den_Hess q k l * ds_v s1 l) - rsum (dnv q) (fun l => den_Hess q k l * ds_v s2 l)) by (rewrite <- rsum_sub; apply rsum_ext; intros; unfold v; ring).
  replace (rsum nct (fun c => den_G q c k * lam c)) with (rsum nct (fun c => den_G q c k * (d_mask q c * ds_lam s1 c)) - rsum nct (fun c => den_G q c k * (d_mask q c * ds_lam s2 c))).
  2:{ rewrite <- rsum_sub. apply rsum_ext. intros c Hcc. unfold lam. destruct (Hm c Hcc) as [E|(E & E1 & E2)]; [rewrite E; ring|]. destruct H1 as (_ & _ & _ & A1). destruct H2 as (_ & _ & _ & B1). specialize (A1 c Hcc). specialize (B1 c Hcc). destruct (dc_t _ _ Hc c Hcc) as (T & _). rewrite E1, E2 in *.
      assert (ds_lam s1 c = 0) by nra. assert (ds_lam s2 c = 0) by nra. rewrite H, H0. ring. }
  destruct (k <? nv)%nat; [|lra].
  replace (rsum ne (fun j => d_A q j k * pi j)) with (rsum ne (fun j => d_A q j k * ds_pi s1 j) - rsum ne (fun j => d_A q j k * ds_pi s2 j)) by (rewrite <- rsum_sub; apply rsum_ext; intros; unfold pi; ring). lra.
Qed.
Lemma un_energy : den_quad q v + rsum (2 * d_ns q) (fun k => d_Z q k * (v (nv + k)%nat * v (nv + k)%nat)) + rsum nct (fun c => den_wgt a c * (den_con q v c * den_con q v c)) = 0.
Proof.
  assert (E : rsum (dnv q) (fun k => v k * (rsum (dnv q) (fun l => den_Hess q k l * v l) - (if (k <? nv)%nat then rsum ne (fun j => d_A q j k * pi j) else 0) - rsum nct (fun c => den_G q c k * lam c))) = 0) by (apply rsum_0; intros k Hk; rewrite un_g by exact Hk; lra).
  rewrite (rsum_ext _ _ (fun k => rsum (dnv q) (fun l => v k * den_Hess q k l * v l) - v k * (if (k <? nv)%nat then rsum ne (fun j => d_A q j k * pi j) else 0) - rsum nct (fun c => den_G q c k * v k * lam c))) in E.
  2:{ intros k Hk. rewrite !Rmult_minus_distr_l. f_equal; [f_equal|]; rewrite <- rsum_scal; apply rsum_ext; intros; ring. }
  rewrite !rsum_sub, quad_full in E.
  assert (E1 : rsum (dnv q) (fun k => v k * (if (k <? nv)%nat then rsum ne (fun j => d_A q j k * pi j) else 0)) = 0).
  { unfold dnv. rewrite rsum_split. rewrite (rsum_0 (2 * d_ns q)); [|intros k Hk; destruct (Nat.ltb_spec (nv + k) nv); [lia|lra]]. rewrite Rplus_0_r.
    rewrite (rsum_ext nv _ (fun k => rsum ne (fun j => d_A q j k * v k * pi j))).
    - rewrite rsum_swap. apply rsum_0. intros j Hj. rewrite rsum_scal_r, un_eq by exact Hj. lra.
    - intros k Hk. apply Nat.ltb_lt in Hk. rewrite Hk, <- rsum_scal. apply rsum_ext. intros; ring. }
  assert (E2 : rsum (dnv q) (fun k => rsum nct (fun c => den_G q c k * v k * lam c)) = - rsum nct (fun c => den_wgt a c * (den_con q v c * den_con q v c))).
  { rewrite rsum_swap, <- rsum_opp. apply rsum_ext. intros c Hcc. rewrite rsum_scal_r. change (rsum (dnv q) (fun k => den_G q c k * v k)) with (den_con q v c). rewrite un_lam by exact Hcc. ring. }
  lra.
Qed.
Lemma un_v k : (k < dnv q)%nat -> v k = 0.
Proof.
  pose proof un_energy as E. assert (Hd : den_dir a q v) by (intros _ j Hj; apply un_eq; exact Hj).
  assert (P0 : 0 <= den_quad q v) by (apply (dc_H0 _ _ Hc); exact Hd).
  assert (P1 : forall k, (k < 2 * d_ns q)%nat -> 0 <= d_Z q k * (v (nv + k)%nat * v (nv + k)%nat)) by (intros i Hi; pose proof (dc_Z _ _ Hc i Hi); apply Rmult_le_pos; [lra|nra]).
  assert (P2 : forall c, (c < nct)%nat -> 0 <= den_wgt a c * (den_con q v c * den_con q v c)) by (intros c Hcc; apply Rmult_le_pos; [apply (cx_wgt a q Hc); exact Hcc|nra]).
  pose proof (rsum_nonneg _ _ P1) as S1. pose proof (rsum_nonneg _ _ P2) as S2.
  assert (zero_term : forall n f, (forall i, (i < n)%nat -> 0 <= f i) -> rsum n f = 0 -> forall i, (i < n)%nat -> f i = 0).
  { clear. intros n f Hf E i Hi. replace n with (i + S (n - S i))%nat in E by lia. rewrite rsum_split, rsum_S_l, Nat.add_0_r in E.
    assert (0 <= rsum i f) by (apply rsum_nonneg; intros; apply Hf; lia). assert (0 <= rsum (n - S i) (fun k => f (i + S k)%nat)) by (apply rsum_nonneg; intros; apply Hf; lia). pose proof (Hf i Hi). lra. }
  pose proof (zero_term _ _ P1 ltac:(lra)) as Z1. pose proof (zero_term _ _ P2 ltac:(lra)) as Z2. intros Hk. destruct (Nat.lt_ge_cases k nv) as [Hl|Hl].
  - destruct (nz_dec nv v) as [D|D]; [|apply D; exact Hl]. exfalso. pose proof (dc_H _ _ Hc v Hd D) as P. rewrite Hr in P. lra.
  - unfold dnv in Hk. set (i := (k - nv)%nat). assert (Hi : (i < 2 * d_ns q)%nat) by (unfold i; lia). replace k with (nv + i)%nat by (unfold i; lia).
    specialize (Z1 i Hi). specialize (Z2 (2 * d_nb q + 2 * d_ng q + i)%nat ltac:(unfold d_nct; lia)). cbv beta in Z1, Z2. rewrite G_slack_con in Z2 by exact Hi.
    enough (v (nv + i)%nat * v (nv + i)%nat = 0) by nra. destruct (dc_slack _ _ Hc i Hi) as [X|X].
    + rewrite Hr in X. apply Rmult_integral in Z1. destruct Z1 as [Z1|Z1]; [lra|exact Z1].
    + destruct (dc_t _ _ Hc (2 * d_nb q + 2 * d_ng q + i)%nat ltac:(unfold d_nct; lia)) as (T & _). assert (0 < den_wgt a (2 * d_nb q + 2 * d_ng q + i)%nat) by (unfold den_wgt; apply Rdiv_lt_0_compat; assumption).
      apply Rmult_integral in Z2. destruct Z2 as [Z2|Z2]; [lra|exact Z2].
Qed.
Lemma newton_uniq : (forall k, (k < dnv q)%nat -> ds_v s1 k = ds_v s2 k) /\ (forall j, (j < ne)%nat -> ds_pi s1 j = ds_pi s2 j) /\ (forall c, (c < nct)%nat -> ds_lam s1 c = ds_lam s2 c /\ ds_t s1 c = ds_t s2 c).
Proof.
  assert (Z : forall c, den_con q v c = 0) by (intros c; unfold den_con; apply rsum_0; intros k Hk; rewrite un_v by exact Hk; lra).
  assert (L : forall c, (c < nct)%nat -> lam c = 0) by (intros c Hcc; rewrite un_lam, Z by exact Hcc; lra).
  split; [|split].
  - intros k Hk. pose proof (un_v k Hk) as E. unfold v in E. lra.
  - intros j Hj. enough (E : pi j = 0) by (unfold pi in E; lra). apply HA; [|exact Hj]. intros k Hk. pose proof (un_g k ltac:(unfold dnv; lia)) as E. apply Nat.ltb_lt in Hk as Hk'. rewrite Hk' in E.
    rewrite (rsum_0 (dnv q)) in E by (intros l Hl; rewrite un_v by exact Hl; lra). rewrite (rsum_0 nct) in E by (intros c Hcc; rewrite L by exact Hcc; lra). lra.
  - intros c Hcc. pose proof (L c Hcc) as E1. pose proof (un_t c Hcc) as E2. rewrite Z in E2. unfold lam in E1. unfold t in E2. lra.
Qed.
End Uniq.
