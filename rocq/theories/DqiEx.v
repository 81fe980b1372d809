(** DqiEx.v -- a concrete solve that meets the hypotheses of C75_strictly_interior and C75_success_certificate: one iteration, then SUCCESS. *)
From Coq Require Import ZArith Bool Arith List Lia Reals Lra.
From Verif Require Import Base ArithF RSum Blas Blas2 QpDataProofs ResSpec OcpModel ResProofs2 CoreModel CoreProofs ArgModel DenModel DenSpec QcqpModel DqcModel DqcSpec DqcProofs DqcProps DqlModel DqlSpec DqlProofs DqlProps
  DenIpmModel DenIpmProofs DenIpmProofs2 DqiModel DqiProofs DqiProps DqiInit DqiInitProps DqiReal.
Local Open Scope R_scope.

Lemma alpha_zero_dir nc (lam t dlam dt : nat -> R) : (forall i, (i < nc)%nat -> 0 <= lam i /\ 0 <= t i /\ dlam i = 0 /\ dt i = 0) -> alpha_split_mzero nc lam t dlam dt = (1, 1).
Proof.
  intros H. unfold alpha_split_mzero. apply (loop_ind (fun k a => a = (1, 1))).
  - rsimp. rewrite R_lit11. reflexivity.
  - intros k a Hk ->. destruct (H k Hk) as (H1 & H2 & H3 & H4). unfold ratio_split. rsimp. rewrite R_lit01, H3, H4.
    destruct (Rltb_spec (lam k + 1 * 0) 0); [lra|]. destruct (Rltb_spec (t k + 1 * 0) 0); [lra|]. reflexivity.
Qed.

(** min v^2/2  s.t.  v = 0,  v^2/2 <= 1/2; warm start at v = 1; linear algebra that returns the exact step -1 and nothing for the multipliers *)
Definition xex_q : dqcqp R := mkdqc 1 1 0 0 1 0 (fun _ _ => 1) (fun _ _ => 1) (fun _ _ => 0) (fun _ _ _ => 1) (fun _ => 0) (fun _ => 0)
  (fun c => match c with 1%nat => - (1 / 2) | _ => 0 end) (fun _ => 1) (fun _ => 0) (fun _ => 0) (fun _ => 0%nat) (fun _ => (-1)%Z).
Definition xex_step : dsol R := mkdsol (fun _ => -1) (fun _ => 0) (fun _ => 0) (fun _ => 0).
Definition xex_op : dkops (F := R) unit := mkdkops unit (fun k _ _ _ => (xex_step, k)) (fun k _ _ _ => (xex_step, k)) (fun k _ _ _ => (xex_step, k)) (fun k _ _ => k) (fun k _ _ => (xex_step, k))
  (fun _ => 0%Z) (fun _ => 0%Z).
Definition xex_A : arg R := wi pred_corr 0 (den_default SPEED).
Definition xex_A0 : arg R := wi warm_start 1 (den_default SPEED).
Definition xex_sol : vars R := mkvars (fun _ => 1) (fun _ => 0) (fun _ => 0) (fun _ => 0).

Lemma xex_dir C kk x mu rmax mbk w : c_lq C = 0%Z -> let w' := delta_dir xex_op xex_A C kk x mu rmax mbk w in
  wk_stp w' = mask_lt C (flat xex_step) /\
  (wk_ap w', wk_ad w') = compute_alpha 1 (c_mzero C) (d_nct (c_qp C)) (ar xex_A m_safe) (va_lam x) (va_t x) (va_lam (wk_stp w')) (va_t (wk_stp w')) (c_m C).
Proof.
  intros Hlq. cbv zeta. unfold delta_dir. set (w0 := put_resm _ _ w). clearbody w0.
  unfold predictor. rewrite Hlq. cbn [Z.eqb]. set (w1 := stat_lq _ _ _ _).
  assert (E1 : wk_stp w1 = mask_lt C (flat xex_step)) by reflexivity. clearbody w1.
  unfold itref_pred. change (Z.eqb (ai xex_A itref_pred_max) 0) with true. cbv iota. change (Z.eqb (ai xex_A pred_corr) 1) with false. cbv iota.
  match goal with |- context [call_alpha xex_A C x ?u] => set (w2 := u); assert (E2 : wk_stp w2 = mask_lt C (flat xex_step)) by exact E1; clearbody w2 end.
  change (ai xex_A itref_corr_max) with (dflt_i SPEED itref_corr_max).
  unfold call_alpha. change (ai xex_A split_step) with 1%Z.
  destruct (compute_alpha _ _ _ _ _ _ _ _ _) as [ap ad] eqn:Ea. rewrite E2 in Ea.
  destruct (Z.eqb _ 0); cbn [stat_alpha put_stat wk_stp wk_ap wk_ad]; (split; [exact E2|rewrite E2; symmetry; exact Ea]).
Qed.

Section Ex.
Variable ws : @dqst R unit.
Hypothesis Hd : dq_same_dims xex_q (da_qp (y_a ws)).
Let st := dqi_start xex_A0 xex_q xex_sol ws.
Let C := dqi_ctx 0 10 xex_q (da_qp (y_a st)).
Let qm := dqc_masked xex_q.
Let s1 := dqdelta_init qm C st.
Let s2 := dqi_body xex_op xex_A qm C 0 s1.

Lemma xex_01 : dq_mask01 xex_q. Proof. intros c _. right. reflexivity. Qed.
Lemma xex_wf : dqc_wf xex_q. Proof. split; intros j Hj; [cbn in Hj; lia|left; reflexivity]. Qed.
Lemma xex_psd : dq_psd xex_q.
Proof. intros v. change (dqnv xex_q) with 1%nat. cbn [rsum]. unfold dq_Hess, H_co. cbn. pose proof (Rle_0_sqr (v 0%nat)) as H. unfold Rsqr in H. lra. Qed.
Lemma xex_cpsd : dq_con_psd xex_q.
Proof. intros j v _ _. cbn. unfold dq_Hsym. cbn. pose proof (Rle_0_sqr (v 0%nat)) as H. unfold Rsqr in H. lra. Qed.
Lemma xex_constrained : dq_constrained xex_q.
Proof.
  exists 1%nat. split; [cbn; lia|]. destruct (dmask_lower_R xex_q 1) as [_ E]. rewrite E; [|reflexivity|].
  - cbn. destruct (Reqb_spec 1 (0 / 1)); [lra|reflexivity].
  - intros (j & Hj & Hx & _). apply Hx. reflexivity.
Qed.
Lemma xex_start : va_v (y_x st) 0%nat = 1 /\ va_v (i_x (y_i st)) 0%nat = 1 /\ forall k, (k < 2)%nat -> 0 <= va_lam (i_x (y_i st)) k /\ 0 <= va_t (i_x (y_i st)) k.
Proof.
  assert (Ei : forall k, (k < 2)%nat -> 0 <= va_lam (y_x st) k /\ 0 <= va_t (y_x st) k).
  { intros k Hk. destruct (C76_interior xex_A0 qm (view xex_sol) k) as (I & _); [exact Hk|]. specialize (I ltac:(cbn; lia) ltac:(cbn; lra)). destruct I as (I1 & I2 & I3).
    change (va_lam (y_x st) k) with (ds_lam (dqi_init xex_A0 qm (view xex_sol)) k). change (va_t (y_x st) k) with (ds_t (dqi_init xex_A0 qm (view xex_sol)) k). split; [|lra].
    destruct (dq_lower qm k) eqn:El; [destruct (I3 eq_refl) as [-> _]; [discriminate|discriminate|lra]|]. destruct I2 as [I2 _]; [left; reflexivity|]. lra. }
  assert (Ev : va_v (y_x st) 0%nat = 1).
  { unfold st, dqi_start. cbn [y_x]. unfold dqi_init. change (Z.leb 3 (ai xex_A0 warm_start)) with false. change (Z.eqb (ai xex_A0 warm_start) 2) with false. change (Z.eqb (ai xex_A0 warm_start) 0) with false.
    change (Z.eqb (ai xex_A0 t0_init) 0) with false. change (Z.eqb (ai xex_A0 t0_init) 1) with false. cbv iota zeta.
    unfold dqi_box. change (dq_nb (dqc_masked xex_q)) with 0%nat. change (dq_ng (dqc_masked xex_q)) with 0%nat. cbn [loop Nat.ltb Nat.leb].
    destruct (dqi_soft _ _ _ _) as [l3 t3]. destruct (dqi_quad _ _ _ _ _) as [l4 t4]. reflexivity. }
  split; [exact Ev|]. 
  assert (Ec : i_x (y_i st) = dqi_conv xex_q (y_x st) (i_x (y_i ws))) by reflexivity. rewrite Ec.
  split; [change (va_v (dqi_conv xex_q (y_x st) (i_x (y_i ws))) 0%nat) with (va_v (y_x st) 0%nat); exact Ev|].
  intros k Hk. destruct (dqconv_at xex_q (y_x st) (i_x (y_i ws)) k Hk) as [-> ->]. apply Ei. exact Hk.
Qed.
Lemma xex_res_b cache x r0 rw0 : dr_b (fst (dqc_res_compute cache None qm x r0 rw0)) 0%nat = - ds_v x 0%nat.
Proof.
  destruct (dqc_is_one cache None qm x r0 rw0) as (_ & B & _). rewrite B.
  match goal with |- context [eqq_part _ _ _ ?g] => destruct (eqq_part_R qm x r0 g) as (_ & _ & P3) end. rewrite P3 by (cbn; lia).
  unfold dq_eq. cbn. lra.
Qed.
Lemma xex_step_facts : va_v (y_x s2) 0%nat = 0 /\ wk_ap (i_w (y_i s2)) = 1 /\ wk_ad (i_w (y_i s2)) = 1.
Proof.
  destruct xex_start as (_ & V & N). destruct (dqdelta_init_same qm C st) as (E1 & E2 & E3 & _). fold s1 in E1, E2, E3.
  rewrite <- E3 in V, N. assert (Dm : dq_same_dims xex_q (da_qp (y_a s1))) by (rewrite E2; apply (dstart_dims xex_A0 xex_q xex_sol ws Hd)).
  unfold s2, dqi_body. cbn [dqi_put y_x y_i i_w put_stat wk_ap wk_ad].
  set (s := dqi_step xex_op xex_A qm C 0 s1). destruct (dqcall_res_same qm s) as (R1 & _ & _ & _ & _ & R6 & R7). rewrite R1, R6, R7. clear R1 R6 R7.
  unfold s, dqi_step. set (C1 := dqi_setqp C (da_qp (y_a s1))). set (mbk := copy_arr _ _ _).
  assert (Hlq : c_lq C1 = 0%Z) by reflexivity.
  pose proof (xex_dir C1 0 (i_x (y_i s1)) (i_mu (y_i s1)) (i_max (y_i s1)) mbk (i_w (y_i s1)) Hlq) as X. cbv zeta in X. set (w := delta_dir _ _ _ _ _ _ _ _ _) in *. clearbody w. destruct X as [X1 X2].
  destruct Dm as (D1 & D2 & D3 & D4 & D5).
  assert (En : d_nct (c_qp C1) = 2%nat) by (unfold C1; cbn [dqi_setqp c_qp]; unfold d_nct; rewrite D3, D4, D5; reflexivity). rewrite En in X2.
  assert (Ez : c_mzero C1 = true).
  { unfold C1. cbn [dqi_setqp c_mzero]. unfold C. unfold dqi_ctx. cbn [c_mzero]. rsimp. destruct (Reqb_spec (VECNRM_INF (dqi_nc xex_q) (d_m (da_qp (y_a st))) 0) (0 / 1)) as [E|E]; [reflexivity|].
    exfalso. apply E. rewrite R_lit01. destruct (VECNRM_INF_R (dqi_nc xex_q) (d_m (da_qp (y_a st))) 0) as (V1 & V2 & [V3|(k & Hk & V3)]); [exact V3|]. rewrite V3. cbn [Nat.add].
    assert (Em : d_m (da_qp (y_a st)) k = 0).
    { unfold st, dqi_start. cbn [y_a]. destruct Hd as (H1 & H2 & H3 & H4 & H5).
      destruct (dapprox_R qm (view (flat (dqi_init xex_A0 (dqc_masked xex_q) (view xex_sol)))) (y_a ws) H1 H2 H3 H4 H5) as [[_ (_ & _ & L)] _]. apply L. exact Hk. }
    rewrite Em. apply Rabs_R0. }
  assert (Ew : forall k, (k < 2)%nat -> va_lam (wk_stp w) k = 0 /\ va_t (wk_stp w) k = 0).
  { intros k Hk. rewrite X1. unfold mask_lt, domask. cbn [va_lam va_t flat xex_step ds_lam ds_t]. rewrite En. destruct (c_mc C1); [|split; reflexivity]. unfold VECMUL. rewrite !vset0_in by exact Hk. rsimp. split; ring. }
  unfold compute_alpha in X2. cbn [Z.eqb Pos.eqb] in X2. rewrite Ez in X2. rewrite alpha_zero_dir in X2 by (intros k Hk; destruct (N k Hk), (Ew k Hk); repeat split; assumption).
  injection X2 as P1 P2. unfold take_step.
  pose proof (update_var_spec (tot_v (c_qp C1)) (c_ne C1) (d_nct (c_qp C1)) (ai xex_A t_lam_min) (ar xex_A lam_min) (ar xex_A t_min) (wk_ap w) (wk_ad w) (wk_stp w) (i_x (y_i s1)) (i_bkp (y_i s1)) 0%nat) as U.
  destruct (update_var _ _ _ _ _ _ _ _ _ _) as [x' b']. rewrite P1, P2 in U. cbn [y_x va_v y_i i_w].
  assert (Ed : damped 1 1 = (1, 1)). { unfold damped. rsimp. rewrite R_lit11. destruct (Rltb_spec 1 1); [lra|]. destruct (Rltb_spec 1 1); [lra|reflexivity]. }
  rewrite Ed in U. destruct U as (U1 & _).
  assert (Et : tot_v (c_qp C1) = 1%nat) by (unfold C1; cbn [dqi_setqp c_qp]; unfold tot_v, dnv; rewrite D1, D5; reflexivity). rewrite Et in U1. cbn [Nat.ltb Nat.leb] in U1.
  split; [|split; assumption].
  change (va_v (dqi_conv qm (mkvars (va_v x') (va_pi x') (domask C1 (va_lam x')) (va_t x')) (y_x s1)) 0%nat) with (va_v x' 0%nat). rewrite U1, V, X1. cbn [mask_lt va_v flat xex_step ds_v]. rsimp. lra.
Qed.
Lemma xex_max_b (s : @dqst R unit) : let '(_, b, _, _) := y_max (dqi_res qm s) in b = Rabs (va_v (y_x s) 0%nat).
Proof.
  unfold dqi_res. pose proof (xex_res_b (Some (da_fun (y_a s), da_adj (y_a s))) (view (y_x s)) (y_r s) (y_rw s)) as B.
  destruct (dqc_res_compute _ _ _ _ _ _) as [r rw]. cbn [fst] in B. cbn [y_max]. pose proof (C73_norms qm r) as N. destruct (dqc_inf_norm qm r) as [[[a b] c] e]. destruct N as (_ & (_ & N1 & N2) & _).
  specialize (N1 0%nat ltac:(cbn; lia)). rewrite B in N1.
  change (ds_v (view (y_x s)) 0%nat) with (va_v (y_x s) 0%nat) in *. rewrite Rabs_Ropp in N1. destruct N2 as [->|(k & Hk & ->)].
  - pose proof (Rabs_pos (va_v (y_x s) 0%nat)). lra.
  - assert (k = 0%nat) as -> by (cbn in Hk; lia). rewrite B, Rabs_Ropp. reflexivity.
Qed.

(** tolerances equal to the residual norms after the first step: the solver stops there *)
Let rm := VECNRM_INF (dqi_nc qm) (AXPY (dqi_nc qm) (- ar xex_A tau_min)%F (c_mask C) 0 (dr_m (y_r s2)) 0 (fun _ => f0) 0) 0.
Definition exQA : arg R := let '(a, b, c, _) := y_max s2 in wr res_g_max a (wr res_b_max b (wr res_d_max c (wr res_m_max rm (wr dual_gap_max (dr_gap (y_r s2)) xex_A0)))).
Lemma dqi_start_ext (QA QA' : arg R) q' sol : ai QA = ai QA' -> ar QA mu0 = ar QA' mu0 -> ar QA lam0_min = ar QA' lam0_min -> ar QA t0_min = ar QA' t0_min ->
  dqi_start QA q' sol ws = dqi_start QA' q' sol ws.
Proof. intros E1 E2 E3 E4. unfold dqi_start, dqi_init. rewrite E1, E2, E3, E4. reflexivity. Qed.
Lemma ai_wr' (f : rarg) (v : R) x : ai (wr f v x) = ai x. Proof. reflexivity. Qed.
Lemma ar_wr' (f : rarg) (v : R) x g : ar (wr f v x) g = if rarg_eqb g f then v else ar x g. Proof. reflexivity. Qed.

Example C75_hypotheses_met : let o := dqi_solve xex_op xex_A exQA 0 10 xex_q xex_sol ws in
  dq_mask01 xex_q /\ dq_constrained xex_q /\ (0 < yo_iter o)%Z /\ ai xex_A t_lam_min = 2%Z /\ 0 < ar xex_A lam_min /\ 0 < ar xex_A t_min /\ ai xex_A abs_form = 0%Z /\ (0 <= ai exQA iter_max)%Z /\
  dqc_wf xex_q /\ dq_psd xex_q /\ dq_con_psd xex_q /\ yo_status o = SUCCESS.
Proof.
  cbv zeta. destruct xex_start as (V0 & _ & _). destruct xex_step_facts as (V1 & P1 & P2).
  destruct (dqdelta_init_same qm C st) as (_ & _ & _ & E4 & E5). fold s1 in E4, E5.
  pose proof (xex_max_b st) as B0. pose proof (xex_max_b (dqi_step xex_op xex_A qm C 0 s1)) as B1.
  change (y_max (dqi_res qm (dqi_step xex_op xex_A qm C 0 s1))) with (y_max s2) in B1. change (y_max (dqi_res qm st)) with (y_max s1) in B0. rewrite V0, Rabs_R1 in B0.
  assert (V1' : va_v (y_x (dqi_step xex_op xex_A qm C 0 s1)) 0%nat = 0).
  { rewrite <- V1. unfold s2, dqi_body. cbn [dqi_put y_x]. destruct (dqcall_res_same qm (dqi_step xex_op xex_A qm C 0 s1)) as (R1 & _). rewrite R1. reflexivity. }
  rewrite V1', Rabs_R0 in B1.
  assert (Em : exists a c e, y_max s2 = (a, 0, c, e)) by (destruct (y_max s2) as [[[a b] c] e]; rewrite B1; eauto). destruct Em as (a & c & e & E). clear B1.
  assert (Em : exists a' c' e', y_max s1 = (a', 1, c', e')) by (destruct (y_max s1) as [[[a' b] c'] e']; rewrite B0; eauto). destruct Em as (a' & c' & e' & E'). clear B0.
  unfold exQA. rewrite E. set (QA := wr res_g_max a _).
  assert (Es : dqi_start QA xex_q xex_sol ws = st) by (unfold st; apply dqi_start_ext; unfold QA; rewrite ?ai_wr', ?ar_wr'; reflexivity).
  assert (Ex : forall f, ai QA f = ai xex_A0 f) by (intros f; unfold QA; rewrite !ai_wr'; reflexivity).
  assert (Er : ar QA alpha_min = 1 / 1000000000000) by (unfold QA; rewrite !ar_wr'; cbn [rarg_eqb]; reflexivity).
  assert (Ev : ar QA res_g_max = a /\ ar QA res_b_max = 0 /\ ar QA res_d_max = c /\ ar QA res_m_max = rm /\ ar QA dual_gap_max = dr_gap (y_r s2))
    by (unfold QA; rewrite !ar_wr'; cbn [rarg_eqb]; repeat split).
  destruct Ev as (Ev1 & Ev2 & Ev3 & Ev4 & Ev5). clearbody QA.
  assert (Hgo0 : dqi_go xex_A QA qm C 0 s1 = true).
  { unfold dqi_go. rewrite E'. rewrite Ex, E4, E5, Er, Ev2. change (wk_ap (i_w (y_i st))) with (1 / 1). change (wk_ad (i_w (y_i st))) with (1 / 1).
    change (Z.ltb 0 (ai xex_A0 iter_max)) with true. rsimp. destruct (Rltb_spec (1 / 1000000000000) (1 / 1)); [|lra]. destruct (Rltb_spec 0 1); [|lra]. cbn [orb andb]. destruct (Rltb _ _); reflexivity. }
  assert (Hgo1 : dqi_go xex_A QA qm C 1 s2 = false).
  { unfold dqi_go. rewrite E. assert (I : forall x y : R, x = y -> fltb x y = false) by (intros x y ->; rsimp; destruct (Rltb_spec y y); [lra|reflexivity]).
    rewrite (I _ _ Ev1), (I _ _ Ev2), (I _ _ Ev3), (I _ _ Ev5). fold rm. rewrite (I _ _ Ev4). cbn [orb]. rewrite !andb_false_r. reflexivity. }
  assert (Hsol : dqi_solve xex_op xex_A QA 0 10 xex_q xex_sol ws = dqi_finish QA (1%Z, s2)).
  { destruct (dqsolve_case xex_op xex_A QA 0 10 xex_q xex_sol ws) as [[Hn _]|[(_ & Hn & _)|(_ & _ & Eo)]]; [destruct (Hn xex_constrained)|exfalso; apply Hn; reflexivity|].
    rewrite Eo, Es. fold C qm. unfold dqi_delta. change (dqi_put _ (dqi_res qm st)) with s1. rewrite Ex. change (Z.to_nat (ai xex_A0 iter_max)) with (S (S (Z.to_nat (ai xex_A0 iter_max) - 2))).
    cbn [dqi_for]. rewrite Hgo0. change (0 + 1)%Z with 1%Z. fold s2. rewrite Hgo1. reflexivity. }
  rewrite Hsol. unfold dqi_finish. cbn [yo_iter yo_status].
  assert (Hp : 0 < 1 / IZR (10 ^ 16)) by (apply Rdiv_lt_0_compat; [lra|apply IZR_lt; reflexivity]).
  split; [exact xex_01|]. split; [exact xex_constrained|]. split; [lia|]. split; [reflexivity|]. split; [exact Hp|]. split; [exact Hp|]. split; [reflexivity|]. split; [rewrite Ex; cbn; lia|].
  split; [exact xex_wf|]. split; [exact xex_psd|]. split; [exact xex_cpsd|].
  unfold final_status. rewrite Ex. change (Z.eqb 1 (ai xex_A0 iter_max)) with false. cbv iota. rewrite P1, P2, Er.
  rsimp. destruct (Rleb_spec 1 (1 / 1000000000000)); [lra|]. cbn [orb]. unfold isnan. rsimp. destruct (Reqb_spec (i_mu (y_i s2)) (i_mu (y_i s2))); [reflexivity|contradiction].
Qed.
End Ex.
