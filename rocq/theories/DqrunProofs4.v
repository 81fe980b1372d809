(** DqrunProofs4.v -- the delta iteration of the dense QCQP solver with the dense KKT routines: what every pass keeps and what it does to the residuals. *)
From Coq Require Import ZArith Bool Arith List Lia Reals Lra.
From Verif Require Import Base ArithF RSum Blas Blas2 QpDataProofs OcpModel ResSpec ResProofs ResProofs2 CoreModel CoreProofs ArgModel DenModel DenSpec DenProofs DenKktModel DenKktSpec
  QcqpModel QcqpSpec QcqpProofs QcqpProofs2 QcqpProofs3 QcqpLinSpec QcqpLin QcqpNewton QcqpMask DqcModel DqcSpec DqcProofs DqcProps DqlModel DqlSpec DqlProofs DqlProps
  DenIpmModel DenIpmProofs DenIpmProofs2 DqiModel DqiProofs DqiProps DqiReal DrunModel DrunProofs DrunProofs2 DrunProofs4 DqrunSpec DqrunProofs DqrunProofs2 DqrunProofs3.
From Verif Require RunProofs IpmReal.
Local Open Scope R_scope.

(** the problem, the options, the LQ routine of the linear algebra library (null-space method), the initial iterate x0: slacks positive, multipliers
    positive on the imposed constraints and zero on the others (C77_default_start) *)
Record dqrun_setup (A QA : arg R) (dreg : R) (alg : Z) (lqf : nat -> nat -> rm -> rm * rm -> rm * rm) (lq : Z) (q : dqcqp R) (x0 : dsol R) : Prop := {
  du_wf : dqc_wf q;
  du_mask : dq_mask01 q;
  du_soft : dq_soft_inj q;
  du_m : forall c, (c < dqnc q)%nat -> dq_m q c = 0;
  du_con : dq_constrained q;
  du_cx : dqrun_convex q (ar A reg_prim) dreg alg;
  du_lqf : dq_ne q <> 0%nat -> alg = 0%Z -> (dq_ne q <= dq_nv q)%nat /\
    forall M prior, (forall j k, (j < dq_ne q)%nat -> (k < dq_nv q)%nat -> M j k = dq_A q j k) -> lq_ok (dq_ne q) (dq_nv q) M (fst (lqf (dq_ne q) (dq_nv q) M prior)) (snd (lqf (dq_ne q) (dq_nv q) M prior));
  du_abs : ai A abs_form = 0%Z;
  du_tlm : ai A t_lam_min = 2%Z;
  du_lam_min : 0 < ar A lam_min;
  du_t_min : 0 < ar A t_min;
  du_start : forall c, (c < dqnc q)%nat -> 0 < ds_t x0 c /\ (dimposed q c -> 0 < ds_lam x0 c) /\ (~ dimposed q c -> ds_lam x0 c = 0);
  du_lq : lq = 0%Z \/ lq = 1%Z /\ ar A reg_prim = 0 /\ dq_exact_eq q dreg alg }.

Lemma dconv_res_at (q : dqcqp R) (src dst : dres R) : let r := dqi_conv_res q src dst in
  (forall k, (k < dqnv q)%nat -> dr_g r k = dr_g src k) /\ (forall j, (j < dq_ne q)%nat -> dr_b r j = dr_b src j) /\
  (forall c, (c < dqnc q)%nat -> dr_d r c = dr_d src c) /\ (forall c, (c < dqnc q)%nat -> dr_m r c = dr_m src c).
Proof.
  unfold dqi_conv_res. cbn [dr_g dr_b dr_d dr_m]. repeat split; intros; unfold VECCP; rewrite vset0_in by (unfold dqi_nv, dqi_nc, dqnv, dqnc, dqn2 in *; lia); reflexivity.
Qed.
Lemma dkI_same q A alg sc lqf (p p' : dqp R) k : dsame_const q p p' -> dkI A alg sc lqf p k -> dkI A alg sc lqf p' k.
Proof.
  intros ((S1 & S2 & _) & S6 & _) (I1 & I2). split; [|exact I2]. intros H1 H2. rewrite S2 in H1. destruct (I1 H1 H2) as [I3 I4]. split; [rewrite S1, S2; exact I3|].
  unfold lq_given in *. rewrite S1, S2, S6. exact I4.
Qed.

Section P.
Variables (A QA : arg R) (dreg : R) (alg : Z) (sc : bool) (lqf : nat -> nat -> rm -> rm * rm -> rm * rm) (scr : nat -> rv) (fuel : nat) (lq smax : Z) (q : dqcqp R).
Variables (lqop : dkst R -> dqp R -> dsol R -> dsol R -> dsol R * dkst R) (unc : dkst R -> dqp R -> dsol R -> dsol R * dkst R).
Variables (sol : vars R) (ws : @dqst R (dkst R)).
Notation OP := (drun_ops A dreg alg sc lqf scr (S fuel) lqop unc).
Let qm := dqc_masked q.
Let ws' := dqrun_ws ws.
Let s0 := dqi_start QA q sol ws'.
Let C := dqi_ctx lq smax q (da_qp (y_a s0)).
Hypothesis Hs : dqrun_setup A QA dreg alg lqf lq q (dqi_init QA qm (view sol)).
Hypothesis Hd : dq_same_dims q (da_qp (y_a ws)).
Notation Hm := (du_mask _ _ _ _ _ _ _ _ Hs).
Notation Hwf := (du_wf _ _ _ _ _ _ _ _ Hs).
Notation Mk := (dqc_mask_lower q).

Definition dsame (x y : vars R) : Prop := (forall k, (k < dqnv q)%nat -> va_v x k = va_v y k) /\ (forall k, (k < dq_ne q)%nat -> va_pi x k = va_pi y k) /\
  (forall k, (k < dqnc q)%nat -> va_lam x k = va_lam y k) /\ (forall k, (k < dqnc q)%nat -> va_t x k = va_t y k).
Definition dresw (X : dsol R) (r : dres R) : Prop :=
  (forall k, (k < dqnv q)%nat -> dr_g r k = dq_kkt_g qm (ds_v X) (ds_pi X) (ds_lam X) k) /\
  (forall j, (j < dq_ne q)%nat -> dr_b r j = dq_eq q (ds_v X) j) /\
  (forall c, (c < dqnc q)%nat -> dr_d r c = dq_kkt_d qm (ds_v X) (ds_t X) c) /\
  (forall c, (c < dqnc q)%nat -> dr_m r c = dq_kkt_m qm (ds_lam X) (ds_t X) c).
Record DQI (s : @dqst R (dkst R)) : Prop := {
  dqi_k : dkI A alg sc lqf (da_qp (y_a s)) (wk_k (i_w (y_i s)));
  dqi_in : dqinside q (i_x (y_i s));
  dqi_same : dsame (y_x s) (i_x (y_i s));
  dqi_lin : dlin_of qm (ds_v (view (y_x s))) (ds_lam (view (y_x s))) (da_qp (y_a s));
  dqi_resw : dresw (view (y_x s)) (wk_res (i_w (y_i s))) }.

Lemma dsame_inside x y : dsame x y -> dqinside q y -> dqinside q x.
Proof. intros (_ & _ & S3 & S4) H k Hk. rewrite S3, S4 by exact Hk. apply H. exact Hk. Qed.
Lemma dinside_prep x : dqinside q x -> dq_prepared qm (ds_lam (view x)).
Proof.
  intros H j Hj. change (dq_nq qm) with (dq_nq q) in Hj.
  assert (L1 : (dlq q j < dqnc q)%nat) by (unfold dlq, dqnc, dqn2; lia). assert (L2 : (duq q j < dqnc q)%nat) by (unfold duq, dqnc, dqn2; lia).
  change (dlq qm j) with (dlq q j). change (duq qm j) with (duq q j). change (dq_mask qm) with Mk.
  assert (Lw : dq_lower q (dlq q j) = true) by (unfold dq_lower, dlq, dqn2; apply andb_true_intro; split; [apply Nat.leb_le|apply Nat.ltb_lt]; lia).
  assert (Z0 : Mk (dlq q j) = 0) by (apply dmask_lower_R; left; exact Lw).
  split; [exact Z0|]. split; [apply (H _ L1); exact Z0|]. destruct (H _ L2) as (_ & _ & P3). change (ds_lam (view x)) with (va_lam x). destruct (dml01 q Hm _ L2) as [E|E]; rewrite E; [rewrite (P3 E)|]; lra.
Qed.
(** residuals handed to the QP step *)
Lemma dres_passed (s : @dqst R (dkst R)) : dqinside q (y_x s) -> dlin_at qm (view (y_x s)) (y_a s) -> dresw (view (y_x s)) (wk_res (i_w (y_i (dqi_res qm s)))).
Proof.
  intros Hin (a0 & Ha). pose proof (dinside_prep _ Hin) as Prep. unfold dqi_res.
  assert (Hca : dq_cache_ok qm (Some (da_fun (y_a s), da_adj (y_a s))) (ds_v (view (y_x s))) (ds_lam (view (y_x s)))) by (destruct Ha as [E|E]; rewrite E; apply (C74_cache qm _ a0 Prep)).
  pose proof (C73_residuals (Some (da_fun (y_a s), da_adj (y_a s))) qm (view (y_x s)) None (y_r s) (y_rw s) Hwf Hca I) as (Rg & Rb & Rd & Rm & _). cbv zeta in Rg, Rb, Rd, Rm.
  destruct (dqc_res_compute _ None qm _ _ _) as [r rw]. cbn [fst] in *. cbn [y_i i_w wk_res].
  destruct (dconv_res_at qm r (wk_res (i_w (y_i s)))) as (E1 & E2 & E3 & E4). cbv zeta in *.
  split; [|split; [|split]].
  - intros k Hk. rewrite E1 by assumption. apply Rg; assumption.
  - intros j Hj. rewrite E2 by assumption. apply Rb; assumption.
  - intros c Hc. rewrite E3 by assumption. apply Rd; assumption.
  - intros c Hc. rewrite E4 by assumption. apply Rm; assumption.
Qed.
Lemma dcall_res_k (s : @dqst R (dkst R)) : wk_k (i_w (y_i (dqi_res qm s))) = wk_k (i_w (y_i s)).
Proof. unfold dqi_res. destruct (dqc_res_compute _ _ _ _ _ _). reflexivity. Qed.
Lemma dconv_v (x y : vars R) k : (k < dqnv q)%nat -> va_v (dqi_conv q x y) k = va_v x k.
Proof. intros Hk. unfold dqi_conv, backup_var. cbn [va_v]. rewrite copy_arr_spec. destruct (Nat.ltb_spec k (dqi_nv q)); [reflexivity|unfold dqi_nv, dqnv in *; lia]. Qed.
Lemma dconv_e (x y : vars R) k : (k < dq_ne q)%nat -> va_pi (dqi_conv q x y) k = va_pi x k.
Proof. intros Hk. unfold dqi_conv, backup_var. cbn [va_pi]. rewrite copy_arr_spec. destruct (Nat.ltb_spec k (dq_ne q)); [reflexivity|lia]. Qed.
Lemma start_in : dqinside q (y_x s0).
Proof.
  intros k Hk. change (y_x s0) with (flat (dqi_init QA qm (view sol))). destruct (du_start _ _ _ _ _ _ _ _ Hs k Hk) as (S1 & S2 & S3). cbn [flat va_t va_lam].
  pose proof (dimposed_mask q k Hk) as E. split; [exact S1|]. split; intros E1; [apply S2; apply E; exact E1|apply S3; intros Hi; apply E in Hi; lra].
Qed.
Lemma DQI_start : DQI (dqdelta_init qm C s0).
Proof.
  pose proof start_in as In1. assert (Sm : dsame (y_x s0) (i_x (y_i s0))).
  { change (i_x (y_i s0)) with (dqi_conv q (y_x s0) (i_x (y_i ws'))). split; [|split; [|split]]; intros k Hk.
    - rewrite dconv_v by exact Hk. reflexivity.
    - rewrite dconv_e by exact Hk. reflexivity.
    - destruct (dqconv_at q (y_x s0) (i_x (y_i ws')) k Hk) as [E _]. symmetry. exact E.
    - destruct (dqconv_at q (y_x s0) (i_x (y_i ws')) k Hk) as [_ E]. symmetry. exact E. }
  assert (La : dlin_at qm (view (y_x s0)) (y_a s0)) by (exists (y_a ws'); left; reflexivity).
  assert (Hlin0 : dlin_of qm (ds_v (view (y_x s0))) (ds_lam (view (y_x s0))) (da_qp (y_a s0))).
  { destruct Hd as (D1 & D2 & D3 & D4 & D5). apply (C74_approx qm (view (y_x s0)) (y_a ws')); assumption. }
  destruct (dqdelta_init_same qm C s0) as (E1 & E2 & E3 & _).
  split.
  - rewrite E2. unfold dqdelta_init. cbn [dqi_put y_i i_w put_stat wk_k]. rewrite dcall_res_k. change (wk_k (i_w (y_i s0))) with (wk_k (i_w (y_i ws'))).
    split; [|left; apply (du_abs _ _ _ _ _ _ _ _ Hs)]. rewrite (l_ne q _ _ _ Hlin0), (l_nv q _ _ _ Hlin0). intros H1 H2. destruct (du_lqf _ _ _ _ _ _ _ _ Hs H1 H2) as [L1 L2]. split; [exact L1|].
    unfold lq_given. change (w_useA (dk_w (wk_k (i_w (y_i ws'))))) with false. cbv iota. rewrite (l_ne q _ _ _ Hlin0), (l_nv q _ _ _ Hlin0). apply L2. intros j k Hj Hk. apply (l_A q _ _ _ Hlin0); assumption.
  - rewrite E3. intros k Hk. destruct Sm as (_ & _ & S3 & S4). rewrite <- S3, <- S4 by exact Hk. apply In1. exact Hk.
  - rewrite E1, E3. exact Sm.
  - rewrite E1, E2. exact Hlin0.
  - rewrite E1. pose proof (dres_passed s0 In1 La) as R. exact R.
Qed.

(** one pass *)
Section Pass.
Variables (kk : Z) (s : @dqst R (dkst R)).
Hypothesis HI : DQI s.
Let qp := da_qp (y_a s).
Let X := view (y_x s).
Let x := i_x (y_i s).
Let Cq := dqi_setqp C qp.
Notation EX := (d_ne qp = 0%nat \/ alg = 0%Z \/ dreg = 0).
Notation Lin := (dqi_lin _ HI).
Lemma EX_eq : EX <-> dq_exact_eq q dreg alg.
Proof. unfold dq_exact_eq, qp. rewrite (l_ne q _ _ _ Lin). reflexivity. Qed.
Lemma d_in : dqinside q (y_x s). Proof. eapply dsame_inside; [apply (dqi_same _ HI)|apply (dqi_in _ HI)]. Qed.
Lemma d_prep : dq_prepared qm (ds_lam X). Proof. apply dinside_prep, d_in. Qed.
Lemma d_point : point qp (view x).
Proof. intros c Hc. unfold qp in *. rewrite (l_nct q _ _ _ Lin) in Hc. rewrite (l_mask q _ _ _ Lin c Hc). apply (dqi_in _ HI). exact Hc. Qed.
Lemma d_lampos c : (c < dqnc q)%nat -> 0 <= Mk c * ds_lam X c.
Proof. intros Hc. destruct (d_in c Hc) as (_ & P2 & P3). change (ds_lam X c) with (va_lam (y_x s) c). destruct (dml01 q Hm c Hc) as [E|E]; rewrite E; [lra|specialize (P2 E); lra]. Qed.
Lemma d_mask01 : den_mask01 qp. Proof. exact (l_mask01 q qp _ _ Lin Hm). Qed.
Lemma d_wf : den_wf qp. Proof. exact (l_wf q qp _ _ Lin Hwf). Qed.
Lemma d_cx : drun_convex (ar A reg_prim) dreg alg qp. Proof. exact (l_cx q qp _ _ _ _ _ Lin d_lampos d_prep (du_cx _ _ _ _ _ _ _ _ Hs)). Qed.
Lemma d_Cmk c : (c < d_nct qp)%nat -> DenIpmModel.c_mask C c = d_mask qp c.
Proof.
  intros Hc. unfold qp in *. rewrite (l_nct q _ _ _ Lin) in Hc. rewrite (l_mask q _ _ _ Lin c Hc). unfold C, s0. apply dCmask_at. exact Hc.
Qed.
Lemma dmz0 : c_mzero C = true.
Proof.
  assert (Hlin0 : dlin_of qm (ds_v (view (y_x s0))) (ds_lam (view (y_x s0))) (da_qp (y_a s0))).
  { destruct Hd as (D1 & D2 & D3 & D4 & D5). apply (C74_approx qm (view (y_x s0)) (y_a ws')); assumption. }
  change (c_mzero C) with (Reqb (VECNRM_INF (dqi_nc q) (d_m (da_qp (y_a s0))) 0) (0 / 1)). rewrite R_lit01.
  destruct (VECNRM_INF_R (dqi_nc q) (d_m (da_qp (y_a s0))) 0) as (_ & _ & [E|(k & Hk & E)]); rewrite E; [destruct (Reqb_spec 0 0); [reflexivity|lra]|].
  cbn [Nat.add]. rewrite dnc_eq in Hk. destruct Hlin0 as [_ (_ & _ & V3)]. destruct (V3 k Hk) as [_ V4]. rewrite V4. change (dq_m qm k) with (dq_m q k). rewrite (du_m _ _ _ _ _ _ _ _ Hs) by exact Hk.
  rewrite Rabs_R0. destruct (Reqb_spec 0 0); [reflexivity|lra].
Qed.
Let mbk := copy_arr (dqi_nc q) (resm (wk_res (i_w (y_i s)))) (i_mbk (y_i s)).
Let w := delta_dir OP A Cq kk x (i_mu (y_i s)) (i_max (y_i s)) mbk (i_w (y_i s)).
Let res := wk_res (i_w (y_i s)).
Lemma dtlm1 : ai A t_lam_min <> 1%Z. Proof. rewrite (du_tlm _ _ _ _ _ _ _ _ Hs). discriminate. Qed.
Lemma d_W : DqrunProofs.W A qp EX (dkFC A dreg alg sc lqf qp) x (dr_g res) (dr_b res) (dr_d res) w.
Proof.
  apply (DqrunProofs.W_delta_dir OP A C qp d_mask01 d_wf) with (I := dkI A alg sc lqf qp); try reflexivity.
  - pose proof (l_ne q _ _ _ Lin) as En. fold qp in En. rewrite En. exact (Nat.le_refl _).
  - exact d_Cmk.
  - intros k g b d m sl stp. apply drun_H_fs; [exact d_mask01|exact d_wf|exact (l_soft q _ _ _ Lin (du_soft _ _ _ _ _ _ _ _ Hs))|exact dtlm1|exact d_cx].
  - intros k g b d m sl stp. apply drun_H_sv; [exact d_mask01|exact d_wf|exact (l_soft q _ _ _ Lin (du_soft _ _ _ _ _ _ _ _ Hs))|exact dtlm1|exact d_cx].
  - destruct (du_lq _ _ _ _ _ _ _ _ Hs) as [E|(E1 & E2 & E3)]; [left; exact E|right]. split; [exact E1|]. split; [exact E2|]. apply EX_eq. exact E3.
  - exact d_point.
  - exact (dqi_k _ HI).
Qed.
Let x' := fst (take_step A Cq x (i_bkp (y_i s)) w).
Let s' := dqi_body OP A qm C kk s.
Lemma d_view : let '(p, be) := damped (wk_ap w) (wk_ad w) in
  (forall k, (k < dqnv q)%nat -> ds_v (view x') k = ds_v (view x) k + p * ds_v (view (wk_stp w)) k) /\
  (forall k, (k < dq_ne q)%nat -> ds_pi (view x') k = ds_pi (view x) k + be * ds_pi (view (wk_stp w)) k) /\
  (forall c, (c < dqnc q)%nat -> ds_lam (view x') c = Mk c * (let v := ds_lam (view x) c + be * ds_lam (view (wk_stp w)) c in if Rleb v (ar A lam_min) then ar A lam_min else v)) /\
  (forall c, (c < dqnc q)%nat -> ds_t (view x') c = let v := ds_t (view x) c + p * ds_t (view (wk_stp w)) c in if Rleb v (ar A t_min) then ar A t_min else v).
Proof.
  unfold x', take_step. change (c_qp Cq) with qp. change (c_ne Cq) with (dq_ne q). rewrite (du_tlm _ _ _ _ _ _ _ _ Hs).
  pose proof (l_nct q _ _ _ Lin) as En. fold qp in En. pose proof (l_nvt q _ _ _ Lin) as Ev. fold qp in Ev. change (dnv qp) with (tot_v qp) in Ev. rewrite En, Ev.
  pose proof (fun k => update_var_spec (dqnv q) (dq_ne q) (dqnc q) 2 (ar A lam_min) (ar A t_min) (wk_ap w) (wk_ad w) (wk_stp w) x (i_bkp (y_i s)) k) as U.
  destruct (update_var _ _ _ _ _ _ _ _ _ _) as [y b']. destruct (damped (wk_ap w) (wk_ad w)) as [p be]. cbn [Z.eqb Pos.eqb] in U. cbv zeta in U. cbn [fst].
  split; [|split; [|split]]; intros k Hk; destruct (U k) as (U1 & U2 & U3 & U4 & _).
  - apply Nat.ltb_lt in Hk. rewrite Hk in U1. rsimp. exact U1.
  - apply Nat.ltb_lt in Hk. rewrite Hk in U2. rsimp. exact U2.
  - pose proof Hk as O. apply Nat.ltb_lt in O. rewrite O in U3. rsimp. cbn [view ds_lam va_lam]. unfold domask. change (c_mc Cq) with true. change (c_qp Cq) with qp. change (DenIpmModel.c_mask Cq) with (DenIpmModel.c_mask C).
    rewrite En. cbv iota. unfold VECMUL. rewrite vset0_in by exact Hk. cbn [Nat.add]. rewrite U3. unfold C, s0. rewrite dCmask_at by exact Hk. reflexivity.
  - apply Nat.ltb_lt in Hk. rewrite Hk in U4. rsimp. exact U4.
Qed.
Lemma d_alpha : let '(p, be) := damped (wk_ap w) (wk_ad w) in
  0 <= wk_ap w <= 1 /\ 0 <= wk_ad w <= 1 /\ 99 / 100 * wk_ap w <= p <= wk_ap w /\ 99 / 100 * wk_ad w <= be <= wk_ad w /\ (ai A split_step <> 1%Z -> p = be) /\
  (forall c, (c < dqnc q)%nat -> 0 <= ds_t (view x) c + p * ds_t (view (wk_stp w)) c).
Proof.
  pose proof (alpha_delta_dir OP A Cq kk x (i_mu (y_i s)) (i_max (y_i s)) mbk (i_w (y_i s))) as Ha. fold w in Ha. unfold alpha_ok in Ha. change (c_mzero Cq) with (c_mzero C) in Ha. rewrite dmz0 in Ha.
  change (c_qp Cq) with qp in Ha. pose proof (l_nct q _ _ _ Lin) as En. fold qp in En. rewrite En in Ha.
  pose proof (RunProofs.alpha_closed (ai A split_step) (dqnc q) (ar A m_safe) (va_lam x) (va_t x) (va_lam (wk_stp w)) (va_t (wk_stp w)) (c_m Cq)) as B. rewrite <- Ha in B.
  destruct B as (B1 & B2 & B3 & B4).
  { intros k Hk. destruct (dqi_in _ HI k Hk) as (P1 & P2 & P3). fold x in P1, P2, P3. split; [|lra]. destruct (dml01 q Hm k Hk) as [E|E].
    - rewrite (P3 E). lra.
    - specialize (P2 E). lra. }
  pose proof (IpmReal.damped_bounds (wk_ap w) (wk_ad w) B1 B2) as Dm. pose proof (RunProofs.damped_lo (wk_ap w) (wk_ad w) B1 B2) as Dl.
  assert (De : ai A split_step <> 1%Z -> fst (damped (wk_ap w) (wk_ad w)) = snd (damped (wk_ap w) (wk_ad w))).
  { intros Hss. rewrite <- (B4 Hss). pose proof (RunProofs.damped_eq (wk_ap w)) as H. destruct (damped (wk_ap w) (wk_ap w)). exact H. }
  destruct (damped (wk_ap w) (wk_ad w)) as [p be]. cbn [fst snd] in De. split; [exact B1|]. split; [exact B2|]. split; [lra|]. split; [lra|]. split; [exact De|].
  intros c Hc. apply IpmReal.shrink_closed with (wk_ap w); try lra.
  - destruct (dqi_in _ HI c Hc) as (P & _). fold x in P. cbn [view ds_t]. lra.
  - apply (B3 c). exact Hc.
Qed.
Lemma d_body : i_x (y_i s') = x' /\ wk_ap (i_w (y_i s')) = wk_ap w /\ wk_k (i_w (y_i s')) = wk_k w /\ dlin_at qm (view (y_x s')) (y_a s') /\ y_a s' = dqc_update_qp qm (view (y_x s')) (y_a s) /\
  y_x s' = (let qx := dqi_conv q x' (y_x s) in mkvars (va_v qx) (va_pi qx) (VECMUL (dqi_nc q) (DenIpmModel.c_mask C) 0 (va_lam qx) 0 (va_lam qx) 0) (va_t qx)) /\
  wk_res (i_w (y_i s')) = wk_res (i_w (y_i (dqi_res qm (dqi_step OP A qm C kk s)))) /\ y_x (dqi_step OP A qm C kk s) = y_x s' /\ y_a (dqi_step OP A qm C kk s) = y_a s'.
Proof.
  unfold s', dqi_body. destruct (dqcall_res_same qm (dqi_step OP A qm C kk s)) as (E1 & E2 & E3 & E4 & E5 & E6 & E7). pose proof (dcall_res_k (dqi_step OP A qm C kk s)) as E8.
  set (s1 := dqi_step OP A qm C kk s) in *. set (s2 := dqi_res qm s1) in *.
  cbn [dqi_put y_i y_x y_a i_x i_bkp i_w put_stat wk_ap wk_ad wk_k wk_res]. rewrite E1, E2, E3, E6, E8. unfold s2. clear E1 E2 E3 E4 E5 E6 E7 E8 s2.
  unfold s1, dqi_step. fold qp. fold Cq. change (dqi_nc qm) with (dqi_nc q). fold mbk. fold x. fold w. unfold x'. destruct (take_step A Cq x (i_bkp (y_i s)) w) as [y bkp].
  cbn [y_i i_x i_bkp i_w y_x y_a fst]. repeat split; try reflexivity. exists (y_a s). right. reflexivity.
Qed.
Lemma d_inside : dqinside q x'.
Proof.
  unfold x', Cq, C, s0. apply dqstep_inside; first [exact Hm|exact (l_same q _ _ _ Lin)|apply (du_tlm _ _ _ _ _ _ _ _ Hs)|apply (du_lam_min _ _ _ _ _ _ _ _ Hs)|apply (du_t_min _ _ _ _ _ _ _ _ Hs)].
Qed.
Lemma d_same : dsame (y_x s') x'.
Proof.
  destruct d_body as (_ & _ & _ & _ & _ & Ex & _). rewrite Ex. cbv zeta. split; [|split; [|split]]; intros k Hk; cbn [va_v va_pi va_lam va_t].
  - apply dconv_v. exact Hk.
  - apply dconv_e. exact Hk.
  - unfold VECMUL. rewrite vset0_in by (rewrite dnc_eq; exact Hk). cbn [Nat.add]. destruct (dqconv_at q x' (y_x s) k Hk) as [-> _]. destruct (d_inside k Hk) as (_ & P2 & P3).
    unfold C, s0. rewrite dCmask_at by exact Hk. rsimp. destruct (dml01 q Hm k Hk) as [E|E].
    + rewrite (P3 E). lra.
    + rewrite E. lra.
  - destruct (dqconv_at q x' (y_x s) k Hk) as [_ ->]. reflexivity.
Qed.
Lemma DQI_next : DQI s'.
Proof.
  destruct d_body as (E1 & E2 & E3 & E4 & E5 & E6 & E7 & E8 & E9). split.
  - rewrite E3, E5. destruct (dupdate_R qm (view (y_x s')) (y_a s)) as (_ & _ & Sc). cbv zeta in Sc. apply (dkI_same qm _ _ _ _ _ _ _ Sc). eapply dkFC_I. apply d_W.
  - rewrite E1. exact d_inside.
  - rewrite E1. exact d_same.
  - rewrite E5. apply C74_update. apply Lin.
  - rewrite E7, <- E8. apply dres_passed.
    + rewrite E8. eapply dsame_inside; [exact d_same|exact d_inside].
    + rewrite E8, E9. exact E4.
Qed.
Let X' := view (y_x s').
(** the residuals before and after *)
Lemma d_contracts : exists p be, 0 <= p <= 1 /\ 0 <= be <= 1 /\ 99 / 100 * wk_ap (i_w (y_i s')) <= p <= wk_ap (i_w (y_i s')) /\ (ai A split_step <> 1%Z -> p = be) /\
  (dq_exact_eq q dreg alg -> forall j, (j < dq_ne q)%nat -> dq_eq q (ds_v X') j = (1 - p) * dq_eq q (ds_v X) j) /\
  (forall c, (c < dqnc q)%nat -> dimposed q c ->
     0 <= dqgap q X' c - (1 - p) * dqgap q X c - dqcurv q (fun k => ds_v X' k - ds_v X k) c <= ar A t_min) /\
  (ar A reg_prim = 0 -> ai A split_step <> 1%Z -> (forall c, (c < dqnc q)%nat -> dimposed q c -> ar A lam_min < ds_lam X' c) ->
   forall k, (k < dqnv q)%nat ->
   dq_kkt_g qm (ds_v X') (ds_pi X') (ds_lam X') k = (1 - p) * dq_kkt_g qm (ds_v X) (ds_pi X) (ds_lam X) k +
   (if (k <? dq_nv q)%nat then rsum (dq_nq q) (fun j => (ds_lam X' (duq q j) - ds_lam X (duq q j)) * rsum (dq_nv q) (fun l => dq_Hsym q j k l * (ds_v X' l - ds_v X l))) else 0)).
Proof.
  pose proof d_view as V. pose proof d_alpha as B. destruct (damped (wk_ap w) (wk_ad w)) as [p be]. destruct V as (V1 & V2 & V3 & V4). destruct B as (B1 & B2 & B3 & B4 & B5 & B6).
  destruct d_body as (_ & Ep & _). rewrite Ep. destruct d_W as ((_ & _) & HD & _). destruct (dqi_resw _ HI) as (Rg & Rb & Rd & _). fold res in Rg, Rb, Rd. fold X in Rg, Rb, Rd.
  destruct d_same as (S1 & S2 & S3 & S4). destruct (dqi_same _ HI) as (T1 & T2 & T3 & T4).
  assert (W1 : forall k, (k < dqnv q)%nat -> ds_v X' k = ds_v X k + p * ds_v (view (wk_stp w)) k).
  { intros k Hk. change (ds_v X' k) with (va_v (y_x s') k). change (ds_v X k) with (va_v (y_x s) k). rewrite S1, T1 by exact Hk. apply V1; assumption. }
  assert (W2 : forall k, (k < dq_ne q)%nat -> ds_pi X' k = ds_pi X k + be * ds_pi (view (wk_stp w)) k).
  { intros k Hk. change (ds_pi X' k) with (va_pi (y_x s') k). change (ds_pi X k) with (va_pi (y_x s) k). rewrite S2, T2 by exact Hk. apply V2; assumption. }
  assert (W3 : forall c, (c < dqnc q)%nat -> ds_lam X' c = Mk c * (let v := ds_lam X c + be * ds_lam (view (wk_stp w)) c in if Rleb v (ar A lam_min) then ar A lam_min else v)).
  { intros k Hk. change (ds_lam X' k) with (va_lam (y_x s') k). change (ds_lam X k) with (va_lam (y_x s) k). rewrite S3, T3 by exact Hk. apply V3; assumption. }
  assert (W4 : forall c, (c < dqnc q)%nat -> ds_t X' c = let v := ds_t X c + p * ds_t (view (wk_stp w)) c in if Rleb v (ar A t_min) then ar A t_min else v).
  { intros k Hk. change (ds_t X' k) with (va_t (y_x s') k). change (ds_t X k) with (va_t (y_x s) k). rewrite S4, T4 by exact Hk. apply V4; assumption. }
  exists p, be. split; [lra|]. split; [lra|]. split; [lra|]. split; [exact B5|]. split; [|split].
  - intros Hex j Hj. exact (after_eq A q qp X X' _ _ _ _ _ p Lin Rb HD W1 j (proj2 EX_eq Hex) Hj).
  - intros c Hc Him. assert (B7 : 0 <= ds_t X c + p * ds_t (view (wk_stp w)) c) by (change (ds_t X c) with (va_t (y_x s) c); rewrite T4 by exact Hc; apply B6; assumption).
    destruct (after_gap A q qp X X' _ _ _ _ _ p Hwf Lin d_prep Rd HD W1 W4 c Hc Him B7) as [H|[H _]]; [exact H|]. pose proof (du_t_min _ _ _ _ _ _ _ _ Hs). lra.
  - intros Er Hss Hcl. apply (after_g A q qp X X' _ _ _ _ _ p be Hm Lin d_prep Rg HD W1 W2 W3 Er (B5 Hss)).
    intros c Hc Him. specialize (Hcl c Hc Him). rewrite W3 in Hcl by assumption. rewrite (proj1 (dimposed_mask q c Hc) Him) in Hcl. cbv zeta in Hcl.
    destruct (Rleb_spec (ds_lam X c + be * ds_lam (view (wk_stp w)) c) (ar A lam_min)); lra.
Qed.
End Pass.
End P.
