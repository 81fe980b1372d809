(** DenIpmReal.v -- the dense interior point solve in exact arithmetic (C55): the iterates stay in the positive orthant and SUCCESS certifies a nearly
    optimal, nearly feasible solution, whatever the linear algebra returns. *)
From Coq Require Import ZArith Bool Arith List Lia Reals Lra.
From Verif Require Import Base ArithF RSum Blas Blas2 QpDataProofs OcpModel ResProofs2 CoreModel CoreProofs ArgModel DenModel DenSpec DenProofs DenProps
  DenIpmModel DenIpmProofs DenIpmProofs2 DenIpmProps DenIpmInit DenInitProps.
From Verif Require IpmReal.
Local Open Scope R_scope.

Section P.
Context {K : Type} (OP : dkops (F := R) K) (A : arg R).
Variables (cne : nat) (lq smax : Z) (qp : dqp R) (sol : vars R) (ws : @ist R K).
Let o := dipm_solve OP A cne lq smax qp sol ws.
Let C := mk_ctx cne lq smax qp.
Let nc := d_nct qp.
Hypothesis Hm : den_mask01 qp.

Lemma mc_false : c_mc C = false -> forall k, (k < nc)%nat -> d_mask qp k = 1.
Proof.
  intros H k Hk. change (c_mc C) with (Nat.ltb (count_mask nc (d_mask qp)) nc) in H. apply Nat.ltb_ge in H.
  destruct (count_mask_full nc (d_mask qp)) as [H1 H2]. specialize (H2 ltac:(lia) k Hk). rsimp. rewrite R_lit01 in H2.
  destruct (Reqb_spec (d_mask qp k) 0) as [|Hn]; [discriminate|]. destruct (Hm k Hk); [contradiction|assumption].
Qed.
Lemma ctx_valid_ok : den_valid_ok qp (valid_of C).
Proof. unfold valid_of, den_valid_ok. destruct (c_mc C) eqn:E; [left; reflexivity|right]. intros c Hc. exact (mc_false E c Hc). Qed.
Lemma domask_val (x : nat -> R) k : (k < nc)%nat -> domask C x k = d_mask qp k * x k.
Proof.
  intros Hk. unfold domask. change (d_nct (c_qp C)) with nc. change (c_mask C) with (d_mask qp). destruct (c_mc C) eqn:E.
  - unfold VECMUL. rewrite vset0_in by exact Hk. reflexivity.
  - rewrite (mc_false E k Hk). lra.
Qed.
(** strict and closed versions of the invariant; masked multipliers are zero *)
Definition inside (x : vars R) : Prop := forall k, (k < nc)%nat -> 0 < va_t x k /\ (d_mask qp k = 1 -> 0 < va_lam x k) /\ (d_mask qp k = 0 -> va_lam x k = 0).
Definition nonneg (x : vars R) : Prop := forall k, (k < nc)%nat -> 0 <= va_lam x k /\ 0 <= va_t x k.
Lemma inside_nonneg x : inside x -> nonneg x.
Proof. intros H k Hk. destruct (H k Hk) as (H1 & H2 & H3). split; [|lra]. destruct (Hm k Hk) as [E|E]; [rewrite H3 by exact E; lra|specialize (H2 E); lra]. Qed.

Definition good_start : Prop := ((ai A warm_start <= 1)%Z -> 0 < ar A mu0) /\ ((3 <= ai A warm_start)%Z -> 0 < ar A lam0_min /\ 0 < ar A t0_min).
Lemma start_inside : good_start -> inside (i_x (start A C sol ws)).
Proof.
  intros [G1 G2] k Hk. unfold start. cbn [i_x va_lam va_t]. change (c_qp C) with qp. rewrite domask_val by exact Hk.
  cbn [va_lam va_t flat]. pose proof (C56_interior A qp (view sol) k Hk) as I0. set (s' := init_var A qp (view sol)) in *.
  assert (P : 0 < ds_lam s' k /\ 0 < ds_t s' k).
  { destruct I0 as (I1 & I2 & I3). 
    destruct (Z_le_dec (ai A warm_start) 1) as [H1|H1]; [destruct (I1 H1 (G1 H1)) as (? & ? & _); split; assumption|].
    destruct (Z.eq_dec (ai A warm_start) 2) as [H2|H2].
    - destruct (I2 H2) as [<- <-]. pose proof (Rmax_r (ds_lam (view sol) k) (1 / 10)). pose proof (Rmax_r (ds_t (view sol) k) (1 / 10)). lra.
    - destruct (G2 ltac:(lia)) as [G3 G4]. destruct (I3 ltac:(lia)) as [<- <-]. pose proof (Rmax_r (ds_lam (view sol) k) (ar A lam0_min)). pose proof (Rmax_r (ds_t (view sol) k) (ar A t0_min)). lra. }
  destruct P as [P1 P2]. split; [exact P2|]. split; intros E; rewrite E; lra.
Qed.

(** clipped update (t_lam_min = 2) *)
Lemma step_inside x bkp (w : @wk R K) : ai A t_lam_min = 2%Z -> 0 < ar A lam_min -> 0 < ar A t_min -> inside (fst (take_step A C x bkp w)).
Proof.
  intros Ht Hl0 Ht0 k Hk. unfold take_step. change (d_nct (c_qp C)) with nc.
  pose proof (update_var_spec (tot_v (c_qp C)) (c_ne C) nc (ai A t_lam_min) (ar A lam_min) (ar A t_min) (wk_ap w) (wk_ad w) (wk_stp w) x bkp k) as U.
  destruct (update_var _ _ _ _ _ _ _ _ _ _) as [x' b']. destruct (damped (wk_ap w) (wk_ad w)) as [p q]. rewrite Ht in U. cbn [Z.eqb Pos.eqb] in U. cbv zeta in U.
  destruct U as (_ & _ & U3 & U4 & _). assert (Hb : Nat.ltb k nc = true) by (apply Nat.ltb_lt; exact Hk). rewrite Hb in U3, U4. rsimp.
  cbn [fst va_lam va_t]. rewrite domask_val by exact Hk.
  assert (P : forall v f, 0 < f -> 0 < (if Rleb v f then f else v)) by (intros v f Hf; destruct (Rleb_spec v f); lra).
  split; [rewrite U4; apply P; exact Ht0|]. split; intros E; rewrite E; [|lra]. rewrite U3, Rmult_1_l. apply P; exact Hl0.
Qed.
(** separate step lengths, zero complementarity target *)
Lemma step_nonneg x bkp (w : @wk R K) : ai A split_step = 1%Z -> c_mzero C = true -> 0 <= ar A lam_min -> 0 <= ar A t_min -> alpha_ok A C x w -> nonneg x -> nonneg (fst (take_step A C x bkp w)).
Proof.
  intros Hs Hz Hl0 Ht0 Hal Hx k Hk. unfold take_step. change (d_nct (c_qp C)) with nc.
  unfold alpha_ok, compute_alpha in Hal. change (d_nct (c_qp C)) with nc in Hal. rewrite Hs, Hz in Hal. cbn [Z.eqb Pos.eqb] in Hal.
  pose proof (IpmReal.alpha_split_closed nc (va_lam x) (va_t x) (va_lam (wk_stp w)) (va_t (wk_stp w)) Hx) as B. rewrite <- Hal in B. destruct B as (B1 & B2 & B3).
  pose proof (IpmReal.damped_bounds (wk_ap w) (wk_ad w) B1 B2) as Dm.
  pose proof (update_var_spec (tot_v (c_qp C)) (c_ne C) nc (ai A t_lam_min) (ar A lam_min) (ar A t_min) (wk_ap w) (wk_ad w) (wk_stp w) x bkp k) as U.
  destruct (update_var _ _ _ _ _ _ _ _ _ _) as [x' b']. destruct (damped (wk_ap w) (wk_ad w)) as [p q].
  destruct U as (_ & _ & U3 & U4 & _). assert (Hb : Nat.ltb k nc = true) by (apply Nat.ltb_lt; exact Hk). rewrite Hb in U3, U4. cbv zeta in U3, U4. rsimp.
  destruct (B3 k Hk) as [C1 C2]. destruct (Hx k Hk) as [X1 X2].
  assert (L1 : 0 <= va_lam x k + q * va_lam (wk_stp w) k) by (apply IpmReal.shrink_closed with (wk_ad w); lra).
  assert (L2 : 0 <= va_t x k + p * va_t (wk_stp w) k) by (apply IpmReal.shrink_closed with (wk_ap w); lra).
  cbn [fst va_lam va_t]. rewrite domask_val by exact Hk. split.
  - assert (L3 : 0 <= va_lam x' k) by (rewrite U3; destruct (Z.eqb _ 2); [destruct (Rleb_spec (va_lam x k + q * va_lam (wk_stp w) k) (ar A lam_min)); lra|exact L1]).
    destruct (Hm k Hk) as [E|E]; rewrite E; lra.
  - rewrite U4. destruct (Z.eqb _ 2); [destruct (Rleb_spec (va_t x k + p * va_t (wk_stp w) k) (ar A t_min)); lra|exact L2].
Qed.

(** the invariant along the whole solve *)
Lemma solve_inv (I : vars R -> Prop) : constrained qp -> I (i_x (start A C sol ws)) ->
  (forall x bkp (w : @wk R K), alpha_ok A C x w -> I x -> I (fst (take_step A C x bkp w))) -> I (o_x o).
Proof.
  intros Hc H0 HS. destruct (solve_case OP A cne lq smax qp sol ws) as [[Hn _]|[(_ & _ & E)|(_ & _ & E)]]; [contradiction| |]; fold o C in E; rewrite E.
  - destruct (solve_abs_loop OP A C (start A C sol ws) (fun _ s => I (i_x s))) as (kk & s' & -> & H & _).
    + exact H0.
    + intros kk s _ IH _. destruct (abs_body_step OP A C kk s) as (w & Hw & Ew). pose proof (HS (i_x s) (i_bkp s) w Hw IH) as H. rewrite <- Ew in H. exact H.
    + destruct (finish_same OP A C kk (abs_exit A C kk s')) as (-> & _). destruct (abs_exit_same A C kk s') as (-> & _). exact H.
  - destruct (solve_delta_loop OP A C (start A C sol ws) (fun _ s => I (i_x s))) as (kk & s' & -> & H & _).
    + rewrite delta_init_x. exact H0.
    + intros kk s _ IH _. destruct (delta_body_step OP A C kk s) as (w & Hw & Ew & _). pose proof (HS (i_x s) (i_bkp s) w Hw IH) as H. rewrite <- Ew in H. exact H.
    + destruct (finish_same OP A C kk s') as (-> & _). exact H.
Qed.

(** C55: with the multipliers and slacks clipped (t_lam_min = 2, the default of every mode) and positive thresholds, the solution returned by
    the solver has t > 0, lam > 0 on every imposed constraint and lam = 0 on every masked one -- both formulations, every status, every linear
    algebra (its solves may return anything). *)
Theorem C55_strictly_interior : constrained qp -> good_start -> ai A t_lam_min = 2%Z -> 0 < ar A lam_min -> 0 < ar A t_min ->
  forall c, (c < d_nct qp)%nat -> let s := view (o_x o) in
  0 < ds_t s c /\ (d_mask qp c = 1 -> 0 < ds_lam s c) /\ (d_mask qp c = 0 -> ds_lam s c = 0).
Proof.
  intros Hc Hg Ht Hl0 Ht0 c Hcc. cbv zeta.
  assert (H : inside (o_x o)) by (apply solve_inv; [exact Hc|apply start_inside; exact Hg|intros x bkp w _ _; apply step_inside; assumption]).
  exact (H c Hcc).
Qed.
(** C55: with separate primal and dual step lengths and complementarity target m = 0, lam >= 0 and t >= 0 without clipping too. *)
Theorem C55_nonnegative : constrained qp -> good_start -> ai A split_step = 1%Z ->
  (forall c, (c < d_nct qp)%nat -> d_m qp c = 0) -> 0 <= ar A lam_min -> 0 <= ar A t_min ->
  forall c, (c < d_nct qp)%nat -> let s := view (o_x o) in 0 <= ds_lam s c /\ 0 <= ds_t s c.
Proof.
  intros Hc Hg Hs Hmz Hl0 Ht0 c Hcc. cbv zeta.
  assert (Hz : c_mzero C = true).
  { change (c_mzero C) with (Reqb (VECNRM_INF nc (d_m qp) 0) (0 / 1)). rewrite R_lit01.
    destruct (VECNRM_INF_R nc (d_m qp) 0) as (_ & _ & [E|(k & Hk & E)]); rewrite E; [destruct (Reqb_spec 0 0); [reflexivity|lra]|].
    cbn [Nat.add]. rewrite Hmz by exact Hk. rewrite Rabs_R0. destruct (Reqb_spec 0 0); [reflexivity|lra]. }
  assert (H : nonneg (o_x o)) by (apply solve_inv; [exact Hc|apply inside_nonneg, start_inside; exact Hg|intros x bkp w Hw Hx; apply step_nonneg; assumption]).
  exact (H c Hcc).
Qed.

(** C55: what SUCCESS means for the user, in exact arithmetic, delta formulation, clipped multipliers.  (z, pi, lam, t) is the returned solution. *)
Theorem C55_success_certificate : constrained qp -> good_start -> ai A t_lam_min = 2%Z -> 0 < ar A lam_min -> 0 < ar A t_min ->
  ai A abs_form = 0%Z -> (0 <= ai A iter_max)%Z -> den_wf qp -> o_status o = SUCCESS ->
  let s := view (o_x o) in let z := ds_v s in
  (forall j, (j < d_ne qp)%nat -> Rabs (den_eq qp z j) <= ar A res_b_max) /\
  (forall c, (c < d_nct qp)%nat -> d_mask qp c <> 0 -> den_con qp z c >= d_d qp c - ar A res_d_max) /\
  (forall k, (k < dnv qp)%nat -> Rabs (den_kkt_g qp z (ds_pi s) (ds_lam s) k) <= ar A res_g_max) /\
  (forall c, (c < d_nct qp)%nat -> d_mask qp c <> 0 -> Rabs (ds_lam s c * ds_t s c - d_m qp c - ar A tau_min) <= ar A res_m_max) /\
  (den_psd qp -> forall y, den_feasible qp y ->
     den_cost qp z - den_cost qp y <= ar A res_g_max * rsum (dnv qp) (fun k => Rabs (y k - z k))
       + ar A res_b_max * rsum (d_ne qp) (fun j => Rabs (ds_pi s j))
       + ar A res_d_max * rsum (d_nct qp) (fun c => ds_lam s c)
       + rsum (d_nct qp) (fun c => d_mask qp c * (d_m qp c + ar A tau_min + ar A res_m_max))).
Proof.
  intros Hc Hg Ht Hl0 Ht0 Ha Him Hwf HS. cbv zeta.
  pose proof (C55_strictly_interior Hc Hg Ht Hl0 Ht0) as Pos. cbv zeta in Pos.
  destruct (C55_success_certifies OP A cne lq smax qp sol ws Hc Ha Him) as ((r0 & rw0 & Hr) & Hmax & _ & Hcert). fold o C in Hr, Hmax, Hcert. specialize (Hcert HS).
  destruct (C55_status OP A cne lq smax qp sol ws Hc) as (_ & _ & _ & Hst & _). fold o in Hst. destruct (Hst HS) as (_ & Hp & Hd). clear Hst.
  rsimp. assert (Tr : forall a b, Rleb a b = false -> Rltb b a = true) by (intros a b H; destruct (Rleb_spec a b); [discriminate|]; destruct (Rltb_spec b a); [reflexivity|lra]).
  specialize (Hcert (Tr _ _ Hp) (Tr _ _ Hd)).
  set (s := view (o_x o)) in *. pose proof (C35_norms qp (wk_res (o_w o))) as Nrm. rewrite <- Hmax in Nrm.
  destruct (o_max o) as [[[ng nb] nd] nm]. destruct Nrm as ((_ & Ng & _) & (_ & Nb & _) & (_ & Nd & _) & _).
  destruct Hcert as (C1 & C2 & C3 & C4 & _).
  assert (Fl : forall a b, Rltb a b = false -> b <= a) by (intros a b H; destruct (Rltb_spec a b); [discriminate|lra]).
  apply Fl in C1, C2, C3, C4.
  pose proof (C35_residuals qp s (valid_of C) r0 rw0 Hwf ctx_valid_ok) as (Rg & Rb & Rd & Rm). cbv zeta in Rg, Rb, Rd, Rm. rewrite <- Hr in Rg, Rb, Rd, Rm.
  set (r := wk_res (o_w o)) in *. clearbody r.
  assert (Eb : forall j, (j < d_ne qp)%nat -> Rabs (den_eq qp (ds_v s) j) <= ar A res_b_max).
  { intros j Hj. rewrite <- Rb by assumption. specialize (Nb j Hj). lra. }
  assert (Eg : forall k, (k < dnv qp)%nat -> Rabs (den_kkt_g qp (ds_v s) (ds_pi s) (ds_lam s) k) <= ar A res_g_max).
  { intros k Hk. rewrite <- Rg by assumption. specialize (Ng k Hk). lra. }
  assert (Ed : forall c, (c < d_nct qp)%nat -> d_mask qp c = 1 -> Rabs (d_d qp c + ds_t s c - den_con qp (ds_v s) c) <= ar A res_d_max).
  { intros c Hcc E. pose proof (Nd c Hcc) as H. rewrite Rd in H by assumption. unfold den_kkt_d in H. rewrite E, Rmult_1_l in H. lra. }
  assert (Em : forall c, (c < d_nct qp)%nat -> d_mask qp c = 1 -> Rabs (ds_lam s c * ds_t s c - d_m qp c - ar A tau_min) <= ar A res_m_max).
  { intros c Hcc E.
    pose proof (proj1 (proj2 (VECNRM_INF_R (d_nct qp) (AXPY (d_nct qp) (- ar A tau_min) (d_mask qp) 0 (dr_m r) 0 (fun _ => 0 / 1) 0) 0)) c Hcc) as H.
    cbn [Nat.add] in H. unfold AXPY at 1 in H. rewrite vset0_in in H by exact Hcc. cbn [Nat.add] in H. rsimp. rewrite E, Rm in H by assumption.
    unfold den_kkt_m in H. rewrite E in H.
    replace (ds_lam s c * ds_t s c - d_m qp c - ar A tau_min) with (1 * (1 * ds_lam s c * ds_t s c - d_m qp c) + - ar A tau_min * 1) by lra. lra. }
  assert (M1 : forall c, (c < d_nct qp)%nat -> d_mask qp c <> 0 -> d_mask qp c = 1) by (intros c Hcc Hn; destruct (Hm c Hcc); [contradiction|assumption]).
  split; [exact Eb|]. split.
  { intros c Hcc Hn. specialize (Ed c Hcc (M1 c Hcc Hn)). destruct (Pos c Hcc) as (P1 & _). pose proof (Rle_abs (d_d qp c + ds_t s c - den_con qp (ds_v s) c)) as Q. lra. }
  split; [exact Eg|]. split; [intros c Hcc Hn; apply Em; auto|].
  intros Hpsd y Hy.
  pose proof (den_lagr_le_cost qp (ds_pi s) (ds_lam s) y Hy Hm) as L1.
  assert (Hlam : forall c, (c < d_nct qp)%nat -> d_mask qp c <> 0 -> 0 <= ds_lam s c).
  { intros c Hcc Hn. destruct (Pos c Hcc) as (_ & P2 & _). specialize (P2 (M1 c Hcc Hn)). lra. }
  specialize (L1 Hlam).
  pose proof (C35_stationarity_is_gradient qp (ds_v s) (ds_pi s) (ds_lam s) y) as L2.
  pose proof (Hpsd (fun k => y k - ds_v s k)) as L3. cbv beta in L3.
  assert (Dot : forall n (g v : nat -> R) e, (forall k, (k < n)%nat -> Rabs (g k) <= e) -> - (e * rsum n (fun k => Rabs (v k))) <= rsum n (fun k => g k * v k)).
  { intros n g v e Hb. rewrite <- rsum_scal, <- rsum_opp. apply rsum_le. intros k Hk.
    assert (Hab : Rabs (g k * v k) <= e * Rabs (v k)) by (rewrite Rabs_mult; apply Rmult_le_compat_r; [apply Rabs_pos|apply Hb; exact Hk]).
    pose proof (Rle_abs (- (g k * v k))) as H. rewrite Rabs_Ropp in H. lra. }
  pose proof (Dot _ _ (fun k => y k - ds_v s k) _ Eg) as L4. cbv beta in L4.
  pose proof (Dot _ _ (ds_pi s) _ Eb) as L5.
  unfold den_lagr in L2 at 2.
  rewrite (rsum_ext (d_ne qp) (fun k => den_eq qp (ds_v s) k * ds_pi s k) (fun j => ds_pi s j * den_eq qp (ds_v s) j)) in L5 by (intros; lra).
  assert (L6 : rsum (d_nct qp) (fun c => d_mask qp c * ds_lam s c * (den_con qp (ds_v s) c - d_d qp c)) <=
    ar A res_d_max * rsum (d_nct qp) (fun c => ds_lam s c) + rsum (d_nct qp) (fun c => d_mask qp c * (d_m qp c + ar A tau_min + ar A res_m_max))).
  { rewrite <- rsum_scal, <- rsum_add. apply rsum_le. intros c Hcc.
    destruct (Pos c Hcc) as (_ & P2 & P3). destruct (Hm c Hcc) as [E|E].
    - rewrite E, (P3 E). lra.
    - specialize (P2 E). specialize (Ed c Hcc E). specialize (Em c Hcc E). rewrite E.
      pose proof (Rle_abs (- (d_d qp c + ds_t s c - den_con qp (ds_v s) c))) as Q. rewrite Rabs_Ropp in Q.
      pose proof (Rle_abs (ds_lam s c * ds_t s c - d_m qp c - ar A tau_min)) as Q2.
      assert (Q3 : ds_lam s c * (den_con qp (ds_v s) c - d_d qp c) <= ds_lam s c * (ds_t s c + ar A res_d_max)) by (apply Rmult_le_compat_l; lra). lra. }
  lra.
Qed.
End P.
Print Assumptions C55_strictly_interior.
Print Assumptions C55_nonnegative.
Print Assumptions C55_success_certificate.

(** The hypotheses are met: the SPEED preset on the QP  min v^2/2, 0 <= v <= 1  of DenInitProps.v.  For the status: with the tolerances set to
    the residual norms of the initial iterate the solver stops there with SUCCESS. *)
Lemma start_ext {K} (A A' : arg R) C sol (ws : @ist R K) : ai A = ai A' -> ar A mu0 = ar A' mu0 -> ar A lam0_min = ar A' lam0_min -> ar A t0_min = ar A' t0_min ->
  start A C sol ws = start A' C sol ws.
Proof. intros E1 E2 E3 E4. unfold start, init_var. rewrite E1, E2, E3, E4. reflexivity. Qed.
Lemma exi_den_wf : den_wf exi_den.
Proof. split; intros j Hj; [cbn in Hj |- *; lia|left; reflexivity]. Qed.
Section Ex.
Context {K : Type} (OP : dkops (F := R) K) (sol : vars R) (ws : @ist R K).
Let A0 := den_default (F := R) SPEED.
Let C := mk_ctx 0 0 10 exi_den.
Let s0 := delta_init C (start A0 C sol ws).
Definition exA : arg R :=
  let '(a, b, c, _) := i_max s0 in
  wr res_g_max a (wr res_b_max b (wr res_d_max c (wr res_m_max (res_m_tau A0 C (wk_res (i_w s0))) (wr dual_gap_max (dr_gap (wk_res (i_w s0))) A0)))).
Example C55_hypotheses_met : den_mask01 exi_den /\ constrained exi_den /\ good_start exA /\ ai exA t_lam_min = 2%Z /\ 0 < ar exA lam_min /\ 0 < ar exA t_min /\
  ai exA split_step = 1%Z /\ (forall c, (c < d_nct exi_den)%nat -> d_m exi_den c = 0) /\
  ai exA abs_form = 0%Z /\ (0 <= ai exA iter_max)%Z /\ den_wf exi_den /\ den_psd exi_den /\ den_feasible exi_den (fun _ => 1 / 2) /\ o_status (dipm_solve OP exA 0 0 10 exi_den sol ws) = SUCCESS.
Proof.
  assert (Hc : constrained exi_den).
  { exists 0%nat. split; [cbn; lia|]. cbn. destruct (Reqb_spec 1 (0 / 1)); [lra|reflexivity]. }
  assert (E : exists a b c e, i_max s0 = (a, b, c, e)) by (destruct (i_max s0) as [[[a b] c] e]; eauto). destruct E as (a & b & c & e & E).
  unfold exA. rewrite E. set (A := wr res_g_max a _).
  assert (Es : start A C sol ws = start A0 C sol ws) .
  { apply start_ext; unfold A; rewrite ?IpmReal.ai_wr, ?IpmReal.ar_wr; reflexivity. }
  assert (Ex : forall f, ai A f = ai A0 f) by (intros f; unfold A; rewrite !IpmReal.ai_wr; reflexivity).
  assert (Er : ar A alpha_min = ar A0 alpha_min /\ ar A lam_min = ar A0 lam_min /\ ar A t_min = ar A0 t_min /\ ar A mu0 = ar A0 mu0 /\ ar A tau_min = ar A0 tau_min)
    by (unfold A; rewrite !IpmReal.ar_wr; cbn [rarg_eqb]; repeat split).
  destruct Er as (Er1 & Er2 & Er3 & Er4 & Er5).
  assert (Ev : ar A res_g_max = a /\ ar A res_b_max = b /\ ar A res_d_max = c /\ ar A res_m_max = res_m_tau A0 C (wk_res (i_w s0)) /\ ar A dual_gap_max = dr_gap (wk_res (i_w s0)))
    by (unfold A; rewrite !IpmReal.ar_wr; cbn [rarg_eqb]; repeat split).
  destruct Ev as (Ev1 & Ev2 & Ev3 & Ev4 & Ev5).
  assert (Et : res_m_tau A C (wk_res (i_w s0)) = res_m_tau A0 C (wk_res (i_w s0))) by (unfold res_m_tau; rewrite Er5; reflexivity).
  clearbody A.
  split; [intros k _; right; reflexivity|]. split; [exact Hc|].
  split; [split; rewrite Ex; [intros _; rewrite Er4; cbn; lra|cbn; intros; lia]|]. rewrite !Ex, Er2, Er3.
  assert (Hp : 0 < 1 / IZR (10 ^ 16)) by (apply Rdiv_lt_0_compat; [lra|apply IZR_lt; reflexivity]).
  split; [reflexivity|]. split; [exact Hp|]. split; [exact Hp|]. split; [reflexivity|]. split; [intros; reflexivity|]. split; [reflexivity|]. split; [cbn; lia|].
  split; [exact exi_den_wf|].
  split. { intros v. cbn. pose proof (Rle_0_sqr (v 0%nat)) as H. unfold Rsqr in *. lra. }
  split. { split; [intros j Hj; cbn in Hj; lia|]. intros k Hk _. cbn in Hk. destruct k as [|[|k]]; [| |lia]; unfold den_con; cbn; lra. }
  unfold dipm_solve. fold C. pose proof (proj1 (constrained_count exi_den 0 0 10) Hc) as Hcc. fold C in Hcc. rewrite Hcc.
  rewrite Ex. change (negb (Z.eqb (ai A0 abs_form) 0)) with false. cbv iota. rewrite solve_delta_eq, Es. fold s0.
  assert (Hgo : delta_go A C 0 s0 = false).
  { unfold delta_go. rewrite E. assert (I : forall x y : R, x = y -> fltb x y = false) by (intros x y ->; rsimp; destruct (Rltb_spec y y); [lra|reflexivity]).
    rewrite (I _ _ Ev1), (I _ _ Ev2), (I _ _ Ev3), (I _ _ Ev5). rewrite Et, (I _ _ Ev4). cbn [orb]. rewrite !andb_false_r. reflexivity. }
  assert (Hfor : forall n, ipm_for (delta_go A C) (delta_body OP A C) n 0 s0 = (0%Z, s0)) by (intros [|n]; cbn [ipm_for]; rewrite ?Hgo; reflexivity).
  rewrite Hfor. destruct (finish_same OP A C 0 s0) as (_ & _ & Hst & _). rewrite Hst.
  unfold final_status. rewrite Ex. change (Z.eqb 0 (ai A0 iter_max)) with false. cbv iota.
  destruct (delta_init_al C (start A0 C sol ws)) as [E1 E2]. fold s0 in E1, E2. rewrite E1, E2, Er1.
  assert (Hal : fleb (wk_ap (i_w (start A0 C sol ws))) (ar A0 alpha_min) = false /\ fleb (wk_ad (i_w (start A0 C sol ws))) (ar A0 alpha_min) = false).
  { change (wk_ap (i_w (start A0 C sol ws))) with (1 / 1). change (wk_ad (i_w (start A0 C sol ws))) with (1 / 1). change (ar A0 alpha_min) with (1 / 1000000000000).
    rsimp. split; destruct (Rleb_spec (1 / 1) (1 / 1000000000000)); try reflexivity; lra. }
  destruct Hal as [-> ->]. cbn [orb]. unfold isnan. rsimp. destruct (Reqb_spec (i_mu s0) (i_mu s0)); [reflexivity|contradiction].
Qed.
End Ex.
