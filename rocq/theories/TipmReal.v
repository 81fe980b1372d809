(** TipmReal.v -- the interior point solve of a tree-structured OCP QP in exact arithmetic: the iterates stay in the positive orthant and SUCCESS certifies
    a nearly optimal, nearly feasible solution (C70), whatever the linear algebra returns.  The specification is TreeSpec.v. *)
From Coq Require Import ZArith Bool Arith List Lia Reals Lra.
From Verif Require Import Base ArithF RSum Blas Blas2 QpDataProofs OcpModel TreeModel ResSpec TreeSpec ResProofs ResProofs2 ResProps TreeProofs TreeProps CoreModel CoreProofs ArgModel
  IpmModel IpmProofs IpmProofs2 IpmInit IpmReal TipmModel TipmProofs TipmProofs2 TipmProps TipmInit TipmInitProps.
Local Open Scope R_scope.

Section P.
Context {K : Type} (OP : kops (F := R) K) (A : arg R) (T : ttree).
Variables (lq smax : Z) (qp : oqp R) (sol : vars R) (ws : @ist R K).
Let o := tipm_solve OP A T lq smax qp sol ws.
Let C := mk_ctx lq smax qp.
Let D := q_dim qp.
Hypothesis Hm : mask01 qp.

Lemma tstart_inside : good_start A -> inside qp (i_x (tstart A C sol ws)).
Proof.
  intros [G1 G2] k Hk. unfold tstart. cbn [i_x va_lam va_t]. change (c_qp C) with qp. unfold C. rewrite (domask_val lq smax qp Hm) by exact Hk.
  destruct (mask_flat qp k Hk) as (i & c & Hi & Hc & -> & Em). rewrite Em. fold D in Hi, Hc, Em |- *. set (s' := tinit_var A qp (view D sol)).
  cbn [va_lam va_t flat]. rewrite !cat_at by (first [exact Hc|lia]).
  assert (P : 0 < s_lam s' i c /\ 0 < s_t s' i c).
  { destruct (C69_interior A qp (view D sol) i c Hc) as (I1 & I2 & I3). fold s' in I1, I2, I3.
    destruct (Z_le_dec (ai A warm_start) 1) as [H1|H1]; [destruct (I1 H1 (G1 H1)) as (? & ? & _); split; assumption|].
    destruct (Z.eq_dec (ai A warm_start) 2) as [H2|H2].
    - destruct (I2 H2) as [<- <-]. pose proof (Rmax_r (s_lam (view D sol) i c) (1 / 10)). pose proof (Rmax_r (s_t (view D sol) i c) (1 / 10)). lra.
    - destruct (G2 ltac:(lia)) as [G3 G4]. destruct (I3 ltac:(lia)) as [<- <-]. pose proof (Rmax_r (s_lam (view D sol) i c) (ar A lam0_min)). pose proof (Rmax_r (s_t (view D sol) i c) (ar A t0_min)). lra. }
  destruct P as [P1 P2]. split; [exact P2|]. split; intros E; rewrite E; lra.
Qed.

(** the invariant along the whole solve *)
Lemma tsolve_inv (I : vars R -> Prop) : constrained qp -> I (i_x (tstart A C sol ws)) ->
  (forall x bkp (w : @wk R K), alpha_ok A C x w -> I x -> I (fst (take_step A C x bkp w))) -> I (o_x o).
Proof.
  intros Hc H0 HS. destruct (solve_case OP A T lq smax qp sol ws) as [[Hn _]|[(_ & _ & E)|(_ & _ & E)]]; [contradiction| |]; fold o C in E; rewrite E.
  - destruct (tsolve_abs_loop OP A T C (tstart A C sol ws) (fun _ s => I (i_x s))) as (kk & s' & -> & H & _).
    + exact H0.
    + intros kk s _ IH _. destruct (tabs_body_step OP A C kk s) as (w & Hw & Ew). pose proof (HS (i_x s) (i_bkp s) w Hw IH) as H. rewrite <- Ew in H. exact H.
    + destruct (tfinish_same A kk (tabs_exit A T C kk s')) as (-> & _). destruct (tabs_exit_same A T C kk s') as (-> & _). exact H.
  - destruct (tsolve_delta_loop OP A T C (tstart A C sol ws) (fun _ s => I (i_x s))) as (kk & s' & -> & H & _).
    + rewrite tdelta_init_x. exact H0.
    + intros kk s _ IH _. destruct (tdelta_body_step OP A T C kk s) as (w & Hw & Ew & _). pose proof (HS (i_x s) (i_bkp s) w Hw IH) as H. rewrite <- Ew in H. exact H.
    + destruct (tfinish_same A kk s') as (-> & _). exact H.
Qed.

(** C70: with the multipliers and slacks clipped (t_lam_min = 2, the default of every mode) and positive thresholds, the solution returned by
    the solver has t > 0, lam > 0 on every imposed constraint and lam = 0 on every masked one -- both formulations, every status, every linear
    algebra (its solves may return anything). *)
Theorem C70_strictly_interior : constrained qp -> good_start A -> ai A t_lam_min = 2%Z -> 0 < ar A lam_min -> 0 < ar A t_min ->
  forall i c, (i <= dN D)%nat -> (c < nct D i)%nat -> let s := view D (o_x o) in
  0 < s_t s i c /\ (q_mask qp i c = 1 -> 0 < s_lam s i c) /\ (q_mask qp i c = 0 -> s_lam s i c = 0).
Proof.
  intros Hc Hg Ht Hl0 Ht0 i c Hi Hcc. cbv zeta.
  assert (H : inside qp (o_x o)) by (apply tsolve_inv; [exact Hc|apply tstart_inside; exact Hg|intros x bkp w _ _; apply step_inside; assumption]).
  specialize (H (nsum i (nct D) + c)%nat). unfold flatc in H. fold D in H. rewrite cat_at in H by (first [exact Hcc|lia]). apply H.
  rewrite tot_c_nsum. apply win_off_lt; [lia|exact Hcc].
Qed.
(** C70: with separate primal and dual step lengths and complementarity target m = 0, lam >= 0 and t >= 0 without clipping too. *)
Theorem C70_nonnegative : constrained qp -> good_start A -> ai A split_step = 1%Z ->
  (forall i c, (i <= dN D)%nat -> (c < nct D i)%nat -> q_m qp i c = 0) -> 0 <= ar A lam_min -> 0 <= ar A t_min ->
  forall i c, (i <= dN D)%nat -> (c < nct D i)%nat -> let s := view D (o_x o) in 0 <= s_lam s i c /\ 0 <= s_t s i c.
Proof.
  intros Hc Hg Hs Hmz Hl0 Ht0 i c Hi Hcc. cbv zeta.
  assert (Hz : c_mzero C = true).
  { change (c_mzero C) with (Reqb (VECNRM_INF (tot_c D) (flatc D (q_m qp)) 0) (0 / 1)). rewrite R_lit01.
    destruct (VECNRM_INF_R (tot_c D) (flatc D (q_m qp)) 0) as (_ & _ & [E|(k & Hk & E)]); rewrite E; [destruct (Reqb_spec 0 0); [reflexivity|lra]|].
    cbn [Nat.add]. rewrite tot_c_nsum in Hk. destruct (nsum_locate _ _ _ Hk) as (i' & c' & Hi' & Hc' & ->). unfold flatc. rewrite cat_at by assumption.
    rewrite Hmz by (first [exact Hc'|lia]). rewrite Rabs_R0. destruct (Reqb_spec 0 0); [reflexivity|lra]. }
  assert (H : nonneg qp (o_x o)) by (apply tsolve_inv; [exact Hc|apply inside_nonneg; [exact Hm|apply tstart_inside; exact Hg]|intros x bkp w Hw Hx; apply step_nonneg; assumption]).
  apply (view_in qp (fun l t => 0 <= l /\ 0 <= t)); assumption.
Qed.

(** C70: what SUCCESS means for the user, in exact arithmetic, delta formulation, clipped multipliers.  (z, pi, lam, t) is the returned solution. *)
Theorem C70_success_certificate : tree_ok (dN D + 1) T -> constrained qp -> good_start A -> ai A t_lam_min = 2%Z -> 0 < ar A lam_min -> 0 < ar A t_min ->
  ai A abs_form = 0%Z -> (0 <= ai A iter_max)%Z -> qp_wf qp -> o_status o = SUCCESS ->
  let s := view D (o_x o) in let z := s_ux s in
  (forall i jj j, (i <= dN D)%nat -> (jj < t_nk T i)%nat -> (j < dnx D (t_kid T i jj))%nat -> Rabs (tdyn qp z i (t_kid T i jj) j) <= ar A res_b_max) /\
  (forall i c, (i <= dN D)%nat -> (c < nct D i)%nat -> q_mask qp i c <> 0 -> con qp z i c >= q_d qp i c - ar A res_d_max) /\
  (forall i k, (i <= dN D)%nat -> (k < nvt D i)%nat -> Rabs (tkkt_g T qp z (s_pi s) (s_lam s) i k) <= ar A res_g_max) /\
  (forall i c, (i <= dN D)%nat -> (c < nct D i)%nat -> q_mask qp i c <> 0 -> Rabs (s_lam s i c * s_t s i c - q_m qp i c - ar A tau_min) <= ar A res_m_max) /\
  (psd qp -> forall y, tfeasible T qp y ->
     cost qp z - cost qp y <= ar A res_g_max * rsum (dN D + 1) (fun i => rsum (nvt D i) (fun k => Rabs (y i k - z i k)))
       + ar A res_b_max * edges T qp (fun _ k => rsum (dnx D k) (fun j => Rabs (s_pi s (k - 1)%nat j)))
       + ar A res_d_max * rsum (dN D + 1) (fun i => rsum (nct D i) (fun c => s_lam s i c))
       + rsum (dN D + 1) (fun i => rsum (nct D i) (fun c => q_mask qp i c * (q_m qp i c + ar A tau_min + ar A res_m_max)))).
Proof.
  intros Htr Hc Hg Ht Hl0 Ht0 Ha Him Hwf HS. cbv zeta.
  pose proof (C70_strictly_interior Hc Hg Ht Hl0 Ht0) as Pos. cbv zeta in Pos.
  destruct (C68_success_certifies OP A T lq smax qp sol ws Hc Ha Him) as ((r0 & rw0 & Hr) & Hmax & _ & Hcert). fold o C D in Hr, Hmax, Hcert. specialize (Hcert HS).
  destruct (C68_status OP A T lq smax qp sol ws Hc) as (_ & _ & _ & Hst & _). fold o in Hst. destruct (Hst HS) as (_ & Hp & Hd). clear Hst.
  rsimp. assert (Tr : forall a b, Rleb a b = false -> Rltb b a = true) by (intros a b H; destruct (Rleb_spec a b); [discriminate|]; destruct (Rltb_spec b a); [reflexivity|lra]).
  specialize (Hcert (Tr _ _ Hp) (Tr _ _ Hd)).
  set (s := view D (o_x o)) in *. pose proof (C53_norms D (wk_res (o_w o))) as Nrm. rewrite <- Hmax in Nrm.
  destruct (o_max o) as [[[ng nb] nd] nm]. destruct Nrm as ((_ & Ng & _) & (_ & Nb & _) & (_ & Nd & _) & _).
  destruct Hcert as (C1 & C2 & C3 & C4 & _).
  assert (Fl : forall a b, Rltb a b = false -> b <= a) by (intros a b H; destruct (Rltb_spec a b); [discriminate|lra]).
  apply Fl in C1, C2, C3, C4.
  assert (Hz : masked_zero qp (s_lam s)) by (intros i c Hi Hcc; exact (proj2 (proj2 (Pos i c Hi Hcc)))).
  pose proof (C53_residuals T qp s (valid_of C) r0 rw0 Hwf (ctx_valid_ok lq smax qp Hm) Hm Htr Hz) as (Rg & Rb & Rd & Rm & _). cbv zeta in Rg, Rb, Rd, Rm. rewrite <- Hr in Rg, Rb, Rd, Rm. fold D in Rg, Rb, Rd, Rm.
  set (r := wk_res (o_w o)) in *. clearbody r.
  assert (Eb : forall i jj j, (i <= dN D)%nat -> (jj < t_nk T i)%nat -> (j < dnx D (t_kid T i jj))%nat -> Rabs (tdyn qp (s_ux s) i (t_kid T i jj) j) <= ar A res_b_max).
  { intros i jj j Hi Hjj Hj. rewrite <- Rb by assumption. pose proof (proj1 Htr i jj ltac:(lia) Hjj) as Hk. specialize (Nb (t_kid T i jj - 1)%nat j ltac:(lia)).
    replace (S (t_kid T i jj - 1)) with (t_kid T i jj) in Nb by lia. specialize (Nb Hj). lra. }
  assert (Eg : forall i k, (i <= dN D)%nat -> (k < nvt D i)%nat -> Rabs (tkkt_g T qp (s_ux s) (s_pi s) (s_lam s) i k) <= ar A res_g_max).
  { intros i k Hi Hk. rewrite <- Rg by assumption. specialize (Ng i k ltac:(lia) Hk). lra. }
  assert (Ed : forall i c, (i <= dN D)%nat -> (c < nct D i)%nat -> q_mask qp i c = 1 -> Rabs (q_d qp i c + s_t s i c - con qp (s_ux s) i c) <= ar A res_d_max).
  { intros i c Hi Hcc E. pose proof (Nd i c ltac:(lia) Hcc) as H. rewrite Rd in H by assumption. unfold kkt_d in H. rewrite E, Rmult_1_l in H. lra. }
  assert (Em : forall i c, (i <= dN D)%nat -> (c < nct D i)%nat -> q_mask qp i c = 1 -> Rabs (s_lam s i c * s_t s i c - q_m qp i c - ar A tau_min) <= ar A res_m_max).
  { intros i c Hi Hcc E.
    pose proof (proj1 (proj2 (VECNRM_INF_R (tot_c D) (AXPY (tot_c D) (- ar A tau_min) (flatc D (q_mask qp)) 0 (flatc D (r_m r)) 0 (fun _ => 0 / 1) 0) 0)) (nsum i (nct D) + c)%nat) as H.
    assert (Hk : (nsum i (nct D) + c < tot_c D)%nat) by (rewrite tot_c_nsum; apply win_off_lt; [lia|exact Hcc]). specialize (H Hk). cbn [Nat.add] in H.
    unfold AXPY at 1 in H. rewrite vset0_in in H by exact Hk. cbn [Nat.add] in H. rsimp. unfold flatc at 1 2 in H. rewrite !cat_at in H by (first [exact Hcc|lia]). rewrite E, Rm in H by assumption.
    unfold kkt_m in H. rewrite E in H.
    replace (s_lam s i c * s_t s i c - q_m qp i c - ar A tau_min) with (1 * (1 * s_lam s i c * s_t s i c - q_m qp i c) + - ar A tau_min * 1) by lra. lra. }
  assert (M1 : forall i c, (i <= dN D)%nat -> (c < nct D i)%nat -> q_mask qp i c <> 0 -> q_mask qp i c = 1) by (intros i c Hi Hcc Hn; destruct (Hm i c Hi Hcc); [contradiction|assumption]).
  split; [exact Eb|]. split.
  { intros i c Hi Hcc Hn. specialize (Ed i c Hi Hcc (M1 i c Hi Hcc Hn)). destruct (Pos i c Hi Hcc) as (P1 & _). pose proof (Rle_abs (q_d qp i c + s_t s i c - con qp (s_ux s) i c)) as Q. lra. }
  split; [exact Eg|]. split; [intros i c Hi Hcc Hn; apply Em; auto|].
  intros Hpsd y Hy.
  pose proof (tlagr_le_cost T qp (s_pi s) (s_lam s) y Hy Hm) as L1.
  assert (Hlam : forall i c, (i <= dN D)%nat -> (c < nct D i)%nat -> q_mask qp i c <> 0 -> 0 <= s_lam s i c).
  { intros i c Hi Hcc Hn. destruct (Pos i c Hi Hcc) as (_ & P2 & _). specialize (P2 (M1 i c Hi Hcc Hn)). lra. }
  specialize (L1 Hlam).
  pose proof (C53_stationarity_is_gradient T qp (s_ux s) (s_pi s) (s_lam s) y Htr) as L2. cbv zeta in L2. fold D in L2.
  assert (L3 : 0 <= rsum (dN D + 1) (fun i => rsum (nvt D i) (fun k => rsum (nvt D i) (fun l => (y i k - s_ux s i k) * Hess qp i k l * (y i l - s_ux s i l))))).
  { apply rsum_nonneg. intros i Hi. apply (Hpsd i (fun k => y i k - s_ux s i k)). unfold D in *; lia. }
  assert (L4 : - (ar A res_g_max * rsum (dN D + 1) (fun i => rsum (nvt D i) (fun k => Rabs (y i k - s_ux s i k)))) <=
    rsum (dN D + 1) (fun i => rsum (nvt D i) (fun k => tkkt_g T qp (s_ux s) (s_pi s) (s_lam s) i k * (y i k - s_ux s i k)))).
  { rewrite <- rsum_scal, <- rsum_opp. apply rsum_le. intros i Hi. rewrite <- rsum_scal, <- rsum_opp. apply rsum_le. intros k Hk.
    specialize (Eg i k ltac:(lia) Hk). set (g := tkkt_g _ _ _ _ _ _ _) in *. set (v := y i k - s_ux s i k) in *.
    assert (Hab : Rabs (g * v) <= ar A res_g_max * Rabs v) by (rewrite Rabs_mult; apply Rmult_le_compat_r; [apply Rabs_pos|exact Eg]).
    pose proof (Rle_abs (- (g * v))) as H. rewrite Rabs_Ropp in H. lra. }
  unfold tlagr at 2 in L2. unfold edges in *. fold D in L2.
  assert (L5 : - (ar A res_b_max * rsum (dN D + 1) (fun i => rsum (t_nk T i) (fun jj => rsum (dnx D (t_kid T i jj)) (fun j => Rabs (s_pi s (t_kid T i jj - 1)%nat j))))) <=
    rsum (dN D + 1) (fun i => rsum (t_nk T i) (fun jj => rsum (dnx D (t_kid T i jj)) (fun j => s_pi s (t_kid T i jj - 1)%nat j * tdyn qp (s_ux s) i (t_kid T i jj) j)))).
  { rewrite <- rsum_scal, <- rsum_opp. apply rsum_le. intros i Hi. rewrite <- rsum_scal, <- rsum_opp. apply rsum_le. intros jj Hjj. rewrite <- rsum_scal, <- rsum_opp. apply rsum_le. intros j Hj.
    specialize (Eb i jj j ltac:(lia) Hjj Hj). set (g := tdyn _ _ _ _ _) in *. set (v := s_pi s _ j) in *.
    assert (Hab : Rabs (v * g) <= ar A res_b_max * Rabs v) by (rewrite Rabs_mult, Rmult_comm; apply Rmult_le_compat_r; [apply Rabs_pos|exact Eb]).
    pose proof (Rle_abs (- (v * g))) as H. rewrite Rabs_Ropp in H. lra. }
  assert (L6 : rsum (dN D + 1) (fun i => rsum (nct D i) (fun c => q_mask qp i c * s_lam s i c * (con qp (s_ux s) i c - q_d qp i c))) <=
    ar A res_d_max * rsum (dN D + 1) (fun i => rsum (nct D i) (fun c => s_lam s i c)) +
    rsum (dN D + 1) (fun i => rsum (nct D i) (fun c => q_mask qp i c * (q_m qp i c + ar A tau_min + ar A res_m_max)))).
  { rewrite <- rsum_scal, <- rsum_add. apply rsum_le. intros i Hi. rewrite <- rsum_scal, <- rsum_add. apply rsum_le. intros c Hcc.
    destruct (Pos i c ltac:(lia) Hcc) as (_ & P2 & P3). destruct (Hm i c ltac:(unfold D in *; lia) Hcc) as [E|E].
    - rewrite E, (P3 E). lra.
    - specialize (P2 E). specialize (Ed i c ltac:(lia) Hcc E). specialize (Em i c ltac:(lia) Hcc E). rewrite E.
      pose proof (Rle_abs (- (q_d qp i c + s_t s i c - con qp (s_ux s) i c))) as Q. rewrite Rabs_Ropp in Q.
      pose proof (Rle_abs (s_lam s i c * s_t s i c - q_m qp i c - ar A tau_min)) as Q2.
      assert (Q3 : s_lam s i c * (con qp (s_ux s) i c - q_d qp i c) <= s_lam s i c * (s_t s i c + ar A res_d_max)) by (apply Rmult_le_compat_l; lra). lra. }
  fold D in L1, L2 |- *. lra.
Qed.
End P.
Print Assumptions C70_strictly_interior.
Print Assumptions C70_nonnegative.
Print Assumptions C70_success_certificate.

(** The hypotheses of C70 are met: the SPEED preset of the OCP QP solver on the QP of TipmInitProps.v (root 0 <= u <= 1, two kids).  For the status: with the tolerances set to
    the residual norms of the initial iterate the solver stops there with SUCCESS. *)
Lemma tstart_ext {K} (A A' : arg R) C sol (ws : @ist R K) : ai A = ai A' -> ar A mu0 = ar A' mu0 -> ar A lam0_min = ar A' lam0_min -> ar A t0_min = ar A' t0_min ->
  tstart A C sol ws = tstart A' C sol ws.
Proof. intros E1 E2 E3 E4. unfold tstart, tinit_var, tinit_node. rewrite E1, E2, E3, E4. reflexivity. Qed.
Lemma exit_qp_wf : qp_wf exit_qp.
Proof. intros i Hi; split; intros j Hj; [cbn in Hj |- *; lia|left; reflexivity]. Qed.
Section Ex.
Let T := txT.
Context {K : Type} (OP : kops (F := R) K) (a0 : arg R) (sol : vars R) (ws : @ist R K).
Let A0 := arg_set_default SPEED a0.
Let C := mk_ctx 0 10 exit_qp.
Let s0 := tdelta_init T C (tstart A0 C sol ws).
Definition exAt : arg R :=
  let '(a, b, c, _) := i_max s0 in
  wr res_g_max a (wr res_b_max b (wr res_d_max c (wr res_m_max (res_m_tau A0 C (wk_res (i_w s0))) (wr dual_gap_max (r_gap (wk_res (i_w s0))) A0)))).
Example C70_hypotheses_met : mask01 exit_qp /\ tree_ok (dN (q_dim exit_qp) + 1) T /\ constrained exit_qp /\ good_start exAt /\ ai exAt t_lam_min = 2%Z /\ 0 < ar exAt lam_min /\ 0 < ar exAt t_min /\
  ai exAt abs_form = 0%Z /\ (0 <= ai exAt iter_max)%Z /\ qp_wf exit_qp /\ o_status (tipm_solve OP exAt T 0 10 exit_qp sol ws) = SUCCESS.
Proof.
  assert (Hc : constrained exit_qp).
  { exists 0%nat, 0%nat. split; [cbn; lia|]. split; [cbn; lia|]. cbn. destruct (Reqb_spec 1 (0 / 1)); [lra|reflexivity]. }
  assert (E : exists a b c e, i_max s0 = (a, b, c, e)) by (destruct (i_max s0) as [[[a b] c] e]; eauto). destruct E as (a & b & c & e & E).
  unfold exAt. rewrite E. set (A := wr res_g_max a _).
  assert (Es : tstart A C sol ws = tstart A0 C sol ws) .
  { apply tstart_ext; unfold A; rewrite ?ai_wr, ?ar_wr; reflexivity. }
  assert (Ex : forall f, ai A f = ai A0 f) by (intros f; unfold A; rewrite !ai_wr; reflexivity).
  assert (Er : ar A alpha_min = ar A0 alpha_min /\ ar A lam_min = ar A0 lam_min /\ ar A t_min = ar A0 t_min /\ ar A mu0 = ar A0 mu0 /\ ar A tau_min = ar A0 tau_min)
    by (unfold A; rewrite !ar_wr; cbn [rarg_eqb]; repeat split).
  destruct Er as (Er1 & Er2 & Er3 & Er4 & Er5).
  assert (Ev : ar A res_g_max = a /\ ar A res_b_max = b /\ ar A res_d_max = c /\ ar A res_m_max = res_m_tau A0 C (wk_res (i_w s0)) /\ ar A dual_gap_max = r_gap (wk_res (i_w s0)))
    by (unfold A; rewrite !ar_wr; cbn [rarg_eqb]; repeat split).
  destruct Ev as (Ev1 & Ev2 & Ev3 & Ev4 & Ev5).
  assert (Et : res_m_tau A C (wk_res (i_w s0)) = res_m_tau A0 C (wk_res (i_w s0))) by (unfold res_m_tau; rewrite Er5; reflexivity).
  clearbody A.
  split; [intros i k _ _; right; reflexivity|]. split; [exact tx_tree|]. split; [exact Hc|].
  split; [split; rewrite Ex; [intros _; rewrite Er4; cbn; lra|cbn; intros; lia]|]. rewrite !Ex, Er2, Er3.
  assert (Hp : 0 < 1 / IZR (10 ^ 16)) by (apply Rdiv_lt_0_compat; [lra|apply IZR_lt; reflexivity]).
  split; [reflexivity|]. split; [exact Hp|]. split; [exact Hp|]. split; [reflexivity|]. split; [cbn; lia|].
  split; [exact exit_qp_wf|].
  unfold tipm_solve. fold C. pose proof (proj1 (constrained_count exit_qp 0 10) Hc) as Hcc. fold C in Hcc. rewrite Hcc.
  rewrite Ex. change (negb (Z.eqb (ai A0 abs_form) 0)) with false. cbv iota. rewrite tsolve_delta_eq, Es. fold s0.
  assert (Hgo : delta_go A C 0 s0 = false).
  { unfold delta_go. rewrite E. assert (I : forall x y : R, x = y -> fltb x y = false) by (intros x y ->; rsimp; destruct (Rltb_spec y y); [lra|reflexivity]).
    rewrite (I _ _ Ev1), (I _ _ Ev2), (I _ _ Ev3), (I _ _ Ev5). rewrite Et, (I _ _ Ev4). cbn [orb]. rewrite !andb_false_r. reflexivity. }
  assert (Hfor : forall n, ipm_for (delta_go A C) (tdelta_body OP A T C) n 0 s0 = (0%Z, s0)) by (intros [|n]; cbn [ipm_for]; rewrite ?Hgo; reflexivity).
  rewrite Hfor. destruct (tfinish_same A 0 s0) as (_ & _ & Hst & _). rewrite Hst.
  unfold final_status. rewrite Ex. change (Z.eqb 0 (ai A0 iter_max)) with false. cbv iota.
  destruct (tdelta_init_al T C (tstart A0 C sol ws)) as [E1 E2]. fold s0 in E1, E2. rewrite E1, E2, Er1.
  assert (Hal : fleb (wk_ap (i_w (tstart A0 C sol ws))) (ar A0 alpha_min) = false /\ fleb (wk_ad (i_w (tstart A0 C sol ws))) (ar A0 alpha_min) = false).
  { change (wk_ap (i_w (tstart A0 C sol ws))) with (1 / 1). change (wk_ad (i_w (tstart A0 C sol ws))) with (1 / 1). change (ar A0 alpha_min) with (1 / 1000000000000).
    rsimp. split; destruct (Rleb_spec (1 / 1) (1 / 1000000000000)); try reflexivity; lra. }
  destruct Hal as [-> ->]. cbn [orb]. unfold isnan. rsimp. destruct (Reqb_spec (i_mu s0) (i_mu s0)); [reflexivity|contradiction].
Qed.
End Ex.
