(** IpmReal.v -- the interior point solve in exact arithmetic: the iterates stay in the positive orthant (C42) and SUCCESS certifies a nearly optimal,
    nearly feasible solution (C41), whatever the linear algebra returns. *)
From Coq Require Import ZArith Bool Arith List Lia Reals Lra.
From Verif Require Import Base ArithF RSum Blas Blas2 QpDataProofs OcpModel ResSpec ResProofs ResProofs2 ResProps CoreModel CoreProofs ArgModel IpmModel IpmProofs IpmProofs2 IpmProps IpmInit IpmInitProps.
Local Open Scope R_scope.

(** *** the closed orthant *)
Lemma ratio_closed l dl a : 0 <= l -> 0 <= a -> l + a * dl < 0 -> 0 <= - l / dl <= a /\ l + - l / dl * dl = 0.
Proof.
  intros Hl Ha H. assert (dl < 0) by nra. assert (E : - l / dl = l / - dl) by (field; lra).
  split; [|field; lra]. rewrite E. split; [apply Rmult_le_pos; [exact Hl|left; apply Rinv_0_lt_compat; lra]|].
  apply Rmult_le_reg_r with (- dl); [lra|]. unfold Rdiv. rewrite Rmult_assoc, Rinv_l by lra. nra.
Qed.
Lemma shrink_closed l dl a b : 0 <= l -> 0 <= b -> b <= a -> 0 <= l + a * dl -> 0 <= l + b * dl.
Proof. intros. destruct (Rle_dec 0 dl); nra. Qed.
Lemma alpha_split_closed nc (lam t dlam dt : nat -> R) : (forall i, (i < nc)%nat -> 0 <= lam i /\ 0 <= t i) ->
  let '(ap, ad) := alpha_split_mzero nc lam t dlam dt in 0 <= ap <= 1 /\ 0 <= ad <= 1 /\ forall i, (i < nc)%nat -> 0 <= lam i + ad * dlam i /\ 0 <= t i + ap * dt i.
Proof.
  intros Hpos. unfold alpha_split_mzero.
  apply (loop_ind (fun k a => let '(ap, ad) := a in 0 <= ap <= 1 /\ 0 <= ad <= 1 /\ forall i, (i < k)%nat -> 0 <= lam i + ad * dlam i /\ 0 <= t i + ap * dt i)).
  - rsimp. rewrite R_lit11. split; [lra|]. split; [lra|intros; lia].
  - intros k [ap ad] Hk (I1 & I2 & I3). unfold ratio_split. rsimp. rewrite R_lit01. destruct (Hpos k Hk) as [P1 P2].
    assert (X : forall l dl a, 0 <= l -> 0 <= a <= 1 -> let a' := if Rltb (l + a * dl) 0 then - l / dl else a in 0 <= a' <= a /\ 0 <= l + a' * dl).
    { intros l dl a Hl Ha. cbv zeta. destruct (Rltb_spec (l + a * dl) 0) as [H|H]; [|lra]. destruct (ratio_closed l dl a Hl ltac:(lra) H) as [R1 R2]. lra. }
    destruct (X (lam k) (dlam k) ad P1 I2) as [X1 X2]. destruct (X (t k) (dt k) ap P2 I1) as [X3 X4]. cbv zeta in *.
    set (ad' := if Rltb (lam k + ad * dlam k) 0 then _ else _) in *. set (ap' := if Rltb (t k + ap * dt k) 0 then _ else _) in *.
    split; [lra|]. split; [lra|]. intros i Hi. destruct (Nat.eq_dec i k) as [->|Hn]; [split; assumption|].
    destruct (Hpos i ltac:(lia)) as [Q1 Q2]. destruct (I3 i ltac:(lia)) as [J1 J2]. split; [apply shrink_closed with ad|apply shrink_closed with ap]; lra.
Qed.
Lemma damped_bounds ap ad : 0 <= ap <= 1 -> 0 <= ad <= 1 -> let '(p, q) := damped (F := R) ap ad in 0 <= p <= ap /\ 0 <= q <= ad.
Proof.
  intros Hp Hd. assert (X : forall a, 0 <= a <= 1 -> 0 <= damp a <= a) by (intros a Ha; unfold damp; rsimp; rewrite R_lit11; nra).
  unfold damped. destruct (fltb _ _); [split; apply X; assumption|lra].
Qed.

Section P.
Context {K : Type} (OP : kops (F := R) K) (A : arg R).
Variables (lq smax : Z) (qp : oqp R) (sol : vars R) (ws : @ist R K).
Let o := ipm_solve OP A lq smax qp sol ws.
Let C := mk_ctx lq smax qp.
Let D := q_dim qp.
Hypothesis Hm : mask01 qp.

Lemma mask_flat k : (k < tot_c D)%nat -> exists i c, (i <= dN D)%nat /\ (c < nct D i)%nat /\ k = (nsum i (nct D) + c)%nat /\ flatc D (q_mask qp) k = q_mask qp i c.
Proof.
  intros Hk. rewrite tot_c_nsum in Hk. destruct (nsum_locate _ _ _ Hk) as (i & c & Hi & Hc & ->). exists i, c. repeat split; [lia|exact Hc|]. unfold flatc. apply cat_at; assumption.
Qed.
Lemma mask_flat01 k : (k < tot_c D)%nat -> flatc D (q_mask qp) k = 0 \/ flatc D (q_mask qp) k = 1.
Proof. intros Hk. destruct (mask_flat k Hk) as (i & c & Hi & Hc & _ & ->). apply Hm; assumption. Qed.
(** without masking in force every mask is one *)
Lemma mc_false : c_mc C = false -> forall k, (k < tot_c D)%nat -> flatc D (q_mask qp) k = 1.
Proof.
  intros H k Hk. change (c_mc C) with (Nat.ltb (count_mask (tot_c D) (flatc D (q_mask qp))) (tot_c D)) in H. apply Nat.ltb_ge in H.
  destruct (count_mask_full (tot_c D) (flatc D (q_mask qp))) as [H1 H2]. specialize (H2 ltac:(lia) k Hk). rsimp. rewrite R_lit01 in H2.
  destruct (Reqb_spec (flatc D (q_mask qp) k) 0) as [|Hn]; [discriminate|]. destruct (mask_flat01 k Hk); [contradiction|assumption].
Qed.
Lemma ctx_valid_ok : valid_ok (valid_of C) qp.
Proof.
  unfold valid_of, valid_ok. destruct (c_mc C) eqn:E; [left; reflexivity|right]. intros i c Hi Hc. pose proof (mc_false E (nsum i (nct D) + c)) as H.
  unfold flatc in H. rewrite cat_at in H by (try exact Hc; unfold D in *; lia). apply H. rewrite tot_c_nsum. apply win_off_lt; [unfold D in *; lia|exact Hc].
Qed.
Lemma domask_val (x : nat -> R) k : (k < tot_c D)%nat -> domask C x k = flatc D (q_mask qp) k * x k.
Proof.
  intros Hk. unfold domask. change (q_dim (c_qp C)) with D. destruct (c_mc C) eqn:E.
  - unfold VECMUL. rewrite vset0_in by exact Hk. reflexivity.
  - rewrite (mc_false E k Hk). lra.
Qed.

(** strict and closed versions of the invariant; masked multipliers are zero *)
Definition inside (x : vars R) : Prop := forall k, (k < tot_c D)%nat ->
  0 < va_t x k /\ (flatc D (q_mask qp) k = 1 -> 0 < va_lam x k) /\ (flatc D (q_mask qp) k = 0 -> va_lam x k = 0).
Definition nonneg (x : vars R) : Prop := forall k, (k < tot_c D)%nat -> 0 <= va_lam x k /\ 0 <= va_t x k.
Lemma inside_nonneg x : inside x -> nonneg x.
Proof. intros H k Hk. destruct (H k Hk) as (H1 & H2 & H3). split; [|lra]. destruct (mask_flat01 k Hk) as [E|E]; [rewrite H3 by exact E; lra|specialize (H2 E); lra]. Qed.

Definition good_start : Prop := ((ai A warm_start <= 1)%Z -> 0 < ar A mu0) /\ ((3 <= ai A warm_start)%Z -> 0 < ar A lam0_min /\ 0 < ar A t0_min).
Lemma start_inside : good_start -> inside (i_x (start A C sol ws)).
Proof.
  intros [G1 G2] k Hk. unfold start. cbn [i_x va_lam va_t]. change (c_qp C) with qp. fold D. rewrite domask_val by exact Hk.
  destruct (mask_flat k Hk) as (i & c & Hi & Hc & -> & Em). rewrite Em. set (s' := init_var A qp (view D sol)).
  cbn [va_lam va_t flat]. rewrite !cat_at by (first [exact Hc|lia]).
  assert (P : 0 < s_lam s' i c /\ 0 < s_t s' i c).
  { destruct (C31_interior A qp (view D sol) i c Hc) as (I1 & I2 & I3). fold s' in I1, I2, I3.
    destruct (Z_le_dec (ai A warm_start) 1) as [H1|H1]; [destruct (I1 H1 (G1 H1)) as (? & ? & _); split; assumption|].
    destruct (Z.eq_dec (ai A warm_start) 2) as [H2|H2].
    - destruct (I2 H2) as [<- <-]. pose proof (Rmax_r (s_lam (view D sol) i c) (1 / 10)). pose proof (Rmax_r (s_t (view D sol) i c) (1 / 10)). lra.
    - destruct (G2 ltac:(lia)) as [G3 G4]. destruct (I3 ltac:(lia)) as [<- <-]. pose proof (Rmax_r (s_lam (view D sol) i c) (ar A lam0_min)). pose proof (Rmax_r (s_t (view D sol) i c) (ar A t0_min)). lra. }
  destruct P as [P1 P2]. split; [exact P2|]. split; intros E; rewrite E; lra.
Qed.

(** clipped update (t_lam_min = 2) *)
Lemma step_inside x bkp (w : @wk R K) : ai A t_lam_min = 2%Z -> 0 < ar A lam_min -> 0 < ar A t_min -> inside (fst (take_step A C x bkp w)).
Proof.
  intros Ht Hl0 Ht0 k Hk. unfold take_step. change (q_dim (c_qp C)) with D.
  pose proof (update_var_spec (tot_v D) (tot_e D) (tot_c D) (ai A t_lam_min) (ar A lam_min) (ar A t_min) (wk_ap w) (wk_ad w) (wk_stp w) x bkp k) as U.
  destruct (update_var _ _ _ _ _ _ _ _ _ _) as [x' b']. destruct (damped (wk_ap w) (wk_ad w)) as [p q]. rewrite Ht in U. cbn [Z.eqb Pos.eqb] in U. cbv zeta in U.
  destruct U as (_ & _ & U3 & U4 & _). assert (Hb : Nat.ltb k (tot_c D) = true) by (apply Nat.ltb_lt; exact Hk). rewrite Hb in U3, U4. rsimp.
  cbn [fst va_lam va_t]. rewrite domask_val by exact Hk.
  assert (P : forall v f, 0 < f -> 0 < (if Rleb v f then f else v)) by (intros v f Hf; destruct (Rleb_spec v f); lra).
  split; [rewrite U4; apply P; exact Ht0|]. split; intros E; rewrite E; [|lra]. rewrite U3, Rmult_1_l. apply P; exact Hl0.
Qed.
(** separate step lengths, zero complementarity target *)
Lemma step_nonneg x bkp (w : @wk R K) : ai A split_step = 1%Z -> c_mzero C = true -> 0 <= ar A lam_min -> 0 <= ar A t_min -> alpha_ok A C x w -> nonneg x -> nonneg (fst (take_step A C x bkp w)).
Proof.
  intros Hs Hz Hl0 Ht0 Hal Hx k Hk. unfold take_step. change (q_dim (c_qp C)) with D.
  unfold alpha_ok, compute_alpha in Hal. change (q_dim (c_qp C)) with D in Hal. rewrite Hs, Hz in Hal. cbn [Z.eqb Pos.eqb] in Hal.
  pose proof (alpha_split_closed (tot_c D) (va_lam x) (va_t x) (va_lam (wk_stp w)) (va_t (wk_stp w)) Hx) as B. rewrite <- Hal in B. destruct B as (B1 & B2 & B3).
  pose proof (damped_bounds (wk_ap w) (wk_ad w) B1 B2) as Dm.
  pose proof (update_var_spec (tot_v D) (tot_e D) (tot_c D) (ai A t_lam_min) (ar A lam_min) (ar A t_min) (wk_ap w) (wk_ad w) (wk_stp w) x bkp k) as U.
  destruct (update_var _ _ _ _ _ _ _ _ _ _) as [x' b']. destruct (damped (wk_ap w) (wk_ad w)) as [p q].
  destruct U as (_ & _ & U3 & U4 & _). assert (Hb : Nat.ltb k (tot_c D) = true) by (apply Nat.ltb_lt; exact Hk). rewrite Hb in U3, U4. cbv zeta in U3, U4. rsimp.
  destruct (B3 k Hk) as [C1 C2]. destruct (Hx k Hk) as [X1 X2].
  assert (L1 : 0 <= va_lam x k + q * va_lam (wk_stp w) k) by (apply shrink_closed with (wk_ad w); lra).
  assert (L2 : 0 <= va_t x k + p * va_t (wk_stp w) k) by (apply shrink_closed with (wk_ap w); lra).
  cbn [fst va_lam va_t]. rewrite domask_val by exact Hk. split.
  - assert (L3 : 0 <= va_lam x' k) by (rewrite U3; destruct (Z.eqb _ 2); [destruct (Rleb_spec (va_lam x k + q * va_lam (wk_stp w) k) (ar A lam_min)); lra|exact L1]).
    destruct (mask_flat01 k Hk) as [E|E]; rewrite E; lra.
  - rewrite U4. destruct (Z.eqb _ 2); [destruct (Rleb_spec (va_t x k + p * va_t (wk_stp w) k) (ar A t_min)); lra|exact L2].
Qed.

(** the invariant along the whole solve *)
Lemma solve_inv (I : vars R -> Prop) : constrained qp -> I (i_x (start A C sol ws)) ->
  (forall x bkp (w : @wk R K), alpha_ok A C x w -> I x -> I (fst (take_step A C x bkp w))) -> I (o_x o).
Proof.
  intros Hc H0 HS. destruct (solve_case OP A lq smax qp sol ws) as [[Hn _]|[(_ & _ & E)|(_ & _ & E)]]; [contradiction| |]; fold o C in E; rewrite E.
  - destruct (solve_abs_loop OP A C (start A C sol ws) (fun _ s => I (i_x s))) as (kk & s' & -> & H & _).
    + exact H0.
    + intros kk s _ IH _. destruct (abs_body_step OP A C kk s) as (w & Hw & Ew). pose proof (HS (i_x s) (i_bkp s) w Hw IH) as H. rewrite <- Ew in H. exact H.
    + destruct (finish_same OP A C kk (abs_exit A C kk s')) as (-> & _). destruct (abs_exit_same A C kk s') as (-> & _). exact H.
  - destruct (solve_delta_loop OP A C (start A C sol ws) (fun _ s => I (i_x s))) as (kk & s' & -> & H & _).
    + rewrite delta_init_x. exact H0.
    + intros kk s _ IH _. destruct (delta_body_step OP A C kk s) as (w & Hw & Ew & _). pose proof (HS (i_x s) (i_bkp s) w Hw IH) as H. rewrite <- Ew in H. exact H.
    + destruct (finish_same OP A C kk s') as (-> & _). exact H.
Qed.

Lemma view_in (P : R -> R -> Prop) x i c : (i <= dN D)%nat -> (c < nct D i)%nat -> (forall k, (k < tot_c D)%nat -> P (va_lam x k) (va_t x k)) -> P (s_lam (view D x) i c) (s_t (view D x) i c).
Proof. intros Hi Hc H. apply H. rewrite tot_c_nsum. apply win_off_lt; [lia|exact Hc]. Qed.

(** C42: with the multipliers and slacks clipped (t_lam_min = 2, the default of every mode) and positive thresholds, the solution returned by
    the solver has t > 0, lam > 0 on every imposed constraint and lam = 0 on every masked one -- both formulations, every status, every linear
    algebra (its solves may return anything). *)
Theorem C42_strictly_interior : constrained qp -> good_start -> ai A t_lam_min = 2%Z -> 0 < ar A lam_min -> 0 < ar A t_min ->
  forall i c, (i <= dN D)%nat -> (c < nct D i)%nat -> let s := view D (o_x o) in
  0 < s_t s i c /\ (q_mask qp i c = 1 -> 0 < s_lam s i c) /\ (q_mask qp i c = 0 -> s_lam s i c = 0).
Proof.
  intros Hc Hg Ht Hl0 Ht0 i c Hi Hcc. cbv zeta.
  assert (H : inside (o_x o)) by (apply solve_inv; [exact Hc|apply start_inside; exact Hg|intros x bkp w _ _; apply step_inside; assumption]).
  specialize (H (nsum i (nct D) + c)%nat). unfold flatc in H. rewrite cat_at in H by (first [exact Hcc|lia]). apply H.
  rewrite tot_c_nsum. apply win_off_lt; [lia|exact Hcc].
Qed.
(** C42: with separate primal and dual step lengths and complementarity target m = 0, lam >= 0 and t >= 0 without clipping too. *)
Theorem C42_nonnegative : constrained qp -> good_start -> ai A split_step = 1%Z ->
  (forall i c, (i <= dN D)%nat -> (c < nct D i)%nat -> q_m qp i c = 0) -> 0 <= ar A lam_min -> 0 <= ar A t_min ->
  forall i c, (i <= dN D)%nat -> (c < nct D i)%nat -> let s := view D (o_x o) in 0 <= s_lam s i c /\ 0 <= s_t s i c.
Proof.
  intros Hc Hg Hs Hmz Hl0 Ht0 i c Hi Hcc. cbv zeta.
  assert (Hz : c_mzero C = true).
  { change (c_mzero C) with (Reqb (VECNRM_INF (tot_c D) (flatc D (q_m qp)) 0) (0 / 1)). rewrite R_lit01.
    destruct (VECNRM_INF_R (tot_c D) (flatc D (q_m qp)) 0) as (_ & _ & [E|(k & Hk & E)]); rewrite E; [destruct (Reqb_spec 0 0); [reflexivity|lra]|].
    cbn [Nat.add]. rewrite tot_c_nsum in Hk. destruct (nsum_locate _ _ _ Hk) as (i' & c' & Hi' & Hc' & ->). unfold flatc. rewrite cat_at by assumption.
    rewrite Hmz by (first [exact Hc'|lia]). rewrite Rabs_R0. destruct (Reqb_spec 0 0); [reflexivity|lra]. }
  assert (H : nonneg (o_x o)) by (apply solve_inv; [exact Hc|apply inside_nonneg, start_inside; exact Hg|intros x bkp w Hw Hx; apply step_nonneg; assumption]).
  apply (view_in (fun l t => 0 <= l /\ 0 <= t)); assumption.
Qed.

(** C41: what SUCCESS means for the user, in exact arithmetic, delta formulation, clipped multipliers.  (z, pi, lam, t) is the returned solution. *)
Theorem C41_success_certificate : constrained qp -> good_start -> ai A t_lam_min = 2%Z -> 0 < ar A lam_min -> 0 < ar A t_min ->
  ai A abs_form = 0%Z -> (0 <= ai A iter_max)%Z -> qp_wf qp -> o_status o = SUCCESS ->
  let s := view D (o_x o) in let z := s_ux s in
  (forall i j, (i < dN D)%nat -> (j < dnx D (S i))%nat -> Rabs (dyn qp z i j) <= ar A res_b_max) /\
  (forall i c, (i <= dN D)%nat -> (c < nct D i)%nat -> q_mask qp i c <> 0 -> con qp z i c >= q_d qp i c - ar A res_d_max) /\
  (forall i k, (i <= dN D)%nat -> (k < nvt D i)%nat -> Rabs (kkt_g qp z (s_pi s) (s_lam s) i k) <= ar A res_g_max) /\
  (forall i c, (i <= dN D)%nat -> (c < nct D i)%nat -> q_mask qp i c <> 0 -> Rabs (s_lam s i c * s_t s i c - q_m qp i c - ar A tau_min) <= ar A res_m_max) /\
  (psd qp -> forall y, feasible qp y ->
     cost qp z - cost qp y <= ar A res_g_max * rsum (dN D + 1) (fun i => rsum (nvt D i) (fun k => Rabs (y i k - z i k)))
       + ar A res_b_max * rsum (dN D) (fun i => rsum (dnx D (S i)) (fun j => Rabs (s_pi s i j)))
       + ar A res_d_max * rsum (dN D + 1) (fun i => rsum (nct D i) (fun c => s_lam s i c))
       + rsum (dN D + 1) (fun i => rsum (nct D i) (fun c => q_mask qp i c * (q_m qp i c + ar A tau_min + ar A res_m_max)))).
Proof.
  intros Hc Hg Ht Hl0 Ht0 Ha Him Hwf HS. cbv zeta.
  pose proof (C42_strictly_interior Hc Hg Ht Hl0 Ht0) as Pos. cbv zeta in Pos.
  destruct (C23_success_certifies OP A lq smax qp sol ws Hc Ha Him) as ((r0 & rw0 & Hr) & Hmax & _ & Hcert). fold o C D in Hr, Hmax, Hcert. specialize (Hcert HS).
  destruct (C23_status OP A lq smax qp sol ws Hc) as (_ & _ & _ & Hst & _). fold o in Hst. destruct (Hst HS) as (_ & Hp & Hd). clear Hst.
  rsimp. assert (Tr : forall a b, Rleb a b = false -> Rltb b a = true) by (intros a b H; destruct (Rleb_spec a b); [discriminate|]; destruct (Rltb_spec b a); [reflexivity|lra]).
  specialize (Hcert (Tr _ _ Hp) (Tr _ _ Hd)).
  set (s := view D (o_x o)) in *. pose proof (C18_norms D (wk_res (o_w o))) as Nrm. rewrite <- Hmax in Nrm.
  destruct (o_max o) as [[[ng nb] nd] nm]. destruct Nrm as ((_ & Ng & _) & (_ & Nb & _) & (_ & Nd & _) & _).
  destruct Hcert as (C1 & C2 & C3 & C4 & _).
  assert (Fl : forall a b, Rltb a b = false -> b <= a) by (intros a b H; destruct (Rltb_spec a b); [discriminate|lra]).
  apply Fl in C1, C2, C3, C4.
  pose proof (C18_residuals qp s (valid_of C) r0 rw0 Hwf ctx_valid_ok) as (Rg & Rb & Rd & Rm). cbv zeta in Rg, Rb, Rd, Rm. rewrite <- Hr in Rg, Rb, Rd, Rm. fold D in Rg, Rb, Rd, Rm.
  set (r := wk_res (o_w o)) in *. clearbody r.
  assert (Eb : forall i j, (i < dN D)%nat -> (j < dnx D (S i))%nat -> Rabs (dyn qp (s_ux s) i j) <= ar A res_b_max).
  { intros i j Hi Hj. rewrite <- Rb by assumption. specialize (Nb i j Hi Hj). lra. }
  assert (Eg : forall i k, (i <= dN D)%nat -> (k < nvt D i)%nat -> Rabs (kkt_g qp (s_ux s) (s_pi s) (s_lam s) i k) <= ar A res_g_max).
  { intros i k Hi Hk. rewrite <- Rg by assumption. specialize (Ng i k ltac:(lia) Hk). lra. }
  assert (Ed : forall i c, (i <= dN D)%nat -> (c < nct D i)%nat -> q_mask qp i c = 1 -> Rabs (q_d qp i c + s_t s i c - con qp (s_ux s) i c) <= ar A res_d_max).
  { intros i c Hi Hcc E. pose proof (Nd i c ltac:(lia) Hcc) as H. rewrite Rd in H by assumption. unfold kkt_d in H. rewrite E, Rmult_1_l in H. lra. }
  assert (Em : forall i c, (i <= dN D)%nat -> (c < nct D i)%nat -> q_mask qp i c = 1 -> Rabs (s_lam s i c * s_t s i c - q_m qp i c - ar A tau_min) <= ar A res_m_max).
  { intros i c Hi Hcc E.
    pose proof (proj1 (proj2 (VECNRM_INF_R (tot_c D) (AXPY (tot_c D) (- ar A tau_min) (flatc D (q_mask qp)) 0 (flatc D (r_m r)) 0 (fun _ => 0 / 1) 0) 0)) (nsum i (nct D) + c)%nat) as H.
    assert (Hk : (nsum i (nct D) + c < tot_c D)%nat) by (rewrite tot_c_nsum; apply win_off_lt; [lia|exact Hcc]). specialize (H Hk). cbn [Nat.add] in H.
    unfold AXPY at 1 in H. rewrite vset0_in in H by exact Hk. cbn [Nat.add] in H. rsimp. unfold flatc at 1 2 in H. rewrite !cat_at in H by (first [exact Hcc|lia]). rewrite E, Rm in H by assumption.
    unfold kkt_m in H. rewrite E in H.
    replace (s_lam s i c * s_t s i c - q_m qp i c - ar A tau_min) with (1 * (1 * s_lam s i c * s_t s i c - q_m qp i c) + - ar A tau_min * 1) by lra. lra. }
  assert (M1 : forall i c, (i <= dN D)%nat -> (c < nct D i)%nat -> q_mask qp i c <> 0 -> q_mask qp i c = 1) by (intros i c Hi Hcc Hn; destruct (Hm i c Hi Hcc); [contradiction|assumption]).
  split; [exact Eb|]. split.
  { intros i c Hi Hcc Hn. specialize (Ed i c Hi Hcc (M1 i c Hi Hcc Hn)). destruct (Pos i c Hi Hcc) as (P1 & _). pose proof (Rle_abs (q_d qp i c + s_t s i c - con qp (s_ux s) i c)) as Q. lra. }
  split; [exact Eg|]. split; [intros i c Hi Hcc Hn; apply Em; auto|].
  intros Hpsd y Hy.
  pose proof (lagr_le_cost qp (s_pi s) (s_lam s) y Hy Hm) as L1.
  assert (Hlam : forall i c, (i <= dN D)%nat -> (c < nct D i)%nat -> q_mask qp i c <> 0 -> 0 <= s_lam s i c).
  { intros i c Hi Hcc Hn. destruct (Pos i c Hi Hcc) as (_ & P2 & _). specialize (P2 (M1 i c Hi Hcc Hn)). lra. }
  specialize (L1 Hlam).
  pose proof (C18_stationarity_is_gradient qp (s_ux s) (s_pi s) (s_lam s) y) as L2. cbv zeta in L2. fold D in L2.
  assert (L3 : 0 <= rsum (dN D + 1) (fun i => rsum (nvt D i) (fun k => rsum (nvt D i) (fun l => (y i k - s_ux s i k) * Hess qp i k l * (y i l - s_ux s i l))))).
  { apply rsum_nonneg. intros i Hi. apply (Hpsd i (fun k => y i k - s_ux s i k)). unfold D in *; lia. }
  assert (L4 : - (ar A res_g_max * rsum (dN D + 1) (fun i => rsum (nvt D i) (fun k => Rabs (y i k - s_ux s i k)))) <=
    rsum (dN D + 1) (fun i => rsum (nvt D i) (fun k => kkt_g qp (s_ux s) (s_pi s) (s_lam s) i k * (y i k - s_ux s i k)))).
  { rewrite <- rsum_scal, <- rsum_opp. apply rsum_le. intros i Hi. rewrite <- rsum_scal, <- rsum_opp. apply rsum_le. intros k Hk.
    specialize (Eg i k ltac:(lia) Hk). set (g := kkt_g _ _ _ _ _ _) in *. set (v := y i k - s_ux s i k) in *.
    assert (Hab : Rabs (g * v) <= ar A res_g_max * Rabs v) by (rewrite Rabs_mult; apply Rmult_le_compat_r; [apply Rabs_pos|exact Eg]).
    pose proof (Rle_abs (- (g * v))) as H. rewrite Rabs_Ropp in H. lra. }
  unfold lagr in L2 at 2. fold D in L2.
  assert (L5 : - (ar A res_b_max * rsum (dN D) (fun i => rsum (dnx D (S i)) (fun j => Rabs (s_pi s i j)))) <= rsum (dN D) (fun i => rsum (dnx D (S i)) (fun j => s_pi s i j * dyn qp (s_ux s) i j))).
  { rewrite <- rsum_scal, <- rsum_opp. apply rsum_le. intros i Hi. rewrite <- rsum_scal, <- rsum_opp. apply rsum_le. intros j Hj.
    specialize (Eb i j Hi Hj). set (g := dyn _ _ _ _) in *. set (v := s_pi s i j) in *.
    assert (Hab : Rabs (v * g) <= ar A res_b_max * Rabs v) by (rewrite Rabs_mult, Rmult_comm; apply Rmult_le_compat_r; [apply Rabs_pos|exact Eb]).
    pose proof (Rle_abs (- (v * g))) as H. rewrite Rabs_Ropp in H. lra. }
  assert (L6 : rsum (dN D + 1) (fun i => rsum (nct D i) (fun c => q_mask qp i c * s_lam s i c * (con qp (s_ux s) i c - q_d qp i c))) <=
    ar A res_d_max * rsum (dN D + 1) (fun i => rsum (nct D i) (fun c => s_lam s i c)) +
    rsum (dN D + 1) (fun i => rsum (nct D i) (fun c => q_mask qp i c * (q_m qp i c + ar A tau_min + ar A res_m_max)))).
  { rewrite <- rsum_scal, <- rsum_add. apply rsum_le. intros i Hi. rewrite <- rsum_scal, <- rsum_add. apply rsum_le. intros c Hcc.
    destruct (Pos i c ltac:(lia) Hcc) as (_ & P2 & P3). destruct (Hm i c ltac:(unfold D in *; lia) Hcc) as [E|E].
    - rewrite E, (P3 E). lra.
    - specialize (P2 E). specialize (Ed i c ltac:(lia) Hcc E). specialize (Em i c ltac:(lia) Hcc E). rewrite E.
      pose proof (Rle_abs (- (q_d qp i c + s_t s i c - con qp (s_ux s) i c))) as Q. rewrite Rabs_Ropp in Q.
      pose proof (Rle_abs (s_lam s i c * s_t s i c - q_m qp i c - ar A tau_min)) as Q2.
      assert (Q3 : s_lam s i c * (con qp (s_ux s) i c - q_d qp i c) <= s_lam s i c * (s_t s i c + ar A res_d_max)) by (apply Rmult_le_compat_l; lra). lra. }
  lra.
Qed.
End P.
Print Assumptions C42_strictly_interior.
Print Assumptions C42_nonnegative.
Print Assumptions C41_success_certificate.

(** The hypotheses of C41 / C42 are met: the SPEED preset on the QP  min u^2/2, 0 <= u <= 1  of IpmInitProps.v.  For the status: with the tolerances set to
    the residual norms of the initial iterate the solver stops there with SUCCESS. *)
Lemma start_ext {K} (A A' : arg R) C sol (ws : @ist R K) : ai A = ai A' -> ar A mu0 = ar A' mu0 -> ar A lam0_min = ar A' lam0_min -> ar A t0_min = ar A' t0_min ->
  start A C sol ws = start A' C sol ws.
Proof. intros E1 E2 E3 E4. unfold start, init_var, init_stage. rewrite E1, E2, E3, E4. reflexivity. Qed.
Lemma ai_wr (f : rarg) (v : R) x : ai (wr f v x) = ai x. Proof. reflexivity. Qed.
Lemma ar_wr (f : rarg) (v : R) x g : ar (wr f v x) g = if rarg_eqb g f then v else ar x g. Proof. reflexivity. Qed.
Lemma exi_qp_wf : qp_wf exi_qp.
Proof. intros i Hi; split; intros j Hj; [cbn in Hj |- *; lia|left; reflexivity]. Qed.
Section Ex.
Context {K : Type} (OP : kops (F := R) K) (a0 : arg R) (sol : vars R) (ws : @ist R K).
Let A0 := arg_set_default SPEED a0.
Let C := mk_ctx 0 10 exi_qp.
Let s0 := delta_init C (start A0 C sol ws).
Definition exA : arg R :=
  let '(a, b, c, _) := i_max s0 in
  wr res_g_max a (wr res_b_max b (wr res_d_max c (wr res_m_max (res_m_tau A0 C (wk_res (i_w s0))) (wr dual_gap_max (r_gap (wk_res (i_w s0))) A0)))).
Example C41_hypotheses_met : mask01 exi_qp /\ constrained exi_qp /\ good_start exA /\ ai exA t_lam_min = 2%Z /\ 0 < ar exA lam_min /\ 0 < ar exA t_min /\
  ai exA abs_form = 0%Z /\ (0 <= ai exA iter_max)%Z /\ qp_wf exi_qp /\ o_status (ipm_solve OP exA 0 10 exi_qp sol ws) = SUCCESS.
Proof.
  assert (Hc : constrained exi_qp).
  { exists 0%nat, 0%nat. split; [cbn; lia|]. split; [cbn; lia|]. cbn. destruct (Reqb_spec 1 (0 / 1)); [lra|reflexivity]. }
  assert (E : exists a b c e, i_max s0 = (a, b, c, e)) by (destruct (i_max s0) as [[[a b] c] e]; eauto). destruct E as (a & b & c & e & E).
  unfold exA. rewrite E. set (A := wr res_g_max a _).
  assert (Es : start A C sol ws = start A0 C sol ws) .
  { apply start_ext; unfold A; rewrite ?ai_wr, ?ar_wr; reflexivity. }
  assert (Ex : forall f, ai A f = ai A0 f) by (intros f; unfold A; rewrite !ai_wr; reflexivity).
  assert (Er : ar A alpha_min = ar A0 alpha_min /\ ar A lam_min = ar A0 lam_min /\ ar A t_min = ar A0 t_min /\ ar A mu0 = ar A0 mu0 /\ ar A tau_min = ar A0 tau_min)
    by (unfold A; rewrite !ar_wr; cbn [rarg_eqb]; repeat split).
  destruct Er as (Er1 & Er2 & Er3 & Er4 & Er5).
  assert (Ev : ar A res_g_max = a /\ ar A res_b_max = b /\ ar A res_d_max = c /\ ar A res_m_max = res_m_tau A0 C (wk_res (i_w s0)) /\ ar A dual_gap_max = r_gap (wk_res (i_w s0)))
    by (unfold A; rewrite !ar_wr; cbn [rarg_eqb]; repeat split).
  destruct Ev as (Ev1 & Ev2 & Ev3 & Ev4 & Ev5).
  assert (Et : res_m_tau A C (wk_res (i_w s0)) = res_m_tau A0 C (wk_res (i_w s0))) by (unfold res_m_tau; rewrite Er5; reflexivity).
  clearbody A.
  split; [intros i k _ _; right; reflexivity|]. split; [exact Hc|].
  split; [split; rewrite Ex; [intros _; rewrite Er4; cbn; lra|cbn; intros; lia]|]. rewrite !Ex, Er2, Er3.
  assert (Hp : 0 < 1 / IZR (10 ^ 16)) by (apply Rdiv_lt_0_compat; [lra|apply IZR_lt; reflexivity]).
  split; [reflexivity|]. split; [exact Hp|]. split; [exact Hp|]. split; [reflexivity|]. split; [cbn; lia|].
  split; [exact exi_qp_wf|].
  unfold ipm_solve. fold C. pose proof (proj1 (constrained_count exi_qp 0 10) Hc) as Hcc. fold C in Hcc. rewrite Hcc.
  rewrite Ex. change (negb (Z.eqb (ai A0 abs_form) 0)) with false. cbv iota. rewrite solve_delta_eq, Es. fold s0.
  assert (Hgo : delta_go A C 0 s0 = false).
  { unfold delta_go. rewrite E. assert (I : forall x y : R, x = y -> fltb x y = false) by (intros x y ->; rsimp; destruct (Rltb_spec y y); [lra|reflexivity]).
    rewrite (I _ _ Ev1), (I _ _ Ev2), (I _ _ Ev3), (I _ _ Ev5). rewrite Et, (I _ _ Ev4). cbn [orb]. rewrite !andb_false_r. reflexivity. }
  assert (Hfor : forall n, ipm_for (delta_go A C) (delta_body OP A C) n 0 s0 = (0%Z, s0)) by (intros [|n]; cbn [ipm_for]; rewrite ?Hgo; reflexivity).
  rewrite Hfor. destruct (finish_same OP A C 0 s0) as (_ & _ & Hst & _). rewrite Hst.
  unfold final_status. rewrite Ex. change (Z.eqb 0 (ai A0 iter_max)) with false. cbv iota.
  destruct (delta_init_al C (start A0 C sol ws)) as [E1 E2]. fold s0 in E1, E2. rewrite E1, E2, Er1.
  assert (Hal : fleb (wk_ap (i_w (start A0 C sol ws))) (ar A0 alpha_min) = false /\ fleb (wk_ad (i_w (start A0 C sol ws))) (ar A0 alpha_min) = false).
  { change (wk_ap (i_w (start A0 C sol ws))) with (1 / 1). change (wk_ad (i_w (start A0 C sol ws))) with (1 / 1). change (ar A0 alpha_min) with (1 / 1000000000000).
    rsimp. split; destruct (Rleb_spec (1 / 1) (1 / 1000000000000)); try reflexivity; lra. }
  destruct Hal as [-> ->]. cbn [orb]. unfold isnan. rsimp. destruct (Reqb_spec (i_mu s0) (i_mu s0)); [reflexivity|contradiction].
Qed.
End Ex.
