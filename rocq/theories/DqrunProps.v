(** DqrunProps.v -- C77: the dense QCQP interior-point solve with the dense KKT routines: every iteration multiplies the infeasibility by one factor.
    Model: DqiModel.v (DENSE_QCQP_IPM_SOLVE, delta formulation) with the KKT operations of DrunModel.v.  Specification: DqcSpec.v (dq_eq, dq_con,
    dq_kkt_g), DqrunSpec.v (dqgap, dqcurv, dimposed, dqrun_convex), [dremains] of DrunProps.v.  Exact arithmetic. *)
From Coq Require Import ZArith Bool Arith List Lia Reals Lra.
From Verif Require Import Base ArithF RSum Blas Blas2 QpDataProofs OcpModel ResSpec ResProofs ResProofs2 CoreModel CoreProofs ArgModel DenModel DenSpec DenProofs DenKktModel DenKktSpec
  QcqpModel QcqpSpec QcqpProofs QcqpProofs2 QcqpProofs3 QcqpLinSpec QcqpLin QcqpNewton QcqpMask DqcModel DqcSpec DqcProofs DqcProps DqlModel DqlSpec DqlProofs DqlProps
  DenIpmModel DenIpmProofs DenIpmProofs2 DqiModel DqiProofs DqiProps DenIpmInit DqiReal DqiInit DqiInitProps DenKktProps DrunModel DrunProofs DrunProofs2 DrunProofs4 DrunProps DqrunSpec DqrunProofs DqrunProofs2 DqrunProofs3 DqrunProofs4.
From Verif Require RunProofs3.
Local Open Scope R_scope.

(** the states of the loop, delta formulation: after the residuals of the initial iterate, then one pass after the other *)
Inductive dqpasses {K} (OP : dkops (F := R) K) (A QA : arg R) (qm : dqcqp R) (C : ctx) (s0 : @dqst R K) : Z -> @dqst R K -> Prop :=
| dqpasses_0 : dqpasses OP A QA qm C s0 0 (dqdelta_init qm C s0)
| dqpasses_S kk s : dqpasses OP A QA qm C s0 kk s -> dqi_go A QA qm C kk s = true -> dqpasses OP A QA qm C s0 (kk + 1) (dqi_body OP A qm C kk s).

Section P.
Variables (A QA : arg R) (dreg : R) (alg : Z) (sc : bool) (lqf : nat -> nat -> rm -> rm * rm -> rm * rm) (scr : nat -> rv) (fuel : nat) (lq smax : Z) (q : dqcqp R).
Variables (lqop : dkst R -> dqp R -> dsol R -> dsol R -> dsol R * dkst R) (unc : dkst R -> dqp R -> dsol R -> dsol R * dkst R).
Variables (sol : vars R) (ws : @dqst R (dkst R)).
Notation OP := (drun_ops A dreg alg sc lqf scr (S fuel) lqop unc).
Notation qm := (dqc_masked q).
Notation s0 := (dqi_start QA q sol (dqrun_ws ws)).
Notation C := (dqi_ctx lq smax q (da_qp (y_a s0))).
Let o := dqi_solve OP A QA lq smax q sol (dqrun_ws ws).
(** the initial iterate (DENSE_QCQP_INIT_VAR, see C76) *)
Let x0 := dqi_init QA qm (view sol).
Hypothesis Hs : dqrun_setup A QA dreg alg lqf lq q x0.
(** the embedded QP was created with the dimensions of this QCQP *)
Hypothesis Hd : dq_same_dims q (da_qp (y_a ws)).

Lemma passes_DQI kk s : dqpasses OP A QA qm C s0 kk s -> DQI A alg sc lqf q s.
Proof.
  induction 1 as [|kk s _ IH _].
  - exact (DQI_start A QA dreg alg sc lqf lq smax q sol ws Hs Hd).
  - exact (DQI_next A QA dreg alg sc lqf scr fuel lq smax q lqop unc sol ws Hs kk s IH).
Qed.
Lemma dact_lam s : dqinside q (y_x s) -> forall c, (c < dqnc q)%nat -> dq_act qm c * ds_lam (view (y_x (K := dkst R) s)) c = dq_act q c * ds_lam (view (y_x s)) c.
Proof.
  intros Hin c Hc. rewrite act_masked. unfold dq_act. destruct (dmask_lower_R q c) as [E1 E2]. destruct (dq_lower q c) eqn:E; [rewrite E1 by (left; reflexivity); reflexivity|].
  destruct (dlowslack_dec q c) as [L|L]; [|rewrite E2 by (try exact L; reflexivity); reflexivity].
  destruct (Hin c Hc) as (_ & _ & P3). change (ds_lam (view (y_x s)) c) with (va_lam (y_x s) c). rewrite P3 by (apply E1; right; exact L). lra.
Qed.
Lemma dg_masked s : dqinside q (y_x (K := dkst R) s) -> let X := view (y_x s) in forall k, dq_kkt_g qm (ds_v X) (ds_pi X) (ds_lam X) k = dq_kkt_g q (ds_v X) (ds_pi X) (ds_lam X) k.
Proof.
  intros Hin X k. unfold dq_kkt_g. f_equal. change (dqnc qm) with (dqnc q). apply rsum_ext. intros c Hc. unfold X. rewrite (dact_lam s Hin c Hc). reflexivity.
Qed.

(** C77: the right-hand side of every QP step is the residual of the QCQP at the current iterate, for the constraints the solver imposes. *)
Theorem C77_rhs kk (s : @dqst R (dkst R)) : dqpasses OP A QA qm C s0 kk s -> let X := view (y_x s) in let r := wk_res (i_w (y_i s)) in
  (forall k, (k < dqnv q)%nat -> dr_g r k = dq_kkt_g q (ds_v X) (ds_pi X) (ds_lam X) k) /\
  (forall j, (j < dq_ne q)%nat -> dr_b r j = dq_eq q (ds_v X) j) /\
  (forall c, (c < dqnc q)%nat -> dimposed q c -> dr_d r c = dqgap q X c) /\
  (forall c, (c < dqnc q)%nat -> dimposed q c -> dr_m r c = ds_lam X c * ds_t X c).
Proof.
  intros Hp X r. pose proof (passes_DQI kk s Hp) as HI. assert (Hin : dqinside q (y_x s)) by (eapply dsame_inside; [apply (dqi_same _ _ _ _ _ _ HI)|apply (dqi_in _ _ _ _ _ _ HI)]).
  destruct (dqi_resw _ _ _ _ _ _ HI) as (R1 & R2 & R3 & R4). fold X in R1, R2, R3, R4. fold r in R1, R2, R3, R4.
  split; [|split; [exact R2|split]].
  - intros k Hk. rewrite R1 by assumption. apply (dg_masked s Hin k).
  - intros c Hc Him. rewrite R3 by assumption. unfold dq_kkt_d, dqgap. change (dq_mask qm c) with (dqc_mask_lower q c). rewrite (proj1 (dimposed_mask q c Hc) Him).
    change (dq_d qm c) with (dq_d q c). change (dq_con qm (ds_v X) c) with (dq_con q (ds_v X) c). lra.
  - intros c Hc Him. rewrite R4 by assumption. unfold dq_kkt_m. rewrite act_masked. change (dq_mask qm c) with (dqc_mask_lower q c). rewrite (proj1 (dimposed_mask q c Hc) Him).
    change (dq_m qm c) with (dq_m q c). rewrite (du_m _ _ _ _ _ _ _ _ Hs) by assumption. lra.
Qed.

(** C77: one iteration.  From any state the loop reaches, the next iterate comes with step lengths p (primal) and be (dual): the violation of the
    equalities is multiplied by 1 - p; that of an imposed inequality too, plus the curvature of a quadratic constraint along the step, up to t_min; with a
    joint step (split_step <> 1), no regularisation and no multiplier held at lam_min, the gradient of the Lagrangian is multiplied by 1 - p up to the
    second-order term (change of the multipliers of the quadratic constraints) x (their Hessians) x (primal step). *)
Theorem C77_iteration kk (s : @dqst R (dkst R)) : dqpasses OP A QA qm C s0 kk s ->
  let X := view (y_x s) in let s' := dqi_body OP A qm C kk s in let X' := view (y_x s') in
  exists p be, 0 <= p <= 1 /\ 0 <= be <= 1 /\ 99 / 100 * wk_ap (i_w (y_i s')) <= p <= wk_ap (i_w (y_i s')) /\ (ai A split_step <> 1%Z -> p = be) /\
  (dq_exact_eq q dreg alg -> forall j, (j < dq_ne q)%nat -> dq_eq q (ds_v X') j = (1 - p) * dq_eq q (ds_v X) j) /\
  (forall c, (c < dqnc q)%nat -> dimposed q c ->
     0 <= dqgap q X' c - (1 - p) * dqgap q X c - dqcurv q (fun k => ds_v X' k - ds_v X k) c <= ar A t_min) /\
  (ar A reg_prim = 0 -> ai A split_step <> 1%Z -> (forall c, (c < dqnc q)%nat -> dimposed q c -> ar A lam_min < ds_lam X' c) ->
   forall k, (k < dqnv q)%nat ->
   dq_kkt_g q (ds_v X') (ds_pi X') (ds_lam X') k = (1 - p) * dq_kkt_g q (ds_v X) (ds_pi X) (ds_lam X) k +
   (if (k <? dq_nv q)%nat then rsum (dq_nq q) (fun j => (ds_lam X' (duq q j) - ds_lam X (duq q j)) * rsum (dq_nv q) (fun l => dq_Hsym q j k l * (ds_v X' l - ds_v X l))) else 0)).
Proof.
  intros Hp X s' X'. pose proof (passes_DQI kk s Hp) as HI. pose proof (DQI_next A QA dreg alg sc lqf scr fuel lq smax q lqop unc sol ws Hs kk s HI) as HI'.
  assert (Hin : dqinside q (y_x s)) by (eapply dsame_inside; [apply (dqi_same _ _ _ _ _ _ HI)|apply (dqi_in _ _ _ _ _ _ HI)]).
  assert (Hin' : dqinside q (y_x s')) by (eapply dsame_inside; [apply (dqi_same _ _ _ _ _ _ HI')|apply (dqi_in _ _ _ _ _ _ HI')]).
  destruct (d_contracts A QA dreg alg sc lqf scr fuel lq smax q lqop unc sol ws Hs Hd kk s HI) as (p & be & P1 & P2 & P3 & P4 & P5 & P6 & P7).
  exists p, be. split; [exact P1|]. split; [exact P2|]. split; [exact P3|]. split; [exact P4|]. split; [exact P5|]. split; [exact P6|].
  intros Er Hss Hl k Hk. specialize (P7 Er Hss Hl k Hk). pose proof (dg_masked _ Hin k) as G. pose proof (dg_masked _ Hin' k) as G'. cbv zeta in G, G'. unfold X', X. rewrite <- G, <- G'. exact P7.
Qed.

Definition dq_inv (kk : Z) (s : @dqst R (dkst R)) : Prop := dqpasses OP A QA qm C s0 kk s /\ (0 <= kk)%Z /\
  exists a : nat -> R, (forall k, (k < Z.to_nat kk)%nat -> 0 <= a k <= 1) /\ (forall k, (S k < Z.to_nat kk)%nat -> 99 / 100 * ar QA alpha_min <= a k) /\
  (forall k, (S k = Z.to_nat kk)%nat -> 99 / 100 * wk_ap (i_w (y_i s)) <= a k) /\
  (dq_exact_eq q dreg alg -> forall j, (j < dq_ne q)%nat -> dq_eq q (ds_v (view (y_x s))) j = RunProofs3.left a (Z.to_nat kk) * dq_eq q (ds_v x0) j) /\
  (forall c, (c < dqnc q)%nat -> dimposed q c -> dupper q c = false ->
     0 <= dqgap q (view (y_x s)) c - RunProofs3.left a (Z.to_nat kk) * dqgap q x0 c <= IZR kk * ar A t_min).
Lemma dq_inv_0 : dq_inv 0 (dqdelta_init qm C s0).
Proof.
  split; [constructor|]. split; [lia|]. exists (fun _ => 0). destruct (dqdelta_init_same qm C s0) as (E & _). rewrite E. change (Z.to_nat 0) with 0%nat. cbn [RunProofs3.left].
  split; [intros; lia|]. split; [intros; lia|]. split; [intros; lia|].
  change (ds_v (view (y_x s0))) with (ds_v x0). split.
  - intros _ j Hj. lra.
  - intros c Hc _ _. unfold dqgap. change (ds_v (view (y_x s0))) with (ds_v x0). change (ds_t (view (y_x s0))) with (ds_t x0). lra.
Qed.
Lemma dq_inv_S kk s : dq_inv kk s -> dqi_go A QA qm C kk s = true -> dq_inv (kk + 1) (dqi_body OP A qm C kk s).
Proof.
  intros (Hp & Hk & a & A1 & A2 & A3 & A4 & A5) Hgo. split; [constructor; assumption|]. split; [lia|].
  assert (Ha : ar QA alpha_min < wk_ap (i_w (y_i s))).
  { unfold dqi_go in Hgo. destruct (y_max s) as [[[ma mb] mc] md]. apply andb_prop in Hgo. destruct Hgo as [_ Hgo]. apply andb_prop in Hgo. destruct Hgo as [Hgo _]. rsimp.
    destruct (Rltb_spec (ar QA alpha_min) (wk_ap (i_w (y_i s)))) as [Hlt|]; [exact Hlt|discriminate]. }
  destruct (C77_iteration kk s Hp) as (p & be & P1 & P2 & P3 & P4 & P5 & P6 & _). cbv zeta in *. set (s' := dqi_body OP A qm C kk s) in *. clearbody s'.
  replace (Z.to_nat (kk + 1)) with (S (Z.to_nat kk)) by lia. set (n := Z.to_nat kk) in *. assert (En : IZR kk = INR n) by (unfold n; rewrite INR_IZR_INZ, Z2Nat.id by lia; reflexivity).
  exists (fun k => if (k =? n)%nat then p else a k).
  assert (L : RunProofs3.left (fun k => if (k =? n)%nat then p else a k) n = RunProofs3.left a n) by (apply RunProofs3.left_ext; intros k Hk'; destruct (Nat.eqb_spec k n); [lia|reflexivity]).
  cbn [RunProofs3.left]. rewrite L, Nat.eqb_refl.
  split; [intros k Hk'; destruct (Nat.eqb_spec k n); [exact P1|apply A1; lia]|].
  split; [intros k Hk'; destruct (Nat.eqb_spec k n); [lia|]; destruct (Nat.eq_dec (S k) n) as [E|E]; [specialize (A3 k E); lra|apply A2; lia]|].
  split; [intros k Hk'; destruct (Nat.eqb_spec k n); [lra|lia]|]. split.
  - intros Hex j Hj. rewrite P5, A4 by assumption. ring.
  - intros c Hc Him Hu. specialize (P6 c Hc Him). unfold dqcurv in P6. rewrite Hu in P6. specialize (A5 c Hc Him Hu). rewrite plus_IZR.
    set (g' := dqgap q (view (y_x s')) c) in *. set (g := dqgap q (view (y_x s)) c) in *. set (g0 := dqgap q x0 c) in *.
    assert (F : 0 <= (1 - p) * (g - RunProofs3.left a n * g0)) by (apply Rmult_le_pos; lra).
    assert (G : (1 - p) * (g - RunProofs3.left a n * g0) <= g - RunProofs3.left a n * g0) by (assert (0 <= p * (g - RunProofs3.left a n * g0)) by (apply Rmult_le_pos; lra); lra). lra.
Qed.
(** C77: the whole solve.  There are step lengths in [0, 1], none but the last below 0.99 alpha_min, such that the solution returned -- whatever the status
    and the number of iterations -- violates each equality by the initial violation times the product of (1 - step), and each imposed linear inequality by
    the same multiple, up to t_min per iteration. *)
Theorem C77_infeasibility : exists a : nat -> R, let n := Z.to_nat (yo_iter o) in let x := view (y_x (yo_s o)) in
  (forall k, (k < n)%nat -> 0 <= a k <= 1) /\ (forall k, (S k < n)%nat -> 99 / 100 * ar QA alpha_min <= a k) /\
  (forall k, (S k = n)%nat -> 99 / 100 * wk_ap (i_w (y_i (yo_s o))) <= a k) /\
  (dq_exact_eq q dreg alg -> forall j, (j < dq_ne q)%nat -> dq_eq q (ds_v x) j = dremains a n * dq_eq q (ds_v x0) j) /\
  (forall c, (c < dqnc q)%nat -> dimposed q c -> dupper q c = false ->
     0 <= dqgap q x c - dremains a n * dqgap q x0 c <= IZR (yo_iter o) * ar A t_min).
Proof.
  destruct (dqsolve_case OP A QA lq smax q sol (dqrun_ws ws)) as [[Hn _]|[(_ & Hn & _)|(_ & _ & E)]]; [exfalso; apply Hn, (du_con _ _ _ _ _ _ _ _ Hs)|exfalso; apply Hn, (du_abs _ _ _ _ _ _ _ _ Hs)|].
  unfold o. rewrite E. destruct (dqsolve_delta_loop OP A QA qm C s0 dq_inv dq_inv_0) as (kk & s' & -> & (_ & _ & a & H1 & H2 & H3 & H4 & H5) & _).
  { intros kk s _ H Hgo. apply dq_inv_S; assumption. }
  exists a. unfold dqi_finish. cbn [yo_iter yo_s]. cbv zeta. rewrite dremains_left. split; [exact H1|]. split; [exact H2|]. split; [exact H3|]. split; [exact H4|exact H5].
Qed.
(** C77: the equalities are never violated more than initially; satisfied initially, they are satisfied by every returned solution. *)
Theorem C77_equalities_never_worse j : dq_exact_eq q dreg alg -> (j < dq_ne q)%nat -> let x := view (y_x (yo_s o)) in
  Rabs (dq_eq q (ds_v x) j) <= Rabs (dq_eq q (ds_v x0) j) /\ (dq_eq q (ds_v x0) j = 0 -> dq_eq q (ds_v x) j = 0).
Proof.
  intros Hex Hj. cbv zeta. destruct C77_infeasibility as (a & A1 & _ & _ & A4 & _). cbv zeta in *. rewrite A4 by assumption. rewrite dremains_left. pose proof (RunProofs3.left_pos a _ A1) as P.
  split; [|intros ->; lra]. rewrite Rabs_mult, (Rabs_pos_eq (RunProofs3.left a _)) by lra. pose proof (Rabs_pos (dq_eq q (ds_v x0) j)). nra.
Qed.
(** C77: geometric rate.  Unless the solver stopped on a short step, n iterations leave at most (1 - 0.99 alpha_min)^n of the violation; always (..)^(n-1). *)
Theorem C77_rate j : dq_exact_eq q dreg alg -> 0 <= ar QA alpha_min <= 1 -> (j < dq_ne q)%nat -> let n := Z.to_nat (yo_iter o) in let x := view (y_x (yo_s o)) in
  (ar QA alpha_min <= wk_ap (i_w (y_i (yo_s o))) -> Rabs (dq_eq q (ds_v x) j) <= (1 - 99 / 100 * ar QA alpha_min) ^ n * Rabs (dq_eq q (ds_v x0) j)) /\
  Rabs (dq_eq q (ds_v x) j) <= (1 - 99 / 100 * ar QA alpha_min) ^ (n - 1) * Rabs (dq_eq q (ds_v x0) j).
Proof.
  intros Hex Ha Hj. cbv zeta. destruct C77_infeasibility as (a & A1 & A2 & A3 & A4 & _). cbv zeta in *. rewrite A4 by assumption. rewrite dremains_left.
  set (n := Z.to_nat (yo_iter o)) in *. clearbody n. pose proof (RunProofs3.left_pos a n A1) as P. rewrite Rabs_mult, (Rabs_pos_eq (RunProofs3.left a n)) by lra. pose proof (Rabs_pos (dq_eq q (ds_v x0) j)) as Q.
  assert (B : forall m, (S m <= n)%nat -> forall k, (k < m)%nat -> 99 / 100 * ar QA alpha_min <= a k <= 1) by (intros m Hmn k Hk; split; [apply A2; lia|apply A1; lia]).
  split.
  - intros Hp. apply Rmult_le_compat_r; [exact Q|]. apply RunProofs3.left_pow; [|lra]. intros k Hk. split; [|apply A1; exact Hk].
    destruct (Nat.eq_dec (S k) n) as [E|E]; [specialize (A3 k E); lra|apply A2; lia].
  - apply Rmult_le_compat_r; [exact Q|]. destruct n as [|n]; [cbn; lra|]. replace (S n - 1)%nat with n by lia. cbn [RunProofs3.left].
    pose proof (RunProofs3.left_pow a (99 / 100 * ar QA alpha_min) n (B n ltac:(lia)) ltac:(lra)) as L. pose proof (A1 n ltac:(lia)).
    assert (0 <= RunProofs3.left a n <= 1) by (apply RunProofs3.left_pos; intros k Hk; apply A1; lia). nra.
Qed.
End P.

(** C77: the hypothesis on the initial iterate holds for the cold and warm starts of the default initialisation (warm_start <= 1, t0_init neither 0 nor 1)
    when every constraint is imposed, but for the lower sides of the quadratic ones. *)
Theorem C77_default_start (QA : arg R) (q : dqcqp R) (sol : dsol R) : (ai QA warm_start <= 1)%Z -> 0 < ar QA mu0 -> ai QA t0_init <> 0%Z -> ai QA t0_init <> 1%Z ->
  (forall c, (c < dqnc q)%nat -> dimposed q c \/ dq_lower q c = true) ->
  forall c, (c < dqnc q)%nat -> let x0 := dqi_init QA (dqc_masked q) sol in 0 < ds_t x0 c /\ (dimposed q c -> 0 < ds_lam x0 c) /\ (~ dimposed q c -> ds_lam x0 c = 0).
Proof.
  intros Hw Hmu H0 H1 Hall c Hc. cbv zeta. destruct (C76_interior QA (dqc_masked q) sol c Hc) as (I & _). destruct (I Hw Hmu) as (T & L1 & L2). split; [exact T|]. split.
  - intros (E & _). apply L1. left. exact E.
  - intros N. destruct (Hall c Hc) as [Y|E]; [contradiction|]. apply L2; assumption.
Qed.

(** The hypotheses are met: default options of mode SPEED, either method, scaled or not, with reg_dual = 0; two variables, the equality v0 + 1 = 0 (violated
    initially), -1 <= v1 <= 1 and the quadratic constraint 1/2 (2 v0^2 + 2 v1^2) <= 2. *)
Definition xdrq : dqcqp R := mkdqc 2 1 1 0 1 0 (dkH 2) (fun _ k => match k with O => 1 | _ => 0 end) (fun _ _ => 0) (fun _ => dkH 2) (fun _ => 1) (fun _ => -1)
  (fun c => match c with 3%nat => -2 | _ => -1 end) (fun _ => 1) (fun _ => 0) (fun _ => 0) (fun _ => 1%nat) (fun _ => (-1)%Z).
Theorem C77_hypotheses_met alg sol : let A : arg R := den_default SPEED in dqrun_setup A A 0 alg dklq 0 xdrq (dqi_init A (dqc_masked xdrq) sol) /\ dq_exact_eq xdrq 0 alg /\ 0 <= ar A alpha_min <= 1 /\
  dimposed xdrq 0 /\ dupper xdrq 0 = false /\ dimposed xdrq 3 /\ dupper xdrq 3 = true /\ Rabs (dq_eq xdrq (ds_v (dqi_init A (dqc_masked xdrq) sol)) 0) = 1.
Proof.
  cbv zeta. set (A := den_default SPEED). assert (Hp : 0 < 1 / IZR (10 ^ 16)) by (apply Rdiv_lt_0_compat; [lra|apply IZR_lt; reflexivity]).
  assert (Hr : 0 <= ar A reg_prim) by (apply Rlt_le, Rdiv_lt_0_compat; [lra|apply IZR_lt; reflexivity]).
  assert (NL : forall c, ~ dlowslack xdrq c) by (intros c (j & _ & Hx & _); apply Hx; reflexivity).
  assert (EQ : forall p, dq_quad xdrq p = 2 * (p 0%nat * p 0%nat) + 2 * (p 1%nat * p 1%nat)) by (intros p; unfold dq_quad, dq_Hess, H_co, symL, dkH; cbn; ring).
  assert (Im : forall c, (c < 4)%nat -> dimposed xdrq c \/ dq_lower xdrq c = true).
  { intros c Hc. destruct c as [|[|[|[|c]]]]; [left|right|left|left|lia]; try reflexivity; (split; [reflexivity|split; [apply NL|reflexivity]]). }
  split; [|split; [right; right; reflexivity|split; [change (ar A alpha_min) with (1 / 1000000000000); lra|split; [|split; [reflexivity|split; [|split; [reflexivity|]]]]]]].
  - split.
    + split; [intros j Hj; cbn; lia|]. intros j Hj. left. reflexivity.
    + intros c _. right. reflexivity.
    + intros j j' Hj Hj' H1 H2. exfalso. apply H1. reflexivity.
    + reflexivity.
    + exists 0%nat. split; [cbn; lia|]. assert (E : dqc_mask_lower xdrq 0 = 1) by (apply (dmask_lower_R xdrq 0); [reflexivity|apply NL]). rewrite E. cbn. destruct (Reqb_spec 1 (0 / 1)); [lra|reflexivity].
    + set (reg := ar A reg_prim) in *. clearbody reg. split.
      * exact Hr.
      * intros k Hk. cbn in Hk. lia.
      * intros k Hk. cbn in Hk. lia.
      * intros j v Hj _. cbn in Hj. assert (j = 0%nat) as -> by lia. cbn. unfold dq_Hsym, dkH. cbn. nra.
      * intros p _. rewrite EQ. nra.
      * intros p _ N. rewrite EQ. pose proof (dk_nz p _ eq_refl N). assert (0 <= reg * rsum (dq_nv xdrq) (fun k => p k * p k)) by (apply Rmult_le_pos; [exact Hr|apply rsum_nonneg; intros; nra]). lra.
      * intros _ _. split; [lra|]. intros y (j & Hj & E). right. cbn in Hj. assert (j = 0%nat) as -> by lia. exists 0%nat. split; [cbn; lia|]. cbn. lra.
    + intros _ _. split; [cbn; lia|]. intros M prior HM. cbn in HM. split; [intros; cbn; lra|]. split; [|split].
      * intros i k Hi Hk. rewrite HM by assumption. cbn in Hi, Hk. assert (i = 0%nat) as -> by lia. destruct k as [|[|k]]; [| |lia]; cbn; lra.
      * intros i j Hi Hj. cbn in Hi, Hj. destruct i as [|[|i]]; [| |lia]; (destruct j as [|[|j]]; [| |lia]); cbn; lra.
      * intros i j Hi Hj. cbn in Hi, Hj. destruct i as [|[|i]]; [| |lia]; (destruct j as [|[|j]]; [| |lia]); cbn; lra.
    + reflexivity.
    + reflexivity.
    + exact Hp.
    + exact Hp.
    + apply C77_default_start; [cbn; lia|cbn; lra|discriminate|discriminate|exact Im].
    + left. reflexivity.
  - split; [reflexivity|split; [apply NL|reflexivity]].
  - split; [reflexivity|split; [apply NL|reflexivity]].
  - assert (E : ds_v (dqi_init A (dqc_masked xdrq) sol) 0%nat = 0).
    { unfold dqi_init. change (Z.leb 3 (ai A warm_start)) with false. change (Z.eqb (ai A warm_start) 2) with false. change (Z.eqb (ai A warm_start) 0) with true.
      change (Z.eqb (ai A t0_init) 0) with false. change (Z.eqb (ai A t0_init) 1) with false. cbv iota zeta. set (ux := VECSE _ _ _ _). assert (Eu : ux 0%nat = 0) by (unfold ux, VECSE; rewrite vset0_in by (cbn; lia); rsimp; apply R_lit01). clearbody ux.
      rewrite dqi_box_eq. match goal with |- context[init_box ?a ?b ?c ?d ?e ?f ?g] => pose proof (init_box_R a b c d e f (fst (fst g)) (snd (fst g)) (snd g)) as B; cbn [fst snd] in B; destruct (init_box a b c d e f g) as [[u1 l1] t1] end.
      destruct B as (_ & B2 & _). destruct (if Nat.ltb 0 _ then _ else _) as [l2 t2]. destruct (dqi_soft _ _ _ _) as [l3 t3]. destruct (dqi_quad _ _ _ _ _) as [l4 t4]. cbn [ds_v]. rewrite B2; [exact Eu|].
      intros j Hj. cbn. lia. }
    set (z := ds_v (dqi_init A (dqc_masked xdrq) sol)) in *. clearbody z. unfold dq_eq. cbn [xdrq dq_b dq_nv dq_A rsum]. rewrite E. rewrite Rabs_left by lra. lra.
Qed.

Print Assumptions C77_rhs.
Print Assumptions C77_iteration.
Print Assumptions C77_infeasibility.
Print Assumptions C77_equalities_never_worse.
Print Assumptions C77_rate.
Print Assumptions C77_default_start.
Print Assumptions C77_hypotheses_met.
