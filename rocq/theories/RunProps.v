(** RunProps.v -- C52: the interior point solve with the Riccati KKT routines shrinks the infeasibility by the same factor in every equation.
    Model: RunModel.v (the loop of IpmModel.v with the KKT routines of KktModel.v and SolveModel.v).  Specification: ResSpec.v (dyn, con, kkt_g), the
    definitions below.  Exact arithmetic. *)
From Coq Require Import ZArith Bool Arith List Lia Reals Lra.
From Verif Require Import Base ArithF RSum Blas Blas2 OcpModel ResSpec KktSpec ResProofs ResProps CoreModel CoreProofs KktModel KktProps ArgModel IpmModel IpmProofs IpmProofs2 IpmProps IpmReal SolveModel RunModel RunProofs RunProofs2 RunProofs3 RunProofs4.
Local Open Scope R_scope.

(** residual of an inequality (slack formulation): con(z) - t = d when zero *)
Definition gap_d (qp : oqp R) (s : osol R) (i c : nat) : R := q_d qp i c + s_t s i c - con qp (s_ux s) i c.
(** what remains after steps of relative lengths a 0, ..., a (n-1) *)
Fixpoint remains (a : nat -> R) (n : nat) : R := match n with O => 1 | S n => (1 - a n) * remains a n end.

(** the problem and the options *)
Record run_setup (A : arg R) (lq : Z) (qp : oqp R) : Prop := {
  ru_wf : qp_wf qp;
  ru_N : (1 <= dN (q_dim qp))%nat;
  ru_mask : mask01 qp;
  ru_soft : soft_inj qp;
  ru_m : forall i c, (i <= dN (q_dim qp))%nat -> (c < nct (q_dim qp) i)%nat -> q_m qp i c = 0;
  ru_con : constrained qp;
  ru_cx : run_convex (ar A reg_prim) qp;
  ru_tlm : ai A t_lam_min = 2%Z;
  ru_lam_min : 0 < ar A lam_min;
  ru_t_min : 0 < ar A t_min;
  ru_dual : ai A comp_dual_sol_eq <> 0%Z;
  ru_start : good_start A;
  ru_lq : lq = 0%Z \/ lq = 1%Z /\ ar A reg_prim = 0 }.

(** the states of the loop, delta formulation: after the residuals of the initial iterate, then one pass after the other *)
Inductive passes {K} (OP : kops (F := R) K) (A : arg R) (C : ctx) (sol : vars R) (ws : @ist R K) : Z -> @ist R K -> Prop :=
| passes_0 : passes OP A C sol ws 0 (delta_init C (start A C sol ws))
| passes_S kk s : passes OP A C sol ws kk s -> delta_go A C kk s = true -> passes OP A C sol ws (kk + 1) (delta_body OP A C kk s).

Section P.
Variables (A : arg R) (lq smax : Z) (qp : oqp R) (sq : bool) (fuel : nat).
Variables (lqop : kst R -> oqp R -> osol R -> osol R -> osol R * kst R) (unc : kst R -> oqp R -> osol R -> osol R * kst R).
Variables (sol : vars R) (ws : @ist R (kst R)).
Notation D := (q_dim qp).
Notation N := (dN D).
Notation OP := (run_ops A sq fuel lqop unc).
Notation C := (mk_ctx lq smax qp).
Let o := ipm_solve OP A lq smax qp sol ws.
Let x0 := init_var A qp (view D sol).
Hypothesis Hs : run_setup A lq qp.
(** the matrices of the dynamics the KKT routines work on are those of the QP *)
Hypothesis HBA : BAok qp (ks_w (wk_k (i_w ws))).

Lemma remains_left a n : remains a n = left a n. Proof. induction n as [|n IH]; cbn; [reflexivity|rewrite IH; reflexivity]. Qed.
Lemma start_dyn i j : (i < N)%nat -> (j < dnx D (S i))%nat -> dyn qp (s_ux (view D (i_x (start A C sol ws)))) i j = dyn qp (s_ux x0) i j.
Proof.
  intros Hi Hj. rewrite !(dyn_qp qp). rewrite (dyn_lin qp _ (s_ux x0) (s_ux x0) 0 i j); [lra| |exact Hi|exact Hj].
  intros i' k Hi' Hk. change (s_ux (view D (i_x (start A C sol ws))) i' k) with (s_ux (view D (flat D x0)) i' k). rewrite vf_ux by assumption. lra.
Qed.
Lemma start_rd i c : (i <= N)%nat -> (c < nct D i)%nat -> rd qp (view D (i_x (start A C sol ws))) i c = gap_d qp x0 i c.
Proof.
  intros Hi Hc. unfold rd, gap_d. rewrite (con_lin qp _ (s_ux x0) (s_ux x0) 0 i c).
  - change (s_t (view D (i_x (start A C sol ws))) i c) with (s_t (view D (flat D x0)) i c). rewrite vf_t by assumption. lra.
  - intros i' k Hi' Hk. change (s_ux (view D (i_x (start A C sol ws))) i' k) with (s_ux (view D (flat D x0)) i' k). rewrite vf_ux by assumption. lra.
  - exact Hi.
Qed.
Lemma tlm1 : ai A t_lam_min <> 1%Z. Proof. rewrite (ru_tlm _ _ _ Hs). discriminate. Qed.
Lemma op_fs k g b d m sl stp : kI qp k -> point qp sl -> mz qp m ->
  let r := op_fact_solve (kst R) OP k (with_rhs qp g b d m) sl stp in nsol A qp sl g b d m (fst r) /\ kFC A sq qp (snd r) sl b.
Proof. apply run_H_fs; try apply Hs. exact tlm1. Qed.
Lemma op_sv u k g b b0 d m sl stp : kFC A sq qp k sl b0 -> point qp sl -> mz qp m -> (u = true -> forall i j, (i < N)%nat -> (j < dnx D (S i))%nat -> b i j = b0 i j) ->
  let r := op_solve (kst R) OP u k (with_rhs qp g b d m) sl stp in nsol A qp sl g b d m (fst r) /\ kFC A sq qp (snd r) sl b0.
Proof. apply run_H_sv; try apply Hs. exact tlm1. Qed.

(** C52: one factor for all equations.  There are step lengths in [0, 1], none but the last below 0.99 alpha_min, such that the solution returned --
    whatever the status, the number of iterations, the predictor-corrector, refinement and formulation options -- violates each equation of the
    dynamics by the initial violation times the product of (1 - step), and each imposed inequality by the same multiple, up to t_min per iteration. *)
Theorem C52_infeasibility : exists a : nat -> R, let n := Z.to_nat (o_iter o) in
  (forall k, (k < n)%nat -> 0 <= a k <= 1) /\ (forall k, (S k < n)%nat -> 99 / 100 * ar A alpha_min <= a k) /\
  (forall k, (S k = n)%nat -> 99 / 100 * wk_ap (o_w o) <= a k) /\
  (forall i j, (i < N)%nat -> (j < dnx D (S i))%nat -> dyn qp (s_ux (view D (o_x o))) i j = remains a n * dyn qp (s_ux x0) i j) /\
  (forall i c, (i <= N)%nat -> (c < nct D i)%nat -> q_mask qp i c = 1 ->
     0 <= gap_d qp (view D (o_x o)) i c - remains a n * gap_d qp x0 i c <= IZR (o_iter o) * ar A t_min).
Proof.
  destruct (solve_run OP A lq smax qp (ru_mask _ _ _ Hs) (ru_wf _ _ _ Hs) (ru_m _ _ _ Hs) (ru_tlm _ _ _ Hs) (ru_lam_min _ _ _ Hs) (ru_t_min _ _ _ Hs)
    (kI qp) (kFC A sq qp) (kFC_I A sq qp) op_fs op_sv (ru_lq _ _ _ Hs) sol ws HBA (ru_start _ _ _ Hs) (ru_con _ _ _ Hs)) as (s & E1 & E2 & _ & _ & _ & a & A1 & A2 & A3 & A4 & A5).
  unfold o. exists a. cbv zeta. rewrite remains_left, E1, E2. split; [exact A1|]. split; [exact A2|]. split; [exact A3|]. split.
  - intros i j Hi Hj. rewrite A4, start_dyn by assumption. reflexivity.
  - intros i c Hi Hc E. specialize (A5 i c Hi Hc E). rewrite start_rd in A5 by assumption. exact A5.
Qed.
(** C52: the dynamics are never violated more than initially; satisfied initially, they are satisfied by every returned solution. *)
Theorem C52_dynamics_never_worse i j : (i < N)%nat -> (j < dnx D (S i))%nat ->
  Rabs (dyn qp (s_ux (view D (o_x o))) i j) <= Rabs (dyn qp (s_ux x0) i j) /\ (dyn qp (s_ux x0) i j = 0 -> dyn qp (s_ux (view D (o_x o))) i j = 0).
Proof.
  intros Hi Hj. destruct C52_infeasibility as (a & A1 & _ & _ & A4 & _). cbv zeta in *. rewrite A4 by assumption. rewrite remains_left. pose proof (left_pos a _ A1) as P.
  split; [|intros ->; lra]. rewrite Rabs_mult, (Rabs_pos_eq (left a _)) by lra. pose proof (Rabs_pos (dyn qp (s_ux x0) i j)). nra.
Qed.
(** C52: geometric rate.  Unless the solver stopped on a short step, n iterations leave at most (1 - 0.99 alpha_min)^n of the violation; always (..)^(n-1). *)
Theorem C52_rate i j : 0 <= ar A alpha_min <= 1 -> (i < N)%nat -> (j < dnx D (S i))%nat -> let n := Z.to_nat (o_iter o) in
  (ar A alpha_min <= wk_ap (o_w o) -> Rabs (dyn qp (s_ux (view D (o_x o))) i j) <= (1 - 99 / 100 * ar A alpha_min) ^ n * Rabs (dyn qp (s_ux x0) i j)) /\
  Rabs (dyn qp (s_ux (view D (o_x o))) i j) <= (1 - 99 / 100 * ar A alpha_min) ^ (n - 1) * Rabs (dyn qp (s_ux x0) i j).
Proof.
  intros Ha Hi Hj. cbv zeta. destruct C52_infeasibility as (a & A1 & A2 & A3 & A4 & _). cbv zeta in *. rewrite A4 by assumption. rewrite remains_left.
  set (n := Z.to_nat (o_iter o)) in *. clearbody n. pose proof (left_pos a n A1) as P. rewrite Rabs_mult, (Rabs_pos_eq (left a n)) by lra. pose proof (Rabs_pos (dyn qp (s_ux x0) i j)) as Q.
  assert (B : forall m, (S m <= n)%nat -> forall k, (k < m)%nat -> 99 / 100 * ar A alpha_min <= a k <= 1) by (intros m Hmn k Hk; split; [apply A2; lia|apply A1; lia]).
  split.
  - intros Hp. apply Rmult_le_compat_r; [exact Q|]. apply left_pow; [|lra]. intros k Hk. split; [|apply A1; exact Hk].
    destruct (Nat.eq_dec (S k) n) as [E|E]; [specialize (A3 k E); lra|apply A2; lia].
  - apply Rmult_le_compat_r; [exact Q|]. destruct n as [|n]; [cbn; lra|]. replace (S n - 1)%nat with n by lia. cbn [left].
    pose proof (left_pow a (99 / 100 * ar A alpha_min) n (B n ltac:(lia)) ltac:(lra)) as L. pose proof (A1 n ltac:(lia)).
    assert (0 <= left a n <= 1) by (apply left_pos; intros k Hk; apply A1; lia). nra.
Qed.

(** C52: one iteration of the loop, stationarity included.  From any state the loop reaches, the next iterate x' comes with step lengths p (primal) and
    q (dual): dynamics and inequalities as above; with a joint step (split_step <> 1), no regularisation and no multiplier held at lam_min, the gradient of
    the Lagrangian is multiplied by 1 - p too. *)
Theorem C52_iteration kk (s : @ist R (kst R)) : passes OP A C sol ws kk s -> delta_go A C kk s = true ->
  let x := view D (i_x s) in let s' := delta_body OP A C kk s in let x' := view D (i_x s') in
  exists p q, 0 <= p <= 1 /\ 0 <= q <= 1 /\ 99 / 100 * wk_ap (i_w s') <= p <= wk_ap (i_w s') /\ (ai A split_step <> 1%Z -> p = q) /\
  (forall i j, (i < N)%nat -> (j < dnx D (S i))%nat -> dyn qp (s_ux x') i j = (1 - p) * dyn qp (s_ux x) i j) /\
  (forall i c, (i <= N)%nat -> (c < nct D i)%nat -> q_mask qp i c = 1 -> 0 <= gap_d qp x' i c - (1 - p) * gap_d qp x i c <= ar A t_min) /\
  (ar A reg_prim = 0 -> ai A split_step <> 1%Z -> (forall i c, (i <= N)%nat -> (c < nct D i)%nat -> q_mask qp i c = 1 -> ar A lam_min < s_lam x' i c) ->
   forall i k, (i <= N)%nat -> (k < nvt D i)%nat -> kkt_g qp (s_ux x') (s_pi x') (s_lam x') i k = (1 - p) * kkt_g qp (s_ux x) (s_pi x) (s_lam x) i k).
Proof.
  intros Hp Hgo. cbv zeta.
  assert (Inv : kI qp (wk_k (i_w s)) /\ inside qp (i_x s) /\ reported C (i_x s) (i_w s) (i_max s) (i_mu s)).
  { clear Hgo. induction Hp as [|kk s Hp IH Hgo].
    - split; [|split; [|apply delta_init_rep]].
      + assert (Ek : wk_k (i_w (delta_init C (start A C sol ws))) = wk_k (i_w ws)) by (unfold delta_init, call_res; destruct (res_compute _ _ _ _ _); reflexivity). rewrite Ek. exact HBA.
      + rewrite delta_init_x. apply start_inside; apply Hs.
    - destruct IH as (I1 & I2 & I3).
      destruct (delta_body_run OP A lq smax qp (ru_mask _ _ _ Hs) (ru_wf _ _ _ Hs) (kI qp) (kFC A sq qp) (kFC_I A sq qp) op_fs op_sv (ru_lq _ _ _ Hs) kk s I1 I2 I3) as (w & _ & _ & W3 & _ & _ & W6).
      split; [exact W6|]. split; [|apply delta_body_rep].
      assert (Ei : i_x (delta_body OP A C kk s) = fst (take_step A C (i_x s) (i_bkp s) w)) by (rewrite <- W3; reflexivity). rewrite Ei. apply (step_inside A lq smax qp); apply Hs. }
  destruct Inv as (I1 & I2 & I3).
  destruct (delta_body_run OP A lq smax qp (ru_mask _ _ _ Hs) (ru_wf _ _ _ Hs) (kI qp) (kFC A sq qp) (kFC_I A sq qp) op_fs op_sv (ru_lq _ _ _ Hs) kk s I1 I2 I3) as (w & W1 & W2 & W3 & W4 & W5 & _).
  assert (Ei : i_x (delta_body OP A C kk s) = fst (take_step A C (i_x s) (i_bkp s) w)) by (rewrite <- W3; reflexivity).
  pose proof (step_contracts A lq smax qp (ru_mask _ _ _ Hs) (ru_m _ _ _ Hs) (ru_tlm _ _ _ Hs) (ru_t_min _ _ _ Hs) (i_x s) (i_bkp s) w I2 W1 W2) as S.
  pose proof (step_view A lq smax qp (ru_mask _ _ _ Hs) (ru_tlm _ _ _ Hs) (i_x s) (i_bkp s) w) as V. cbv zeta in V.
  destruct (damped (wk_ap w) (wk_ad w)) as [p q]. destruct S as ((S1 & S2 & S3) & B1 & B2 & B3 & B4 & B5). destruct V as (_ & _ & V3 & _).
  rewrite <- Ei in S1, S2, S3, V3. exists p, q. rewrite W4. split; [lra|]. split; [lra|]. split; [lra|]. split; [exact B5|]. split; [exact S1|]. split; [exact S2|].
  intros Er Hss Hl. apply S3; [exact Er|exact (B5 Hss)|]. intros i c Hi Hc E. specialize (Hl i c Hi Hc E). rewrite V3, E in Hl by assumption. cbv zeta in Hl.
  destruct (Rleb_spec (s_lam (view D (i_x s)) i c + q * s_lam (view D (wk_stp w)) i c) (ar A lam_min)); lra.
Qed.
End P.

(** The hypotheses are met: default options of mode SPEED with t0_init = 1, x1 = u0 + 3 with soft and hard bounds (KktProps.kxqp with m = 0); the dynamics are violated initially. *)
Definition rxqp : oqp R := mkqp kxD (fun _ _ _ => 1) (fun _ _ _ => 1) (fun _ _ _ => 0) (fun _ _ => 3) (fun _ _ => 2)
  (fun _ _ => -1) (fun _ _ => 1) (fun _ _ => 0) (fun _ _ => 1) (fun _ _ => 0%nat) (fun i j => match i with 0%nat => 0%Z | _ => (-1)%Z end).
Definition rxA (a0 : arg R) : arg R := wi t0_init 1 (arg_set_default SPEED a0).
Theorem C52_hypotheses_met (a0 : arg R) sol : run_setup (rxA a0) 0 rxqp /\ 0 <= ar (rxA a0) alpha_min <= 1 /\
  (ai (arg_set_default BALANCE a0) split_step <> 1)%Z /\ dyn rxqp (s_ux (init_var (rxA a0) rxqp (view kxD sol))) 0 0 = 3.
Proof.
  destruct C27_hypotheses_met as (E1 & E2 & E3 & E4 & E5 & _).
  assert (Hp : 0 < 1 / IZR (10 ^ 16)) by (apply Rdiv_lt_0_compat; [lra|apply IZR_lt; reflexivity]).
  assert (Hr : 0 <= ar (rxA a0) reg_prim) by (apply Rlt_le, Rdiv_lt_0_compat; [lra|apply IZR_lt; reflexivity]).
  split; [|split; [|split; [discriminate|]]].
  - split.
    + exact E1.
    + exact E2.
    + intros i c _ _. right. reflexivity.
    + exact E3.
    + reflexivity.
    + exists 0%nat, 0%nat. split; [cbn; lia|]. split; [cbn; lia|]. cbn. destruct (Reqb_spec 1 (0 / 1)); [lra|reflexivity].
    + set (reg := ar (rxA a0) reg_prim) in *. clearbody reg. split.
      * intros i v Hi Hv. pose proof (ic_H _ _ E5 i v Hi Hv) as H. change (a_reg kxa) with 0 in H. change (nux rxqp) with (nux kxqp). change (Hess rxqp) with (Hess kxqp).
        assert (0 <= reg * rsum (nux kxqp i) (fun k => v k * v k)) by (apply Rmult_le_pos; [exact Hr|apply rsum_nonneg; intros; nra]). lra.
      * intros i k _ _. cbn. lra.
      * intros i k _ _. right. reflexivity.
    + reflexivity.
    + exact Hp.
    + exact Hp.
    + discriminate.
    + split; [intros _; cbn; lra|cbn; intros; lia].
    + left. reflexivity.
  - change (ar (rxA a0) alpha_min) with (1 / 1000000000000). lra.
  - cbv -[Rplus Rmult Rminus Ropp IZR Rinv Rdiv sqrt]. lra.
Qed.
Print Assumptions C52_infeasibility.
Print Assumptions C52_dynamics_never_worse.
Print Assumptions C52_rate.
Print Assumptions C52_iteration.
Print Assumptions C52_hypotheses_met.
