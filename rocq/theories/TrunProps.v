(** TrunProps.v -- C71: the tree interior point solve with the tree Riccati KKT routines shrinks the infeasibility by the same factor along every edge.
    Model: TrunModel.v (the loop of TipmModel.v with the KKT routines of TreeKktModel.v).  Specification: TreeSpec.v (tdyn, tkkt_g), ResSpec.v (con),
    RunProps.v (gap_d: residual of an inequality, remains: product of the 1 - step), the definitions below.  Exact arithmetic. *)
From Coq Require Import ZArith Bool Arith List Lia Reals Lra.
From Verif Require Import Base ArithF RSum Blas Blas2 OcpModel ResSpec KktSpec ResProofs ResProps CoreModel CoreProofs KktModel KktProps ArgModel IpmModel IpmProofs IpmProofs2 IpmProps IpmReal SolveModel RunModel RunProofs RunProofs2 RunProofs3 RunProofs4 RunProps.
From Verif Require Import TreeModel TreeSpec TreeProofs TreeProps TreeKktModel TreeKktProps TipmModel TipmProofs TipmProofs2 TipmProps TipmReal TrunModel TrunProofs TrunProofs2 TrunProofs3 TrunProofs4.
Local Open Scope R_scope.

(** the problem and the options *)
Record trun_setup (A : arg R) (T : ttree) (lq : Z) (qp : oqp R) : Prop := {
  tru_wf : qp_wf qp;
  tru_tree : tree_ok (dN (q_dim qp) + 1) T;
  tru_mask : mask01 qp;
  tru_soft : soft_inj qp;
  tru_m : forall i c, (i <= dN (q_dim qp))%nat -> (c < nct (q_dim qp) i)%nat -> q_m qp i c = 0;
  tru_con : constrained qp;
  tru_cx : run_convex (ar A reg_prim) qp;
  tru_tlm : ai A t_lam_min = 2%Z;
  tru_lam_min : 0 < ar A lam_min;
  tru_t_min : 0 < ar A t_min;
  tru_dual : ai A comp_dual_sol_eq <> 0%Z;
  tru_start : good_start A;
  tru_lq : lq = 0%Z \/ lq = 1%Z /\ ar A reg_prim = 0 }.

(** the states of the loop, delta formulation: after the residuals of the initial iterate, then one pass after the other *)
Inductive tpasses {K} (OP : kops (F := R) K) (A : arg R) (T : ttree) (C : ctx) (sol : vars R) (ws : @ist R K) : Z -> @ist R K -> Prop :=
| tpasses_0 : tpasses OP A T C sol ws 0 (tdelta_init T C (tstart A C sol ws))
| tpasses_S kk s : tpasses OP A T C sol ws kk s -> delta_go A C kk s = true -> tpasses OP A T C sol ws (kk + 1) (tdelta_body OP A T C kk s).

Section P.
Variables (A : arg R) (T : ttree) (lq smax : Z) (qp : oqp R).
Variables (lqop : kst R -> oqp R -> osol R -> osol R -> osol R * kst R) (fact : kst R -> oqp R -> osol R -> kst R) (unc : kst R -> oqp R -> osol R -> osol R * kst R).
Variables (sol : vars R) (ws : @ist R (kst R)).
Notation D := (q_dim qp).
Notation N := (dN D).
Notation OP := (trun_ops A T lqop fact unc).
Notation C := (mk_ctx lq smax qp).
Let o := tipm_solve OP A T lq smax qp sol ws.
Let x0 := tinit_var A qp (view D sol).
Hypothesis Hs : trun_setup A T lq qp.
Lemma tremains_left a n : remains a n = left a n. Proof. induction n as [|n IH]; cbn; [reflexivity|rewrite IH; reflexivity]. Qed.
Lemma start_dyn i jj j : (i <= N)%nat -> (jj < t_nk T i)%nat -> (j < dnx D (t_kid T i jj))%nat -> tdyn qp (s_ux (view D (i_x (tstart A C sol ws)))) i (t_kid T i jj) j = tdyn qp (s_ux x0) i (t_kid T i jj) j.
Proof.
  intros Hi Hjj Hj. rewrite !(tdyn_qp qp). rewrite (tdyn_lin T qp (tru_tree _ _ _ _ Hs) _ (s_ux x0) (s_ux x0) 0 i jj j); [lra| |exact Hi|exact Hjj|exact Hj].
  intros i' k Hi' Hk. change (s_ux (view D (i_x (tstart A C sol ws))) i' k) with (s_ux (view D (flat D x0)) i' k). rewrite vf_ux by assumption. lra.
Qed.
Lemma start_rd i c : (i <= N)%nat -> (c < nct D i)%nat -> rd qp (view D (i_x (tstart A C sol ws))) i c = gap_d qp x0 i c.
Proof.
  intros Hi Hc. unfold rd, gap_d. rewrite (con_lin qp _ (s_ux x0) (s_ux x0) 0 i c).
  - change (s_t (view D (i_x (tstart A C sol ws))) i c) with (s_t (view D (flat D x0)) i c). rewrite vf_t by assumption. lra.
  - intros i' k Hi' Hk. change (s_ux (view D (i_x (tstart A C sol ws))) i' k) with (s_ux (view D (flat D x0)) i' k). rewrite vf_ux by assumption. lra.
  - exact Hi.
Qed.
Lemma tlm1 : ai A t_lam_min <> 1%Z. Proof. rewrite (tru_tlm _ _ _ _ Hs). discriminate. Qed.
Lemma op_fs k g b d m sl stp : tkI k -> point qp sl -> mz qp m ->
  let r := op_fact_solve (kst R) OP k (with_rhs qp g b d m) sl stp in nsol A T qp sl g b d m (fst r) /\ tkFC A T qp (snd r) sl b.
Proof. apply trun_H_fs; try apply Hs. exact tlm1. Qed.
Lemma op_sv u k g b b0 d m sl stp : tkFC A T qp k sl b0 -> point qp sl -> mz qp m -> (u = true -> forall i j, (i < N)%nat -> (j < dnx D (S i))%nat -> b i j = b0 i j) ->
  let r := op_solve (kst R) OP u k (with_rhs qp g b d m) sl stp in nsol A T qp sl g b d m (fst r) /\ tkFC A T qp (snd r) sl b0.
Proof. apply trun_H_sv; try apply Hs. exact tlm1. Qed.

(** C71: one factor for all equations.  There are step lengths in [0, 1], none but the last below 0.99 alpha_min, such that the solution returned --
    whatever the status, the number of iterations, the predictor-corrector, refinement and formulation options -- violates each equation of the
    dynamics by the initial violation times the product of (1 - step), and each imposed inequality by the same multiple, up to t_min per iteration. *)
Theorem C71_infeasibility : exists a : nat -> R, let n := Z.to_nat (o_iter o) in
  (forall k, (k < n)%nat -> 0 <= a k <= 1) /\ (forall k, (S k < n)%nat -> 99 / 100 * ar A alpha_min <= a k) /\
  (forall k, (S k = n)%nat -> 99 / 100 * wk_ap (o_w o) <= a k) /\
  (forall i jj j, (i <= N)%nat -> (jj < t_nk T i)%nat -> (j < dnx D (t_kid T i jj))%nat -> tdyn qp (s_ux (view D (o_x o))) i (t_kid T i jj) j = remains a n * tdyn qp (s_ux x0) i (t_kid T i jj) j) /\
  (forall i c, (i <= N)%nat -> (c < nct D i)%nat -> q_mask qp i c = 1 ->
     0 <= gap_d qp (view D (o_x o)) i c - remains a n * gap_d qp x0 i c <= IZR (o_iter o) * ar A t_min).
Proof.
  destruct (solve_run OP A T lq smax qp (tru_mask _ _ _ _ Hs) (tru_wf _ _ _ _ Hs) (tru_tree _ _ _ _ Hs) (tru_m _ _ _ _ Hs) (tru_tlm _ _ _ _ Hs) (tru_lam_min _ _ _ _ Hs) (tru_t_min _ _ _ _ Hs)
    (tkI) (tkFC A T qp) (fun _ _ _ _ => I) op_fs op_sv (tru_lq _ _ _ _ Hs) sol ws I (tru_start _ _ _ _ Hs) (tru_con _ _ _ _ Hs)) as (s & E1 & E2 & _ & _ & _ & a & A1 & A2 & A3 & A4 & A5).
  unfold o. exists a. cbv zeta. rewrite tremains_left, E1, E2. split; [exact A1|]. split; [exact A2|]. split; [exact A3|]. split.
  - intros i jj j Hi Hjj Hj. rewrite A4, start_dyn by assumption. reflexivity.
  - intros i c Hi Hc E. specialize (A5 i c Hi Hc E). rewrite start_rd in A5 by assumption. exact A5.
Qed.
(** C71: the dynamics are never violated more than initially; satisfied initially, they are satisfied by every returned solution. *)
Theorem C71_dynamics_never_worse i jj j : (i <= N)%nat -> (jj < t_nk T i)%nat -> (j < dnx D (t_kid T i jj))%nat ->
  Rabs (tdyn qp (s_ux (view D (o_x o))) i (t_kid T i jj) j) <= Rabs (tdyn qp (s_ux x0) i (t_kid T i jj) j) /\ (tdyn qp (s_ux x0) i (t_kid T i jj) j = 0 -> tdyn qp (s_ux (view D (o_x o))) i (t_kid T i jj) j = 0).
Proof.
  intros Hi Hjj Hj. destruct C71_infeasibility as (a & A1 & _ & _ & A4 & _). cbv zeta in *. rewrite A4 by assumption. rewrite tremains_left. pose proof (left_pos a _ A1) as P.
  split; [|intros ->; lra]. rewrite Rabs_mult, (Rabs_pos_eq (left a _)) by lra. pose proof (Rabs_pos (tdyn qp (s_ux x0) i (t_kid T i jj) j)). nra.
Qed.
(** C71: geometric rate.  Unless the solver stopped on a short step, n iterations leave at most (1 - 0.99 alpha_min)^n of the violation; always (..)^(n-1). *)
Theorem C71_rate i jj j : 0 <= ar A alpha_min <= 1 -> (i <= N)%nat -> (jj < t_nk T i)%nat -> (j < dnx D (t_kid T i jj))%nat -> let n := Z.to_nat (o_iter o) in
  (ar A alpha_min <= wk_ap (o_w o) -> Rabs (tdyn qp (s_ux (view D (o_x o))) i (t_kid T i jj) j) <= (1 - 99 / 100 * ar A alpha_min) ^ n * Rabs (tdyn qp (s_ux x0) i (t_kid T i jj) j)) /\
  Rabs (tdyn qp (s_ux (view D (o_x o))) i (t_kid T i jj) j) <= (1 - 99 / 100 * ar A alpha_min) ^ (n - 1) * Rabs (tdyn qp (s_ux x0) i (t_kid T i jj) j).
Proof.
  intros Ha Hi Hjj Hj. cbv zeta. destruct C71_infeasibility as (a & A1 & A2 & A3 & A4 & _). cbv zeta in *. rewrite A4 by assumption. rewrite tremains_left.
  set (n := Z.to_nat (o_iter o)) in *. clearbody n. pose proof (left_pos a n A1) as P. rewrite Rabs_mult, (Rabs_pos_eq (left a n)) by lra. pose proof (Rabs_pos (tdyn qp (s_ux x0) i (t_kid T i jj) j)) as Q.
  assert (B : forall m, (S m <= n)%nat -> forall k, (k < m)%nat -> 99 / 100 * ar A alpha_min <= a k <= 1) by (intros m Hmn k Hk; split; [apply A2; lia|apply A1; lia]).
  split.
  - intros Hp. apply Rmult_le_compat_r; [exact Q|]. apply left_pow; [|lra]. intros k Hk. split; [|apply A1; exact Hk].
    destruct (Nat.eq_dec (S k) n) as [E|E]; [specialize (A3 k E); lra|apply A2; lia].
  - apply Rmult_le_compat_r; [exact Q|]. destruct n as [|n]; [cbn; lra|]. replace (S n - 1)%nat with n by lia. cbn [left].
    pose proof (left_pow a (99 / 100 * ar A alpha_min) n (B n ltac:(lia)) ltac:(lra)) as L. pose proof (A1 n ltac:(lia)).
    assert (0 <= left a n <= 1) by (apply left_pos; intros k Hk; apply A1; lia). nra.
Qed.

(** C71: one iteration of the loop, stationarity included.  From any state the loop reaches, the next iterate x' comes with step lengths p (primal) and
    q (dual): dynamics and inequalities as above; with a joint step (split_step <> 1), no regularisation and no multiplier held at lam_min, the gradient of
    the Lagrangian is multiplied by 1 - p too. *)
Theorem C71_iteration kk (s : @ist R (kst R)) : tpasses OP A T C sol ws kk s -> delta_go A C kk s = true ->
  let x := view D (i_x s) in let s' := tdelta_body OP A T C kk s in let x' := view D (i_x s') in
  exists p q, 0 <= p <= 1 /\ 0 <= q <= 1 /\ 99 / 100 * wk_ap (i_w s') <= p <= wk_ap (i_w s') /\ (ai A split_step <> 1%Z -> p = q) /\
  (forall i jj j, (i <= N)%nat -> (jj < t_nk T i)%nat -> (j < dnx D (t_kid T i jj))%nat -> tdyn qp (s_ux x') i (t_kid T i jj) j = (1 - p) * tdyn qp (s_ux x) i (t_kid T i jj) j) /\
  (forall i c, (i <= N)%nat -> (c < nct D i)%nat -> q_mask qp i c = 1 -> 0 <= gap_d qp x' i c - (1 - p) * gap_d qp x i c <= ar A t_min) /\
  (ar A reg_prim = 0 -> ai A split_step <> 1%Z -> (forall i c, (i <= N)%nat -> (c < nct D i)%nat -> q_mask qp i c = 1 -> ar A lam_min < s_lam x' i c) ->
   forall i k, (i <= N)%nat -> (k < nvt D i)%nat -> tkkt_g T qp (s_ux x') (s_pi x') (s_lam x') i k = (1 - p) * tkkt_g T qp (s_ux x) (s_pi x) (s_lam x) i k).
Proof.
  intros Hp Hgo. cbv zeta.
  assert (Inv : tkI (wk_k (i_w s)) /\ inside qp (i_x s) /\ treported T C (i_x s) (i_w s) (i_max s) (i_mu s)).
  { clear Hgo. induction Hp as [|kk s Hp IH Hgo].
    - split; [|split; [|apply tdelta_init_rep]].
      + assert (Ek : wk_k (i_w (tdelta_init T C (tstart A C sol ws))) = wk_k (i_w ws)) by (unfold tdelta_init, tcall_res; match goal with |- context[tree_res_compute ?a ?b ?c ?d ?e ?f] => destruct (tree_res_compute a b c d e f) end; reflexivity). rewrite Ek. exact I.
      + rewrite tdelta_init_x. apply tstart_inside; apply Hs.
    - destruct IH as (I1 & I2 & I3).
      destruct (tdelta_body_run OP A T lq smax qp (tru_mask _ _ _ _ Hs) (tru_wf _ _ _ _ Hs) (tru_tree _ _ _ _ Hs) (tkI) (tkFC A T qp) (fun _ _ _ _ => I) op_fs op_sv (tru_lq _ _ _ _ Hs) kk s I1 I2 I3) as (w & _ & _ & W3 & _ & _ & W6).
      split; [exact W6|]. split; [|apply tdelta_body_rep].
      assert (Ei : i_x (tdelta_body OP A T C kk s) = fst (take_step A C (i_x s) (i_bkp s) w)) by (rewrite <- W3; reflexivity). rewrite Ei. apply (step_inside A lq smax qp); apply Hs. }
  destruct Inv as (I1 & I2 & I3).
  destruct (tdelta_body_run OP A T lq smax qp (tru_mask _ _ _ _ Hs) (tru_wf _ _ _ _ Hs) (tru_tree _ _ _ _ Hs) (tkI) (tkFC A T qp) (fun _ _ _ _ => I) op_fs op_sv (tru_lq _ _ _ _ Hs) kk s I1 I2 I3) as (w & W1 & W2 & W3 & W4 & W5 & _).
  assert (Ei : i_x (tdelta_body OP A T C kk s) = fst (take_step A C (i_x s) (i_bkp s) w)) by (rewrite <- W3; reflexivity).
  pose proof (step_contracts A T lq smax qp (tru_mask _ _ _ _ Hs) (tru_tree _ _ _ _ Hs) (tru_m _ _ _ _ Hs) (tru_tlm _ _ _ _ Hs) (tru_t_min _ _ _ _ Hs) (i_x s) (i_bkp s) w I2 W1 W2) as S.
  pose proof (step_view A lq smax qp (tru_mask _ _ _ _ Hs) (tru_tlm _ _ _ _ Hs) (i_x s) (i_bkp s) w) as V. cbv zeta in V.
  destruct (damped (wk_ap w) (wk_ad w)) as [p q]. destruct S as ((S1 & S2 & S3) & B1 & B2 & B3 & B4 & B5). destruct V as (_ & _ & V3 & _).
  rewrite <- Ei in S1, S2, S3, V3. exists p, q. rewrite W4. split; [lra|]. split; [lra|]. split; [lra|]. split; [exact B5|]. split; [exact S1|]. split; [exact S2|].
  intros Er Hss Hl. apply S3; [exact Er|exact (B5 Hss)|]. intros i c Hi Hc E. specialize (Hl i c Hi Hc E). rewrite V3, E in Hl by assumption. cbv zeta in Hl.
  destruct (Rleb_spec (s_lam (view D (i_x s)) i c + q * s_lam (view D (wk_stp w)) i c) (ar A lam_min)); lra.
Qed.
End P.

(** The hypotheses are met: default options of mode SPEED with t0_init = 1; a root with a bounded input (upper side masked) and two kids, x1 = u + 3, x2 = 2u + 3; the dynamics are violated initially. *)
Definition trxqp : oqp R := mkqp txD (fun e _ _ => match e with 0%nat => 1 | _ => 2 end) (fun _ _ _ => 1) (fun _ _ _ => 0) (fun _ _ => 3) (fun _ _ => 0)
  (fun _ c => match c with 0%nat => 1 | _ => 0 end) (fun _ c => match c with 0%nat => 1 | _ => 0 end) (fun _ _ => 0) (fun _ _ => 0) (fun _ _ => 0%nat) (fun _ _ => (-1)%Z).
Theorem C71_hypotheses_met (a0 : arg R) sol : trun_setup (rxA a0) txT 0 trxqp /\ 0 <= ar (rxA a0) alpha_min <= 1 /\
  (ai (arg_set_default BALANCE a0) split_step <> 1)%Z /\ t_nk txT 0 = 2%nat /\ tdyn trxqp (s_ux (tinit_var (rxA a0) trxqp (view txD sol))) 0 (t_kid txT 0 1) 0 = 3.
Proof.
  assert (Hp : 0 < 1 / IZR (10 ^ 16)) by (apply Rdiv_lt_0_compat; [lra|apply IZR_lt; reflexivity]).
  assert (Hr : 0 <= ar (rxA a0) reg_prim) by (apply Rlt_le, Rdiv_lt_0_compat; [lra|apply IZR_lt; reflexivity]).
  split; [|split; [|split; [discriminate|split; [reflexivity|]]]].
  - split.
    + exact tx_wf.
    + exact tx_tree.
    + exact tx_mask.
    + intros i j j' _ _ _ H. cbn in H. lia.
    + reflexivity.
    + exists 0%nat, 0%nat. split; [cbn; lia|]. split; [cbn; lia|]. cbn. destruct (Reqb_spec 1 (0 / 1)); [lra|reflexivity].
    + set (reg := ar (rxA a0) reg_prim) in *. clearbody reg. split.
      * intros i v Hi Hv. pose proof (ic_H _ _ txa_convex i v Hi Hv) as H. change (a_reg txa) with 0 in H. change (nux trxqp) with (nux txqp). change (Hess trxqp) with (Hess txqp).
        assert (0 <= reg * rsum (nux txqp i) (fun k => v k * v k)) by (apply Rmult_le_pos; [exact Hr|apply rsum_nonneg; intros; nra]). lra.
      * intros i k Hi Hk. cbn in Hk. lia.
      * intros i k Hi Hk. cbn in Hk. lia.
    + reflexivity.
    + exact Hp.
    + exact Hp.
    + discriminate.
    + split; [intros _; cbn; lra|cbn; intros; lia].
    + left. reflexivity.
  - change (ar (rxA a0) alpha_min) with (1 / 1000000000000). lra.
  - cbv -[Rplus Rmult Rminus Ropp IZR Rinv Rdiv sqrt]. lra.
Qed.
Print Assumptions C71_infeasibility.
Print Assumptions C71_dynamics_never_worse.
Print Assumptions C71_rate.
Print Assumptions C71_iteration.
Print Assumptions C71_hypotheses_met.
