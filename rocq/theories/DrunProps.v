(** DrunProps.v -- C72: the dense interior point solve with the dense KKT routines (null-space or Schur complement, scaled or not) shrinks the
    infeasibility of all its equations by one factor.  Model: DrunModel.v (the loop of DenIpmModel.v with the KKT routines of DenKktModel.v).
    Specification: DenSpec.v (den_eq: residual of an equality, den_con: left-hand side of an inequality, den_kkt_g: gradient of the Lagrangian),
    DenKktSpec.v (lq_ok: an LQ factorisation), the definitions below.  Exact arithmetic. *)
From Coq Require Import ZArith Bool Arith List Lia Reals Lra.
From Verif Require Import Base ArithF RSum Blas Blas2 OcpModel ResSpec CoreModel CoreProofs ArgModel DenModel DenSpec DenProofs DenProps DenKktModel DenKktSpec DenKktProps
  DenIpmModel DenIpmProofs DenIpmProofs2 DenIpmProps DenIpmInit DenInitProps DenIpmReal DrunModel DrunProofs DrunProofs2 DrunProofs3 DrunProofs4.
From Verif Require RunProofs3.
Local Open Scope R_scope.

(** residual of an inequality: d + t - C v *)
Definition dgap (qp : dqp R) (s : dsol R) (c : nat) : R := d_d qp c + ds_t s c - den_con qp (ds_v s) c.
(** what remains after steps of relative lengths a 0, ..., a (n-1) *)
Fixpoint dremains (a : nat -> R) (n : nat) : R := match n with O => 1 | S n => (1 - a n) * dremains a n end.
(** the equalities are not perturbed by a dual regularisation: there are none, or the null-space method is used, or reg_dual = 0 *)
Definition exact_eq (dreg : R) (alg : Z) (qp : dqp R) : Prop := d_ne qp = 0%nat \/ alg = 0%Z \/ dreg = 0.
(** the problem, the options, the LQ routine of the linear algebra library (null-space method only), and, in the absolute form, the scaling flag
    left in the workspace (which that form never sets) *)
Record drun_setup (A : arg R) (dreg : R) (alg : Z) (sc : bool) (lqf : nat -> nat -> rm -> rm * rm -> rm * rm) (cne : nat) (lq : Z) (qp : dqp R) (ws : @ist R (dkst R)) : Prop := {
  dru_wf : den_wf qp;
  dru_cne : (d_ne qp <= cne)%nat;
  dru_mask : den_mask01 qp;
  dru_soft : den_soft_inj qp;
  dru_m : forall c, (c < d_nct qp)%nat -> d_m qp c = 0;
  dru_con : constrained qp;
  dru_cx : drun_convex (ar A reg_prim) dreg alg qp;
  dru_lqf : d_ne qp <> 0%nat -> alg = 0%Z -> (d_ne qp <= d_nv qp)%nat /\
    forall prior, lq_ok (d_ne qp) (d_nv qp) (d_A qp) (fst (lqf (d_ne qp) (d_nv qp) (d_A qp) prior)) (snd (lqf (d_ne qp) (d_nv qp) (d_A qp) prior));
  dru_scale : ai A abs_form = 0%Z \/ w_scale (dk_w (wk_k (i_w ws))) = sc;
  dru_tlm : ai A t_lam_min = 2%Z;
  dru_lam_min : 0 < ar A lam_min;
  dru_t_min : 0 < ar A t_min;
  dru_start : good_start A;
  dru_lq : lq = 0%Z \/ lq = 1%Z /\ ar A reg_prim = 0 /\ exact_eq dreg alg qp }.
(** the states of the loop, delta formulation: after the residuals of the initial iterate, then one pass after the other *)
Inductive dpasses {K} (OP : dkops (F := R) K) (A : arg R) (C : ctx) (sol : vars R) (ws : @ist R K) : Z -> @ist R K -> Prop :=
| dpasses_0 : dpasses OP A C sol ws 0 (delta_init C (start A C sol ws))
| dpasses_S kk s : dpasses OP A C sol ws kk s -> delta_go A C kk s = true -> dpasses OP A C sol ws (kk + 1) (delta_body OP A C kk s).

Section P.
Variables (A : arg R) (dreg : R) (alg : Z) (sc : bool) (lqf : nat -> nat -> rm -> rm * rm -> rm * rm) (scr : nat -> rv) (fuel : nat) (cne : nat) (lq smax : Z) (qp : dqp R).
Variables (lqop : dkst R -> dqp R -> dsol R -> dsol R -> dsol R * dkst R) (unc : dkst R -> dqp R -> dsol R -> dsol R * dkst R).
Variables (sol : vars R) (ws : @ist R (dkst R)).
Notation nc := (d_nct qp).
Notation ne := (d_ne qp).
Notation OP := (drun_ops A dreg alg sc lqf scr (S fuel) lqop unc).
Notation C := (mk_ctx cne lq smax qp).
Notation ws' := (drun_ws A dreg ws).
Notation kI := (dkI A alg sc lqf qp).
Notation kFC := (dkFC A dreg alg sc lqf qp).
Let o := drun_solve A dreg alg sc lqf scr (S fuel) lqop unc cne lq smax qp sol ws.
Let x0 := init_var A qp (view sol).
Hypothesis Hs : drun_setup A dreg alg sc lqf cne lq qp ws.
Lemma dremains_left a n : dremains a n = RunProofs3.left a n. Proof. induction n as [|n IH]; cbn; [reflexivity|rewrite IH; reflexivity]. Qed.
Lemma dstart_eq j : (j < ne)%nat -> den_eq qp (ds_v (view (i_x (start A C sol ws')))) j = den_eq qp (ds_v x0) j.
Proof. intros Hj. reflexivity. Qed.
Lemma dstart_rd c : (c < nc)%nat -> rd qp (view (i_x (start A C sol ws'))) c = dgap qp x0 c.
Proof. intros Hc. reflexivity. Qed.
Lemma dtlm1 : ai A t_lam_min <> 1%Z. Proof. rewrite (dru_tlm _ _ _ _ _ _ _ _ _ Hs). discriminate. Qed.
Lemma dop_fs k g b d m sl stp : kI k -> point qp sl -> mz qp m ->
  let r := op_fact_solve (dkst R) OP k (den_with_rhs qp g b d m) sl stp in nsol A qp (exact_eq dreg alg qp) sl g b d m (fst r) /\ kFC (snd r) sl.
Proof. apply drun_H_fs; try apply Hs. exact dtlm1. Qed.
Lemma dop_sv k g b d m sl stp : kFC k sl -> point qp sl -> mz qp m ->
  let r := op_solve (dkst R) OP k (den_with_rhs qp g b d m) sl stp in nsol A qp (exact_eq dreg alg qp) sl g b d m (fst r) /\ kFC (snd r) sl.
Proof. apply drun_H_sv; try apply Hs. exact dtlm1. Qed.
Lemma ws_I : kI (wk_k (i_w ws')).
Proof.
  split.
  - intros H1 H2. destruct (dru_lqf _ _ _ _ _ _ _ _ _ Hs H1 H2) as (L1 & L2). split; [exact L1|]. unfold lq_given. cbn [drun_ws i_w wk_k dk_w reset_flags w_useA w_LQ w_Q]. apply L2.
  - exact (dru_scale _ _ _ _ _ _ _ _ _ Hs).
Qed.

(** C72: one factor for all equations.  There are step lengths in [0, 1], none but the last below 0.99 alpha_min, such that the solution returned --
    whatever the status, the number of iterations, the method, the predictor-corrector, refinement and formulation options -- violates each equality
    constraint by the initial violation times the product of (1 - step), and each imposed inequality by the same multiple, up to t_min per iteration.
    The inequalities need no assumption on the dual regularisation. *)
Theorem C72_infeasibility : exists a : nat -> R, let n := Z.to_nat (o_iter o) in
  (forall k, (k < n)%nat -> 0 <= a k <= 1) /\ (forall k, (S k < n)%nat -> 99 / 100 * ar A alpha_min <= a k) /\
  (forall k, (S k = n)%nat -> 99 / 100 * wk_ap (o_w o) <= a k) /\
  (exact_eq dreg alg qp -> forall j, (j < ne)%nat -> den_eq qp (ds_v (view (o_x o))) j = dremains a n * den_eq qp (ds_v x0) j) /\
  (forall c, (c < nc)%nat -> d_mask qp c = 1 -> 0 <= dgap qp (view (o_x o)) c - dremains a n * dgap qp x0 c <= IZR (o_iter o) * ar A t_min).
Proof.
  destruct (solve_run OP A cne lq smax qp (dru_mask _ _ _ _ _ _ _ _ _ Hs) (dru_wf _ _ _ _ _ _ _ _ _ Hs) (dru_cne _ _ _ _ _ _ _ _ _ Hs) (exact_eq dreg alg qp) (dru_m _ _ _ _ _ _ _ _ _ Hs) (dru_tlm _ _ _ _ _ _ _ _ _ Hs) (dru_lam_min _ _ _ _ _ _ _ _ _ Hs) (dru_t_min _ _ _ _ _ _ _ _ _ Hs)
    kI kFC (dkFC_I A dreg alg sc lqf qp) dop_fs dop_sv (dru_lq _ _ _ _ _ _ _ _ _ Hs) sol ws' ws_I (dru_start _ _ _ _ _ _ _ _ _ Hs) (dru_con _ _ _ _ _ _ _ _ _ Hs)) as (s & E1 & E2 & _ & _ & _ & a & A1 & A2 & A3 & A4 & A5).
  unfold o, drun_solve. exists a. cbv zeta. rewrite dremains_left, E1, E2. split; [exact A1|]. split; [exact A2|]. split; [exact A3|]. split.
  - intros Hex j Hj. rewrite A4, dstart_eq by assumption. reflexivity.
  - intros c Hc E. specialize (A5 c Hc E). rewrite dstart_rd in A5 by assumption. exact A5.
Qed.
(** C72: the equalities are never violated more than initially; satisfied initially, they are satisfied by every returned solution. *)
Theorem C72_equalities_never_worse j : exact_eq dreg alg qp -> (j < ne)%nat ->
  Rabs (den_eq qp (ds_v (view (o_x o))) j) <= Rabs (den_eq qp (ds_v x0) j) /\ (den_eq qp (ds_v x0) j = 0 -> den_eq qp (ds_v (view (o_x o))) j = 0).
Proof.
  intros Hex Hj. destruct C72_infeasibility as (a & A1 & _ & _ & A4 & _). cbv zeta in *. rewrite A4 by assumption. rewrite dremains_left. pose proof (RunProofs3.left_pos a _ A1) as P.
  split; [|intros ->; lra]. rewrite Rabs_mult, (Rabs_pos_eq (RunProofs3.left a _)) by lra. pose proof (Rabs_pos (den_eq qp (ds_v x0) j)). nra.
Qed.
(** C72: geometric rate.  Unless the solver stopped on a short step, n iterations leave at most (1 - 0.99 alpha_min)^n of the violation; always (..)^(n-1). *)
Theorem C72_rate j : exact_eq dreg alg qp -> 0 <= ar A alpha_min <= 1 -> (j < ne)%nat -> let n := Z.to_nat (o_iter o) in
  (ar A alpha_min <= wk_ap (o_w o) -> Rabs (den_eq qp (ds_v (view (o_x o))) j) <= (1 - 99 / 100 * ar A alpha_min) ^ n * Rabs (den_eq qp (ds_v x0) j)) /\
  Rabs (den_eq qp (ds_v (view (o_x o))) j) <= (1 - 99 / 100 * ar A alpha_min) ^ (n - 1) * Rabs (den_eq qp (ds_v x0) j).
Proof.
  intros Hex Ha Hj. cbv zeta. destruct C72_infeasibility as (a & A1 & A2 & A3 & A4 & _). cbv zeta in *. rewrite A4 by assumption. rewrite dremains_left.
  set (n := Z.to_nat (o_iter o)) in *. clearbody n. pose proof (RunProofs3.left_pos a n A1) as P. rewrite Rabs_mult, (Rabs_pos_eq (RunProofs3.left a n)) by lra. pose proof (Rabs_pos (den_eq qp (ds_v x0) j)) as Q.
  assert (B : forall m, (S m <= n)%nat -> forall k, (k < m)%nat -> 99 / 100 * ar A alpha_min <= a k <= 1) by (intros m Hmn k Hk; split; [apply A2; lia|apply A1; lia]).
  split.
  - intros Hp. apply Rmult_le_compat_r; [exact Q|]. apply RunProofs3.left_pow; [|lra]. intros k Hk. split; [|apply A1; exact Hk].
    destruct (Nat.eq_dec (S k) n) as [E|E]; [specialize (A3 k E); lra|apply A2; lia].
  - apply Rmult_le_compat_r; [exact Q|]. destruct n as [|n]; [cbn; lra|]. replace (S n - 1)%nat with n by lia. cbn [RunProofs3.left].
    pose proof (RunProofs3.left_pow a (99 / 100 * ar A alpha_min) n (B n ltac:(lia)) ltac:(lra)) as L. pose proof (A1 n ltac:(lia)).
    assert (0 <= RunProofs3.left a n <= 1) by (apply RunProofs3.left_pos; intros k Hk; apply A1; lia). nra.
Qed.

(** C72: one iteration of the loop, stationarity included.  From any state the loop reaches, the next iterate x' comes with step lengths p (primal) and
    q (dual): equalities and inequalities as above; with a joint step (split_step <> 1), no primal regularisation and no multiplier held at lam_min, the
    gradient of the Lagrangian is multiplied by 1 - p too. *)
Theorem C72_iteration kk (s : @ist R (dkst R)) : dpasses OP A C sol ws' kk s -> delta_go A C kk s = true ->
  let x := view (i_x s) in let s' := delta_body OP A C kk s in let x' := view (i_x s') in
  exists p q, 0 <= p <= 1 /\ 0 <= q <= 1 /\ 99 / 100 * wk_ap (i_w s') <= p <= wk_ap (i_w s') /\ (ai A split_step <> 1%Z -> p = q) /\
  (exact_eq dreg alg qp -> forall j, (j < ne)%nat -> den_eq qp (ds_v x') j = (1 - p) * den_eq qp (ds_v x) j) /\
  (forall c, (c < nc)%nat -> d_mask qp c = 1 -> 0 <= dgap qp x' c - (1 - p) * dgap qp x c <= ar A t_min) /\
  (ar A reg_prim = 0 -> ai A split_step <> 1%Z -> (forall c, (c < nc)%nat -> d_mask qp c = 1 -> ar A lam_min < ds_lam x' c) ->
   forall k, (k < dnv qp)%nat -> den_kkt_g qp (ds_v x') (ds_pi x') (ds_lam x') k = (1 - p) * den_kkt_g qp (ds_v x) (ds_pi x) (ds_lam x) k).
Proof.
  intros Hp Hgo. cbv zeta.
  pose proof (delta_body_run OP A cne lq smax qp (dru_mask _ _ _ _ _ _ _ _ _ Hs) (dru_wf _ _ _ _ _ _ _ _ _ Hs) (dru_cne _ _ _ _ _ _ _ _ _ Hs) (exact_eq dreg alg qp) kI kFC (dkFC_I A dreg alg sc lqf qp) dop_fs dop_sv (dru_lq _ _ _ _ _ _ _ _ _ Hs)) as BR.
  assert (Inv : kI (wk_k (i_w s)) /\ inside qp (i_x s) /\ reported C (i_x s) (i_w s) (i_max s) (i_mu s)).
  { clear Hgo. induction Hp as [|kk s Hp IH Hgo].
    - split; [|split; [|apply delta_init_rep]].
      + assert (Ek : wk_k (i_w (delta_init C (start A C sol ws'))) = wk_k (i_w ws')) by (unfold delta_init, call_res; match goal with |- context[den_res_compute ?a ?b ?c ?d ?e] => destruct (den_res_compute a b c d e) end; reflexivity). rewrite Ek. exact ws_I.
      + rewrite delta_init_x. apply start_inside; apply Hs.
    - destruct IH as (I1 & I2 & I3). destruct (BR kk s I1 I2 I3) as (w & _ & _ & W3 & _ & _ & W6).
      split; [exact W6|]. split; [|apply delta_body_rep].
      assert (Ei : i_x (delta_body OP A C kk s) = fst (take_step A C (i_x s) (i_bkp s) w)) by (rewrite <- W3; reflexivity). rewrite Ei. apply (step_inside A cne lq smax qp); apply Hs. }
  destruct Inv as (I1 & I2 & I3). destruct (BR kk s I1 I2 I3) as (w & W1 & W2 & W3 & W4 & W5 & _).
  assert (Ei : i_x (delta_body OP A C kk s) = fst (take_step A C (i_x s) (i_bkp s) w)) by (rewrite <- W3; reflexivity).
  pose proof (step_contracts A cne lq smax qp (dru_mask _ _ _ _ _ _ _ _ _ Hs) (dru_cne _ _ _ _ _ _ _ _ _ Hs) (exact_eq dreg alg qp) (dru_m _ _ _ _ _ _ _ _ _ Hs) (dru_tlm _ _ _ _ _ _ _ _ _ Hs) (dru_t_min _ _ _ _ _ _ _ _ _ Hs) (i_x s) (i_bkp s) w I2 W1 W2) as S.
  pose proof (step_view A cne lq smax qp (dru_mask _ _ _ _ _ _ _ _ _ Hs) (dru_cne _ _ _ _ _ _ _ _ _ Hs) (dru_tlm _ _ _ _ _ _ _ _ _ Hs) (i_x s) (i_bkp s) w) as V. cbv zeta in V.
  destruct (damped (wk_ap w) (wk_ad w)) as [p q]. destruct S as ((S1 & S2 & S3) & B1 & B2 & B3 & B4 & B5). destruct V as (_ & _ & V3 & _).
  rewrite <- Ei in S1, S2, S3, V3. exists p, q. rewrite W4. split; [lra|]. split; [lra|]. split; [lra|]. split; [exact B5|]. split; [exact S1|]. split; [exact S2|].
  intros Er Hss Hl. apply S3; [exact Er|exact (B5 Hss)|]. intros c Hc E. specialize (Hl c Hc E). rewrite V3, E in Hl by assumption. cbv zeta in Hl.
  destruct (Rleb_spec (ds_lam (view (i_x s)) c + q * ds_lam (view (wk_stp w)) c) (ar A lam_min)); lra.
Qed.
End P.

(** The hypotheses are met: default options of mode SPEED with t0_init = 1, either method, scaled or not, with reg_dual = 0; two variables, the equality
    v0 + 1 = 0 (violated initially), a soft bound on v0 and a general constraint whose upper side is masked. *)
Definition drxqp : dqp R := mkdqp 2 1 1 1 1 (dkH 2) (fun _ k => match k with O => 1 | _ => 0 end) (fun _ _ => 1) (fun _ => 1) (fun _ => 1) (fun _ => -1) (fun c => match c with 3%nat => 0 | _ => 1 end) (fun _ => 0) (fun _ => 1)
  (fun _ => 0%nat) (fun j => match j with O => 0%Z | _ => (-1)%Z end).
Definition drxA : arg R := wi t0_init 1 (den_default SPEED).
Theorem C72_hypotheses_met alg sc sol (ws : @ist R (dkst R)) : drun_setup drxA 0 alg sc dklq 1 0 drxqp ws /\ exact_eq 0 alg drxqp /\ 0 <= ar drxA alpha_min <= 1 /\
  (ai (den_default (F := R) BALANCE) split_step <> 1)%Z /\ d_nct drxqp = 6%nat /\ Rabs (den_eq drxqp (ds_v (init_var drxA drxqp (view sol))) 0) = 1.
Proof.
  assert (Hp : 0 < 1 / IZR (10 ^ 16)) by (apply Rdiv_lt_0_compat; [lra|apply IZR_lt; reflexivity]).
  assert (Hr : 0 <= ar drxA reg_prim) by (apply Rlt_le, Rdiv_lt_0_compat; [lra|apply IZR_lt; reflexivity]).
  assert (EQ : forall p, den_quad drxqp p = 2 * (p 0%nat * p 0%nat) + 2 * (p 1%nat * p 1%nat)) by (intros p; unfold den_quad, den_Hess, H_co, symL, dkH; cbn; ring).
  split; [|split; [right; right; reflexivity|split; [|split; [discriminate|split; [reflexivity|]]]]].
  - split.
    + split; [intros j Hj; cbn; lia|]. intros j Hj. cbn in Hj |- *. destruct j; [right; lia|left; reflexivity].
    + cbn. lia.
    + intros c _. destruct c as [|[|[|[|c]]]]; cbn; [right|right|right|left|right]; reflexivity.
    + clear. intros j j' Hj Hj' H1 H2. cbn [drxqp d_idxs_rev] in H1, H2. destruct j as [|j]; [|exfalso; apply H1; reflexivity]. destruct j' as [|j']; [reflexivity|discriminate H2].
    + reflexivity.
    + exists 0%nat. split; [cbn; lia|]. cbn. destruct (Reqb_spec 1 (0 / 1)); [lra|reflexivity].
    + set (reg := ar drxA reg_prim) in *. clearbody reg. split.
      * exact Hr.
      * intros k _. cbn. lra.
      * intros k _. left. cbn. lra.
      * intros p _. rewrite EQ. nra.
      * intros p _ N. rewrite EQ. pose proof (dk_nz p _ eq_refl N). assert (0 <= reg * rsum (d_nv drxqp) (fun k => p k * p k)) by (apply Rmult_le_pos; [exact Hr|apply rsum_nonneg; intros; nra]). lra.
      * intros _ _. split; [lra|]. intros y (j & Hj & E). right. cbn in Hj. assert (j = 0%nat) as -> by lia. exists 0%nat. split; [cbn; lia|]. cbn. lra.
    + intros _ _. split; [cbn; lia|]. intros prior. destruct (dk_lq 0 false 0 2 (dkq 2) (dkw0 false) (or_introl eq_refl) eq_refl ltac:(discriminate) eq_refl) as (_ & L). exact L.
    + left. reflexivity.
    + reflexivity.
    + exact Hp.
    + exact Hp.
    + split; [intros _; cbn; lra|cbn; intros; lia].
    + left. reflexivity.
  - change (ar drxA alpha_min) with (1 / 1000000000000). lra.
  - cbv -[Rplus Rmult Rminus Ropp IZR Rinv Rdiv sqrt Rabs]. match goal with |- Rabs ?x = _ => replace x with 1 by lra || replace x with (-1) by lra end; [rewrite Rabs_R1; reflexivity].
Qed.
Print Assumptions C72_infeasibility.
Print Assumptions C72_equalities_never_worse.
Print Assumptions C72_rate.
Print Assumptions C72_iteration.
Print Assumptions C72_hypotheses_met.
