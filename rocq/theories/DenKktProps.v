(** DenKktProps.v -- C47, C48: the dense KKT solver (DENSE_QP_FACT_SOLVE_KKT_STEP, FACT_KKT_STEP, SOLVE_KKT_STEP). *)
From Coq Require Import ZArith Bool Arith Lia Reals Lra List.
From Coq Require Import Floats.SpecFloat.
From Verif Require Import Base ArithF RSum Blas Blas2 CoreModel DenModel ResSpec DenSpec KktModel DenKktModel DenKktSpec DenKktProofs2 DenKktProofs3 DenKktProofs4 DenKktProofs5 DenKktProofs6 DenKktProofs7.
Import ListNotations.
Local Open Scope R_scope.

Lemma reg_exact sc a q s : da_reg a = 0 -> den_newton_reg sc a q 0 0 s -> den_newton a q no_force no_force s.
Proof.
  intros Hr (rp & rd & HF & Hs & N1 & N2 & N3 & N4).
  assert (E : (forall k, (k < d_nv q)%nat -> rp k = 0) /\ forall j, (j < d_ne q)%nat -> rd j = 0).
  { unfold den_forces in HF. destruct (Nat.eqb_spec (d_ne q) 0) as [E0|E0]; [|destruct (da_alg a =? 0)%Z].
    - destruct HF as (wv & _ & _ & H). split; [intros k Hk; rewrite H by exact Hk; lra|intros; lia].
    - destruct HF as ((p & y & _ & _ & H) & H'). split; [intros k Hk; rewrite H by exact Hk; lra|exact H'].
    - destruct HF as (wv & we & _ & _ & _ & H & H'). split; [intros k Hk; rewrite H, Hr by exact Hk; destruct sc; lra|intros j Hj; rewrite H' by exact Hj; lra]. }
  destruct E as (E1 & E2). unfold no_force. split; [|split; [|split; assumption]].
  - intros k Hk. specialize (N1 k Hk). destruct (Nat.lt_ge_cases k (d_nv q)) as [H|H]; [rewrite E1 in N1 by exact H; exact N1|]. rewrite Hs, Hr in N1 by (split; assumption). lra.
  - intros j Hj. rewrite N2, E2 by exact Hj. reflexivity.
Qed.

(** C47: whatever the method (no equality constraints; null-space; Schur complement; with or without scaling), the step returned by FACT_SOLVE
    solves the Newton system of the right-hand side, perturbed by the regularisation forces only: in particular complementarity and the
    inequality constraints are met exactly, and without regularisation the whole system is. *)
Theorem C47_newton (a : dka R) (q : dqp R) lq scr fuel g3 stp w s preg dreg g w' :
  den_wf q -> den_soft_inj q -> den_mask01 q -> den_point a q -> lq_ready a q lq w ->
  den_fact_solve a q lq scr fuel g3 stp w = Some (s, (preg, dreg), g, w') ->
  den_newton_reg (da_scale a) a q preg dreg s /\
  (da_reg a = 0 -> preg = 0 -> dreg = 0 -> den_newton a q no_force no_force s).
Proof.
  intros Hwf Hi Hm Hp Hlq E. destruct g as [[tinv Gamma] gamma]. destruct (fact_solve_R a q lq scr Hwf Hi Hp Hm fuel g3 stp w s preg dreg tinv Gamma gamma w' Hlq E) as (N & _).
  split; [exact N|]. intros Hr -> ->. exact (reg_exact _ a q s Hr N).
Qed.
(** C47: the null-space method satisfies the equality constraints exactly, however large the regularisation. *)
Theorem C47_null_space_exact_eq (a : dka R) (q : dqp R) lq scr fuel g3 stp w s preg dreg g w' :
  den_wf q -> den_soft_inj q -> den_mask01 q -> den_point a q -> lq_ready a q lq w -> d_ne q <> 0%nat -> da_alg a = 0%Z ->
  den_fact_solve a q lq scr fuel g3 stp w = Some (s, (preg, dreg), g, w') -> forall j, (j < d_ne q)%nat -> den_eq q (ds_v s) j = 0.
Proof.
  intros Hwf Hi Hm Hp Hlq Hne Ha E j Hj. destruct (C47_newton a q lq scr fuel g3 stp w s preg dreg g w' Hwf Hi Hm Hp Hlq E) as ((rp & rd & HF & _ & _ & N & _) & _).
  rewrite N by exact Hj. unfold den_forces in HF. apply Nat.eqb_neq in Hne. rewrite Hne, Ha in HF. cbn in HF. apply HF. exact Hj.
Qed.
(** C47: at an interior point of a QP with enough curvature FACT_SOLVE returns at the first attempt, without extra regularisation, and FACT followed
    by SOLVE gives a step with the same property. *)
Theorem C47_convex_returns (a : dka R) (q : dqp R) lq scr fuel g3 stp w :
  den_wf q -> den_convex a q -> den_mask_off a q -> lq_ready a q lq w ->
  exists s g w', den_fact_solve a q lq scr (S fuel) g3 stp w = Some (s, (da_reg a, da_dreg a), g, w') /\ w_npd w' = false.
Proof.
  intros Hwf Hc Hmo Hlq. pose proof (cx_den_point a q Hc Hmo) as Hp. unfold den_fact_solve. pose proof (den_Gg_R a q Hp g3) as HG. destruct (den_Gg a q g3) as [[tinv Gamma] gamma].
  destruct (cx_pos a q Hwf Hc Gamma ltac:(intros c Hcc; apply HG; exact Hcc)) as (P1 & P2). cbn [den_loop].
  destruct (den_attempt a q lq scr Gamma gamma (da_reg a) (da_dreg a) (clear_npd w) (ds_v stp, ds_pi stp)) as [[w1 [dv dpi]] st] eqn:E.
  destruct (attempt_R a q lq scr Hwf Gamma gamma _ _ (clear_npd w) _ _ w1 (dv, dpi) st Hlq E) as (_ & Q1 & Q2 & _). rewrite (st_ok st (Q1 P1) (Q2 P2)).
  destruct (den_epilogue _ _ _ _ _ _ _ _) as [[v' lam'] t']. eexists _, _, _. split; [reflexivity|]. unfold set_last. cbn [w_npd]. apply attempt_npd in E. exact E.
Qed.
Theorem C47_fact_then_solve (a : dka R) (q : dqp R) lq scr g2 gamma0 stp w :
  den_wf q -> den_soft_inj q -> den_mask01 q -> den_convex a q -> den_mask_off a q -> lq_ready a q lq w -> w_scale w = da_scale a ->
  forall tinv Gamma w1 s gamma w2, den_fact_kkt a q lq g2 w = (tinv, Gamma, w1) -> den_solve_kkt a q scr tinv Gamma gamma0 stp w1 = (s, gamma, w2) ->
  den_newton_reg (da_scale a) a q (da_reg a) (da_dreg a) s /\ (da_reg a = 0 -> da_dreg a = 0 -> den_newton a q no_force no_force s).
Proof.
  intros Hwf Hi Hm Hc Hmo Hlq Hsc tinv Gamma w1 s gamma w2 E1 E2. pose proof (cx_den_point a q Hc Hmo) as Hp.
  pose proof (fact_kkt_R a q lq g2 w Hwf Hp Hlq) as X. pose proof (fact_kkt_scale a q lq g2 w) as S. rewrite E1 in X, S. cbn [snd] in S. destruct X as (HG & HF).
  destruct (cx_pos a q Hwf Hc Gamma ltac:(intros c Hcc; apply HG; exact Hcc)) as (P1 & P2). specialize (HF P1 P2). rewrite <- Hsc, <- S in HF.
  pose proof (solve_kkt_R a q scr Hwf Hi Hp Hm tinv Gamma gamma0 stp w1 _ _ HG HF) as Y. rewrite E2 in Y. rewrite S, Hsc in Y. split; [apply Y|].
  intros Hr Hd. rewrite Hr, Hd in Y. apply (reg_exact (da_scale a)); [exact Hr|apply Y].
Qed.

(** C47: SOLVE after FACT_SOLVE (and after other calls of SOLVE) solves the Newton system of its own right-hand side, with the same regularisation. *)
Lemma factored_ok a q tinv Gamma preg dreg w : den_wf q -> den_soft_inj q -> den_mask01 q -> den_point a q -> den_factored a q tinv Gamma preg dreg w ->
  (forall c, (c < d_nct q)%nat -> tinv c = 1 / da_t a c /\ Gamma c = den_wgt a c) /\ fac_ok a q (da_scale a) Gamma preg dreg w /\ w_scale w = da_scale a.
Proof.
  intros Hwf Hi Hm Hp H. induction H as [lq scr fuel g3 stp w s gamma w' Hlq Hsc E|scr gz b d m gamma0 stp w s gamma w' _ IH E].
  - destruct (fact_solve_R a q lq scr Hwf Hi Hp Hm fuel g3 stp w s preg dreg tinv Gamma gamma w' Hlq E) as (_ & HG & HF & _). split; [|split; [exact HF|rewrite <- Hsc; exact (fact_solve_scale a q lq scr fuel g3 stp w s _ _ w' E)]].
    intros c Hcc. destruct (HG c Hcc) as (A & B & _). split; assumption.
  - destruct IH as (A & B & C). split; [exact A|]. unfold den_solve_kkt in E. destruct (den_tmp1 _ _ _ _ _) as [tmp dv]. destruct (if (0 <? _)%nat then den_solve_ne _ _ _ _ _ _ _ else _) as [dv1 dpi]. destruct (den_epilogue _ _ _ _ _ _ _ _) as [[? ?] ?].
    injection E as _ _ <-. split; [apply fac_ok_tmp; exact B|exact C].
Qed.
Theorem C47_resolve (a : dka R) (q : dqp R) tinv Gamma preg dreg w gz b d m scr gamma0 stp s gamma w' :
  let q' := den_with_rhs q gz b d m in
  den_wf q -> den_soft_inj q -> den_mask01 q -> den_point a q -> den_factored a q tinv Gamma preg dreg w -> (forall c, (c < d_nct q)%nat -> d_mask q c = 0 -> m c = 0) ->
  den_solve_kkt a q' scr tinv Gamma gamma0 stp w = (s, gamma, w') -> den_newton_reg (da_scale a) a q' preg dreg s.
Proof.
  intros q' Hwf Hi Hm Hp Hf Hmm E. destruct (factored_ok a q tinv Gamma preg dreg w Hwf Hi Hm Hp Hf) as (HG & HF & HS).
  assert (Hp' : den_point a q').
  { split; [exact (dp_t _ _ Hp)|exact (dp_clip _ _ Hp)| |exact (dp_piv _ _ Hp)]. intros c Hcc H0. split; [exact (proj1 (dp_mask _ _ Hp c Hcc H0))|exact (Hmm c Hcc H0)]. }
  assert (HG' : Gg_ok a q' tinv Gamma (fun c => 1 / da_t a c * (d_m q' c - da_lam a c * d_d q' c))) by (intros c Hcc; destruct (HG c Hcc) as (A & B); split; [exact A|split; [exact B|reflexivity]]).
  assert (HF' : fac_ok a q' (w_scale w) Gamma preg dreg w) by (rewrite HS; exact HF).
  pose proof (solve_kkt_R a q' scr Hwf Hi Hp' Hm tinv Gamma gamma0 stp w preg dreg HG' HF') as Y. rewrite E in Y. rewrite HS in Y. apply Y.
Qed.

(** C47: the result does not depend on the method, on scaling, on the workspace or on the LQ routine: without regularisation, at an interior point of a
    QP with enough curvature and independent equality constraints, any two calls return the same step. *)
Definition same_point (a1 a2 : dka R) (q : dqp R) : Prop := forall c, (c < d_nct q)%nat -> da_lam a1 c = da_lam a2 c /\ da_t a1 c = da_t a2 c.
Theorem C47_methods_agree (a1 a2 : dka R) (q : dqp R) lq1 lq2 scr1 scr2 f1 f2 g1 g2 p1 p2 w1 w2 s1 s2 pd1 pd2 g1' g2' w1' w2' :
  den_wf q -> den_soft_inj q -> den_mask01 q -> same_point a1 a2 q -> den_mask_off a1 q -> den_convex a1 q -> den_convex a2 q -> den_full_rank q ->
  da_reg a1 = 0 -> da_reg a2 = 0 -> da_dreg a1 = 0 -> da_dreg a2 = 0 -> lq_ready a1 q lq1 w1 -> lq_ready a2 q lq2 w2 ->
  den_fact_solve a1 q lq1 scr1 f1 g1 p1 w1 = Some (s1, pd1, g1', w1') -> den_fact_solve a2 q lq2 scr2 f2 g2 p2 w2 = Some (s2, pd2, g2', w2') -> den_same q s1 s2.
Proof.
  intros Hwf Hi Hm Hsp Hmo C1 C2 HA R1 R2 D1 D2 L1 L2 E1 E2.
  assert (Hmo2 : den_mask_off a2 q) by (intros c Hcc H0; destruct (Hsp c Hcc) as (<- & _); exact (Hmo c Hcc H0)).
  assert (X : forall a lq scr f g p w s pd g' w', den_mask_off a q -> den_convex a q -> da_reg a = 0 -> da_dreg a = 0 -> lq_ready a q lq w -> den_fact_solve a q lq scr f g p w = Some (s, pd, g', w') -> den_newton a q no_force no_force s).
  { intros a lq scr f g p w s [pr dr] g' w' Hmo' C Rr Dd L E. destruct f as [|f]; [unfold den_fact_solve in E; destruct (den_Gg a q g) as [[? ?] ?]; discriminate|].
    destruct (C47_convex_returns a q lq scr f g p w Hwf C Hmo' L) as (s0 & g0 & w0 & E0 & _). rewrite E0 in E. injection E as <- <- <- <- <-.
    apply (C47_newton a q lq scr (S f) g p w s0 _ _ g0 w0 Hwf Hi Hm (cx_den_point a q C Hmo') L E0); assumption. }
  pose proof (X a1 lq1 scr1 f1 g1 p1 w1 s1 pd1 g1' w1' Hmo C1 R1 D1 L1 E1) as N1. pose proof (X a2 lq2 scr2 f2 g2 p2 w2 s2 pd2 g2' w2' Hmo2 C2 R2 D2 L2 E2) as N2.
  apply (newton_uniq a1 q s1 s2 C1 R1).
  - intros c Hcc. destruct (Hm c Hcc) as [H0|H0]; [right; split; [exact H0|exact (Hmo c Hcc H0)]|left; exact H0].
  - exact HA.
  - exact N1.
  - destruct N2 as (A & B & C & D). split; [exact A|]. split; [exact B|]. split; [exact C|]. intros c Hcc. destruct (Hsp c Hcc) as (-> & ->). apply D. exact Hcc.
Qed.

(** C48: the retry loop ends (exact arithmetic), for any Hessian and any constraints, unless the method is the unscaled Schur complement. *)
Theorem C48_retry_terminates_partial (a : dka R) (q : dqp R) lq scr g3 stp w :
  den_wf q -> lq_ready a q lq w -> d_ne q = 0%nat \/ da_alg a = 0%Z \/ da_scale a = true ->
  0 <= da_reg a -> (w_preg w = da_reg a \/ 0 < w_preg w) -> (0 < da_dreg a \/ w_dreg w = da_reg a \/ 0 < w_dreg w) ->
  exists fuel r, den_fact_solve a q lq scr fuel g3 stp w = Some r.
Proof.
  intros Hwf Hlq Hm Hr Hl Hd'. unfold den_fact_solve. destruct (den_Gg a q g3) as [[tinv Gamma] gamma]. destruct (ppos_large a q Gamma Hm) as (K & HK).
  destruct (term4 a q lq scr Hwf Gamma gamma K HK Hr (da_reg a) (clear_npd w) (ds_v stp, ds_pi stp) Hlq Hl Hd') as (fuel & [[[w1 [dv dpi]] [pi preg]] [di dreg]] & E).
  exists fuel. rewrite E. destruct (den_epilogue _ _ _ _ _ _ _ _) as [[? ?] ?]. eexists. reflexivity.
Qed.
(** C48, refuted for the unscaled Schur complement method: it regularises with reg_prim at every retry (line 1558), so FACT_SOLVE never returns
    for any QP with equality constraints, no inequality constraints, and H + reg_prim I not positive definite. *)
Theorem C48_schur_retry_refuted (a : dka R) (q : dqp R) lq scr g3 stp w (v : nat -> R) :
  den_wf q -> d_ne q <> 0%nat -> da_alg a <> 0%Z -> da_scale a = false -> d_nct q = 0%nat ->
  (exists k, (k < d_nv q)%nat /\ v k <> 0) -> den_quad q v + da_reg a * rsum (d_nv q) (fun k => v k * v k) <= 0 ->
  forall fuel, den_fact_solve a q lq scr fuel g3 stp w = None.
Proof.
  intros Hwf Hne Ha Hs Hn Hv Hq fuel. unfold den_fact_solve. destruct (den_Gg a q g3) as [[tinv Gamma] gamma]. rewrite (schur_stuck a q lq scr Hwf Hne Ha v fuel Gamma gamma) by assumption. reflexivity.
Qed.
(** C48, refuted for the Schur complement method with dependent equality constraints and reg_dual 0 <> reg_prim: the dual retry tests dreg_last against
    reg_prim (lines 1288, 1299), so the dual regularisation stays 0 and FACT_SOLVE never returns. *)
Theorem C48_dual_retry_refuted (a : dka R) (q : dqp R) lq scr g3 stp w (y : nat -> R) :
  den_wf q -> d_ne q <> 0%nat -> da_alg a <> 0%Z -> da_dreg a = 0 -> w_dreg w = 0 -> da_reg a <> 0 ->
  (exists j, (j < d_ne q)%nat /\ y j <> 0) -> (forall k, (k < d_nv q)%nat -> rsum (d_ne q) (fun j => y j * d_A q j k) = 0) ->
  forall fuel, den_fact_solve a q lq scr fuel g3 stp w = None.
Proof.
  intros Hwf Hne Ha Hd Hw Hr Hy Hdep fuel. unfold den_fact_solve. destruct (den_Gg a q g3) as [[tinv Gamma] gamma]. rewrite Hd. rewrite (dual_stuck a q lq scr Hwf Hne Ha y Gamma gamma) by assumption. reflexivity.
Qed.

(** Concrete cases.  Two variables, one equality constraint v0 = 1, a soft bound on v0, one general constraint. *)
Definition dkH (h0 : R) : nat -> nat -> R := fun i j => if (i =? j)%nat then (match i with O => h0 | _ => 2 end) else 0.
Definition dkq (h0 : R) : dqp R := mkdqp 2 1 1 1 1 (dkH h0) (fun _ k => match k with O => 1 | _ => 0 end) (fun _ _ => 1) (fun _ => 1) (fun _ => 1) (fun _ => -1) (fun _ => 1) (fun _ => 1) (fun _ => 1)
  (fun _ => 0%nat) (fun j => match j with O => 0%Z | _ => (-1)%Z end).
(** the same without inequality constraints *)
Definition dke (h0 : R) : dqp R := mkdqp 2 1 0 0 0 (dkH h0) (fun _ k => match k with O => 1 | _ => 0 end) (fun _ _ => 1) (fun _ => 1) (fun _ => 1) (fun _ => -1) (fun _ => 1) (fun _ => 1) (fun _ => 1)
  (fun _ => 0%nat) (fun _ => (-1)%Z).
Definition dka0 (alg : Z) (sc : bool) (reg : R) : dka R := mkdka reg 0 alg sc (fun _ => 2) (fun _ => 3) 0 0 0 0.
Definition dklq : nat -> nat -> (nat -> nat -> R) -> (nat -> nat -> R) * (nat -> nat -> R) -> (nat -> nat -> R) * (nat -> nat -> R) :=
  fun _ _ _ _ => (fun _ _ => 1, fun i j => if (i =? j)%nat then 1 else 0).
Definition z1 : nat -> R := fun _ => 0. Definition z2 : nat -> nat -> R := fun _ _ => 0.
Definition dkw0 (sc : bool) : dkw R := mkdkw z2 z1 z2 z2 z2 z1 z1 z1 z1 z2 z2 z2 z2 z2 z2 z1 sc false 0 0 false.

Lemma dk_lq alg sc reg h0 q w : q = dkq h0 \/ q = dke h0 -> w_useA w = false -> lq_ready (dka0 alg sc reg) q dklq w.
Proof.
  intros Hq Hu _ _. assert (d_ne q = 1%nat /\ d_nv q = 2%nat /\ d_A q = fun _ k => match k with O => 1 | _ => 0 end) as (En & Ev & EA) by (destruct Hq as [-> | ->]; split; [|split| |split]; reflexivity).
  rewrite En, Ev. split; [lia|]. unfold lq_given. rewrite Hu, En, Ev, EA. cbn [dklq fst snd]. split; [intros; lra|]. split; [|split].
  - intros i k Hi Hk. assert (i = 0%nat) as -> by lia. cbn [rsum]. destruct k as [|[|k]]; [| |lia]; cbn; lra.
  - intros i j Hi Hj. destruct i as [|[|i]]; [| |lia]; (destruct j as [|[|j]]; [| |lia]); cbn; lra.
  - intros i j Hi Hj. destruct i as [|[|i]]; [| |lia]; (destruct j as [|[|j]]; [| |lia]); cbn; lra.
Qed.
Lemma dk_quad h0 q p : q = dkq h0 \/ q = dke h0 -> den_quad q p = h0 * (p 0%nat * p 0%nat) + 2 * (p 1%nat * p 1%nat).
Proof. intros [-> | ->]; unfold den_quad, den_Hess, H_co, symL, dkH; cbn; ring. Qed.
Lemma dk_rank q h0 : q = dkq h0 \/ q = dke h0 -> den_full_rank q.
Proof. intros [-> | ->] y H j Hj; assert (j = 0%nat) as -> by (cbn in Hj; lia); specialize (H 0%nat ltac:(cbn; lia)); cbn in H; lra. Qed.
Lemma dk_nz (p : nat -> R) n : n = 2%nat -> (exists k, (k < n)%nat /\ p k <> 0) -> 0 < p 0%nat * p 0%nat + p 1%nat * p 1%nat.
Proof. intros -> (k & Hk & E). pose proof (Rle_0_sqr (p 0%nat)). pose proof (Rle_0_sqr (p 1%nat)). unfold Rsqr in *. destruct k as [|[|k]]; [| |lia]; (assert (0 < p 0%nat * p 0%nat \/ 0 < p 1%nat * p 1%nat) by (first [left; nra|right; nra])); lra. Qed.
Lemma dk_convex alg sc h0 q : q = dkq h0 \/ q = dke h0 -> 0 < h0 \/ alg = 0%Z -> den_convex (dka0 alg sc 0) q.
Proof.
  intros Hq Hh. assert (d_nv q = 2%nat /\ d_ne q = 1%nat) as (Ev & En) by (destruct Hq as [-> | ->]; split; reflexivity).
  assert (Hd : forall p, den_dir (dka0 alg sc 0) q p -> 0 < h0 \/ p 0%nat = 0).
  { intros p D. destruct Hh as [Hh|Hh]; [left; exact Hh|right]. specialize (D Hh 0%nat). rewrite En, Ev in D. specialize (D ltac:(lia)). destruct Hq as [-> | ->]; cbn in D; lra. }
  split.
  - intros c _. cbn. lra.
  - left. cbn. lia.
  - intros k _. destruct Hq as [-> | ->]; cbn; lra.
  - intros k _. left. destruct Hq as [-> | ->]; cbn; lra.
  - cbn. lra.
  - intros p D. rewrite (dk_quad h0) by exact Hq. pose proof (Rle_0_sqr (p 0%nat)). pose proof (Rle_0_sqr (p 1%nat)). unfold Rsqr in *. destruct (Hd p D) as [Hh1|Hh1]; [nra|rewrite Hh1; nra].
  - intros p D N. rewrite (dk_quad h0) by exact Hq. pose proof (dk_nz p _ Ev N). pose proof (Rle_0_sqr (p 0%nat)). pose proof (Rle_0_sqr (p 1%nat)). unfold Rsqr in *. cbn [da_reg dka0]. destruct (Hd p D) as [Hh1|Hh1]; [nra|rewrite Hh1 in *; nra].
  - intros _ Ha. split; [cbn; lra|]. intros y (j & Hj & E). right. rewrite En in Hj. assert (j = 0%nat) as -> by lia. exists 0%nat. rewrite Ev, En. split; [lia|]. destruct Hq as [-> | ->]; cbn; lra.
Qed.
Example C47_hypotheses_met : let q := dkq 2 in den_wf q /\ den_soft_inj q /\ den_mask01 q /\ den_full_rank q /\ d_nct q = 6%nat /\
  forall alg sc, den_convex (dka0 alg sc 0) q /\ den_mask_off (dka0 alg sc 0) q /\ den_point (dka0 alg sc 0) q /\ lq_ready (dka0 alg sc 0) q dklq (dkw0 sc) /\ w_scale (dkw0 sc) = da_scale (dka0 alg sc 0) /\
  exists s g w', den_fact_solve (dka0 alg sc 0) q dklq (fun _ => z1) 1 (z1, z1, z1) (mkdsol z1 z1 z1 z1) (dkw0 sc) = Some (s, (0, 0), g, w').
Proof.
  intros q. assert (Hwf : den_wf q).
  { split; [intros j Hj; cbn; lia|]. intros j Hj. cbn in Hj |- *. destruct j; [right; lia|left; reflexivity]. }
  split; [exact Hwf|]. split; [|split; [|split; [|split; [reflexivity|]]]].
  - intros j j' Hj Hj' H1 H2. cbn in H1, H2. destruct j, j'; try reflexivity; cbn in *; congruence.
  - intros c _. right. reflexivity.
  - apply (dk_rank q 2). left. reflexivity.
  - intros alg sc. assert (Hc : den_convex (dka0 alg sc 0) q) by (apply (dk_convex alg sc 2); [left; reflexivity|left; lra]).
    assert (Hmo : den_mask_off (dka0 alg sc 0) q) by (intros c _ H; cbn in H; lra). assert (Hl : lq_ready (dka0 alg sc 0) q dklq (dkw0 sc)) by (apply (dk_lq alg sc 0 2); [left; reflexivity|reflexivity]).
    split; [exact Hc|]. split; [exact Hmo|]. split; [exact (cx_den_point _ _ Hc Hmo)|]. split; [exact Hl|]. split; [reflexivity|].
    destruct (C47_convex_returns (dka0 alg sc 0) q dklq (fun _ => z1) 0 (z1, z1, z1) (mkdsol z1 z1 z1 z1) (dkw0 sc) Hwf Hc Hmo Hl) as (s & g & w' & E & _). exists s, g, w'. exact E.
Qed.
(** H = diag(-1, 2), constraint v0 = 1, no inequality: the QP has one minimiser; the default method (Schur complement) never returns, the null-space
    method returns at once. *)
Example C48_schur_retry_witness : let q := dke (-1) in den_wf q /\
  (forall fuel g3 stp w scr, den_fact_solve (dka0 1 false 0) q dklq scr fuel g3 stp w = None) /\
  (forall g3 stp w scr, w_useA w = false -> exists s g w', den_fact_solve (dka0 0 false 0) q dklq scr 1 g3 stp w = Some (s, (0, 0), g, w') /\ den_newton (dka0 0 false 0) q no_force no_force s).
Proof.
  intros q. assert (Hwf : den_wf q) by (split; [intros j Hj; cbn in Hj; lia|intros j Hj; cbn in Hj; lia]). split; [exact Hwf|]. split.
  - intros fuel g3 stp w scr. apply (C48_schur_retry_refuted _ q dklq scr g3 stp w (fun k => match k with O => 1 | _ => 0 end) Hwf); try reflexivity; [discriminate|discriminate|exists 0%nat; split; [cbn; lia|lra]|].
    rewrite (dk_quad (-1)) by (right; reflexivity). cbn. lra.
  - intros g3 stp w scr Hu. assert (Hc : den_convex (dka0 0 false 0) q) by (apply (dk_convex 0 false (-1)); [right; reflexivity|right; reflexivity]).
    assert (Hmo : den_mask_off (dka0 0 false 0) q) by (intros c Hcc; cbn in Hcc; lia). assert (Hl : lq_ready (dka0 0 false 0) q dklq w) by (apply (dk_lq 0 false 0 (-1)); [right; reflexivity|exact Hu]).
    destruct (C47_convex_returns (dka0 0 false 0) q dklq scr 0 g3 stp w Hwf Hc Hmo Hl) as (s & g & w' & E & _). exists s, g, w'. split; [exact E|].
    apply (C47_newton _ q dklq scr 1 g3 stp w s _ _ g w' Hwf) in E; [apply E; reflexivity|intros j j' Hj; cbn in Hj; lia|intros c Hcc; cbn in Hcc; lia|exact (cx_den_point _ _ Hc Hmo)|exact Hl].
Qed.
(** two copies of the constraint v0 = 1, H = identity, reg_prim = 1, reg_dual = 0 *)
Example C48_dual_retry_witness : let q := mkdqp 2 2 0 0 0 (dkH 1) (fun _ k => match k with O => 1 | _ => 0 end) z2 z1 (fun _ => 1) z1 z1 z1 z1 (fun _ => 0%nat) (fun _ => (-1)%Z) in
  den_wf q /\ forall sc fuel g3 stp w scr, w_dreg w = 0 -> den_fact_solve (dka0 1 sc 1) q dklq scr fuel g3 stp w = None.
Proof.
  intros q. assert (Hwf : den_wf q) by (split; intros j Hj; cbn in Hj; lia). split; [exact Hwf|]. intros sc fuel g3 stp w scr Hw.
  apply (C48_dual_retry_refuted _ q dklq scr g3 stp w (fun j => match j with O => 1 | _ => -1 end) Hwf); try reflexivity; try discriminate; [exact Hw|cbn; lra|exists 0%nat; split; [cbn; lia|lra]|].
  intros k Hk. cbn. destruct k; lra.
Qed.

(** C47, refuted for scaling in absolute form: SOLVE reads ws->scale, which only DENSE_QP_IPM_DELTA_STEP sets (x_dense_qp_ipm.c 1724); with the flag still
    clear after a scaled FACT_SOLVE the step is wrong: H = 4, gz = 1 gives -1 instead of -1/4. *)
Section Scale.
Notation F := spec_float.
Definition sv0 : nat -> F := fun _ => lit 0 1. Definition sm0 : nat -> nat -> F := fun _ _ => lit 0 1.
Definition scq : dqp F := mkdqp 1 0 0 0 0 (fun _ _ => lit 4 1) sm0 sm0 (fun _ => lit 1 1) sv0 sv0 sv0 sv0 sv0 (fun _ => 0%nat) (fun _ => (-1)%Z).
Definition sca : dka F := mkdka (lit 0 1) (lit 0 1) 1 true sv0 sv0 0 (lit 0 1) (lit 0 1) (lit 0 1).
Definition scw (sc : bool) : dkw F := mkdkw sm0 sv0 sm0 sm0 sm0 sv0 sv0 sv0 sv0 sm0 sm0 sm0 sm0 sm0 sm0 sv0 sc false (lit 0 1) (lit 0 1) false.
Definition sclq : nat -> nat -> (nat -> nat -> F) -> (nat -> nat -> F) * (nat -> nat -> F) -> (nat -> nat -> F) * (nat -> nat -> F) := fun _ _ _ _ => (sm0, sm0).
Definition sc_run (sc : bool) : option (F * F) :=
  match den_fact_solve sca scq sclq (fun _ => sv0) 1 (sv0, sv0, sv0) (mkdsol sv0 sv0 sv0 sv0) (scw sc) with
  | Some (s, _, (tinv, Gamma, gamma), w') =>
      let '(s2, _, _) := den_solve_kkt sca scq (fun _ => sv0) tinv Gamma gamma (mkdsol sv0 sv0 sv0 sv0) w' in Some (ds_v s 0%nat, ds_v s2 0%nat)
  | None => None
  end.
Theorem C47_scale_flag_refuted : sc_run true = Some (lit (-1) 4, lit (-1) 4) /\ sc_run false = Some (lit (-1) 4, lit (-1) 1).
Proof. split; vm_compute; reflexivity. Qed.
End Scale.
Print Assumptions C47_newton.
Print Assumptions C47_null_space_exact_eq.
Print Assumptions C47_convex_returns.
Print Assumptions C47_fact_then_solve.
Print Assumptions C47_resolve.
Print Assumptions C47_methods_agree.
Print Assumptions C48_retry_terminates_partial.
Print Assumptions C48_schur_retry_refuted.
Print Assumptions C48_dual_retry_refuted.
Print Assumptions C47_scale_flag_refuted.
