(** SensRedProps.v -- C50: forward sensitivities of the OCP QP solver object when it removes the variables fixed by equality bounds (exact arithmetic).
    Specification: SolverSpec.v (sens_red, relaxed_red, curve_derivative_red, convex_point), SensSpec.v (factored, history, saved_point, data_derivative). *)
From Coq Require Import ZArith Bool Arith List Lia Reals Lra String.
From Verif Require Import Base ArithF RSum Blas OcpModel ResSpec ResProofs ResProofs2 CondSpec CondProps RedModel RedSpec RedSem RedProofs RedFull RedRest RedRest2 RedProps.
From Verif Require Import CoreModel ArgModel IpmModel IpmProps KktModel KktSpec KktProps SolveModel NewtonUniq SolveProps SensModel SensSpec SensProofs SensProofs2 SensProps SolverModel SolverSpec SolverProofs SolverProofs2 SolverProps.
Local Open Scope R_scope.

Section Conv.
Variables (qp : oqp R) (e : eqd) (r : oqp R).
Hypothesis WF : qp_wf qp.
Hypothesis EW : eq_wf qp e.
Hypothesis BF : bounds_first qp e.
Hypothesis OK : reduced_ok qp e r.
Let D := q_dim qp.
Let RR : restriction qp e r. Proof. exact (restriction_R qp e WF EW BF r OK). Qed.
Lemma r_dns i : dns (q_dim r) i = dns D i.
Proof. destruct OK as (-> & _). reflexivity. Qed.
Lemma r_convex a : a_reg a = 0 -> convex_point qp e (fun i c => a_lam a i (cplace qp e i c)) (fun i c => a_t a i (cplace qp e i c)) -> ipm_convex a r.
Proof.
  intros Hr [H1 H2 H3 H4]. destruct OK as (ED & P). fold D in H1, H2, H3, H4. split; rewrite (r_N qp e r RR); fold D; rewrite ?Hr.
  - intros i p Hi Hp. destruct (r_con qp e r RR i p Hi Hp) as (c & Hc & F & <-). apply H1; assumption.
  - intros i k Hi Hk. rewrite r_dns in Hk. destruct (P i Hi) as ((_ & _ & _ & P4 & _) & _). rewrite P4 by exact Hk. rewrite Rplus_0_r. apply H2; assumption.
  - intros i k Hi Hk. rewrite r_dns in Hk. destruct (P i Hi) as ((_ & _ & _ & P4 & _) & _). rewrite P4 by exact Hk. rewrite Rplus_0_r. destruct (H3 i k Hi Hk) as [L|L]; [left; exact L|right].
    replace (2 * dnb D i + 2 * dng D i + k)%nat with (2 * dnb D i + dng D i + (dng D i + k))%nat in L by lia. rewrite (cp_rest qp e i Hi EW) in L. rewrite ED.
    replace (2 * dnb (dim_reduce (q_dim qp) e) i + 2 * dng (dim_reduce (q_dim qp) e) i + k)%nat with (2 * dnb (dim_reduce D e) i + dng D i + (dng D i + k))%nat; [exact L|]. change (dng (dim_reduce (q_dim qp) e) i) with (dng D i). unfold D. lia.
  - intros i v Hi (p & Hp & Hv). set (v' := fun k => if fixed qp e i k then 0 else v (vplace qp e i k)).
    assert (EN : nux r i = vplace qp e i (nux qp i)) by (destruct RR as (_ & A & _); destruct (A i Hi) as (_ & A2 & _); exact A2).
    destruct RR as (_ & _ & _ & B & _). assert (LN : (nux qp i <= nvt D i)%nat) by (unfold nux, nvt, D; lia).
    assert (X : exists k, (k < nux qp i)%nat /\ v' k <> 0).
    { rewrite EN in Hp. destruct (rk_surj _ _ _ Hp) as (k & Hk & F & E). exists k. split; [exact Hk|]. unfold v'. rewrite F. unfold vplace. rewrite E. exact Hv. }
    specialize (H4 i v' Hi X). rewrite Rmult_0_l, Rplus_0_r.
    replace (rsum (nux r i) (fun k => rsum (nux r i) (fun l => v k * Hess r i k l * v l))) with (rsum (nux qp i) (fun k => rsum (nux qp i) (fun l => v' k * Hess qp i k l * v' l))); [exact H4|].
    rewrite EN. rewrite <- (place_sum qp e i (nux qp i) (fun k => rsum (nux qp i) (fun l => v' k * Hess qp i k l * v' l)) (fun k => rsum (vplace qp e i (nux qp i)) (fun l => v k * Hess r i k l * v l))).
    + apply rsum_ext. intros k Hk. destruct (fixed qp e i k) eqn:E; [|reflexivity]. apply rsum_0. intros l _. unfold v' at 1. rewrite E. ring.
    + intros k Hk E. rewrite <- (place_sum qp e i (nux qp i) (fun l => v' k * Hess qp i k l * v' l) (fun l => v (vplace qp e i k) * Hess r i (vplace qp e i k) l * v l)).
      * apply rsum_ext. intros l Hl. destruct (fixed qp e i l) eqn:E'; [|reflexivity]. unfold v' at 2. rewrite E'. ring.
      * intros l Hl E'. unfold v'. rewrite E, E'. assert (Hk' : (k < nvt (q_dim qp) i)%nat) by (fold D; lia). assert (Hl' : (l < nvt (q_dim qp) i)%nat) by (fold D; lia). destruct (B i k Hi Hk' E) as (B1 & _). rewrite B1 by assumption. reflexivity.
Qed.
Lemma r_masks_one : masks_one (q_dim qp) (q_mask qp) -> masks_one (q_dim r) (q_mask r).
Proof.
  intros H i p Hi Hp. rewrite (r_N qp e r RR) in Hi. destruct (r_con qp e r RR i p Hi Hp) as (c & Hc & F & <-). destruct RR as (_ & _ & _ & _ & B). destruct (B i c Hi Hc F) as (_ & _ & -> & _). apply H; assumption.
Qed.
End Conv.

(** *** the solver object after a solve with removal of fixed variables *)
Section C50.
Context {K : Type} (OP : kops (F := R) K).
Variables (D : dims) (e : eqd) (w0 : sws R K) (qp : oqp R) (sol : vars R) (ist' : @ist R K).
Hypothesis LV : live OP D e w0.
Hypothesis ED : q_dim qp = D.
Hypothesis RED : sa_reduce (w_arg w0) = 1%Z.
Hypothesis WF : qp_wf qp.
Hypothesis EW : eq_wf qp e.
Hypothesis BF : bounds_first qp e.
Hypothesis HI : eq_imposed qp e.
Hypothesis HN : (1 <= dN D)%nat.
Hypothesis SI : soft_inj qp.
Hypothesis HM : mask01 qp.
Let w1 : sws R K := snd (solver_solve OP qp e sol ist' w0).
Let r : oqp R := w_rqp w1.
(** the interior point method's state on the reduced QP at its last factorisation: (lam, t) of [a], factorisation, backup, and any solves since *)
Variables (sq : bool) (a : kargs R) (pb : bool) (bX : nat -> nat -> R) (preg : R) (tinv Gam : nat -> nat -> R) (wf wk : kws R) (bkp : osol R).
Hypothesis Hd : a_dual a = true.
Hypothesis Hf : factored sq a r pb bX preg tinv Gam wf.
Hypothesis Hb : saved_point a (q_dim r) bkp.
Hypothesis Hh : history sq a r pb bX tinv Gam bkp wf wk.
(** OCP_QP_SOLVER_SENS_FRW on that object, whatever the contents of its workspaces and of the output *)
Variables (sd sdw : seed R) (rw : rwork (F := R)) (gam0 : nat -> nat -> R) (out0 out : osol R).
Let frw (s : seed R) : osol R := fst (sens_frw sq a r s bkp tinv Gam gam0 out0 wk).
Let s : osol R := fst (solver_sens (sa_red (w_arg w1)) qp e r sd sdw frw out rw).
(** the point, as multipliers and slacks of the constraints of the user's QP *)
Let lam0 : nat -> nat -> R := fun i c => a_lam a i (cplace qp e i c).
Let t0 : nat -> nat -> R := fun i c => a_t a i (cplace qp e i c).

Lemma w1_r : reduced_ok qp e r /\ sa_red (w_arg w1) = def_red.
Proof.
  destruct (live_inv OP D e w0 LV) as (E1 & E2). rewrite RED in E2. specialize (E2 eq_refl). unfold r, w1, solver_solve. rewrite RED. change (zb 1) with true. cbv iota.
  assert (E0 : q_dim (w_rqp w0) = dim_reduce (q_dim qp) e) by (rewrite ED; exact E2).
  pose proof (reduce_eq_dof_R qp e WF EW (zb (ra_alias (sa_red (w_arg w0)))) (w_rqp w0) (w_rw w0) E0) as X. destruct (reduce_eq_dof _ qp e _) as [r1 rw1]. cbn [fst] in X.
  destruct (restore_eq_dof _ _ _ _ _ _ _ _ _ _) as [s1 rw2]. cbn [snd w_rqp w_arg]. split; [exact X|exact E1].
Qed.
Lemma s_eq : s = fst (restore_seed true true true (1 / 10 ^ 16) (1 / 10 ^ 16) qp sd (q_dim r) e (frw (fst (reduce_seed qp e (q_dim r) sd (sdw, rw)))) (out, snd (reduce_seed qp e (q_dim r) sd (sdw, rw)))).
Proof.
  unfold s, solver_sens. rewrite (proj2 w1_r). cbn [def_red ra_prim ra_dineq ra_deq ra_lmin ra_tmin]. change (zb 1) with true.
  assert (EL : @lit R _ 1 (10 ^ 16) = 1 / 10 ^ 16) by (rsimp; rewrite pow_IZR; reflexivity). rewrite EL. destruct (reduce_seed qp e (q_dim r) sd (sdw, rw)). reflexivity.
Qed.
Lemma lm_abs : Rabs (1 / 10 ^ 16) = 1 / 10 ^ 16.
Proof. apply Rabs_right. left. apply Rdiv_lt_0_compat; [lra|apply pow_lt; lra]. Qed.
Lemma HNr : (1 <= dN (q_dim r))%nat.
Proof. destruct w1_r as ((E & _) & _). rewrite E. cbn [dim_reduce dN]. rewrite ED. exact HN. Qed.
Lemma HMr : mask01 r.
Proof. exact (r_mask01 qp e r (restriction_R qp e WF EW BF r (proj1 w1_r)) HM). Qed.

(** C50: the returned sensitivities satisfy the differentiated conditions of the user's QP: fixed variables move with their bounds, the other conditions
    hold exactly, stationarity at the fixed variables up to 1e-16 *)
Theorem C50_forward : interior a r -> masked_zero qp (sd_m sd) -> sens_red qp e lam0 t0 (reg_diag qp (a_reg a) preg) sd s (1 / 10 ^ 16).
Proof.
  intros Hip Hz. rewrite s_eq. rewrite <- lm_abs at 3. destruct w1_r as (OK & _).
  apply (sens_R qp e r WF EW BF OK sd sdw rw a preg (1 / 10 ^ 16) (1 / 10 ^ 16) _ out _ HI HMr Hip Hz).
  unfold frw. apply (C46_forward sq a r pb bX preg tinv Gam wf wk bkp _ gam0 out0).
  - exact (reduced_wf qp e WF EW BF r OK).
  - exact HNr.
  - exact (soft_inj_r qp e r EW OK SI).
  - exact HMr.
  - exact Hip.
  - exact Hd.
  - exact Hf.
  - exact Hb.
  - exact Hh.
  - apply (masked_zero_r qp e r WF EW BF OK). exact Hz.
Qed.
(** C50: ... and they are the derivative of the solution: along any differentiable curve of data with a differentiable curve of solutions of the relaxed KKT
    conditions of the user's QP through the point (removed bounds as equalities), seeds = derivatives of the data *)
Theorem C50_forward_is_derivative c l eps : masks_one D (q_mask qp) -> convex_point qp e lam0 t0 -> a_tlm a <> 1%Z -> a_reg a = 0 -> preg = 0 -> 0 < eps ->
  (forall h, Rabs h < eps -> relaxed_red (with_rhs qp (c_g c h) (c_b c h) (c_d c h) (c_m c h)) e (mksol (c_ux c h) (c_pi c h) (c_lam c h) (c_t c h))) ->
  (forall i k, (i <= dN D)%nat -> (k < nct D i)%nat -> removedc qp e i k = false -> c_lam c 0 i k = lam0 i k /\ c_t c 0 i k = t0 i k) ->
  data_derivative D c sd -> curve_derivative_red qp e c l ->
  curve_derivative_red qp e c s.
Proof.
  intros M1 CP Ht Hreg Hp He Hsol Hpt Hdat Hder. destruct w1_r as (OK & _). rewrite <- ED in M1, Hpt, Hdat.
  pose proof (restriction_R qp e WF EW BF r OK) as RR.
  assert (M1r : masks_one (q_dim r) (q_mask r)) by (apply (r_masks_one qp e r WF EW BF OK); exact M1).
  assert (Cr : ipm_convex a r) by (apply (r_convex qp e r WF EW BF OK); assumption).
  assert (Hip : interior a r). { apply cx_point; [|exact M1r|exact Ht]. split; [exact (ic_t _ _ Cr)|exact (ic_Z _ _ Cr)|exact (ic_slack _ _ Cr)|exact (ic_H _ _ Cr)]. }
  assert (Hz : masked_zero qp (sd_m sd)) by (intros i k Hi Hk E; rewrite (M1 i k Hi Hk) in E; lra).
  set (sdr := fst (reduce_seed qp e (q_dim r) sd (sdw, rw))).
  assert (WFr : qp_wf r) by exact (reduced_wf qp e WF EW BF r OK).
  assert (SIr : soft_inj r) by exact (soft_inj_r qp e r EW OK SI).
  set (cr := cred qp e r sdw rw c).
  assert (DR : curve_derivative (q_dim r) cr (frw sdr)).
  { unfold frw. pose proof Hf as Hf'. rewrite Hp in Hf'.
    apply (C46_forward_is_derivative sq a r pb bX tinv Gam wf wk bkp sdr gam0 out0 cr (lred qp e l) eps WFr HNr SIr M1r Cr Ht Hreg Hd Hf' Hb Hh He).
    - apply (cred_sol qp e r WF EW BF OK sdw rw c eps Hsol).
    - intros i p Hi Hp'. rewrite (r_N qp e r RR) in Hi. destruct (r_con qp e r RR i p Hi Hp') as (k & Hk & F & <-). unfold cr. cbn [cred c_lam c_t]. rewrite !unliftc_at by assumption. exact (Hpt i k Hi Hk F).
    - exact (cred_data qp e r WF EW BF OK sd sdw rw c eps He Hdat).
    - exact (cred_deriv qp e r WF EW BF OK sdw rw c l eps He Hder). }
  assert (NS : newton_solution a (seed_qp r sdr) preg (frw sdr)).
  { unfold frw. apply (C46_forward sq a r pb bX preg tinv Gam wf wk bkp _ gam0 out0); try assumption; [exact HNr|exact HMr|apply (masked_zero_r qp e r WF EW BF OK); exact Hz]. }
  assert (LM : olam_masked r (s_lam (frw sdr))) by exact (sens_lam_masked qp e r WF EW BF OK sd sdw rw a preg (frw sdr) HMr Hip Hz NS).
  rewrite s_eq. fold sdr. unfold restore_seed.
  pose proof (restored (seed_qp qp sd) e (seed_qp r sdr) WF EW (seed_restr qp e r WF EW BF OK sd sdw rw) (proj1 OK) (1 / 10 ^ 16) (1 / 10 ^ 16) (frw sdr) out (snd (reduce_seed qp e (q_dim r) sd (sdw, rw))) HI LM) as X. cbv zeta in X. cbn [q_dim seed_qp with_rhs] in X.
  set (s' := fst (restore_eq_dof _ _ _ _ _ _ _ _ _ _)) in *. clearbody s'. destruct X as (C1 & C2 & C3 & _).
  exact (restore_deriv qp e r WF EW BF OK sd sdw rw c eps He Hsol Hdat (frw sdr) s' DR C1 C2 C3).
Qed.
(** C50: not so for the multipliers and slacks of the removed bounds: whatever the seeds, the returned sensitivities of both multipliers are >= 0 and those of
    both slacks are 1e-16, so no decreasing multiplier gets its derivative *)
Theorem C50_removed_bounds_refuted i j : (i <= dN D)%nat -> (j < dnb D i)%nat -> removed e i j = true ->
  s_t s i j = 1 / 10 ^ 16 /\ s_t s i (dnb D i + dng D i + j)%nat = 1 / 10 ^ 16 /\ 0 <= s_lam s i j /\ 0 <= s_lam s i (dnb D i + dng D i + j)%nat.
Proof.
  intros Hi Hj Hr. destruct w1_r as (OK & _). rewrite s_eq. unfold restore_seed. rewrite (proj1 OK). rewrite <- ED in *.
  match goal with |- context [restore_eq_dof true true true ?l ?t (seed_qp qp sd) ?dr e ?x (out, ?y)] => pose proof (restore_R (seed_qp qp sd) e WF EW true true true l t x out y i Hi) as Y end. cbv zeta in Y.
  destruct Y as (_ & _ & Y). specialize (Y eq_refl). change (dim_reduce (q_dim (seed_qp qp sd)) e) with (dim_reduce (q_dim qp) e) in Y.
  set (s' := fst (restore_eq_dof _ _ _ _ _ _ _ _ _ _)) in *. clearbody s'. destruct Y as (_ & Y). destruct (Y j Hj Hr) as (Y1 & Y2 & g & lt & _ & _ & Y3).
  cbn [q_dim seed_qp with_rhs] in *. split; [exact Y1|]. split; [exact Y2|]. assert (P : 0 < 1 / 10 ^ 16) by (apply Rdiv_lt_0_compat; [lra|apply pow_lt; lra]).
  destruct Y3 as [(A & B & C)|(A & B & C)]; rewrite B, C; split; lra.
Qed.
End C50.
Print Assumptions C50_forward.
Print Assumptions C50_forward_is_derivative.
Print Assumptions C50_removed_bounds_refuted.

(** *** the hypotheses are met: the QP of RedProps.v (two fixed initial states, a softened general constraint) in a solver object made by the API *)
Definition exw_of (q : oqp R) : kws R := mkkws (q_BAbt q) (fun _ _ _ => 0) (fun _ _ => 0) (fun _ _ _ => 0) (fun _ _ => 0) (fun _ _ => 0) (fun _ _ => 0) (fun _ _ => 0) (fun _ _ => 0) (fun _ => 0) (fun _ _ => 0) (fun _ _ => 0) (fun _ _ => 0) (fun _ _ => 0).
Section Ex.
Context {K : Type} (OP : kops (F := R) K) (ist0 ist' : @ist R K) (sol : vars R).
Lemma rx_convex (lam0 t0 : nat -> nat -> R) : (forall i c, lam0 i c = 2 /\ t0 i c = 3) -> convex_point rx_qp rx_eq lam0 t0.
Proof.
  intros H. split.
  - intros i c _ _ _. destruct (H i c) as (-> & ->). lra.
  - intros i k _ _. cbn. lra.
  - intros i k _ _. left. cbn. lra.
  - intros i v Hi (k & Hk & Hv). assert (E : i = 0%nat \/ i = 1%nat) by (cbn in Hi; lia). destruct E as [-> | ->].
    + change (nux rx_qp 0) with 3%nat in *. cbn [rsum]. unfold Hess, symL. cbn [rx_qp q_RSQ Nat.ltb Nat.leb Nat.eqb nux q_dim rx_dims dnu dnx Nat.add].
      assert (X : v 0%nat <> 0 \/ v 1%nat <> 0 \/ v 2%nat <> 0) by (do 3 (destruct k as [|k]; [auto|]); lia).
      cbn [andb]. assert (P : 0 < v 0%nat * v 0%nat + v 1%nat * v 1%nat + v 2%nat * v 2%nat).
      { pose proof (Rle_0_sqr (v 0%nat)). pose proof (Rle_0_sqr (v 1%nat)). pose proof (Rle_0_sqr (v 2%nat)). unfold Rsqr in *. destruct X as [X|[X|X]]; apply Rsqr_pos_lt in X; unfold Rsqr in X; lra. }
      pose proof (Rle_0_sqr (v 0%nat + v 1%nat + v 2%nat)) as Q. unfold Rsqr in Q. cbn. nra.
    + change (nux rx_qp 1) with 1%nat in *. assert (k = 0%nat) by lia. subst k. cbn [rsum]. apply Rsqr_pos_lt in Hv. unfold Rsqr in Hv. cbn. nra.
Qed.
Example C50_hypotheses_met (sq : bool) : exists w0, live OP rx_dims rx_eq w0 /\ sa_reduce (w_arg w0) = 1%Z /\ qp_wf rx_qp /\ eq_wf rx_qp rx_eq /\ bounds_first rx_qp rx_eq /\ eq_imposed rx_qp rx_eq /\
  soft_inj rx_qp /\ masks_one rx_dims (q_mask rx_qp) /\ mask01 rx_qp /\
  let r := w_rqp (snd (solver_solve OP rx_qp rx_eq sol ist' w0)) in
  interior kxa r /\ saved_point kxa (q_dim r) (mksol (fun _ _ => 0) (fun _ _ => 0) (fun _ _ => 2) (fun _ _ => 3)) /\
  convex_point rx_qp rx_eq (fun i c => a_lam kxa i (cplace rx_qp rx_eq i c)) (fun i c => a_t kxa i (cplace rx_qp rx_eq i c)) /\
  exists tinv Gam wf, factored sq kxa r false (fun _ _ => 0) 0 tinv Gam wf.
Proof.
  destruct (C49_hypotheses_met OP ist0 ist' sol) as (w0 & LV & _ & RD & M & WF & EW & BF & _ & HI & _). exists w0. do 6 (split; [assumption|]).
  assert (SI : soft_inj rx_qp). { intros i k k' Hi Hk Hk' Hn E. cbn in Hn, E. destruct ((i =? 0) && (k =? 3))%nat%bool eqn:E1; [|congruence]. destruct ((i =? 0) && (k' =? 3))%nat%bool eqn:E2; [|discriminate]. apply andb_prop in E1, E2. destruct E1 as (_ & E1), E2 as (_ & E2). apply Nat.eqb_eq in E1, E2. congruence. }
  assert (M1 : masks_one rx_dims (q_mask rx_qp)) by (intros i c _ _; reflexivity).
  split; [exact SI|]. split; [exact M1|]. split; [exact M|]. cbv zeta.
  destruct (w1_r OP rx_dims rx_eq w0 rx_qp sol ist' LV eq_refl RD WF EW) as (OK & _). set (r := w_rqp _) in *. clearbody r.
  assert (CP : convex_point rx_qp rx_eq (fun i c => a_lam kxa i (cplace rx_qp rx_eq i c)) (fun i c => a_t kxa i (cplace rx_qp rx_eq i c))) by (apply rx_convex; intros i c; split; reflexivity).
  assert (M1r : masks_one (q_dim r) (q_mask r)) by (apply (r_masks_one rx_qp rx_eq r WF EW BF OK); exact M1).
  assert (Cr : ipm_convex kxa r) by (apply (r_convex rx_qp rx_eq r WF EW BF OK); [reflexivity|exact CP]).
  split; [|split; [|split; [exact CP|]]].
  - apply cx_point; [|exact M1r|cbn; lia]. split; [exact (ic_t _ _ Cr)|exact (ic_Z _ _ Cr)|exact (ic_slack _ _ Cr)|exact (ic_H _ _ Cr)].
  - intros i c _ _. split; reflexivity.
  - do 3 eexists. refine (fd_fact sq kxa r (fun _ _ => 0) (fun _ _ => 0) (exw_of r) (fun _ _ => 0) _ Cr M1r _); [intros i k j; reflexivity|cbn; lia].
Qed.
End Ex.
(** a curve of data and solutions through that point, with the fixed initial states moving *)
Definition rxc : curve :=
  let ux h (i k : nat) := 1 + h * INR (i + k) in let pi (h : R) (i k : nat) := 2 - h in let lam h (i k : nat) := 2 + h * INR k in let t (h : R) (i k : nat) := 3 - h in
  let z0 := fun _ _ : nat => 0 in let q0 := with_rhs rx_qp z0 z0 z0 z0 in
  Build_curve (fun h i k => - kkt_g q0 (ux h) (pi h) (lam h) i k) (fun h i j => - dyn q0 (ux h) i j) (fun h i c => con rx_qp (ux h) i c - (if removedc rx_qp rx_eq i c then 0 else t h i c)) (fun h i c => lam h i c * t h i c) ux pi lam t.
Example C50_curve_exists : (forall h, relaxed_red (with_rhs rx_qp (c_g rxc h) (c_b rxc h) (c_d rxc h) (c_m rxc h)) rx_eq (mksol (c_ux rxc h) (c_pi rxc h) (c_lam rxc h) (c_t rxc h))) /\
  (forall i k, c_lam rxc 0 i k = 2 /\ c_t rxc 0 i k = 3) /\ curve_derivative_red rx_qp rx_eq rxc exl /\ exists sd, data_derivative rx_dims rxc sd.
Proof.
  destruct ex_red_pre as ((WF & EW & BF & _) & _).
  split; [|split; [|split]].
  - intros h. split; [|split; [|split; [|split]]].
    + intros i j Hi Hj Hr. unfold rxc. cbn [c_d c_t c_ux s_ux s_t q_d with_rhs q_idxb]. destruct (removed_ex rx_eq i j Hr) as (q & Hq & Ej). destruct (EW i Hi) as (_ & _ & _ & A & _). destruct (A q Hq) as (_ & A2). rewrite <- Ej in A2.
      destruct (con_at_bound rx_qp WF (fun i k => 1 + h * INR (i + k)) i j Hi Hj A2) as (C1 & _). rewrite C1.
      assert (E : removedc rx_qp rx_eq i j = true). { unfold removedc. cbn [with_rhs q_dim] in Hj. destruct (Nat.ltb_spec j (dnb (q_dim rx_qp) i)); [|lia]. rewrite Hr. reflexivity. } rewrite E. ring.
    + intros i k Hi Hk _. unfold rxc, kkt_g. cbn [c_g c_ux c_pi c_lam s_ux s_pi s_lam q_rqz with_rhs q_dim q_BAbt q_mask].
      change (Hess (with_rhs rx_qp (fun _ _ => 0) (fun _ _ => 0) (fun _ _ => 0) (fun _ _ => 0))) with (Hess rx_qp).
      change (G (with_rhs rx_qp (fun _ _ => 0) (fun _ _ => 0) (fun _ _ => 0) (fun _ _ => 0))) with (G rx_qp).
      change (nux (with_rhs rx_qp (fun _ _ => 0) (fun _ _ => 0) (fun _ _ => 0) (fun _ _ => 0))) with (nux rx_qp).
      match goal with |- context [Hess (with_rhs rx_qp ?a1 ?a2 ?a3 ?a4)] => change (Hess (with_rhs rx_qp a1 a2 a3 a4)) with (Hess rx_qp); change (G (with_rhs rx_qp a1 a2 a3 a4)) with (G rx_qp); change (nux (with_rhs rx_qp a1 a2 a3 a4)) with (nux rx_qp) end.
      ring.
    + intros i j Hi Hj. unfold rxc, dyn. cbn [c_b c_ux s_ux q_b with_rhs q_dim q_BAbt].
      change (nux (with_rhs rx_qp (fun _ _ => 0) (fun _ _ => 0) (fun _ _ => 0) (fun _ _ => 0))) with (nux rx_qp).
      match goal with |- context [nux (with_rhs rx_qp ?a1 ?a2 ?a3 ?a4)] => change (nux (with_rhs rx_qp a1 a2 a3 a4)) with (nux rx_qp) end. ring.
    + intros i c Hi Hc Hr. unfold rxc. cbn [c_d c_t c_ux s_ux s_t q_d with_rhs]. match goal with |- context [con (with_rhs rx_qp ?a1 ?a2 ?a3 ?a4)] => change (con (with_rhs rx_qp a1 a2 a3 a4)) with (con rx_qp) end.
      change (removedc rx_qp rx_eq i c = false) in Hr. rewrite Hr. ring.
    + intros i c Hi Hc _. reflexivity.
  - intros i k. cbn. split; ring.
  - split; [|split; [|split]]; intros i k _ _; try (intros _); cbn [rxc exl c_ux c_pi c_lam c_t s_ux s_pi s_lam s_t].
    + apply dlim_aff.
    + apply (dlim_ext_loc (fun h => 2 + h * (-1)) _ 0 (-1) 1 Rlt_0_1); [intros; ring|apply dlim_aff].
    + apply dlim_aff.
    + apply (dlim_ext_loc (fun h => 3 + h * (-1)) _ 0 (-1) 1 Rlt_0_1); [intros; ring|apply dlim_aff].
  - set (z0 := fun _ _ : nat => 0). set (q0 := with_rhs rx_qp z0 z0 z0 z0).
    exists (mkseed (fun i k => - kkt_g q0 (s_ux exl) (s_pi exl) (s_lam exl) i k) (fun i j => - dyn q0 (s_ux exl) i j) (fun i c => con rx_qp (s_ux exl) i c - (if removedc rx_qp rx_eq i c then 0 else -1)) (fun i c => - (INR c * 3 + 2 * -1))).
    split; [|split; [|split]]; intros i k _ _; cbn [rxc c_g c_b c_d c_m sd_g sd_b sd_d sd_m].
    + fold z0. fold q0. set (B := kkt_g q0 (fun _ _ => 1) (fun _ _ => 2) (fun _ _ => 2) i k).
      apply (dlim_ext_loc (fun h => - B + h * (- kkt_g q0 (s_ux exl) (s_pi exl) (s_lam exl) i k)) _ 0 _ 1 Rlt_0_1); [|apply dlim_aff]. intros h _. unfold B, kkt_g. cbn [q0 with_rhs q_rqz q_dim q_BAbt q_mask exl s_ux s_pi s_lam]. fold q0.
      rewrite (rsum_ext (nvt (q_dim rx_qp) i) (fun l => Hess q0 i k l * (1 + h * INR (i + l))) (fun l => Hess q0 i k l * 1 + h * (Hess q0 i k l * INR (i + l)))) by (intros; ring).
      rewrite (rsum_ext (dnx (q_dim rx_qp) (S i)) (fun j => q_BAbt rx_qp i k j * (2 - h)) (fun j => q_BAbt rx_qp i k j * 2 + h * (q_BAbt rx_qp i k j * -1))) by (intros; ring).
      rewrite (rsum_ext (nct (q_dim rx_qp) i) (fun c => G q0 i c k * (q_mask rx_qp i c * (2 + h * INR c))) (fun c => G q0 i c k * (q_mask rx_qp i c * 2) + h * (G q0 i c k * (q_mask rx_qp i c * INR c)))) by (intros; ring).
      rewrite !rsum_add, !rsum_scal. unfold z0. destruct (_ && _)%bool; destruct (_ && _ && _)%bool; ring.
    + fold z0. fold q0. set (B := dyn q0 (fun _ _ => 1) i k).
      apply (dlim_ext_loc (fun h => - B + h * (- dyn q0 (s_ux exl) i k)) _ 0 _ 1 Rlt_0_1); [|apply dlim_aff]. intros h _. unfold B, dyn. cbn [q0 with_rhs q_b q_dim q_BAbt exl s_ux]. fold q0.
      rewrite (rsum_ext (nux q0 i) (fun j => q_BAbt rx_qp i j k * (1 + h * INR (i + j))) (fun j => q_BAbt rx_qp i j k * 1 + h * (q_BAbt rx_qp i j k * INR (i + j)))) by (intros; ring).
      rewrite rsum_add, rsum_scal. unfold z0. ring.
    + set (B := con rx_qp (fun _ _ => 1) i k - (if removedc rx_qp rx_eq i k then 0 else 3)).
      apply (dlim_ext_loc (fun h => B + h * (con rx_qp (s_ux exl) i k - (if removedc rx_qp rx_eq i k then 0 else -1))) _ 0 _ 1 Rlt_0_1); [|apply dlim_aff]. intros h _. unfold B, con. cbn [exl s_ux].
      rewrite (rsum_ext (nvt (q_dim rx_qp) i) (fun l => G rx_qp i k l * (1 + h * INR (i + l))) (fun l => G rx_qp i k l * 1 + h * (G rx_qp i k l * INR (i + l)))) by (intros; ring).
      rewrite rsum_add, rsum_scal. destruct (removedc rx_qp rx_eq i k); ring.
    + replace (- - (INR k * 3 + 2 * -1)) with (INR k * (3 + 0 * -1) + (2 + 0 * INR k) * -1) by ring.
      apply (dlim_ext_loc (fun h => (2 + h * INR k) * (3 + h * -1)) _ 0 _ 1 Rlt_0_1); [intros; ring|].
      apply (derivable_pt_lim_mult (fun h => 2 + h * INR k) (fun h => 3 + h * -1)); apply dlim_aff.
Qed.
