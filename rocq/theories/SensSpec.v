(** SensSpec.v -- vocabulary of the statements about sensitivities and prediction (reals). *)
From Coq Require Import ZArith Bool Arith Reals.
From Verif Require Import Base ArithF RSum Blas CoreModel OcpModel ResSpec KktModel KktSpec SolveModel NewtonUniq SolveProps SensModel.
Local Open Scope R_scope.

(** entries of the constraints that are masked out are zero *)
Definition masked_zero (qp : oqp R) (m : nat -> nat -> R) : Prop := forall i c, (i <= dN (q_dim qp))%nat -> (c < nct (q_dim qp) i)%nat -> q_mask qp i c = 0 -> m i c = 0.
(** (lam, t) of a is an interior point for the matrices of qp *)
Definition interior (a : kargs R) (qp : oqp R) : Prop := ipm_point a (with_rhs qp (fun _ _ => 0) (fun _ _ => 0) (fun _ _ => 0) (fun _ _ => 0)).
(** the backup holds the multipliers and slacks (lam, t) of a *)
Definition saved_point (a : kargs R) (D : dims) (bkp : osol R) : Prop :=
  forall i c, (i <= dN D)%nat -> (c < nct D i)%nat -> s_lam bkp i c = a_lam a i c /\ s_t bkp i c = a_t a i c.

(** the workspace w holds a factorisation of the KKT matrix of qp at (lam, t) of a, regularised by preg: computed by
    FACT_SOLVE_KKT_STEP (for some right-hand side with dynamics offsets bX; products P*b stored, [pb] = true) or by FACT_KKT_STEP *)
Inductive factored (sq : bool) (a : kargs R) (qp : oqp R) : bool -> (nat -> nat -> R) -> R -> (nat -> nat -> R) -> (nat -> nat -> R) -> kws R -> Prop :=
| fd_solve fuel g d m tinv0 Gam0 gam0 stp w step preg w0 bX : BAok qp w -> sq = false \/ fuel = 0%nat -> masked_zero qp m ->
    fact_solve_kkt fuel sq a (with_rhs qp g bX d m) tinv0 Gam0 gam0 stp w = Some (step, preg, w0) ->
    factored sq a qp true bX preg (kkt_tinv a (with_rhs qp g bX d m) tinv0 Gam0 gam0) (kkt_Gam a (with_rhs qp g bX d m) tinv0 Gam0 gam0) w0
| fd_fact tinv0 Gam0 w bX : BAok qp w -> ipm_convex a qp -> masks_one (q_dim qp) (q_mask qp) -> a_tlm a <> 1%Z ->
    factored sq a qp false bX (a_reg a) (kf_tinv a qp tinv0 Gam0) (kf_Gam a qp tinv0 Gam0) (fact_kkt sq a qp tinv0 Gam0 w).
(** workspaces reachable from w0 by any number of solves (corrector, iterative refinement), sensitivity and prediction calls *)
Inductive history (sq : bool) (a : kargs R) (qp : oqp R) (pb : bool) (bX : nat -> nat -> R) (tinv Gam : nat -> nat -> R) (bkp : osol R) (w0 : kws R) : kws R -> Prop :=
| h_0 : history sq a qp pb bX tinv Gam bkp w0 w0
| h_solve w usePb g b d m gam0 stp : history sq a qp pb bX tinv Gam bkp w0 w ->
    (usePb = true -> pb = true /\ same_b (with_rhs qp (fun _ _ => 0) bX (fun _ _ => 0) (fun _ _ => 0)) b) ->
    history sq a qp pb bX tinv Gam bkp w0 (snd (solve_kkt sq usePb a (with_rhs qp g b d m) tinv Gam gam0 stp w))
| h_frw w sd gam0 out : history sq a qp pb bX tinv Gam bkp w0 w -> history sq a qp pb bX tinv Gam bkp w0 (snd (sens_frw sq a qp sd bkp tinv Gam gam0 out w))
| h_adj w sd gam0 tmp out : history sq a qp pb bX tinv Gam bkp w0 w ->
    history sq a qp pb bX tinv Gam bkp w0 (snd (fst (fst (sens_adj sq a qp sd bkp tinv Gam gam0 tmp out w))))
| h_predict w g b d m ap ad gam0 res0 rw0 stp out : history sq a qp pb bX tinv Gam bkp w0 w ->
    history sq a qp pb bX tinv Gam bkp w0 (snd (predict sq a (with_rhs qp g b d m) ap ad bkp tinv Gam gam0 res0 rw0 stp out w))
| h_predict_abs w g b d m gam0 out : history sq a qp pb bX tinv Gam bkp w0 w ->
    history sq a qp pb bX tinv Gam bkp w0 (snd (predict_abs sq a (with_rhs qp g b d m) bkp tinv Gam gam0 out w)).

(** s solves the KKT conditions of qp relaxed by its complementarity vector m: lam_c * t_c = m_c (all constraints imposed) *)
Definition relaxed_kkt (qp : oqp R) (s : osol R) : Prop :=
  let D := q_dim qp in
  (forall i k, (i <= dN D)%nat -> (k < nvt D i)%nat -> kkt_g qp (s_ux s) (s_pi s) (s_lam s) i k = 0) /\
  (forall i j, (i < dN D)%nat -> (j < dnx D (S i))%nat -> dyn qp (s_ux s) i j = 0) /\
  (forall i c, (i <= dN D)%nat -> (c < nct D i)%nat -> q_d qp i c + s_t s i c - con qp (s_ux s) i c = 0) /\
  (forall i c, (i <= dN D)%nat -> (c < nct D i)%nat -> s_lam s i c * s_t s i c = q_m qp i c).
(** a curve of problem data (gradients g, offsets b, constraint vectors d, relaxations m) and of points *)
Record curve := { c_g : R -> nat -> nat -> R; c_b : R -> nat -> nat -> R; c_d : R -> nat -> nat -> R; c_m : R -> nat -> nat -> R;
  c_ux : R -> nat -> nat -> R; c_pi : R -> nat -> nat -> R; c_lam : R -> nat -> nat -> R; c_t : R -> nat -> nat -> R }.
(** the seed is the derivative of the data at 0; seed_m is minus the derivative of the relaxation *)
Definition data_derivative (D : dims) (c : curve) (sd : seed R) : Prop :=
  (forall i k, (i <= dN D)%nat -> (k < nvt D i)%nat -> derivable_pt_lim (fun h => c_g c h i k) 0 (sd_g sd i k)) /\
  (forall i j, (i < dN D)%nat -> (j < dnx D (S i))%nat -> derivable_pt_lim (fun h => c_b c h i j) 0 (sd_b sd i j)) /\
  (forall i k, (i <= dN D)%nat -> (k < nct D i)%nat -> derivable_pt_lim (fun h => c_d c h i k) 0 (sd_d sd i k)) /\
  (forall i k, (i <= dN D)%nat -> (k < nct D i)%nat -> derivable_pt_lim (fun h => c_m c h i k) 0 (- sd_m sd i k)).
(** l is the derivative of the points of the curve at 0 *)
Definition curve_derivative (D : dims) (c : curve) (l : osol R) : Prop :=
  (forall i k, (i <= dN D)%nat -> (k < nvt D i)%nat -> derivable_pt_lim (fun h => c_ux c h i k) 0 (s_ux l i k)) /\
  (forall i j, (i < dN D)%nat -> (j < dnx D (S i))%nat -> derivable_pt_lim (fun h => c_pi c h i j) 0 (s_pi l i j)) /\
  (forall i k, (i <= dN D)%nat -> (k < nct D i)%nat -> derivable_pt_lim (fun h => c_lam c h i k) 0 (s_lam l i k)) /\
  (forall i k, (i <= dN D)%nat -> (k < nct D i)%nat -> derivable_pt_lim (fun h => c_t c h i k) 0 (s_t l i k)).
(** sum of products over all stages *)
Definition pair2 (n : nat) (len : nat -> nat) (x y : nat -> nat -> R) : R := rsum n (fun i => rsum (len i) (fun k => x i k * y i k)).
(** seed . solution *)
Definition seed_dot (D : dims) (sd : seed R) (s : osol R) : R :=
  pair2 (dN D + 1) (nvt D) (sd_g sd) (s_ux s) + pair2 (dN D) (fun i => dnx D (S i)) (sd_b sd) (s_pi s) + pair2 (dN D + 1) (nct D) (sd_d sd) (s_lam s) + pair2 (dN D + 1) (nct D) (sd_m sd) (s_t s).
