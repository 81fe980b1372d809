(** SolverSpec.v -- vocabulary of the statements about the OCP QP solver object (real numbers). *)
From Coq Require Import ZArith Bool Arith Reals.
From Verif Require Import Base RSum OcpModel ResSpec RedModel RedSpec SolveModel SensModel SensSpec.
Local Open Scope R_scope.

(** a certified approximate solution: residuals of dynamics, imposed constraints, stationarity and complementarity within eb, ed, eg, em, and the
    objective within the resulting bound of the objective of every feasible point *)
Definition certified (qp : oqp R) (s : osol R) (eg eb ed em tau : R) : Prop :=
  let D := q_dim qp in let z := s_ux s in
  (forall i j, (i < dN D)%nat -> (j < dnx D (S i))%nat -> Rabs (dyn qp z i j) <= eb) /\
  (forall i c, (i <= dN D)%nat -> (c < nct D i)%nat -> q_mask qp i c <> 0 -> con qp z i c >= q_d qp i c - ed) /\
  (forall i k, (i <= dN D)%nat -> (k < nvt D i)%nat -> Rabs (kkt_g qp z (s_pi s) (s_lam s) i k) <= eg) /\
  (forall i c, (i <= dN D)%nat -> (c < nct D i)%nat -> q_mask qp i c <> 0 -> Rabs (s_lam s i c * s_t s i c - q_m qp i c - tau) <= em) /\
  (psd qp -> forall y, feasible qp y ->
     cost qp z - cost qp y <= eg * rsum (dN D + 1) (fun i => rsum (nvt D i) (fun k => Rabs (y i k - z i k)))
       + eb * rsum (dN D) (fun i => rsum (dnx D (S i)) (fun j => Rabs (s_pi s i j)))
       + ed * rsum (dN D + 1) (fun i => rsum (nct D i) (fun c => s_lam s i c))
       + rsum (dN D + 1) (fun i => rsum (nct D i) (fun c => q_mask qp i c * (q_m qp i c + tau + em)))).
(** the same for a QP some of whose variables are fixed by equality bounds taken out by the solver: these bounds hold exactly, stationarity at the fixed
    variables within eg0, and only the other constraints enter the bound *)
Definition certified_red (qp : oqp R) (e : eqd) (s : osol R) (eg eb ed em tau eg0 : R) : Prop :=
  let D := q_dim qp in let z := s_ux s in
  (forall i j, (i < dN D)%nat -> (j < dnx D (S i))%nat -> Rabs (dyn qp z i j) <= eb) /\
  (forall i j, (i <= dN D)%nat -> (j < dnb D i)%nat -> removed e i j = true -> z i (q_idxb qp i j) = q_d qp i j) /\
  (forall i c, (i <= dN D)%nat -> (c < nct D i)%nat -> removedc qp e i c = true -> con qp z i c = q_d qp i c) /\
  (forall i c, (i <= dN D)%nat -> (c < nct D i)%nat -> removedc qp e i c = false -> q_mask qp i c <> 0 -> con qp z i c >= q_d qp i c - ed) /\
  (forall i k, (i <= dN D)%nat -> (k < nvt D i)%nat -> Rabs (kkt_g qp z (s_pi s) (s_lam s) i k) <= if fixed qp e i k then eg0 else eg) /\
  (forall i c, (i <= dN D)%nat -> (c < nct D i)%nat -> removedc qp e i c = false -> q_mask qp i c <> 0 -> Rabs (s_lam s i c * s_t s i c - q_m qp i c - tau) <= em) /\
  (psd qp -> forall y, feasible qp y ->
     cost qp z - cost qp y <= eg * rsum (dN D + 1) (fun i => rsum (nvt D i) (fun k => Rabs (y i k - z i k)))
       + eb * rsum (dN D) (fun i => rsum (dnx D (S i)) (fun j => Rabs (s_pi s i j)))
       + ed * rsum (dN D + 1) (fun i => rsum (nct D i) (fun c => if removedc qp e i c then 0 else s_lam s i c))
       + rsum (dN D + 1) (fun i => rsum (nct D i) (fun c => if removedc qp e i c then 0 else q_mask qp i c * (q_m qp i c + tau + em)))).


(** the sensitivities s of the solution of qp with respect to data changes sd, the variables fixed by equality bounds being held at their bounds:
    they move with their bounds, and the derivatives of the other conditions hold at the point (lam0, t0): dynamics, kept constraints, complementarity of
    the kept constraints, stationarity at the free variables (regularised by reg); at the fixed variables stationarity holds up to eg0 *)
Definition sens_red (qp : oqp R) (e : eqd) (lam0 t0 reg : nat -> nat -> R) (sd : seed R) (s : osol R) (eg0 : R) : Prop :=
  let D := q_dim qp in let q := seed_qp qp sd in
  (forall i j, (i <= dN D)%nat -> (j < dnb D i)%nat -> removed e i j = true -> s_ux s i (q_idxb qp i j) = sd_d sd i j) /\
  (forall i k, (i <= dN D)%nat -> (k < nvt D i)%nat -> fixed qp e i k = false -> kkt_g q (s_ux s) (s_pi s) (s_lam s) i k + reg i k * s_ux s i k = 0) /\
  (forall i k, (i <= dN D)%nat -> (k < nvt D i)%nat -> fixed qp e i k = true -> Rabs (kkt_g q (s_ux s) (s_pi s) (s_lam s) i k) <= eg0) /\
  (forall i j, (i < dN D)%nat -> (j < dnx D (S i))%nat -> dyn q (s_ux s) i j = 0) /\
  (forall i c, (i <= dN D)%nat -> (c < nct D i)%nat -> removedc qp e i c = false -> sd_d sd i c + s_t s i c - con q (s_ux s) i c = 0) /\
  (forall i c, (i <= dN D)%nat -> (c < nct D i)%nat -> removedc qp e i c = false -> sd_m sd i c + lam0 i c * s_t s i c + s_lam s i c * t0 i c = 0).
(** a solution of the KKT conditions of qp relaxed by m (lam_c * t_c = m_c), the removed bounds taken as equalities with multipliers of any sign *)
Definition relaxed_red (qp : oqp R) (e : eqd) (s : osol R) : Prop :=
  let D := q_dim qp in
  (forall i j, (i <= dN D)%nat -> (j < dnb D i)%nat -> removed e i j = true -> s_ux s i (q_idxb qp i j) = q_d qp i j) /\
  (forall i k, (i <= dN D)%nat -> (k < nvt D i)%nat -> fixed qp e i k = false -> kkt_g qp (s_ux s) (s_pi s) (s_lam s) i k = 0) /\
  (forall i j, (i < dN D)%nat -> (j < dnx D (S i))%nat -> dyn qp (s_ux s) i j = 0) /\
  (forall i c, (i <= dN D)%nat -> (c < nct D i)%nat -> removedc qp e i c = false -> q_d qp i c + s_t s i c - con qp (s_ux s) i c = 0) /\
  (forall i c, (i <= dN D)%nat -> (c < nct D i)%nat -> removedc qp e i c = false -> s_lam s i c * s_t s i c = q_m qp i c).
(** a strictly convex QP (stage Hessians in (u,x) positive definite, slack weights >= 0) and a point (lam0, t0) with t0 > 0, lam0 >= 0 on the kept
    constraints, every slack having a positive weight or a positive multiplier *)
Record convex_point (qp : oqp R) (e : eqd) (lam0 t0 : nat -> nat -> R) : Prop := {
  cp_t : forall i c, (i <= dN (q_dim qp))%nat -> (c < nct (q_dim qp) i)%nat -> removedc qp e i c = false -> 0 < t0 i c /\ 0 <= lam0 i c;
  cp_Z : forall i k, (i <= dN (q_dim qp))%nat -> (k < 2 * dns (q_dim qp) i)%nat -> 0 <= q_Z qp i k;
  cp_slack : forall i k, (i <= dN (q_dim qp))%nat -> (k < 2 * dns (q_dim qp) i)%nat ->
     0 < q_Z qp i k \/ 0 < lam0 i (2 * dnb (q_dim qp) i + 2 * dng (q_dim qp) i + k)%nat;
  cp_H : forall i (v : nat -> R), (i <= dN (q_dim qp))%nat -> (exists k, (k < nux qp i)%nat /\ v k <> 0) ->
     0 < rsum (nux qp i) (fun k => rsum (nux qp i) (fun l => v k * Hess qp i k l * v l)) }.
(** derivative of the points of a curve, the multipliers and slacks of the removed bounds excepted *)
Definition curve_derivative_red (qp : oqp R) (e : eqd) (c : curve) (l : osol R) : Prop := let D := q_dim qp in
  (forall i k, (i <= dN D)%nat -> (k < nvt D i)%nat -> derivable_pt_lim (fun h => c_ux c h i k) 0 (s_ux l i k)) /\
  (forall i j, (i < dN D)%nat -> (j < dnx D (S i))%nat -> derivable_pt_lim (fun h => c_pi c h i j) 0 (s_pi l i j)) /\
  (forall i k, (i <= dN D)%nat -> (k < nct D i)%nat -> removedc qp e i k = false -> derivable_pt_lim (fun h => c_lam c h i k) 0 (s_lam l i k)) /\
  (forall i k, (i <= dN D)%nat -> (k < nct D i)%nat -> removedc qp e i k = false -> derivable_pt_lim (fun h => c_t c h i k) 0 (s_t l i k)).
