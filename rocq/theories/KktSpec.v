(** KktSpec.v -- vocabulary of the statements about the interior-point Newton step (reals). *)
From Coq Require Import ZArith Bool Arith Reals.
From Verif Require Import Base RSum OcpModel ResSpec KktModel.
Local Open Scope R_scope.

(** no two constraints of a stage share a slack variable *)
Definition soft_inj (qp : oqp R) : Prop := forall i j j', (i <= dN (q_dim qp))%nat ->
  (j < dnb (q_dim qp) i + dng (q_dim qp) i)%nat -> (j' < dnb (q_dim qp) i + dng (q_dim qp) i)%nat ->
  q_idxs_rev qp i j <> (-1)%Z -> q_idxs_rev qp i j = q_idxs_rev qp i j' -> j = j'.
(** diagonal entry of the Newton matrix of slack k of stage i, constraints weighted by Gamma *)
Definition slack_pivot (qp : oqp R) (reg : R) (Gamma : nat -> R) (i k : nat) : R :=
  let D := q_dim qp in
  q_Z qp i k + reg + Gamma (2 * dnb D i + 2 * dng D i + k)%nat
  + rsum (dnb D i + dng D i) (fun j => soft_co (q_idxs_rev qp i) 0 j k * Gamma j + soft_co (q_idxs_rev qp i) (dns D i) j k * Gamma (dnb D i + dng D i + j)%nat).
(** the workspace matrices BAbt hold the dynamics of the QP (they are the same memory in the code, except for the last row, which holds b) *)
Definition BAok (qp : oqp R) (w : kws R) : Prop :=
  forall ss i j, (ss < dN (q_dim qp))%nat -> (i < nux qp ss)%nat -> (j < dnx (q_dim qp) (S ss))%nat -> k_BAbt w ss i j = q_BAbt qp ss i j.
(** the interior-point weight of constraint c of stage i *)
Definition wgt (a : kargs R) (i c : nat) : R := a_lam a i c / a_t a i c.
(** the regularisation in effect: preg on the inputs of every stage and on the states of stage 0, reg on the other states and on the slacks *)
Definition reg_diag (qp : oqp R) (reg preg : R) (i k : nat) : R :=
  if ((k <? dnu (q_dim qp) i) || ((i =? 0) && (k <? nux qp 0)))%nat then preg else reg.
(** the inputs of the solve are an interior point: t non-zero, thresholds of t_lam_min inactive, masked constraints carry nothing,
    the slack pivots are non-zero *)
Record ipm_point (a : kargs R) (qp : oqp R) : Prop := {
  ip_t : forall i c, (i <= dN (q_dim qp))%nat -> (c < nct (q_dim qp) i)%nat -> a_t a i c <> 0;
  ip_clip : a_tlm a <> 1%Z \/ forall i c, (i <= dN (q_dim qp))%nat -> (c < nct (q_dim qp) i)%nat -> a_t_min a <= a_t a i c /\ a_lam_min a <= a_lam a i c;
  ip_mask : forall i c, (i <= dN (q_dim qp))%nat -> (c < nct (q_dim qp) i)%nat -> q_mask qp i c = 0 -> a_lam a i c = 0 /\ q_m qp i c = 0;
  ip_piv : forall i k, (i <= dN (q_dim qp))%nat -> (k < 2 * dns (q_dim qp) i)%nat -> slack_pivot qp (a_reg a) (wgt a i) i k <> 0 }.
(** an interior point in the usual sense, and a QP whose stage Hessians become positive definite on (u, x) once reg is added: *)
Record ipm_convex (a : kargs R) (qp : oqp R) : Prop := {
  ic_t : forall i c, (i <= dN (q_dim qp))%nat -> (c < nct (q_dim qp) i)%nat -> 0 < a_t a i c /\ 0 <= a_lam a i c;
  ic_Z : forall i k, (i <= dN (q_dim qp))%nat -> (k < 2 * dns (q_dim qp) i)%nat -> 0 <= q_Z qp i k + a_reg a;
  ic_slack : forall i k, (i <= dN (q_dim qp))%nat -> (k < 2 * dns (q_dim qp) i)%nat ->
     0 < q_Z qp i k + a_reg a \/ 0 < a_lam a i (2 * dnb (q_dim qp) i + 2 * dng (q_dim qp) i + k)%nat;
  ic_H : forall i (v : nat -> R), (i <= dN (q_dim qp))%nat -> (exists k, (k < nux qp i)%nat /\ v k <> 0) ->
     0 < rsum (nux qp i) (fun k => rsum (nux qp i) (fun l => v k * Hess qp i k l * v l)) + a_reg a * rsum (nux qp i) (fun k => v k * v k) }.
