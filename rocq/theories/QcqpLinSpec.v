(** QcqpLinSpec.v -- the QP that linearises a QCQP at (z, lam), entry by entry, as mathematics. *)
From Coq Require Import ZArith Bool Arith Reals.
From Verif Require Import Base RSum OcpModel ResSpec QcqpModel QcqpSpec.
Local Open Scope R_scope.

Section Lin.
Variable qc : oqcqp R.
(** indices of the lower and upper side of quadratic constraint j *)
Definition lq (i j : nat) : nat := (dnb (c_dim qc) i + dng (c_dim qc) i + j)%nat.
Definition uqx (i j : nat) : nat := (cn2 qc i + (dnb (c_dim qc) i + dng (c_dim qc) i) + j)%nat.
(** the bound of one-sided constraint c, moved by the value of the quadratic function at z *)
Definition lin_d (z : nat -> nat -> R) (i c : nat) : R :=
  if lowerq qc i c then c_d qc i c - qfun qc z i (c - lq i 0)
  else if ((uqx i 0 <=? c) && (c <? 2 * cn2 qc i))%nat then c_d qc i c + qfun qc z i (c - uqx i 0) else c_d qc i c.
Definition lin_of (z lam : nat -> nat -> R) (qp : oqp R) : Prop :=
  q_dim qp = qp_dims (c_dim qc) (c_nq qc) /\ forall i, (i <= dN (c_dim qc))%nat ->
  (forall k l, (l <= k)%nat -> (k < cnux qc i)%nat -> q_RSQ qp i k l = c_RSQ qc i k l + rsum (c_nq qc i) (fun j => (lam i (uqx i j) - lam i (lq i j)) * c_Hq qc i j k l)) /\
  (forall k j, (k < cnux qc i)%nat -> (j < dng (c_dim qc) i + c_nq qc i)%nat ->
     q_DCt qp i k j = if (j <? dng (c_dim qc) i)%nat then c_DCt qc i k j else qgrad qc z i (j - dng (c_dim qc) i) k) /\
  (forall c, (c < cnc qc i)%nat -> q_d qp i c = lin_d z i c /\ q_mask qp i c = c_mask qc i c /\ q_m qp i c = c_m qc i c) /\
  (forall k, (k < 2 * dns (c_dim qc) i)%nat -> q_Z qp i k = c_Z qc i k) /\
  (forall j, (j < dnb (c_dim qc) i)%nat -> q_idxb qp i j = c_idxb qc i j) /\
  (forall j, (j < cn2 qc i)%nat -> q_idxs_rev qp i j = c_idxs_rev qc i j) /\
  ((i < dN (c_dim qc))%nat -> forall j, (j < dnx (c_dim qc) (S i))%nat -> q_b qp i j = c_b qc i j /\ forall k, (k < cnux qc i)%nat -> q_BAbt qp i k j = c_BAbt qc i k j).
(** how the interior-point solver runs: the lower sides of the quadratic constraints are masked out, and so are the multipliers of masked-out
    quadratic constraints *)
Definition q_prepared (lam : nat -> nat -> R) : Prop := forall i, (i <= dN (c_dim qc))%nat -> forall j, (j < c_nq qc i)%nat ->
  c_mask qc i (lq i j) = 0 /\ lam i (lq i j) = 0 /\ c_mask qc i (uqx i j) * lam i (uqx i j) = lam i (uqx i j).
End Lin.
