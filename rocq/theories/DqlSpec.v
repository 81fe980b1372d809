(** DqlSpec.v -- the QP that linearises a dense QCQP at (z, lam), entry by entry, as mathematics. *)
From Coq Require Import ZArith Bool Arith Reals.
From Verif Require Import Base RSum ResSpec DenModel DenSpec DqcModel DqcSpec.
Local Open Scope R_scope.
Section Lin.
Variable q : dqcqp R.
(** indices of the lower and upper side of quadratic constraint j *)
Definition dlq (j : nat) : nat := (dq_nb q + dq_ng q + j)%nat.
Definition duq (j : nat) : nat := (dqn2 q + (dq_nb q + dq_ng q) + j)%nat.
(** the bound of one-sided constraint c, moved by w j on the two sides of quadratic constraint j *)
Definition dlin_d (w : nat -> R) (c : nat) : R :=
  if dq_lower q c then dq_d q c - w (c - dlq 0)%nat else if ((duq 0 <=? c) && (c <? 2 * dqn2 q))%nat then dq_d q c + w (c - duq 0)%nat else dq_d q c.
(** the parts of the QP that do not depend on the point *)
Definition dlin_const (qp : dqp R) : Prop :=
  (d_nv qp = dq_nv q /\ d_ne qp = dq_ne q /\ d_nb qp = dq_nb q /\ d_ng qp = (dq_ng q + dq_nq q)%nat /\ d_ns qp = dq_ns q) /\
  (forall j k, (j < dq_ne q)%nat -> (k < dq_nv q)%nat -> d_A qp j k = dq_A q j k) /\
  (forall k j, (k < dq_nv q)%nat -> (j < dq_ng q)%nat -> d_Ct qp k j = dq_Ct q k j) /\
  (forall k, (k < dqnv q)%nat -> d_gz qp k = dq_gz q k) /\ (forall j, (j < dq_ne q)%nat -> d_b qp j = dq_b q j) /\
  (forall c, (c < dqnc q)%nat -> d_mask qp c = dq_mask q c) /\
  (forall k, (k < 2 * dq_ns q)%nat -> d_Z qp k = dq_Z q k) /\
  (forall j, (j < dq_nb q)%nat -> d_idxb qp j = dq_idxb q j) /\ (forall j, (j < dqn2 q)%nat -> d_idxs_rev qp j = dq_idxs_rev q j).
(** those that do; [w]: by how much the bounds of the quadratic constraints are moved *)
Definition dlin_var (w : nat -> R) (z lam : nat -> R) (qp : dqp R) : Prop :=
  (forall k l, (l <= k)%nat -> (k < dq_nv q)%nat -> d_H qp k l = dq_H q k l + rsum (dq_nq q) (fun j => (lam (duq j) - lam (dlq j)) * dq_Hq q j k l)) /\
  (forall k j, (k < dq_nv q)%nat -> (j < dq_nq q)%nat -> d_Ct qp k (dq_ng q + j)%nat = dq_grad q z j k) /\
  (forall c, (c < dqnc q)%nat -> d_d qp c = dlin_d w c /\ d_m qp c = dq_m q c).
(** the linearisation at (z, lam), bounds relative to the point: the constraint rows act on the step *)
Definition dlin_of (z lam : nat -> R) (qp : dqp R) : Prop := dlin_const qp /\ dlin_var (dq_fun q z) z lam qp.
(** the tangent at z of quadratic function j, evaluated at 0 *)
Definition dtan0 (z : nat -> R) (j : nat) : R := dq_fun q z j - rsum (dq_nv q) (fun k => dq_grad q z j k * z k).
(** how the interior-point solver runs: the lower sides of the quadratic constraints are masked out and carry no multiplier, and so do
    masked-out quadratic constraints *)
Definition dq_prepared (lam : nat -> R) : Prop := forall j, (j < dq_nq q)%nat ->
  dq_mask q (dlq j) = 0 /\ lam (dlq j) = 0 /\ dq_mask q (duq j) * lam (duq j) = lam (duq j).
End Lin.
(** a QP with other right-hand sides *)
Definition dwith_rhs (qp : dqp R) (g b d m : nat -> R) : dqp R :=
  mkdqp (d_nv qp) (d_ne qp) (d_nb qp) (d_ng qp) (d_ns qp) (d_H qp) (d_A qp) (d_Ct qp) g b d (d_mask qp) m (d_Z qp) (d_idxb qp) (d_idxs_rev qp).
