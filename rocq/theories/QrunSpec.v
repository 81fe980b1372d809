(** QrunSpec.v -- what C63 says about a run of the QCQP solver, as mathematics. *)
From Coq Require Import ZArith Bool Arith Reals.
From Verif Require Import Base RSum OcpModel ResSpec QcqpModel QcqpSpec QcqpMask.
Local Open Scope R_scope.

Section S.
Variable qc : oqcqp R.
Notation N := (dN (c_dim qc)).
(** the constraints the solver imposes: not masked, not the lower side of a quadratic constraint, not the bound of a slack softening one (see C60) *)
Definition imposed (i c : nat) : Prop := lowerq qc i c = false /\ ~ lowslack qc i c /\ c_mask qc i c = 1.
(** residual of an inequality (slack formulation): qcon(z) - t = d when zero *)
Definition qgap (s : osol R) (i c : nat) : R := c_d qc i c + s_t s i c - qcon qc (s_ux s) i c.
(** upper side of a quadratic constraint; half the curvature of constraint c along v: 1/2 v' Hq_j v, 0 for the linear constraints *)
Definition upperq (i c : nat) : bool := ((cn2 qc i + (dnb (c_dim qc) i + dng (c_dim qc) i) <=? c) && (c <? 2 * cn2 qc i))%nat.
Definition quad_of (i c : nat) : nat := (c - (cn2 qc i + (dnb (c_dim qc) i + dng (c_dim qc) i)))%nat.
Definition curv (v : nat -> R) (i c : nat) : R :=
  if upperq i c then 1 / 2 * rsum (cnux qc i) (fun k => rsum (cnux qc i) (fun l => v k * Hsym qc i (quad_of i c) k l * v l)) else 0.
(** no two constraints share a slack *)
Definition qsoft_inj : Prop := forall i j j', (i <= N)%nat -> (j < cn2 qc i)%nat -> (j' < cn2 qc i)%nat ->
  c_idxs_rev qc i j <> (-1)%Z -> c_idxs_rev qc i j = c_idxs_rev qc i j' -> j = j'.
(** strict convexity of the cost (after adding reg_prim), convexity of the imposed quadratic constraints *)
Record qrun_convex (reg : R) : Prop := {
  qr_H : forall i (v : nat -> R), (i <= N)%nat -> (exists k, (k < cnux qc i)%nat /\ v k <> 0) ->
    0 < rsum (cnux qc i) (fun k => rsum (cnux qc i) (fun l => v k * qHess qc i k l * v l)) + reg * rsum (cnux qc i) (fun k => v k * v k);
  qr_q : qcon_psd qc;
  qr_Z : forall i k, (i <= N)%nat -> (k < 2 * dns (c_dim qc) i)%nat -> 0 <= c_Z qc i k + reg;
  qr_slack : forall i k, (i <= N)%nat -> (k < 2 * dns (c_dim qc) i)%nat -> 0 < c_Z qc i k + reg \/ imposed i (2 * cn2 qc i + k) }.
End S.
