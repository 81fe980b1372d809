(** QcqpSpec.v -- the OCP QCQP as mathematics (real numbers), independent of the code.
    As ResSpec.v, plus nq quadratic constraints per stage,  q_j(z) = 1/2 z' Hq_j z + g_j' z  in the hard variables.  Only their upper
    side is a constraint of the problem ("lower quadratic constraints are disregarded"): c = nb+ng+j is never imposed. *)
From Coq Require Import ZArith Bool Arith Reals.
From Verif Require Import Base RSum OcpModel ResSpec QcqpModel.
Local Open Scope R_scope.

Section Qc.
Variable qc : oqcqp R.
Let D := c_dim qc.
Definition cnux (i : nat) : nat := (dnu (c_dim qc) i + dnx (c_dim qc) i)%nat.
Definition cnv (i : nat) : nat := (cnux i + 2 * dns (c_dim qc) i)%nat.
(** number of two-sided constraints, of one-sided constraints *)
Definition cn2 (i : nat) : nat := (dnb (c_dim qc) i + dng (c_dim qc) i + c_nq qc i)%nat.
Definition cnc (i : nat) : nat := (2 * cn2 i + 2 * dns (c_dim qc) i)%nat.
Definition qc_wf : Prop := forall i, (i <= dN D)%nat ->
  (forall j, (j < dnb D i)%nat -> (c_idxb qc i j < cnux i)%nat) /\
  (forall j, (j < cn2 i)%nat -> (c_idxs_rev qc i j = -1 \/ 0 <= c_idxs_rev qc i j < Z.of_nat (dns D i))%Z).
(** symmetric Hq_j *)
Definition Hsym (i j k l : nat) : R := if (l <=? k)%nat then c_Hq qc i j k l else c_Hq qc i j l k.
(** the quadratic constraint function and its gradient *)
Definition qfun (z : nat -> nat -> R) (i j : nat) : R :=
  1 / 2 * rsum (cnux i) (fun k => rsum (cnux i) (fun l => z i k * Hsym i j k l * z i l)) + rsum (cnux i) (fun k => c_DCt qc i k (dng D i + j)%nat * z i k).
Definition qgrad (z : nat -> nat -> R) (i j k : nat) : R := c_DCt qc i k (dng D i + j)%nat + rsum (cnux i) (fun l => Hsym i j k l * z i l).
(** value of the two-sided constraint j, and its derivative in the hard variable k *)
Definition two (z : nat -> nat -> R) (i j : nat) : R :=
  if (j <? dnb D i)%nat then z i (c_idxb qc i j)
  else if (j <? dnb D i + dng D i)%nat then rsum (cnux i) (fun k => c_DCt qc i k (j - dnb D i)%nat * z i k)
  else qfun z i (j - (dnb D i + dng D i)).
Definition dtwo (z : nat -> nat -> R) (i j k : nat) : R :=
  if (j <? dnb D i)%nat then (if (c_idxb qc i j =? k)%nat then 1 else 0)
  else if (j <? dnb D i + dng D i)%nat then c_DCt qc i k (j - dnb D i)%nat
  else qgrad z i (j - (dnb D i + dng D i)) k.
(** the slack of constraint j, its slacks starting at [off] *)
Definition slk (off : nat) (z : nat -> nat -> R) (i j : nat) : R :=
  if Z.eqb (c_idxs_rev qc i j) (-1) then 0 else z i (off + Z.to_nat (c_idxs_rev qc i j))%nat.
(** value of the one-sided constraint c, and its derivative in variable k *)
Definition qcon (z : nat -> nat -> R) (i c : nat) : R :=
  if (c <? cn2 i)%nat then two z i c + slk (cnux i) z i c
  else if (c <? 2 * cn2 i)%nat then - two z i (c - cn2 i) + slk (cnux i + dns D i) z i (c - cn2 i)
  else z i (cnux i + (c - 2 * cn2 i))%nat.
Definition dqcon (z : nat -> nat -> R) (i c k : nat) : R :=
  if (c <? cn2 i)%nat then if (k <? cnux i)%nat then dtwo z i c k else soft_co (c_idxs_rev qc i) (cnux i) c k
  else if (c <? 2 * cn2 i)%nat then
    if (k <? cnux i)%nat then - dtwo z i (c - cn2 i) k else soft_co (c_idxs_rev qc i) (cnux i + dns D i) (c - cn2 i) k
  else if (k =? cnux i + (c - 2 * cn2 i))%nat then 1 else 0.
(** dynamics, Hessian of the cost, objective *)
Definition qdyn (z : nat -> nat -> R) (i j : nat) : R :=
  rsum (cnux i) (fun k => c_BAbt qc i k j * z i k) + c_b qc i j - z (S i) (dnu D (S i) + j)%nat.
Definition qHess (i : nat) : nat -> nat -> R := H_co (cnux i) (c_RSQ qc i) (c_Z qc i).
Definition qcost (z : nat -> nat -> R) : R := rsum (dN D + 1) (fun i =>
  1 / 2 * rsum (cnv i) (fun k => rsum (cnv i) (fun l => z i k * qHess i k l * z i l)) + rsum (cnv i) (fun k => c_rqz qc i k * z i k)).
(** lower side of a quadratic constraint *)
Definition lowerq (i c : nat) : bool := ((dnb D i + dng D i <=? c) && (c <? cn2 i))%nat.
(** weight of the multiplier of constraint c: its mask, 0 on the lower sides of the quadratic constraints *)
Definition act (i c : nat) : R := if lowerq i c then 0 else c_mask qc i c.
Definition qfeasible (z : nat -> nat -> R) : Prop :=
  (forall i j, (i < dN D)%nat -> (j < dnx D (S i))%nat -> qdyn z i j = 0) /\
  (forall i c, (i <= dN D)%nat -> (c < cnc i)%nat -> act i c <> 0 -> qcon z i c >= c_d qc i c).
Definition qmask01 : Prop := forall i c, (i <= dN D)%nat -> (c < cnc i)%nat -> c_mask qc i c = 0 \/ c_mask qc i c = 1.
(** convexity: stage costs, and the quadratic constraints whose upper side is imposed *)
Definition qpsd : Prop := forall i (v : nat -> R), (i <= dN D)%nat -> 0 <= rsum (cnv i) (fun k => rsum (cnv i) (fun l => v k * qHess i k l * v l)).
Definition qcon_psd : Prop := forall i j (v : nat -> R), (i <= dN D)%nat -> (j < c_nq qc i)%nat -> c_mask qc i (cn2 i + (dnb D i + dng D i) + j)%nat <> 0 ->
  0 <= rsum (cnux i) (fun k => rsum (cnux i) (fun l => v k * Hsym i j k l * v l)).
(** Lagrangian, its Hessian *)
Definition qlagr (z pi lam : nat -> nat -> R) : R :=
  qcost z + rsum (dN D) (fun i => rsum (dnx D (S i)) (fun j => pi i j * qdyn z i j))
  - rsum (dN D + 1) (fun i => rsum (cnc i) (fun c => act i c * lam i c * (qcon z i c - c_d qc i c))).
Definition qlHess (lam : nat -> nat -> R) (i k l : nat) : R :=
  qHess i k l + (if ((k <? cnux i) && (l <? cnux i))%nat then
    rsum (c_nq qc i) (fun j => act i (cn2 i + (dnb D i + dng D i) + j) * lam i (cn2 i + (dnb D i + dng D i) + j)%nat * Hsym i j k l) else 0).
(** KKT residuals *)
Definition qkkt_g (z pi lam : nat -> nat -> R) (i k : nat) : R :=
  rsum (cnv i) (fun l => qHess i k l * z i l) + c_rqz qc i k
  + (if ((i <? dN D) && (k <? cnux i))%nat then rsum (dnx D (S i)) (fun j => c_BAbt qc i k j * pi i j) else 0)
  - (if ((0 <? i) && (dnu D i <=? k) && (k <? cnux i))%nat then pi (i - 1)%nat (k - dnu D i)%nat else 0)
  - rsum (cnc i) (fun c => dqcon z i c k * (act i c * lam i c)).
Definition qkkt_d (z t : nat -> nat -> R) (i c : nat) : R := c_mask qc i c * (c_d qc i c + t i c - qcon z i c).
Definition qkkt_m (lam t : nat -> nat -> R) (i c : nat) : R := c_mask qc i c * (act i c * lam i c * t i c - c_m qc i c).
End Qc.
(** the cached mask information is absent or correct *)
Definition qvalid_ok (valid : option (bool * R)) (qc : oqcqp R) : Prop :=
  match valid with None => True | Some (mc, _) => mc = true \/ masks_one (qp_dims (c_dim qc) (c_nq qc)) (c_mask qc) end.
(** the cached constraint values and adjoints are absent or those of the given point *)
Definition cache_ok (cache : option ((nat -> nat -> R) * (nat -> nat -> R))) (qc : oqcqp R) (z lam : nat -> nat -> R) : Prop :=
  match cache with
  | None => True
  | Some (f, a) => forall i, (i <= dN (c_dim qc))%nat ->
      (forall j, (j < c_nq qc i)%nat -> f i j = qfun qc z i j) /\
      (forall k, (k < cnux qc i)%nat -> a i k = rsum (c_nq qc i) (fun j =>
         let c := (cn2 qc i + (dnb (c_dim qc) i + dng (c_dim qc) i) + j)%nat in act qc i c * lam i c * qgrad qc z i j k))
  end.
