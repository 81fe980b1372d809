(** RedSpec.v -- what it means to remove the variables fixed by equality bounds, independent of the code (real numbers). *)
From Coq Require Import ZArith Bool Arith List Reals.
From Verif Require Import Base RSum OcpModel ResSpec RedModel.
Local Open Scope R_scope.

(** number of indices below k not marked by m *)
Definition rk (m : nat -> bool) (k : nat) : nat := nsum k (fun l => if m l then 0 else 1)%nat.

Section Fixed.
Variables (qp : oqp R) (e : eqd).
Let D := q_dim qp.
(** variable k of stage i is fixed: one of the bounds removed at stage i acts on it *)
Definition fixed (i k : nat) : bool := ((k <? nux qp i)%nat && existsb (fun q => (k =? q_idxb qp i (e_idxe e i q))%nat) (seq 0 (ne_thr e i)))%bool.
(** its value: the (lower) bound; 0 for the other variables *)
Definition fixval (i k : nat) : R := rsum (ne_thr e i) (fun q => if (k =? q_idxb qp i (e_idxe e i q))%nat then q_d qp i (e_idxe e i q) else 0).
(** bound j of stage i is removed; one-sided constraint c of stage i is one of the two sides of a removed bound *)
Definition removed (i j : nat) : bool := existsb (fun q => (j =? e_idxe e i q)%nat) (seq 0 (ne_thr e i)).
Definition removedc (i c : nat) : bool :=
  let nb := dnb D i in let ng := dng D i in
  (((c <? nb)%nat && removed i c) || ((nb + ng <=? c)%nat && (c <? 2 * nb + ng)%nat && removed i (c - (nb + ng))))%bool.
(** place of a variable and of a one-sided constraint once the fixed variables and their bounds are taken out *)
Definition vplace (i k : nat) : nat := rk (fixed i) k.
Definition cplace (i c : nat) : nat := rk (removedc i) c.
(** the point of the original QP described by a point y of the reduced one: fixed variables at their value *)
Definition lift (y : nat -> nat -> R) (i k : nat) : R := if fixed i k then fixval i k else y i (vplace i k).
(** legal index data: the removed bounds exist, act on distinct variables (inputs first, then, at stage 0 only, states), are not softened,
    and no other bound acts on the same variable; the numbers of bounds are consistent *)
Definition eq_wf : Prop := forall i, (i <= dN D)%nat ->
  (e_nbu e i + e_nbx e i = dnb D i)%nat /\ (e_nbue e i <= e_nbu e i)%nat /\ (i = 0%nat -> e_nbxe e i <= e_nbx e i)%nat /\
  (forall q, (q < ne_thr e i)%nat -> (e_idxe e i q < dnb D i)%nat /\ q_idxs_rev qp i (e_idxe e i q) = (-1)%Z) /\
  (forall q, (q < e_nbue e i)%nat -> (q_idxb qp i (e_idxe e i q) < dnu D i)%nat) /\
  (forall q, (e_nbue e i <= q < ne_thr e i)%nat -> (dnu D i <= q_idxb qp i (e_idxe e i q))%nat) /\
  (forall q q', (q < ne_thr e i)%nat -> (q' < ne_thr e i)%nat -> q_idxb qp i (e_idxe e i q) = q_idxb qp i (e_idxe e i q') -> q = q') /\
  (forall j, (j < dnb D i)%nat -> removed i j = false -> fixed i (q_idxb qp i j) = false).
(** what the code needs beyond that: no variable stored before a bounded variable is removed (see C30_idxb_refuted) *)
Definition bounds_first : Prop := forall i j, (i <= dN D)%nat -> (j < dnb D i)%nat -> removed i j = false -> vplace i (q_idxb qp i j) = q_idxb qp i j.
(** the removed bounds are equalities (ub = lb) and are imposed *)
Definition eq_bounds : Prop := forall i j, (i <= dN D)%nat -> (j < dnb D i)%nat -> removed i j = true -> q_d qp i (dnb D i + dng D i + j)%nat = - q_d qp i j.
Definition eq_imposed : Prop := forall i c, (i <= dN D)%nat -> (c < nct D i)%nat -> removedc i c = true -> q_mask qp i c = 1.
(** [r] is the restriction of [qp] to the fixed values *)
Definition restriction (r : oqp R) : Prop := let Dr := q_dim r in
  dN Dr = dN D /\
  (forall i, (i <= dN D)%nat -> dnu Dr i = vplace i (dnu D i) /\ (dnu Dr i + dnx Dr i)%nat = vplace i (nux qp i) /\ nvt Dr i = vplace i (nvt D i) /\
     nct Dr i = cplace i (nct D i) /\ ((0 < i)%nat -> dnx Dr i = dnx D i)) /\
  (forall i, (i < dN D)%nat -> forall j, (j < dnx D (S i))%nat ->
     (forall k, (k < nux qp i)%nat -> fixed i k = false -> q_BAbt r i (vplace i k) j = q_BAbt qp i k j) /\
     q_b r i j = q_b qp i j + rsum (nux qp i) (fun k => q_BAbt qp i k j * fixval i k)) /\
  (forall i k, (i <= dN D)%nat -> (k < nvt D i)%nat -> fixed i k = false ->
     (forall l, (l < nvt D i)%nat -> fixed i l = false -> Hess r i (vplace i k) (vplace i l) = Hess qp i k l) /\
     q_rqz r i (vplace i k) = q_rqz qp i k + rsum (nvt D i) (fun l => Hess qp i k l * fixval i l)) /\
  (forall i c, (i <= dN D)%nat -> (c < nct D i)%nat -> removedc i c = false ->
     (forall k, (k < nvt D i)%nat -> fixed i k = false -> G r i (cplace i c) (vplace i k) = G qp i c k) /\
     q_d r i (cplace i c) = q_d qp i c - rsum (nvt D i) (fun k => G qp i c k * fixval i k) /\
     q_mask r i (cplace i c) = q_mask qp i c /\ q_m r i (cplace i c) = q_m qp i c).
End Fixed.
