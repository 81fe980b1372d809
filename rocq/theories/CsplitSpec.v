(** CsplitSpec.v -- condensing in two calls: what the caller has to respect.  Independent of the code. *)
From Coq Require Import ZArith Bool Arith Reals.
From Verif Require Import Base RSum OcpModel ResSpec CondSpec.

Section Order.
Variables (qp : oqp R) (M : nat).
Let D := q_dim qp.
Definition softened (i j : nat) : bool := Z.leb 0 (q_idxs_rev qp i j).
(** number of softened bounds and general constraints of stage i *)
Definition n_sb (i : nat) : nat := nsum (dnb D i) (fun j => if softened i j then 1 else 0)%nat.
Definition n_sg (i : nat) : nat := nsum (dng D i) (fun j => if softened i (dnb D i + j) then 1 else 0)%nat.
(** rank of a soft constraint when they are listed as: bounds of stage M, ..., bounds of stage 0, general constraints of stage M, ..., of stage 0 *)
Definition scan (i j : nat) : nat :=
  if (j <? dnb D i)%nat then (nsum (M - i) (fun k => n_sb (M - k)) + nsum j (fun l => if softened i l then 1 else 0))%nat
  else (nsum (S M) n_sb + (nsum (M - i) (fun k => n_sg (M - k)) + nsum (j - dnb D i) (fun l => if softened i (dnb D i + l) then 1 else 0)))%nat.
(** this rank is the position of the slack when the slacks are stacked from stage M to stage 0, and every slack is used *)
Definition slack_order : Prop :=
  (forall i j, (i <= M)%nat -> (j < dnb D i + dng D i)%nat -> softened i j = true -> (Z.of_nat (soff qp M i) + q_idxs_rev qp i j = Z.of_nat (scan i j))%Z) /\
  (nsum (S M) n_sb + nsum (S M) n_sg = n_soft qp M)%nat.
End Order.
(** the two QPs have the same matrices and index data; they may differ in the vectors b, r, q, z, d, d_mask, m *)
Definition same_matrices (qp qp' : oqp R) : Prop :=
  q_dim qp' = q_dim qp /\ q_DCt qp' = q_DCt qp /\ q_Z qp' = q_Z qp /\ q_idxb qp' = q_idxb qp /\ q_idxs_rev qp' = q_idxs_rev qp /\
  (forall i r c, (r < nux qp i)%nat -> q_BAbt qp' i r c = q_BAbt qp i r c) /\ (forall i r c, (c <= r < nux qp i)%nat -> q_RSQ qp' i r c = q_RSQ qp i r c).
(** the cost of the states of stages 1..N is convex *)
Definition states_convex (qp : oqp R) : Prop := forall n (z : nat -> R), (1 <= n <= dN (q_dim qp))%nat ->
  (0 <= rsum (dnx (q_dim qp) n) (fun l => rsum (dnx (q_dim qp) n) (fun k => z l * Hess qp n (dnu (q_dim qp) n + l) (dnu (q_dim qp) n + k) * z k)))%R.
(** a simple case of [slack_order]: only bounds are softened, each slack by one bound, in the order of the bounds *)
Definition soft_bounds_in_order (qp : oqp R) : Prop := forall i, (i <= dN (q_dim qp))%nat ->
  n_sb qp i = dns (q_dim qp) i /\
  (forall j, (j < dnb (q_dim qp) i)%nat -> softened qp i j = true -> q_idxs_rev qp i j = Z.of_nat (nsum j (fun l => if softened qp i l then 1 else 0)%nat)) /\
  (forall l, (l < dng (q_dim qp) i)%nat -> softened qp i (dnb (q_dim qp) i + l) = false).
