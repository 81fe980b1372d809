(** CondSpec.v -- what condensing means, independent of the code (real numbers).

    Condensing eliminates the states x_1, x_2, ... with the dynamics.  The vector of the condensed problem is
       v = [u_M; ...; u_1; u_0; x_0; sl_M; ...; sl_0; su_M; ...; su_0]
    (M = last stage whose inputs and slacks are kept; M = N for full condensing) and [traj v] is the OCP trajectory it describes. *)
From Coq Require Import ZArith Bool Arith Reals.
From Verif Require Import Base RSum OcpModel ResSpec DenModel DenSpec.
Local Open Scope R_scope.

Section Traj.
Variables (qp : oqp R) (M : nat).
Let D := q_dim qp.
(** position in v of the inputs and (relative) of the slacks of stage i *)
Definition uoff (i : nat) : nat := nsum (M - i) (fun k => dnu D (M - k)).
Definition soff (i : nat) : nat := nsum (M - i) (fun k => dns D (M - k)).
(** number of inputs and initial states, of slacks *)
Definition n_hard : nat := (uoff 0 + dnu D 0 + dnx D 0)%nat.
Definition n_soft : nat := (soff 0 + dns D 0)%nat.
(** the states: x_0 from v, x_{i+1} = B u_i + A x_i + b *)
Fixpoint st (v : nat -> R) (i j : nat) : R :=
  match i with
  | O => v (uoff 0 + dnu D 0 + j)%nat
  | S i' => rsum (dnu D i') (fun k => q_BAbt qp i' k j * v (uoff i' + k)%nat)
          + rsum (dnx D i') (fun k => q_BAbt qp i' (dnu D i' + k)%nat j * st v i' k) + q_b qp i' j
  end.
(** variable k of stage i: inputs, states, lower slacks, upper slacks *)
Definition traj (v : nat -> R) (i k : nat) : R :=
  if (k <? dnu D i)%nat then v (uoff i + k)%nat
  else if (k <? nux qp i)%nat then st v i (k - dnu D i)
  else if (k <? nux qp i + dns D i)%nat then v (n_hard + soff i + (k - nux qp i))%nat
  else v (n_hard + n_soft + soff i + (k - nux qp i - dns D i))%nat.
(** bounds on inputs and on the initial state stay bounds of the condensed problem, those on the other states become general constraints *)
Definition stays_bound (i j : nat) : bool := orb (i =? 0)%nat (q_idxb qp i j <? dnu D i)%nat.
Definition n_box : nat := nsum (S M) (fun i => nsum (dnb D i) (fun j => if stays_bound i j then 1 else 0)%nat).
Definition n_gen : nat := (nsum (S M) (fun i => nsum (dnb D i) (fun j => if stays_bound i j then 0 else 1)%nat) + nsum (S M) (dng D))%nat.
(** the dense QP object has the size of the condensed problem *)
Definition dense_size (q : dqp R) : Prop := d_nv q = n_hard /\ d_ne q = 0%nat /\ d_nb q = n_box /\ d_ng q = n_gen /\ d_ns q = n_soft.
End Traj.
(** [pos] numbers the one-sided constraints of all stages of the OCP QP by the constraints of the dense QP, one to one *)
Definition numbering (qp : oqp R) (q : dqp R) (pos : nat -> nat -> nat) : Prop :=
  (forall i c, (i <= dN (q_dim qp))%nat -> (c < nct (q_dim qp) i)%nat -> (pos i c < d_nct q)%nat) /\
  (forall i c i' c', (i <= dN (q_dim qp))%nat -> (c < nct (q_dim qp) i)%nat -> (i' <= dN (q_dim qp))%nat -> (c' < nct (q_dim qp) i')%nat -> pos i c = pos i' c' -> i = i' /\ c = c') /\
  (forall p, (p < d_nct q)%nat -> exists i c, (i <= dN (q_dim qp))%nat /\ (c < nct (q_dim qp) i)%nat /\ pos i c = p).
(** the two points agree on all the variables of the QP *)
Definition same_point (qp : oqp R) (y z : nat -> nat -> R) : Prop := forall i k, (i <= dN (q_dim qp))%nat -> (k < nvt (q_dim qp) i)%nat -> y i k = z i k.
(** global minimisers *)
Definition ocp_optimal (qp : oqp R) (z : nat -> nat -> R) : Prop := feasible qp z /\ forall y, feasible qp y -> cost qp z <= cost qp y.
Definition den_optimal (q : dqp R) (v : nat -> R) : Prop := den_feasible q v /\ forall y, den_feasible q y -> den_cost q v <= den_cost q y.
(** the cost of stages 1.. couples no state with anything but itself, where [diag] says so (argument diag_H_flag) *)
Definition diag_flag_ok (qp : oqp R) (diag : nat -> bool) : Prop := forall n r c, (1 <= n <= dN (q_dim qp))%nat -> diag n = true ->
  (dnu (q_dim qp) n <= r < nux qp n)%nat -> (c < r)%nat -> q_RSQ qp n r c = 0.
