(** CupdSpec.v -- what a caller of COND_QP_UPDATE may change between two calls. *)
From Coq Require Import ZArith Bool Arith Reals.
From Verif Require Import Base RSum Blas OcpModel DenModel ResSpec CholProofs.
Local Open Scope R_scope.

(** the data of stage i are the same in both QPs (of BAbt and RSQrq only the rows holding data; the library uses the row below as scratch) *)
Definition same_stage (qp qp' : oqp R) (i : nat) : Prop :=
  (forall r c, (r < nux qp i)%nat -> q_BAbt qp' i r c = q_BAbt qp i r c) /\ (forall k, q_b qp' i k = q_b qp i k) /\
  (forall r c, (c <= r < nux qp i)%nat -> q_RSQ qp' i r c = q_RSQ qp i r c) /\ (forall k, q_rqz qp' i k = q_rqz qp i k) /\
  (forall r c, q_DCt qp' i r c = q_DCt qp i r c) /\ (forall c, q_d qp' i c = q_d qp i c).
(** dimensions, index sets, masks and complementarity targets are the same in both QPs *)
Definition same_layout (qp qp' : oqp R) : Prop :=
  q_dim qp' = q_dim qp /\ q_idxb qp' = q_idxb qp /\ q_idxs_rev qp' = q_idxs_rev qp /\ q_mask qp' = q_mask qp /\ q_m qp' = q_m qp.
(** the marks tell the truth: a stage that is not marked did not change *)
Definition marked (idxc : nat -> bool) (qp qp' : oqp R) : Prop := forall i, (i <= dN (q_dim qp))%nat -> idxc i = false -> same_stage qp qp' i.
(** the last stage of a horizon of two or more is marked only together with its predecessor *)
Definition last_with_pred (idxc : nat -> bool) (N : nat) : Prop := idxc N = true -> (N <= 1)%nat \/ idxc (N - 1)%nat = true.
(** no stage has slacks *)
Definition no_slacks (qp : oqp R) : Prop := forall i, (i <= dN (q_dim qp))%nat -> dns (q_dim qp) i = 0%nat.
(** the cost of the states of stage n is strictly convex *)
Definition state_cost_pd (qp : oqp R) (n : nat) : Prop := forall x : nat -> R, (exists k, (k < dnx (q_dim qp) n)%nat /\ x k <> 0) ->
  0 < rsum (dnx (q_dim qp) n) (fun i => rsum (dnx (q_dim qp) n) (fun j => x i * symL (q_RSQ qp n) (dnu (q_dim qp) n + i)%nat (dnu (q_dim qp) n + j)%nat * x j)).
(** one step of a history of updates *)
Definition update_ok (idxc : nat -> bool) (qp qp' : oqp R) : Prop :=
  same_layout qp qp' /\ marked idxc qp qp' /\ last_with_pred idxc (dN (q_dim qp)) /\ (forall n, (1 <= n <= dN (q_dim qp'))%nat -> state_cost_pd qp' n).
(** the caller's calls of COND_QP_UPDATE: the marks and the QP at each call; every call is made for a QP that changed only where it is marked since the call before *)
Fixpoint updates_ok (qp : oqp R) (l : list ((nat -> bool) * oqp R)) : Prop :=
  match l with nil => True | cons (idxc, qp') l => update_ok idxc qp qp' /\ updates_ok qp' l end.
(** the QP of the last call *)
Fixpoint last_qp (qp : oqp R) (l : list ((nat -> bool) * oqp R)) : oqp R := match l with nil => qp | cons (_, qp') l => last_qp qp' l end.
(** the same dense QP: all the data a dense QP without slacks and equality constraints is made of *)
Definition same_dense (q q' : dqp R) : Prop :=
  (d_nv q' = d_nv q /\ d_ne q' = d_ne q /\ d_nb q' = d_nb q /\ d_ng q' = d_ng q /\ d_ns q' = d_ns q) /\
  (forall r c, (c <= r < d_nv q)%nat -> d_H q' r c = d_H q r c) /\ (forall k, (k < d_nv q)%nat -> d_gz q' k = d_gz q k) /\
  (forall c, (c < 2 * d_nb q + 2 * d_ng q)%nat -> d_d q' c = d_d q c /\ d_mask q' c = d_mask q c /\ d_m q' c = d_m q c) /\
  (forall j, (j < d_nb q)%nat -> d_idxb q' j = d_idxb q j) /\ (forall j, (j < d_nb q + d_ng q)%nat -> d_idxs_rev q' j = d_idxs_rev q j) /\
  (forall k j, (k < d_nv q)%nat -> (j < d_ng q)%nat -> d_Ct q' k j = d_Ct q k j).
