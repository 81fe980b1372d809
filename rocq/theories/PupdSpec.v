(** PupdSpec.v -- what a caller of PART_COND_QP_UPDATE may change between two calls, and the calls (real numbers, no slacks). *)
From Coq Require Import ZArith Bool Arith List Reals.
From Verif Require Import Base OcpModel ResSpec DenModel CondModel PartModel PartSpec CupdSpec PupdModel.
Local Open Scope R_scope.

(** One step of a history: the layout is unchanged, the marks tell the truth, in every block the last stage (if it has at least two predecessors there) is marked only
    together with the stage before it, and the cost of the states strictly inside the blocks is strictly convex. *)
Definition part_update_ok (N2 : nat) (bs : nat -> nat) (idxc : nat -> bool) (qp qp' : oqp R) : Prop :=
  same_layout qp qp' /\ marked idxc qp qp' /\
  (forall ii, (ii <= N2)%nat -> idxc (start bs ii + blen N2 bs ii)%nat = true -> (blen N2 bs ii <= 1)%nat \/ idxc (start bs ii + (blen N2 bs ii - 1))%nat = true) /\
  (forall ii n, (ii <= N2)%nat -> (1 <= n <= blen N2 bs ii)%nat -> state_cost_pd qp' (start bs ii + n)).
Fixpoint part_updates_ok (N2 : nat) (bs : nat -> nat) (qp : oqp R) (l : list ((nat -> bool) * oqp R)) : Prop :=
  match l with nil => True | cons (idxc, qp') l => part_update_ok N2 bs idxc qp qp' /\ part_updates_ok N2 bs qp' l end.
(** the caller: PART_COND_QP_COND once (cond_alg 0), then PART_COND_QP_UPDATE each time the QP has changed *)
Fixpoint run_part (N2 : nat) (bs : nat -> nat) (l : list ((nat -> bool) * oqp R)) (p : oqp R) (ws : nat -> cws R) : oqp R * (nat -> cws R) :=
  match l with
  | nil => (p, ws)
  | (idxc, qp') :: l => let r := part_update idxc (last_default N2) bs qp' p ws in run_part N2 bs l (p_q2 r) (p_ws r)
  end.
Definition part_history (sq diag : nat -> bool) (N2 : nat) (bs : nat -> nat) (qp0 p0 : oqp R) (ws : nat -> cws R) (l : list ((nat -> bool) * oqp R)) : oqp R :=
  let r := part_cond (last_default N2) (fun _ => true) sq diag bs qp0 p0 ws in fst (run_part N2 bs l (p_q2 r) (p_ws r)).
