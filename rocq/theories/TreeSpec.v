(** TreeSpec.v -- the tree-structured OCP QP as mathematics (real numbers), independent of the code.

    Nodes 0 .. Nn-1, node 0 the root.  Node i has its own variables, cost and inequality constraints, exactly as a stage of
    the OCP QP (ResSpec: con, stage_cost, cost, kkt_d, kkt_m, psd, mask01).  The state of each kid k of node i is
    x_k = A_k x_i + B_k u_i + b_k; the data of that edge has index k - 1. *)
From Coq Require Import ZArith Bool Arith Reals.
From Verif Require Import Base RSum OcpModel TreeModel ResSpec.
Local Open Scope R_scope.

(** a rooted tree whose nodes are numbered so that parents come before kids: kids exist, every node but the root is the kid
    of exactly one node, once *)
Definition tree_ok (Nn : nat) (T : ttree) : Prop :=
  (forall i jj, (i < Nn)%nat -> (jj < t_nk T i)%nat -> (i < t_kid T i jj < Nn)%nat) /\
  (forall k, (0 < k < Nn)%nat -> exists i jj, (i < Nn)%nat /\ (jj < t_nk T i)%nat /\ t_kid T i jj = k) /\
  (forall i jj i' jj', (i < Nn)%nat -> (jj < t_nk T i)%nat -> (i' < Nn)%nat -> (jj' < t_nk T i')%nat -> t_kid T i jj = t_kid T i' jj' -> i = i' /\ jj = jj').

Section Tree.
Variables (T : ttree) (qp : oqp R).
Let D := q_dim qp.
(** defect of the dynamics along the edge from node i to its kid k *)
Definition tdyn (z : nat -> nat -> R) (i k j : nat) : R :=
  rsum (nux qp i) (fun r => q_BAbt qp (k - 1)%nat r j * z i r) + q_b qp (k - 1)%nat j - z k (dnu D k + j)%nat.
Definition tfeasible (z : nat -> nat -> R) : Prop :=
  (forall i jj j, (i <= dN D)%nat -> (jj < t_nk T i)%nat -> (j < dnx D (t_kid T i jj))%nat -> tdyn z i (t_kid T i jj) j = 0) /\
  (forall i c, (i <= dN D)%nat -> (c < nct D i)%nat -> q_mask qp i c <> 0 -> con qp z i c >= q_d qp i c).
(** sum over the edges (i, kid) of the tree *)
Definition edges (f : nat -> nat -> R) : R := rsum (dN D + 1) (fun i => rsum (t_nk T i) (fun jj => f i (t_kid T i jj))).
Definition tlagr (z pi lam : nat -> nat -> R) : R :=
  cost qp z + edges (fun i k => rsum (dnx D k) (fun j => pi (k - 1)%nat j * tdyn z i k j))
  - rsum (dN D + 1) (fun i => rsum (nct D i) (fun c => q_mask qp i c * lam i c * (con qp z i c - q_d qp i c))).
(** gradient of the Lagrangian with respect to variable v of node i *)
Definition tkkt_g (z pi lam : nat -> nat -> R) (i v : nat) : R :=
  rsum (nvt D i) (fun l => Hess qp i v l * z i l) + q_rqz qp i v
  + (if (v <? nux qp i)%nat then rsum (t_nk T i) (fun jj => let k := t_kid T i jj in rsum (dnx D k) (fun j => q_BAbt qp (k - 1)%nat v j * pi (k - 1)%nat j)) else 0)
  - (if ((0 <? i) && (dnu D i <=? v) && (v <? nux qp i))%nat then pi (i - 1)%nat (v - dnu D i)%nat else 0)
  - rsum (nct D i) (fun c => G qp i c v * (q_mask qp i c * lam i c)).
End Tree.
(** the multipliers of masked constraints are zero *)
Definition masked_zero (qp : oqp R) (lam : nat -> nat -> R) : Prop :=
  forall i c, (i <= dN (q_dim qp))%nat -> (c < nct (q_dim qp) i)%nat -> q_mask qp i c = 0 -> lam i c = 0.
