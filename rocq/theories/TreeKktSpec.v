(** TreeKktSpec.v -- the interior-point Newton system of a tree-structured OCP QP (reals).  Vocabulary of TreeSpec.v and KktSpec.v. *)
From Coq Require Import ZArith Bool Arith Reals.
From Verif Require Import Base RSum OcpModel TreeModel ResSpec TreeSpec KktModel KktSpec.
Local Open Scope R_scope.

(** [step] = (dz, dpi, dlam, dt) solves the Newton system at the point (lam, t) = (a_lam a, a_t a), right-hand side the vectors
    g, b, d, m of qp, Hessian regularised by reg on the diagonal:
    gradient of the Lagrangian + reg dz = 0, dynamics along every edge, constraints d + dt - C dz = 0, m + lam dt + t dlam = 0 *)
Definition tnewton (a : kargs R) (T : ttree) (qp : oqp R) (step : osol R) : Prop :=
  let D := q_dim qp in
  (forall i v, (i <= dN D)%nat -> (v < nvt D i)%nat -> tkkt_g T qp (s_ux step) (s_pi step) (s_lam step) i v + a_reg a * s_ux step i v = 0) /\
  (forall i jj j, (i <= dN D)%nat -> (jj < t_nk T i)%nat -> (j < dnx D (t_kid T i jj))%nat -> tdyn qp (s_ux step) i (t_kid T i jj) j = 0) /\
  (forall i c, (i <= dN D)%nat -> (c < nct D i)%nat -> q_d qp i c + s_t step i c - con qp (s_ux step) i c = 0) /\
  (forall i c, (i <= dN D)%nat -> (c < nct D i)%nat -> q_m qp i c + a_lam a i c * s_t step i c + s_lam step i c * a_t a i c = 0).
(** the path 0 -> 1 -> ... -> N *)
Definition path_tree (N : nat) : ttree := mktree (fun i => if (i <? N)%nat then 1%nat else 0%nat) (fun i _ => S i).
