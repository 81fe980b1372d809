(** RicSpec.v -- vocabulary of the statements about the Riccati getters (reals). *)
From Coq Require Import ZArith Bool Arith Reals.
From Verif Require Import Base ArithF RSum CoreModel OcpModel ResSpec KktModel KktSpec SolveModel NewtonUniq SolveProps SensModel SensSpec RicModel.
Local Open Scope R_scope.
(** getter calls after s0, in any order, any number of times, on any stages (GET_RIC_LR, GET_RIC_LS and GET_RIC_P change nothing) *)
Inductive getters (sq : bool) (a : kargs R) (qp : oqp R) (tinv Gam : nat -> nat -> R) (bkp : osol R) (s0 : ric R) : ric R -> Prop :=
| g_0 : getters sq a qp tinv Gam bkp s0 s0
| g_lr s i o : getters sq a qp tinv Gam bkp s0 s -> getters sq a qp tinv Gam bkp s0 (snd (get_lr sq a qp bkp tinv Gam i s o))
| g_p s i o : getters sq a qp tinv Gam bkp s0 s -> getters sq a qp tinv Gam bkp s0 (snd (get_p sq a qp bkp tinv Gam i s o))
| g_K s i o : getters sq a qp tinv Gam bkp s0 s -> getters sq a qp tinv Gam bkp s0 (snd (get_K qp i s o))
| g_k s i o : getters sq a qp tinv Gam bkp s0 s -> getters sq a qp tinv Gam bkp s0 (snd (get_k sq a qp bkp tinv Gam i s o)).
(** a session starts after a factorisation and any solves and sensitivity calls; valid_ric_vec is 0 as OCP_QP_IPM_SOLVE leaves it (line 2862) *)
Definition ric_session (sq : bool) (a : kargs R) (qp : oqp R) (preg : R) (tinv Gam : nat -> nat -> R) (bkp : osol R) (s0 : ric R) : Prop :=
  exists pb bX w0, factored sq a qp pb bX preg tinv Gam w0 /\ history sq a qp pb bX tinv Gam bkp w0 (ri_w s0) /\ ri_vec s0 = false.
(** standing assumptions on the problem and the saved interior point *)
Definition ric_setting (a : kargs R) (qp : oqp R) (bkp : osol R) : Prop :=
  qp_wf qp /\ (1 <= dN (q_dim qp))%nat /\ soft_inj qp /\ mask01 qp /\ interior a qp /\ masked_zero qp (q_m qp) /\ a_dual a = true /\ saved_point a (q_dim qp) bkp.
(** row r of M x + v, M column-major with leading dimension ld, n columns *)
Definition affine (ld n : nat) (M v x : nat -> R) (r : nat) : R := rsum n (fun m => M (r + m * ld)%nat * x m) + v r.
(** the state of stage i *)
Definition st_x (D : dims) (s : osol R) (i : nat) : nat -> R := fun m => s_ux s i (dnu D i + m)%nat.
