(** DenKktSpec.v -- vocabulary of the statements about the dense Newton step (reals); the QP itself is in DenSpec.v. *)
From Coq Require Import ZArith Bool Arith Reals.
From Verif Require Import Base RSum ResSpec DenModel DenSpec DenKktModel.
Local Open Scope R_scope.

(** no two constraints share a slack variable *)
Definition den_soft_inj (q : dqp R) : Prop := forall j j', (j < d_nb q + d_ng q)%nat -> (j' < d_nb q + d_ng q)%nat -> d_idxs_rev q j <> (-1)%Z -> d_idxs_rev q j = d_idxs_rev q j' -> j = j'.
(** diagonal entry of the Newton matrix of slack k, constraints weighted by Gamma *)
Definition den_pivot (q : dqp R) (reg : R) (Gamma : nat -> R) (k : nat) : R :=
  d_Z q k + reg + Gamma (2 * d_nb q + 2 * d_ng q + k)%nat
  + rsum (d_nb q + d_ng q) (fun j => soft_co (d_idxs_rev q) 0 j k * Gamma j + soft_co (d_idxs_rev q) (d_ns q) j k * Gamma (d_nb q + d_ng q + j)%nat).
(** interior-point weight of constraint c *)
Definition den_wgt (a : dka R) (c : nat) : R := da_lam a c / da_t a c.
(** the inputs are an interior point: t non-zero, thresholds of t_lam_min inactive, masked constraints carry nothing, slack pivots non-zero *)
Record den_point (a : dka R) (q : dqp R) : Prop := {
  dp_t : forall c, (c < d_nct q)%nat -> da_t a c <> 0;
  dp_clip : da_tlm a <> 1%Z \/ forall c, (c < d_nct q)%nat -> da_t_min a <= da_t a c /\ da_lam_min a <= da_lam a c;
  dp_mask : forall c, (c < d_nct q)%nat -> d_mask q c = 0 -> da_lam a c = 0 /\ d_m q c = 0;
  dp_piv : forall k, (k < 2 * d_ns q)%nat -> den_pivot q (da_reg a) (den_wgt a) k <> 0 }.
(** The Newton system of the QP with right-hand side gz, b, d, m at the multipliers and slacks (lam, t) of a:
      H v + gz - A' pi - G' lam + rp = 0,   b - A v = rd,   d + t - G v = 0,   m + lam_a t + t_a lam = 0
    with the forces rp, rd of the regularisation (rp = 0 and rd = 0: the plain Newton system). *)
Definition den_newton (a : dka R) (q : dqp R) (rp rd : nat -> R) (s : dsol R) : Prop :=
  (forall k, (k < dnv q)%nat -> den_kkt_g q (ds_v s) (ds_pi s) (ds_lam s) k + rp k = 0) /\
  (forall j, (j < d_ne q)%nat -> den_eq q (ds_v s) j = rd j) /\
  (forall c, (c < d_nct q)%nat -> d_d q c + ds_t s c - den_con q (ds_v s) c = 0) /\
  (forall c, (c < d_nct q)%nat -> d_m q c + da_lam a c * ds_t s c + ds_lam s c * da_t a c = 0).
(** an LQ factorisation A = [L 0] Q with Q orthogonal and L lower triangular, non-singular *)
Definition lq_ok (m n : nat) (A L Q : nat -> nat -> R) : Prop :=
  (forall i, (i < m)%nat -> L i i <> 0) /\
  (forall i k, (i < m)%nat -> (k < n)%nat -> A i k = rsum (S i) (fun l => L i l * Q l k)) /\
  (forall i j, (i < n)%nat -> (j < n)%nat -> rsum n (fun k => Q i k * Q j k) = if (i =? j)%nat then 1 else 0) /\
  (forall i j, (i < n)%nat -> (j < n)%nat -> rsum n (fun k => Q k i * Q k j) = if (i =? j)%nat then 1 else 0).
(** the null-space method works with such a factorisation of A: the one in the workspace if flagged valid, else the one BLASFEO returns *)
Definition lq_given (q : dqp R) (lq : nat -> nat -> (nat -> nat -> R) -> (nat -> nat -> R) * (nat -> nat -> R) -> (nat -> nat -> R) * (nat -> nat -> R)) (w : dkw R) : Prop :=
  if w_useA w then lq_ok (d_ne q) (d_nv q) (d_A q) (w_LQ w) (w_Q w) /\ (forall i k, (i < d_nv q - d_ne q)%nat -> (k < d_nv q)%nat -> w_Zt w i k = w_Q w (d_ne q + i)%nat k)
  else lq_ok (d_ne q) (d_nv q) (d_A q) (fst (lq (d_ne q) (d_nv q) (d_A q) (w_LQ w, w_Q w))) (snd (lq (d_ne q) (d_nv q) (d_A q) (w_LQ w, w_Q w))).
(** The forces rp, rd on the variables v < nv, equality constraints j < ne and slacks caused by the regularisation, for final primal and dual
    regularisation preg, dreg, scaling sc:
    - slack k: reg_prim times the slack;
    - no equality constraints: preg times v (times a positive weight per variable when scaling);
    - null-space method (kkt_fact_alg 0): preg times p, where p is the component of v in the null space of A; none on the equality constraints;
    - Schur complement method: preg times v and dreg times pi (times positive weights when scaling); without scaling preg is reg_prim. *)
Definition den_forces (sc : bool) (a : dka R) (q : dqp R) (preg dreg : R) (v pi rp rd : nat -> R) : Prop :=
  if (d_ne q =? 0)%nat then
    exists wv : nat -> R, (forall k, (k < d_nv q)%nat -> 0 < wv k) /\ (sc = false -> forall k, wv k = 1) /\ forall k, (k < d_nv q)%nat -> rp k = preg * wv k * v k
  else if Z.eqb (da_alg a) 0 then
    (exists p y : nat -> R, (forall k, (k < d_nv q)%nat -> v k = p k + rsum (d_ne q) (fun j => d_A q j k * y j)) /\
       (forall j, (j < d_ne q)%nat -> rsum (d_nv q) (fun k => d_A q j k * p k) = 0) /\ forall k, (k < d_nv q)%nat -> rp k = preg * p k) /\
    forall j, (j < d_ne q)%nat -> rd j = 0
  else
    exists wv we : nat -> R, (forall k, (k < d_nv q)%nat -> 0 < wv k) /\ (forall j, (j < d_ne q)%nat -> 0 < we j) /\
      (sc = false -> (forall k, wv k = 1) /\ (forall j, we j = 1)) /\
      (forall k, (k < d_nv q)%nat -> rp k = (if sc then preg else da_reg a) * wv k * v k) /\
      (forall j, (j < d_ne q)%nat -> rd j = dreg * we j * pi j).
(** the Newton system with these forces *)
Definition den_newton_reg (sc : bool) (a : dka R) (q : dqp R) (preg dreg : R) (s : dsol R) : Prop :=
  exists rp rd : nat -> R, den_forces sc a q preg dreg (ds_v s) (ds_pi s) rp rd /\
    (forall k, (d_nv q <= k < dnv q)%nat -> rp k = da_reg a * ds_v s k) /\ den_newton a q rp rd s.
Definition lq_ready (a : dka R) (q : dqp R) lq (w : dkw R) : Prop := d_ne q <> 0%nat -> da_alg a = 0%Z -> (d_ne q <= d_nv q)%nat /\ lq_given q lq w.
(** the directions along which the chosen method needs curvature: all, or (null-space method) the null space of A *)
Definition den_dir (a : dka R) (q : dqp R) (p : nat -> R) : Prop := da_alg a = 0%Z -> forall j, (j < d_ne q)%nat -> rsum (d_nv q) (fun k => d_A q j k * p k) = 0.
(** v' H v over the first nv variables *)
Definition den_quad (q : dqp R) (p : nat -> R) : R := rsum (d_nv q) (fun k => rsum (d_nv q) (fun l => p k * den_Hess q k l * p l)).
(** an interior point in the usual sense and a QP convex along these directions, strictly so once reg_prim is added; for the Schur complement
    method A has full row rank or reg_dual is positive *)
Record den_convex (a : dka R) (q : dqp R) : Prop := {
  dc_t : forall c, (c < d_nct q)%nat -> 0 < da_t a c /\ 0 <= da_lam a c;
  dc_clip : da_tlm a <> 1%Z \/ forall c, (c < d_nct q)%nat -> da_t_min a <= da_t a c /\ da_lam_min a <= da_lam a c;
  dc_Z : forall k, (k < 2 * d_ns q)%nat -> 0 <= d_Z q k + da_reg a;
  dc_slack : forall k, (k < 2 * d_ns q)%nat -> 0 < d_Z q k + da_reg a \/ 0 < da_lam a (2 * d_nb q + 2 * d_ng q + k)%nat;
  dc_reg : 0 <= da_reg a;
  dc_H0 : forall p, den_dir a q p -> 0 <= den_quad q p;
  dc_H : forall p, den_dir a q p -> (exists k, (k < d_nv q)%nat /\ p k <> 0) -> 0 < den_quad q p + da_reg a * rsum (d_nv q) (fun k => p k * p k);
  dc_A : d_ne q <> 0%nat -> da_alg a <> 0%Z -> 0 <= da_dreg a /\
    forall y : nat -> R, (exists j, (j < d_ne q)%nat /\ y j <> 0) -> 0 < da_dreg a \/ exists k, (k < d_nv q)%nat /\ rsum (d_ne q) (fun j => y j * d_A q j k) <> 0 }.
(** the same QP with another right-hand side *)
Definition den_with_rhs (q : dqp R) (gz b d m : nat -> R) : dqp R :=
  mkdqp (d_nv q) (d_ne q) (d_nb q) (d_ng q) (d_ns q) (d_H q) (d_A q) (d_Ct q) gz b d (d_mask q) m (d_Z q) (d_idxb q) (d_idxs_rev q).
(** masked constraints carry nothing *)
Definition den_mask_off (a : dka R) (q : dqp R) : Prop := forall c, (c < d_nct q)%nat -> d_mask q c = 0 -> da_lam a c = 0 /\ d_m q c = 0.
Definition no_force : nat -> R := fun _ => 0.
(** A has full row rank *)
Definition den_full_rank (q : dqp R) : Prop :=
  forall y : nat -> R, (forall k, (k < d_nv q)%nat -> rsum (d_ne q) (fun j => d_A q j k * y j) = 0) -> forall j, (j < d_ne q)%nat -> y j = 0.
(** the steps s1, s2 of q agree *)
Definition den_same (q : dqp R) (s1 s2 : dsol R) : Prop :=
  (forall k, (k < dnv q)%nat -> ds_v s1 k = ds_v s2 k) /\ (forall j, (j < d_ne q)%nat -> ds_pi s1 j = ds_pi s2 j) /\
  (forall c, (c < d_nct q)%nat -> ds_lam s1 c = ds_lam s2 c /\ ds_t s1 c = ds_t s2 c).
(** the workspace w and t_inv, Gamma are those of a factorisation FACT_SOLVE of q at (lam, t) of a, which ended with regularisation preg and
    dreg, followed by any number of calls of SOLVE with any right-hand sides *)
Inductive den_factored (a : dka R) (q : dqp R) (tinv Gamma : nat -> R) (preg dreg : R) : dkw R -> Prop :=
| df_fact lq scr fuel g3 stp w s gamma w' : lq_ready a q lq w -> w_scale w = da_scale a ->
    den_fact_solve a q lq scr fuel g3 stp w = Some (s, (preg, dreg), (tinv, Gamma, gamma), w') -> den_factored a q tinv Gamma preg dreg w'
| df_solve scr gz b d m gamma0 stp w s gamma w' : den_factored a q tinv Gamma preg dreg w ->
    den_solve_kkt a (den_with_rhs q gz b d m) scr tinv Gamma gamma0 stp w = (s, gamma, w') -> den_factored a q tinv Gamma preg dreg w'.
