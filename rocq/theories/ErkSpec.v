(** ErkSpec.v -- explicit Runge-Kutta methods, their order conditions and the derivative of their flow, independently of the model. *)
From Coq Require Import Arith Lia Reals Lra.
From Verif Require Import RSum.
Local Open Scope R_scope.

Notation rv := (nat -> R).
(** first n entries, the others 0 *)
Definition pad (n : nat) (x : rv) : rv := fun i => if Nat.ltb i n then x i else 0.
Definition eqv (n : nat) (x y : rv) : Prop := forall i, (i < n)%nat -> x i = y i.

(** A Butcher tableau: number of stages, A (row, column), B, C. *)
Record tableau := mktab { t_ns : nat; t_A : nat -> nat -> R; t_B : rv; t_C : rv }.

(** One step of size h of the explicit method [T] for  x' = f(t,x), x in R^n, from (t,x) to x':
    stage derivatives  k_s = f(t + C_s h, x + h sum_{r<s} A_{s,r} k_r)  and  x' = x + h sum_s B_s k_s. *)
Definition erk_step (n : nat) (T : tableau) (h : R) (f : R -> rv -> rv) (t : R) (x x' : rv) : Prop :=
  exists k : nat -> rv,
    (forall s, (s < t_ns T)%nat ->
       eqv n (k s) (f (t + t_C T s * h) (pad n (fun i => x i + h * rsum s (fun r => t_A T s r * k r i))))) /\
    eqv n x' (fun i => x i + h * rsum (t_ns T) (fun s => t_B T s * k s i)).

(** One step of the Runge-Kutta method with the full tableau, explicit or not (an equation for the stage derivatives). *)
Definition rk_step (n : nat) (T : tableau) (h : R) (f : R -> rv -> rv) (t : R) (x x' : rv) : Prop :=
  exists k : nat -> rv,
    (forall s, (s < t_ns T)%nat ->
       eqv n (k s) (f (t + t_C T s * h) (pad n (fun i => x i + h * rsum (t_ns T) (fun r => t_A T s r * k r i))))) /\
    eqv n x' (fun i => x i + h * rsum (t_ns T) (fun s => t_B T s * k s i)).

(** [m] steps from time 0 *)
Definition erk_run (n : nat) (T : tableau) (h : R) (f : R -> rv -> rv) (m : nat) (x x' : rv) : Prop :=
  exists y : nat -> rv,
    eqv n (y 0%nat) x /\ (forall j, (j < m)%nat -> erk_step n T h f (INR j * h) (y j) (y (S j))) /\ eqv n (y m) x'.

(** Order conditions (one per rooted tree), with the row-sum condition. *)
Definition row_sums (T : tableau) : Prop := forall s, (s < t_ns T)%nat -> t_C T s = rsum (t_ns T) (t_A T s).
Definition explicit (T : tableau) : Prop := forall s r, (s < t_ns T)%nat -> (s <= r < t_ns T)%nat -> t_A T s r = 0.
Definition sumB (T : tableau) (g : rv) : R := rsum (t_ns T) (fun s => t_B T s * g s).
Definition mulA (T : tableau) (g : rv) : rv := fun s => rsum (t_ns T) (fun r => t_A T s r * g r).
Definition order2 (T : tableau) : Prop := sumB T (fun _ => 1) = 1 /\ sumB T (t_C T) = 1/2.
Definition order3 (T : tableau) : Prop :=
  order2 T /\ sumB T (fun s => t_C T s * t_C T s) = 1/3 /\ sumB T (mulA T (t_C T)) = 1/6.
Definition order4 (T : tableau) : Prop :=
  order3 T /\ sumB T (fun s => t_C T s * t_C T s * t_C T s) = 1/4 /\ sumB T (fun s => t_C T s * mulA T (t_C T) s) = 1/8
  /\ sumB T (mulA T (fun s => t_C T s * t_C T s)) = 1/12 /\ sumB T (mulA T (mulA T (t_C T))) = 1/24.

(** [Jx] and [Jp] are the partial derivatives of  f(t,x,p)  wrt x in R^nx and p in R^np: along every pair of curves
    differentiable at 0 the composition is differentiable with the derivative of the chain rule. *)
Definition is_jacobian {Time : Type} (nx np : nat) (f : Time -> rv -> rv -> rv) (Jx Jp : Time -> rv -> rv -> nat -> nat -> R) : Prop :=
  forall (t : Time) (y q : R -> rv) (v w : rv),
    (forall k, (k < nx)%nat -> derivable_pt_lim (fun th => y th k) 0 (v k)) ->
    (forall k, (k < np)%nat -> derivable_pt_lim (fun th => q th k) 0 (w k)) ->
    forall i, (i < nx)%nat ->
      derivable_pt_lim (fun th => f t (pad nx (y th)) (pad np (q th)) i) 0
        (rsum nx (fun k => Jx t (pad nx (y 0)) (pad np (q 0)) i k * v k) + rsum np (fun k => Jp t (pad nx (y 0)) (pad np (q 0)) i k * w k)).

(** powers of a linear map and the Taylor polynomial of the matrix exponential *)
Definition lin (n : nat) (M : nat -> nat -> R) (x : rv) : rv := fun i => rsum n (fun j => M i j * x j).
Fixpoint lpow (n : nat) (M : nat -> nat -> R) (k : nat) (x : rv) : rv := match k with O => x | S k => lin n M (lpow n M k x) end.
Definition exp_taylor (n : nat) (M : nat -> nat -> R) (d : nat) (h : R) (x : rv) : rv :=
  fun i => rsum (S d) (fun k => h ^ k / INR (fact k) * lpow n M k x i).

(** repeated application *)
Fixpoint iter {A : Type} (m : nat) (g : A -> A) (x : A) : A := match m with O => x | S k => g (iter k g x) end.
