(** Blas.v -- the BLASFEO routines called by the library, as functions on index-addressed vectors (nat -> F) and
    matrices (nat -> nat -> F).  BLASFEO is an external dependency, not in /repo: these are its documented reference
    semantics (trusted).  Argument order = C argument order; the routine returns the updated output operand; only the
    entries BLASFEO writes are changed.  VECAD_SP accumulates duplicates in index order. *)
From Coq Require Import ZArith Bool Arith Lia Reals Lra.
From Verif Require Import Base ArithF RSum.

Section Blas.
Context {F : Type} {AF : Arith F}.
Local Open Scope F_scope.
Notation vec := (nat -> F).
Notation mat := (nat -> nat -> F).

Definition fsum (n : nat) (f : nat -> F) : F := loop n (fun k s => s + f k) f0.
(** z = y + alpha*x *)
Definition AXPY (n : nat) (alpha : F) (x : vec) (xi : nat) (y : vec) (yi : nat) (z : vec) (zi : nat) : vec :=
  vset z zi n (fun i => y (yi + i)%nat + alpha * x (xi + i)%nat).
(** z = beta*y + alpha*x *)
Definition AXPBY (n : nat) (alpha : F) (x : vec) (xi : nat) (beta : F) (y : vec) (yi : nat) (z : vec) (zi : nat) : vec :=
  vset z zi n (fun i => beta * y (yi + i)%nat + alpha * x (xi + i)%nat).
Definition VECCP (n : nat) (x : vec) (xi : nat) (y : vec) (yi : nat) : vec := vset y yi n (fun i => x (xi + i)%nat).
Definition VECSE (n : nat) (a : F) (x : vec) (xi : nat) : vec := vset x xi n (fun _ => a).
Definition VECSC (n : nat) (a : F) (x : vec) (xi : nat) : vec := vset x xi n (fun i => a * x (xi + i)%nat).
Definition VECMUL (n : nat) (x : vec) (xi : nat) (y : vec) (yi : nat) (z : vec) (zi : nat) : vec :=
  vset z zi n (fun i => x (xi + i)%nat * y (yi + i)%nat).
Definition VECMULACC (n : nat) (x : vec) (xi : nat) (y : vec) (yi : nat) (z : vec) (zi : nat) : vec :=
  vset z zi n (fun i => z (zi + i)%nat + x (xi + i)%nat * y (yi + i)%nat).
Definition DOT (n : nat) (x : vec) (xi : nat) (y : vec) (yi : nat) : F := fsum n (fun i => x (xi + i)%nat * y (yi + i)%nat).
(** symmetric matrix given by its lower triangle *)
Definition symL (A : mat) (i j : nat) : F := if Nat.leb j i then A i j else A j i.
Definition SYMV_L (n : nat) (alpha : F) (A : mat) (ai aj : nat) (x : vec) (xi : nat) (beta : F) (y : vec) (yi : nat) (z : vec) (zi : nat) : vec :=
  vset z zi n (fun i => beta * y (yi + i)%nat + alpha * fsum n (fun j => symL (fun r c => A (ai + r)%nat (aj + c)%nat) i j * x (xi + j)%nat)).
Definition GEMV_N (m n : nat) (alpha : F) (A : mat) (ai aj : nat) (x : vec) (xi : nat) (beta : F) (y : vec) (yi : nat) (z : vec) (zi : nat) : vec :=
  vset z zi m (fun i => beta * y (yi + i)%nat + alpha * fsum n (fun j => A (ai + i)%nat (aj + j)%nat * x (xi + j)%nat)).
Definition GEMV_T (m n : nat) (alpha : F) (A : mat) (ai aj : nat) (x : vec) (xi : nat) (beta : F) (y : vec) (yi : nat) (z : vec) (zi : nat) : vec :=
  vset z zi n (fun j => beta * y (yi + j)%nat + alpha * fsum m (fun i => A (ai + i)%nat (aj + j)%nat * x (xi + i)%nat)).
(** z_n = beta_n*y_n + alpha_n*A*x_n (size m) and z_t = beta_t*y_t + alpha_t*A'*x_t (size n) *)
Definition GEMV_NT (m n : nat) (alpha_n alpha_t : F) (A : mat) (ai aj : nat) (x_n : vec) (xi_n : nat) (x_t : vec) (xi_t : nat)
  (beta_n beta_t : F) (y_n : vec) (yi_n : nat) (y_t : vec) (yi_t : nat) (z_n : vec) (zi_n : nat) (z_t : vec) (zi_t : nat) : vec * vec :=
  (GEMV_N m n alpha_n A ai aj x_n xi_n beta_n y_n yi_n z_n zi_n, GEMV_T m n alpha_t A ai aj x_t xi_t beta_t y_t yi_t z_t zi_t).
Definition GEMV_DIAG (n : nat) (alpha : F) (dA : vec) (ai : nat) (x : vec) (xi : nat) (beta : F) (y : vec) (yi : nat) (z : vec) (zi : nat) : vec :=
  vset z zi n (fun i => beta * y (yi + i)%nat + alpha * dA (ai + i)%nat * x (xi + i)%nat).
Definition VECAD_SP (n : nat) (alpha : F) (x : vec) (xi : nat) (idx : nat -> nat) (z : vec) (zi : nat) : vec :=
  loop n (fun i z => upd z (zi + idx i)%nat (z (zi + idx i)%nat + alpha * x (xi + i)%nat)) z.
Definition VECEX_SP (n : nat) (alpha : F) (idx : nat -> nat) (x : vec) (xi : nat) (z : vec) (zi : nat) : vec :=
  vset z zi n (fun i => alpha * x (xi + idx i)%nat).
(** infinity norm: BLASFEO starts from 0 and keeps the larger absolute value; one norm *)
Definition VECNRM_INF (n : nat) (x : vec) (xi : nat) : F :=
  loop n (fun i s => let a := fabs (x (xi + i)%nat) in if s <? a then a else s) f0.
Definition VECNRM_1 (n : nat) (x : vec) (xi : nat) : F := fsum n (fun i => fabs (x (xi + i)%nat)).
(** matrix entry (BLASFEO_DMATEL) update *)
Definition mset (A : mat) (i j : nat) (v : F) : mat := fun r c => if andb (Nat.eqb r i) (Nat.eqb c j) then v else A r c.
(** GECP: copy an m x n block *)
Definition mblk (B : mat) (bi bj m n : nat) (g : nat -> nat -> F) : mat :=
  fun r c => if andb (andb (Nat.leb bi r) (Nat.ltb r (bi + m))) (andb (Nat.leb bj c) (Nat.ltb c (bj + n))) then g (r - bi)%nat (c - bj)%nat else B r c.
Definition GECP (m n : nat) (A : mat) (ai aj : nat) (B : mat) (bi bj : nat) : mat :=
  mblk B bi bj m n (fun i j => A (ai + i)%nat (aj + j)%nat).
Definition GESE (m n : nat) (a : F) (A : mat) (ai aj : nat) : mat := mblk A ai aj m n (fun _ _ => a).
(** ROWIN: row ai of A (from column aj) = alpha * x; ROWEX: x = alpha * row; COLIN; COLEX; ROWAD adds *)
Definition ROWIN (k : nat) (alpha : F) (x : vec) (xi : nat) (A : mat) (ai aj : nat) : mat :=
  mblk A ai aj 1 k (fun _ j => alpha * x (xi + j)%nat).
Definition ROWEX (k : nat) (alpha : F) (A : mat) (ai aj : nat) (x : vec) (xi : nat) : vec :=
  vset x xi k (fun j => alpha * A ai (aj + j)%nat).
Definition COLIN (k : nat) (x : vec) (xi : nat) (A : mat) (ai aj : nat) : mat :=
  mblk A ai aj k 1 (fun i _ => x (xi + i)%nat).
Definition COLEX (k : nat) (A : mat) (ai aj : nat) (x : vec) (xi : nat) : vec :=
  vset x xi k (fun i => A (ai + i)%nat aj).
End Blas.

Lemma fsum_R n f : fsum (F := R) n f = rsum n f.
Proof.
  unfold fsum. induction n as [|n IH]; cbn [loop rsum]; [rsimp; apply R_lit01|].
  rewrite IH. reflexivity.
Qed.

Local Open Scope R_scope.
Lemma VECAD_SP_R n alpha (x : nat -> R) xi idx z zi k :
  VECAD_SP n alpha x xi idx z zi k = z k + rsum n (fun i => if Nat.eqb (zi + idx i) k then alpha * x (xi + i)%nat else 0).
Proof.
  unfold VECAD_SP. revert k. induction n as [|n IH]; intros k; cbn [loop rsum]; [lra|].
  unfold upd. rewrite Nat.eqb_sym. destruct (Nat.eqb_spec (zi + idx n) k) as [<-|Hne].
  - rsimp. rewrite IH. lra.
  - rewrite IH. lra.
Qed.
Lemma VECNRM_INF_R n (x : nat -> R) xi :
  0 <= VECNRM_INF n x xi /\ (forall i, (i < n)%nat -> Rabs (x (xi + i)%nat) <= VECNRM_INF n x xi) /\
  (VECNRM_INF n x xi = 0 \/ exists i, (i < n)%nat /\ VECNRM_INF n x xi = Rabs (x (xi + i)%nat)).
Proof.
  unfold VECNRM_INF. induction n as [|n IH]; cbn [loop].
  - rsimp. rewrite R_lit01. split; [lra|]. split; [lia|]. left; reflexivity.
  - set (s := loop n _ _) in *. destruct IH as (I1 & I2 & I3). rsimp. cbn zeta.
    destruct (Rltb_spec s (Rabs (x (xi + n)%nat))) as [H|H].
    + split; [apply Rabs_pos|]. split; [|right; exists n; split; [lia|reflexivity]].
      intros i Hi. destruct (Nat.eq_dec i n) as [->|]; [lra|]. specialize (I2 i ltac:(lia)). lra.
    + split; [assumption|]. split.
      * intros i Hi. destruct (Nat.eq_dec i n) as [->|]; [lra|]. apply I2. lia.
      * destruct I3 as [I3|(i & Hi & I3)]; [left; assumption|right; exists i; split; [lia|assumption]].
Qed.
Lemma VECNRM_1_R n (x : nat -> R) xi : VECNRM_1 n x xi = rsum n (fun i => Rabs (x (xi + i)%nat)).
Proof. unfold VECNRM_1. rewrite fsum_R. reflexivity. Qed.
