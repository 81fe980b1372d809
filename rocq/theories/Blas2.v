(** Blas2.v -- further BLASFEO routines (reference semantics, trusted, see Blas.v): triangular and symmetric matrix
    products, Cholesky factorisation, triangular solves. *)
From Coq Require Import ZArith Bool Arith Lia Reals Lra.
From Verif Require Import Base ArithF RSum Blas.

Section Blas2.
Context {F : Type} {AF : Arith F}.
Local Open Scope F_scope.
Notation vec := (nat -> F).
Notation mat := (nat -> nat -> F).

(** update of the entries (bi+i, bj+j), i < m, j < n, selected by [sel] *)
Definition mupd (B : mat) (bi bj m n : nat) (sel : nat -> nat -> bool) (g : nat -> nat -> F) : mat :=
  fun r c => if andb (andb (Nat.leb bi r) (Nat.ltb r (bi + m))) (andb (Nat.leb bj c) (Nat.ltb c (bj + n))) then
    if sel (r - bi)%nat (c - bj)%nat then g (r - bi)%nat (c - bj)%nat else B r c else B r c.
Definition low (i j : nat) : bool := Nat.leb j i.
(** A(ai+i,aj+i) += alpha *)
Definition DIARE (kmax : nat) (alpha : F) (A : mat) (ai aj : nat) : mat :=
  mupd A ai aj kmax kmax Nat.eqb (fun i j => A (ai + i)%nat (aj + j)%nat + alpha).
(** B += alpha*A *)
Definition GEAD (m n : nat) (alpha : F) (A : mat) (ai aj : nat) (B : mat) (bi bj : nat) : mat :=
  mblk B bi bj m n (fun i j => B (bi + i)%nat (bj + j)%nat + alpha * A (ai + i)%nat (aj + j)%nat).
(** copy of the lower triangle *)
Definition TRCP_L (m : nat) (A : mat) (ai aj : nat) (B : mat) (bi bj : nat) : mat :=
  mupd B bi bj m m low (fun i j => A (ai + i)%nat (aj + j)%nat).
(** B = A', A lower triangular: writes the upper triangle of B *)
Definition TRTR_L (m : nat) (A : mat) (ai aj : nat) (B : mat) (bi bj : nat) : mat :=
  mupd B bi bj m m (fun i j => Nat.leb i j) (fun i j => A (ai + j)%nat (aj + i)%nat).
(** D = alpha*B*A, A lower triangular n x n *)
Definition TRMM_RLNN (m n : nat) (alpha : F) (A : mat) (ai aj : nat) (B : mat) (bi bj : nat) (D : mat) (di dj : nat) : mat :=
  mblk D di dj m n (fun i j => alpha * fsum (n - j) (fun k => B (bi + i)%nat (bj + (j + k))%nat * A (ai + (j + k))%nat (aj + j)%nat)).
(** lower trapezoid of D = beta*C + alpha*A*B' *)
Definition SYRK_LN_MN (m n k : nat) (alpha : F) (A : mat) (ai aj : nat) (B : mat) (bi bj : nat) (beta : F) (C : mat) (ci cj : nat) (D : mat) (di dj : nat) : mat :=
  mupd D di dj m n low (fun i j => beta * C (ci + i)%nat (cj + j)%nat + alpha * fsum k (fun l => A (ai + i)%nat (aj + l)%nat * B (bi + j)%nat (bj + l)%nat)).
Definition GEMM_NT (m n k : nat) (alpha : F) (A : mat) (ai aj : nat) (B : mat) (bi bj : nat) (beta : F) (C : mat) (ci cj : nat) (D : mat) (di dj : nat) : mat :=
  mblk D di dj m n (fun i j => beta * C (ci + i)%nat (cj + j)%nat + alpha * fsum k (fun l => A (ai + i)%nat (aj + l)%nat * B (bi + j)%nat (bj + l)%nat)).
Definition GEMM_NN (m n k : nat) (alpha : F) (A : mat) (ai aj : nat) (B : mat) (bi bj : nat) (beta : F) (C : mat) (ci cj : nat) (D : mat) (di dj : nat) : mat :=
  mblk D di dj m n (fun i j => beta * C (ci + i)%nat (cj + j)%nat + alpha * fsum k (fun l => A (ai + i)%nat (aj + l)%nat * B (bi + l)%nat (bj + j)%nat)).
(** D = beta*C + alpha*A*diag(b) *)
Definition GEMM_ND (m n : nat) (alpha : F) (A : mat) (ai aj : nat) (b : vec) (bi : nat) (beta : F) (C : mat) (ci cj : nat) (D : mat) (di dj : nat) : mat :=
  mblk D di dj m n (fun i j => beta * C (ci + i)%nat (cj + j)%nat + alpha * A (ai + i)%nat (aj + j)%nat * b (bi + j)%nat).
(** sparse additions on the diagonal and on a row *)
Definition DIAAD_SP (n : nat) (alpha : F) (x : vec) (xi : nat) (idx : nat -> nat) (D : mat) (di dj : nat) : mat :=
  loop n (fun i D => mset D (di + idx i)%nat (dj + idx i)%nat (D (di + idx i)%nat (dj + idx i)%nat + alpha * x (xi + i)%nat)) D.
Definition ROWAD_SP (n : nat) (alpha : F) (x : vec) (xi : nat) (idx : nat -> nat) (D : mat) (di dj : nat) : mat :=
  loop n (fun i D => mset D di (dj + idx i)%nat (D di (dj + idx i)%nat + alpha * x (xi + i)%nat)) D.
Definition VECCPSC (n : nat) (alpha : F) (x : vec) (xi : nat) (y : vec) (yi : nat) : vec := vset y yi n (fun i => alpha * x (xi + i)%nat).

(** Cholesky factorisation of the lower trapezoid of C (m x n, m >= n), column by column, into the lower trapezoid of D;
    also returns the vector of inverse diagonal entries, dA of the BLASFEO matrix structure.  A pivot which is not
    positive (NaN included) gives inverse 0.0. *)
Definition potrf_col (m : nat) (C : mat) (ci cj di dj : nat) (j : nat) (s : mat * vec) : mat * vec :=
  let '(D, dA) := s in
  let piv := C (ci + j)%nat (cj + j)%nat - fsum j (fun k => D (di + j)%nat (dj + k)%nat * D (di + j)%nat (dj + k)%nat) in
  let inv := if piv >? f0 then f1 / fsqrt piv else f0 in
  (mupd D di (dj + j) m 1 (fun i _ => Nat.leb j i)
     (fun i _ => (C (ci + i)%nat (cj + j)%nat - fsum j (fun k => D (di + i)%nat (dj + k)%nat * D (di + j)%nat (dj + k)%nat)) * inv),
   upd dA j inv).
Definition POTRF_L_MN (m n : nat) (C : mat) (ci cj : nat) (D : mat) (di dj : nat) (dA : vec) : mat * vec :=
  loop n (potrf_col m C ci cj di dj) (D, dA).
Definition SYRK_POTRF_LN_MN (m n k : nat) (A : mat) (ai aj : nat) (B : mat) (bi bj : nat) (C : mat) (ci cj : nat) (D : mat) (di dj : nat) (dA : vec) : mat * vec :=
  POTRF_L_MN m n (SYRK_LN_MN m n k f1 A ai aj B bi bj f1 C ci cj C ci cj) ci cj D di dj dA.
(** solve A' z = x for the first n entries, A m x n lower trapezoidal, entries n..m-1 of x given *)
Definition TRSV_LTN_MN (m n : nat) (A : mat) (ai aj : nat) (x : vec) (xi : nat) (z : vec) (zi : nat) : vec :=
  loop n (fun k z => let i := (n - 1 - k)%nat in
    upd z (zi + i)%nat ((z (zi + i)%nat - fsum (m - 1 - i) (fun r => A (ai + (i + 1 + r))%nat (aj + i)%nat * z (zi + (i + 1 + r))%nat)) * (f1 / A (ai + i)%nat (aj + i)%nat)))
    (VECCP m x xi z zi).
Definition TRSV_LTN (m : nat) (A : mat) (ai aj : nat) (x : vec) (xi : nat) (z : vec) (zi : nat) : vec := TRSV_LTN_MN m m A ai aj x xi z zi.
(** solve A z = x for the first n entries (A m x n lower trapezoidal); the entries n..m-1 become x - A z *)
Definition TRSV_LNN_MN (m n : nat) (A : mat) (ai aj : nat) (x : vec) (xi : nat) (z : vec) (zi : nat) : vec :=
  let z1 := loop n (fun i z =>
    upd z (zi + i)%nat ((z (zi + i)%nat - fsum i (fun r => A (ai + i)%nat (aj + r)%nat * z (zi + r)%nat)) * (f1 / A (ai + i)%nat (aj + i)%nat)))
    (VECCP m x xi z zi) in
  vset z1 (zi + n) (m - n) (fun i => z1 (zi + (n + i))%nat - fsum n (fun r => A (ai + (n + i))%nat (aj + r)%nat * z1 (zi + r)%nat)).
Definition TRSV_LNN (m : nat) (A : mat) (ai aj : nat) (x : vec) (xi : nat) (z : vec) (zi : nat) : vec := TRSV_LNN_MN m m A ai aj x xi z zi.
(** z = A' x and z = A x, A lower triangular *)
Definition TRMV_LTN (m : nat) (A : mat) (ai aj : nat) (x : vec) (xi : nat) (z : vec) (zi : nat) : vec :=
  vset z zi m (fun i => fsum (m - i) (fun k => A (ai + (i + k))%nat (aj + i)%nat * x (xi + (i + k))%nat)).
Definition TRMV_LNN (m : nat) (A : mat) (ai aj : nat) (x : vec) (xi : nat) (z : vec) (zi : nat) : vec :=
  vset z zi m (fun i => fsum (S i) (fun k => A (ai + i)%nat (aj + k)%nat * x (xi + k)%nat)).
End Blas2.
