(** ArithF.v -- the arithmetic the C code runs on, as a class: exact reals (RArith) and IEEE binary64 (FArith). *)
From Coq Require Import ZArith Bool Reals Lra.
From Coq Require Import Floats.SpecFloat.

(** REAL operations used by the library.  [lit n d] is the C literal with value n/d. *)
Class Arith (F : Type) := mkArith {
  fadd : F -> F -> F; fsub : F -> F -> F; fmul : F -> F -> F; fdiv : F -> F -> F; fopp : F -> F;
  fsqrt : F -> F; fabs : F -> F;
  fltb : F -> F -> bool; fleb : F -> F -> bool; feqb : F -> F -> bool;
  lit : Z -> Z -> F }.

Declare Scope F_scope.
Delimit Scope F_scope with F.
Infix "+" := fadd : F_scope.
Infix "-" := fsub : F_scope.
Infix "*" := fmul : F_scope.
Infix "/" := fdiv : F_scope.
Notation "- x" := (fopp x) : F_scope.
Infix "<?" := fltb : F_scope.
Infix "<=?" := fleb : F_scope.
Infix "=?" := feqb : F_scope.
Notation "x >? y" := (fltb y x) (at level 70, only parsing) : F_scope.
Notation "x >=? y" := (fleb y x) (at level 70, only parsing) : F_scope.
Notation f0 := (lit 0 1).
Notation f1 := (lit 1 1).

(** Exact real arithmetic. *)
Definition Rltb (x y : R) : bool := if Rlt_dec x y then true else false.
Definition Rleb (x y : R) : bool := if Rle_dec x y then true else false.
Definition Reqb (x y : R) : bool := if Req_EM_T x y then true else false.
#[global] Instance RArith : Arith R := {|
  fadd := Rplus; fsub := Rminus; fmul := Rmult; fdiv := Rdiv; fopp := Ropp; fsqrt := sqrt; fabs := Rabs;
  fltb := Rltb; fleb := Rleb; feqb := Reqb; lit n d := (IZR n / IZR d)%R |}.

Lemma Rltb_spec x y : reflect (x < y)%R (Rltb x y).
Proof. unfold Rltb. destruct (Rlt_dec x y); constructor; assumption. Qed.
Lemma Rleb_spec x y : reflect (x <= y)%R (Rleb x y).
Proof. unfold Rleb. destruct (Rle_dec x y); constructor; assumption. Qed.
Lemma Reqb_spec x y : reflect (x = y)%R (Reqb x y).
Proof. unfold Reqb. destruct (Req_EM_T x y); constructor; assumption. Qed.

(** IEEE binary64, round to nearest even, NaN and infinities included: the standard library's reference
    implementation (Coq.Floats.SpecFloat), no primitive floats. *)
Definition sf_prec : Z := 53.
Definition sf_emax : Z := 1024.
Definition sf_of_Z (z : Z) : spec_float := binary_normalize sf_prec sf_emax z 0 false.
#[global] Instance FArith : Arith spec_float := {|
  fadd := SFadd sf_prec sf_emax; fsub := SFsub sf_prec sf_emax; fmul := SFmul sf_prec sf_emax; fdiv := SFdiv sf_prec sf_emax;
  fopp := SFopp; fsqrt := SFsqrt sf_prec sf_emax; fabs := SFabs;
  fltb := SFltb; fleb := SFleb; feqb := SFeqb;
  lit n d := SFdiv sf_prec sf_emax (sf_of_Z n) (sf_of_Z d) |}.

(** Unfold the class over the reals. *)
Ltac rsimp := cbn [fadd fsub fmul fdiv fopp fsqrt fabs fltb fleb feqb lit RArith] in *.
Lemma R_lit01 : (0 / 1 = 0)%R. Proof. lra. Qed.
Lemma R_lit11 : (1 / 1 = 1)%R. Proof. lra. Qed.
