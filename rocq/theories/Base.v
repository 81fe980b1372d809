(** Base.v -- loops, arithmetic interface and functional arrays used by every model file. *)
From Coq Require Import ZArith Lia List Bool Arith.
Import ListNotations.

(** C loop  for(ii=0; ii<n; ii++) s = f(ii,s)  (the loop shape used all over /repo). *)
Fixpoint loop {S : Type} (n : nat) (f : nat -> S -> S) (s : S) : S :=
  match n with
  | O => s
  | Datatypes.S k => f k (loop k f s)
  end.

(** Loop invariant rule. *)
Lemma loop_ind {S} (P : nat -> S -> Prop) n f (s : S) :
  P 0 s ->
  (forall k x, k < n -> P k x -> P (Datatypes.S k) (f k x)) ->
  P n (loop n f s).
Proof.
  intros H0 Hs. induction n as [|n IH]; simpl; [exact H0|].
  apply Hs; [lia|]. apply IH. intros k x Hk. apply Hs. lia.
Qed.

Lemma loop_ext {S} n (f g : nat -> S -> S) s :
  (forall k x, k < n -> f k x = g k x) -> loop n f s = loop n g s.
Proof.
  intros H. induction n as [|n IH]; simpl; [reflexivity|].
  rewrite IH; [|intros; apply H; lia]. apply H. lia.
Qed.

(** Relational rule: two loops in lock step. *)
Lemma loop_rel {S T} (P : nat -> S -> T -> Prop) n f g (s : S) (t : T) :
  P 0 s t ->
  (forall k x y, k < n -> P k x y -> P (Datatypes.S k) (f k x) (g k y)) ->
  P n (loop n f s) (loop n g t).
Proof.
  intros H0 Hs. induction n as [|n IH]; simpl; [exact H0|].
  apply Hs; [lia|]. apply IH. intros k x y Hk. apply Hs. lia.
Qed.

(** Functional array update  a[i] = v. *)
Definition upd {A : Type} (a : nat -> A) (i : nat) (v : A) : nat -> A :=
  fun k => if Nat.eqb k i then v else a k.

Lemma upd_same {A} (a : nat -> A) i v : upd a i v i = v.
Proof. unfold upd. rewrite Nat.eqb_refl. reflexivity. Qed.
Lemma upd_other {A} (a : nat -> A) i v k : k <> i -> upd a i v k = a k.
Proof. unfold upd. intros H. destruct (Nat.eqb_spec k i); congruence. Qed.

(** Filling a prefix: for(i<n) a[off+i] = g(i). *)
Definition vset {A : Type} (a : nat -> A) (off n : nat) (g : nat -> A) : nat -> A :=
  fun k => if andb (Nat.leb off k) (Nat.ltb k (off + n)) then g (k - off) else a k.

Lemma vset_in {A} (a : nat -> A) off n g i : i < n -> vset a off n g (off + i) = g i.
Proof.
  intros H. unfold vset.
  destruct (Nat.leb_spec off (off + i)); [|lia].
  destruct (Nat.ltb_spec (off + i) (off + n)); [|lia].
  simpl. f_equal. lia.
Qed.
Lemma vset_in' {A} (a : nat -> A) off n g k : off <= k -> k < off + n -> vset a off n g k = g (k - off).
Proof.
  intros H1 H2. unfold vset.
  destruct (Nat.leb_spec off k); [|lia].
  destruct (Nat.ltb_spec k (off + n)); [|lia]. reflexivity.
Qed.
Lemma vset_out {A} (a : nat -> A) off n g k : k < off \/ off + n <= k -> vset a off n g k = a k.
Proof.
  intros H. unfold vset.
  destruct (Nat.leb_spec off k); destruct (Nat.ltb_spec k (off + n)); simpl; try reflexivity; lia.
Qed.

(** The element-by-element C loop is the block update. *)
Lemma loop_upd_vset {A} (a : nat -> A) off n g k :
  loop n (fun i b => upd b (off + i) (g i)) a k = vset a off n g k.
Proof.
  revert k. induction n as [|n IH]; intros k; simpl.
  - rewrite vset_out; [reflexivity|lia].
  - destruct (Nat.eq_dec k (off + n)) as [->|Hne].
    + rewrite upd_same, vset_in; [reflexivity|lia].
    + rewrite upd_other by assumption. rewrite IH.
      destruct (Nat.lt_ge_cases k off) as [H|H].
      * rewrite !vset_out; [reflexivity|lia|lia].
      * destruct (Nat.lt_ge_cases k (off + n)) as [H2|H2].
        -- rewrite !vset_in'; try lia; reflexivity.
        -- rewrite !vset_out; [reflexivity|lia|lia].
Qed.

(** Outcomes of code that may hit exit(1) or undefined behaviour. *)
Inductive outcome (A : Type) : Type :=
| Ok (a : A)        (* normal return *)
| Exit              (* exit(1) *)
| UB.               (* undefined behaviour: out-of-bounds access, division by zero, ... *)
Arguments Ok {A} a.
Arguments Exit {A}.
Arguments UB {A}.

Definition obind {A B} (x : outcome A) (f : A -> outcome B) : outcome B :=
  match x with Ok a => f a | Exit => Exit | UB => UB end.
Notation "'let!' x := e1 'in' e2" := (obind e1 (fun x => e2)) (at level 200, x pattern, e1 at level 100, e2 at level 200).

(** Loop whose body may fail. *)
Fixpoint oloop {S : Type} (n : nat) (f : nat -> S -> outcome S) (s : S) : outcome S :=
  match n with
  | O => Ok s
  | Datatypes.S k => obind (oloop k f s) (f k)
  end.

Lemma oloop_ind {S} (P : nat -> S -> Prop) n f (s : S) :
  P 0 s ->
  (forall k x, k < n -> P k x -> exists y, f k x = Ok y /\ P (Datatypes.S k) y) ->
  exists y, oloop n f s = Ok y /\ P n y.
Proof.
  intros H0 Hs. induction n as [|n IH]; simpl; [eauto|].
  destruct IH as [y [Hy HP]]. { intros k x Hk. apply Hs. lia. }
  rewrite Hy. simpl. apply Hs; [lia|assumption].
Qed.

(** Sum of the first n entries of an integer array. *)
Fixpoint nsum (n : nat) (f : nat -> nat) : nat :=
  match n with O => 0 | S k => nsum k f + f k end.
Lemma nsum_ext n f g : (forall k, k < n -> f k = g k) -> nsum n f = nsum n g.
Proof. induction n as [|n IH]; simpl; intros H; [reflexivity|]. rewrite IH, H; auto. Qed.
Lemma nsum_add n f g : nsum n (fun k => f k + g k) = nsum n f + nsum n g.
Proof. induction n as [|n IH]; simpl; [reflexivity|]. rewrite IH. lia. Qed.
Lemma nsum_mul n c f : nsum n (fun k => c * f k) = c * nsum n f.
Proof. induction n as [|n IH]; simpl; [lia|]. rewrite IH. lia. Qed.
Lemma nsum_split n m f : nsum (n + m) f = nsum n f + nsum m (fun k => f (n + k)).
Proof.
  induction m as [|m IH]; simpl.
  - rewrite Nat.add_0_r. lia.
  - rewrite Nat.add_succ_r. simpl. rewrite IH. lia.
Qed.
Lemma nsum_le n f g : (forall k, k < n -> f k <= g k) -> nsum n f <= nsum n g.
Proof.
  induction n as [|n IH]; simpl; intros H; [lia|].
  assert (nsum n f <= nsum n g) by (apply IH; intros; apply H; lia).
  assert (f n <= g n) by (apply H; lia). lia.
Qed.
Lemma nsum_mono n m f : n <= m -> nsum n f <= nsum m f.
Proof.
  intros H. replace m with (n + (m - n)) by lia. rewrite nsum_split. lia.
Qed.
