(** AuxProps.v -- property theorems C04, C05 (statements only; proofs in AuxProofs.v). *)
From Coq Require Import ZArith List Arith String.
From Verif Require Import Base AuxModel AuxProofs.
Import ListNotations.

(** C04. For all NUL-terminated strings (any readable bytes [ra],[rb] after the terminator, possibly none):
    the comparison terminates, never reads outside the objects, and returns 1 iff the strings are equal. *)
Theorem C04_strcmp_exact (a b ra rb : list Z) :
  Forall (fun c => c <> 0%Z) a -> Forall (fun c => c <> 0%Z) b ->
  exists r, hpipm_strcmp_c (a ++ 0%Z :: ra) (b ++ 0%Z :: rb) = Some (Ok r) /\
            (r = 1%Z <-> a = b) /\ (r = 0%Z <-> a <> b).
Proof.
  intros Ha Hb. exists (if list_eq_dec Z.eq_dec a b then 1%Z else 0%Z).
  split; [exact (strcmp_spec a b ra rb Ha Hb)|].
  destruct (list_eq_dec Z.eq_dec a b); split; split; intros; congruence.
Qed.
Print Assumptions C04_strcmp_exact.

(** C04, as used by the dispatchers: the test selects the branch iff the field name is the literal. *)
Theorem C04_dispatch_exact (field lit : string) :
  nonul field = true -> nonul lit = true ->
  hpipm_strcmp field lit = true <-> field = lit.
Proof.
  intros Hf Hl. rewrite (hpipm_strcmp_eqb field lit Hf Hl). apply String.eqb_eq.
Qed.
Print Assumptions C04_dispatch_exact.

Example C04_prefix_case :
  hpipm_strcmp "lb" "lbx" = false /\ hpipm_strcmp "lbx" "lb" = false /\ hpipm_strcmp "lbx" "lbx" = true
  /\ nonul "lbx" = true.
Proof. repeat split. Qed.

(** An unterminated buffer is read out of bounds: the contract "NUL-terminated" is needed. *)
Example C04_unterminated_is_UB : hpipm_strcmp_c [1%Z; 2%Z] [1%Z; 2%Z] = Some UB.
Proof. reflexivity. Qed.

(** C05. For every size and content, both the scalar and the AVX variant clear exactly the first
    [memsize] bytes and leave every other byte as it was. *)
Theorem C05_zero_memset_exact (avx : bool) (memsize : nat) (m : nat -> Z) :
  exists m', hpipm_zero_memset avx memsize m = Some m' /\
    (forall k, k < memsize -> m' k = 0%Z) /\ (forall k, memsize <= k -> m' k = m k).
Proof.
  destruct (zero_memset_spec avx memsize m) as [m' [H C]]. exists m'. split; [exact H|].
  split; intros k Hk; rewrite (C k); destruct (Nat.ltb_spec k memsize); try reflexivity.
  - exfalso; apply (Nat.lt_irrefl k); eapply Nat.lt_le_trans; eassumption.
  - exfalso; apply (Nat.lt_irrefl k); eapply Nat.lt_le_trans; eassumption.
Qed.
Print Assumptions C05_zero_memset_exact.

Example C05_nontrivial : exists m', hpipm_zero_memset false 75 (fun _ => 7%Z) = Some m' /\ m' 74 = 0%Z /\ m' 75 = 7%Z /\ m' 10 = 0%Z.
Proof. eexists. split; [reflexivity|]. repeat split. Qed.
