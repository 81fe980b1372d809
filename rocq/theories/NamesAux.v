(** NamesAux.v -- lemmas on strcmp chains (field-name dispatch); not model code. *)
From Coq Require Import ZArith Bool Arith List String.
From Verif Require Import Base AuxModel AuxProofs.
Import ListNotations.
Section Chain.
Context {T : Type}.
Fixpoint chain (is : string -> bool) (l : list (string * T)) : option T :=
  match l with [] => None | (s, t) :: r => if is s then Some t else chain is r end.
Fixpoint nodupb (l : list string) : bool := match l with [] => true | s :: r => negb (existsb (String.eqb s) r) && nodupb r end.
Lemma chain_In n (l : list (string * T)) t : nonul n = true -> forallb nonul (map fst l) = true -> nodupb (map fst l) = true ->
  chain (hpipm_strcmp n) l = Some t <-> In (n, t) l.
Proof.
  intros Hn. induction l as [|[s u] r IH]; cbn [chain map fst forallb nodupb]; intros H1 H2; [split; [discriminate|intros []]|].
  apply andb_true_iff in H1 as [Hs H1]. apply andb_true_iff in H2 as [H2' H2]. rewrite hpipm_strcmp_eqb by assumption.
  specialize (IH H1 H2). destruct (String.eqb_spec n s) as [->|Hne].
  - split; [intros E; injection E as ->; left; reflexivity|]. intros [E|E]; [injection E as ->; reflexivity|]. exfalso.
    apply (in_map fst) in E. cbn in E. apply negb_true_iff in H2'. assert (existsb (String.eqb s) (map fst r) = true); [|congruence].
    apply existsb_exists. exists s. split; [exact E|apply String.eqb_refl].
  - rewrite IH. split; [intros H; right; exact H|]. intros [E|E]; [injection E as -> ->; congruence|exact E].
Qed.
End Chain.
Lemma orb_if {X} (a b : bool) (x y : X) : (if orb a b then x else y) = if a then x else if b then x else y.
Proof. destruct a; reflexivity. Qed.
