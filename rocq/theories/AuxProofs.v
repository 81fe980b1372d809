(** AuxProofs.v -- proofs about AuxModel.v. *)
From Coq Require Import ZArith Lia List Bool Arith String Ascii.
From Verif Require Import Base AuxModel.
Import ListNotations.

Lemma rd_mid (p : list Z) c q : rd (p ++ c :: q) (List.length p) = Ok c.
Proof. unfold rd. rewrite nth_error_app2 by lia. rewrite Nat.sub_diag. reflexivity. Qed.

Lemma neq_ltb c d : c <> d -> orb (Z.ltb d c) (Z.ltb c d) = true.
Proof. intros H. destruct (Z.ltb_spec d c); [reflexivity|]. destruct (Z.ltb_spec c d); [reflexivity|]. lia. Qed.

(** Main induction: the two strings share the prefix p already scanned. *)
Lemma strcmp_from_spec a : forall b p ra rb fuel,
  Forall (fun c => c <> 0%Z) a -> Forall (fun c => c <> 0%Z) b ->
  List.length a < fuel ->
  strcmp_from fuel (p ++ a ++ 0%Z :: ra) (p ++ b ++ 0%Z :: rb) (List.length p)
    = Some (Ok (if list_eq_dec Z.eq_dec a b then 1%Z else 0%Z)).
Proof.
  induction a as [|c a IH]; intros b p ra rb fuel Ha Hb Hf;
    (destruct fuel as [|fuel]; [simpl in Hf; lia|]); cbn [strcmp_from app].
  - rewrite rd_mid. destruct b as [|d b]; cbn [app]; rewrite rd_mid.
    + reflexivity.
    + inversion Hb as [|? ? Hd Hb']; subst.
      destruct (Z.eqb_spec 0 d); [congruence|]. cbn [andb].
      rewrite neq_ltb by congruence.
      destruct (list_eq_dec Z.eq_dec [] (d :: b)); [discriminate|reflexivity].
  - rewrite rd_mid. inversion Ha as [|? ? Hc Ha']; subst.
    destruct b as [|d b]; cbn [app]; rewrite rd_mid.
    + destruct (Z.eqb_spec c 0); [congruence|]. cbn [andb].
      rewrite neq_ltb by congruence.
      destruct (list_eq_dec Z.eq_dec (c :: a) []); [discriminate|reflexivity].
    + inversion Hb as [|? ? Hd Hb']; subst.
      destruct (Z.eqb_spec c d) as [->|Hcd].
      * destruct (Z.eqb_spec d 0); [congruence|]. cbn [andb negb].
        replace (p ++ d :: a ++ 0%Z :: ra) with ((p ++ [d]) ++ a ++ 0%Z :: ra)
          by (rewrite <- app_assoc; reflexivity).
        replace (p ++ d :: b ++ 0%Z :: rb) with ((p ++ [d]) ++ b ++ 0%Z :: rb)
          by (rewrite <- app_assoc; reflexivity).
        replace (S (List.length p)) with (List.length (p ++ [d]))
          by (rewrite app_length; simpl; lia).
        rewrite IH; try assumption; [|simpl in Hf; lia].
        destruct (list_eq_dec Z.eq_dec a b) as [E0|N];
          destruct (list_eq_dec Z.eq_dec (d :: a) (d :: b)) as [E|N']; try reflexivity; congruence.
      * cbn [andb]. rewrite neq_ltb by congruence.
        destruct (list_eq_dec Z.eq_dec (c :: a) (d :: b)); [congruence|reflexivity].
Qed.

Lemma strcmp_spec a b ra rb :
  Forall (fun c => c <> 0%Z) a -> Forall (fun c => c <> 0%Z) b ->
  hpipm_strcmp_c (a ++ 0%Z :: ra) (b ++ 0%Z :: rb)
    = Some (Ok (if list_eq_dec Z.eq_dec a b then 1%Z else 0%Z)).
Proof.
  intros Ha Hb. unfold hpipm_strcmp_c.
  apply (strcmp_from_spec a b [] ra rb); try assumption.
  rewrite app_length. simpl. lia.
Qed.

(** No NUL inside a Coq string. *)
Fixpoint nonul (s : string) : bool :=
  match s with EmptyString => true | String c r => negb (Nat.eqb (nat_of_ascii c) 0) && nonul r end.

Lemma nonul_Forall s : nonul s = true -> Forall (fun c => c <> 0%Z) (bytes_of s).
Proof.
  induction s as [|c s IH]; cbn [nonul bytes_of]; intros H; [constructor|].
  apply andb_true_iff in H. destruct H as [H1 H2].
  constructor; [|auto]. apply negb_true_iff in H1. apply Nat.eqb_neq in H1. lia.
Qed.

Lemma bytes_of_inj a b : bytes_of a = bytes_of b -> a = b.
Proof.
  revert b. induction a as [|c a IH]; destruct b as [|d b]; cbn [bytes_of]; intros H; try discriminate; [reflexivity|].
  injection H as H1 H2. apply Nat2Z.inj in H1.
  apply (f_equal ascii_of_nat) in H1. rewrite !ascii_nat_embedding in H1. subst.
  f_equal. auto.
Qed.

Lemma hpipm_strcmp_eqb a b :
  nonul a = true -> nonul b = true -> hpipm_strcmp a b = String.eqb a b.
Proof.
  intros Ha Hb. unfold hpipm_strcmp, cstr.
  rewrite strcmp_spec by (apply nonul_Forall; assumption).
  destruct (list_eq_dec Z.eq_dec (bytes_of a) (bytes_of b)) as [E|N].
  - apply bytes_of_inj in E. subst. symmetry. apply String.eqb_refl.
  - symmetry. apply String.eqb_neq. congruence.
Qed.

(** ** zero memset *)

(** "m2 is m1 with bytes [0,n) cleared" *)
Definition cleared (n : nat) (m1 m2 : bytes) : Prop :=
  forall k, m2 k = if Nat.ltb k n then 0%Z else m1 k.

Lemma cleared_blk m0 m off len :
  cleared off m0 m -> cleared (off + len) m0 (vset m off len (fun _ => 0%Z)).
Proof.
  intros H k.
  destruct (Nat.ltb_spec k (off + len)) as [H1|H1].
  - destruct (Nat.lt_ge_cases k off).
    + rewrite vset_out by lia. rewrite H. destruct (Nat.ltb_spec k off); [reflexivity|lia].
    + rewrite vset_in' by lia. reflexivity.
  - rewrite vset_out by lia. rewrite H. destruct (Nat.ltb_spec k off); [lia|reflexivity].
Qed.

Lemma cleared_store m0 m ii jj :
  jj = ii + 1 -> cleared (8 * ii) m0 m -> cleared (8 * jj) m0 (store_double0 m ii).
Proof. intros -> H. replace (8 * (ii + 1)) with (8 * ii + 8) by lia. apply cleared_blk. assumption. Qed.
Lemma cleared_store4 m0 m ii jj :
  jj = ii + 4 -> cleared (8 * ii) m0 m -> cleared (8 * jj) m0 (store_4double0 m ii).
Proof. intros -> H. replace (8 * (ii + 4)) with (8 * ii + 32) by lia. apply cleared_blk. assumption. Qed.

Lemma memset_unrolled_spec m0 m8 : forall fuel ii m,
  7 < m8 -> ii <= m8 -> m8 - ii < fuel -> cleared (8 * ii) m0 m ->
  exists jj m', memset_unrolled fuel m8 (ii, m) = Some (jj, m') /\ jj <= m8 /\ cleared (8 * jj) m0 m'.
Proof.
  induction fuel as [|fuel IH]; intros ii m H7 Hle Hf Hc; [lia|].
  cbn [memset_unrolled].
  destruct (Nat.ltb_spec ii (m8 - 7)) as [Hlt|Hge].
  - apply IH; try lia.
    apply (loop_ind (fun k mm => cleared (8 * (ii + k)) m0 mm)).
    + rewrite Nat.add_0_r. assumption.
    + intros k x _ Hx. apply cleared_store; [lia|assumption].
  - exists ii, m. auto.
Qed.

Lemma memset_unrolled_avx_spec m0 m8 : forall fuel ii m,
  7 < m8 -> ii <= m8 -> m8 - ii < fuel -> cleared (8 * ii) m0 m ->
  exists jj m', memset_unrolled_avx fuel m8 (ii, m) = Some (jj, m') /\ jj <= m8 /\ cleared (8 * jj) m0 m'.
Proof.
  induction fuel as [|fuel IH]; intros ii m H7 Hle Hf Hc; [lia|].
  cbn [memset_unrolled_avx].
  destruct (Nat.ltb_spec ii (m8 - 7)) as [Hlt|Hge].
  - apply IH; try lia.
    apply cleared_store4; [lia|]. apply (cleared_store4 _ _ (ii + 0)); [lia|].
    rewrite Nat.add_0_r. assumption.
  - exists ii, m. auto.
Qed.

Lemma memset_doubles_spec m0 m8 : forall fuel ii m,
  ii <= m8 -> m8 - ii < fuel -> cleared (8 * ii) m0 m ->
  exists m', memset_doubles fuel m8 (ii, m) = Some (m8, m') /\ cleared (8 * m8) m0 m'.
Proof.
  induction fuel as [|fuel IH]; intros ii m Hle Hf Hc; [lia|].
  cbn [memset_doubles].
  destruct (Nat.ltb_spec ii m8) as [Hlt|Hge].
  - apply IH; try lia. apply cleared_store; [reflexivity|assumption].
  - replace ii with m8 in * by lia. exists m. auto.
Qed.

Lemma zero_memset_spec avx memsize m :
  exists m', hpipm_zero_memset avx memsize m = Some m' /\ cleared memsize m m'.
Proof.
  unfold hpipm_zero_memset.
  assert (Hdiv : memsize = 8 * (memsize / 8) + memsize mod 8) by (apply Nat.div_mod; lia).
  remember (memsize / 8) as m8 eqn:E8. remember (memsize mod 8) as r8 eqn:Er. clear E8 Er.
  assert (H0 : cleared (8 * 0) m m) by (intros k; simpl; reflexivity).
  assert (Hst : exists ii m1,
     (if Nat.ltb 7 m8 then (if avx then memset_unrolled_avx else memset_unrolled) (S m8) m8 (0, m) else Some (0, m)) = Some (ii, m1)
     /\ ii <= m8 /\ cleared (8 * ii) m m1).
  { destruct (Nat.ltb_spec 7 m8) as [H7|H7].
    - destruct avx.
      + apply memset_unrolled_avx_spec; try lia; assumption.
      + apply memset_unrolled_spec; try lia; assumption.
    - exists 0, m. repeat split; try assumption. lia. }
  destruct Hst as [ii [m1 [-> [Hii Hc1]]]].
  destruct (memset_doubles_spec m m8 (S m8) ii m1) as [m2 [-> Hc2]]; try lia; try assumption.
  eexists; split; [reflexivity|].
  intros k. rewrite loop_upd_vset with (g := fun _ => 0%Z).
  pose proof (cleared_blk m m2 (8 * m8) r8 Hc2 k) as HH.
  rewrite <- Hdiv in HH. exact HH.
Qed.
