(** DimProofs.v -- proofs about DimModel.v. *)
From Coq Require Import ZArith Lia List Bool Arith String.
From Verif Require Import Base AuxModel AuxProofs DimModel.
Import ListNotations.
Open Scope string_scope.

(** Value of array f at index s. *)
Definition rdv (d : dimobj) (f : dfield) (s : nat) : Z := dmem d (fidx f * (dcap d + 1) + s).

Lemma fidx_inj f g : fidx f = fidx g -> f = g.
Proof. destruct f, g; simpl; intros H; try discriminate; reflexivity. Qed.
Lemma fidx_lt f : fidx f < 10.
Proof. destruct f; simpl; lia. Qed.
Definition dfield_eq_dec (f g : dfield) : {f = g} + {f <> g}.
Proof. decide equality. Defined.

Lemma dread_ok d f s : s <= dcap d -> dread d f (Z.of_nat s) = Ok (rdv d f s).
Proof.
  intros H. unfold dread, daddr, rdv.
  pose proof (fidx_lt f) as Hf.
  assert (E : (Z.of_nat (fidx f) * (Z.of_nat (dcap d) + 1) + Z.of_nat s)%Z = Z.of_nat (fidx f * (dcap d + 1) + s)) by lia.
  rewrite E. rewrite Nat2Z.id.
  assert (B : fidx f * (dcap d + 1) + s < 10 * (dcap d + 1)) by nia.
  destruct (Z.leb_spec 0 (Z.of_nat (fidx f * (dcap d + 1) + s))); [|lia].
  destruct (Z.ltb_spec (Z.of_nat (fidx f * (dcap d + 1) + s)) (10 * (Z.of_nat (dcap d) + 1))); [reflexivity|lia].
Qed.

Lemma dwrite_ok d f s v : s <= dcap d ->
  exists d', dwrite d f (Z.of_nat s) v = Ok d' /\ dN d' = dN d /\ dcap d' = dcap d /\
    forall g k, k <= dcap d -> rdv d' g k = if andb (if dfield_eq_dec g f then true else false) (Nat.eqb k s) then v else rdv d g k.
Proof.
  intros H. unfold dwrite, daddr.
  pose proof (fidx_lt f) as Hf.
  assert (E : (Z.of_nat (fidx f) * (Z.of_nat (dcap d) + 1) + Z.of_nat s)%Z = Z.of_nat (fidx f * (dcap d + 1) + s)) by lia.
  rewrite E. rewrite Nat2Z.id.
  assert (B : fidx f * (dcap d + 1) + s < 10 * (dcap d + 1)) by nia.
  destruct (Z.leb_spec 0 (Z.of_nat (fidx f * (dcap d + 1) + s))); [|lia].
  destruct (Z.ltb_spec (Z.of_nat (fidx f * (dcap d + 1) + s)) (10 * (Z.of_nat (dcap d) + 1))); [|lia].
  simpl. eexists; split; [reflexivity|]. simpl. split; [reflexivity|]. split; [reflexivity|].
  intros g k Hk. unfold rdv; simpl. unfold upd.
  destruct (Nat.eqb_spec (fidx g * (dcap d + 1) + k) (fidx f * (dcap d + 1) + s)) as [Heq|Hne].
  - assert (Hfg : fidx g = fidx f) by nia. apply fidx_inj in Hfg. subst g.
    assert (k = s) by lia. subst k.
    destruct (dfield_eq_dec f f); [|congruence]. rewrite Nat.eqb_refl. reflexivity.
  - destruct (dfield_eq_dec g f) as [->|Hgf]; simpl; [|reflexivity].
    destruct (Nat.eqb_spec k s) as [->|]; [congruence|reflexivity].
Qed.

(** Frame-friendly package: "d' is d with f[s] = v". *)
Definition written (d : dimobj) (f : dfield) (s : nat) (v : Z) (d' : dimobj) : Prop :=
  dN d' = dN d /\ dcap d' = dcap d /\ rdv d' f s = v /\
  forall g k, k <= dcap d -> (g, k) <> (f, s) -> rdv d' g k = rdv d g k.

Lemma dwrite_written d f s v : s <= dcap d ->
  exists d', dwrite d f (Z.of_nat s) v = Ok d' /\ written d f s v d'.
Proof.
  intros H. destruct (dwrite_ok d f s v H) as [d' [E [HN [HC R]]]].
  exists d'. split; [exact E|]. split; [exact HN|]. split; [exact HC|]. split.
  - rewrite R by assumption. destruct (dfield_eq_dec f f); [|congruence]. rewrite Nat.eqb_refl. reflexivity.
  - intros g k Hk Hne. rewrite R by assumption.
    destruct (dfield_eq_dec g f) as [->|]; simpl; [|reflexivity].
    destruct (Nat.eqb_spec k s) as [->|]; [congruence|reflexivity].
Qed.

(** ** String dispatch *)
Definition settable : list (string * dfield) :=
  [("nx", Fnx); ("nu", Fnu); ("nbx", Fnbx); ("nbu", Fnbu); ("ng", Fng); ("ns", Fns);
   ("nbxe", Fnbxe); ("nbue", Fnbue); ("nge", Fnge)].

Lemma strcmp_self n : nonul n = true -> hpipm_strcmp n n = true.
Proof. intros H. rewrite hpipm_strcmp_eqb by assumption. apply String.eqb_refl. Qed.

Lemma dim_get_known d name f s : In (name, f) settable -> dim_get d name s = dread d f s.
Proof.
  intros H. simpl in H. unfold dim_get.
  repeat destruct H as [H|H]; try (injection H as <- <-; reflexivity). contradiction.
Qed.

Definition is_nbpart (f : dfield) : bool := match f with Fnbx | Fnbu => true | _ => false end.

Lemma dim_set_known d name f s v : In (name, f) settable ->
  dim_set name s v d = if is_nbpart f then dim_set_nb_part f s v d else dim_set_plain f s v d.
Proof.
  intros H. simpl in H. unfold dim_set.
  repeat destruct H as [H|H]; try (injection H as <- <-; reflexivity). contradiction.
Qed.

Lemma settable_not_nb name f : In (name, f) settable -> f <> Fnb.
Proof. simpl. intros H. repeat destruct H as [H|H]; try (injection H as <- <-; discriminate). contradiction. Qed.

Lemma settable_inj n m f : In (n, f) settable -> In (m, f) settable -> n = m.
Proof.
  simpl. intros H1 H2.
  repeat destruct H1 as [H1|H1]; try contradiction; injection H1 as <- <-;
  repeat destruct H2 as [H2|H2]; try contradiction; try discriminate; injection H2 as <-; reflexivity.
Qed.
Lemma settable_fun n f g : In (n, f) settable -> In (n, g) settable -> f = g.
Proof.
  simpl. intros H1 H2.
  repeat destruct H1 as [H1|H1]; try contradiction; injection H1 as <- <-;
  repeat destruct H2 as [H2|H2]; try contradiction; try discriminate; injection H2 as <-; reflexivity.
Qed.

Lemma unknown_exit name : nonul name = true -> ~ In name (map fst settable) ->
  (forall s v d, dim_set name s v d = Exit) /\ (forall d s, dim_get d name s = Exit).
Proof.
  intros Hn Hu.
  assert (E : forall lit, nonul lit = true -> In lit (map fst settable) -> hpipm_strcmp name lit = false).
  { intros lit Hl Hin. rewrite hpipm_strcmp_eqb by assumption. apply String.eqb_neq. congruence. }
  unfold dim_set, dim_get.
  rewrite !E by (first [reflexivity | simpl; tauto]). split; reflexivity.
Qed.

(** ** One set *)
Lemma dim_set_spec d name f s v :
  In (name, f) settable -> s <= dcap d ->
  (forall k, k <= dcap d -> rdv d Fnb k = (rdv d Fnbx k + rdv d Fnbu k)%Z \/ True) ->
  exists d', dim_set name (Z.of_nat s) v d = Ok d' /\ dN d' = dN d /\ dcap d' = dcap d /\
    rdv d' f s = v /\
    (forall g k, k <= dcap d -> g <> Fnb -> (g, k) <> (f, s) -> rdv d' g k = rdv d g k) /\
    (forall k, k <= dcap d -> k <> s -> rdv d' Fnb k = rdv d Fnb k) /\
    rdv d' Fnb s = (if is_nbpart f then (rdv d' Fnbx s + rdv d' Fnbu s)%Z else rdv d Fnb s).
Proof.
  intros Hin Hs _. rewrite (dim_set_known d name f (Z.of_nat s) v Hin).
  pose proof (settable_not_nb _ _ Hin) as Hnb.
  destruct (is_nbpart f) eqn:Ep.
  - unfold dim_set_nb_part.
    destruct (dwrite_written d f s v Hs) as [d1 [E1 [N1 [C1 [V1 F1]]]]]. rewrite E1. cbn [obind].
    rewrite !dread_ok by lia. cbn [obind].
    destruct (dwrite_written d1 Fnb s (rdv d1 Fnbx s + rdv d1 Fnbu s)) as [d2 [E2 [N2 [C2 [V2 F2]]]]]; [lia|].
    rewrite E2. exists d2. split; [reflexivity|]. split; [congruence|]. split; [congruence|].
    assert (G : forall g k, k <= dcap d -> g <> Fnb -> rdv d2 g k = rdv d1 g k)
      by (intros; apply F2; [lia|congruence]).
    split; [rewrite G by (try lia; assumption); exact V1|].
    split; [intros g k Hk Hg Hne; rewrite G by assumption; apply F1; assumption|].
    split.
    + intros k Hk Hks. rewrite F2 by (try lia; congruence). apply F1; [lia|congruence].
    + rewrite V2. rewrite !G by (try lia; discriminate). reflexivity.
  - unfold dim_set_plain.
    destruct (dwrite_written d f s v Hs) as [d1 [E1 [N1 [C1 [V1 F1]]]]]. rewrite E1.
    exists d1. split; [reflexivity|]. split; [assumption|]. split; [assumption|]. split; [assumption|].
    split; [intros g k Hk Hg Hne; apply F1; assumption|].
    split; [intros; apply F1; [lia|congruence]|]. apply F1; [lia|congruence].
Qed.

(** ** Histories of sets *)
Record setop := mkset { so_name : string; so_stage : Z; so_value : Z }.
Definition valid_set (N : nat) (o : setop) : Prop :=
  In (so_name o) (map fst settable) /\ (0 <= so_stage o <= Z.of_nat N)%Z.
Fixpoint run_sets (ops : list setop) (d : dimobj) : outcome dimobj :=
  match ops with
  | [] => Ok d
  | o :: r => let! d' := dim_set (so_name o) (so_stage o) (so_value o) d in run_sets r d'
  end.
(** Specification: the last value set for (name,stage) in the history, else dflt. *)
Fixpoint last_value (ops : list setop) (name : string) (stage : Z) (dflt : Z) : Z :=
  match ops with
  | [] => dflt
  | o :: r => last_value r name stage
                (if andb (String.eqb (so_name o) name) (Z.eqb (so_stage o) stage) then so_value o else dflt)
  end.

Lemma in_settable name : In name (map fst settable) -> exists f, In (name, f) settable.
Proof. intros H. apply in_map_iff in H. destruct H as [[n f] [<- H]]. exists f. exact H. Qed.

Lemma run_sets_spec ops : forall d,
  Forall (valid_set (dcap d)) ops ->
  exists d', run_sets ops d = Ok d' /\ dN d' = dN d /\ dcap d' = dcap d /\
    (forall name f s, In (name, f) settable -> s <= dcap d ->
        rdv d' f s = last_value ops name (Z.of_nat s) (rdv d f s)) /\
    ((forall s, s <= dcap d -> rdv d Fnb s = (rdv d Fnbx s + rdv d Fnbu s)%Z) ->
     (forall s, s <= dcap d -> rdv d' Fnb s = (rdv d' Fnbx s + rdv d' Fnbu s)%Z)).
Proof.
  induction ops as [|o ops IH]; intros d HV; cbn [run_sets].
  - exists d. repeat split; auto.
  - inversion HV as [|? ? [Hn Hst] HV']; subst.
    destruct (in_settable _ Hn) as [f Hf].
    assert (Es : so_stage o = Z.of_nat (Z.to_nat (so_stage o))) by lia.
    assert (Hle : Z.to_nat (so_stage o) <= dcap d) by lia.
    destruct (dim_set_spec d (so_name o) f (Z.to_nat (so_stage o)) (so_value o) Hf Hle ltac:(auto))
      as [d1 [E1 [N1 [C1 [V1 [F1 [B1 B2]]]]]]].
    rewrite <- Es in E1. rewrite E1. cbn [obind].
    destruct (IH d1) as [d2 [E2 [N2 [C2 [V2 I2]]]]]; [rewrite C1; exact HV'|].
    exists d2. split; [exact E2|]. split; [congruence|]. split; [congruence|]. split.
    + intros name g s Hg Hs. rewrite (V2 name g s Hg) by lia. cbn [last_value]. f_equal.
      destruct (String.eqb_spec (so_name o) name) as [En|En]; cbn [andb].
      * subst name. assert (g = f) by (eapply settable_fun; eassumption). subst g.
        destruct (Z.eqb_spec (so_stage o) (Z.of_nat s)) as [Ez|Ez].
        -- replace s with (Z.to_nat (so_stage o)) by lia. exact V1.
        -- apply F1; [assumption|eapply settable_not_nb; eassumption|].
           intros C. injection C as C. lia.
      * apply F1; [assumption|eapply settable_not_nb; eassumption|].
        intros C. injection C as C _. subst g. apply En. eapply settable_inj; eassumption.
    + intros Hinv. rewrite C1 in I2. apply I2. intros s Hs.
      destruct (Nat.eq_dec s (Z.to_nat (so_stage o))) as [->|Hne].
      * rewrite B2. destruct (is_nbpart f) eqn:Ep; [reflexivity|].
        rewrite Hinv by assumption.
        rewrite !F1; try assumption; try discriminate; try reflexivity.
        -- intros C; injection C as C; subst; discriminate.
        -- intros C; injection C as C; subst; discriminate.
      * rewrite B1 by assumption. rewrite Hinv by assumption.
        rewrite !F1; try assumption; try discriminate; try reflexivity; intros C; injection C as _ C; congruence.
Qed.

Lemma create_zero N junk f s : s <= N -> rdv (dim_create N junk) f s = 0%Z.
Proof.
  intros H. unfold rdv, dim_create. cbn [dcap dmem].
  assert (E : dim_memsize N / 4 = 10 * (N + 1)).
  { unfold dim_memsize.
    replace (10 * (N + 1) * 4 + 8 - 1) with (7 + (5 * (N + 1)) * 8) by lia.
    rewrite Nat.div_add by lia. simpl (7 / 8).
    replace ((0 + 5 * (N + 1)) * 8) with ((10 * (N + 1)) * 4) by lia. apply Nat.div_mul. lia. }
  rewrite E. pose proof (fidx_lt f). rewrite vset_in'; [reflexivity|lia|nia].
Qed.

(** ** Copies *)
Lemma dim_fill_spec n f g d :
  n <= dcap d -> (forall k, k <= n -> exists v, g (Z.of_nat k) = Ok v) ->
  exists d', dim_fill (Z.of_nat n) f g d = Ok d' /\ dN d' = dN d /\ dcap d' = dcap d /\
    (forall k, k <= n -> g (Z.of_nat k) = Ok (rdv d' f k)) /\
    (forall h k, k <= dcap d -> (h <> f \/ n < k) -> rdv d' h k = rdv d h k).
Proof.
  intros Hn Hg. unfold dim_fill.
  replace (Z.to_nat (Z.of_nat n + 1)) with (S n) by lia.
  destruct (oloop_ind (fun j d' => dN d' = dN d /\ dcap d' = dcap d /\
      (forall k, k < j -> g (Z.of_nat k) = Ok (rdv d' f k)) /\
      (forall h k, k <= dcap d -> (h <> f \/ j <= k) -> rdv d' h k = rdv d h k))
      (S n) (fun k d' => let! v := g (Z.of_nat k) in dwrite d' f (Z.of_nat k) v) d) as [d' [E [HN [HC [H1 H2]]]]].
  - repeat split; auto. intros k Hk; lia.
  - intros k x Hk [HN [HC [H1 H2]]].
    destruct (Hg k ltac:(lia)) as [v Ev]. rewrite Ev. cbn [obind].
    destruct (dwrite_written x f k v) as [y [Ey [Ny [Cy [Vy Fy]]]]]; [lia|].
    exists y. split; [exact Ey|]. split; [congruence|]. split; [congruence|]. split.
    + intros j Hj. destruct (Nat.eq_dec j k) as [->|Hne]; [congruence|].
      rewrite Fy by (try lia; congruence). apply H1. lia.
    + intros h j Hj Hor. rewrite Fy.
      * apply H2; [assumption|]. destruct Hor; [left; assumption|right; lia].
      * lia.
      * intros C; injection C as -> ->. destruct Hor; [congruence|lia].
  - exists d'. split; [exact E|]. split; [assumption|]. split; [assumption|]. split.
    + intros k Hk. apply H1. lia.
    + intros h k Hk Hor. apply H2; [assumption|]. destruct Hor; [left; assumption|right; lia].
Qed.

Lemma dim_copy_fields_spec n src : n <= dcap src -> forall fs d, n <= dcap d -> NoDup fs ->
  exists d', dim_copy_fields (Z.of_nat n) fs src d = Ok d' /\ dN d' = dN d /\ dcap d' = dcap d /\
    (forall f k, In f fs -> k <= n -> rdv d' f k = rdv src f k) /\
    (forall f k, k <= dcap d -> (~ In f fs \/ n < k) -> rdv d' f k = rdv d f k).
Proof.
  intros Hsrc. induction fs as [|f fs IH]; intros d Hd Hnd; cbn [dim_copy_fields].
  - exists d. repeat split; auto. intros f k [].
  - inversion Hnd as [|? ? Hnin Hnd']; subst.
    destruct (dim_fill_spec n f (fun s => dread src f s) d Hd) as [d1 [E1 [N1 [C1 [V1 F1]]]]].
    { intros k Hk. rewrite dread_ok by lia. eauto. }
    rewrite E1. cbn [obind].
    destruct (IH d1) as [d2 [E2 [N2 [C2 [V2 F2]]]]]; [lia|assumption|].
    exists d2. split; [exact E2|]. split; [congruence|]. split; [congruence|]. split.
    + intros g k [<-|Hin] Hk.
      * rewrite F2 by (try lia; left; assumption).
        specialize (V1 k Hk). rewrite dread_ok in V1 by lia. congruence.
      * apply V2; assumption.
    + intros g k Hk Hor. rewrite F2.
      * apply F1; [assumption|]. destruct Hor as [H|H]; [left; intros ->; apply H; left; reflexivity|right; assumption].
      * lia.
      * destruct Hor as [H|H]; [left; intros C; apply H; right; assumption|right; assumption].
Qed.

Lemma all_fields_nodup : NoDup all_fields.
Proof. unfold all_fields. repeat constructor; simpl; intuition discriminate. Qed.
Lemma all_fields_all f : In f all_fields.
Proof. destruct f; simpl; tauto. Qed.

Lemma dim_set_all_spec n nx nu nbx nbu ng ns d :
  dN d = Z.of_nat n -> n <= dcap d ->
  exists d', dim_set_all nx nu nbx nbu ng ns d = Ok d' /\ dN d' = dN d /\ dcap d' = dcap d /\
   (forall k, k <= n ->
      rdv d' Fnx k = nx (Z.of_nat k) /\ rdv d' Fnu k = nu (Z.of_nat k) /\
      rdv d' Fnb k = (nbx (Z.of_nat k) + nbu (Z.of_nat k))%Z /\
      rdv d' Fnbx k = nbx (Z.of_nat k) /\ rdv d' Fnbu k = nbu (Z.of_nat k) /\
      rdv d' Fng k = ng (Z.of_nat k) /\ rdv d' Fns k = ns (Z.of_nat k)) /\
   (forall f k, k <= dcap d -> f = Fnbxe \/ f = Fnbue \/ f = Fnge -> rdv d' f k = rdv d f k).
Proof.
  intros HN Hle. unfold dim_set_all. rewrite HN.
  destruct (dim_fill_spec n Fnx (fun s => Ok (nx s)) d Hle ltac:(eauto)) as [d1 [-> [N1 [C1 [V1 F1]]]]]. cbn [obind].
  destruct (dim_fill_spec n Fnu (fun s => Ok (nu s)) d1 ltac:(lia) ltac:(eauto)) as [d2 [-> [N2 [C2 [V2 F2]]]]]. cbn [obind].
  destruct (dim_fill_spec n Fnb (fun s => Ok (nbx s + nbu s)%Z) d2 ltac:(lia) ltac:(eauto)) as [d3 [-> [N3 [C3 [V3 F3]]]]]. cbn [obind].
  destruct (dim_fill_spec n Fnbx (fun s => Ok (nbx s)) d3 ltac:(lia) ltac:(eauto)) as [d4 [-> [N4 [C4 [V4 F4]]]]]. cbn [obind].
  destruct (dim_fill_spec n Fnbu (fun s => Ok (nbu s)) d4 ltac:(lia) ltac:(eauto)) as [d5 [-> [N5 [C5 [V5 F5]]]]]. cbn [obind].
  destruct (dim_fill_spec n Fng (fun s => Ok (ng s)) d5 ltac:(lia) ltac:(eauto)) as [d6 [-> [N6 [C6 [V6 F6]]]]]. cbn [obind].
  destruct (dim_fill_spec n Fns (fun s => Ok (ns s)) d6 ltac:(lia) ltac:(eauto)) as [d7 [-> [N7 [C7 [V7 F7]]]]]. cbn [obind].
  exists d7. split; [reflexivity|]. split; [congruence|]. split; [congruence|].
  assert (G1 : forall f k, k <= dcap d -> f <> Fns -> rdv d7 f k = rdv d6 f k) by (intros; apply F7; [lia|auto]).
  assert (G2 : forall f k, k <= dcap d -> f <> Fng -> rdv d6 f k = rdv d5 f k) by (intros; apply F6; [lia|auto]).
  assert (G3 : forall f k, k <= dcap d -> f <> Fnbu -> rdv d5 f k = rdv d4 f k) by (intros; apply F5; [lia|auto]).
  assert (G4 : forall f k, k <= dcap d -> f <> Fnbx -> rdv d4 f k = rdv d3 f k) by (intros; apply F4; [lia|auto]).
  assert (G5 : forall f k, k <= dcap d -> f <> Fnb -> rdv d3 f k = rdv d2 f k) by (intros; apply F3; [lia|auto]).
  assert (G6 : forall f k, k <= dcap d -> f <> Fnu -> rdv d2 f k = rdv d1 f k) by (intros; apply F2; [lia|auto]).
  split.
  - intros k Hk.
    specialize (V1 k Hk); specialize (V2 k Hk); specialize (V3 k Hk); specialize (V4 k Hk);
    specialize (V5 k Hk); specialize (V6 k Hk); specialize (V7 k Hk).
    assert (k <= dcap d) by lia.
    repeat split.
    + rewrite G1, G2, G3, G4, G5, G6 by (try assumption; discriminate). congruence.
    + rewrite G1, G2, G3, G4, G5 by (try assumption; discriminate). congruence.
    + rewrite G1, G2, G3, G4 by (try assumption; discriminate). congruence.
    + rewrite G1, G2, G3 by (try assumption; discriminate). congruence.
    + rewrite G1, G2 by (try assumption; discriminate). congruence.
    + rewrite G1 by (try assumption; discriminate). congruence.
    + congruence.
  - intros f k Hk Hf.
    assert (f <> Fns /\ f <> Fng /\ f <> Fnbu /\ f <> Fnbx /\ f <> Fnb /\ f <> Fnu /\ f <> Fnx) as (?&?&?&?&?&?&?)
      by (destruct Hf as [->|[->| ->]]; repeat split; discriminate).
    rewrite G1, G2, G3, G4, G5, G6 by assumption. apply F1; [assumption|left; assumption].
Qed.

(** ** All reachable dimension objects *)
Inductive reachable : dimobj -> Prop :=
| reach_create N junk : reachable (dim_create N junk)
| reach_set d d' name s v : reachable d -> (0 <= s <= dN d)%Z ->
    dim_set name s v d = Ok d' -> reachable d'
| reach_set_all d d' nx nu nbx nbu ng ns : reachable d ->
    dim_set_all nx nu nbx nbu ng ns d = Ok d' -> reachable d'
| reach_copy rc src d d' : reachable src -> reachable d -> dN src = dN d ->
    dim_copy_all rc src d = Ok d' -> reachable d'
| reach_deepcopy src d d' : reachable src -> reachable d -> (dN src <= Z.of_nat (dcap d))%Z ->
    dim_deepcopy src d = Ok d' -> reachable d'.

Definition nb_inv (d : dimobj) : Prop :=
  (0 <= dN d <= Z.of_nat (dcap d))%Z /\
  forall s, (Z.of_nat s <= dN d)%Z -> rdv d Fnb s = (rdv d Fnbx s + rdv d Fnbu s)%Z.

Lemma dim_set_name name s v d d' : dim_set name s v d = Ok d' -> exists f, In (name, f) settable \/
   hpipm_strcmp name (match f with Fnx => "nx" | Fnu => "nu" | Fnbx => "nbx" | Fnbu => "nbu" | Fng => "ng" | Fns => "ns" | Fnbxe => "nbxe" | Fnbue => "nbue" | _ => "nge" end) = true.
Proof.
  unfold dim_set. intros H.
  destruct (hpipm_strcmp name "nx") eqn:E1; [exists Fnx; auto|].
  destruct (hpipm_strcmp name "nu") eqn:E2; [exists Fnu; auto|].
  destruct (hpipm_strcmp name "nbx") eqn:E3; [exists Fnbx; auto|].
  destruct (hpipm_strcmp name "nbu") eqn:E4; [exists Fnbu; auto|].
  destruct (hpipm_strcmp name "ng") eqn:E5; [exists Fng; auto|].
  destruct (hpipm_strcmp name "ns") eqn:E6; [exists Fns; auto|].
  destruct (hpipm_strcmp name "nbxe") eqn:E7; [exists Fnbxe; auto|].
  destruct (hpipm_strcmp name "nbue") eqn:E8; [exists Fnbue; auto|].
  destruct (hpipm_strcmp name "nge") eqn:E9; [exists Fnge; auto|]. discriminate.
Qed.

(** Any successful dim_set does one of the nine writes (whatever the name bytes are). *)
Lemma dim_set_cases name s v d d' : dim_set name s v d = Ok d' ->
  exists f, f <> Fnb /\
    (if is_nbpart f then dim_set_nb_part f s v d else dim_set_plain f s v d) = Ok d'.
Proof.
  unfold dim_set. intros H.
  destruct (hpipm_strcmp name "nx"); [exists Fnx; split; [discriminate|exact H]|].
  destruct (hpipm_strcmp name "nu"); [exists Fnu; split; [discriminate|exact H]|].
  destruct (hpipm_strcmp name "nbx"); [exists Fnbx; split; [discriminate|exact H]|].
  destruct (hpipm_strcmp name "nbu"); [exists Fnbu; split; [discriminate|exact H]|].
  destruct (hpipm_strcmp name "ng"); [exists Fng; split; [discriminate|exact H]|].
  destruct (hpipm_strcmp name "ns"); [exists Fns; split; [discriminate|exact H]|].
  destruct (hpipm_strcmp name "nbxe"); [exists Fnbxe; split; [discriminate|exact H]|].
  destruct (hpipm_strcmp name "nbue"); [exists Fnbue; split; [discriminate|exact H]|].
  destruct (hpipm_strcmp name "nge"); [exists Fnge; split; [discriminate|exact H]|]. discriminate.
Qed.

Definition name_of (f : dfield) : string :=
  match f with Fnx => "nx" | Fnu => "nu" | Fnb => "" | Fnbx => "nbx" | Fnbu => "nbu" | Fng => "ng" | Fns => "ns"
             | Fnbxe => "nbxe" | Fnbue => "nbue" | Fnge => "nge" end.
Lemma name_of_in f : f <> Fnb -> In (name_of f, f) settable.
Proof. destruct f; simpl; intros H; try congruence; tauto. Qed.

Lemma reachable_inv d : reachable d -> nb_inv d.
Proof.
  induction 1 as [N junk|d d' name s v Hr IH Hs E|d d' nx nu nbx nbu ng ns Hr IH E
                 |rc src d d' Hs IHs Hd IHd HN E|src d d' Hs IHs Hd IHd HN E].
  - split; [simpl; lia|]. intros s Hs. simpl in Hs. rewrite !create_zero by lia. reflexivity.
  - destruct IH as [HN Hinv].
    destruct (dim_set_cases _ _ _ _ _ E) as [f [Hf E']].
    rewrite <- (dim_set_known d (name_of f) f s v (name_of_in f Hf)) in E'.
    assert (Es : s = Z.of_nat (Z.to_nat s)) by lia.
    destruct (dim_set_spec d (name_of f) f (Z.to_nat s) v (name_of_in f Hf) ltac:(lia) ltac:(auto))
      as [d1 [E1 [N1 [C1 [V1 [F1 [B1 B2]]]]]]].
    rewrite <- Es in E1. rewrite E1 in E'. injection E' as <-.
    split; [rewrite N1, C1; exact HN|]. rewrite N1. intros k Hk.
    destruct (Nat.eq_dec k (Z.to_nat s)) as [->|Hne].
    + rewrite B2. destruct (is_nbpart f) eqn:Ep; [reflexivity|].
      rewrite Hinv by lia. rewrite !F1; try reflexivity; try lia; try discriminate;
        intros C; injection C as C; subst; discriminate.
    + rewrite B1 by (try assumption; lia). rewrite Hinv by lia.
      rewrite !F1; try reflexivity; try lia; try discriminate; intros C; injection C as _ C; congruence.
  - destruct IH as [HN Hinv].
    destruct (dim_set_all_spec (Z.to_nat (dN d)) nx nu nbx nbu ng ns d ltac:(lia) ltac:(lia))
      as [d1 [E1 [N1 [C1 [V1 F1]]]]].
    rewrite E1 in E. injection E as <-. split; [rewrite N1, C1; exact HN|].
    rewrite N1. intros k Hk. destruct (V1 k ltac:(lia)) as (_&_&->&->&->&_&_). reflexivity.
  - destruct IHs as [HNs Hinvs]. destruct IHd as [HNd Hinvd].
    unfold dim_copy_all in E. rewrite HN, Z.eqb_refl in E. rewrite andb_false_r in E.
    replace (dN d) with (Z.of_nat (Z.to_nat (dN d))) in E by lia.
    destruct (dim_copy_fields_spec (Z.to_nat (dN d)) src ltac:(lia) all_fields d ltac:(lia) all_fields_nodup)
      as [d1 [E1 [N1 [C1 [V1 F1]]]]].
    rewrite E1 in E. injection E as <-. split; [rewrite N1, C1; exact HNd|].
    rewrite N1. intros k Hk. rewrite !V1 by (try apply all_fields_all; lia). apply Hinvs. lia.
  - destruct IHs as [HNs Hinvs]. destruct IHd as [HNd Hinvd].
    unfold dim_deepcopy in E.
    destruct (dim_copy_fields_spec (Z.to_nat (dN src)) src ltac:(lia) all_fields
                (mkdim (dN src) (dcap d) (dmem d)) ltac:(simpl; lia) all_fields_nodup)
      as [d1 [E1 [N1 [C1 [V1 F1]]]]].
    rewrite Z2Nat.id in E1 by lia. rewrite E1 in E. injection E as <-. simpl in N1, C1.
    split; [rewrite N1, C1; lia|].
    rewrite N1. intros k Hk. rewrite !V1 by (try apply all_fields_all; lia). apply Hinvs. lia.
Qed.
