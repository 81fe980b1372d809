(** IntProofs.v -- proofs about IntModel.v. *)
From Coq Require Import ZArith Lia List Bool Arith.
From Verif Require Import Base IntModel.
Import ListNotations.

(** Sum of the first n entries (specification vocabulary). *)
Fixpoint zsum (n : nat) (f : nat -> Z) : Z :=
  match n with O => 0%Z | S k => (zsum k f + f k)%Z end.
Lemma zsum_ext n f g : (forall k, k < n -> f k = g k) -> zsum n f = zsum n g.
Proof. induction n as [|n IH]; simpl; intros H; [reflexivity|]. rewrite IH, H; auto. Qed.
Lemma zsum_add n f g : zsum n (fun k => f k + g k)%Z = (zsum n f + zsum n g)%Z.
Proof. induction n as [|n IH]; simpl; [reflexivity|]. rewrite IH. lia. Qed.
Lemma zsum_split n m f : zsum (n + m) f = (zsum n f + zsum m (fun k => f (n + k)%nat))%Z.
Proof.
  induction m as [|m IH]; simpl.
  - rewrite Nat.add_0_r. lia.
  - rewrite Nat.add_succ_r. simpl. rewrite IH. lia.
Qed.
Lemma zsum_const n c : zsum n (fun _ => c) = (Z.of_nat n * c)%Z.
Proof. induction n as [|n IH]; simpl zsum; [reflexivity|]. rewrite IH. lia. Qed.
Lemma zsum_nonneg n f : (forall k, k < n -> (0 <= f k)%Z) -> (0 <= zsum n f)%Z.
Proof.
  induction n as [|n IH]; intros H; simpl; [lia|].
  assert (0 <= zsum n f)%Z by (apply IH; intros; apply H; lia).
  assert (0 <= f n)%Z by (apply H; lia). lia.
Qed.

Lemma bget_ok {A} (a : barr A) i : i < blen a -> bget a (Z.of_nat i) = Ok (bdat a i).
Proof.
  intros H. unfold bget. destruct (Z.leb_spec 0 (Z.of_nat i)); [|lia].
  destruct (Z.ltb_spec (Z.of_nat i) (Z.of_nat (blen a))); [|lia]. rewrite Nat2Z.id. reflexivity.
Qed.
Lemma bset_ok {A} (a : barr A) i v : i < blen a ->
  bset a (Z.of_nat i) v = Ok (mkbarr (blen a) (upd (bdat a) i v)).
Proof.
  intros H. unfold bset. destruct (Z.leb_spec 0 (Z.of_nat i)); [|lia].
  destruct (Z.ltb_spec (Z.of_nat i) (Z.of_nat (blen a))); [|lia]. rewrite Nat2Z.id. reflexivity.
Qed.

Lemma zfor_ind {S} (P : nat -> S -> Prop) lo hi f (s : S) (n : nat) :
  (hi - lo)%Z = Z.of_nat n ->
  P 0 s ->
  (forall k x, k < n -> P k x -> exists y, f (lo + Z.of_nat k)%Z x = Ok y /\ P (Datatypes.S k) y) ->
  exists y, zfor lo hi f s = Ok y /\ P n y.
Proof.
  intros Hn H0 Hs. unfold zfor. rewrite Hn, Nat2Z.id.
  apply (oloop_ind P n (fun k => f (lo + Z.of_nat k)%Z)); assumption.
Qed.

(** ** Block sizes *)
Lemma block_size_spec (N N2 : nat) (bs : barr Z) :
  1 <= N2 -> N2 < blen bs ->
  exists b, part_cond_block_size (Z.of_nat N) (Z.of_nat N2) bs = Ok b /\ blen b = blen bs /\
    (forall i, i < N2 -> bdat b i = if Nat.ltb i (N mod N2) then (Z.of_nat (N / N2) + 1)%Z else Z.of_nat (N / N2)) /\
    bdat b N2 = 0%Z /\ (forall i, N2 < i -> bdat b i = bdat bs i).
Proof.
  intros H1 Hlen. unfold part_cond_block_size.
  assert (E0 : Z.eqb (Z.of_nat N2) 0 = false) by (apply Z.eqb_neq; lia). rewrite E0. cbn [andb].
  assert (Eq : Z.quot (Z.of_nat N) (Z.of_nat N2) = Z.of_nat (N / N2)).
  { rewrite Z.quot_div_nonneg by lia. rewrite Nat2Z.inj_div. reflexivity. }
  rewrite Eq.
  assert (Er : (Z.of_nat N - Z.of_nat N2 * Z.of_nat (N / N2))%Z = Z.of_nat (N mod N2)).
  { pose proof (Nat.div_mod N N2 ltac:(lia)). nia. }
  rewrite Er. rewrite Z.max_r by lia.
  pose proof (Nat.mod_upper_bound N N2 ltac:(lia)) as Hr.
  destruct (zfor_ind (fun j b => blen b = blen bs /\
      (forall i, i < j -> bdat b i = (Z.of_nat (N / N2) + 1)%Z) /\ (forall i, j <= i -> bdat b i = bdat bs i))
      0 (Z.of_nat (N mod N2)) (fun ii b => bset b ii (Z.of_nat (N / N2) + 1)%Z) bs (N mod N2))
    as [b1 [E1 [L1 [A1 B1]]]].
  - lia.
  - repeat split; auto. intros; lia.
  - intros k x Hk [L [A B]]. rewrite Z.add_0_l. rewrite bset_ok by lia.
    eexists; split; [reflexivity|]. cbn [blen bdat]. split; [exact L|]. split.
    + intros i Hi. destruct (Nat.eq_dec i k) as [->|Hne]; [apply upd_same|]. rewrite upd_other by assumption. apply A. lia.
    + intros i Hi. rewrite upd_other by lia. apply B. lia.
  - rewrite E1. cbn [obind].
    destruct (zfor_ind (fun j b => blen b = blen bs /\
        (forall i, i < N mod N2 -> bdat b i = (Z.of_nat (N / N2) + 1)%Z) /\
        (forall i, N mod N2 <= i -> i < N mod N2 + j -> bdat b i = Z.of_nat (N / N2)) /\
        (forall i, N mod N2 + j <= i -> bdat b i = bdat bs i))
      (Z.of_nat (N mod N2)) (Z.of_nat N2) (fun ii b => bset b ii (Z.of_nat (N / N2))) b1 (N2 - N mod N2))
    as [b2 [E2 [L2 [A2 [B2 C2]]]]].
    + lia.
    + split; [exact L1|]. split; [exact A1|]. split; [intros; lia|]. intros i Hi. apply B1. lia.
    + intros k x Hk [L [A [B C]]]. rewrite <- Nat2Z.inj_add. rewrite bset_ok by lia.
      eexists; split; [reflexivity|]. cbn [blen bdat]. split; [exact L|]. split; [|split].
      * intros i Hi. rewrite upd_other by lia. apply A. lia.
      * intros i Hi1 Hi2. destruct (Nat.eq_dec i (N mod N2 + k)) as [->|Hne]; [apply upd_same|].
        rewrite upd_other by assumption. apply B; lia.
      * intros i Hi. rewrite upd_other by lia. apply C. lia.
    + rewrite E2. cbn [obind]. rewrite bset_ok by lia. eexists; split; [reflexivity|]. cbn [blen bdat].
      split; [exact L2|]. split; [|split].
      * intros i Hi. rewrite upd_other by lia. destruct (Nat.ltb_spec i (N mod N2)); [apply A2; lia|apply B2; lia].
      * apply upd_same.
      * intros i Hi. rewrite upd_other by lia. apply C2. lia.
Qed.

Lemma block_sum N N2 : 1 <= N2 ->
  zsum N2 (fun i => if Nat.ltb i (N mod N2) then (Z.of_nat (N / N2) + 1)%Z else Z.of_nat (N / N2)) = Z.of_nat N.
Proof.
  intros H1. pose proof (Nat.mod_upper_bound N N2 ltac:(lia)) as Hr.
  pose proof (Nat.div_mod N N2 ltac:(lia)) as Hd.
  replace N2 with (N mod N2 + (N2 - N mod N2)) at 1 by lia.
  rewrite zsum_split.
  rewrite (zsum_ext (N mod N2) _ (fun _ => (Z.of_nat (N / N2) + 1)%Z)).
  2:{ intros k Hk. destruct (Nat.ltb_spec k (N mod N2)); [reflexivity|lia]. }
  rewrite (zsum_ext (N2 - N mod N2) _ (fun _ => Z.of_nat (N / N2))).
  2:{ intros k Hk. destruct (Nat.ltb_spec (N mod N2 + k) (N mod N2)); [lia|reflexivity]. }
  rewrite !zsum_const. nia.
Qed.

(** ** Partial condensing dimensions *)
Lemma pc_block_spec (src : barr sdim) (t c : nat) :
  t + c < blen src ->
  exists s, pc_block src (Z.of_nat t) (Z.of_nat c + 1) = Ok s /\
    s_nx s = s_nx (bdat src t) /\ s_nbx s = s_nbx (bdat src t) /\
    s_nu s = zsum (S c) (fun j => s_nu (bdat src (t + j))) /\
    s_nbu s = zsum (S c) (fun j => s_nbu (bdat src (t + j))) /\
    s_nb s = (s_nb (bdat src t) + zsum c (fun j => s_nbu (bdat src (t + S j))))%Z /\
    s_ng s = (s_ng (bdat src t) + zsum c (fun j => s_ng (bdat src (t + S j)) + s_nbx (bdat src (t + S j)))%Z)%Z /\
    s_ns s = zsum (S c) (fun j => s_ns (bdat src (t + j))).
Proof.
  intros H. unfold pc_block. rewrite bget_ok by lia. cbn [obind].
  destruct (zfor_ind (fun k s =>
    s_nx s = s_nx (bdat src t) /\ s_nbx s = s_nbx (bdat src t) /\
    s_nu s = zsum (S k) (fun j => s_nu (bdat src (t + j))) /\
    s_nbu s = zsum (S k) (fun j => s_nbu (bdat src (t + j))) /\
    s_nb s = (s_nb (bdat src t) + zsum k (fun j => s_nbu (bdat src (t + S j))))%Z /\
    s_ng s = (s_ng (bdat src t) + zsum k (fun j => s_ng (bdat src (t + S j)) + s_nbx (bdat src (t + S j)))%Z)%Z /\
    s_ns s = zsum (S k) (fun j => s_ns (bdat src (t + j))))
    1 (Z.of_nat c + 1)
    (fun jj a => let! s := bget src (Z.of_nat t + jj)%Z in Ok (pc_acc a s)) (bdat src t) c) as [s [E I]].
  - lia.
  - cbn [zsum]. rewrite Nat.add_0_r. repeat split; lia.
  - intros k x Hk (I1&I2&I3&I4&I5&I6&I7).
    replace (Z.of_nat t + (1 + Z.of_nat k))%Z with (Z.of_nat (t + S k)) by lia.
    rewrite bget_ok by lia. cbn [obind]. eexists; split; [reflexivity|].
    unfold pc_acc; cbn [s_nx s_nu s_nb s_nbx s_nbu s_ng s_ns].
    rewrite I1, I2, I3, I4, I5, I6, I7. cbn [zsum]. repeat split; try lia.
  - exists s. split; [exact E|exact I].
Qed.

(** Total number of inequality constraints of a stage. *)
Definition s_ineq (s : sdim) : Z := (s_nb s + s_ng s)%Z.

Definition conserved (s : sdim) (src : nat -> sdim) (t c : nat) : Prop :=
    s_nx s = s_nx (src t) /\ s_nbx s = s_nbx (src t) /\
    s_nu s = zsum c (fun j => s_nu (src (t + j))) /\
    s_nbu s = zsum c (fun j => s_nbu (src (t + j))) /\
    s_ns s = zsum c (fun j => s_ns (src (t + j))) /\
    s_ineq s = zsum c (fun j => s_ineq (src (t + j))) /\
    s_nb s = (s_nbx s + s_nbu s)%Z.

Lemma pc_block_conserved (src : barr sdim) (t c : nat) :
  (forall i, i < blen src -> s_nb (bdat src i) = (s_nbx (bdat src i) + s_nbu (bdat src i))%Z) ->
  1 <= c -> t + c <= blen src ->
  exists s, pc_block src (Z.of_nat t) (Z.of_nat c) = Ok s /\ conserved s (bdat src) t c.
Proof.
  intros Hnb Hc Hlen.
  destruct (pc_block_spec src t (c - 1) ltac:(lia)) as [s [E (I1&I2&I3&I4&I5&I6&I7)]].
  replace (Z.of_nat (c - 1) + 1)%Z with (Z.of_nat c) in E by lia.
  replace (S (c - 1)) with (1 + (c - 1)) in * by lia.
  exists s. split; [exact E|].
  assert (Hc' : c = 1 + (c - 1)) by lia.
  unfold conserved. rewrite Hc'. repeat split; try assumption.
  - unfold s_ineq. rewrite I5, I6. rewrite zsum_split. cbn [zsum]. rewrite Nat.add_0_r.
    rewrite (zsum_ext (c - 1) (fun k => (s_nb (bdat src (t + (1 + k))) + s_ng (bdat src (t + (1 + k))))%Z)
      (fun k => (s_nbu (bdat src (t + S k)) + (s_ng (bdat src (t + S k)) + s_nbx (bdat src (t + S k))))%Z)).
    + rewrite (zsum_add (c - 1) (fun k => s_nbu (bdat src (t + S k)))). lia.
    + intros k Hk. replace (t + (1 + k)) with (t + S k) by lia. rewrite Hnb by lia. lia.
  - rewrite I5, I2, I4. rewrite zsum_split. cbn [zsum]. rewrite Nat.add_0_r.
    rewrite Hnb by lia. change (fun k => s_nbu (bdat src (t + (1 + k)))) with (fun k => s_nbu (bdat src (t + S k))). lia.
Qed.

Definition zstart (bs : nat -> nat) (k : nat) : nat := nsum k bs.

Lemma part_cond_dim_spec (N N2 : nat) (src dst : barr sdim) (bs : barr Z) (bsn : nat -> nat) :
  blen src = N + 1 -> blen dst = N2 + 1 -> blen bs = N2 + 1 ->
  (forall i, i <= N2 -> bdat bs i = Z.of_nat (bsn i)) ->
  (forall i, i < N2 -> 1 <= bsn i) -> nsum (N2 + 1) bsn = N ->
  (forall i, i <= N -> s_nb (bdat src i) = (s_nbx (bdat src i) + s_nbu (bdat src i))%Z) ->
  exists d, part_cond_dim (Z.of_nat N2) src bs dst = Ok d /\ blen d = N2 + 1 /\
    (forall k, k < N2 -> conserved (bdat d k) (bdat src) (nsum k bsn) (bsn k)) /\
    conserved (bdat d N2) (bdat src) (nsum N2 bsn) (bsn N2 + 1).
Proof.
  intros Ls Ld Lb Hb Hpos Hsum Hnb. unfold part_cond_dim.
  destruct (zfor_ind (fun k (st : barr sdim * Z) => blen (fst st) = N2 + 1 /\ snd st = Z.of_nat (nsum k bsn) /\
      forall j, j < k -> conserved (bdat (fst st) j) (bdat src) (nsum j bsn) (bsn j))
    0 (Z.of_nat N2) (fun ii st =>
       let '(d, N_tmp) := st in
       let! b := bget bs ii in
       let! s := pc_block src N_tmp b in
       let! d' := bset d ii s in
       Ok (d', (N_tmp + b)%Z)) (dst, 0%Z) N2) as [[d nt] [E [L [T I]]]].
  - lia.
  - cbn. repeat split; auto; intros; lia.
  - intros k [d nt] Hk [L [T I]]. cbn [fst snd] in *. rewrite Z.add_0_l. rewrite bget_ok by lia. cbn [obind].
    rewrite Hb by lia. subst nt.
    assert (Hle : nsum (S k) bsn <= nsum (N2 + 1) bsn) by (apply nsum_mono; lia). cbn [nsum] in Hle.
    destruct (pc_block_conserved src (nsum k bsn) (bsn k)) as [s [Es Cs]].
    { intros i Hi. apply Hnb. lia. } { apply Hpos; lia. } { rewrite Ls. lia. }
    rewrite Es. cbn [obind]. rewrite bset_ok by lia. cbn [obind].
    eexists; split; [reflexivity|]. cbn [fst snd blen bdat nsum]. split; [exact L|]. split; [lia|].
    intros j Hj. destruct (Nat.eq_dec j k) as [->|Hne]; [rewrite upd_same; exact Cs|].
    rewrite upd_other by assumption. apply I. lia.
  - rewrite E. cbn [obind fst snd] in *. rewrite bget_ok by lia. cbn [obind]. rewrite Hb by lia. subst nt.
    replace (N2 + 1) with (S N2) in Hsum by lia. cbn [nsum] in Hsum.
    destruct (pc_block_conserved src (nsum N2 bsn) (bsn N2 + 1)) as [s [Es Cs]].
    { intros i Hi. apply Hnb. lia. } { lia. } { rewrite Ls. lia. }
    rewrite Nat2Z.inj_add in Es. change (Z.of_nat 1) with 1%Z in Es. rewrite Es. cbn [obind].
    rewrite bset_ok by lia. eexists; split; [reflexivity|]. cbn [blen bdat]. split; [exact L|]. split.
    + intros k Hk. rewrite upd_other by lia. apply I. exact Hk.
    + rewrite upd_same. exact Cs.
Qed.

Lemma zsum_blocks (f : nat -> Z) (bs : nat -> nat) n :
  zsum n (fun k => zsum (bs k) (fun j => f (nsum k bs + j))) = zsum (nsum n bs) f.
Proof.
  induction n as [|n IH]; cbn [zsum nsum]; [reflexivity|]. rewrite IH, zsum_split. reflexivity.
Qed.

Lemma conserve_total (proj : sdim -> Z) (N N2 : nat) (d src : nat -> sdim) (bsn : nat -> nat) :
  nsum (N2 + 1) bsn = N ->
  (forall k, k < N2 -> proj (d k) = zsum (bsn k) (fun j => proj (src (nsum k bsn + j)))) ->
  proj (d N2) = zsum (bsn N2 + 1) (fun j => proj (src (nsum N2 bsn + j))) ->
  zsum (N2 + 1) (fun k => proj (d k)) = zsum (N + 1) (fun i => proj (src i)).
Proof.
  intros Hs H1 H2. replace (N2 + 1) with (S N2) in * by lia. cbn [zsum nsum] in *.
  rewrite (zsum_ext N2 _ _ H1), H2.
  rewrite (zsum_blocks (fun i => proj (src i)) bsn N2).
  rewrite <- zsum_split. f_equal. lia.
Qed.

(** ** Full condensing dimensions *)
Lemma cond_dim_spec (N : nat) (src : barr sdim) :
  blen src = N + 1 ->
  (forall i, i <= N -> s_nb (bdat src i) = (s_nbx (bdat src i) + s_nbu (bdat src i))%Z) ->
  exists d, cond_dim (Z.of_nat N) src = Ok d /\
    d_nv d = (s_nx (bdat src 0) + zsum (N + 1) (fun i => s_nu (bdat src i)))%Z /\
    d_ne d = 0%Z /\
    d_nb d = (s_nbx (bdat src 0) + zsum (N + 1) (fun i => s_nbu (bdat src i)))%Z /\
    (d_nb d + d_ng d)%Z = zsum (N + 1) (fun i => s_ineq (bdat src i)) /\
    d_ns d = zsum (N + 1) (fun i => s_ns (bdat src i)).
Proof.
  intros L Hnb. unfold cond_dim. change 0%Z with (Z.of_nat 0) at 1. rewrite bget_ok by lia. cbn [obind].
  match goal with |- context [zfor 1 _ ?f ?s] =>
  destruct (zfor_ind (fun k d =>
    d_nv d = (s_nx (bdat src 0) + zsum (S k) (fun i => s_nu (bdat src i)))%Z /\
    d_ne d = 0%Z /\
    d_nb d = (s_nbx (bdat src 0) + zsum (S k) (fun i => s_nbu (bdat src i)))%Z /\
    (d_nb d + d_ng d)%Z = zsum (S k) (fun i => s_ineq (bdat src i)) /\
    d_ns d = zsum (S k) (fun i => s_ns (bdat src i)))
    1 (Z.of_nat N + 1) f s N) as [d [E I]] end.
  - lia.
  - cbn [d_nv d_ne d_nb d_ng d_ns zsum]. unfold s_ineq. rewrite Hnb by lia. repeat split; lia.
  - intros k x Hk (I1&I2&I3&I4&I5). replace (1 + Z.of_nat k)%Z with (Z.of_nat (S k)) by lia.
    rewrite bget_ok by lia. cbn [obind]. eexists; split; [reflexivity|].
    cbn [d_nv d_ne d_nb d_ng d_ns]. remember (S k) as sk. cbn [zsum]. subst sk.
    rewrite <- I4, I1, I2, I3, I5. unfold s_ineq. rewrite Hnb by lia. repeat split; lia.
  - exists d. rewrite Nat.add_1_r. split; [exact E|exact I].
Qed.
