(** SctreeProofs.v -- proofs about SctreeModel.v. *)
From Coq Require Import ZArith Lia List Bool Arith.
From Verif Require Import Base IntModel IntProofs SctreeModel.
Import ListNotations.

(** ** ipow *)
Lemma ipow_loop_spec fuel : forall result base exp,
  (0 <= exp)%Z -> (Z.to_nat exp < fuel)%nat ->
  ipow_loop fuel result base exp = Some (result * base ^ exp)%Z.
Proof.
  induction fuel as [|f IH]; intros result base exp He Hf; [lia|]. cbn [ipow_loop].
  destruct (Z.eqb_spec exp 0) as [->|Hne]; [rewrite Z.pow_0_r; f_equal; lia|].
  assert (Hd : exp = (2 * Z.shiftr exp 1 + Z.b2z (Z.odd exp))%Z).
  { rewrite Z.shiftr_div_pow2 by lia. change (2 ^ 1)%Z with 2%Z. rewrite <- Zmod_odd' || idtac.
    pose proof (Z_div_mod_eq_full exp 2) as Hm. rewrite Zmod_odd in Hm. destruct (Z.odd exp); cbn [Z.b2z]; lia. }
  assert (H0 : (0 <= Z.shiftr exp 1)%Z) by (apply Z.shiftr_nonneg; lia).
  rewrite IH; [|exact H0|destruct (Z.odd exp); cbn [Z.b2z] in Hd; lia].
  f_equal. rewrite <- Z.pow_2_r, <- Z.pow_mul_r by lia.
  rewrite Hd at 3. destruct (Z.odd exp); cbn [Z.b2z].
  - rewrite Z.pow_add_r by lia. rewrite Z.pow_1_r. ring.
  - rewrite Z.add_0_r. reflexivity.
Qed.
Lemma ipow_spec base exp : (0 <= exp)%Z -> ipow base exp = Ok (base ^ exp)%Z.
Proof. intros H. unfold ipow. rewrite ipow_loop_spec by lia. f_equal. lia. Qed.

Lemma zfor_one {S} (f : Z -> S -> outcome S) s : zfor 0 1 f s = f 0%Z s.
Proof. reflexivity. Qed.

(** ** Level structure *)
Section Tree.
Variables md Nr Nh : nat.
Hypothesis Hmd : 1 <= md.
Hypothesis HN : Nr <= Nh.

Definition W (j : nat) : nat := md ^ (Nat.min j Nr).
Definition L (s : nat) : nat := nsum s W.
Definition b (s : nat) : nat := if Nat.ltb s Nr then md else if Nat.ltb s Nh then 1 else 0.
Definition NN : nat := L (S Nh).

Lemma W_pos j : 1 <= W j.
Proof. unfold W. assert (md ^ Nat.min j Nr <> 0) by (apply Nat.pow_nonzero; lia). lia. Qed.
Lemma W_step s : s < Nh -> W (S s) = W s * b s.
Proof.
  intros H. unfold W, b. destruct (Nat.ltb_spec s Nr) as [H1|H1].
  - rewrite !Nat.min_l by lia. cbn [Nat.pow]. lia.
  - destruct (Nat.ltb_spec s Nh); [|lia]. rewrite !Nat.min_r by lia. lia.
Qed.
Lemma L_S s : L (S s) = L s + W s. Proof. reflexivity. Qed.
Lemma L_mono s t : s <= t -> L s <= L t. Proof. apply nsum_mono. Qed.
Lemma L_inj s t k : L s <= k -> k < L (S s) -> L t <= k -> k < L (S t) -> s = t.
Proof.
  intros H1 H2 H3 H4. destruct (lt_eq_lt_dec s t) as [[H|H]|H]; [|exact H|].
  - pose proof (L_mono (S s) t H). lia.
  - pose proof (L_mono (S t) s H). lia.
Qed.

Lemma geo n : 2 <= md -> (Z.of_nat md ^ Z.of_nat n - 1 = (Z.of_nat md - 1) * Z.of_nat (nsum n (fun j => (md ^ j)%nat)))%Z.
Proof.
  intros H. induction n as [|n IH].
  - simpl nsum. rewrite Z.mul_0_r. reflexivity.
  - cbn [nsum]. rewrite Nat2Z.inj_succ, Z.pow_succ_r by lia. rewrite Nat2Z.inj_add, Nat2Z.inj_pow. nia.
Qed.

Lemma NN_number : sctree_node_number (Z.of_nat md) (Z.of_nat Nr) (Z.of_nat Nh) = Ok (Z.of_nat NN).
Proof.
  unfold sctree_node_number. destruct (Z.eqb_spec (Z.of_nat md) 1) as [E|E].
  - f_equal. unfold NN, L, W. assert (md = 1) by lia. 
    rewrite (nsum_ext (S Nh) _ (fun _ => 1)) by (intros; subst md; apply Nat.pow_1_l).
    assert (Hc : forall n, nsum n (fun _ => 1) = n) by (induction n as [|n IH]; simpl; lia).
    rewrite Hc. lia.
  - rewrite !ipow_spec by lia. cbn [obind].
    destruct (Z.eqb_spec (Z.of_nat md - 1) 0) as [E2|E2]; [lia|]. f_equal.
    replace (Z.of_nat Nr + 1)%Z with (Z.of_nat (S Nr)) by lia.
    rewrite geo by lia. rewrite Z.mul_comm with (n := (Z.of_nat md - 1)%Z). rewrite Z.quot_mul by exact E2.
    unfold NN, L. replace (S Nh) with (S Nr + (Nh - Nr)) by lia. rewrite nsum_split.
    rewrite (nsum_ext (S Nr) W (fun j => md ^ j)).
    2:{ intros k Hk. unfold W. rewrite Nat.min_l by lia. reflexivity. }
    rewrite (nsum_ext (Nh - Nr) (fun k => W (S Nr + k)) (fun _ => md ^ Nr)).
    2:{ intros k Hk. unfold W. rewrite Nat.min_r by lia. reflexivity. }
    assert (Hc : forall n c, nsum n (fun _ => c) = n * c) by (induction n as [|n IH]; intros; simpl; [lia|rewrite IH; lia]).
    rewrite Hc. rewrite <- Nat2Z.inj_pow. rewrite Nat2Z.inj_add, Nat2Z.inj_mul. nia.
Qed.

(** ** One node's children *)
Definition nd (s : ststate) (k : nat) : node := bdat (st_root s) k.
Definition kd (s : ststate) (j : nat) : Z := bdat (st_kids s) j.

Lemma children (nk : nat) (s0 : ststate) (idx stage : Z) (rf : Z -> Z) (ik0 : nat) :
  st_idxkid s0 = Z.of_nat ik0 -> ik0 + nk < blen (st_root s0) -> ik0 + nk <= blen (st_kids s0) ->
  exists s, zfor 0 (Z.of_nat nk) (fun ii s' => sct_child idx stage (Z.of_nat ik0) ii (rf ii) s') s0 = Ok s /\
    blen (st_root s) = blen (st_root s0) /\ blen (st_kids s) = blen (st_kids s0) /\
    st_tkids s = st_tkids s0 /\ st_idxkid s = Z.of_nat (ik0 + nk) /\
    (forall k, k <= ik0 -> nd s k = nd s0 k) /\
    (forall i, i < nk -> let c := nd s (ik0 + 1 + i) in
        n_idx c = Z.of_nat (ik0 + 1 + i) /\ n_stage c = (stage + 1)%Z /\ n_dad c = idx /\
        n_real c = rf (Z.of_nat i) /\ n_idxkid c = Z.of_nat i) /\
    (forall j, j < ik0 -> kd s j = kd s0 j) /\
    (forall i, i < nk -> kd s (ik0 + i) = Z.of_nat (ik0 + i + 1)).
Proof.
  intros Hik Hr Hk.
  apply (zfor_ind (fun m s => 
    blen (st_root s) = blen (st_root s0) /\ blen (st_kids s) = blen (st_kids s0) /\
    st_tkids s = st_tkids s0 /\ st_idxkid s = Z.of_nat (ik0 + m) /\
    (forall k, k <= ik0 -> nd s k = nd s0 k) /\
    (forall i, i < m -> let c := nd s (ik0 + 1 + i) in
        n_idx c = Z.of_nat (ik0 + 1 + i) /\ n_stage c = (stage + 1)%Z /\ n_dad c = idx /\
        n_real c = rf (Z.of_nat i) /\ n_idxkid c = Z.of_nat i) /\
    (forall j, j < ik0 -> kd s j = kd s0 j) /\
    (forall i, i < m -> kd s (ik0 + i) = Z.of_nat (ik0 + i + 1)))); [lia| |].
  - rewrite Nat.add_0_r. repeat split; auto; intros; lia.
  - intros m s Hm (I1&I2&I3&I4&I5&I6&I7&I8). rewrite Z.add_0_l. unfold sct_child. rewrite I4.
    replace (Z.of_nat ik0 + Z.of_nat m)%Z with (Z.of_nat (ik0 + m)) by lia.
    rewrite bset_ok by lia. cbn [obind].
    replace (Z.of_nat (ik0 + m) + 1)%Z with (Z.of_nat (ik0 + 1 + m)) by lia.
    rewrite bget_ok by lia. cbn [obind]. rewrite bset_ok by lia. cbn [obind].
    eexists; split; [reflexivity|]. unfold nd, kd in *.
    cbn [st_root st_kids st_idxkid st_tkids blen bdat].
    split; [exact I1|]. split; [exact I2|]. split; [exact I3|]. split; [f_equal; lia|].
    split; [|split; [|split]].
    + intros k Hk'. rewrite upd_other by lia. apply I5. exact Hk'.
    + intros i Hi. destruct (Nat.eq_dec i m) as [->|Hne].
      * rewrite upd_same. cbn. repeat split.
      * rewrite upd_other by lia. apply I6. lia.
    + intros j Hj. rewrite upd_other by lia. apply I7. exact Hj.
    + intros i Hi. destruct (Nat.eq_dec i m) as [->|Hne].
      * rewrite upd_same. f_equal. lia.
      * rewrite upd_other by lia. apply I8. lia.
Qed.

(** ** Invariant after processing the nodes below idx *)
Record Inv (idx : nat) (s : ststate) : Prop := {
  iv_ik : exists ik l, st_idxkid s = Z.of_nat ik /\ st_tkids s = Z.of_nat ik /\ l <= Nh /\
            L l <= idx /\ idx <= L (S l) /\ ik + 1 = L (S l) + (idx - L l) * b l /\ 
            (forall k, k <= ik -> n_idx (nd s k) = Z.of_nat k /\ exists lv, lv <= Nh /\ L lv <= k /\ k < L (S lv) /\ n_stage (nd s k) = Z.of_nat lv) /\
            (forall k, 1 <= k -> k <= ik -> exists d i : nat, d < k /\ d < idx /\
                 n_dad (nd s k) = Z.of_nat d /\ n_idxkid (nd s k) = Z.of_nat i /\
                 (Z.of_nat i < n_nkids (nd s d))%Z /\ n_kids (nd s d) = (Z.of_nat k - 1 - Z.of_nat i)%Z /\
                 n_stage (nd s k) = (n_stage (nd s d) + 1)%Z /\
                 n_real (nd s k) = (if Z.ltb 1 (n_nkids (nd s d)) then Z.of_nat i else n_real (nd s d))) /\
            (forall j, j < ik -> kd s j = Z.of_nat (j + 1)) /\
            (forall d, d < idx -> n_nkids (nd s d) = Z.of_nat (b (Z.to_nat (n_stage (nd s d)))) /\
               ((0 < n_nkids (nd s d))%Z -> exists off : nat, n_kids (nd s d) = Z.of_nat off /\
                  (Z.of_nat off + n_nkids (nd s d) <= Z.of_nat ik)%Z /\
                  forall i : nat, (Z.of_nat i < n_nkids (nd s d))%Z ->
                     n_dad (nd s (off + i + 1)) = Z.of_nat d /\ n_idxkid (nd s (off + i + 1)) = Z.of_nat i));
  iv_root : n_stage (nd s 0) = 0%Z /\ n_dad (nd s 0) = (-1)%Z /\ n_real (nd s 0) = (-1)%Z /\ n_idxkid (nd s 0) = 0%Z;
  iv_lr : blen (st_root s) = NN;
  iv_lk : blen (st_kids s) = NN
}.

Lemma body_step idx s : idx < NN -> Inv idx s ->
  exists s', sct_body (Z.of_nat md) (Z.of_nat Nr) (Z.of_nat Nh) (Z.of_nat idx) s = Ok s' /\ Inv (S idx) s'.
Proof.
  intros Hidx [HI Hroot Hlr Hlk].
  destruct HI as (ik&l&Eik&Etk&Hl&Hl1&Hl2&Hik&Hlev&Hdad&Hkids&Hproc).
  (* the level of idx itself *)
  assert (HI : exists l, l <= Nh /\ L l <= idx /\ idx < L (S l) /\ ik + 1 = L (S l) + (idx - L l) * b l).
  { destruct (Nat.eq_dec idx (L (S l))) as [E|E].
    - assert (Hlt : l < Nh). { destruct (Nat.eq_dec l Nh) as [->|]; [unfold NN in Hidx; lia|lia]. }
      exists (S l). split; [lia|]. split; [lia|]. pose proof (W_pos (S l)). split; [rewrite (L_S (S l)); lia|].
      rewrite Hik, E, Nat.sub_diag. rewrite (L_S (S l)), (W_step l Hlt). rewrite (L_S l).
      replace (L l + W l - L l) with (W l) by lia. lia.
    - exists l. repeat split; lia. }
  clear l Hl Hl1 Hl2 Hik. destruct HI as (l&Hl&Hl1&Hl2&Hik).
  assert (Hle : idx <= ik) by lia.
  destruct (Hlev idx Hle) as [Eidx [lv [Hlv [Ha [Hb Est]]]]].
  assert (lv = l) by (eapply L_inj; eassumption). subst lv.
  unfold sct_body. rewrite bget_ok by lia. cbn [obind]. fold (nd s idx). rewrite Est.
  set (nk := b l).
  assert (Enk : (if Z.ltb (Z.of_nat l) (Z.of_nat Nr) then Z.of_nat md else if Z.ltb (Z.of_nat l) (Z.of_nat Nh) then 1%Z else 0%Z) = Z.of_nat nk).
  { unfold nk, b. destruct (Z.ltb_spec (Z.of_nat l) (Z.of_nat Nr)); destruct (Nat.ltb_spec l Nr); try lia.
    destruct (Z.ltb_spec (Z.of_nat l) (Z.of_nat Nh)); destruct (Nat.ltb_spec l Nh); try lia. }
  rewrite Enk. rewrite bset_ok by lia. cbn [obind].
  destruct (Z.ltb_spec 0 (Z.of_nat nk)) as [Hpos|Hzero].
  - (* has children: l < Nh *)
    assert (Hlt : l < Nh).
    { unfold nk, b in Hpos. destruct (Nat.ltb_spec l Nr); [lia|]. destruct (Nat.ltb_spec l Nh); lia. }
    rewrite bset_ok by (cbn [blen]; lia). cbn [obind blen bdat].
    set (s1 := mkst _ (st_kids s) (st_idxkid s) (st_tkids s + Z.of_nat nk)).
    assert (Hroom : ik + nk < NN).
    { assert (idx - L l + 1 <= W l) by (rewrite L_S in Hl2; lia).
      assert ((idx - L l) * b l + b l <= W l * b l) by nia.
      pose proof (W_step l Hlt). pose proof (L_mono (S (S l)) (S Nh) ltac:(lia)) as HM.
      rewrite (L_S (S l)) in HM. unfold NN, nk. lia. }
    destruct (children nk s1 (Z.of_nat idx) (Z.of_nat l) (fun ii => if Z.ltb 1 (Z.of_nat nk) then ii else n_real (nd s idx)) ik)
      as (s'&E&R1&R2&R3&R4&R5&R6&R7&R8).
    { exact Eik. } { cbn. lia. } { cbn. lia. }
    exists s'. split.
    { rewrite Etk. destruct (Z.ltb_spec 1 (Z.of_nat nk)) as [H1|H1].
      - rewrite <- E. reflexivity.
      - rewrite <- E. replace (Z.of_nat nk) with 1%Z by lia. rewrite zfor_one. reflexivity. }
    assert (Hs1 : forall k, k <> idx -> nd s1 k = nd s k).
    { intros k Hk. unfold nd, s1. cbn. rewrite !upd_other by exact Hk. reflexivity. }
    assert (Hs1i : nd s1 idx = mknode (n_idx (nd s idx)) (n_stage (nd s idx)) (n_dad (nd s idx)) (n_real (nd s idx)) (n_idxkid (nd s idx)) (Z.of_nat nk) (Z.of_nat ik)).
    { unfold nd at 1, s1. cbn. rewrite upd_same, Etk, Est. reflexivity. }
    (* stable fields of old nodes *)
    assert (Hold : forall k, k <= ik -> n_idx (nd s' k) = n_idx (nd s k) /\ n_stage (nd s' k) = n_stage (nd s k) /\
        n_dad (nd s' k) = n_dad (nd s k) /\ n_real (nd s' k) = n_real (nd s k) /\ n_idxkid (nd s' k) = n_idxkid (nd s k)).
    { intros k Hk. rewrite (R5 k Hk). destruct (Nat.eq_dec k idx) as [->|Hne].
      - rewrite Hs1i. cbn. repeat split.
      - rewrite (Hs1 k Hne). repeat split. }
    assert (Hold2 : forall k, k < idx -> n_nkids (nd s' k) = n_nkids (nd s k) /\ n_kids (nd s' k) = n_kids (nd s k)).
    { intros k Hk. rewrite (R5 k ltac:(lia)), (Hs1 k ltac:(lia)). split; reflexivity. }
    assert (Hi' : nd s' idx = nd s1 idx) by (apply R5; lia).
    constructor.
    + exists (ik + nk), l. split; [exact R4|]. split; [rewrite R3; cbn; lia|].
      split; [exact Hl|]. split; [lia|]. split; [lia|].
      split. { unfold nk. replace (S idx - L l) with (idx - L l + 1) by lia. lia. }
      split; [|split; [|split]].
      * intros k Hk. destruct (le_lt_dec k ik) as [Hk1|Hk1].
        -- destruct (Hold k Hk1) as (->&->&_). apply Hlev. exact Hk1.
        -- replace k with (ik + 1 + (k - ik - 1)) by lia.
           destruct (R6 (k - ik - 1) ltac:(lia)) as (->&->&_). split; [reflexivity|].
           exists (S l). split; [lia|]. rewrite (L_S (S l)), (W_step l Hlt).
           assert (idx - L l + 1 <= W l) by (rewrite L_S in Hl2; lia).
           assert ((idx - L l) * b l + b l <= W l * b l) by nia.
           unfold nk in *. set (q := (idx - L l) * b l) in *. set (w := W l * b l) in *. split; [lia|]. split; [|lia]. lia.
      * intros k Hk1 Hk2. destruct (le_lt_dec k ik) as [Hk|Hk].
        -- destruct (Hdad k Hk1 Hk) as (d&i&D1&D2&D3&D4&D5&D6&D7&D8).
           exists d, i. destruct (Hold k Hk) as (_&->&->&->&->).
           destruct (Hold d ltac:(lia)) as (_&->&_&->&_). destruct (Hold2 d D2) as (->&->).
           repeat split; try assumption; lia.
        -- exists idx, (k - ik - 1). rewrite Hi', Hs1i. cbn [n_nkids n_kids n_stage n_real].
           replace (nd s' k) with (nd s' (ik + 1 + (k - ik - 1))) by (f_equal; lia).
           destruct (R6 (k - ik - 1) ltac:(lia)) as (_&->&->&->&->). rewrite Est.
           repeat split; try lia.
      * intros j Hj. destruct (le_lt_dec ik j) as [Hj1|Hj1].
        -- replace j with (ik + (j - ik)) at 1 by lia. rewrite R8 by lia. f_equal. lia.
        -- rewrite R7 by lia. unfold s1, kd. cbn. apply Hkids. exact Hj1.
      * intros d Hd. destruct (Nat.eq_dec d idx) as [->|Hne].
        -- rewrite Hi', Hs1i. cbn [n_nkids n_kids n_stage]. rewrite Est, Nat2Z.id. split; [reflexivity|].
           intros _. exists ik. split; [reflexivity|]. split; [lia|]. intros i Hi.
           replace (ik + i + 1) with (ik + 1 + i) by lia.
           destruct (R6 i ltac:(lia)) as (_&_&->&_&->). split; reflexivity.
        -- destruct (Hold2 d ltac:(lia)) as (->&->). destruct (Hold d ltac:(lia)) as (_&->&_).
           destruct (Hproc d ltac:(lia)) as [P1 P2]. split; [exact P1|]. intros Hp.
           destruct (P2 Hp) as (off&O1&O2&O3). exists off. split; [exact O1|]. split; [lia|].
           intros i Hi. destruct (Hold (off + i + 1) ltac:(lia)) as (_&_&->&_&->). apply O3. exact Hi.
    + destruct (Hold 0 ltac:(lia)) as (_&->&->&->&->). exact Hroot.
    + rewrite R1. cbn. exact Hlr.
    + rewrite R2. cbn. exact Hlk.
  - (* leaf *)
    assert (nk = 0) as Hz by lia.
    eexists; split; [reflexivity|].
    set (s' := mkst _ _ _ _).
    assert (Hs1 : forall k, k <> idx -> nd s' k = nd s k).
    { intros k Hk. unfold nd, s'. cbn. rewrite !upd_other by exact Hk. reflexivity. }
    assert (Hs1i : nd s' idx = mknode (n_idx (nd s idx)) (n_stage (nd s idx)) (n_dad (nd s idx)) (n_real (nd s idx)) (n_idxkid (nd s idx)) (Z.of_nat nk) (n_kids (nd s idx))).
    { unfold nd at 1, s'. cbn. rewrite upd_same, Est. reflexivity. }
    assert (Hold : forall k, n_idx (nd s' k) = n_idx (nd s k) /\ n_stage (nd s' k) = n_stage (nd s k) /\
        n_dad (nd s' k) = n_dad (nd s k) /\ n_real (nd s' k) = n_real (nd s k) /\ n_idxkid (nd s' k) = n_idxkid (nd s k)).
    { intros k. destruct (Nat.eq_dec k idx) as [->|Hne].
      - rewrite Hs1i. cbn. repeat split.
      - rewrite (Hs1 k Hne). repeat split. }
    assert (Hold2 : forall k, k < idx -> n_nkids (nd s' k) = n_nkids (nd s k) /\ n_kids (nd s' k) = n_kids (nd s k)).
    { intros k Hk. rewrite (Hs1 k ltac:(lia)). split; reflexivity. }
    assert (Hb0 : b l = 0) by exact Hz.
    constructor.
    + exists ik, l. split; [exact Eik|]. split; [exact Etk|]. split; [exact Hl|]. split; [lia|]. split; [lia|].
      split; [rewrite Hb0 in *; lia|]. split; [|split; [|split]].
      * intros k Hk. destruct (Hold k) as (->&->&_). apply Hlev. exact Hk.
      * intros k Hk1 Hk2. destruct (Hdad k Hk1 Hk2) as (d&i&D1&D2&D3&D4&D5&D6&D7&D8).
        exists d, i. destruct (Hold k) as (_&->&->&->&->).
        destruct (Hold d) as (_&->&_&->&_). destruct (Hold2 d D2) as (->&->).
        repeat split; try assumption; lia.
      * exact Hkids.
      * intros d Hd. destruct (Nat.eq_dec d idx) as [->|Hne].
        -- rewrite Hs1i. cbn [n_nkids n_kids n_stage]. rewrite Est, Nat2Z.id. split; [reflexivity|]. lia.
        -- destruct (Hold2 d ltac:(lia)) as (->&->). destruct (Hold d) as (_&->&_).
           destruct (Hproc d ltac:(lia)) as [P1 P2]. split; [exact P1|]. intros Hp.
           destruct (P2 Hp) as (off&O1&O2&O3). exists off. split; [exact O1|]. split; [lia|].
           intros i Hi. destruct (Hold (off + i + 1)) as (_&_&->&_&->). apply O3. exact Hi.
    + destruct (Hold 0) as (_&->&->&->&->). exact Hroot.
    + exact Hlr.
    + exact Hlk.
Qed.

Lemma NN_pos : 1 <= NN.
Proof. unfold NN. rewrite L_S. pose proof (W_pos Nh). lia. Qed.

Lemma create_inv jn jk :
  exists s, sctree_create (Z.of_nat md) (Z.of_nat Nr) (Z.of_nat Nh) jn jk = Ok (Z.of_nat NN, s) /\ Inv NN s.
Proof.
  unfold sctree_create. rewrite NN_number. cbn [obind]. rewrite Nat2Z.id.
  pose proof NN_pos as Hp.
  change 0%Z with (Z.of_nat 0) at 1. rewrite bget_ok by (cbn [blen]; lia). cbn [obind blen bdat].
  change 0%Z with (Z.of_nat 0) at 1. rewrite bset_ok by (cbn [blen]; lia). cbn [obind blen bdat].
  destruct (zfor_ind (fun idx s => Inv idx s) 0 (Z.of_nat NN)
     (fun idx s => sct_body (Z.of_nat md) (Z.of_nat Nr) (Z.of_nat Nh) idx s)
     (mkst (mkbarr NN (upd jn 0 (mknode 0 0 (-1) (-1) 0 (n_nkids (jn 0)) (n_kids (jn 0))))) (mkbarr NN jk) 0 0) NN)
   as [s [E I]].
  - lia.
  - constructor; cbn [st_root st_kids blen]; try reflexivity.
    + exists 0, 0. cbn [st_idxkid st_tkids]. split; [reflexivity|]. split; [reflexivity|].
      assert (L 1 = 1) by (unfold L, W; reflexivity).
      split; [lia|]. split; [unfold L; cbn; lia|]. split; [lia|]. split; [lia|].
      split; [|split; [|split]]; try (intros; lia).
      intros k Hk. assert (k = 0) by lia. subst k. unfold nd. cbn [bdat st_root]. rewrite upd_same. cbn [n_idx n_stage]. split; [reflexivity|].
      exists 0. split; [lia|]. split; [unfold L; cbn; lia|]. split; [lia|]. reflexivity.
    + unfold nd. cbn. repeat split.
  - intros k x Hk HI. rewrite Z.add_0_l. apply body_step; assumption.
  - exists s. cbn [bdat blen] in *. rewrite E. split; [reflexivity|exact I].
Qed.

(** At the end idxkid = NN-1. *)
Lemma final_ik s : Inv NN s -> st_idxkid s = (Z.of_nat NN - 1)%Z.
Proof.
  intros [(ik&l&Eik&_&Hl&H1&H2&Hik&_) _ _ _]. rewrite Eik.
  assert (l = Nh).
  { destruct (Nat.eq_dec l Nh); [assumption|]. pose proof (L_mono (S l) Nh ltac:(lia)). unfold NN in *. rewrite (L_S Nh) in H2.
    pose proof (W_pos Nh). lia. }
  subst l. assert (b Nh = 0).
  { unfold b. destruct (Nat.ltb_spec Nh Nr); [lia|]. destruct (Nat.ltb_spec Nh Nh); lia. }
  pose proof NN_pos. unfold NN in *. rewrite H in Hik. lia.
Qed.
End Tree.
