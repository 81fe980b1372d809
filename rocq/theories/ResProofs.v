(** ResProofs.v -- proofs about OcpModel.v's residual computation. *)
From Coq Require Import ZArith Bool Arith Lia Reals Lra.
From Verif Require Import Base ArithF RSum Blas OcpModel ResSpec.
Local Open Scope R_scope.

Lemma loop_S {S} n f (s : S) : loop (Datatypes.S n) f s = f n (loop n f s).
Proof. reflexivity. Qed.

(** soft_loop in closed form *)
Lemma soft_loop_R nux nbg ns (sf : nat -> Z) (ux lamk g dd : nat -> R) :
  let r := soft_loop nux nbg ns sf ux lamk (g, dd) in
  (forall k, fst r k = g k - rsum nbg (fun j => soft_co sf nux j k * lamk j + soft_co sf (nux + ns) j k * lamk (nbg + j)%nat)) /\
  (forall c, snd r c = dd c - rsum nbg (fun j => if Z.eqb (sf j) (-1) then 0 else
      (if (c =? j)%nat then ux (nux + Z.to_nat (sf j))%nat else 0) + (if (c =? nbg + j)%nat then ux (nux + ns + Z.to_nat (sf j))%nat else 0))).
Proof.
  unfold soft_loop. cbv zeta. match goal with |- context [loop nbg ?f (g, dd)] => set (body := f) end.
  enough (Hm : forall m,
    (forall k, fst (loop m body (g, dd)) k = g k - rsum m (fun j => soft_co sf nux j k * lamk j + soft_co sf (nux + ns) j k * lamk (nbg + j)%nat)) /\
    (forall c, snd (loop m body (g, dd)) c = dd c - rsum m (fun j => if Z.eqb (sf j) (-1) then 0 else
      (if (c =? j)%nat then ux (nux + Z.to_nat (sf j))%nat else 0) + (if (c =? nbg + j)%nat then ux (nux + ns + Z.to_nat (sf j))%nat else 0))))
    by apply Hm.
  intros m. induction m as [|m IH]; cbn [rsum].
  - cbn [loop fst snd]. split; intros; lra.
  - rewrite loop_S. destruct (loop m _ _) as [g1 d1]. cbn [fst snd] in IH. destruct IH as [I1 I2].
    unfold body, soft_co in *. destruct (Z.eqb_spec (sf m) (-1)) as [E|E]; cbn [fst snd].
    + split; intros; [rewrite I1|rewrite I2]; lra.
    + split; intros k.
      * unfold upd. rsimp. destruct (Nat.eqb_spec k (nux + ns + Z.to_nat (sf m))) as [->|N1].
        -- destruct (Nat.eqb_spec (nux + ns + Z.to_nat (sf m)) (nux + Z.to_nat (sf m))) as [E2|N2]; rewrite ?E2, ?I1; lra.
        -- destruct (Nat.eqb_spec k (nux + Z.to_nat (sf m))) as [->|N2]; rewrite I1; lra.
      * unfold upd. rsimp. destruct (Nat.eqb_spec k (nbg + m)) as [->|N1].
        -- destruct (Nat.eqb_spec (nbg + m) m) as [E2|N2]; rewrite ?E2, ?I2; lra.
        -- destruct (Nat.eqb_spec k m) as [->|N2]; rewrite I2; lra.
Qed.

Ltac vn := repeat first [rewrite vset_in' by lia | rewrite vset_out by lia]; rewrite ?Nat.sub_0_r, ?Nat.add_0_l.
(** rewrite indices [a + (k - a)] *)
Ltac ixn := repeat match goal with |- context [(?a + (?k - ?a))%nat] => replace (a + (k - a))%nat with k by lia end.

Section Stage.
Variables (n nb ng ns : nat) (idxb : nat -> nat) (Ct : nat -> nat -> R) (sf : nat -> Z).
Variables (d t ux lamk : nat -> R).
Notation rowc := (row_co nb idxb Ct).
Lemma row_val j : (j < nb)%nat -> (idxb j < n)%nat -> rsum n (fun k => rowc j k * ux k) = ux (idxb j).
Proof.
  intros Hj Hi. transitivity (rsum n (fun k => if (idxb j =? k)%nat then ux k else 0)).
  - apply rsum_ext. intros k Hk. unfold row_co. apply Nat.ltb_lt in Hj. rewrite Hj. destruct (idxb j =? k)%nat; lra.
  - apply rsum_one'. exact Hi.
Qed.
Lemma row_val_g j : (nb <= j)%nat -> rsum n (fun k => rowc j k * ux k) = rsum n (fun k => Ct k (j - nb)%nat * ux k).
Proof. intros Hj. apply rsum_ext. intros k Hk. unfold row_co. destruct (Nat.ltb_spec j nb); [lia|reflexivity]. Qed.

Lemma ineq_block_R g dd bg0 bg1 : (forall j, (j < nb)%nat -> (idxb j < n)%nat) ->
  let '(g', dd', _, _) := ineq_block n nb ng idxb Ct d t ux lamk (g, dd, bg0, bg1) in
  (forall k, (k < n)%nat -> g' k = g k + rsum (nb + ng) (fun j => rowc j k * (lamk (nb + ng + j)%nat - lamk j))) /\
  (forall k, (n <= k)%nat -> g' k = g k) /\
  (forall c, (c < nb + ng)%nat -> dd' c = d c + t c - rsum n (fun k => rowc c k * ux k)) /\
  (forall c, (nb + ng <= c < 2 * (nb + ng))%nat -> dd' c = d c + t c + rsum n (fun k => rowc (c - (nb + ng)) k * ux k)) /\
  (forall c, (2 * (nb + ng) <= c)%nat -> dd' c = dd c).
Proof.
  intros Hidx. unfold ineq_block. destruct (Nat.ltb_spec 0 (nb + ng)) as [Hp|Hp].
  2:{ assert (nb = 0%nat) by lia. assert (ng = 0%nat) by lia.
      repeat split; intros; try lia; try reflexivity. replace (nb + ng)%nat with 0%nat by lia. cbn [rsum]. lra. }
  set (b0 := AXPY (nb + ng) _ lamk 0 lamk (nb + ng) bg0 0).
  assert (Hb0 : forall j, (j < nb + ng)%nat -> b0 j = lamk (nb + ng + j)%nat - lamk j).
  { intros j Hj. unfold b0, AXPY. vn. rsimp. rewrite R_lit11. lra. }
  set (D1 := AXPY (2 * nb + 2 * ng) f1 d 0 t 0 dd 0).
  assert (HD1 : forall c, (c < 2 * (nb + ng))%nat -> D1 c = d c + t c).
  { intros c Hc. unfold D1, AXPY. vn. rsimp. rewrite R_lit11. lra. }
  assert (HD1' : forall c, (2 * (nb + ng) <= c)%nat -> D1 c = dd c).
  { intros c Hc. unfold D1, AXPY. vn. reflexivity. }
  destruct (if Nat.ltb 0 nb then _ else _) as [g1 b1] eqn:E1.
  assert (Hg1 : forall k, g1 k = g k + rsum nb (fun j => if (idxb j =? k)%nat then b0 j else 0)).
  { intros k. destruct (Nat.ltb_spec 0 nb) as [Hn|Hn]; injection E1 as <- <-.
    - rewrite VECAD_SP_R. f_equal. apply rsum_ext. intros j _. rewrite !Nat.add_0_l. destruct (idxb j =? k)%nat; [|reflexivity].
      rsimp. rewrite R_lit11. lra.
    - replace nb with 0%nat by lia. cbn [rsum]. lra. }
  assert (Hb1 : forall j, (j < nb)%nat -> b1 j = ux (idxb j)).
  { intros j Hj. destruct (Nat.ltb_spec 0 nb) as [Hn|Hn]; [|lia]. injection E1 as <- <-. unfold VECEX_SP. vn. rsimp. rewrite R_lit11. lra. }
  destruct (if Nat.ltb 0 ng then _ else _) as [g2 b2] eqn:E2.
  assert (Hg2 : forall k, (k < n)%nat -> g2 k = g1 k + rsum ng (fun j => Ct k j * b0 (nb + j)%nat)).
  { intros k Hk. destruct (Nat.ltb_spec 0 ng) as [Hn|Hn]; injection E2 as <- <-.
    - unfold GEMV_N. vn. rewrite fsum_R. rsimp. rewrite R_lit11, !Rmult_1_l. reflexivity.
    - replace ng with 0%nat by lia. cbn [rsum]. lra. }
  assert (Hg2' : forall k, (n <= k)%nat -> g2 k = g1 k).
  { intros k Hk. destruct (Nat.ltb_spec 0 ng) as [Hn|Hn]; injection E2 as <- <-; [|reflexivity]. unfold GEMV_N. vn. reflexivity. }
  assert (Hb2 : forall j, (j < nb)%nat -> b2 j = ux (idxb j)).
  { intros j Hj. rewrite <- Hb1 by assumption. destruct (Nat.ltb_spec 0 ng) as [Hn|Hn]; injection E2 as <- <-; [|reflexivity]. unfold GEMV_T. vn. reflexivity. }
  assert (Hb2' : forall j, (nb <= j < nb + ng)%nat -> b2 j = rsum n (fun k => Ct k (j - nb)%nat * ux k)).
  { intros j Hj. destruct (Nat.ltb_spec 0 ng) as [Hn|Hn]; [|lia]. injection E2 as <- <-. unfold GEMV_T. vn. rewrite fsum_R. rsimp.
    rewrite R_lit11, R_lit01. rewrite Rmult_0_l, Rplus_0_l, Rmult_1_l. reflexivity. }
  assert (Hb2r : forall j, (j < nb + ng)%nat -> b2 j = rsum n (fun k => rowc j k * ux k)).
  { intros j Hj. destruct (Nat.ltb_spec j nb) as [H|H].
    - rewrite Hb2, row_val; auto.
    - rewrite Hb2', row_val_g by lia. reflexivity. }
  cbn [fst snd].
  split; [|split; [|split; [|split]]].
  - intros k Hk. rewrite Hg2, Hg1, rsum_split by assumption. rewrite Rplus_assoc. f_equal. f_equal.
    + apply rsum_ext. intros j Hj. unfold row_co. destruct (Nat.ltb_spec j nb); [|lia]. rewrite Hb0 by lia. destruct (idxb j =? k)%nat; lra.
    + apply rsum_ext. intros j Hj. unfold row_co. destruct (Nat.ltb_spec (nb + j) nb); [lia|]. rewrite Hb0 by lia.
      replace (nb + j - nb)%nat with j by lia. reflexivity.
  - intros k Hk. rewrite Hg2', Hg1 by assumption. rewrite rsum_0; [lra|]. intros j Hj. destruct (Nat.eqb_spec (idxb j) k); [|reflexivity].
    specialize (Hidx j Hj). lia.
  - intros c Hc. unfold AXPY. vn. rewrite HD1 by lia. rewrite Hb2r by assumption. rsimp. rewrite R_lit11. lra.
  - intros c Hc. unfold AXPY. vn. ixn. rewrite HD1 by lia. rewrite Hb2r by lia. rsimp. rewrite R_lit11. lra.
  - intros c Hc. unfold AXPY. vn. apply HD1'. assumption.
Qed.

Hypothesis Hwf : stage_wf n nb ng ns idxb sf.
Lemma soft_sum_one (j : nat) (off : nat) (v : nat -> R) N : (sf j = -1 \/ (0 <= sf j)%Z /\ (off + Z.to_nat (sf j) < N)%nat)%Z ->
  rsum N (fun k => soft_co sf off j k * v k) = if Z.eqb (sf j) (-1) then 0 else v (off + Z.to_nat (sf j))%nat.
Proof.
  intros H. unfold soft_co. destruct (Z.eqb_spec (sf j) (-1)) as [E|E].
  - apply rsum_0. intros; lra.
  - destruct H as [H|[H1 H2]]; [lia|]. rewrite <- (rsum_one N _ v H2). apply rsum_ext. intros k Hk. destruct (k =? _)%nat; lra.
Qed.
Notation Gc := (G_co n nb ng ns idxb Ct sf).
(** the linear map of a stage *)
Lemma G_val_lo c : (c < nb + ng)%nat ->
  rsum (n + 2 * ns) (fun k => Gc c k * ux k) =
  rsum n (fun k => rowc c k * ux k) + (if Z.eqb (sf c) (-1) then 0 else ux (n + Z.to_nat (sf c))%nat).
Proof.
  intros Hc. rewrite rsum_split. f_equal.
  - apply rsum_ext. intros k Hk. unfold G_co. destruct (Nat.ltb_spec c (nb + ng)); [|lia]. destruct (Nat.ltb_spec k n); [|lia]. reflexivity.
  - destruct (proj2 Hwf c Hc) as [E|E].
    + rewrite E. cbn [Z.eqb]. rewrite rsum_0; [reflexivity|]. intros k Hk. unfold G_co, soft_co. rewrite E.
      destruct (Nat.ltb_spec c (nb + ng)); [|lia]. destruct (Nat.ltb_spec (n + k) n); [lia|]. rewrite Z.eqb_refl. lra.
    + destruct (Z.eqb_spec (sf c) (-1)); [lia|].
      rewrite <- (rsum_one (2 * ns) (Z.to_nat (sf c)) (fun k => ux (n + k)%nat)) by lia. apply rsum_ext. intros k Hk.
      unfold G_co, soft_co. destruct (Nat.ltb_spec c (nb + ng)); [|lia]. destruct (Nat.ltb_spec (n + k) n); [lia|].
      destruct (Z.eqb_spec (sf c) (-1)); [lia|].
      destruct (Nat.eqb_spec (n + k) (n + Z.to_nat (sf c))), (Nat.eqb_spec k (Z.to_nat (sf c))); try lia; lra.
Qed.
Lemma G_val_up c : (nb + ng <= c < 2 * (nb + ng))%nat ->
  rsum (n + 2 * ns) (fun k => Gc c k * ux k) =
  - rsum n (fun k => rowc (c - (nb + ng)) k * ux k) + (if Z.eqb (sf (c - (nb + ng))%nat) (-1) then 0 else ux (n + ns + Z.to_nat (sf (c - (nb + ng))%nat))%nat).
Proof.
  intros Hc. rewrite rsum_split. rewrite <- rsum_opp. f_equal.
  - apply rsum_ext. intros k Hk. unfold G_co. destruct (Nat.ltb_spec c (nb + ng)); [lia|]. destruct (Nat.ltb_spec c (2 * (nb + ng))); [|lia].
    destruct (Nat.ltb_spec k n); [|lia]. lra.
  - destruct (proj2 Hwf (c - (nb + ng))%nat ltac:(lia)) as [E|E].
    + rewrite E. cbn [Z.eqb]. rewrite rsum_0; [reflexivity|]. intros k Hk. unfold G_co, soft_co. rewrite E.
      destruct (Nat.ltb_spec c (nb + ng)); [lia|]. destruct (Nat.ltb_spec c (2 * (nb + ng))); [|lia].
      destruct (Nat.ltb_spec (n + k) n); [lia|]. rewrite Z.eqb_refl. lra.
    + destruct (Z.eqb_spec (sf (c - (nb + ng))%nat) (-1)); [lia|].
      transitivity (rsum (2 * ns) (fun k => if (k =? ns + Z.to_nat (sf (c - (nb + ng))%nat))%nat then ux (n + k)%nat else 0)).
      2:{ rewrite rsum_one by lia. f_equal. lia. }
      apply rsum_ext. intros k Hk.
      unfold G_co, soft_co. destruct (Nat.ltb_spec c (nb + ng)); [lia|]. destruct (Nat.ltb_spec c (2 * (nb + ng))); [|lia].
      destruct (Nat.ltb_spec (n + k) n); [lia|].
      destruct (Z.eqb_spec (sf (c - (nb + ng))%nat) (-1)); [lia|].
      destruct (Nat.eqb_spec (n + k) (n + ns + Z.to_nat (sf (c - (nb + ng))%nat))), (Nat.eqb_spec k (ns + Z.to_nat (sf (c - (nb + ng))%nat))); try lia; lra.
Qed.
Lemma G_val_sl c : (2 * (nb + ng) <= c < 2 * nb + 2 * ng + 2 * ns)%nat ->
  rsum (n + 2 * ns) (fun k => Gc c k * ux k) = ux (n + (c - 2 * (nb + ng)))%nat.
Proof.
  intros Hc. rewrite <- (rsum_one (n + 2 * ns) (n + (c - 2 * (nb + ng)))%nat ux) by lia. apply rsum_ext. intros k Hk.
  unfold G_co. destruct (Nat.ltb_spec c (nb + ng)); [lia|]. destruct (Nat.ltb_spec c (2 * (nb + ng))); [lia|].
  destruct (k =? _)%nat; lra.
Qed.
(** the transposed map *)
Lemma GT_hard k : (k < n)%nat -> rsum (2 * nb + 2 * ng + 2 * ns) (fun c => Gc c k * lamk c) =
  - rsum (nb + ng) (fun j => rowc j k * (lamk (nb + ng + j)%nat - lamk j)).
Proof.
  intros Hk. replace (2 * nb + 2 * ng + 2 * ns)%nat with ((nb + ng) + (nb + ng) + 2 * ns)%nat by lia.
  rewrite (rsum_split (nb + ng + (nb + ng))), (rsum_split (nb + ng) (nb + ng)). rewrite (rsum_0 (2 * ns)).
  2:{ intros c Hc. unfold G_co. destruct (Nat.ltb_spec (nb + ng + (nb + ng) + c) (nb + ng)); [lia|].
      destruct (Nat.ltb_spec (nb + ng + (nb + ng) + c) (2 * (nb + ng))); [lia|]. destruct (Nat.eqb_spec k (n + (nb + ng + (nb + ng) + c - 2 * (nb + ng)))); [lia|]. lra. }
  rewrite Rplus_0_r, <- rsum_add, <- rsum_opp. apply rsum_ext. intros j Hj. unfold G_co.
  destruct (Nat.ltb_spec j (nb + ng)); [|lia]. destruct (Nat.ltb_spec (nb + ng + j) (nb + ng)); [lia|].
  destruct (Nat.ltb_spec (nb + ng + j) (2 * (nb + ng))); [|lia]. destruct (Nat.ltb_spec k n); [|lia].
  replace (nb + ng + j - (nb + ng))%nat with j by lia. lra.
Qed.
Lemma GT_slack k : (k < 2 * ns)%nat -> rsum (2 * nb + 2 * ng + 2 * ns) (fun c => Gc c (n + k) * lamk c) =
  lamk (2 * nb + 2 * ng + k)%nat + rsum (nb + ng) (fun j => soft_co sf n j (n + k) * lamk j + soft_co sf (n + ns) j (n + k) * lamk (nb + ng + j)%nat).
Proof.
  intros Hk. replace (2 * nb + 2 * ng + 2 * ns)%nat with ((nb + ng) + (nb + ng) + 2 * ns)%nat by lia.
  rewrite (rsum_split (nb + ng + (nb + ng))), (rsum_split (nb + ng) (nb + ng)), <- rsum_add. rewrite Rplus_comm. f_equal.
  - rewrite <- (rsum_one (2 * ns) k (fun c => lamk (2 * nb + 2 * ng + c)%nat)) by assumption. apply rsum_ext. intros c Hc. unfold G_co.
    destruct (Nat.ltb_spec (nb + ng + (nb + ng) + c) (nb + ng)); [lia|].
    destruct (Nat.ltb_spec (nb + ng + (nb + ng) + c) (2 * (nb + ng))); [lia|].
    replace (nb + ng + (nb + ng) + c)%nat with (2 * nb + 2 * ng + c)%nat by lia.
    destruct (Nat.eqb_spec (n + k) (n + (2 * nb + 2 * ng + c - 2 * (nb + ng)))), (Nat.eqb_spec c k); try lia; lra.
  - apply rsum_ext. intros j Hj. unfold G_co.
    destruct (Nat.ltb_spec j (nb + ng)); [|lia]. destruct (Nat.ltb_spec (nb + ng + j) (nb + ng)); [lia|].
    destruct (Nat.ltb_spec (nb + ng + j) (2 * (nb + ng))); [|lia]. destruct (Nat.ltb_spec (n + k) n); [lia|].
    replace (nb + ng + j - (nb + ng))%nat with j by lia. reflexivity.
Qed.

Lemma soft_block_R g dd :
  let r := soft_block n nb ng ns sf d t ux lamk (g, dd) in
  (forall k, (k < n)%nat -> fst r k = g k) /\
  (forall k, (k < 2 * ns)%nat -> fst r (n + k)%nat = g (n + k)%nat - rsum (2 * nb + 2 * ng + 2 * ns) (fun c => Gc c (n + k) * lamk c)) /\
  (forall c, (c < nb + ng)%nat -> snd r c = dd c - (if Z.eqb (sf c) (-1) then 0 else ux (n + Z.to_nat (sf c))%nat)) /\
  (forall c, (nb + ng <= c < 2 * (nb + ng))%nat -> snd r c = dd c - (if Z.eqb (sf (c - (nb + ng))%nat) (-1) then 0 else ux (n + ns + Z.to_nat (sf (c - (nb + ng))%nat))%nat)) /\
  (forall c, (2 * (nb + ng) <= c < 2 * nb + 2 * ng + 2 * ns)%nat -> snd r c = d c + t c - ux (n + (c - 2 * (nb + ng)))%nat).
Proof.
  unfold soft_block. set (g1 := AXPY (2 * ns) _ lamk _ g n g n).
  pose proof (soft_loop_R n (nb + ng) ns sf ux lamk g1 dd) as HL. cbv zeta in HL.
  destruct (soft_loop _ _ _ _ _ _ _) as [g2 d2]. cbn [fst snd] in *. destruct HL as [Hg Hd].
  split; [|split; [|split; [|split]]].
  - intros k Hk. rewrite Hg. rewrite rsum_0.
    + unfold g1, AXPY. vn. lra.
    + intros j Hj. unfold soft_co. destruct (Z.eqb_spec (sf j) (-1)); [lra|]. destruct (Nat.eqb_spec k (n + Z.to_nat (sf j))); [lia|].
      destruct (Nat.eqb_spec k (n + ns + Z.to_nat (sf j))); [lia|]. lra.
  - intros k Hk. rewrite Hg. rewrite GT_slack by assumption. unfold g1, AXPY. vn. replace (n + k - n)%nat with k by lia. rsimp. rewrite R_lit11. lra.
  - intros c Hc. unfold AXPY. vn. rewrite Hd. f_equal.
    rewrite (rsum_ext _ _ (fun j => if (c =? j)%nat then (if Z.eqb (sf j) (-1) then 0 else ux (n + Z.to_nat (sf j))%nat) else 0)).
    + rewrite rsum_one' by assumption. reflexivity.
    + intros j Hj. destruct (Nat.eqb_spec c (nb + ng + j)); [lia|]. destruct (Z.eqb (sf j) (-1)), (c =? j)%nat; lra.
  - intros c Hc. unfold AXPY. vn. rewrite Hd. f_equal.
    rewrite (rsum_ext _ _ (fun j => if (c - (nb + ng) =? j)%nat then (if Z.eqb (sf j) (-1) then 0 else ux (n + ns + Z.to_nat (sf j))%nat) else 0)).
    + rewrite rsum_one' by lia. reflexivity.
    + intros j Hj. destruct (Nat.eqb_spec c j); [lia|]. destruct (Nat.eqb_spec c (nb + ng + j)), (Nat.eqb_spec (c - (nb + ng)) j); try lia; destruct (Z.eqb (sf j) (-1)); lra.
  - intros c Hc. unfold AXPY. vn. replace (2 * nb + 2 * ng + (c - (2 * nb + 2 * ng)))%nat with c by lia.
    replace (2 * (nb + ng))%nat with (2 * nb + 2 * ng)%nat by lia. rsimp. rewrite R_lit11. ixn. lra.
Qed.
(** both blocks together, as all callers use them; between them the caller sets the slack part of the gradient *)
Lemma cons_blocks_R g dd bg0 bg1 g1 d1 c0 c1 (gs : nat -> R) g2 d2 :
  ineq_block n nb ng idxb Ct d t ux lamk (g, dd, bg0, bg1) = (g1, d1, c0, c1) ->
  (g2, d2) = (if Nat.ltb 0 ns then soft_block n nb ng ns sf d t ux lamk (gs, d1) else (gs, d1)) ->
  (forall k, (k < n)%nat -> gs k = g1 k) ->
  (forall k, (k < n)%nat -> g2 k = g k - rsum (2 * nb + 2 * ng + 2 * ns) (fun c => Gc c k * lamk c)) /\
  (forall k, (n <= k < n + 2 * ns)%nat -> g2 k = gs k - rsum (2 * nb + 2 * ng + 2 * ns) (fun c => Gc c k * lamk c)) /\
  (forall c, (c < 2 * nb + 2 * ng + 2 * ns)%nat -> d2 c = d c + t c - rsum (n + 2 * ns) (fun k => Gc c k * ux k)).
Proof.
  intros E1 E2 Hgs. pose proof (ineq_block_R g dd bg0 bg1 (proj1 Hwf)) as H1. rewrite E1 in H1. destruct H1 as (A1 & A2 & A3 & A4 & A5).
  destruct (Nat.ltb_spec 0 ns) as [Hs|Hs].
  - pose proof (soft_block_R gs d1) as H2. rewrite <- E2 in H2. cbn [fst snd] in H2. destruct H2 as (B1 & B2 & B3 & B4 & B5).
    split; [|split].
    + intros k Hk. rewrite B1, Hgs, A1, GT_hard by assumption. lra.
    + intros k Hk. replace k with (n + (k - n))%nat by lia. rewrite B2 by lia. reflexivity.
    + intros c Hc. destruct (Nat.ltb_spec c (nb + ng)) as [L|L]; [|destruct (Nat.ltb_spec c (2 * (nb + ng))) as [L2|L2]].
      * rewrite B3, A3, G_val_lo by assumption. lra.
      * rewrite B4, A4, G_val_up by lia. lra.
      * rewrite B5, G_val_sl by lia. reflexivity.
  - injection E2 as -> ->.
    assert (Hsf : forall j, (j < nb + ng)%nat -> (sf j =? -1)%Z = true).
    { intros j Hj. destruct (proj2 Hwf j Hj) as [E|E]; [rewrite E; reflexivity|lia]. }
    split; [|split].
    + intros k Hk. rewrite Hgs, A1, GT_hard by assumption. lra.
    + intros k Hk. lia.
    + intros c Hc. destruct (Nat.ltb_spec c (nb + ng)) as [L|L]; [|destruct (Nat.ltb_spec c (2 * (nb + ng))) as [L2|L2]].
      * rewrite A3, G_val_lo, Hsf by assumption. lra.
      * rewrite A4, G_val_up, Hsf by lia. lra.
      * lia.
Qed.
End Stage.

Lemma H_hard n ns H Zd (v : nat -> R) k : (k < n)%nat -> rsum (n + 2 * ns) (fun l => H_co n H Zd k l * v l) = rsum n (fun l => symL H k l * v l).
Proof.
  intros Hk. rewrite rsum_split, (rsum_0 (2 * ns)).
  - rewrite Rplus_0_r. apply rsum_ext. intros l Hl. unfold H_co, symL. destruct (Nat.ltb_spec k n); [|lia]. destruct (Nat.ltb_spec l n); [|lia]. reflexivity.
  - intros l Hl. unfold H_co. destruct (Nat.ltb_spec k n); [|lia]. destruct (Nat.ltb_spec (n + l) n); [lia|]. lra.
Qed.
Lemma H_slack n ns H Zd (v : nat -> R) k : (n <= k < n + 2 * ns)%nat -> rsum (n + 2 * ns) (fun l => H_co n H Zd k l * v l) = Zd (k - n)%nat * v k.
Proof.
  intros Hk. rewrite <- (rsum_one' (n + 2 * ns) k (fun l => Zd (k - n)%nat * v l)) by lia. apply rsum_ext. intros l Hl.
  unfold H_co. destruct (Nat.ltb_spec k n); [lia|]. destruct (k =? l)%nat; lra.
Qed.

Lemma symL_0 (A : nat -> nat -> R) i j : symL (fun r c => A (0 + r)%nat (0 + c)%nat) i j = symL A i j.
Proof. reflexivity. Qed.

Section StageRes.
Variables (mc : bool) (qp : oqp R) (sol : osol R) (i : nat).
Let D := q_dim qp.
Let z := s_ux sol. Let pi := s_pi sol. Let lam := s_lam sol. Let t := s_t sol.
Hypothesis Hwf : stage_wf (nux qp i) (dnb D i) (dng D i) (dns D i) (q_idxb qp i) (q_idxs_rev qp i).
Hypothesis Hmc : mc = true \/ forall c, (c < nct D i)%nat -> q_mask qp i c = 1.
Definition stage_gap : R :=
  rsum (nvt D i) (fun k => rsum (nvt D i) (fun l => z i k * Hess qp i k l * z i l)) + rsum (nvt D i) (fun k => q_rqz qp i k * z i k)
  - rsum (nct D i) (fun c => q_d qp i c * (q_mask qp i c * lam i c))
  - (if (i <? dN D)%nat then rsum (dnx D (S i)) (fun j => q_b qp i j * pi i j) else 0).
Definition stage_mu : R := rsum (nct D i) (fun c => Rabs (kkt_m qp lam t i c)).

Lemma res_stage_R (Hi : (i <= dN D)%nat) res ws :
  let r := fst (res_stage mc qp sol i (res, ws)) in
  (forall k, (k < nvt D i)%nat -> r_g r i k = kkt_g qp z pi lam i k) /\
  (forall j, (i < dN D)%nat -> (j < dnx D (S i))%nat -> r_b r i j = dyn qp z i j) /\
  (forall c, (c < nct D i)%nat -> r_d r i c = kkt_d qp z t i c) /\
  (forall c, (c < nct D i)%nat -> r_m r i c = kkt_m qp lam t i c) /\
  r_obj r = r_obj res + stage_cost qp z i /\
  r_gap r = r_gap res + stage_gap /\
  r_mu_sum r = r_mu_sum res + stage_mu /\
  r_mu r = r_mu res /\
  (forall i', i' <> i -> r_g r i' = r_g res i' /\ r_b r i' = r_b res i' /\ r_d r i' = r_d res i' /\ r_m r i' = r_m res i').
Proof.
  unfold res_stage. cbv zeta. fold D.
  set (n := nux qp i) in *. change (dnu D i + dnx D i)%nat with n. set (nb := dnb D i) in *. set (ng := dng D i) in *. set (ns := dns D i) in *.
  change (2 * nb + 2 * ng + 2 * ns)%nat with (nct D i). set (nc := nct D i) in *. set (nv := nvt D i).
  assert (Env : nv = (n + 2 * ns)%nat) by reflexivity.
  change (s_ux sol i) with (z i). change (s_lam sol i) with (lam i). change (s_t sol i) with (t i). change (s_pi sol i) with (pi i).
  set (ga := SYMV_L n f1 _ _ _ _ _ _ _ _ _ _).
  assert (Hga : forall k, (k < n)%nat -> ga k = 2 * q_rqz qp i k + rsum nv (fun l => Hess qp i k l * z i l)).
  { intros k Hk. unfold ga, SYMV_L. vn. rewrite fsum_R. rsimp. rewrite R_lit11, Rmult_1_l. unfold Hess. fold n. rewrite Env, H_hard by assumption.
    f_equal. unfold Rdiv. rewrite Rinv_1. lra. }
  set (gb := AXPY n (- f1)%F (q_rqz qp i) 0 ga 0 ga 0).
  assert (Hgb : forall k, (k < n)%nat -> gb k = q_rqz qp i k + rsum nv (fun l => Hess qp i k l * z i l)).
  { intros k Hk. unfold gb, AXPY. vn. rewrite Hga by assumption. rsimp. rewrite R_lit11. lra. }
  set (gc := if Nat.ltb 0 i then _ else gb).
  assert (Hgc : forall k, (k < n)%nat -> gc k = gb k - (if ((0 <? i) && (dnu D i <=? k) && (k <? n))%nat then pi (i - 1)%nat (k - dnu D i)%nat else 0)).
  { intros k Hk. unfold gc. destruct (Nat.ltb_spec 0 i); cbn [andb]; [|lra].
    destruct (Nat.leb_spec (dnu D i) k); cbn [andb].
    - destruct (Nat.ltb_spec k n); [|lia]. unfold AXPY. change n with (dnu D i + dnx D i)%nat in Hk. vn. rsimp. rewrite R_lit11. ixn. unfold pi. lra.
    - unfold AXPY. vn. lra. }
  set (lamk := if mc then _ else _).
  assert (Hlk : forall c, (c < nc)%nat -> lamk c = q_mask qp i c * lam i c).
  { intros c Hc. unfold lamk. destruct mc.
    - unfold VECMUL. vn. rsimp. lra.
    - unfold VECCP. vn. destruct Hmc as [|Hm]; [discriminate|]. rewrite Hm by assumption. lra. }
  assert (HGl : forall k, rsum nc (fun c => G qp i c k * lamk c) = rsum nc (fun c => G qp i c k * (q_mask qp i c * lam i c))).
  { intros k. apply rsum_ext. intros c Hc. rewrite Hlk by assumption. reflexivity. }
  destruct (ineq_block _ _ _ _ _ _ _ _ _ _) as [[[g1 d1] b0] b1] eqn:EI.
  set (gs := if Nat.ltb 0 ns then AXPY (2 * ns) (- f1)%F (q_rqz qp i) n (GEMV_DIAG (2 * ns) f1 (q_Z qp i) 0 (z i) n (lit 2 1) (q_rqz qp i) n g1 n) n
      (GEMV_DIAG (2 * ns) f1 (q_Z qp i) 0 (z i) n (lit 2 1) (q_rqz qp i) n g1 n) n else g1).
  set (gh := GEMV_DIAG (2 * ns) f1 (q_Z qp i) 0 (z i) n (lit 2 1) (q_rqz qp i) n g1 n) in *.
  assert (Hgh : forall k, (n <= k < n + 2 * ns)%nat -> gh k = 2 * q_rqz qp i k + rsum nv (fun l => Hess qp i k l * z i l)).
  { intros k Hk. unfold gh, GEMV_DIAG. vn. rsimp. rewrite R_lit11, Rmult_1_l. unfold Hess. fold n. rewrite Env, H_slack by assumption. ixn.
    unfold Rdiv. rewrite Rinv_1. lra. }
  assert (Hgs1 : forall k, (k < n)%nat -> gs k = g1 k).
  { intros k Hk. unfold gs. destruct (Nat.ltb_spec 0 ns); [|reflexivity]. unfold gh, AXPY, GEMV_DIAG. vn. reflexivity. }
  assert (Hgs2 : forall k, (n <= k < n + 2 * ns)%nat -> gs k = q_rqz qp i k + rsum nv (fun l => Hess qp i k l * z i l)).
  { intros k Hk. unfold gs. destruct (Nat.ltb_spec 0 ns); [|lia]. unfold AXPY. vn. ixn. rewrite Hgh by assumption. rsimp. rewrite R_lit11. lra. }
  destruct (if Nat.ltb 0 ns then soft_block n nb ng ns (q_idxs_rev qp i) (q_d qp i) (t i) (z i) lamk (gs, d1) else (gs, d1)) as [g2 d2] eqn:ES.
  pose proof (cons_blocks_R n nb ng ns (q_idxb qp i) (q_DCt qp i) (q_idxs_rev qp i) (q_d qp i) (t i) (z i) lamk Hwf _ _ _ _ _ _ _ _ gs g2 d2 EI (eq_sym ES) Hgs1) as (C1 & C2 & C3).
  change (2 * nb + 2 * ng + 2 * ns)%nat with nc in C1, C2, C3. rewrite <- Env in *.
  change (G_co n nb ng ns (q_idxb qp i) (q_DCt qp i) (q_idxs_rev qp i)) with (G qp i) in C1, C2, C3.
  set (obj1 := (r_obj res + _)%F). set (gap1 := (r_gap res + _)%F).
  set (qq := if Nat.ltb 0 ns then _ else _).
  assert (Eq : qq = (g2, d2, (if Nat.ltb 0 ns then obj1 + lit 1 2 * DOT (2 * ns) gh n (z i) n else obj1)%F,
                     (if Nat.ltb 0 ns then gap1 + DOT (2 * ns) gs n (z i) n else gap1)%F)).
  { unfold qq. unfold gs in *. destruct (Nat.ltb 0 ns) eqn:E.
    - fold gh. rewrite ES. reflexivity.
    - injection ES as -> ->. reflexivity. }
  rewrite Eq. clear qq Eq. clearbody gs gh.
  (* objective and gap *)
  set (qv := fun k => rsum nv (fun l => Hess qp i k l * z i l)) in *.
  assert (Hquad : rsum nv (fun k => rsum nv (fun l => z i k * Hess qp i k l * z i l)) = rsum nv (fun k => qv k * z i k)).
  { apply rsum_ext. intros k Hk. unfold qv. rewrite <- rsum_scal_r. apply rsum_ext. intros l Hl. lra. }
  assert (Hobj : (if Nat.ltb 0 ns then obj1 + lit 1 2 * DOT (2 * ns) gh n (z i) n else obj1)%F = r_obj res + stage_cost qp z i).
  { unfold stage_cost. fold D nv. rewrite Hquad. 
    assert (E1 : obj1 = r_obj res + / 2 * rsum n (fun k => (2 * q_rqz qp i k + qv k) * z i k)).
    { unfold obj1, DOT. rewrite fsum_R. rsimp. f_equal. f_equal; [lra|]. apply rsum_ext. intros k Hk. rewrite !Nat.add_0_l, Hga by assumption. reflexivity. }
    transitivity (r_obj res + / 2 * (rsum n (fun k => (2 * q_rqz qp i k + qv k) * z i k) + rsum (2 * ns) (fun l => (2 * q_rqz qp i (n + l)%nat + qv (n + l)%nat) * z i (n + l)%nat))).
    { destruct (Nat.ltb_spec 0 ns) as [Hs|Hs].
      - rewrite E1. unfold DOT. rewrite fsum_R. rsimp.
        rewrite (rsum_ext _ (fun k => gh (n + k)%nat * z i (n + k)%nat) (fun l => (2 * q_rqz qp i (n + l)%nat + qv (n + l)%nat) * z i (n + l)%nat)); [lra|].
        intros l Hl. rewrite Hgh by lia. reflexivity.
      - replace (2 * ns)%nat with 0%nat by lia. cbn [rsum]. rewrite E1. lra. }
    rewrite <- (rsum_split n (2 * ns) (fun k => (2 * q_rqz qp i k + qv k) * z i k)). rewrite <- Env.
    rewrite (rsum_ext nv _ (fun k => 2 * (q_rqz qp i k * z i k) + qv k * z i k)) by (intros; lra). rewrite rsum_add, rsum_scal. lra. }
  assert (Hgap : (if Nat.ltb 0 ns then gap1 + DOT (2 * ns) gs n (z i) n else gap1)%F =
    r_gap res + rsum nv (fun k => rsum nv (fun l => z i k * Hess qp i k l * z i l)) + rsum nv (fun k => q_rqz qp i k * z i k)).
  { rewrite Hquad.
    assert (E1 : gap1 = r_gap res + rsum n (fun k => (q_rqz qp i k + qv k) * z i k)).
    { unfold gap1, DOT. rewrite fsum_R. rsimp. f_equal. apply rsum_ext. intros k Hk. rewrite !Nat.add_0_l, Hgb by assumption. reflexivity. }
    transitivity (r_gap res + (rsum n (fun k => (q_rqz qp i k + qv k) * z i k) + rsum (2 * ns) (fun l => (q_rqz qp i (n + l)%nat + qv (n + l)%nat) * z i (n + l)%nat))).
    { destruct (Nat.ltb_spec 0 ns) as [Hs|Hs].
      - rewrite E1. unfold DOT. rewrite fsum_R. rsimp.
        rewrite (rsum_ext _ (fun k => gs (n + k)%nat * z i (n + k)%nat) (fun l => (q_rqz qp i (n + l)%nat + qv (n + l)%nat) * z i (n + l)%nat)); [lra|].
        intros l Hl. rewrite Hgs2 by lia. reflexivity.
      - replace (2 * ns)%nat with 0%nat by lia. cbn [rsum]. rewrite E1. lra. }
    rewrite <- (rsum_split n (2 * ns) (fun k => (q_rqz qp i k + qv k) * z i k)). rewrite <- Env.
    rewrite (rsum_ext nv _ (fun k => q_rqz qp i k * z i k + qv k * z i k)) by (intros; lra). rewrite rsum_add. lra. }
  rewrite Hobj. clear Hobj. revert Hgap. generalize (if Nat.ltb 0 ns then gap1 + DOT (2 * ns) gs n (z i) n else gap1)%F. intros gap2 Hgap. clear obj1 gap1.
  (* masked res_d *)
  set (d3 := if mc then VECMUL nc (q_mask qp i) 0 d2 0 d2 0 else d2).
  assert (Hd3 : forall c, (c < nc)%nat -> d3 c = kkt_d qp z t i c).
  { intros c Hc. unfold kkt_d, con. fold D nv. rewrite <- C3 by assumption. unfold d3. destruct mc.
    - unfold VECMUL. vn. reflexivity.
    - destruct Hmc as [|Hm]; [discriminate|]. rewrite Hm by assumption. lra. }
  set (m2 := if mc then _ else AXPY _ _ _ _ _ _ _ _).
  assert (Hm2 : forall c, (c < nc)%nat -> m2 c = kkt_m qp lam t i c).
  { intros c Hc. unfold kkt_m, m2. destruct mc.
    - unfold VECMUL, AXPY. vn. rsimp. rewrite Hlk, R_lit11 by assumption. lra.
    - unfold VECMUL, AXPY. vn. rsimp. rewrite Hlk, R_lit11 by assumption. destruct Hmc as [|Hm]; [discriminate|]. rewrite Hm by assumption. lra. }
  assert (Hmu : VECNRM_1 nc m2 0 = stage_mu).
  { rewrite VECNRM_1_R. unfold stage_mu. fold nc. apply rsum_ext. intros c Hc. rewrite Nat.add_0_l, Hm2 by assumption. reflexivity. }
  assert (Hdl : DOT nc (q_d qp i) 0 lamk 0 = rsum nc (fun c => q_d qp i c * (q_mask qp i c * lam i c))).
  { unfold DOT. rewrite fsum_R. apply rsum_ext. intros c Hc. rewrite !Nat.add_0_l, Hlk by assumption. reflexivity. }
  (* dynamics *)
  assert (Hfin : forall k, (k < nv)%nat -> g2 k = kkt_g qp z pi lam i k - (if ((i <? dN D) && (k <? n))%nat then rsum (dnx D (S i)) (fun j => q_BAbt qp i k j * pi i j) else 0)).
  { intros k Hk. unfold kkt_g. fold D n nv nc. rewrite <- HGl. destruct (Nat.ltb_spec k n) as [L|L].
    - rewrite C1, Hgc, Hgb by assumption. destruct (Nat.ltb_spec k n); [|lia]. unfold qv. lra.
    - rewrite C2, Hgs2 by lia. rewrite !Bool.andb_false_r. unfold qv. lra. }
  destruct (Nat.ltb_spec i (dN D)) as [HN|HN]; cbn [fst r_g r_b r_d r_m r_obj r_gap r_mu r_mu_sum GEMV_NT].
  - replace (i + 1)%nat with (S i) by lia. split; [|split; [|split; [|split; [|split; [|split; [|split; [|split]]]]]]].
    + intros k Hk. rewrite upd_same. unfold GEMV_N. destruct (Nat.ltb_spec k n) as [L|L].
      * vn. rewrite fsum_R, Hfin by assumption. cbn [andb]. destruct (Nat.ltb_spec k n); [|lia]. rsimp. rewrite R_lit11, !Rmult_1_l. unfold pi. cbn [Nat.add]. lra.
      * vn. rewrite Hfin by assumption. cbn [andb]. destruct (Nat.ltb_spec k n); [lia|]. lra.
    + intros j _ Hj. rewrite upd_same. unfold GEMV_T, AXPY. vn. rewrite fsum_R. rsimp. rewrite R_lit11, !Rmult_1_l. unfold dyn. fold D n. cbn [Nat.add]. unfold z. lra.
    + intros c Hc. rewrite upd_same. apply Hd3. assumption.
    + intros c Hc. rewrite upd_same. apply Hm2. assumption.
    + reflexivity.
    + unfold stage_gap. fold D nv nc. rsimp. rewrite Hdl, Hgap. destruct (Nat.ltb_spec i (dN D)); [|lia].
      unfold DOT. rewrite fsum_R. cbn [Nat.add]. rsimp. lra.
    + rsimp. rewrite Hmu. reflexivity.
    + reflexivity.
    + intros i' Hne. rewrite !upd_other by assumption. repeat split; reflexivity.
  - split; [|split; [|split; [|split; [|split; [|split; [|split; [|split]]]]]]].
    + intros k Hk. rewrite upd_same. rewrite Hfin by assumption. cbn [andb]. lra.
    + intros j Hj. lia.
    + intros c Hc. rewrite upd_same. apply Hd3. assumption.
    + intros c Hc. rewrite upd_same. apply Hm2. assumption.
    + reflexivity.
    + unfold stage_gap. fold D nv nc. rsimp. rewrite Hdl, Hgap. destruct (Nat.ltb_spec i (dN D)); [lia|]. lra.
    + rsimp. rewrite Hmu. reflexivity.
    + reflexivity.
    + intros i' Hne. rewrite !upd_other by assumption. repeat split; reflexivity.
Qed.
End StageRes.

(** The linear residual (OCP_QP_RES_COMPUTE_LIN) *)
Section StageLin.
Variables (mc : bool) (qp : oqp R) (sol stp : osol R) (i : nat).
Let D := q_dim qp.
Let z := s_ux stp. Let pi := s_pi stp. Let lam := s_lam stp. Let t := s_t stp.
Hypothesis Hwf : stage_wf (nux qp i) (dnb D i) (dng D i) (dns D i) (q_idxb qp i) (q_idxs_rev qp i).
Hypothesis Hmc : mc = true \/ forall c, (c < nct D i)%nat -> q_mask qp i c = 1.
Definition lin_m (c : nat) : R := q_mask qp i c * (q_m qp i c + s_lam sol i c * t i c + lam i c * s_t sol i c).

Lemma reslin_stage_R (Hi : (i <= dN D)%nat) res ws :
  let r := fst (reslin_stage mc qp sol stp i (res, ws)) in
  (forall k, (k < nvt D i)%nat -> r_g r i k = kkt_g qp z pi lam i k) /\
  (forall j, (i < dN D)%nat -> (j < dnx D (S i))%nat -> r_b r i j = dyn qp z i j) /\
  (forall c, (c < nct D i)%nat -> r_d r i c = kkt_d qp z t i c) /\
  (forall c, (c < nct D i)%nat -> r_m r i c = lin_m c) /\
  (forall i', i' <> i -> r_g r i' = r_g res i' /\ r_b r i' = r_b res i' /\ r_d r i' = r_d res i' /\ r_m r i' = r_m res i').
Proof.
  unfold reslin_stage. cbv zeta. fold D.
  set (n := nux qp i) in *. change (dnu D i + dnx D i)%nat with n. set (nb := dnb D i) in *. set (ng := dng D i) in *. set (ns := dns D i) in *.
  change (2 * nb + 2 * ng + 2 * ns)%nat with (nct D i). set (nc := nct D i) in *. set (nv := nvt D i).
  assert (Env : nv = (n + 2 * ns)%nat) by reflexivity.
  change (s_ux stp i) with (z i). change (s_lam stp i) with (lam i). change (s_t stp i) with (t i). change (s_pi stp i) with (pi i).
  set (gb := SYMV_L n f1 _ _ _ _ _ _ _ _ _ _).
  assert (Hgb : forall k, (k < n)%nat -> gb k = q_rqz qp i k + rsum nv (fun l => Hess qp i k l * z i l)).
  { intros k Hk. unfold gb, SYMV_L. vn. rewrite fsum_R. rsimp. rewrite R_lit11, !Rmult_1_l. unfold Hess. fold n. rewrite Env, H_hard by assumption. reflexivity. }
  set (gc := if Nat.ltb 0 i then _ else gb).
  assert (Hgc : forall k, (k < n)%nat -> gc k = gb k - (if ((0 <? i) && (dnu D i <=? k) && (k <? n))%nat then pi (i - 1)%nat (k - dnu D i)%nat else 0)).
  { intros k Hk. unfold gc. destruct (Nat.ltb_spec 0 i); cbn [andb]; [|lra].
    destruct (Nat.leb_spec (dnu D i) k); cbn [andb].
    - destruct (Nat.ltb_spec k n); [|lia]. unfold AXPY. change n with (dnu D i + dnx D i)%nat in Hk. vn. rsimp. rewrite R_lit11. ixn. unfold pi. lra.
    - unfold AXPY. vn. lra. }
  set (lamk := if mc then _ else _).
  assert (Hlk : forall c, (c < nc)%nat -> lamk c = q_mask qp i c * lam i c).
  { intros c Hc. unfold lamk. destruct mc.
    - unfold VECMUL. vn. rsimp. lra.
    - unfold VECCP. vn. destruct Hmc as [|Hm]; [discriminate|]. rewrite Hm by assumption. lra. }
  assert (HGl : forall k, rsum nc (fun c => G qp i c k * lamk c) = rsum nc (fun c => G qp i c k * (q_mask qp i c * lam i c))).
  { intros k. apply rsum_ext. intros c Hc. rewrite Hlk by assumption. reflexivity. }
  destruct (ineq_block _ _ _ _ _ _ _ _ _ _) as [[[g1 d1] b0] b1] eqn:EI.
  set (gs := if Nat.ltb 0 ns then GEMV_DIAG (2 * ns) f1 (q_Z qp i) 0 (z i) n f1 (q_rqz qp i) n g1 n else g1).
  assert (Hgs1 : forall k, (k < n)%nat -> gs k = g1 k).
  { intros k Hk. unfold gs. destruct (Nat.ltb_spec 0 ns); [|reflexivity]. unfold GEMV_DIAG. vn. reflexivity. }
  assert (Hgs2 : forall k, (n <= k < n + 2 * ns)%nat -> gs k = q_rqz qp i k + rsum nv (fun l => Hess qp i k l * z i l)).
  { intros k Hk. unfold gs. destruct (Nat.ltb_spec 0 ns); [|lia]. unfold GEMV_DIAG. vn. rsimp. rewrite R_lit11, !Rmult_1_l. unfold Hess. fold n. rewrite Env, H_slack by assumption. ixn. lra. }
  destruct (if Nat.ltb 0 ns then soft_block n nb ng ns (q_idxs_rev qp i) (q_d qp i) (t i) (z i) lamk (gs, d1) else (gs, d1)) as [g2 d2] eqn:ES.
  pose proof (cons_blocks_R n nb ng ns (q_idxb qp i) (q_DCt qp i) (q_idxs_rev qp i) (q_d qp i) (t i) (z i) lamk Hwf _ _ _ _ _ _ _ _ gs g2 d2 EI (eq_sym ES) Hgs1) as (C1 & C2 & C3).
  change (2 * nb + 2 * ng + 2 * ns)%nat with nc in C1, C2, C3. rewrite <- Env in *.
  change (G_co n nb ng ns (q_idxb qp i) (q_DCt qp i) (q_idxs_rev qp i)) with (G qp i) in C1, C2, C3.
  set (qq := if Nat.ltb 0 ns then _ else _).
  assert (Eq : qq = (g2, d2)).
  { unfold qq. unfold gs in *. destruct (Nat.ltb 0 ns) eqn:E.
    - rewrite ES. reflexivity.
    - injection ES as -> ->. reflexivity. }
  rewrite Eq. clear qq Eq. clearbody gs.
  set (d3 := if mc then VECMUL nc (q_mask qp i) 0 d2 0 d2 0 else d2).
  assert (Hd3 : forall c, (c < nc)%nat -> d3 c = kkt_d qp z t i c).
  { intros c Hc. unfold kkt_d, con. fold D nv. rewrite <- C3 by assumption. unfold d3. destruct mc.
    - unfold VECMUL. vn. reflexivity.
    - destruct Hmc as [|Hm]; [discriminate|]. rewrite Hm by assumption. lra. }
  set (m1 := VECMULACC nc (lam i) 0 (s_t sol i) 0 _ 0).
  assert (Hm1 : forall c, (c < nc)%nat -> m1 c = q_m qp i c + s_lam sol i c * t i c + lam i c * s_t sol i c).
  { intros c Hc. unfold m1, VECMULACC, VECCP. vn. reflexivity. }
  set (m2 := if mc then _ else m1).
  assert (Hm2 : forall c, (c < nc)%nat -> m2 c = lin_m c).
  { intros c Hc. unfold lin_m, m2. destruct mc.
    - unfold VECMUL. vn. rewrite Hm1 by assumption. reflexivity.
    - rewrite Hm1 by assumption. destruct Hmc as [|Hm]; [discriminate|]. rewrite Hm by assumption. lra. }
  assert (Hfin : forall k, (k < nv)%nat -> g2 k = kkt_g qp z pi lam i k - (if ((i <? dN D) && (k <? n))%nat then rsum (dnx D (S i)) (fun j => q_BAbt qp i k j * pi i j) else 0)).
  { intros k Hk. unfold kkt_g. fold D n nv nc. rewrite <- HGl. destruct (Nat.ltb_spec k n) as [L|L].
    - rewrite C1, Hgc, Hgb by assumption. destruct (Nat.ltb_spec k n); [|lia]. lra.
    - rewrite C2, Hgs2 by lia. rewrite !Bool.andb_false_r. lra. }
  destruct (Nat.ltb_spec i (dN D)) as [HN|HN]; cbn [fst r_g r_b r_d r_m GEMV_NT].
  - replace (i + 1)%nat with (S i) by lia. split; [|split; [|split; [|split]]].
    + intros k Hk. rewrite upd_same. unfold GEMV_N. destruct (Nat.ltb_spec k n) as [L|L].
      * vn. rewrite fsum_R, Hfin by assumption. cbn [andb]. destruct (Nat.ltb_spec k n); [|lia]. rsimp. rewrite R_lit11, !Rmult_1_l. unfold pi. cbn [Nat.add]. lra.
      * vn. rewrite Hfin by assumption. cbn [andb]. destruct (Nat.ltb_spec k n); [lia|]. lra.
    + intros j _ Hj. rewrite upd_same. unfold GEMV_T, AXPY. vn. rewrite fsum_R. rsimp. rewrite R_lit11, !Rmult_1_l. unfold dyn. fold D n. cbn [Nat.add]. unfold z. lra.
    + intros c Hc. rewrite upd_same. apply Hd3. assumption.
    + intros c Hc. rewrite upd_same. apply Hm2. assumption.
    + intros i' Hne. rewrite !upd_other by assumption. repeat split; reflexivity.
  - split; [|split; [|split; [|split]]].
    + intros k Hk. rewrite upd_same. rewrite Hfin by assumption. cbn [andb]. lra.
    + intros j Hj. lia.
    + intros c Hc. rewrite upd_same. apply Hd3. assumption.
    + intros c Hc. rewrite upd_same. apply Hm2. assumption.
    + intros i' Hne. rewrite !upd_other by assumption. repeat split; reflexivity.
Qed.
End StageLin.
