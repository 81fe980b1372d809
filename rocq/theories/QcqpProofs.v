(** QcqpProofs.v -- proofs about QcqpModel.v's residual computation: one stage. *)
From Coq Require Import ZArith Bool Arith Lia Reals Lra.
From Verif Require Import Base ArithF RSum Blas Blas2 OcpModel ResSpec ResProofs ResProofs2 QcqpModel QcqpSpec.
Local Open Scope R_scope.

Section Block.
Variables (n nb ng nq ns : nat) (idxb : nat -> nat) (Ct : nat -> nat -> R) (Hq : nat -> nat -> nat -> R) (sf : nat -> Z).
Variables (d t ux lamk : nat -> R).
Let nbgq := (nb + ng + nq)%nat.
Let o := (nb + ng)%nat.
Let ou := (2 * nb + 2 * ng + nq)%nat.
Definition b_grad (j k : nat) : R := Ct k (ng + j)%nat + rsum n (fun l => symL (Hq j) k l * ux l).
Definition b_h (j : nat) : R := 1 / 2 * rsum n (fun k => rsum n (fun l => symL (Hq j) k l * ux l) * ux k).
Definition b_val (j : nat) : R := b_h j + rsum n (fun k => Ct k (ng + j)%nat * ux k).
Definition b_Ct (k j : nat) : R := if (j <? ng)%nat then Ct k j else b_grad (j - ng) k.
Definition b_d (c : nat) : R := if ((o <=? c) && (c <? nbgq))%nat then d c + b_h (c - o)
  else if ((ou <=? c) && (c <? 2 * nbgq))%nat then d c - b_h (c - ou) else d c.

Lemma quad_block_R cache g bg0 bg1 gap x0 x1 :
  (forall j, (j < nq)%nat -> bg0 (o + j)%nat = lamk (ou + j)%nat) ->
  (match cache with None => True | Some (f, a) =>
     (forall j, (j < nq)%nat -> f j = b_val j) /\ (forall k, (k < n)%nat -> a k = rsum nq (fun j => lamk (ou + j)%nat * b_grad j k)) end) ->
  let '(g', bg0', bg1', gap', _, _) := quad_block cache n ng nq o ou Ct Hq ux lamk (g, bg0, bg1, gap, x0, x1) in
  (forall k, (k < n)%nat -> g' k = g k + rsum nq (fun j => lamk (ou + j)%nat * b_grad j k)) /\
  (forall k, (n <= k)%nat -> g' k = g k) /\
  (forall j, (j < o)%nat -> bg1' j = bg1 j) /\
  (forall j, (j < nq)%nat -> bg1' (o + j)%nat = b_val j) /\
  gap' = gap + rsum nq (fun j => lamk (ou + j)%nat * b_h j).
Proof.
  intros Hb0 Hc. unfold quad_block. destruct (Nat.ltb_spec 0 nq) as [Hp|Hp].
  2:{ replace nq with 0%nat by lia. cbn [rsum]. repeat split; intros; try lia; try lra; reflexivity. }
  destruct cache as [[f a]|].
  - destruct Hc as [Hf Ha]. split; [|split; [|split; [|split]]].
    + intros k Hk. unfold AXPY. vn. rewrite Ha by assumption. rsimp. rewrite R_lit11. lra.
    + intros k Hk. unfold AXPY. vn. reflexivity.
    + intros j Hj. unfold VECCP. vn. reflexivity.
    + intros j Hj. unfold VECCP. vn. replace (o + j - o)%nat with j by lia. apply Hf. exact Hj.
    + set (B := GEMV_T _ _ _ _ _ _ _ _ _ _ _ _ _).
      assert (HB : forall j, (j < nq)%nat -> B (o + j)%nat = b_h j).
      { intros j Hj. unfold B, GEMV_T. vn. replace (o + j - o)%nat with j by lia. rewrite fsum_R, Hf by assumption. rsimp. rewrite R_lit11. unfold b_val. cbn [Nat.add]. lra. }
      clearbody B. clear - HB.
      enough (H : forall m, (m <= nq)%nat -> loop m (fun jj gap0 => (gap0 + lamk (ou + jj)%nat * B (o + jj)%nat)%F) gap = gap + rsum m (fun j => lamk (ou + j)%nat * b_h j)) by (apply H; lia).
      induction m as [|m IH]; intros Hm; cbn [loop rsum]; [lra|]. rewrite IH by lia. rsimp. rewrite HB by lia. lra.
  - match goal with |- context [loop nq ?f ?s] => set (body := f) end.
    enough (H : forall m, (m <= nq)%nat -> let '(g', bg0', bg1', gap', _, _) := loop m body (g, bg0, bg1, gap, x0, x1) in
      (forall k, (k < n)%nat -> g' k = g k + rsum m (fun j => lamk (ou + j)%nat * b_grad j k)) /\
      (forall k, (n <= k)%nat -> g' k = g k) /\ bg0' = bg0 /\
      (forall j, (j < o)%nat -> bg1' j = bg1 j) /\
      (forall j, (j < m)%nat -> bg1' (o + j)%nat = b_val j) /\
      gap' = gap + rsum m (fun j => lamk (ou + j)%nat * b_h j)).
    { specialize (H nq (le_n _)). destruct (loop nq body _) as [[[[[g' c0] c1] gp] y0] y1]. destruct H as (A1 & A2 & _ & A3 & A4 & A5). repeat split; assumption. }
    induction m as [|m IH]; intros Hm.
    + cbn [loop rsum]. repeat split; intros; try lia; try lra; reflexivity.
    + rewrite loop_S. specialize (IH ltac:(lia)). destruct (loop m body _) as [[[[[g1 c0] c1] gp] y0] y1].
      destruct IH as (I1 & I2 & -> & I4 & I5 & I6). unfold body. clear body.
      set (X0 := SYMV_L _ _ _ _ _ _ _ _ _ _ _ _).
      assert (HX0 : forall k, (k < n)%nat -> X0 k = rsum n (fun l => symL (Hq m) k l * ux l)).
      { intros k Hk. unfold X0, SYMV_L. vn. rewrite fsum_R. rsimp. rewrite R_lit11, R_lit01. cbn [Nat.add]. change (symL (fun r c => Hq m r c)) with (symL (Hq m)). lra. }
      set (X1 := COLEX _ _ _ _ _ _).
      assert (HX1 : forall k, (k < n)%nat -> X1 k = Ct k (ng + m)%nat).
      { intros k Hk. unfold X1, COLEX. vn. reflexivity. }
      clearbody X0 X1. rewrite Hb0 by lia.
      split; [|split; [|split; [reflexivity|split; [|split]]]].
      * intros k Hk. unfold AXPY. vn. rewrite I1, HX0, HX1 by assumption. cbn [rsum]. unfold b_grad. rsimp. lra.
      * intros k Hk. unfold AXPY. vn. apply I2. assumption.
      * intros j Hj. rewrite upd_other by lia. apply I4. assumption.
      * intros j Hj. destruct (Nat.eq_dec j m) as [->|].
        -- rewrite upd_same. unfold DOT. rewrite fsum_R. unfold b_val, b_h. rewrite <- rsum_scal, <- rsum_add. apply rsum_ext. intros k Hk. unfold AXPY. vn. rewrite HX0, HX1 by assumption. rsimp. lra.
        -- rewrite upd_other by lia. apply I5. lia.
      * rewrite I6. cbn [rsum]. unfold DOT. rewrite fsum_R. unfold b_h.
        rewrite (rsum_ext n (fun i => (X0 (0 + i)%nat * ux (0 + i)%nat)%F) (fun k => rsum n (fun l => symL (Hq m) k l * ux l) * ux k)).
        2:{ intros k Hk. cbn [Nat.add]. rewrite HX0 by assumption. reflexivity. }
        rsimp. lra.
Qed.

Notation rowc := (row_co nb idxb b_Ct).
Lemma row_quad j : (j < nq)%nat -> rsum n (fun k => rowc (o + j) k * ux k) = b_val j + b_h j.
Proof.
  intros Hj. unfold b_val, b_h.
  transitivity (rsum n (fun k => Ct k (ng + j)%nat * ux k + rsum n (fun l => symL (Hq j) k l * ux l) * ux k)).
  - apply rsum_ext. intros k Hk. unfold row_co, o. destruct (Nat.ltb_spec (nb + ng + j) nb); [lia|]. unfold b_Ct. destruct (Nat.ltb_spec (nb + ng + j - nb) ng); [lia|].
    replace (nb + ng + j - nb - ng)%nat with j by lia. unfold b_grad. lra.
  - rewrite rsum_add. lra.
Qed.

Lemma qineq_block_R cache g dd bg0 bg1 gap x0 x1 : (forall j, (j < nb)%nat -> (idxb j < n)%nat) ->
  (forall j, (j < nq)%nat -> lamk (o + j)%nat = 0) ->
  (match cache with None => True | Some (f, a) =>
     (forall j, (j < nq)%nat -> f j = b_val j) /\ (forall k, (k < n)%nat -> a k = rsum nq (fun j => lamk (ou + j)%nat * b_grad j k)) end) ->
  let '(g', dd', _, _, gap', _, _) := qineq_block cache n nb ng nq idxb Ct Hq d t ux lamk (g, dd, bg0, bg1, gap, x0, x1) in
  (forall k, (k < n)%nat -> g' k = g k + rsum nbgq (fun j => rowc j k * (lamk (nbgq + j)%nat - lamk j))) /\
  (forall k, (n <= k)%nat -> g' k = g k) /\
  (forall c, (c < nbgq)%nat -> dd' c = b_d c + t c - rsum n (fun k => rowc c k * ux k)) /\
  (forall c, (nbgq <= c < 2 * nbgq)%nat -> dd' c = b_d c + t c + rsum n (fun k => rowc (c - nbgq) k * ux k)) /\
  (forall c, (2 * nbgq <= c)%nat -> dd' c = dd c) /\
  gap' = gap + rsum nq (fun j => lamk (ou + j)%nat * b_h j).
Proof.
  intros Hidx Hl0 Hc. unfold qineq_block. fold nbgq. destruct (Nat.ltb_spec 0 nbgq) as [Hp|Hp].
  2:{ assert (nb = 0%nat) by (unfold nbgq in *; lia). assert (ng = 0%nat) by (unfold nbgq in *; lia). assert (nq = 0%nat) by (unfold nbgq in *; lia).
      repeat split; intros; try (unfold nbgq in *; lia); try reflexivity.
      - replace nbgq with 0%nat by (unfold nbgq in *; lia). cbn [rsum]. lra.
      - replace nq with 0%nat by lia. cbn [rsum]. lra. }
  set (b0 := AXPY nbgq _ lamk 0 lamk nbgq bg0 0).
  assert (Hb0 : forall j, (j < nbgq)%nat -> b0 j = lamk (nbgq + j)%nat - lamk j).
  { intros j Hj. unfold b0, AXPY. vn. rsimp. rewrite R_lit11. lra. }
  set (D1 := AXPY (2 * nb + 2 * ng + 2 * nq) f1 d 0 t 0 dd 0).
  assert (HD1 : forall c, (c < 2 * nbgq)%nat -> D1 c = d c + t c).
  { intros c Hc'. unfold nbgq in *. unfold D1, AXPY. vn. rsimp. rewrite R_lit11. lra. }
  assert (HD1' : forall c, (2 * nbgq <= c)%nat -> D1 c = dd c).
  { intros c Hc'. unfold nbgq in *. unfold D1, AXPY. vn. reflexivity. }
  destruct (if Nat.ltb 0 nb then _ else _) as [g1 b1] eqn:E1.
  assert (Hg1 : forall k, g1 k = g k + rsum nb (fun j => if (idxb j =? k)%nat then b0 j else 0)).
  { intros k. destruct (Nat.ltb_spec 0 nb) as [Hn|Hn]; injection E1 as <- <-.
    - rewrite VECAD_SP_R. f_equal. apply rsum_ext. intros j _. rewrite !Nat.add_0_l. destruct (idxb j =? k)%nat; [|reflexivity].
      rsimp. rewrite R_lit11. lra.
    - replace nb with 0%nat by lia. cbn [rsum]. lra. }
  assert (Hb1 : forall j, (j < nb)%nat -> b1 j = ux (idxb j)).
  { intros j Hj. destruct (Nat.ltb_spec 0 nb) as [Hn|Hn]; [|lia]. injection E1 as <- <-. unfold VECEX_SP. vn. rsimp. rewrite R_lit11. lra. }
  destruct (if Nat.ltb 0 ng then _ else _) as [g2 b2] eqn:E2.
  assert (Hg2 : forall k, (k < n)%nat -> g2 k = g1 k + rsum ng (fun j => Ct k j * b0 (nb + j)%nat)).
  { intros k Hk. destruct (Nat.ltb_spec 0 ng) as [Hn|Hn]; injection E2 as <- <-.
    - unfold GEMV_N. vn. rewrite fsum_R. rsimp. rewrite R_lit11, !Rmult_1_l. reflexivity.
    - replace ng with 0%nat by lia. cbn [rsum]. lra. }
  assert (Hg2' : forall k, (n <= k)%nat -> g2 k = g1 k).
  { intros k Hk. destruct (Nat.ltb_spec 0 ng) as [Hn|Hn]; injection E2 as <- <-; [|reflexivity]. unfold GEMV_N. vn. reflexivity. }
  assert (Hb2 : forall j, (j < nb)%nat -> b2 j = ux (idxb j)).
  { intros j Hj. rewrite <- Hb1 by assumption. destruct (Nat.ltb_spec 0 ng) as [Hn|Hn]; injection E2 as <- <-; [|reflexivity]. unfold GEMV_T. vn. reflexivity. }
  assert (Hb2' : forall j, (nb <= j < nb + ng)%nat -> b2 j = rsum n (fun k => Ct k (j - nb)%nat * ux k)).
  { intros j Hj. destruct (Nat.ltb_spec 0 ng) as [Hn|Hn]; [|lia]. injection E2 as <- <-. unfold GEMV_T. vn. rewrite fsum_R. rsimp.
    rewrite R_lit11, R_lit01. rewrite Rmult_0_l, Rplus_0_l, Rmult_1_l. reflexivity. }
  fold o ou.
  pose proof (quad_block_R cache g2 b0 b2 gap x0 x1) as HQ.
  destruct (quad_block _ _ _ _ _ _ _ _ _ _ _) as [[[[[g3 b0'] b3] gap'] y0] y1].
  destruct HQ as (Q1 & Q2 & Q3 & Q4 & Q5).
  { intros j Hj. rewrite Hb0 by (unfold o, nbgq; lia). rewrite Hl0 by assumption. replace (nbgq + (o + j))%nat with (ou + j)%nat by (unfold o, ou, nbgq; lia). lra. }
  { exact Hc. }
  assert (Hrow : forall j, (j < nbgq)%nat -> (j < o)%nat /\ b3 j = rsum n (fun k => rowc j k * ux k) \/
     (o <= j)%nat /\ b3 j = rsum n (fun k => rowc j k * ux k) - b_h (j - o)).
  { intros j Hj. destruct (Nat.ltb_spec j o) as [L|L].
    - left. split; [exact L|]. rewrite Q3 by assumption. destruct (Nat.ltb_spec j nb) as [H|H].
      + rewrite Hb2, row_val; auto.
      + rewrite Hb2', row_val_g by (unfold o in *; lia). apply rsum_ext. intros k Hk. unfold b_Ct. destruct (Nat.ltb_spec (j - nb) ng); [reflexivity|unfold o in *; lia].
    - right. split; [exact L|]. pose proof (row_quad (j - o) ltac:(unfold o, nbgq in *; lia)) as Er. pose proof (Q4 (j - o)%nat ltac:(unfold o, nbgq in *; lia)) as Eq.
      replace (o + (j - o))%nat with j in Er, Eq by lia. rewrite Er, Eq. lra. }
  split; [|split; [|split; [|split; [|split]]]].
  - intros k Hk. rewrite Q1, Hg2, Hg1 by assumption. unfold nbgq at 1. rewrite (rsum_split (nb + ng)), (rsum_split nb).
    assert (F1 : rsum nb (fun j => if (idxb j =? k)%nat then b0 j else 0) = rsum nb (fun j => rowc j k * (lamk (nbgq + j)%nat - lamk j))).
    { apply rsum_ext. intros j Hj. unfold row_co. destruct (Nat.ltb_spec j nb); [|lia]. rewrite Hb0 by (unfold nbgq; lia). destruct (idxb j =? k)%nat; lra. }
    assert (F2 : rsum ng (fun j => Ct k j * b0 (nb + j)%nat) = rsum ng (fun j => rowc (nb + j) k * (lamk (nbgq + (nb + j))%nat - lamk (nb + j)%nat))).
    { apply rsum_ext. intros j Hj. unfold row_co. destruct (Nat.ltb_spec (nb + j) nb); [lia|]. rewrite Hb0 by (unfold nbgq; lia).
      replace (nb + j - nb)%nat with j by lia. unfold b_Ct. destruct (Nat.ltb_spec j ng); [|lia]. reflexivity. }
    assert (F3 : rsum nq (fun j => lamk (ou + j)%nat * b_grad j k) = rsum nq (fun j => rowc (nb + ng + j) k * (lamk (nbgq + (nb + ng + j))%nat - lamk (nb + ng + j)%nat))).
    { apply rsum_ext. intros j Hj. unfold row_co. destruct (Nat.ltb_spec (nb + ng + j) nb); [lia|]. unfold b_Ct. destruct (Nat.ltb_spec (nb + ng + j - nb) ng); [lia|].
      replace (nb + ng + j - nb - ng)%nat with j by lia. pose proof (Hl0 j Hj) as E0. unfold o in E0. rewrite E0.
      replace (nbgq + (nb + ng + j))%nat with (ou + j)%nat by (unfold ou, nbgq; lia). lra. }
    lra.
  - intros k Hk. rewrite Q2, Hg2', Hg1 by assumption. rewrite rsum_0; [lra|]. intros j Hj. destruct (Nat.eqb_spec (idxb j) k); [|reflexivity].
    specialize (Hidx j Hj). lia.
  - intros c Hcc. unfold AXPY. vn. rewrite HD1 by lia. unfold b_d. destruct (Hrow c Hcc) as [(L & ->)|(L & ->)]; rsimp; rewrite R_lit11.
    + destruct (Nat.leb_spec o c); [lia|]. cbn [andb]. destruct (Nat.leb_spec ou c); [unfold o, ou in *; lia|]. cbn [andb]. lra.
    + destruct (Nat.leb_spec o c); [|lia]. destruct (Nat.ltb_spec c nbgq); [|lia]. cbn [andb]. lra.
  - intros c Hcc. unfold AXPY. vn. ixn. rewrite HD1 by lia. unfold b_d. destruct (Hrow (c - nbgq)%nat ltac:(lia)) as [(L & ->)|(L & ->)]; rsimp; rewrite R_lit11.
    + destruct (Nat.ltb_spec c nbgq); [lia|]. rewrite andb_false_r. destruct (Nat.leb_spec ou c); [unfold o, ou, nbgq in *; lia|]. cbn [andb]. lra.
    + destruct (Nat.ltb_spec c nbgq); [lia|]. rewrite andb_false_r. destruct (Nat.leb_spec ou c); [|unfold o, ou, nbgq in *; lia]. destruct (Nat.ltb_spec c (2 * nbgq)); [|lia]. cbn [andb].
      replace (c - nbgq - o)%nat with (c - ou)%nat by (unfold o, ou, nbgq; lia). lra.
  - intros c Hcc. unfold AXPY. vn. apply HD1'. assumption.
  - exact Q5.
Qed.

(** both blocks together (cf. cons_blocks_R) *)
Notation Gc := (G_co n nb (ng + nq) ns idxb b_Ct sf).
Lemma qcons_blocks_R (Hwf : stage_wf n nb (ng + nq) ns idxb sf) cache g dd bg0 bg1 gap x0 x1 g1 d1 c0 c1 gp y0 y1 (gs : nat -> R) g2 d2 :
  (forall j, (j < nq)%nat -> lamk (o + j)%nat = 0) ->
  (match cache with None => True | Some (f, a) =>
     (forall j, (j < nq)%nat -> f j = b_val j) /\ (forall k, (k < n)%nat -> a k = rsum nq (fun j => lamk (ou + j)%nat * b_grad j k)) end) ->
  qineq_block cache n nb ng nq idxb Ct Hq d t ux lamk (g, dd, bg0, bg1, gap, x0, x1) = (g1, d1, c0, c1, gp, y0, y1) ->
  (g2, d2) = (if Nat.ltb 0 ns then soft_block n nb (ng + nq) ns sf d t ux lamk (gs, d1) else (gs, d1)) ->
  (forall k, (k < n)%nat -> gs k = g1 k) ->
  let nc := (2 * nb + 2 * (ng + nq) + 2 * ns)%nat in
  (forall k, (k < n)%nat -> g2 k = g k - rsum nc (fun c => Gc c k * lamk c)) /\
  (forall k, (n <= k < n + 2 * ns)%nat -> g2 k = gs k - rsum nc (fun c => Gc c k * lamk c)) /\
  (forall c, (c < nc)%nat -> d2 c = b_d c + t c - rsum (n + 2 * ns) (fun k => Gc c k * ux k)) /\
  gp = gap + rsum nq (fun j => lamk (ou + j)%nat * b_h j).
Proof.
  intros Hl0 Hcc E1 E2 Hgs nc. pose proof (qineq_block_R cache g dd bg0 bg1 gap x0 x1 (proj1 Hwf) Hl0 Hcc) as H1. rewrite E1 in H1. destruct H1 as (A1 & A2 & A3 & A4 & A5 & A6).
  assert (Enb : (nb + (ng + nq) = nbgq)%nat) by (unfold nbgq; lia).
  assert (Ebd : forall c, (2 * nbgq <= c)%nat -> b_d c = d c).
  { intros c Hc. unfold b_d. destruct (Nat.ltb_spec c nbgq); [lia|]. rewrite andb_false_r. destruct (Nat.ltb_spec c (2 * nbgq)); [lia|]. rewrite andb_false_r. reflexivity. }
  destruct (Nat.ltb_spec 0 ns) as [Hs|Hs].
  - pose proof (soft_block_R n nb (ng + nq) ns idxb b_Ct sf d t ux lamk gs d1) as H2. rewrite <- E2 in H2. cbn [fst snd] in H2. destruct H2 as (B1 & B2 & B3 & B4 & B5).
    split; [|split; [|split]].
    + intros k Hk. unfold nc. rewrite B1, Hgs, A1, GT_hard by assumption. rewrite Enb. lra.
    + intros k Hk. replace k with (n + (k - n))%nat by lia. rewrite B2 by lia. reflexivity.
    + intros c Hc. unfold nc in Hc. destruct (Nat.ltb_spec c nbgq) as [L|L]; [|destruct (Nat.ltb_spec c (2 * nbgq)) as [L2|L2]].
      * rewrite B3, A3, G_val_lo by (try assumption; rewrite ?Enb; lia). lra.
      * rewrite B4, A4, G_val_up by (try assumption; rewrite ?Enb; lia). rewrite Enb. lra.
      * rewrite B5, G_val_sl by (try assumption; rewrite ?Enb; lia). rewrite Ebd by lia. reflexivity.
    + exact A6.
  - injection E2 as -> ->.
    assert (Hsf : forall j, (j < nbgq)%nat -> (sf j =? -1)%Z = true).
    { intros j Hj. destruct (proj2 Hwf j ltac:(lia)) as [E|E]; [rewrite E; reflexivity|lia]. }
    split; [|split; [|split]].
    + intros k Hk. unfold nc. rewrite Hgs, A1, GT_hard by assumption. rewrite Enb. lra.
    + intros k Hk. lia.
    + intros c Hc. unfold nc in Hc. destruct (Nat.ltb_spec c nbgq) as [L|L]; [|destruct (Nat.ltb_spec c (2 * nbgq)) as [L2|L2]].
      * rewrite A3, G_val_lo, Hsf by (try assumption; rewrite ?Enb; lia). lra.
      * rewrite A4, G_val_up, Enb, Hsf by (try assumption; rewrite ?Enb; lia). lra.
      * lia.
    + exact A6.
Qed.
End Block.
