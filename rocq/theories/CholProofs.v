(** CholProofs.v -- real-number meaning of the factorisation and triangular-solve routines. *)
From Coq Require Import ZArith Bool Arith Lia Reals Lra.
From Verif Require Import Base ArithF RSum Blas Blas2.
Local Open Scope R_scope.

Notation rmat := (nat -> nat -> R).
Notation rvec := (nat -> R).

(** lower-triangular part *)
Definition lt (A : rmat) (i k : nat) : R := if (k <=? i)%nat then A i k else 0.
Lemma lt_in A i k : (k <= i)%nat -> lt A i k = A i k.
Proof. intros H. unfold lt. destruct (Nat.leb_spec k i); [reflexivity|lia]. Qed.
Lemma lt_out A i k : (i < k)%nat -> lt A i k = 0.
Proof. intros H. unfold lt. destruct (Nat.leb_spec k i); [lia|reflexivity]. Qed.
Lemma rsum_low n j f : (j < n)%nat -> rsum n (fun k => if (k <=? j)%nat then f k else 0) = rsum (S j) f.
Proof.
  intros H. replace n with (S j + (n - S j))%nat by lia. rewrite (rsum_split (S j) (n - S j)).
  rewrite (rsum_0 (n - S j)). 2:{ intros k Hk. destruct (Nat.leb_spec (S j + k) j); [lia|reflexivity]. }
  rewrite (rsum_ext (S j) _ f). 2:{ intros k Hk. destruct (Nat.leb_spec k j); [reflexivity|lia]. } lra.
Qed.
Lemma rsum_high n j f : (j <= n)%nat -> rsum n (fun k => if (j <=? k)%nat then f k else 0) = rsum (n - j) (fun k => f (j + k)%nat).
Proof.
  intros H. replace n with (j + (n - j))%nat at 1 by lia. rewrite (rsum_split j (n - j)).
  rewrite (rsum_0 j). 2:{ intros k Hk. destruct (Nat.leb_spec j k); [lia|reflexivity]. }
  rewrite (rsum_ext (n - j) _ (fun k => f (j + k)%nat)). 2:{ intros k Hk. destruct (Nat.leb_spec j (j + k)); [reflexivity|lia]. } lra.
Qed.

Lemma mupd_in (B : rmat) bi bj m n sel g i j : (i < m)%nat -> (j < n)%nat -> mupd B bi bj m n sel g (bi + i)%nat (bj + j)%nat = if sel i j then g i j else B (bi + i)%nat (bj + j)%nat.
Proof.
  intros Hi Hj. unfold mupd. destruct (Nat.leb_spec bi (bi + i)); [|lia]. destruct (Nat.ltb_spec (bi + i) (bi + m)); [|lia].
  destruct (Nat.leb_spec bj (bj + j)); [|lia]. destruct (Nat.ltb_spec (bj + j) (bj + n)); [|lia]. cbn [andb].
  replace (bi + i - bi)%nat with i by lia. replace (bj + j - bj)%nat with j by lia. reflexivity.
Qed.
Lemma mupd_out (B : rmat) bi bj m n sel g r c : (r < bi \/ bi + m <= r \/ c < bj \/ bj + n <= c)%nat -> mupd B bi bj m n sel g r c = B r c.
Proof.
  intros H. unfold mupd. destruct (Nat.leb_spec bi r); cbn [andb]; [|reflexivity]. destruct (Nat.ltb_spec r (bi + m)); cbn [andb]; [|reflexivity].
  destruct (Nat.leb_spec bj c); cbn [andb]; [|reflexivity]. destruct (Nat.ltb_spec c (bj + n)); [lia|reflexivity].
Qed.
Lemma mupd_at (B : rmat) bi bj m n sel g r c : mupd B bi bj m n sel g r c =
  if ((bi <=? r) && (r <? bi + m) && ((bj <=? c) && (c <? bj + n)) && sel (r - bi) (c - bj))%nat then g (r - bi)%nat (c - bj)%nat else B r c.
Proof. unfold mupd. destruct (_ && _ && _)%bool; cbn [andb]; reflexivity. Qed.

(** ** Cholesky *)
Definition piv (C D : rmat) (j : nat) : R := C j j - rsum j (fun k => D j k * D j k).
Definition pinv (p : R) : R := if Rltb 0 p then 1 / sqrt p else 0.
Lemma potrf_loop m n (C D : rmat) (dA : rvec) : (n <= m)%nat -> let '(D', dA') := loop n (potrf_col m C 0 0 0 0) (D, dA) in
  (forall i j, (j < n)%nat -> (j <= i < m)%nat -> D' i j = (C i j - rsum j (fun k => D' i k * D' j k)) * dA' j) /\
  (forall j, (j < n)%nat -> dA' j = pinv (piv C D' j)) /\
  (forall i j, (n <= j \/ i < j \/ m <= i)%nat -> D' i j = D i j) /\
  (forall j, (n <= j)%nat -> dA' j = dA j).
Proof.
  induction n as [|n IH]; intros Hn.
  - cbn [loop]. split; [intros; lia|]. split; [intros; lia|]. split; reflexivity.
  - cbn [loop]. destruct (loop n (potrf_col m C 0 0 0 0) (D, dA)) as [Dn dn]. specialize (IH ltac:(lia)). destruct IH as (I1 & I2 & I3 & I4).
    unfold potrf_col. cbn [Nat.add]. rewrite fsum_R. rsimp.
    set (p := C n n - _) in *. set (iv := if Rltb _ _ then _ else _).
    assert (Eiv : iv = pinv p). { unfold iv, pinv. rewrite R_lit01, R_lit11. reflexivity. }
    set (D' := mupd Dn 0 n m 1 _ _).
    assert (Dold : forall i j, (j <> n)%nat -> D' i j = Dn i j). { intros i j H. unfold D'. apply mupd_out. lia. }
    assert (Dnew : forall i, (n <= i < m)%nat -> D' i n = (C i n - rsum n (fun k => Dn i k * Dn n k)) * iv).
    { intros i H. unfold D'. rewrite mupd_at. cbn [Nat.add]. rewrite ?Nat.sub_0_r.
      destruct (Nat.leb_spec 0 i); [|lia]. destruct (Nat.ltb_spec i m); [|lia]. destruct (Nat.leb_spec n n); [|lia]. destruct (Nat.ltb_spec n (n + 1)); [|lia].
      destruct (Nat.leb_spec n i); [|lia]. cbn [andb]. rewrite fsum_R. reflexivity. }
    assert (Dup : forall i, (i < n \/ m <= i)%nat -> D' i n = Dn i n).
    { intros i H. unfold D'. rewrite mupd_at. cbn [Nat.add]. rewrite Nat.sub_0_r. destruct (Nat.ltb_spec i m), (Nat.leb_spec n i); try lia; rewrite ?andb_false_r; cbn [andb]; try reflexivity; rewrite ?andb_false_r; reflexivity. }
    assert (Es : forall i j, (j <= n)%nat -> rsum j (fun k => D' i k * D' j k) = rsum j (fun k => Dn i k * Dn j k)).
    { intros i j Hj. apply rsum_ext. intros k Hk. rewrite !Dold by lia. reflexivity. }
    assert (Ep : forall j, (j <= n)%nat -> piv C D' j = piv C Dn j).
    { intros j Hj. unfold piv. f_equal. apply rsum_ext. intros k Hk. rewrite !Dold by lia. reflexivity. }
    split; [|split; [|split]].
    + intros i j Hj Hi. rewrite Es by lia. destruct (Nat.eq_dec j n) as [->|Hne].
      * rewrite upd_same. rewrite Dnew by lia. reflexivity.
      * rewrite upd_other by lia. rewrite Dold by lia. apply I1; lia.
    + intros j Hj. rewrite Ep by lia. destruct (Nat.eq_dec j n) as [->|Hne].
      * rewrite upd_same. rewrite Eiv. reflexivity.
      * rewrite upd_other by lia. apply I2; lia.
    + intros i j H. destruct (Nat.eq_dec j n) as [->|Hne].
      * rewrite Dup by lia. apply I3. lia.
      * rewrite Dold by lia. apply I3. lia.
    + intros j H. rewrite upd_other by lia. apply I4. lia.
Qed.

(** the factorisation, when every inverse pivot it stored is non-zero *)
Lemma potrf_R m n (C D : rmat) (dA : rvec) : (n <= m)%nat -> let '(D', dA') := POTRF_L_MN m n C 0 0 D 0 0 dA in
  (forall j, (j < n)%nat -> dA' j <> 0) ->
  (forall i j, (j < n)%nat -> (j <= i < m)%nat -> rsum (S j) (fun k => D' i k * D' j k) = C i j) /\
  (forall j, (j < n)%nat -> 0 < D' j j) /\
  (forall i j, (n <= j \/ i < j \/ m <= i)%nat -> D' i j = D i j).
Proof.
  intros Hn. unfold POTRF_L_MN. pose proof (potrf_loop m n C D dA Hn) as H. destruct (loop n _ _) as [D' dA']. destruct H as (I1 & I2 & I3 & I4).
  intros Hnz.
  assert (Hp : forall j, (j < n)%nat -> 0 < piv C D' j /\ dA' j = 1 / sqrt (piv C D' j) /\ D' j j = sqrt (piv C D' j)).
  { intros j Hj. specialize (Hnz j Hj). rewrite I2 in Hnz by assumption. unfold pinv in Hnz. destruct (Rltb_spec 0 (piv C D' j)) as [Hpos|]; [|lra].
    split; [exact Hpos|]. assert (Ed : dA' j = 1 / sqrt (piv C D' j)). { rewrite I2 by assumption. unfold pinv. destruct (Rltb_spec 0 (piv C D' j)); [reflexivity|lra]. }
    split; [exact Ed|]. rewrite I1 by lia. rewrite Ed. change (C j j - rsum j (fun k => D' j k * D' j k)) with (piv C D' j).
    pose proof (sqrt_lt_R0 _ Hpos) as Hs. rewrite <- (sqrt_sqrt (piv C D' j)) at 1 by lra. field. lra. }
  split; [|split; [|exact I3]].
  - intros i j Hj Hi. cbn [rsum]. destruct (Hp j Hj) as (Hpos & Ed & Ejj). rewrite I1 at 1 by lia. rewrite Ed, Ejj. pose proof (sqrt_lt_R0 _ Hpos) as Hs. field. lra.
  - intros j Hj. destruct (Hp j Hj) as (Hpos & _ & E). rewrite E. apply sqrt_lt_R0. exact Hpos.
Qed.

(** ** Triangular solves *)
Lemma trsv_ltn_R m n (A : rmat) (x z : rvec) : (n <= m)%nat -> (forall j, (j < n)%nat -> A j j <> 0) ->
  let z' := TRSV_LTN_MN m n A 0 0 x 0 z 0 in
  (forall i, (i < n)%nat -> rsum m (fun r => lt A r i * z' r) = x i) /\
  (forall i, (n <= i < m)%nat -> z' i = x i) /\ (forall i, (m <= i)%nat -> z' i = z i).
Proof.
  intros Hn Hd. cbv zeta. unfold TRSV_LTN_MN.
  set (f := fun (k : nat) (z0 : nat -> R) => _).
  assert (H : forall t, (t <= n)%nat -> let z' := loop t f (VECCP m x 0 z 0) in
    (forall i, (n - t <= i < n)%nat -> A i i * z' i + rsum (m - 1 - i) (fun r => A (i + 1 + r)%nat i * z' (i + 1 + r)%nat) = x i) /\
    (forall i, (i < n - t \/ n <= i < m)%nat -> z' i = x i) /\ (forall i, (m <= i)%nat -> z' i = z i)).
  { induction t as [|t IH]; intros Ht; cbv zeta.
    - cbn [loop]. split; [intros; lia|]. unfold VECCP. split; intros i Hi.
      + unfold vset. destruct (Nat.leb_spec 0 i); [|lia]. destruct (Nat.ltb_spec i (0 + m)); [|lia]. cbn [andb Nat.add]. rewrite Nat.sub_0_r. reflexivity.
      + unfold vset. destruct (Nat.ltb_spec i (0 + m)); [lia|]. rewrite andb_false_r. reflexivity.
    - specialize (IH ltac:(lia)). cbv zeta in IH. cbn [loop]. set (zt := loop t f _) in *. destruct IH as (I1 & I2 & I3).
      unfold f. cbn [Nat.add]. rewrite fsum_R. rsimp. set (q := (n - 1 - t)%nat).
      set (v := (zt q - _) * _).
      assert (Eother : forall i, i <> q -> upd zt q v i = zt i) by (intros; apply upd_other; auto).
      assert (Es : forall i, (q <= i)%nat -> rsum (m - 1 - i) (fun r => A (i + 1 + r)%nat i * upd zt q v (i + 1 + r)%nat) = rsum (m - 1 - i) (fun r => A (i + 1 + r)%nat i * zt (i + 1 + r)%nat)).
      { intros i Hi. apply rsum_ext. intros r Hr. rewrite Eother by lia. reflexivity. }
      split; [|split].
      + intros i Hi. rewrite Es by (unfold q; lia). destruct (Nat.eq_dec i q) as [->|Hne].
        * rewrite upd_same. unfold v. rewrite I2 by (unfold q; lia). rewrite R_lit11. field. apply Hd. unfold q. lia.
        * rewrite Eother by assumption. apply I1. unfold q in Hne. lia.
      + intros i Hi. rewrite Eother by (unfold q; lia). apply I2. lia.
      + intros i Hi. rewrite Eother by (unfold q; lia). apply I3. lia. }
  specialize (H n ltac:(lia)). cbv zeta in H. set (z' := loop n f _) in *. destruct H as (I1 & I2 & I3).
  split; [|split; [intros; apply I2; lia|exact I3]].
  intros i Hi. rewrite <- (I1 i) by lia.
  transitivity (rsum m (fun r => if (i <=? r)%nat then A r i * z' r else 0)).
  { apply rsum_ext. intros r _. unfold lt. destruct (i <=? r)%nat; lra. }
  rewrite (rsum_high m i (fun r => A r i * z' r)) by lia.
  replace (m - i)%nat with (S (m - 1 - i)) by lia. rewrite rsum_S_l. rewrite Nat.add_0_r. f_equal.
  apply rsum_ext. intros r _. replace (i + S r)%nat with (i + 1 + r)%nat by lia. reflexivity.
Qed.

(** ** One stage of the Riccati recursion, either algorithm.  M: symmetric matrix (lower triangle) with gradient in row n; its first nu
    columns are factorised, M = L_u L_u' + [0 0; 0 Q], and the first nu entries of ux solve the triangular system. *)
Lemma ric_stage n nu (M L Q : rmat) (q ux : rvec) : (nu <= n)%nat ->
  (forall i j, (i < n)%nat -> (j < n)%nat -> symL M i j = rsum nu (fun k => lt L i k * lt L j k) + Q i j) ->
  (forall i, (i < n)%nat -> M n i = rsum nu (fun k => L n k * lt L i k) + q i) ->
  (forall k, (k < nu)%nat -> rsum n (fun r => lt L r k * ux r) = - L n k) ->
  forall i, (i < n)%nat -> rsum n (fun j => symL M i j * ux j) + M n i = rsum n (fun j => Q i j * ux j) + q i.
Proof.
  intros Hnu HM Hm Hy i Hi. rewrite Hm by assumption.
  rewrite (rsum_ext n _ (fun j => rsum nu (fun k => lt L i k * (lt L j k * ux j)) + Q i j * ux j)).
  2:{ intros j Hj. rewrite HM by assumption. rewrite Rmult_plus_distr_r. f_equal. rewrite <- rsum_scal_r. apply rsum_ext. intros; lra. }
  rewrite rsum_add, rsum_swap.
  rewrite (rsum_ext nu (fun j => rsum n _) (fun k => - (L n k * lt L i k))).
  2:{ intros k Hk. rewrite rsum_scal, Hy by assumption. lra. }
  rewrite rsum_opp. lra.
Qed.
