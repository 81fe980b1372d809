(** DenKktAlg.v -- the linear algebra behind the three dense KKT factorisations (reals): scaled Schur complement and null space. *)
From Coq Require Import ZArith Bool Arith Lia Reals Lra.
From Verif Require Import Base ArithF RSum Blas Blas2 CholProofs KktProofs2 SolveProofs DenKktModel DenKktProofs.
Local Open Scope R_scope.

(** triangular kernels, square case, as equations *)
Lemma lnn_eq n (A : rmat) (x z : rvec) : (forall j, (j < n)%nat -> A j j <> 0) ->
  (forall i, (i < n)%nat -> rsum n (fun k => lt A i k * TRSV_LNN n A 0 0 x 0 z 0 k) = x i) /\ (forall i, (n <= i)%nat -> TRSV_LNN n A 0 0 x 0 z 0 i = z i).
Proof.
  intros Hd. destruct (trsv_lnn_R n n A x z (le_n _) Hd) as (H1 & H2). split; [|exact H2]. intros i Hi. specialize (H1 i Hi). unfold TRSV_LNN.
  destruct (Nat.ltb_spec i n); [|lia]. rewrite H1. rewrite Rplus_0_r. apply rsum_ext. intros; ring.
Qed.
Lemma ltn_eq n (A : rmat) (x z : rvec) : (forall j, (j < n)%nat -> A j j <> 0) ->
  (forall i, (i < n)%nat -> rsum n (fun k => lt A k i * TRSV_LTN n A 0 0 x 0 z 0 k) = x i) /\ (forall i, (n <= i)%nat -> TRSV_LTN n A 0 0 x 0 z 0 i = z i).
Proof. intros Hd. destruct (trsv_ltn_R n n A x z (le_n _) Hd) as (H1 & _ & H2). split; assumption. Qed.
(** forward then backward solution with L, M = L L' *)
Lemma chol_both n (L M : rmat) (x z1 z2 : rvec) : (forall j, (j < n)%nat -> L j j <> 0) ->
  (forall i j, (i < n)%nat -> (j < n)%nat -> M i j = rsum n (fun k => lt L i k * lt L j k)) ->
  let y := TRSV_LTN n L 0 0 (TRSV_LNN n L 0 0 x 0 z1 0) 0 z2 0 in
  forall i, (i < n)%nat -> rsum n (fun j => M i j * y j) = x i.
Proof.
  intros Hd HM. cbv zeta. destruct (lnn_eq n L x z1 Hd) as (H1 & _). set (y1 := TRSV_LNN n L 0 0 x 0 z1 0) in *. destruct (ltn_eq n L y1 z2 Hd) as (H2 & _).
  apply (chol_solve n L M _ x y1 HM H1 H2).
Qed.
Lemma rsum_delta n i (c : R) (y : rvec) : (i < n)%nat -> rsum n (fun j => (if (i =? j)%nat then c else 0) * y j) = c * y i.
Proof.
  intros Hi. rewrite <- (rsum_one' n i (fun j => c * y j) Hi). apply rsum_ext. intros j _. destruct (i =? j)%nat; lra.
Qed.

(** ** the scaled Schur complement *)
Section Schur.
Variables (n m : nat) (M A : rmat) (b s e lv : rvec) (rho del : R) (L AL Le : rmat) (l p y pi dv : rvec).
Hypothesis Hs : forall i, (i < n)%nat -> s i <> 0.
Hypothesis He : forall j, (j < m)%nat -> e j <> 0.
Hypothesis Ld : forall i, (i < n)%nat -> L i i <> 0.
Hypothesis HL : forall i j, (i < n)%nat -> (j < n)%nat -> s i * M i j * s j + (if (i =? j)%nat then rho else 0) = rsum n (fun k => lt L i k * lt L j k).
Hypothesis HAL : forall i j, (i < m)%nat -> (j < n)%nat -> rsum n (fun k => AL i k * lt L j k) = A i j * s j.
Hypothesis Hl : forall i, (i < n)%nat -> rsum n (fun k => lt L i k * l k) = s i * lv i.
Hypothesis Hp : forall i, (i < m)%nat -> rsum m (fun j => (e i * rsum n (fun k => AL i k * AL j k) * e j + (if (i =? j)%nat then del else 0)) * p j) = e i * (b i + rsum n (fun k => AL i k * l k)).
Hypothesis Hpi : forall j, (j < m)%nat -> pi j = e j * p j.
Hypothesis Hy : forall i, (i < n)%nat -> rsum n (fun j => (s i * M i j * s j + (if (i =? j)%nat then rho else 0)) * y j) = s i * (rsum m (fun j => A j i * pi j) - lv i).
Hypothesis Hdv : forall i, (i < n)%nat -> dv i = s i * y i.

Lemma schur_stat i : (i < n)%nat -> rsum n (fun j => M i j * dv j) + rho / (s i * s i) * dv i + lv i - rsum m (fun j => A j i * pi j) = 0.
Proof.
  intros Hi. pose proof (Hy i Hi) as H.
  rewrite (rsum_ext n _ (fun j => s i * (M i j * dv j) + (if (i =? j)%nat then rho else 0) * y j)) in H by (intros j Hj; rewrite (Hdv j Hj); ring).
  rewrite rsum_add, rsum_scal, rsum_delta in H by exact Hi. rewrite (Hdv i Hi). specialize (Hs i Hi).
  apply (Rmult_eq_reg_l (s i)); [|exact Hs]. rewrite Rmult_0_r.
  replace (s i * (rsum n (fun j => M i j * dv j) + rho / (s i * s i) * (s i * y i) + lv i - rsum m (fun j => A j i * pi j)))
    with (s i * rsum n (fun j => M i j * dv j) + rho * y i - s i * (rsum m (fun j => A j i * pi j) - lv i)) by (field; exact Hs). lra.
Qed.
(** L' y = AL' pi - l *)
Lemma schur_fwd k : (k < n)%nat -> rsum n (fun j => lt L j k * y j) = rsum m (fun j => AL j k * pi j) - l k.
Proof.
  revert k. apply (lt_inj n L); [exact Ld|]. intros i Hi.
  transitivity (s i * (rsum m (fun j => A j i * pi j) - lv i)).
  - rewrite <- Hy by exact Hi. rewrite (rsum_ext n (fun k => lt L i k * _) (fun k => rsum n (fun j => lt L i k * (lt L j k * y j)))) by (intros k Hk; rewrite rsum_scal; reflexivity).
    rewrite rsum_swap. apply rsum_ext. intros j Hj. rewrite HL by assumption. rewrite <- rsum_scal_r. apply rsum_ext. intros; ring.
  - rewrite (rsum_ext n _ (fun k => rsum m (fun j => lt L i k * (AL j k * pi j)) - lt L i k * l k)) by (intros k Hk; rewrite rsum_scal; ring).
    rewrite rsum_sub, Hl by exact Hi. rewrite rsum_swap. rewrite Rmult_minus_distr_l. f_equal. rewrite <- rsum_scal. apply rsum_ext. intros j Hj.
    rewrite (rsum_ext n _ (fun k => AL j k * lt L i k * pi j)) by (intros; ring). rewrite rsum_scal_r, HAL by assumption. ring.
Qed.
Lemma schur_eq j : (j < m)%nat -> b j - rsum n (fun k => A j k * dv k) = del / (e j * e j) * pi j.
Proof.
  intros Hj. assert (E : rsum n (fun k => A j k * dv k) = rsum m (fun i => rsum n (fun k => AL j k * AL i k) * pi i) - rsum n (fun k => AL j k * l k)).
  { transitivity (rsum n (fun k => AL j k * (rsum m (fun i => AL i k * pi i) - l k))).
    - rewrite (rsum_ext n (fun k => AL j k * _) (fun k => rsum n (fun i => AL j k * (lt L i k * y i)))) by (intros k Hk; rewrite <- schur_fwd by exact Hk; rewrite rsum_scal; reflexivity).
      rewrite rsum_swap. apply rsum_ext. intros i Hi. rewrite (Hdv i Hi). rewrite (rsum_ext n _ (fun k => AL j k * lt L i k * y i)) by (intros; ring). rewrite rsum_scal_r, HAL by assumption. ring.
    - rewrite (rsum_ext n _ (fun k => rsum m (fun i => AL j k * AL i k * pi i) - AL j k * l k)) by (intros k Hk; rewrite (rsum_ext m (fun i => AL j k * AL i k * pi i) (fun i => AL j k * (AL i k * pi i))) by (intros; ring); rewrite rsum_scal; ring).
      rewrite rsum_sub. f_equal. rewrite rsum_swap. apply rsum_ext. intros i Hi. rewrite rsum_scal_r. reflexivity. }
  rewrite E. pose proof (Hp j Hj) as H. specialize (He j Hj).
  rewrite (rsum_ext m _ (fun i => e j * (rsum n (fun k => AL j k * AL i k) * pi i) + (if (j =? i)%nat then del else 0) * p i)) in H by (intros i Hi; rewrite (Hpi i Hi); ring).
  rewrite rsum_add, rsum_scal, rsum_delta in H by exact Hj. rewrite (Hpi j Hj).
  apply (Rmult_eq_reg_l (e j)); [|exact He]. replace (e j * (del / (e j * e j) * (e j * p j))) with (del * p j) by (field; exact He). lra.
Qed.
End Schur.

(** ** the null-space method *)
Section Null.
Variables (n m : nat) (M A : rmat) (b lv : rvec) (rho : R) (L Q : rmat) (xy Yxy xz pi dv : rvec).
Hypothesis Hm : (m <= n)%nat.
Hypothesis Ld : forall i, (i < m)%nat -> L i i <> 0.
Hypothesis HA : forall i k, (i < m)%nat -> (k < n)%nat -> A i k = rsum m (fun l => lt L i l * Q l k).
Hypothesis HQ : forall i j, (i < n)%nat -> (j < n)%nat -> rsum n (fun k => Q i k * Q j k) = if (i =? j)%nat then 1 else 0.
Hypothesis HQ' : forall i j, (i < n)%nat -> (j < n)%nat -> rsum n (fun k => Q k i * Q k j) = if (i =? j)%nat then 1 else 0.
Hypothesis Hxy : forall i, (i < m)%nat -> rsum m (fun l => lt L i l * xy l) = b i.
Hypothesis HY : forall k, (k < n)%nat -> Yxy k = rsum m (fun l => Q l k * xy l).
Let Zt (i k : nat) := Q (m + i)%nat k.
Let ZM (i k : nat) := rsum n (fun l => Zt i l * M l k).
Hypothesis Hxz : forall i, (i < n - m)%nat -> rsum (n - m) (fun j => (rsum n (fun k => ZM i k * Zt j k) + (if (i =? j)%nat then rho else 0)) * xz j) = - rsum n (fun k => ZM i k * Yxy k) - rsum n (fun k => Zt i k * lv k).
Hypothesis Hdv : forall k, (k < n)%nat -> dv k = Yxy k + rsum (n - m) (fun i => Zt i k * xz i).
Hypothesis Hpi : forall l, (l < m)%nat -> rsum m (fun i => lt L i l * pi i) = rsum n (fun k => Q l k * (lv k + rsum n (fun j => M k j * dv j))).

Definition nullp (k : nat) : R := rsum (n - m) (fun i => Q (m + i)%nat k * xz i).

Lemma Q_nullp l : (l < n)%nat -> rsum n (fun k => Q l k * nullp k) = if (l <? m)%nat then 0 else xz (l - m)%nat.
Proof.
  intros Hl. unfold nullp. rewrite (rsum_ext n _ (fun k => rsum (n - m) (fun i => Q l k * Q (m + i)%nat k * xz i))) by (intros k Hk; rewrite <- rsum_scal; apply rsum_ext; intros; ring).
  rewrite rsum_swap. rewrite (rsum_ext (n - m) _ (fun i => (if (l =? m + i)%nat then 1 else 0) * xz i)) by (intros i Hi; rewrite rsum_scal_r, HQ by lia; reflexivity).
  destruct (Nat.ltb_spec l m).
  - apply rsum_0. intros i Hi. destruct (Nat.eqb_spec l (m + i)); [lia|lra].
  - rewrite (rsum_ext (n - m) _ (fun i => (if (l - m =? i)%nat then 1 else 0) * xz i)).
    + rewrite rsum_delta by lia. lra.
    + intros i Hi. destruct (Nat.eqb_spec l (m + i)), (Nat.eqb_spec (l - m) i); try lia; reflexivity.
Qed.
Lemma Q_Yxy l : (l < n)%nat -> rsum n (fun k => Q l k * Yxy k) = if (l <? m)%nat then xy l else 0.
Proof.
  intros Hl. rewrite (rsum_ext n _ (fun k => rsum m (fun i => Q l k * Q i k * xy i))) by (intros k Hk; rewrite HY by exact Hk; rewrite <- rsum_scal; apply rsum_ext; intros; ring).
  rewrite rsum_swap. rewrite (rsum_ext m _ (fun i => (if (l =? i)%nat then 1 else 0) * xy i)) by (intros i Hi; rewrite rsum_scal_r, HQ by lia; reflexivity).
  destruct (Nat.ltb_spec l m).
  - rewrite rsum_delta by assumption. lra.
  - apply rsum_0. intros i Hi. destruct (Nat.eqb_spec l i); [lia|lra].
Qed.
Lemma A_dot (x : rvec) i : (i < m)%nat -> rsum n (fun k => A i k * x k) = rsum m (fun l => lt L i l * rsum n (fun k => Q l k * x k)).
Proof.
  intros Hi. rewrite (rsum_ext n _ (fun k => rsum m (fun l => lt L i l * (Q l k * x k)))) by (intros k Hk; rewrite HA by assumption; rewrite <- rsum_scal_r; apply rsum_ext; intros; ring).
  rewrite rsum_swap. apply rsum_ext. intros l Hl. rewrite rsum_scal. reflexivity.
Qed.
Lemma null_eq j : (j < m)%nat -> rsum n (fun k => A j k * dv k) = b j.
Proof.
  intros Hj. rewrite A_dot, <- Hxy by exact Hj. apply rsum_ext. intros l Hl. f_equal.
  rewrite (rsum_ext n _ (fun k => Q l k * Yxy k + Q l k * nullp k)) by (intros k Hk; rewrite Hdv by exact Hk; unfold nullp, Zt; ring).
  rewrite rsum_add, Q_Yxy, Q_nullp by lia. destruct (Nat.ltb_spec l m); [lra|lia].
Qed.
Lemma null_p j : (j < m)%nat -> rsum n (fun k => A j k * nullp k) = 0.
Proof.
  intros Hj. rewrite A_dot by exact Hj. apply rsum_0. intros l Hl. rewrite Q_nullp by lia. destruct (Nat.ltb_spec l m); [lra|lia].
Qed.
(** the rest of the step is in the row space of A *)
Lemma null_row : exists y : rvec, forall k, (k < n)%nat -> dv k - nullp k = rsum m (fun j => A j k * y j).
Proof.
  exists (TRSV_LTN m L 0 0 xy 0 (fun _ => 0) 0). intros k Hk. destruct (ltn_eq m L xy (fun _ => 0) Ld) as (H & _). set (y := TRSV_LTN m L 0 0 xy 0 (fun _ => 0) 0) in *.
  rewrite Hdv by exact Hk. unfold nullp, Zt. rewrite HY by exact Hk.
  rewrite (rsum_ext m (fun j => A j k * y j) (fun j => rsum m (fun l => Q l k * (lt L j l * y j)))) by (intros j Hj; rewrite HA by assumption; rewrite <- rsum_scal_r; apply rsum_ext; intros; ring).
  rewrite rsum_swap. rewrite (rsum_ext m (fun j => rsum m _) (fun l => Q l k * xy l)) by (intros l Hl; rewrite rsum_scal, H by exact Hl; reflexivity). lra.
Qed.
Lemma null_stat : forall i, (i < n)%nat -> rsum n (fun j => M i j * dv j) + rho * nullp i + lv i - rsum m (fun j => A j i * pi j) = 0.
Proof.
  set (r := fun i => rsum n (fun j => M i j * dv j) + rho * nullp i + lv i - rsum m (fun j => A j i * pi j)).
  assert (Z : forall l, (l < n)%nat -> rsum n (fun k => Q l k * r k) = 0).
  { intros l Hl. unfold r.
    rewrite (rsum_ext n _ (fun k => Q l k * (lv k + rsum n (fun j => M k j * dv j)) + rho * (Q l k * nullp k) - Q l k * rsum m (fun j => A j k * pi j))) by (intros; ring).
    rewrite rsum_sub, rsum_add, rsum_scal, Q_nullp by exact Hl.
    assert (EA : rsum n (fun k => Q l k * rsum m (fun j => A j k * pi j)) = if (l <? m)%nat then rsum m (fun i => lt L i l * pi i) else 0).
    { rewrite (rsum_ext n _ (fun k => rsum m (fun j => A j k * Q l k * pi j))) by (intros k Hk; rewrite <- rsum_scal; apply rsum_ext; intros; ring).
      rewrite rsum_swap. rewrite (rsum_ext m _ (fun j => (if (l <? m)%nat then lt L j l else 0) * pi j)).
      - destruct (l <? m)%nat; [reflexivity|]. apply rsum_0. intros; lra.
      - intros j Hj. rewrite rsum_scal_r. f_equal. rewrite A_dot by exact Hj. rewrite (rsum_ext m _ (fun i => (if (l =? i)%nat then 1 else 0) * lt L j i)).
        + destruct (Nat.ltb_spec l m); [rewrite rsum_delta by assumption; lra|]. apply rsum_0. intros i Hi. destruct (Nat.eqb_spec l i); [lia|lra].
        + intros i Hi. rewrite HQ by lia. rewrite (Nat.eqb_sym i l). ring. }
    rewrite EA. destruct (Nat.ltb_spec l m) as [H|H].
    - rewrite (Hpi l H). lra.
    - assert (Hi : (l - m < n - m)%nat) by lia. pose proof (Hxz (l - m) Hi) as X.
      rewrite (rsum_ext (n - m) _ (fun j => rsum n (fun k => ZM (l - m) k * Zt j k) * xz j + (if (l - m =? j)%nat then rho else 0) * xz j)) in X by (intros; ring).
      rewrite rsum_add, rsum_delta in X by exact Hi.
      assert (E : rsum n (fun k => Q l k * (lv k + rsum n (fun j => M k j * dv j))) = rsum n (fun k => Zt (l - m) k * lv k) + rsum n (fun k => ZM (l - m) k * Yxy k) + rsum (n - m) (fun j => rsum n (fun k => ZM (l - m) k * Zt j k) * xz j)).
      { assert (El : forall k, Zt (l - m) k = Q l k) by (intros; unfold Zt; f_equal; lia).
        rewrite (rsum_ext n _ (fun k => Zt (l - m) k * lv k + rsum n (fun j => Zt (l - m) k * M k j * dv j))) by (intros k Hk; rewrite El; rewrite (rsum_ext n (fun j => Q l k * M k j * dv j) (fun j => Q l k * (M k j * dv j))) by (intros; ring); rewrite rsum_scal; ring).
        rewrite rsum_add, Rplus_assoc. f_equal. rewrite rsum_swap.
        rewrite (rsum_ext n _ (fun j => ZM (l - m) j * Yxy j + rsum (n - m) (fun i => ZM (l - m) j * Zt i j * xz i))).
        - rewrite rsum_add. f_equal. rewrite rsum_swap. apply rsum_ext. intros i Hi'. rewrite rsum_scal_r. reflexivity.
        - intros j Hj. rewrite rsum_scal_r. fold (ZM (l - m) j). rewrite Hdv by exact Hj. rewrite Rmult_plus_distr_l. f_equal. rewrite <- rsum_scal. apply rsum_ext. intros; ring. }
      rewrite E. lra. }
  intros i Hi. change (r i = 0).
  assert (E : r i = rsum n (fun l => Q l i * rsum n (fun k => Q l k * r k))).
  { rewrite (rsum_ext n _ (fun l => rsum n (fun k => Q l i * Q l k * r k))) by (intros l Hl; rewrite <- rsum_scal; apply rsum_ext; intros; ring).
    rewrite rsum_swap. rewrite (rsum_ext n _ (fun k => (if (i =? k)%nat then 1 else 0) * r k)) by (intros k Hk; rewrite rsum_scal_r, HQ' by assumption; reflexivity).
    rewrite rsum_delta by exact Hi. lra. }
  rewrite E. apply rsum_0. intros l Hl. rewrite Z by exact Hl. lra.
Qed.
End Null.
