(** CholPSD.v -- the Cholesky factorisation of a positive semidefinite matrix is exact, also when pivots vanish. *)
From Coq Require Import ZArith Bool Arith Lia Reals Lra.
From Verif Require Import Base ArithF RSum Blas Blas2 CoreModel OcpModel ResSpec ResProofs CholProofs CholPD.
Local Open Scope R_scope.

Lemma quadf_shift n (T : rmat) v j c : (j < n)%nat -> (forall a b, (a < n)%nat -> (b < n)%nat -> T a b = T b a) ->
  quadf n T (fun k => v k + (if (k =? j)%nat then c else 0)) = quadf n T v + 2 * c * rsum n (fun k => T j k * v k) + c * c * T j j.
Proof.
  intros Hj Hs. unfold quadf.
  rewrite (rsum_ext n (fun i => rsum n (fun k => (v i + _) * T i k * (v k + _)))
    (fun i => rsum n (fun k => v i * T i k * v k) + v i * T i j * c + (if (i =? j)%nat then c * rsum n (fun k => T i k * v k) + c * c * T i j else 0))).
  2:{ intros i Hi.
      rewrite (rsum_ext n _ (fun k => v i * T i k * v k + (if (k =? j)%nat then v i * T i k * c else 0) + ((if (i =? j)%nat then c else 0) * (T i k * v k) + (if (k =? j)%nat then (if (i =? j)%nat then c else 0) * T i k * c else 0)))).
      2:{ intros k Hk. destruct (k =? j)%nat, (i =? j)%nat; ring. }
      rewrite !rsum_add. rewrite (rsum_one n j (fun k => v i * T i k * c)) by exact Hj. rewrite (rsum_one n j (fun k => (if (i =? j)%nat then c else 0) * T i k * c)) by exact Hj.
      rewrite rsum_scal. destruct (i =? j)%nat; ring. }
  rewrite !rsum_add. rewrite (rsum_one n j (fun i => c * rsum n (fun k => T i k * v k) + c * c * T i j)) by exact Hj.
  rewrite (rsum_scal_r n c (fun i => v i * T i j)). rewrite (rsum_ext n (fun i => v i * T i j) (fun k => T j k * v k)). 2:{ intros i Hi. rewrite (Hs i j Hi Hj). ring. }
  ring.
Qed.
Lemma psd_zero_row n (T : rmat) j : (j < n)%nat -> (forall a b, (a < n)%nat -> (b < n)%nat -> T a b = T b a) -> PSD n T -> T j j = 0 -> forall a, (a < n)%nat -> T j a = 0.
Proof.
  intros Hj Hs HP H0 a Ha. set (e := fun k : nat => if (k =? a)%nat then 1 else 0). set (q := quadf n T e).
  assert (X : forall c, 0 <= q + 2 * c * T j a).
  { intros c. pose proof (HP (fun k => e k + (if (k =? j)%nat then c else 0))) as Q. rewrite quadf_shift in Q by assumption. rewrite H0 in Q. fold q in Q.
    rewrite (rsum_ext n (fun k => T j k * e k) (fun k => if (k =? a)%nat then T j k else 0)) in Q. 2:{ intros k _. unfold e. destruct (k =? a)%nat; ring. }
    rewrite (rsum_one n a (T j)) in Q by exact Ha. lra. }
  destruct (Req_dec (T j a) 0) as [|Hn]; [assumption|exfalso]. specialize (X (- (q + 1) / (2 * T j a))). replace (2 * (- (q + 1) / (2 * T j a)) * T j a) with (- (q + 1)) in X by (field; exact Hn). lra.
Qed.
Lemma psd_schur n (T : rmat) j : (j < n)%nat -> (forall a b, (a < n)%nat -> (b < n)%nat -> T a b = T b a) -> PSD n T -> 0 < T j j -> PSD n (fun a b => T a b - T a j * T b j / T j j).
Proof.
  intros Hj Hs HP Hp v. set (t := rsum n (fun k => T j k * v k)). pose proof (HP (fun k => v k + (if (k =? j)%nat then - t / T j j else 0))) as Q. rewrite quadf_shift in Q by assumption. fold t in Q.
  replace (quadf n (fun a b => T a b - T a j * T b j / T j j) v) with (quadf n T v - t * t / T j j).
  - replace (2 * (- t / T j j) * t + - t / T j j * (- t / T j j) * T j j) with (- (t * t / T j j)) in Q by (field; lra). 
    replace (quadf n T v + 2 * (- t / T j j) * t + - t / T j j * (- t / T j j) * T j j) with (quadf n T v - t * t / T j j) in Q by (field; lra). exact Q.
  - unfold quadf. rewrite (rsum_ext n (fun i => rsum n (fun j0 => v i * (T i j0 - T i j * T j0 j / T j j) * v j0)) (fun i => rsum n (fun j0 => v i * T i j0 * v j0) + T j i * v i * (- t / T j j))).
    + rewrite rsum_add, rsum_scal_r. fold t. field. lra.
    + intros i Hi. rewrite (rsum_ext n _ (fun k => v i * T i k * v k + (- (v i * T j i) / T j j) * (T j k * v k))).
      * rewrite rsum_add, rsum_scal. fold t. field. lra.
      * intros k Hk. rewrite (Hs k j Hk Hj), (Hs i j Hi Hj). field. lra.
Qed.
(** every entry of the lower triangle is reproduced *)
Lemma potrf_psd n (C D : rmat) dA L dA' : PSD n (symL C) -> POTRF_L_MN n n C 0 0 D 0 0 dA = (L, dA') ->
  forall i j, (j <= i < n)%nat -> C i j = rsum n (fun k => lt L i k * lt L j k).
Proof.
  intros HP E. unfold POTRF_L_MN in E. pose proof (potrf_loop n n C D dA (le_n _)) as H. rewrite E in H. clear E. destruct H as (I1 & I2 & _ & _).
  set (T := fun j a b => symL C a b - rsum j (fun k => lt L a k * lt L b k)).
  assert (Ts : forall j a b, T j a b = T j b a).
  { intros j a b. unfold T. f_equal; [unfold symL; destruct (Nat.leb_spec b a), (Nat.leb_spec a b); try reflexivity; try lia; replace a with b by lia; reflexivity|]. apply rsum_ext. intros; ring. }
  assert (X : forall j, (j <= n)%nat -> PSD n (T j) /\ forall a b, (a < n)%nat -> (b < n)%nat -> (a < j)%nat -> T j a b = 0).
  { induction j as [|j IH]; intros Hj.
    - split; [|intros; lia]. intros v. unfold T. cbn [rsum]. rewrite (quadf_ext n _ (symL C) v v); [apply HP| |reflexivity]. intros; ring.
    - destruct (IH ltac:(lia)) as (P & Z0). assert (Hjn : (j < n)%nat) by lia.
      assert (Ep : piv C L j = T j j j).
      { unfold piv, T, symL. rewrite Nat.leb_refl. f_equal. apply rsum_ext. intros k Hk. rewrite !lt_in by lia. reflexivity. }
      assert (Ep0 : 0 <= T j j j).
      { pose proof (P (fun k => 0 + (if (k =? j)%nat then 1 else 0))) as Q. rewrite (quadf_shift n (T j) (fun _ => 0) j 1) in Q by (try exact Hjn; intros; apply Ts).
        assert (Z1 : quadf n (T j) (fun _ => 0) = 0) by (unfold quadf; apply rsum_0; intros; apply rsum_0; intros; ring). rewrite Z1 in Q.
        rewrite (rsum_0 n (fun k => T j j k * 0)) in Q by (intros; ring). lra. }
      assert (Col : forall a, (a < n)%nat -> lt L a j = T j a j * dA' j).
      { intros a Ha. destruct (Nat.lt_ge_cases a j) as [Lt|Ge].
        - rewrite lt_out by exact Lt. rewrite Z0 by lia. ring.
        - rewrite lt_in by exact Ge. rewrite I1 by lia. f_equal. unfold T, symL. destruct (Nat.leb_spec j a); [|lia]. f_equal. apply rsum_ext. intros k Hk. rewrite !lt_in by lia. reflexivity. }
      assert (ST : forall a b, T (S j) a b = T j a b - lt L a j * lt L b j) by (intros a b; unfold T; cbn [rsum]; ring).
      rewrite I2 in Col by exact Hjn. rewrite Ep in Col. unfold pinv in Col. destruct (Rltb_spec 0 (T j j j)) as [Hp|Hp].
      + set (s := sqrt (T j j j)) in *. assert (Hs : 0 < s) by (apply sqrt_lt_R0; exact Hp). assert (Hss : s * s = T j j j) by (apply sqrt_sqrt; lra).
        assert (E2 : forall a b, (a < n)%nat -> (b < n)%nat -> T (S j) a b = T j a b - T j a j * T j b j / T j j j).
        { intros a b Ha Hb. rewrite ST, (Col a Ha), (Col b Hb). rewrite <- Hss. field. lra. }
        split.
        * intros v. rewrite (quadf_ext n (T (S j)) (fun a b => T j a b - T j a j * T j b j / T j j j) v v); [|intros; apply E2; assumption|reflexivity]. apply psd_schur; [exact Hjn|intros; apply Ts|exact P|exact Hp].
        * intros a b Ha Hb Haj. rewrite E2 by assumption. destruct (Nat.eq_dec a j) as [->|Hne].
          -- rewrite (Ts j b j). field. lra.
          -- rewrite !(Z0 a) by lia. field. lra.
      + assert (Hz : T j j j = 0) by lra. pose proof (psd_zero_row n (T j) j Hjn ltac:(intros; apply Ts) P Hz) as Zr.
        assert (E2 : forall a b, (a < n)%nat -> (b < n)%nat -> T (S j) a b = T j a b). { intros a b Ha Hb. rewrite ST, (Col a Ha). ring. }
        split.
        * intros v. rewrite (quadf_ext n (T (S j)) (T j) v v); [apply P|intros; apply E2; assumption|reflexivity].
        * intros a b Ha Hb Haj. rewrite E2 by assumption. destruct (Nat.eq_dec a j) as [->|Hne]; [apply Zr; exact Hb|apply Z0; lia]. }
  intros i j Hij. destruct (X n (le_n _)) as (_ & Z0). specialize (Z0 i j ltac:(lia) ltac:(lia) ltac:(lia)). unfold T, symL in Z0. destruct (Nat.leb_spec j i); [|lia]. lra.
Qed.
