(** CondCost2.v -- the condensed Hessian and gradient give the cost of the trajectory (hard variables), cond_alg 0. *)
From Coq Require Import ZArith Bool Arith Lia Reals Lra.
From Verif Require Import Base ArithF RSum Blas Blas2 OcpModel ResSpec ResProofs CholProofs KktModel KktProofs KktProofs2 DenModel DenSpec CondModel CondSpec CondProofs CondCost.
Local Open Scope R_scope.

(** quadratic form of the rows and columns o .. o+n-1 of the symmetric matrix with lower triangle A *)
Definition Qo (A : rmat) (o n : nat) (v : rvec) : R := rsum n (fun i => rsum n (fun j => v (o + i)%nat * symL A (o + i)%nat (o + j)%nat * v (o + j)%nat)).
Lemma symL_sym (A : rmat) i j : symL A i j = symL A j i.
Proof. unfold symL. destruct (Nat.leb_spec i j), (Nat.leb_spec j i); try reflexivity; try lia. replace i with j by lia. reflexivity. Qed.
Lemma Qo_split A o a b v : Qo A o (a + b) v = Qo A o a v + Qo A (o + a) b v + 2 * rsum a (fun c => v (o + c)%nat * rsum b (fun r => A (o + a + r)%nat (o + c)%nat * v (o + a + r)%nat)).
Proof.
  unfold Qo. rewrite rsum_split.
  rewrite (rsum_ext a _ (fun i => rsum a (fun j => v (o + i)%nat * symL A (o + i)%nat (o + j)%nat * v (o + j)%nat) + v (o + i)%nat * rsum b (fun r => A (o + a + r)%nat (o + i)%nat * v (o + a + r)%nat))).
  2:{ intros i Hi. rewrite rsum_split. f_equal. rewrite <- rsum_scal. apply rsum_ext. intros r Hr. replace (o + (a + r))%nat with (o + a + r)%nat by lia. unfold symL. destruct (Nat.leb_spec (o + a + r) (o + i)); [lia|]. lra. }
  rewrite (rsum_ext b _ (fun i => rsum a (fun c => v (o + c)%nat * (A (o + a + i)%nat (o + c)%nat * v (o + a + i)%nat)) + rsum b (fun j => v (o + a + i)%nat * symL A (o + a + i)%nat (o + a + j)%nat * v (o + a + j)%nat))).
  2:{ intros i Hi. rewrite rsum_split. f_equal.
      - apply rsum_ext. intros c Hc. replace (o + (a + i))%nat with (o + a + i)%nat by lia. unfold symL. destruct (Nat.leb_spec (o + c) (o + a + i)); [|lia]. lra.
      - apply rsum_ext. intros j Hj. replace (o + (a + i))%nat with (o + a + i)%nat by lia. replace (o + (a + j))%nat with (o + a + j)%nat by lia. reflexivity. }
  rewrite !rsum_add. rewrite (rsum_swap b a). rewrite (rsum_ext a (fun j => rsum b (fun i => v (o + j)%nat * _)) (fun c => v (o + c)%nat * rsum b (fun r => A (o + a + r)%nat (o + c)%nat * v (o + a + r)%nat))) by (intros; apply rsum_scal).
  lra.
Qed.

Lemma quad_aff n (P : rmat) (y b p : rvec) : (forall l m, P l m = P m l) ->
  let V (x : rvec) := 1 / 2 * rsum n (fun l => rsum n (fun m => x l * P l m * x m)) + rsum n (fun l => p l * x l) in
  V (fun l => y l + b l) = 1 / 2 * rsum n (fun l => rsum n (fun m => y l * P l m * y m)) + rsum n (fun l => y l * (rsum n (fun m => P l m * b m) + p l)) + V b.
Proof.
  intros HP V. unfold V.
  rewrite (rsum_ext n _ (fun l => rsum n (fun m => y l * P l m * y m) + (rsum n (fun m => y l * (P l m * b m)) + rsum n (fun m => b l * P l m * y m) + rsum n (fun m => b l * P l m * b m)))).
  2:{ intros l _. rewrite <- !rsum_add. apply rsum_ext. intros; lra. }
  rewrite !rsum_add. rewrite (rsum_swap n n (fun l m => b l * P l m * y m)).
  rewrite (rsum_ext n (fun j => rsum n (fun i => b i * P i j * y j)) (fun l => rsum n (fun m => y l * (P l m * b m)))).
  2:{ intros l _. apply rsum_ext. intros m _. rewrite (HP m l). lra. }
  rewrite (rsum_ext n (fun l => p l * (y l + b l)) (fun l => p l * y l + p l * b l)) by (intros; lra). rewrite rsum_add.
  rewrite (rsum_ext n (fun l => y l * (_ + p l)) (fun l => rsum n (fun m => y l * (P l m * b m)) + p l * y l)).
  2:{ intros l _. rewrite rsum_scal. lra. }
  rewrite rsum_add. lra.
Qed.

Section Cost.
Variables (qp : oqp R) (M : nat).
Notation D := (q_dim qp).
Notation nu := (dnu D).
Notation nx := (dnx D).
Notation uo := (uoff qp M).
Notation nux := (nux qp).
Notation nh := (n_hard qp M).

(** stage cost of the hard variables *)
Definition hardc (z : nat -> rvec) (i : nat) : R := 1 / 2 * Qo (q_RSQ qp i) 0 (nux i) (z i) + rsum (nux i) (fun k => q_rqz qp i k * z i k).
Definition PhiH (H : rmat) (v : rvec) : R := 1 / 2 * Qo H 0 nh v + rsum nh (fun k => H nh k * v k).

Lemma traj_u v i k : (k < nu i)%nat -> traj qp M v i k = v (uo i + k)%nat.
Proof. intros H. unfold traj. destruct (Nat.ltb_spec k (nu i)); [reflexivity|lia]. Qed.
Lemma traj_x v i k : (k < nx i)%nat -> traj qp M v i (nu i + k)%nat = st qp M v i k.
Proof. intros H. unfold traj, ResSpec.nux. destruct (Nat.ltb_spec (nu i + k) (nu i)); [lia|]. destruct (Nat.ltb_spec (nu i + k) (nu i + nx i)); [|lia]. f_equal. lia. Qed.
Lemma st_S v i j : st qp M v (S i) j = rsum (nux i) (fun k => q_BAbt qp i k j * traj qp M v i k) + q_b qp i j.
Proof.
  cbn [st]. unfold ResSpec.nux. rewrite rsum_split. f_equal. f_equal.
  - apply rsum_ext. intros k Hk. rewrite traj_u by assumption. reflexivity.
  - apply rsum_ext. intros k Hk. rewrite traj_x by assumption. reflexivity.
Qed.

(** decomposition of a stage quadratic: inputs (and products with the state) + value function of the state *)
Definition Vf (L : rmat) (n : nat) (x : rvec) : R := 1 / 2 * rsum (nx n) (fun l => rsum (nx n) (fun m => x l * Pm qp L n l m * x m)) + rsum (nx n) (fun l => pv qp L n l * x l).
Definition lin (L : rmat) (n : nat) (v : rvec) : R :=
  1 / 2 * Qo L 0 (nu n) (traj qp M v n) + rsum (nu n) (fun c => v (uo n + c)%nat * (rsum (nx n) (fun l => L (nu n + l)%nat c * st qp M v n l) + L (nux n) c)).
Definition qs (L : rmat) (n : nat) (v : rvec) : R := 1 / 2 * Qo L 0 (nux n) (traj qp M v n) + rsum (nux n) (fun k => L (nux n) k * traj qp M v n k).
Lemma qs_split L n v : qs L n v = lin L n v + Vf L n (st qp M v n).
Proof.
  unfold qs, lin, Vf. change (nux n) with (nu n + nx n)%nat at 1. rewrite Qo_split. change (nux n) with (nu n + nx n)%nat at 1. rewrite rsum_split.
  rewrite (rsum_ext (nu n) (fun c => v (uo n + c)%nat * _) (fun c => traj qp M v n c * rsum (nx n) (fun r => L (0 + nu n + r)%nat (0 + c)%nat * traj qp M v n (0 + nu n + r)%nat) + L (nux n) c * traj qp M v n c)).
  2:{ intros c Hc. rewrite traj_u by assumption.
      assert (E : rsum (nx n) (fun r => L (0 + nu n + r)%nat (0 + c)%nat * traj qp M v n (0 + nu n + r)%nat) = rsum (nx n) (fun l => L (nu n + l)%nat c * st qp M v n l)).
      { apply rsum_ext. intros l Hl. cbn [Nat.add]. rewrite traj_x by assumption. reflexivity. }
      rewrite E. lra. }
  rewrite rsum_add.
  rewrite (rsum_ext (nx n) (fun k => L (nux n) (nu n + k)%nat * _) (fun l => pv qp L n l * st qp M v n l)).
  2:{ intros k Hk. rewrite traj_x by assumption. reflexivity. }
  replace (Qo L (0 + nu n) (nx n) (traj qp M v n)) with (rsum (nx n) (fun l => rsum (nx n) (fun m => st qp M v n l * Pm qp L n l m * st qp M v n m))).
  2:{ unfold Qo. apply rsum_ext. intros l Hl. apply rsum_ext. intros m Hm. cbn [Nat.add]. rewrite !traj_x by assumption. reflexivity. }
  cbn [Nat.add]. lra.
Qed.
Lemma qs_last L v : PLlast qp M L -> qs L M v = hardc (traj qp M v) M.
Proof.
  intros (P1 & P2). unfold qs, hardc. f_equal; [f_equal|].
  - unfold Qo. apply rsum_ext. intros i Hi. apply rsum_ext. intros j Hj. cbn [Nat.add]. f_equal. f_equal. unfold symL. destruct (Nat.leb_spec j i); apply P1; lia.
  - apply rsum_ext. intros k Hk. rewrite P2 by assumption. reflexivity.
Qed.
Lemma qs_step Lp Ln p v : PL qp Lp Ln p -> qs Lp p v = hardc (traj qp M v) p + Vf Ln (S p) (st qp M v (S p)) - Vf Ln (S p) (q_b qp p).
Proof.
  intros (P1 & P2). set (z := traj qp M v p).
  set (y := fun j => rsum (nux p) (fun k => q_BAbt qp p k j * z k)).
  assert (EV : Vf Ln (S p) (st qp M v (S p)) = Vf Ln (S p) (fun l => y l + q_b qp p l)).
  { unfold Vf. f_equal; [f_equal|].
    - apply rsum_ext. intros l _. apply rsum_ext. intros m _. rewrite !st_S. reflexivity.
    - apply rsum_ext. intros l _. rewrite !st_S. reflexivity. }
  rewrite EV. unfold Vf at 1. rewrite (quad_aff (nx (S p)) (Pm qp Ln (S p)) y (q_b qp p) (pv qp Ln (S p)) (Pm_sym qp Ln (S p))). fold (Vf Ln (S p) (q_b qp p)).
  unfold qs, hardc. fold z.
  rewrite (rsum_ext (nux p) (fun k => Lp (nux p) k * z k) (fun k => q_rqz qp p k * z k + rsum (nx (S p)) (fun l => z k * q_BAbt qp p k l * (rsum (nx (S p)) (fun m => Pm qp Ln (S p) l m * q_b qp p m) + pv qp Ln (S p) l)))).
  2:{ intros k Hk. rewrite P2 by assumption. rewrite Rmult_plus_distr_r. f_equal. rewrite <- rsum_scal_r. apply rsum_ext. intros; lra. }
  rewrite rsum_add. rewrite (rsum_swap (nux p) (nx (S p))).
  rewrite (rsum_ext (nx (S p)) (fun j => rsum (nux p) _) (fun l => y l * (rsum (nx (S p)) (fun m => Pm qp Ln (S p) l m * q_b qp p m) + pv qp Ln (S p) l))).
  2:{ intros l _. rewrite rsum_scal_r. f_equal. unfold y. apply rsum_ext. intros; lra. }
  replace (Qo Lp 0 (nux p) z) with (Qo (q_RSQ qp p) 0 (nux p) z + rsum (nx (S p)) (fun l => rsum (nx (S p)) (fun m => y l * Pm qp Ln (S p) l m * y m))).
  2:{ unfold Qo. rewrite (rsum_ext (nx (S p)) _ (fun l => rsum (nux p) (fun i => rsum (nux p) (fun j => rsum (nx (S p)) (fun m => z i * (q_BAbt qp p i l * Pm qp Ln (S p) l m * q_BAbt qp p j m) * z j))))).
      2:{ intros l _. rewrite (rsum_ext (nx (S p)) _ (fun m => rsum (nux p) (fun i => rsum (nux p) (fun j => z i * (q_BAbt qp p i l * Pm qp Ln (S p) l m * q_BAbt qp p j m) * z j)))).
          2:{ intros m _. unfold y. rewrite Rmult_assoc, <- rsum_scal_r. apply rsum_ext. intros i _. rewrite <- rsum_scal, <- rsum_scal. apply rsum_ext. intros j _. lra. }
          rewrite rsum_swap. apply rsum_ext. intros i _. apply rsum_swap. }
      rewrite (rsum_swap (nx (S p)) (nux p)). rewrite <- rsum_add. apply rsum_ext. intros i Hi. rewrite (rsum_swap (nx (S p)) (nux p)). rewrite <- rsum_add. apply rsum_ext. intros j Hj. cbn [Nat.add].
      assert (E : symL Lp i j = symL (q_RSQ qp p) i j + rsum (nx (S p)) (fun l => rsum (nx (S p)) (fun m => q_BAbt qp p i l * Pm qp Ln (S p) l m * q_BAbt qp p j m))).
      { unfold symL. destruct (Nat.leb_spec j i).
        - apply P1. lia.
        - rewrite P1 by lia. f_equal. rewrite rsum_swap. apply rsum_ext. intros l _. apply rsum_ext. intros m _. rewrite (Pm_sym qp Ln (S p) m l). lra. }
      rewrite E. rewrite Rmult_plus_distr_l, Rmult_plus_distr_r. f_equal. rewrite <- rsum_scal, <- rsum_scal_r. apply rsum_ext. intros l _. rewrite <- rsum_scal, <- rsum_scal_r. reflexivity. }
  lra.
Qed.

(** the columns of the condensed Hessian from uo n on *)
Definition Tn (H : rmat) (v : rvec) (n : nat) : R := 1 / 2 * Qo H (uo n) (nh - uo n) v + rsum (nh - uo n) (fun c => H nh (uo n + c)%nat * v (uo n + c)%nat).
Lemma Tn_step Gm Gb H L n v : (1 <= n <= M)%nat -> GIV qp M Gm Gb (n - 1) -> EM qp M Gm H L n -> Tn H v n = lin L n v + Tn H v (n - 1).
Proof.
  intros Hn HG (E1 & E2 & E3). pose proof (nh_uo qp M n Hn) as Enh. unfold Tn.
  assert (Eu : uo (n - 1) = (uo n + nu n)%nat). { rewrite (uoff_S qp M (n - 1)) by lia. replace (S (n - 1)) with n by lia. reflexivity. }
  replace (nh - uo n)%nat with (nu n + (nh - uo (n - 1)))%nat by lia. rewrite Qo_split, rsum_split, <- Eu.
  set (b := (nh - uo (n - 1))%nat). assert (Eb : b = (nsum n nu + nx 0)%nat) by (unfold b; lia).
  rewrite (rsum_ext b (fun k => H nh (uo n + (nu n + k))%nat * _) (fun c => H nh (uo (n - 1) + c)%nat * v (uo (n - 1) + c)%nat)).
  2:{ intros k Hk. rewrite Eu. rewrite Nat.add_assoc. reflexivity. }
  replace (Qo H (uo n) (nu n) v) with (Qo L 0 (nu n) (traj qp M v n)).
  2:{ unfold Qo. apply rsum_ext. intros i Hi. apply rsum_ext. intros j Hj. cbn [Nat.add]. rewrite !traj_u by assumption. f_equal. f_equal. unfold symL.
      destruct (Nat.leb_spec j i), (Nat.leb_spec (uo n + j) (uo n + i)); try lia; rewrite E1 by lia; reflexivity. }
  unfold lin.
  assert (X : forall c, (c < nu n)%nat -> v (uo n + c)%nat * rsum b (fun r => H (uo (n - 1) + r)%nat (uo n + c)%nat * v (uo (n - 1) + r)%nat) + H nh (uo n + c)%nat * v (uo n + c)%nat =
     v (uo n + c)%nat * (rsum (nx n) (fun l => L (nu n + l)%nat c * st qp M v n l) + L (nux n) c)).
  { intros c Hc. rewrite E3 by assumption.
    rewrite (rsum_ext b _ (fun r => rsum (nx n) (fun l => L (nu n + l)%nat c * (Gm (n - 1)%nat r l * v (uo (n - 1) + r)%nat)))).
    2:{ intros r Hr. rewrite Eu. rewrite E2 by lia. rewrite <- rsum_scal_r. apply rsum_ext. intros; lra. }
    rewrite rsum_swap.
    rewrite (rsum_ext (nx n) (fun l => L (nu n + l)%nat c * st qp M v n l) (fun l => rsum b (fun r => L (nu n + l)%nat c * (Gm (n - 1)%nat r l * v (uo (n - 1) + r)%nat)) + Gm (n - 1)%nat (nsum n nu + nx 0)%nat l * L (nu n + l)%nat c)).
    2:{ intros l Hl. rewrite rsum_scal. replace (st qp M v n l) with (st qp M v (S (n - 1)) l) by (do 2 f_equal; lia).
        destruct (HG l) as (HG1 & _); [replace (S (n - 1)) with n by lia; exact Hl|]. rewrite HG1. unfold nuf. replace (S (n - 1)) with n by lia. rewrite <- Eb. lra. }
    rewrite rsum_add. lra. }
  rewrite <- (rsum_ext (nu n) _ _ X). rewrite rsum_add. lra.
Qed.
Lemma Tn_0 H L v : EM0 qp M H L -> Tn H v 0 = qs L 0 v.
Proof.
  intros (E1 & E2). unfold Tn, qs. assert (En : (nh - uo 0)%nat = nux 0) by (unfold n_hard, ResSpec.nux; lia). rewrite En.
  assert (Et : forall k, (k < nux 0)%nat -> traj qp M v 0 k = v (uo 0 + k)%nat).
  { intros k Hk. destruct (Nat.lt_ge_cases k (nu 0)); [apply traj_u; assumption|]. replace k with (nu 0 + (k - nu 0))%nat at 1 by lia. rewrite traj_x by (unfold ResSpec.nux in Hk; lia). cbn [st]. f_equal. lia. }
  f_equal; [f_equal|].
  - unfold Qo. apply rsum_ext. intros i Hi. apply rsum_ext. intros j Hj. cbn [Nat.add]. rewrite !Et by assumption. f_equal. f_equal. unfold symL.
    destruct (Nat.leb_spec j i), (Nat.leb_spec (uo 0 + j) (uo 0 + i)); try lia; apply E1; lia.
  - apply rsum_ext. intros k Hk. rewrite E2, Et by assumption. reflexivity.
Qed.

Lemma PhiH_alg0 Gm Gb s : (1 <= M)%nat -> (forall i, (i < M)%nat -> GIV qp M Gm Gb i) -> RI qp M Gm 0 s ->
  exists K, forall v, PhiH (rs_H s) v = rsum (S M) (hardc (traj qp M v)) + K.
Proof.
  intros HM HG (I1 & I2 & I3 & I4 & _ & _). set (H := rs_H s) in *. set (L := rs_L s) in *.
  assert (T : forall v n, (n <= M)%nat -> Tn H v n = rsum n (fun i => lin (L (S i)) (S i) v) + qs (L 0%nat) 0 v).
  { intros v n. induction n as [|n IH]; intros Hn; [cbn [rsum]; rewrite (Tn_0 _ _ _ (I2 eq_refl)); lra|].
    rewrite (Tn_step Gm Gb H (L (S n)) (S n) v); [|lia|apply HG; lia|apply I1; lia]. replace (S n - 1)%nat with n by lia. rewrite IH by lia. cbn [rsum]. lra. }
  set (K := fun n => rsum n (fun i => Vf (L (S i)) (S i) (q_b qp i))).
  assert (U : forall v n, (n <= M)%nat -> rsum n (fun i => lin (L (S i)) (S i) v) + qs (L 0%nat) 0 v = rsum n (hardc (traj qp M v)) + qs (L n) n v - K n).
  { intros v n. induction n as [|n IH]; intros Hn; [unfold K; cbn [rsum]; lra|]. cbn [rsum].
    rewrite (qs_split (L (S n)) (S n) v). pose proof (qs_step _ _ _ v (I3 n ltac:(lia))) as Q. specialize (IH ltac:(lia)). unfold K in *. cbn [rsum]. lra. }
  exists (- K M). intros v. specialize (T v M ltac:(lia)). rewrite (U v M) in T by lia. rewrite (qs_last _ v I4) in T. unfold PhiH. unfold Tn in T. rewrite uoff_M in T. rewrite Nat.sub_0_r in T. cbn [Nat.add] in T. cbn [rsum]. lra.
Qed.
End Cost.
