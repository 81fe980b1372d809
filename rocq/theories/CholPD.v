(** CholPD.v -- a positive definite matrix is factorised without breakdown. *)
From Coq Require Import ZArith Bool Arith Lia Reals Lra.
From Verif Require Import Base ArithF RSum Blas Blas2 CoreModel OcpModel ResSpec ResProofs CholProofs KktModel.
Local Open Scope R_scope.

(** positive definite / semidefinite leading n x n block *)
Definition quadf (n : nat) (M : rmat) (v : rvec) : R := rsum n (fun i => rsum n (fun j => v i * M i j * v j)).
Definition PD (n : nat) (M : rmat) : Prop := forall v : rvec, (exists k, (k < n)%nat /\ v k <> 0) -> 0 < quadf n M v.
Definition PSD (n : nat) (M : rmat) : Prop := forall v : rvec, 0 <= quadf n M v.

Lemma singular_false_i n (dA : rvec) : (forall j, (j < n)%nat -> dA j <> 0) -> singular n dA = false.
Proof.
  unfold singular. induction n as [|n IH]; intros H; [reflexivity|]. cbn [loop]. rewrite IH by (intros; apply H; lia). cbn [orb].
  rsimp. rewrite R_lit01. specialize (H n ltac:(lia)). destruct (Reqb_spec (dA n) 0); [contradiction|reflexivity].
Qed.
Lemma quadf_trunc n m (M : rmat) v : (m <= n)%nat -> (forall k, (m <= k)%nat -> v k = 0) -> quadf n M v = quadf m M v.
Proof.
  intros Hm Hv. unfold quadf. replace n with (m + (n - m))%nat by lia. rewrite rsum_split.
  rewrite (rsum_0 (n - m)). 2:{ intros i Hi. apply rsum_0. intros j Hj. rewrite (Hv (m + i)%nat) by lia. lra. }
  rewrite Rplus_0_r. apply rsum_ext. intros i Hi. rewrite rsum_split. rewrite (rsum_0 (n - m)); [lra|]. intros j Hj. rewrite (Hv (m + j)%nat) by lia. lra.
Qed.
Lemma quadf_ext n (M M' : rmat) v v' : (forall i j, (i < n)%nat -> (j < n)%nat -> M i j = M' i j) -> (forall i, (i < n)%nat -> v i = v' i) -> quadf n M v = quadf n M' v'.
Proof. intros H Hv. unfold quadf. apply rsum_ext. intros i Hi. apply rsum_ext. intros j Hj. rewrite H, !Hv by assumption. reflexivity. Qed.
Lemma quadf_add n (M M' : rmat) v : quadf n (fun i j => M i j + M' i j) v = quadf n M v + quadf n M' v.
Proof. unfold quadf. rewrite <- rsum_add. apply rsum_ext. intros i _. rewrite <- rsum_add. apply rsum_ext. intros; lra. Qed.
(** sum of squares *)
Lemma quadf_sq n q (T : rmat) v : quadf n (fun i j => rsum q (fun l => T i l * T j l)) v = rsum q (fun l => rsum n (fun i => v i * T i l) * rsum n (fun i => v i * T i l)).
Proof.
  symmetry. rewrite (rsum_ext q _ (fun l => rsum n (fun k => rsum n (fun m => v k * (T k l * T m l) * v m)))).
  2:{ intros l _. rewrite <- rsum_scal_r. apply rsum_ext. intros k _. rewrite <- rsum_scal. apply rsum_ext. intros; lra. }
  unfold quadf. rewrite rsum_swap. apply rsum_ext. intros k _. rewrite rsum_swap. apply rsum_ext. intros m _. rewrite rsum_scal_r, rsum_scal. reflexivity.
Qed.
Lemma sq_nonneg n (f : rvec) : 0 <= rsum n (fun l => f l * f l).
Proof. apply rsum_nonneg. intros. nra. Qed.
(** congruence A M A' *)
Lemma quadf_congr n q (A M : rmat) v : quadf n (fun i j => rsum q (fun l => rsum q (fun m => A i l * M l m * A j m))) v = quadf q M (fun l => rsum n (fun i => v i * A i l)).
Proof.
  unfold quadf.
  rewrite (rsum_ext n _ (fun i => rsum q (fun l => rsum q (fun m => (v i * A i l) * M l m * rsum n (fun j => v j * A j m))))).
  2:{ intros i _. rewrite (rsum_ext n _ (fun j => rsum q (fun l => rsum q (fun m => v i * A i l * M l m * (v j * A j m))))).
      2:{ intros j _. rewrite <- rsum_scal, <- rsum_scal_r. apply rsum_ext. intros l _. rewrite <- rsum_scal, <- rsum_scal_r. apply rsum_ext. intros; lra. }
      rewrite rsum_swap. apply rsum_ext. intros l _. rewrite rsum_swap. apply rsum_ext. intros m _. rewrite rsum_scal. reflexivity. }
  rewrite rsum_swap. apply rsum_ext. intros l _. rewrite rsum_swap. apply rsum_ext. intros m _.
  rewrite rsum_scal_r. rewrite rsum_scal_r. reflexivity.
Qed.

Lemma potrf_pd m n (C D : rmat) dA L dA' : (n <= m)%nat -> PD n (symL C) -> POTRF_L_MN m n C 0 0 D 0 0 dA = (L, dA') -> singular n dA' = false.
Proof.
  intros Hn HPD E. unfold POTRF_L_MN in E. pose proof (potrf_loop m n C D dA Hn) as H. rewrite E in H. clear E. destruct H as (I1 & I2 & _ & _).
  apply singular_false_i.
  enough (P : forall j, (j < n)%nat -> 0 < piv C L j).
  { intros j Hj. rewrite I2 by exact Hj. unfold pinv. specialize (P j Hj). destruct (Rltb_spec 0 (piv C L j)); [|lra].
    pose proof (sqrt_lt_R0 _ P). intros Hz. assert (0 < 1 / sqrt (piv C L j)); [|lra]. apply Rdiv_lt_0_compat; lra. }
  intros j. induction j as [j IH] using lt_wf_ind. intros Hj.
  assert (Ld : forall k, (k < j)%nat -> 0 < L k k /\ L k k * dA' k = 1 /\ L k k * L k k = piv C L k).
  { intros k Hk. specialize (IH k Hk ltac:(lia)). rewrite I1 by lia. change (C k k - rsum k (fun k0 => L k k0 * L k k0)) with (piv C L k).
    rewrite I2 by lia. unfold pinv. destruct (Rltb_spec 0 (piv C L k)); [|lra]. pose proof (sqrt_lt_R0 _ IH) as Hs. pose proof (sqrt_sqrt (piv C L k) ltac:(lra)) as Hq. set (s := sqrt (piv C L k)) in *.
    assert (Ep : piv C L k * (1 / s) = s). { rewrite <- Hq. field. lra. } rewrite Ep. split; [exact Hs|]. split; [field; lra|exact Hq]. }
  assert (Fac : forall i k, (k < j)%nat -> (k <= i <= j)%nat -> C i k = rsum (S k) (fun l => L i l * L k l)).
  { intros i k Hk Hi. cbn [rsum]. destruct (Ld k Hk) as (_ & E & _). pose proof (I1 i k ltac:(lia) ltac:(lia)) as EI.
    replace (L i k * L k k) with ((C i k - rsum k (fun l => L i l * L k l)) * (L k k * dA' k)); [rewrite E; lra|]. rewrite EI. ring. }
  set (x := fun k => if (k =? j)%nat then 1 else 0).
  pose proof (trsv_ltn_R (S j) j L x (fun _ => 0) ltac:(lia)) as HT. specialize (HT ltac:(intros k Hk; destruct (Ld k Hk); lra)). cbv zeta in HT.
  set (v := TRSV_LTN_MN _ _ _ _ _ _ _ _ _) in HT. destruct HT as (V1 & V2 & V3).
  assert (Vj : v j = 1). { rewrite V2 by lia. unfold x. rewrite Nat.eqb_refl. reflexivity. }
  assert (Q : quadf (S j) (symL C) v = piv C L j).
  { rewrite (quadf_ext (S j) (symL C) (fun i k => rsum j (fun l => lt L i l * lt L k l) + (if ((i =? j) && (k =? j))%nat then piv C L j else 0)) v v); [|intros i k Hi Hk|reflexivity].
    - rewrite quadf_add, quadf_sq. rewrite rsum_0.
      2:{ intros l Hl. rewrite (rsum_ext (S j) _ (fun i => lt L i l * v i)) by (intros; lra). rewrite V1 by exact Hl. unfold x. destruct (Nat.eqb_spec l j); [lia|]. lra. }
      unfold quadf. cbn [rsum]. rewrite Nat.eqb_refl. cbn [andb]. rewrite rsum_0.
      2:{ intros i Hi. destruct (Nat.eqb_spec i j); [lia|]. cbn [andb]. rewrite rsum_0; [lra|intros; lra]. }
      rewrite rsum_0. 2:{ intros k Hk. destruct (Nat.eqb_spec k j); [lia|]. lra. } rewrite Vj. lra.
    - assert (W : forall i k, (k <= i)%nat -> (i <= j)%nat -> C i k = rsum j (fun l => lt L i l * lt L k l) + (if ((i =? j) && (k =? j))%nat then piv C L j else 0)).
      { intros i0 k0 Hk0 Hi0. destruct (Nat.eqb_spec k0 j) as [->|Hne].
        - assert (i0 = j) as -> by lia. rewrite Nat.eqb_refl. cbn [andb]. unfold piv.
          rewrite (rsum_ext j (fun l => lt L j l * lt L j l) (fun k => L j k * L j k)); [lra|]. intros l Hl. rewrite !lt_in by lia. reflexivity.
        - rewrite andb_false_r, Rplus_0_r. rewrite Fac by lia.
          rewrite <- (rsum_low j k0 (fun l => L i0 l * L k0 l)) by lia. apply rsum_ext. intros l Hl. unfold lt.
          destruct (Nat.leb_spec l k0), (Nat.leb_spec l i0); try lia; lra. }
      unfold symL. destruct (Nat.leb_spec k i).
      + apply W; lia.
      + rewrite W by lia. rewrite andb_comm. f_equal. apply rsum_ext. intros; lra. }
  rewrite <- Q. rewrite <- (quadf_trunc n (S j)); [|lia|intros k Hk; rewrite V3 by exact Hk; reflexivity]. apply HPD. exists j. split; [exact Hj|rewrite Vj; lra].
Qed.
