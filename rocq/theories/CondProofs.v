(** CondProofs.v -- COND_BABT: Gamma is the affine map from the inputs and the initial state to the states. *)
From Coq Require Import ZArith Bool Arith Lia Reals Lra.
From Verif Require Import Base ArithF RSum Blas Blas2 OcpModel ResSpec ResProofs CholProofs KktModel KktProofs KktProofs2 DenModel DenSpec CondModel CondSpec.
Local Open Scope R_scope.

Lemma nsum_S_l n f : nsum (S n) f = (f 0%nat + nsum n (fun k => f (S k)))%nat.
Proof. replace (S n) with (1 + n)%nat by lia. rewrite nsum_split. cbn [nsum Nat.add]. reflexivity. Qed.
Lemma nsum_rev n f : nsum (S n) f = nsum (S n) (fun k => f (n - k)%nat).
Proof.
  induction n as [|n IH]; [reflexivity|]. rewrite (nsum_S_l (S n) (fun k => f (S n - k)%nat)). rewrite (nsum_ext (S n) _ (fun k => f (n - k)%nat)) by (intros; reflexivity).
  rewrite <- IH. change (nsum (S (S n)) f) with (nsum (S n) f + f (S n))%nat. rewrite Nat.sub_0_r. lia.
Qed.
Lemma nsum_rev' n m f : (m <= n)%nat -> (nsum m f + nsum (n - m) (fun k => f (n - 1 - k)%nat))%nat = nsum n f.
Proof.
  intros H. assert (E0 : nsum n f = nsum (m + (n - m)) f) by (f_equal; lia). rewrite E0, nsum_split. f_equal. clear E0.
  destruct (n - m)%nat as [|p] eqn:E; [reflexivity|]. rewrite (nsum_rev p (fun k => f (m + k)%nat)). apply nsum_ext. intros k Hk. f_equal. lia.
Qed.

Section Gam.
Variables (qp : oqp R) (M : nat).
Notation D := (q_dim qp).
Notation nu := (dnu D).
Notation nx := (dnx D).
Notation uo := (uoff qp M).

Lemma uoff_S i : (i < M)%nat -> uo i = (uo (S i) + nu (S i))%nat.
Proof. intros H. unfold uoff. replace (M - i)%nat with (S (M - S i)) by lia. cbn [nsum]. replace (M - (M - S i))%nat with (S i) by lia. reflexivity. Qed.
Lemma uoff_M : uo M = 0%nat.
Proof. unfold uoff. rewrite Nat.sub_diag. reflexivity. Qed.
Lemma uoff_sum i : (i <= M)%nat -> (uo i + nsum (S i) nu = nsum (S M) nu)%nat.
Proof.
  intros H. pose proof (nsum_rev' (S M) (S i) nu ltac:(lia)) as E. rewrite <- E. unfold uoff. replace (S M - S i)%nat with (M - i)%nat by lia.
  rewrite Nat.add_comm. f_equal. apply nsum_ext. intros k Hk. f_equal. lia.
Qed.
Lemma n_hard_eq : n_hard qp M = (nu2_of qp M + nx 0)%nat.
Proof. unfold n_hard, nu2_of. rewrite Nat.add_1_r, <- (uoff_sum 0) by lia. cbn [nsum]. lia. Qed.

Definition nuf i : nat := nsum (S i) nu.
Definition GIV (G : nat -> rmat) (Gb : nat -> rvec) (i : nat) : Prop :=
  forall j, (j < nx (S i))%nat ->
  (forall v, st qp M v (S i) j = rsum (nuf i + nx 0) (fun r => G i r j * v (uo i + r)%nat) + G i (nuf i + nx 0)%nat j) /\
  Gb i j = G i (nuf i + nx 0)%nat j.

Lemma babt_first_R G0 Gb0 : let '(G, Gb) := babt_first qp G0 Gb0 in GIV G Gb 0.
Proof.
  unfold babt_first. intros j Hj. rewrite !upd_same. unfold ROWIN, GECP, VECCP, nuf. cbn [nsum Nat.add].
  rsimp. rewrite ?R_lit11. rewrite mblk_i by lia. rewrite ?Nat.sub_0_r. split.
  - intros v. cbn [st]. rewrite rsum_split, !Rmult_1_l. f_equal. f_equal.
    + apply rsum_ext. intros k Hk. rewrite mblk_o, mblk_i by lia. rewrite ?Nat.sub_0_r. reflexivity.
    + apply rsum_ext. intros k Hk. rewrite mblk_o, mblk_i by lia. rewrite ?Nat.sub_0_r. rewrite Nat.add_assoc. reflexivity.
  - rewrite vset_in' by lia. rewrite ?Nat.sub_0_r. lra.
Qed.
Lemma babt_mid_R i G0 Gb0 : (S i <= M)%nat -> (forall k, (k <= i)%nat -> GIV G0 Gb0 k) ->
  let '(G, Gb, n) := babt_mid qp (S i) (G0, Gb0, nuf i) in (forall k, (k <= S i)%nat -> GIV G Gb k) /\ n = nuf (S i).
Proof.
  intros HiM IH. unfold babt_mid. split; [|unfold nuf; cbn [nsum]; lia].
  intros k Hk. destruct (Nat.eq_dec k (S i)) as [->|Hne].
  2:{ intros j Hj. destruct (IH k ltac:(lia) j Hj) as (I1 & I2). rewrite !upd_other by assumption. split; assumption. }
  specialize (IH i ltac:(lia)). intros j Hj. rewrite !upd_same.
  replace (S i - 1)%nat with i by lia. rewrite Nat.add_1_r in *.
  set (GM := GEMM_NN _ _ _ _ _ _ _ _ _ _ _ _ _ _ _ _ _). set (GC := GECP _ _ _ _ _ _ _ _).
  assert (GC1 : forall r, (r < nu (S i))%nat -> GC r j = q_BAbt qp (S i) r j).
  { intros r Hr. unfold GC, GECP. rewrite mblk_i by lia. rewrite ?Nat.sub_0_r. reflexivity. }
  assert (GC2 : forall r, (r <= nuf i + nx 0)%nat -> GC (nu (S i) + r)%nat j = rsum (nx (S i)) (fun l => G0 i r l * q_BAbt qp (S i) (nu (S i) + l)%nat j)).
  { intros r Hr. unfold GC, GECP. rewrite mblk_o by lia. unfold GM, GEMM_NN. rewrite mblk_i by lia. rewrite fsum_R. rsimp. rewrite R_lit01, R_lit11.
    replace (nu (S i) + r - nu (S i))%nat with r by lia. rewrite Nat.sub_0_r. cbn [Nat.add]. lra. }
  assert (E : (nuf (S i) = nuf i + nu (S i))%nat) by reflexivity.
  assert (GR : forall r, (r < nuf (S i) + nx 0)%nat -> ROWAD (nx (S (S i))) f1 (q_b qp (S i)) 0 GC (nuf i + nu (S i) + nx 0) 0 r j = GC r j).
  { intros r Hr. unfold ROWAD. rewrite mblk_o by lia. reflexivity. }
  assert (GL : ROWAD (nx (S (S i))) f1 (q_b qp (S i)) 0 GC (nuf i + nu (S i) + nx 0) 0 (nuf (S i) + nx 0)%nat j = GC (nuf (S i) + nx 0)%nat j + q_b qp (S i) j).
  { unfold ROWAD. rewrite mblk_i by lia. rsimp. rewrite R_lit11. rewrite Nat.sub_0_r. cbn [Nat.add]. rewrite E. lra. }
  split.
  - intros v. rewrite GL. replace (nuf (S i) + nx 0)%nat with (nu (S i) + (nuf i + nx 0))%nat by lia.
    rewrite rsum_split. rewrite GC2 by lia.
    rewrite (rsum_ext (nu (S i)) _ (fun r => q_BAbt qp (S i) r j * v (uo (S i) + r)%nat)).
    2:{ intros r Hr. rewrite GR by lia. rewrite GC1 by lia. reflexivity. }
    rewrite (rsum_ext (nuf i + nx 0) _ (fun r => rsum (nx (S i)) (fun l => G0 i r l * v (uo i + r)%nat * q_BAbt qp (S i) (nu (S i) + l)%nat j))).
    2:{ intros r Hr. rewrite GR by lia. rewrite GC2 by lia. rewrite (uoff_S i) by lia. rewrite <- rsum_scal_r. rewrite Nat.add_assoc. apply rsum_ext. intros; lra. }
    rewrite rsum_swap. cbn [st].
    rewrite (rsum_ext (nx (S i)) (fun k => q_BAbt qp (S i) (nu (S i) + k)%nat j * _)
       (fun k => rsum (nuf i + nx 0) (fun r => G0 i r k * v (uo i + r)%nat * q_BAbt qp (S i) (nu (S i) + k)%nat j) + G0 i (nuf i + nx 0)%nat k * q_BAbt qp (S i) (nu (S i) + k)%nat j)).
    2:{ intros l Hl. destruct (IH l Hl) as (I1 & _). rewrite (rsum_scal_r (nuf i + nx 0)). specialize (I1 v). cbn [st] in I1. rewrite I1. lra. }
    rewrite rsum_add. lra.
  - unfold ROWEX. rewrite vset_in' by lia. rewrite Nat.sub_0_r. cbn [Nat.add]. rsimp. rewrite R_lit11. change (nuf (S i)) with (nuf i + nu (S i))%nat. lra.
Qed.
Lemma babt_loop_R w : (1 <= dN D)%nat -> (dN D - 1 <= M)%nat -> let '(G, Gb, n) := babt_loop qp w in (forall i, (i < dN D)%nat -> GIV G Gb i) /\ n = nuf (dN D - 1).
Proof.
  intros HN HM. unfold babt_loop. pose proof (babt_first_R (cw_Gamma w) (cw_Gammab w)) as B0. destruct (babt_first qp _ _) as [G0 Gb0].
  pose proof (loop_ind (fun k (s : (nat -> rmat) * (nat -> rvec) * nat) => let '(G, Gb, n) := s in (forall i, (i <= k)%nat -> GIV G Gb i) /\ n = nuf k)
    (dN D - 1) (fun k s => babt_mid qp (k + 1) s) (G0, Gb0, nu 0)) as L.
  destruct (loop _ _ _) as [[G Gb] n]. destruct L as (L1 & L2).
  - split; [|reflexivity]. intros i Hi. replace i with 0%nat by lia. exact B0.
  - intros k [[G1 Gb1] n1] Hk (I1 & ->). rewrite Nat.add_1_r. apply (babt_mid_R k G1 Gb1); [lia|exact I1].
  - split; [|exact L2]. intros i Hi. apply L1. lia.
Qed.
End Gam.
