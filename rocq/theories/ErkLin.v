(** ErkLin.v -- the built-in tableaux: what initialisation stores, order conditions, action on linear systems. *)
From Coq Require Import ZArith Lia List Bool Arith String Reals Lra.
From Verif Require Import Base ArithF AuxModel RSum ErkModel ErkSpec ErkProofs ErkSens ErkApi.
Local Open Scope R_scope.

(** the classical tableaux *)
Definition lst (l : list R) : rv := fun i => nth i l 0.
Definition T4 : tableau := mktab 4
  (fun s r => lst (nth s (( 0 :: 0 :: 0 :: 0 :: nil) :: (1/2 :: 0 :: 0 :: 0 :: nil) :: (0 :: 1/2 :: 0 :: 0 :: nil) :: (0 :: 0 :: 1 :: 0 :: nil) :: nil) nil) r)
  (lst (1/6 :: 1/3 :: 1/3 :: 1/6 :: nil)) (lst (0 :: 1/2 :: 1/2 :: 1 :: nil)).
Definition T2 : tableau := mktab 2
  (fun s r => lst (nth s ((0 :: 0 :: nil) :: (1/2 :: 0 :: nil) :: nil) nil) r) (lst (0 :: 1 :: nil)) (lst (0 :: 1/2 :: nil)).

(** full content of the tableau (all of A) *)
Definition rk_is (rk : rkd R) (T : tableau) : Prop :=
  rk_holds rk T /\ forall s r, (s < rk_ns rk)%nat -> (r < rk_ns rk)%nat -> rk_mem rk (rk_A rk + (s + rk_ns rk * r))%nat = t_A T s r.

Lemma init4 mem e : exists rk, rk_init_default "ERK4" (rk_create 4 mem e) = Ok rk /\ rk_is rk T4 /\ rk_expl rk = 1%Z.
Proof.
  eexists. split; [vm_compute; reflexivity|]. split; [|reflexivity]. cbn [rk_ns rk_mem rk_A rk_B rk_C rk_size].
  assert (HA : forall s r, (s < 4)%nat -> (r < 4)%nat -> rk_mem (rk_create 4 mem e) 0 = rk_mem (rk_create 4 mem e) 0) by reflexivity. clear HA.
  split; [split; [repeat split; cbn; lia|split; [reflexivity|]]|]; cbn [rk_ns rk_mem rk_A rk_B rk_C rk_size].
  - intros s Hs. split; [|split].
    + destruct s as [|[|[|[|]]]]; try lia; cbv -[Rdiv Rplus Rmult IZR]; lra.
    + destruct s as [|[|[|[|]]]]; try lia; cbv -[Rdiv Rplus Rmult IZR]; lra.
    + intros r Hr. destruct s as [|[|[|[|]]]]; try lia; destruct r as [|[|[|]]]; try lia; cbv -[Rdiv Rplus Rmult IZR]; lra.
  - intros s r Hs Hr. destruct s as [|[|[|[|]]]]; try lia; destruct r as [|[|[|[|]]]]; try lia; cbv -[Rdiv Rplus Rmult IZR]; lra.
Qed.
Lemma init2 mem e : exists rk, rk_init_default "ERK2" (rk_create 2 mem e) = Ok rk /\ rk_is rk T2 /\ rk_expl rk = 1%Z.
Proof.
  eexists. split; [vm_compute; reflexivity|]. split; [|reflexivity].
  split; [split; [repeat split; cbn; lia|split; [reflexivity|]]|]; cbn [rk_ns rk_mem rk_A rk_B rk_C rk_size].
  - intros s Hs. split; [|split].
    + destruct s as [|[|]]; try lia; cbv -[Rdiv Rplus Rmult IZR]; lra.
    + destruct s as [|[|]]; try lia; cbv -[Rdiv Rplus Rmult IZR]; lra.
    + intros r Hr. destruct s as [|[|]]; try lia; destruct r as [|]; try lia; cbv -[Rdiv Rplus Rmult IZR]; lra.
  - intros s r Hs Hr. destruct s as [|[|]]; try lia; destruct r as [|[|]]; try lia; cbv -[Rdiv Rplus Rmult IZR]; lra.
Qed.

Lemma set_all_rk ns mem e expl (A B C : rv) :
  exists rk, rk_set_all expl A B C (rk_create ns mem e) = Ok rk /\
    rk_is rk (mktab ns (fun s r => A (s + ns * r)%nat) B C) /\ rk_expl rk = expl /\ rk_ns rk = ns.
Proof.
  unfold rk_set_all, rk_create. cbn [rk_size rk_ns rk_A rk_B rk_C rk_mem].
  destruct (oloop_ind (fun j m => forall k, (k < ns * j)%nat -> m k = A k) ns
    (fun jj m => oloop ns (fun ii m => wrm (rk_memsize ns) m (0 + (ii+ns*jj)) (A (ii+ns*jj)%nat)) m) mem) as [m1 [E1 V1]].
  { intros k Hk. lia. }
  { intros j m Hj HP.
    destruct (oloop_vset (ns * j) ns (fun i => A (i + ns * j)%nat) (fun ii m => wrm (rk_memsize ns) m (0 + (ii+ns*j)) (A (ii+ns*j)%nat)) m) as [m' [E V]].
    { intros ii m0 Hi _. assert (ns * j + ns <= ns * ns)%nat by (replace (ns * j + ns)%nat with (ns * (j + 1))%nat by lia; apply Nat.mul_le_mono_l; lia).
      rewrite wrm_ok by (unfold rk_memsize; lia). f_equal. f_equal. lia. }
    exists m'. split; [exact E|]. intros k Hk. rewrite V. destruct (Nat.lt_ge_cases k (ns * j)).
    - rewrite vset_out by lia. apply HP. assumption.
    - rewrite vset_in' by lia. f_equal. lia. }
  rewrite E1. cbn [obind].
  destruct (oloop_vset (0 + ns * ns) ns B (fun ii m => wrm (rk_memsize ns) m (0 + ns * ns + ii) (B ii)) m1) as [m2 [E2 V2]].
  { intros ii m0 Hi _. apply wrm_ok. unfold rk_memsize. lia. }
  rewrite E2. cbn [obind].
  destruct (oloop_vset (0 + ns * ns + ns) ns C (fun ii m => wrm (rk_memsize ns) m (0 + ns * ns + ns + ii) (C ii)) m2) as [m3 [E3 V3]].
  { intros ii m0 Hi _. apply wrm_ok. unfold rk_memsize. lia. }
  rewrite E3. cbn [obind]. eexists. split; [reflexivity|].
  assert (HA : forall s r, (s < ns)%nat -> (r < ns)%nat -> m3 (0 + (s + ns * r))%nat = A (s + ns * r)%nat).
  { intros s r Hs Hr. assert (ns * r + ns <= ns * ns)%nat by (replace (ns * r + ns)%nat with (ns * (r + 1))%nat by lia; apply Nat.mul_le_mono_l; lia).
    rewrite V3, vset_out by lia. rewrite V2, vset_out by lia. apply V1. lia. }
  unfold rk_is, rk_holds, rk_fits. cbn [rk_ns rk_mem rk_A rk_B rk_C rk_size rk_expl t_ns t_A t_B t_C].
  split; [split; [split|]|split; reflexivity].
  - unfold rk_memsize. repeat split; lia.
  - split; [reflexivity|]. intros s Hs. split; [|split].
    + rewrite V3, vset_out by lia. rewrite V2, vset_in by lia. reflexivity.
    + rewrite V3, vset_in by lia. reflexivity.
    + intros r Hr. apply HA; lia.
  - exact HA.
Qed.

Lemma T4_order : order4 T4 /\ row_sums T4 /\ explicit T4.
Proof.
  split; [|split].
  - unfold order4, order3, order2, sumB, mulA, T4; cbn [t_ns t_A t_B t_C rsum lst nth]. repeat split; lra.
  - intros s Hs. destruct s as [|[|[|[|]]]]; cbn in Hs; try lia; unfold T4; cbn [t_ns t_A t_C rsum lst nth]; lra.
  - intros s r Hs Hr. destruct s as [|[|[|[|]]]]; cbn in Hs, Hr; try lia; destruct r as [|[|[|[|]]]]; try lia; reflexivity.
Qed.
Lemma T2_order : order2 T2 /\ row_sums T2 /\ explicit T2 /\ ~ order3 T2.
Proof.
  split; [|split; [|split]].
  - unfold order2, sumB, mulA, T2; cbn [t_ns t_A t_B t_C rsum lst nth]. split; lra.
  - intros s Hs. destruct s as [|[|]]; cbn in Hs; try lia; unfold T2; cbn [t_ns t_A t_C rsum lst nth]; lra.
  - intros s r Hs Hr. destruct s as [|[|]]; cbn in Hs, Hr; try lia; destruct r as [|[|]]; try lia; reflexivity.
  - intros (_ & H & _). unfold sumB, T2 in H; cbn [t_ns t_A t_B t_C rsum lst nth] in H. lra.
Qed.

(** linear systems *)
Section Lin.
Variable n : nat.
Variable M : nat -> nat -> R.
Lemma lin_add x y : lin n M (fun i => x i + y i) = fun i => lin n M x i + lin n M y i.
Proof. apply FunctionalExtensionality.functional_extensionality. intros i. unfold lin. rewrite <- rsum_add. apply rsum_ext. intros; lra. Qed.
Lemma lin_scal c x : lin n M (fun i => c * x i) = fun i => c * lin n M x i.
Proof. apply FunctionalExtensionality.functional_extensionality. intros i. unfold lin. rewrite <- rsum_scal. apply rsum_ext. intros; lra. Qed.
Lemma lin_pad x : lin n M (pad n x) = lin n M x.
Proof. apply FunctionalExtensionality.functional_extensionality. intros i. unfold lin. apply rsum_ext. intros k Hk. unfold pad.
  destruct (Nat.ltb_spec k n); [reflexivity|lia]. Qed.
Let f : R -> rv -> rv := fun _ => lin n M.

Lemma step4_lin h t x i : stepf n T4 h f t x i = exp_taylor n M 4 h x i.
Proof.
  unfold stepf, exp_taylor. cbn [t_ns T4 rsum]. cbn [ktab Nat.eqb].
  unfold f. rewrite !lin_pad. unfold sarg. cbn [rsum Nat.eqb ktab]. unfold f, T4, lst; cbn [t_A t_B t_C nth].
  set (L1 := lin n M (fun i0 => x i0 + h * 0)).
  assert (E1 : L1 = lin n M x) by (unfold L1; f_equal; apply FunctionalExtensionality.functional_extensionality; intros; lra).
  rewrite E1. clear L1 E1. set (y1 := lin n M x).
  set (L2 := lin n M (fun i0 => x i0 + h * (0 + 1 / 2 * y1 i0))).
  assert (E2 : L2 = fun i => y1 i + h * (1/2) * lin n M y1 i).
  { unfold L2. replace (fun i0 => x i0 + h * (0 + 1 / 2 * y1 i0)) with (fun i0 => x i0 + (h * (1/2)) * y1 i0)
      by (apply FunctionalExtensionality.functional_extensionality; intros; lra). rewrite lin_add, lin_scal. reflexivity. }
  rewrite E2. clear L2 E2. set (y2 := lin n M y1).
  match goal with |- context [lin n M ?g] => lazymatch g with fun i0 => x i0 + h * (0 + 0 * _ + 1/2 * _) => set (L3 := lin n M g) end end.
  assert (E3 : L3 = fun i => y1 i + h * (1/2) * (y2 i + h * (1/2) * lin n M y2 i)).
  { unfold L3. match goal with |- lin n M ?g = _ => replace g with (fun i0 => x i0 + (h * (1/2)) * (y1 i0 + h * (1/2) * y2 i0))
      by (apply FunctionalExtensionality.functional_extensionality; intros; lra) end. rewrite lin_add, lin_scal, lin_add, lin_scal. reflexivity. }
  rewrite E3. clear L3 E3. set (y3 := lin n M y2).
  match goal with |- context [lin n M ?g] => lazymatch g with fun i0 => x i0 + h * (0 + 0 * _ + 0 * _ + 1 * _) => set (L4 := lin n M g) end end.
  assert (E4 : L4 = fun i => y1 i + h * (y2 i + h * (1/2) * (y3 i + h * (1/2) * lin n M y3 i))).
  { unfold L4. match goal with |- lin n M ?g = _ => replace g with (fun i0 => x i0 + h * (y1 i0 + h * (1/2) * (y2 i0 + h * (1/2) * y3 i0)))
      by (apply FunctionalExtensionality.functional_extensionality; intros; lra) end. rewrite !lin_add, !lin_scal, !lin_add, !lin_scal, !lin_add, !lin_scal. reflexivity. }
  rewrite E4. clear L4 E4. cbn [lpow fact]. fold y1 y2 y3. cbn [Nat.mul Nat.add].
  rewrite !S_INR. change (INR 0) with 0. simpl pow. field.
Qed.
Lemma step2_lin h t x i : stepf n T2 h f t x i = exp_taylor n M 2 h x i.
Proof.
  unfold stepf, exp_taylor. cbn [t_ns T2 rsum]. cbn [ktab Nat.eqb].
  unfold f. rewrite !lin_pad. unfold sarg. cbn [rsum Nat.eqb ktab]. unfold f, T2, lst; cbn [t_A t_B t_C nth].
  set (L1 := lin n M (fun i0 => x i0 + h * 0)).
  assert (E1 : L1 = lin n M x) by (unfold L1; f_equal; apply FunctionalExtensionality.functional_extensionality; intros; lra).
  rewrite E1. clear L1 E1. set (y1 := lin n M x).
  set (L2 := lin n M (fun i0 => x i0 + h * (0 + 1 / 2 * y1 i0))).
  assert (E2 : L2 = fun i => y1 i + h * (1/2) * lin n M y1 i).
  { unfold L2. replace (fun i0 => x i0 + h * (0 + 1 / 2 * y1 i0)) with (fun i0 => x i0 + (h * (1/2)) * y1 i0)
      by (apply FunctionalExtensionality.functional_extensionality; intros; lra). rewrite lin_add, lin_scal. reflexivity. }
  rewrite E2. clear L2 E2. cbn [lpow fact]. fold y1. cbn [Nat.mul Nat.add].
  rewrite !S_INR. change (INR 0) with 0. simpl pow. field.
Qed.
End Lin.
