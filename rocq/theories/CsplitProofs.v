(** CsplitProofs.v -- condensing in two calls: Gamma, Gammab and the cost with cond_alg 0. *)
From Coq Require Import ZArith Bool Arith Lia Reals Lra.
From Verif Require Import Base ArithF RSum Blas Blas2 OcpModel ResSpec ResProofs CholProofs CholPD CholPSD KktModel KktProofs KktProofs2 DenModel DenSpec CondModel CondSpec CondProofs CondCost CondCost2 CsplitModel.
Local Open Scope R_scope.

(** the QP without the constant terms of the dynamics *)
Definition nob (qp : oqp R) : oqp R := mkqp (q_dim qp) (q_BAbt qp) (q_RSQ qp) (q_DCt qp) (fun _ _ => 0) (q_rqz qp) (q_d qp) (q_mask qp) (q_m qp) (q_Z qp) (q_idxb qp) (q_idxs_rev qp).
Lemma st_aff qp M v i j : st qp M v i j = st (nob qp) M v i j + st qp M (fun _ => 0) i j.
Proof.
  revert j. induction i as [|i IH]; intros j.
  - cbn [st nob q_dim]. change (uoff (nob qp) M 0) with (uoff qp M 0). lra.
  - cbn [st nob q_dim q_BAbt q_b]. change (uoff (nob qp) M i) with (uoff qp M i).
    rewrite (rsum_0 (dnu (q_dim qp) i) (fun k => q_BAbt qp i k j * 0)) by (intros; lra).
    rewrite (rsum_ext (dnx (q_dim qp) i) (fun k => q_BAbt qp i (dnu (q_dim qp) i + k)%nat j * st qp M v i k)
      (fun k => q_BAbt qp i (dnu (q_dim qp) i + k)%nat j * st (nob qp) M v i k + q_BAbt qp i (dnu (q_dim qp) i + k)%nat j * st qp M (fun _ => 0) i k)).
    2:{ intros k _. rewrite IH. fold (nob qp). lra. }
    rewrite rsum_add. fold (nob qp). lra.
Qed.

Section Gam.
Variables (qp : oqp R) (M : nat).
Notation D := (q_dim qp).
Notation nu := (dnu D).
Notation nx := (dnx D).
Notation uo := (uoff qp M).
Notation nuf := (nuf qp).
(** Gamma maps the inputs and the initial state to the states, without the constants *)
Definition HGV (G : nat -> rmat) (i : nat) : Prop := forall j, (j < nx (S i))%nat -> forall v,
  st (nob qp) M v (S i) j = rsum (nuf i + nx 0) (fun r => G i r j * v (uo i + r)%nat).
Definition BGV (Gb : nat -> rvec) (i : nat) : Prop := forall j, (j < nx (S i))%nat -> Gb i j = st qp M (fun _ => 0) (S i) j.

Lemma hst_S v i j : st (nob qp) M v (S i) j = rsum (nu i) (fun k => q_BAbt qp i k j * v (uo i + k)%nat) + rsum (nx i) (fun k => q_BAbt qp i (nu i + k)%nat j * st (nob qp) M v i k).
Proof. cbn [st]. change (uoff (nob qp) M) with uo. cbn [nob q_dim q_BAbt q_b]. rewrite Rplus_0_r. reflexivity. Qed.
Lemma bat_first_R G : HGV (upd G 0 (GECP (nu 0 + nx 0) (nx 1) (q_BAbt qp 0%nat) 0 0 (G 0%nat) 0 0)) 0.
Proof.
  intros j Hj v. rewrite upd_same. unfold GECP, CondProofs.nuf. cbn [nsum Nat.add st nob q_dim q_BAbt q_b]. change (uoff (nob qp) M 0) with (uo 0). rewrite rsum_split.
  rewrite Rplus_0_r. f_equal; apply rsum_ext; intros k Hk; rewrite mblk_i by lia; rewrite ?Nat.sub_0_r; rewrite ?Nat.add_assoc; reflexivity.
Qed.
Lemma bat_mid_R i G0 : (S i <= M)%nat -> (forall k, (k <= i)%nat -> HGV G0 k) ->
  let '(G, n) := bat_mid qp (S i) (G0, nuf i) in (forall k, (k <= S i)%nat -> HGV G k) /\ n = nuf (S i).
Proof.
  intros HiM IH. unfold bat_mid. split; [|unfold CondProofs.nuf; cbn [nsum]; lia].
  intros k Hk. destruct (Nat.eq_dec k (S i)) as [->|Hne].
  2:{ intros j Hj. rewrite upd_other by assumption. apply IH; [lia|exact Hj]. }
  specialize (IH i ltac:(lia)). intros j Hj v. rewrite !upd_same.
  replace (S i - 1)%nat with i by lia. rewrite Nat.add_1_r in *.
  set (GM := GEMM_NN _ _ _ _ _ _ _ _ _ _ _ _ _ _ _ _ _). set (GC := GECP _ _ _ _ _ _ _ _).
  assert (GC1 : forall r, (r < nu (S i))%nat -> GC r j = q_BAbt qp (S i) r j).
  { intros r Hr. unfold GC, GECP. rewrite mblk_i by lia. rewrite ?Nat.sub_0_r. reflexivity. }
  assert (GC2 : forall r, (r < nuf i + nx 0)%nat -> GC (nu (S i) + r)%nat j = rsum (nx (S i)) (fun l => G0 i r l * q_BAbt qp (S i) (nu (S i) + l)%nat j)).
  { intros r Hr. unfold GC, GECP. rewrite mblk_o by lia. unfold GM, GEMM_NN. rewrite mblk_i by lia. rewrite fsum_R. rsimp. rewrite R_lit01, R_lit11.
    replace (nu (S i) + r - nu (S i))%nat with r by lia. rewrite Nat.sub_0_r. cbn [Nat.add]. lra. }
  assert (E : (nuf (S i) = nuf i + nu (S i))%nat) by reflexivity.
  replace (nuf (S i) + nx 0)%nat with (nu (S i) + (nuf i + nx 0))%nat by lia.
  rewrite rsum_split.
  rewrite (rsum_ext (nu (S i)) _ (fun r => q_BAbt qp (S i) r j * v (uo (S i) + r)%nat)).
  2:{ intros r Hr. rewrite GC1 by lia. reflexivity. }
  rewrite (rsum_ext (nuf i + nx 0) _ (fun r => rsum (nx (S i)) (fun l => G0 i r l * v (uo i + r)%nat * q_BAbt qp (S i) (nu (S i) + l)%nat j))).
  2:{ intros r Hr. rewrite GC2 by lia. rewrite (uoff_S qp M i) by lia. rewrite <- rsum_scal_r. rewrite Nat.add_assoc. apply rsum_ext. intros; lra. }
  rewrite rsum_swap. rewrite hst_S. f_equal.
  apply rsum_ext. intros l Hl. rewrite rsum_scal_r. rewrite <- (IH l Hl v). ring.
Qed.
Lemma bat_loop_R G BAbt2 : M = dN D -> (1 <= M)%nat -> forall i, (i < M)%nat -> HGV (fst (cond_bat true qp G BAbt2)) i.
Proof.
  intros EM HN i Hi. unfold cond_bat. destruct (Nat.eqb_spec (dN D) 0); [lia|]. cbn [andb].
  pose proof (bat_first_R G) as B0. set (G0 := upd G 0 _) in *.
  pose proof (loop_ind (fun k (s : (nat -> rmat) * nat) => let '(G, n) := s in (forall i, (i <= k)%nat -> HGV G i) /\ n = nuf k)
    (dN D - 1) (fun k s => bat_mid qp (k + 1) s) (G0, nu 0)) as L.
  destruct (loop _ _ _) as [G1 n1]. cbn [fst]. destruct L as (L1 & L2).
  - split; [|reflexivity]. intros k Hk. replace k with 0%nat by lia. exact B0.
  - intros k [G2 n2] Hk (I1 & ->). rewrite Nat.add_1_r. apply (bat_mid_R k G2); [lia|exact I1].
  - apply L1. lia.
Qed.
Lemma b_loop_R Gb b2 : M = dN D -> (1 <= M)%nat -> forall i, (i < M)%nat -> BGV (fst (cond_b true qp Gb b2)) i.
Proof.
  intros EM HN i Hi. unfold cond_b. destruct (Nat.eqb_spec (dN D) 0); [lia|]. cbn [andb fst].
  set (Gb0 := upd Gb 0 _).
  assert (Z0 : forall i j, st qp M (fun _ => 0) (S i) j = rsum (nx i) (fun k => q_BAbt qp i (nu i + k)%nat j * st qp M (fun _ => 0) i k) + q_b qp i j).
  { intros i0 j0. cbn [st]. rewrite (rsum_0 (nu i0)) by (intros; lra). lra. }
  pose proof (loop_ind (fun k (Gb : nat -> rvec) => forall i, (i <= k)%nat -> BGV Gb i)
    (dN D - 1) (fun k Gb => let ii := (k + 1)%nat in upd Gb ii (GEMV_T (nx ii) (nx (ii + 1)) f1 (q_BAbt qp ii) (nu ii) 0 (Gb (ii - 1)%nat) 0 f1 (q_b qp ii) 0 (Gb ii) 0)) Gb0) as L.
  cbv zeta in L. apply L; clear L; [| |lia].
  - intros k Hk. replace k with 0%nat by lia. intros j Hj. unfold Gb0. rewrite upd_same. unfold VECCP. rewrite vset_in' by lia. rewrite Z0. rewrite rsum_0; [rewrite Nat.sub_0_r; cbn [Nat.add]; lra|]. intros; cbn [st]; lra.
  - intros k Gb1 Hk IH i' Hi'. rewrite Nat.add_1_r. replace (S k - 1)%nat with k by lia. destruct (Nat.eq_dec i' (S k)) as [->|Hne].
    + intros j Hj. rewrite upd_same. unfold GEMV_T. rewrite Nat.add_1_r. rewrite vset_in' by lia. rewrite fsum_R. rsimp. rewrite R_lit11. rewrite Nat.sub_0_r. cbn [Nat.add]. rewrite Z0.
      rewrite !Rmult_1_l. rewrite Rplus_comm. f_equal. apply rsum_ext. intros l Hl. rewrite (IH k (le_n _) l Hl). reflexivity.
    + intros j Hj. rewrite upd_other by exact Hne. apply IH; [lia|exact Hj].
Qed.
(** Gamma with Gammab as its last row *)
Definition virtG (G : nat -> rmat) (Gb : nat -> rvec) (i : nat) : rmat := fun r c => if (r =? nuf i + nx 0)%nat then Gb i c else G i r c.
Lemma virt_GIV G Gb i : HGV G i -> BGV Gb i -> GIV qp M (virtG G Gb) Gb i.
Proof.
  intros HH HB j Hj. unfold virtG. rewrite Nat.eqb_refl. split; [|reflexivity]. intros v. rewrite st_aff, (HH j Hj v), (HB j Hj). f_equal. apply rsum_ext. intros r Hr.
  destruct (Nat.eqb_spec r (nuf i + nx 0)); [lia|reflexivity].
Qed.
End Gam.

Section Alg0.
Variables (qp : oqp R) (M : nat) (Gm : nat -> rmat) (sq : bool).
Notation D := (q_dim qp).
Notation nu := (dnu D).
Notation nx := (dnx D).
Notation uo := (uoff qp M).
Notation nux := (nux qp).
Notation nh := (n_hard qp M).
(** the matrix parts of PL, PLlast, EM, EM0 (CondCost.v) *)
Definition PLm (Lp Ln : rmat) (p : nat) : Prop :=
  forall r c, (c <= r < nux p)%nat -> Lp r c = q_RSQ qp p r c + rsum (nx (S p)) (fun l => rsum (nx (S p)) (fun m => q_BAbt qp p r l * Pm qp Ln (S p) l m * q_BAbt qp p c m)).
Definition PLlm (L : rmat) : Prop := forall r c, (c <= r < nux M)%nat -> L r c = q_RSQ qp M r c.
Definition EMm (H L : rmat) (m : nat) : Prop :=
  (forall r c, (c <= r < nu m)%nat -> H (uo m + r)%nat (uo m + c)%nat = L r c) /\
  (forall r c, (r < nsum m nu + nx 0)%nat -> (c < nu m)%nat -> H (uo m + nu m + r)%nat (uo m + c)%nat = rsum (nx m) (fun l => Gm (m - 1)%nat r l * L (nu m + l)%nat c)).
Definition EM0m (H L : rmat) : Prop := forall r c, (c <= r < nux 0)%nat -> H (uo 0 + r)%nat (uo 0 + c)%nat = L r c.
(** the cost of the states of stage n is convex *)
Definition Qpsd (n : nat) : Prop := PSD (nx n) (fun l m => symL (q_RSQ qp n) (nu n + l)%nat (nu n + m)%nat).

Lemma lhs_prop_R p s : sq = false \/ PSD (nx (S p)) (Pm qp (qs_L s (S p)) (S p)) ->
  let s' := lhs_prop sq qp (S p) s in
  PLm (qs_L s' p) (qs_L s (S p)) p /\ (forall k, k <> p -> qs_L s' k = qs_L s k) /\ qs_H s' = qs_H s /\ qs_nub s' = qs_nub s /\ qs_nuf s' = qs_nuf s.
Proof.
  intros HS. cbv zeta. unfold lhs_prop. replace (S p - 1)%nat with p by lia. change (nu p + nx p)%nat with (nux p). destruct sq.
  - destruct HS as [HS|HS]; [discriminate|].
    set (C := fun i j => qs_L s (S p) (nu (S p) + i)%nat (nu (S p) + j)%nat).
    change (POTRF_L_MN (nx (S p)) (nx (S p)) (qs_L s (S p)) (nu (S p)) (nu (S p)) (qs_Lx s) 0 0 (qs_dA s)) with (POTRF_L_MN (nx (S p)) (nx (S p)) C 0 0 (qs_Lx s) 0 0 (qs_dA s)).
    destruct (POTRF_L_MN (nx (S p)) (nx (S p)) C 0 0 (qs_Lx s) 0 0 (qs_dA s)) as [Lx dA] eqn:HP.
    assert (EC : forall l m, Pm qp (qs_L s (S p)) (S p) l m = symL C l m).
    { intros l m. unfold Pm, symL, C. destruct (Nat.leb_spec m l), (Nat.leb_spec (nu (S p) + m) (nu (S p) + l)); try reflexivity; lia. }
    assert (HP' : PSD (nx (S p)) (symL C)). { intros v. rewrite (quadf_ext _ (symL C) (Pm qp (qs_L s (S p)) (S p)) v v); [apply HS|intros; symmetry; apply EC|reflexivity]. }
    pose proof (potrf_psd _ _ _ _ _ _ HP' HP) as F1.
    assert (EP : forall l m, (l < nx (S p))%nat -> (m < nx (S p))%nat -> Pm qp (qs_L s (S p)) (S p) l m = rsum (nx (S p)) (fun k => lt Lx l k * lt Lx m k)).
    { intros l m Hl Hm. rewrite EC. unfold symL. destruct (Nat.leb_spec m l); rewrite F1 by lia; [reflexivity|]. apply rsum_ext. intros; ring. }
    cbn [qs_L qs_H qs_nub qs_nuf]. split; [|split; [intros k Hk; apply upd_other; exact Hk|repeat split; reflexivity]].
    rewrite upd_same. set (AL := TRMM_RLNN _ _ _ _ _ _ _ _ _ _ _ _).
    assert (EAL : forall r c, (r < nux p)%nat -> (c < nx (S p))%nat -> AL r c = rsum (nx (S p)) (fun m => q_BAbt qp p r m * lt Lx m c)).
    { intros r c Hr Hc. unfold AL, TRMM_RLNN. rewrite mblk_i by lia. rewrite fsum_R. rsimp. rewrite R_lit11, !Nat.sub_0_r, Rmult_1_l. cbn [Nat.add].
      rewrite <- (rsum_high (nx (S p)) c (fun m => q_BAbt qp p r m * Lx m c)) by lia. apply rsum_ext. intros m Hm. unfold lt. destruct (Nat.leb_spec c m); lra. }
    intros r c H. rewrite SYRK_R by lia. cbn [Nat.add]. rsimp. rewrite R_lit11, !Rmult_1_l. f_equal.
    rewrite (rsum_ext _ _ (fun l => rsum (nx (S p)) (fun m => q_BAbt qp p r m * lt Lx m l) * rsum (nx (S p)) (fun m => q_BAbt qp p c m * lt Lx m l))).
    2:{ intros l Hl. rewrite !EAL by lia. reflexivity. }
    rewrite quad_factor. apply rsum_ext. intros l Hl. apply rsum_ext. intros m Hm. rewrite EP by assumption. reflexivity.
  - clear HS. set (Lx0 := TRCP_L _ _ _ _ _ _ _). set (Lx := TRTR_L _ Lx0 _ _ _ _ _).
    assert (ELx0 : forall i j, (j <= i < nx (S p))%nat -> Lx0 i j = qs_L s (S p) (nu (S p) + i)%nat (nu (S p) + j)%nat).
    { intros i j H. unfold Lx0, TRCP_L. rewrite mupd_i by (try lia; unfold low; apply Nat.leb_le; lia). rewrite !Nat.sub_0_r. reflexivity. }
    assert (ELx : forall i j, (i < nx (S p))%nat -> (j < nx (S p))%nat -> Lx i j = Pm qp (qs_L s (S p)) (S p) i j).
    { intros i j Hi Hj. unfold Lx, TRTR_L. rewrite mupd_at. cbn [Nat.add]. rewrite !Nat.sub_0_r.
      destruct (Nat.ltb_spec i (nx (S p))); [|lia]. destruct (Nat.ltb_spec j (nx (S p))); [|lia]. cbn [Nat.leb andb].
      unfold Pm, symL. destruct (Nat.leb_spec i j).
      - rewrite ELx0 by lia. destruct (Nat.leb_spec (nu (S p) + j) (nu (S p) + i)); [|reflexivity]. replace j with i by lia. reflexivity.
      - rewrite ELx0 by lia. destruct (Nat.leb_spec (nu (S p) + j) (nu (S p) + i)); [reflexivity|lia]. }
    cbn [qs_L qs_H qs_nub qs_nuf]. split; [|split; [intros k Hk; apply upd_other; exact Hk|repeat split; reflexivity]].
    rewrite upd_same. set (AL := GEMM_NT _ _ _ _ _ _ _ _ _ _ _ _ _ _ _ _ _).
    assert (EAL : forall r c, (r < nux p)%nat -> (c < nx (S p))%nat -> AL r c = rsum (nx (S p)) (fun m => q_BAbt qp p r m * Pm qp (qs_L s (S p)) (S p) c m)).
    { intros r c Hr Hc. unfold AL, GEMM_NT. rewrite mblk_i by lia. rewrite fsum_R. rsimp. rewrite R_lit01, R_lit11, !Nat.sub_0_r. cbn [Nat.add].
      rewrite Rmult_0_l, Rplus_0_l, Rmult_1_l. apply rsum_ext. intros m Hm. rewrite ELx by lia. reflexivity. }
    intros r c H. rewrite SYRK_R by lia. cbn [Nat.add]. rsimp. rewrite R_lit11, !Rmult_1_l. f_equal.
    rewrite rsum_swap. apply rsum_ext. intros l Hl. rewrite EAL by lia. rewrite <- rsum_scal_r. apply rsum_ext. intros m Hm. rewrite (Pm_sym qp _ _ l m). reflexivity.
Qed.
Lemma Pm_psd Lp Ln p : PLm Lp Ln p -> Qpsd p -> PSD (nx (S p)) (Pm qp Ln (S p)) -> PSD (nx p) (Pm qp Lp p).
Proof.
  intros HPL HQ HP v.
  set (A := fun l k => q_BAbt qp p (nu p + l)%nat k).
  rewrite (quadf_ext (nx p) (Pm qp Lp p) (fun l m => symL (q_RSQ qp p) (nu p + l)%nat (nu p + m)%nat + rsum (nx (S p)) (fun k => rsum (nx (S p)) (fun k' => A l k * Pm qp Ln (S p) k k' * A m k'))) v v); [| |reflexivity].
  - rewrite quadf_add, quadf_congr. pose proof (HQ v). pose proof (HP (fun l => rsum (nx p) (fun i => v i * A i l))). lra.
  - intros l m Hl Hm. unfold Pm at 1. unfold symL. unfold ResSpec.nux in HPL. destruct (Nat.leb_spec (nu p + m) (nu p + l)).
    + apply HPL. unfold ResSpec.nux. lia.
    + rewrite HPL by (unfold ResSpec.nux; lia). f_equal. rewrite rsum_swap. apply rsum_ext. intros a _. apply rsum_ext. intros b _. unfold A. rewrite (Pm_sym qp Ln (S p) b a). ring.
Qed.
Lemma lhs_emit_R ext m s : (1 <= m <= M)%nat -> qs_nuf s = uo m -> qs_nub s = nsum (S m) nu ->
  let s' := lhs_emit ext qp Gm m s in
  EMm (qs_H s') (qs_L s m) m /\ (forall r c, (c < uo m)%nat -> qs_H s' r c = qs_H s r c) /\ qs_L s' = qs_L s /\ qs_nuf s' = (uo m + nu m)%nat /\ qs_nub s' = nsum m nu.
Proof.
  intros Hm Hf Hb s'. unfold s', lhs_emit. rewrite Hf, Hb. cbn [qs_L qs_H qs_nub qs_nuf].
  assert (Eb : (nsum (S m) nu - nu m = nsum m nu)%nat) by (cbn [nsum]; lia). rewrite Eb.
  set (H1 := TRCP_L _ _ _ _ _ _ _). set (H2 := GEMM_NN _ _ _ _ _ _ _ _ _ _ _ _ _ _ _ _ _).
  split; [split|split; [|split; [|split]]]; try reflexivity.
  - intros r c H. unfold H2, GEMM_NN. rewrite mblk_o by lia. unfold H1, TRCP_L. rewrite mupd_i by (try lia; unfold low; apply Nat.leb_le; lia).
    cbn [Nat.add]. f_equal; lia.
  - intros r c Hr Hc. unfold H2, GEMM_NN. rewrite mblk_i by lia. rewrite fsum_R. rsimp. rewrite R_lit01, R_lit11.
    replace (uo m + nu m + r - (uo m + nu m))%nat with r by lia. replace (uo m + c - uo m)%nat with c by lia. cbn [Nat.add]. lra.
  - intros r c Hc. unfold H2, GEMM_NN. rewrite mblk_o by lia. unfold H1, TRCP_L. rewrite mupd_out by lia. reflexivity.
Qed.
Lemma lhs_emit0_R s : qs_nuf s = uo 0 -> let s' := lhs_emit0 qp s in
  EM0m (qs_H s') (qs_L s 0%nat) /\ (forall r c, (c < uo 0)%nat -> qs_H s' r c = qs_H s r c) /\ qs_L s' = qs_L s.
Proof.
  intros Hf s'. unfold s', lhs_emit0. rewrite Hf. cbn [qs_L qs_H qs_nub qs_nuf]. change (nu 0 + nx 0)%nat with (nux 0).
  split; [|split; [|reflexivity]].
  - intros r c H. unfold TRCP_L. rewrite mupd_i by (try lia; unfold low; apply Nat.leb_le; lia). cbn [Nat.add]. f_equal; lia.
  - intros r c H. unfold TRCP_L. rewrite mupd_out by lia. reflexivity.
Qed.
Lemma EMm_frame H H' L m u : (uo m + nu m <= u)%nat -> (forall r c, (c < u)%nat -> H' r c = H r c) -> EMm H L m -> EMm H' L m.
Proof.
  intros Hu E (E1 & E2). split.
  - intros r c Hr. rewrite E by lia. apply E1. exact Hr.
  - intros r c Hr Hc. rewrite E by lia. apply E2; assumption.
Qed.
(** what the matrices stored in the workspace and the dense Hessian mean *)
Definition LI (n : nat) (L : nat -> rmat) (H : rmat) : Prop :=
  (forall m, (n <= m <= M)%nat -> (1 <= m)%nat -> EMm H (L m) m) /\ (n = 0%nat -> EM0m H (L 0%nat)) /\
  (forall m, (n <= m < M)%nat -> PLm (L m) (L (S m)) m) /\ PLlm (L M).
Definition LS (n : nat) (s : qst (F := R)) : Prop := LI n (qs_L s) (qs_H s) /\ (sq = true -> (1 <= n)%nat -> PSD (nx n) (Pm qp (qs_L s n) n)) /\
  ((1 <= n)%nat -> qs_nuf s = (uo n + nu n)%nat /\ qs_nub s = nsum n nu).
Hypothesis Hsq : sq = false \/ forall n, (1 <= n <= M)%nat -> Qpsd n.

Lemma lhs_step_R n ext s : (1 <= n <= M)%nat -> LS n s ->
  LS (n - 1) (let s := lhs_prop sq qp n s in if Nat.eqb (n - 1) 0 then lhs_emit0 qp s else lhs_emit ext qp Gm (n - 1) s).
Proof.
  intros Hn ((I1 & I2 & I3 & I4) & I5 & I6). destruct (I6 ltac:(lia)) as (If & Ib).
  destruct n as [|p]; [lia|]. replace (S p - 1)%nat with p by lia.
  assert (HS : sq = false \/ PSD (nx (S p)) (Pm qp (qs_L s (S p)) (S p))). { destruct sq; [right; apply I5; [reflexivity|lia]|left; reflexivity]. }
  pose proof (lhs_prop_R p s HS) as PP. set (s1 := lhs_prop sq qp (S p) s) in *. clearbody s1. cbv zeta in *.
  destruct PP as (P1 & P2 & P3 & P4 & P5).
  assert (PLs : forall m, (p <= m < M)%nat -> PLm (qs_L s1 m) (qs_L s1 (S m)) m).
  { intros m Hm. destruct (Nat.eq_dec m p) as [->|Hne]; [rewrite (P2 (S p)) by lia; exact P1|]. rewrite (P2 m), (P2 (S m)) by lia. apply I3. lia. }
  assert (Plast : PLlm (qs_L s1 M)) by (rewrite P2 by lia; exact I4).
  assert (Eu : uo p = (uo (S p) + nu (S p))%nat) by (apply uoff_S; lia).
  destruct (Nat.eqb_spec p 0) as [->|Hp].
  - pose proof (lhs_emit0_R s1 ltac:(rewrite P5, If; lia)) as E. cbv zeta in E. set (s2 := lhs_emit0 qp s1) in *. clearbody s2. destruct E as (E1 & E2 & E3).
    split; [split; [|split; [|split]]|split; [lia|lia]].
    + intros m Hm Hm1. rewrite E3, P2 by lia. eapply (EMm_frame (qs_H s1) _ _ m (uo 0)); [apply uo_mono; lia|exact E2|]. rewrite P3. apply I1; lia.
    + intros _. rewrite E3. exact E1.
    + intros m Hm. rewrite E3. apply PLs. lia.
    + rewrite E3. exact Plast.
  - pose proof (lhs_emit_R ext p s1 ltac:(lia) ltac:(rewrite P5, If; lia) ltac:(rewrite P4, Ib; reflexivity)) as E. cbv zeta in E. set (s2 := lhs_emit ext qp Gm p s1) in *. clearbody s2. destruct E as (E1 & E2 & E3 & E6 & E7).
    split; [split; [|split; [|split]]|split].
    + intros m Hm Hm1. rewrite E3. destruct (Nat.eq_dec m p) as [->|Hne]; [exact E1|]. rewrite P2 by lia. eapply (EMm_frame (qs_H s1) _ _ m (uo p)); [apply uo_mono; lia|exact E2|]. rewrite P3. apply I1; lia.
    + lia.
    + intros m Hm. rewrite E3. apply PLs. lia.
    + rewrite E3. exact Plast.
    + intros Esq Hp1. rewrite E3. apply (Pm_psd _ (qs_L s (S p))); [exact P1| |].
      * destruct Hsq as [F|F]; [congruence|apply F; lia].
      * destruct HS as [F|F]; [congruence|exact F].
    + intros _. split; assumption.
Qed.
Lemma lhs_alg0_R s : (1 <= M)%nat -> qs_nub s = nu2_of qp M -> qs_nuf s = 0%nat -> let s' := lhs_alg0 sq qp Gm M s in LI 0 (qs_L s') (qs_H s').
Proof.
  intros HM Hb Hf. cbv zeta. unfold lhs_alg0. change (nu M + nx M)%nat with (nux M). rewrite Hb, Hf.
  set (L1 := GECP _ _ _ _ _ _ _ _). set (s1 := mkqst _ _ _ _ _ _ _). set (ext := if sq then 1%nat else 0%nat).
  assert (B : LS M (lhs_emit 0 qp Gm M s1)).
  { pose proof (lhs_emit_R 0 M s1 ltac:(lia)) as E. cbv zeta in E. cbn [qs_nuf qs_nub s1] in E. specialize (E ltac:(rewrite uoff_M; reflexivity)).
    specialize (E ltac:(unfold nu2_of; rewrite Nat.add_1_r; reflexivity)). set (s2 := lhs_emit 0 qp Gm M s1) in *. clearbody s2. destruct E as (E1 & E2 & E3 & E6 & E7).
    assert (EL : PLlm (qs_L s2 M)).
    { rewrite E3. cbn [s1 qs_L]. rewrite upd_same. intros r c H. unfold L1, GECP. rewrite mblk_i by lia. rewrite !Nat.sub_0_r. reflexivity. }
    split; [split; [|split; [|split]]|split].
    - intros m Hm _. replace m with M by lia. rewrite E3. exact E1.
    - lia.
    - lia.
    - exact EL.
    - intros Esq _. destruct Hsq as [F|F]; [congruence|]. intros v. rewrite (quadf_ext (nx M) (Pm qp (qs_L s2 M) M) (fun l m => symL (q_RSQ qp M) (nu M + l)%nat (nu M + m)%nat) v v); [apply (F M); lia| |reflexivity].
      intros l m Hl Hm. unfold Pm, symL. destruct (Nat.leb_spec (nu M + m) (nu M + l)); apply EL; unfold ResSpec.nux; lia.
    - intros _. split; assumption. }
  set (s2 := lhs_emit _ _ _ _ s1) in *. clearbody s2.
  pose proof (loop_ind (fun k s => LS (M - k) s) M (fun nn s => let s := lhs_prop sq qp (M - nn) s in if Nat.eqb nn (M - 1) then lhs_emit0 qp s else lhs_emit ext qp Gm (M - nn - 1) s) s2) as L.
  cbv beta in L. rewrite Nat.sub_diag, Nat.sub_0_r in L. apply L; [exact B|].
  intros k x Hk Hx. pose proof (lhs_step_R (M - k) ext x ltac:(lia) Hx) as S1. cbv zeta in *. replace (M - S k)%nat with (M - k - 1)%nat by lia.
  replace (Nat.eqb k (M - 1)) with (Nat.eqb (M - k - 1) 0). 2:{ destruct (Nat.eqb_spec (M - k - 1) 0), (Nat.eqb_spec k (M - 1)); try reflexivity; lia. }
  exact S1.
Qed.
End Alg0.

Section Rhs0.
Variables (qp : oqp R) (M : nat) (Gm : nat -> rmat) (Gb : nat -> rvec) (L0 : nat -> rmat).
Notation D := (q_dim qp).
Notation nu := (dnu D).
Notation nx := (dnx D).
Notation uo := (uoff qp M).
Notation nux := (nux qp).
Notation nh := (n_hard qp M).
Definition lowL (L : nat -> rmat) : Prop := forall i r c, (c <= r < nux i)%nat -> L i r c = L0 i r c.
Lemma lowL_Pm L n l m : lowL L -> (l < nx n)%nat -> (m < nx n)%nat -> Pm qp (L n) n l m = Pm qp (L0 n) n l m.
Proof. intros H Hl Hm. unfold Pm, symL. destruct (Nat.leb_spec (nu n + m) (nu n + l)); apply H; unfold ResSpec.nux; lia. Qed.
Lemma LI_low L H : lowL L -> LI qp M Gm 0 L0 H -> LI qp M Gm 0 L H.
Proof.
  intros HL (I1 & I2 & I3 & I4). split; [|split; [|split]].
  - intros m Hm Hm1. destruct (I1 m Hm Hm1) as (E1 & E2). split.
    + intros r c Hr. rewrite E1 by exact Hr. symmetry. apply HL. unfold ResSpec.nux. lia.
    + intros r c Hr Hc. rewrite E2 by assumption. apply rsum_ext. intros l Hl. f_equal. symmetry. apply HL. unfold ResSpec.nux. lia.
  - intros _ r c Hr. rewrite (I2 eq_refl r c Hr). symmetry. apply HL. exact Hr.
  - intros m Hm r c Hr. rewrite (HL m r c Hr), (I3 m Hm r c Hr). f_equal. apply rsum_ext. intros l Hl. apply rsum_ext. intros k Hk. rewrite (lowL_Pm L) by assumption. reflexivity.
  - intros r c Hr. rewrite (HL M r c Hr). apply I4. exact Hr.
Qed.
Definition RL (l : nat -> rvec) (m : nat) : Prop := forall c, (c < nux m)%nat ->
  l m c = q_rqz qp m c + rsum (nx (S m)) (fun k => q_BAbt qp m c k * (rsum (nx (S m)) (fun k' => Pm qp (L0 (S m)) (S m) k k' * q_b qp m k') + l (S m) (nu (S m) + k)%nat)).
Definition RG (g : rvec) (l : nat -> rvec) (m : nat) : Prop := forall c, (c < nu m)%nat -> g (uo m + c)%nat = rsum (nx m) (fun k => Gb (m - 1)%nat k * L0 m (nu m + k)%nat c) + l m c.
Definition RS (n : nat) (s : gst (F := R)) : Prop :=
  lowL (gs_L s) /\ (forall m, (n <= m < M)%nat -> RL (gs_l s) m) /\ (forall c, (c < nux M)%nat -> gs_l s M c = q_rqz qp M c) /\
  (forall m, (n <= m <= M)%nat -> (1 <= m)%nat -> RG (gs_g s) (gs_l s) m) /\ (n = 0%nat -> forall c, (c < nux 0)%nat -> gs_g s (uo 0 + c)%nat = gs_l s 0%nat c) /\
  ((1 <= n)%nat -> gs_nuf s = (uo n + nu n)%nat).
Lemma RG_ext g g' l l' m : (forall c, (c < nu m)%nat -> g' (uo m + c)%nat = g (uo m + c)%nat) -> (forall c, l' m c = l m c) -> RG g l m -> RG g' l' m.
Proof. intros Hg Hl H c Hc. rewrite Hg, Hl by exact Hc. apply H. exact Hc. Qed.
Lemma RL_ext l l' m : (forall c, l' m c = l m c) -> (forall c, l' (S m) c = l (S m) c) -> RL l m -> RL l' m.
Proof. intros H1 H2 H c Hc. rewrite H1, (H c Hc). f_equal. apply rsum_ext. intros k _. rewrite H2. reflexivity. Qed.

Lemma rq_emit_g n s : lowL (gs_L s) -> gs_nuf s = uo n -> (1 <= n)%nat -> let s' := rq_emit qp Gb n s in
  RG (gs_g s') (gs_l s') n /\ (forall p, (p < uo n)%nat -> gs_g s' p = gs_g s p) /\ gs_L s' = gs_L s /\ gs_l s' = gs_l s /\ gs_nuf s' = (uo n + nu n)%nat.
Proof.
  intros HL Hf Hn. cbv zeta. unfold rq_emit. rewrite Hf. cbn [gs_g gs_l gs_L gs_nuf]. split; [|split; [|repeat split; reflexivity]].
  - intros c Hc. unfold GEMV_T. rewrite vset_in' by lia. rewrite fsum_R. rsimp. rewrite R_lit11. replace (uo n + c - uo n)%nat with c by lia. cbn [Nat.add]. rewrite !Rmult_1_l. rewrite Rplus_comm. f_equal.
    apply rsum_ext. intros k Hk. rewrite (HL n (nu n + k)%nat c) by (unfold ResSpec.nux; lia). ring.
  - intros p Hp. unfold GEMV_T. rewrite vset_out by lia. reflexivity.
Qed.
Lemma rq_step_R n s : (1 <= n <= M)%nat -> RS n s ->
  RS (n - 1) (let s := rq_prop qp n s in if Nat.eqb (n - 1) 0 then rq_emit0 qp s else rq_emit qp Gb (n - 1) s).
Proof.
  intros Hn (I1 & I2 & I3 & I4 & I5 & I6). destruct n as [|p]; [lia|]. replace (S p - 1)%nat with p by lia.
  set (s1 := rq_prop qp (S p) s).
  assert (PP : lowL (gs_L s1) /\ RL (gs_l s1) p /\ (forall m, m <> p -> gs_l s1 m = gs_l s m) /\ gs_g s1 = gs_g s /\ gs_nuf s1 = gs_nuf s).
  { unfold s1, rq_prop. replace (S p - 1)%nat with p by lia. cbn [gs_L gs_l gs_g gs_nuf]. set (Ln := TRTR_L _ _ _ _ _ _ _). set (tmp := GEMV_N (nx (S p)) _ _ _ _ _ _ _ _ _ _ _ _).
    assert (ELn : forall r c, (r < nux (S p))%nat -> (c < nux (S p))%nat -> Ln r c = symL (L0 (S p)) r c).
    { intros r c Hr Hc. unfold Ln, TRTR_L. replace (nx (S p) + nu (S p))%nat with (nux (S p)) by (unfold ResSpec.nux; lia). rewrite mupd_at. cbn [Nat.add]. rewrite !Nat.sub_0_r.
      destruct (Nat.ltb_spec r (nux (S p))); [|lia]. destruct (Nat.ltb_spec c (nux (S p))); [|lia]. cbn [Nat.leb andb].
      unfold symL. destruct (Nat.leb_spec r c); destruct (Nat.leb_spec c r); try lia; try (apply I1; lia). replace c with r by lia. apply I1; lia. }
    assert (Et : forall k, (k < nx (S p))%nat -> tmp k = rsum (nx (S p)) (fun k' => Pm qp (L0 (S p)) (S p) k k' * q_b qp p k') + gs_l s (S p) (nu (S p) + k)%nat).
    { intros k Hk. unfold tmp, GEMV_N. rewrite vset_in' by lia. rewrite fsum_R. rsimp. rewrite R_lit11. rewrite Nat.sub_0_r. cbn [Nat.add]. rewrite !Rmult_1_l. rewrite Rplus_comm. f_equal.
      apply rsum_ext. intros k' Hk'. rewrite ELn by (unfold ResSpec.nux; lia). reflexivity. }
    split; [|split; [|split; [intros m Hm; apply upd_other; exact Hm|split; reflexivity]]].
    - intros i r c H. unfold upd. destruct (Nat.eqb_spec i (S p)) as [->|]; [|apply I1; exact H]. rewrite ELn by lia. unfold symL. destruct (Nat.leb_spec c r); [reflexivity|lia].
    - intros c Hc. rewrite upd_same. rewrite upd_other by lia. unfold GEMV_N. fold (nux p). rewrite vset_in' by lia. rewrite fsum_R. rsimp. rewrite R_lit11. rewrite Nat.sub_0_r. cbn [Nat.add]. rewrite !Rmult_1_l. f_equal.
      apply rsum_ext. intros k Hk. rewrite Et by exact Hk. reflexivity. }
  clearbody s1. cbv zeta. destruct PP as (P1 & P2 & P3 & P4 & P5).
  assert (Eu : uo p = (uo (S p) + nu (S p))%nat) by (apply uoff_S; lia).
  assert (Q2 : forall m, (p <= m < M)%nat -> RL (gs_l s1) m).
  { intros m Hm. destruct (Nat.eq_dec m p) as [->|]; [exact P2|]. eapply RL_ext; [| |apply (I2 m); lia]; intros c; rewrite P3 by lia; reflexivity. }
  assert (Q3 : forall c, (c < nux M)%nat -> gs_l s1 M c = q_rqz qp M c) by (intros c Hc; rewrite P3 by lia; apply I3; exact Hc).
  assert (Q4 : forall m, (p < m <= M)%nat -> RG (gs_g s1) (gs_l s1) m).
  { intros m Hm. eapply RG_ext; [| |apply (I4 m); lia]; [intros c Hc; rewrite P4; reflexivity|intros c; rewrite P3 by lia; reflexivity]. }
  specialize (I6 ltac:(lia)). destruct (Nat.eqb_spec p 0) as [->|Hp].
  - unfold RS, rq_emit0. cbn [gs_L gs_l gs_g gs_nuf]. rewrite P5, I6, <- Eu. fold (nux 0). split; [exact P1|]. split; [intros m Hm; apply Q2; lia|]. split; [exact Q3|]. split; [|split; [|lia]].
    + intros m Hm Hm1. eapply RG_ext; [| |apply (Q4 m); lia]; [|reflexivity]. intros c Hc. pose proof (uo_mono qp M 0 m ltac:(lia) ltac:(lia)). unfold VECCP. rewrite vset_out by lia. reflexivity.
    + intros _ c Hc. unfold VECCP. rewrite vset_in' by lia. f_equal. lia.
  - pose proof (rq_emit_g p s1 P1 ltac:(rewrite P5, I6, Eu; reflexivity) ltac:(lia)) as E. cbv zeta in E. set (s2 := rq_emit qp Gb p s1) in *. clearbody s2. destruct E as (E1 & E2 & E3 & E4 & E5).
    unfold RS. rewrite E3, E4. split; [exact P1|]. split; [intros m Hm; apply Q2; lia|]. split; [exact Q3|]. split; [|split; [lia|intros _; exact E5]].
    intros m Hm Hm1. destruct (Nat.eq_dec m p) as [->|]; [rewrite <- E4; exact E1|]. eapply RG_ext; [| |apply (Q4 m); lia]; [|reflexivity]. intros c Hc. pose proof (uo_mono qp M p m ltac:(lia) ltac:(lia)). apply E2. lia.
Qed.
Lemma rq_alg0_R s : (1 <= M)%nat -> lowL (gs_L s) -> gs_nuf s = 0%nat -> RS 0 (rq_alg0 qp Gb M s).
Proof.
  intros HM HL Hf. unfold rq_alg0. fold (nux M). set (s1 := mkgst _ _ _ _ _).
  assert (B : RS M (rq_emit qp Gb M s1)).
  { pose proof (rq_emit_g M s1 HL) as E. cbv zeta in E. cbn [gs_nuf s1] in E. rewrite Hf in E. specialize (E ltac:(rewrite uoff_M; reflexivity) HM). set (s2 := rq_emit qp Gb M s1) in *. clearbody s2. destruct E as (E1 & E2 & E3 & E4 & E5).
    unfold RS. rewrite E3, E4. split; [exact HL|]. split; [lia|]. split; [|split; [|split; [lia|intros _; exact E5]]].
    - intros c Hc. cbn [s1 gs_l]. rewrite upd_same. unfold VECCP. rewrite vset_in' by lia. f_equal. lia.
    - intros m Hm _. replace m with M by lia. rewrite <- E4. exact E1. }
  set (s2 := rq_emit _ _ _ s1) in *. clearbody s2.
  pose proof (loop_ind (fun k s => RS (M - k) s) M (fun nn s => let s := rq_prop qp (M - nn) s in if Nat.eqb nn (M - 1) then rq_emit0 qp s else rq_emit qp Gb (M - nn - 1) s) s2) as L.
  cbv beta in L. rewrite Nat.sub_diag, Nat.sub_0_r in L. apply L; [exact B|].
  intros k x Hk Hx. pose proof (rq_step_R (M - k) x ltac:(lia) Hx) as S1. cbv zeta in *. replace (M - S k)%nat with (M - k - 1)%nat by lia.
  replace (Nat.eqb k (M - 1)) with (Nat.eqb (M - k - 1) 0). 2:{ destruct (Nat.eqb_spec (M - k - 1) 0), (Nat.eqb_spec k (M - 1)); try reflexivity; lia. }
  exact S1.
Qed.
(** Hessian of the first call, gradient of the second *)
Lemma split_cost0 H s : (1 <= M)%nat -> LI qp M Gm 0 L0 H -> (forall i, (i < M)%nat -> HGV qp M Gm i /\ BGV qp M Gb i) -> RS 0 s ->
  exists K, forall v, 1 / 2 * Qo H 0 nh v + rsum nh (fun k => gs_g s k * v k) = rsum (S M) (hardc qp (traj qp M v)) + K.
Proof.
  intros HM (L1 & L2 & L3 & L4) HG (I1 & I2 & I3 & I4 & I5 & _).
  set (Lv := fun n r c => if (r =? nux n)%nat then gs_l s n c else L0 n r c). set (Hv := fun r c => if (r =? nh)%nat then gs_g s c else H r c).
  set (sv := mkrst (q_BAbt qp) (q_RSQ qp) Lv (fun _ _ => 0) (fun _ => 0) (fun _ _ => 0) Hv 0 0).
  assert (LvL : forall n r c, (r < nux n)%nat -> Lv n r c = L0 n r c). { intros n r c Hr. unfold Lv. destruct (Nat.eqb_spec r (nux n)); [lia|reflexivity]. }
  assert (LvB : forall n c, Lv n (nux n) c = gs_l s n c). { intros n c. unfold Lv. rewrite Nat.eqb_refl. reflexivity. }
  assert (HvL : forall r c, (r < nh)%nat -> Hv r c = H r c). { intros r c Hr. unfold Hv. destruct (Nat.eqb_spec r nh); [lia|reflexivity]. }
  assert (HvB : forall c, Hv nh c = gs_g s c). { intros c. unfold Hv. rewrite Nat.eqb_refl. reflexivity. }
  assert (PmE : forall n l m, (l < nx n)%nat -> (m < nx n)%nat -> Pm qp (Lv n) n l m = Pm qp (L0 n) n l m).
  { intros n l m Hl Hm. unfold Pm, symL. destruct (Nat.leb_spec (nu n + m) (nu n + l)); apply LvL; unfold ResSpec.nux; lia. }
  assert (GE : forall m r k, (r < nsum m nu + nx 0)%nat -> (1 <= m)%nat -> virtG qp Gm Gb (m - 1) r k = Gm (m - 1)%nat r k).
  { intros m r k Hr Hm. unfold virtG, nuf. replace (S (m - 1)) with m by lia. destruct (Nat.eqb_spec r (nsum m nu + nx 0)); [lia|reflexivity]. }
  assert (HRI : RI qp M (virtG qp Gm Gb) 0 sv).
  { split; [|split; [|split; [|split; [|split; [intros i; split; reflexivity|lia]]]]]; cbn [sv rs_L rs_H].
    - intros m Hm Hm1. pose proof (nh_uo qp M m ltac:(lia)) as Enh. destruct (L1 m Hm Hm1) as (E1 & E2). split; [|split].
      + intros r c Hr. rewrite HvL by lia. rewrite LvL by (unfold ResSpec.nux; lia). apply E1. exact Hr.
      + intros r c Hr Hc. rewrite HvL by lia. rewrite E2 by assumption. apply rsum_ext. intros l Hl. rewrite GE by assumption. rewrite LvL by (unfold ResSpec.nux; lia). reflexivity.
      + intros c Hc. rewrite HvB, LvB. rewrite (I4 m Hm Hm1 c Hc). f_equal. apply rsum_ext. intros l Hl. rewrite LvL by (unfold ResSpec.nux; lia). unfold virtG, nuf. replace (S (m - 1)) with m by lia. rewrite Nat.eqb_refl. reflexivity.
    - intros _. assert (Enh : nh = (uo 0 + nux 0)%nat) by (unfold n_hard, ResSpec.nux; lia). split.
      + intros r c Hr. rewrite HvL by lia. rewrite LvL by lia. apply L2; [reflexivity|exact Hr].
      + intros c Hc. rewrite HvB, LvB. apply I5; [reflexivity|exact Hc].
    - intros m Hm. split.
      + intros r c Hr. rewrite LvL by lia. rewrite (L3 m Hm r c Hr). f_equal. apply rsum_ext. intros l Hl. apply rsum_ext. intros k Hk. rewrite PmE by assumption. reflexivity.
      + intros c Hc. rewrite LvB. rewrite (I2 m Hm c Hc). f_equal. apply rsum_ext. intros l Hl. f_equal. f_equal; [|unfold pv; rewrite LvB; reflexivity]. apply rsum_ext. intros k Hk. rewrite PmE by assumption. reflexivity.
    - split.
      + intros r c Hr. rewrite LvL by lia. apply L4. exact Hr.
      + intros c Hc. rewrite LvB. apply I3. exact Hc. }
  destruct (PhiH_alg0 qp M (virtG qp Gm Gb) Gb sv HM) as (K & HK); [|exact HRI|].
  - intros i Hi. destruct (HG i Hi). apply virt_GIV; assumption.
  - exists K. intros v. rewrite <- HK. unfold PhiH. cbn [sv rs_H]. f_equal; [f_equal|].
    + unfold Qo. apply rsum_ext. intros i Hi. apply rsum_ext. intros j Hj. f_equal. f_equal. unfold symL. cbn [Nat.add]. destruct (Nat.leb_spec j i); rewrite HvL by lia; reflexivity.
    + apply rsum_ext. intros k Hk. rewrite HvB. reflexivity.
Qed.
End Rhs0.
