(** CupdProofs.v -- UPDATE_COND_BABT: after the update the matrices Gamma are those of the new QP. *)
From Coq Require Import ZArith Bool Arith Lia Reals Lra.
From Verif Require Import Base ArithF RSum Blas Blas2 OcpModel ResSpec ResProofs CholProofs KktModel KktProofs KktProofs2 DenModel DenSpec CondModel CondSpec CondProofs CupdModel.
Local Open Scope R_scope.

Lemma idx_of_S idxc n : idx_of idxc (S n) = if idxc n then S n else idx_of idxc n.
Proof. unfold idx_of. rewrite loop_S. reflexivity. Qed.
Lemma idx_of_le idxc n : (idx_of idxc n <= n)%nat.
Proof. induction n as [|n IH]; [unfold idx_of; cbn; lia|]. rewrite idx_of_S. destruct (idxc n); lia. Qed.
Lemma idx_of_above idxc n i : (idx_of idxc n <= i < n)%nat -> idxc i = false.
Proof.
  induction n as [|n IH]; [lia|]. rewrite idx_of_S. destruct (idxc n) eqn:E; [lia|]. intros H. destruct (Nat.eq_dec i n) as [->|]; [exact E|apply IH; lia].
Qed.

Section Gam.
Variable qp : oqp R.
Notation D := (q_dim qp).
Notation nu := (dnu D).
Notation nx := (dnx D).
Notation nuf := (nuf qp).

(** Gamma[i] entry by entry *)
Definition RG (G : nat -> rmat) (Gb : nat -> rvec) (i : nat) : Prop := forall j, (j < nx (S i))%nat ->
  (forall r, (r < nu i)%nat -> G i r j = q_BAbt qp i r j) /\
  match i with
  | O => (forall r, (r < nx 0)%nat -> G 0%nat (nu 0 + r)%nat j = q_BAbt qp 0%nat (nu 0 + r)%nat j) /\ G 0%nat (nu 0 + nx 0)%nat j = q_b qp 0%nat j
  | S i' => forall r, (r <= nuf i' + nx 0)%nat -> G i (nu i + r)%nat j =
      rsum (nx i) (fun l => G i' r l * q_BAbt qp i (nu i + l)%nat j) + (if Nat.eqb r (nuf i' + nx 0) then q_b qp i j else 0)
  end /\ Gb i j = G i (nuf i + nx 0)%nat j.

Lemma nuf_S i : (nuf (S i) = nuf i + nu (S i))%nat. Proof. reflexivity. Qed.
Lemma nuf_le i k : (i <= k)%nat -> (nuf i <= nuf k)%nat.
Proof. induction 1 as [|k H IH]; [lia|]. rewrite nuf_S. lia. Qed.

Lemma RG_first G0 Gb0 : let '(G, Gb) := babt_first qp G0 Gb0 in RG G Gb 0 /\ (forall k, k <> 0%nat -> G k = G0 k).
Proof.
  unfold babt_first. split; [|intros k Hk; apply upd_other; exact Hk]. intros j Hj. rewrite !upd_same. unfold ROWIN, GECP, VECCP. change (nuf 0) with (nu 0).
  rsimp. rewrite ?R_lit11. split; [|split; [split|]].
  - intros r Hr. rewrite mblk_o, mblk_i by lia. rewrite ?Nat.sub_0_r. reflexivity.
  - intros r Hr. rewrite mblk_o, mblk_i by lia. rewrite ?Nat.sub_0_r. reflexivity.
  - rewrite mblk_i by lia. rewrite ?Nat.sub_0_r. cbn [Nat.add]. lra.
  - rewrite vset_in' by lia. rewrite mblk_i by lia. rewrite ?Nat.sub_0_r. cbn [Nat.add]. lra.
Qed.
Lemma RG_frame G Gb G' Gb' i : (forall k, (k <= i)%nat -> G' k = G k) -> Gb' i = Gb i -> RG G Gb i -> RG G' Gb' i.
Proof.
  intros E E2 H j Hj. destruct (H j Hj) as (A & B & C). rewrite E2, (E i) by lia. split; [exact A|]. split; [|exact C]. destruct i as [|i']; [rewrite (E 0%nat) by lia; exact B|]. rewrite (E i') by lia. exact B.
Qed.
Lemma RG_mid i G0 Gb0 : (forall k, (k <= i)%nat -> RG G0 Gb0 k) ->
  let '(G, Gb, n) := babt_mid qp (S i) (G0, Gb0, nuf i) in (forall k, (k <= S i)%nat -> RG G Gb k) /\ n = nuf (S i) /\ (forall k, k <> S i -> G k = G0 k).
Proof.
  intros IH. unfold babt_mid. split; [|split; [unfold CondProofs.nuf; cbn [nsum]; lia|intros k Hk; apply upd_other; exact Hk]].
  intros k Hk. destruct (Nat.eq_dec k (S i)) as [->|Hne].
  2:{ apply (RG_frame G0 Gb0); [intros m Hm; apply upd_other; lia|apply upd_other; exact Hne|apply IH; lia]. }
  intros j Hj. rewrite !upd_same. rewrite (upd_other G0 (S i) _ i) by lia. replace (S i - 1)%nat with i by lia. rewrite Nat.add_1_r in *.
  set (GM := GEMM_NN _ _ _ _ _ _ _ _ _ _ _ _ _ _ _ _ _). set (GC := GECP _ _ _ _ _ _ _ _).
  assert (GC1 : forall r, (r < nu (S i))%nat -> GC r j = q_BAbt qp (S i) r j).
  { intros r Hr. unfold GC, GECP. rewrite mblk_i by lia. rewrite ?Nat.sub_0_r. reflexivity. }
  assert (GC2 : forall r, (r <= nuf i + nx 0)%nat -> GC (nu (S i) + r)%nat j = rsum (nx (S i)) (fun l => G0 i r l * q_BAbt qp (S i) (nu (S i) + l)%nat j)).
  { intros r Hr. unfold GC, GECP. rewrite mblk_o by lia. unfold GM, GEMM_NN. rewrite mblk_i by lia. rewrite fsum_R. rsimp. rewrite R_lit01, R_lit11.
    replace (nu (S i) + r - nu (S i))%nat with r by lia. rewrite Nat.sub_0_r. cbn [Nat.add]. lra. }
  pose proof (nuf_S i) as E. clearbody GC. unfold ROWAD. split; [|split].
  - intros r Hr. rewrite mblk_o by lia. apply GC1. exact Hr.
  - intros r Hr. destruct (Nat.eqb_spec r (nuf i + nx 0)) as [->|Hn].
    + rewrite mblk_i by lia. rsimp. rewrite R_lit11, Nat.sub_0_r. cbn [Nat.add]. replace (nuf i + nu (S i) + nx 0)%nat with (nu (S i) + (nuf i + nx 0))%nat by lia. rewrite GC2 by lia. lra.
    + rewrite mblk_o by lia. rewrite GC2 by lia. lra.
  - unfold ROWEX. rewrite vset_in' by lia. rewrite Nat.sub_0_r. cbn [Nat.add]. rsimp. rewrite R_lit11, E. lra.
Qed.

(** the rows of Gamma[i], i >= idx, that belong to the inputs of the stages idx..i: they depend on those stages only *)
Definition kept (idx i : nat) : nat := (nuf i - nsum idx nu)%nat.
Definition KG (G : nat -> rmat) (idx i : nat) : Prop := forall j, (j < nx (S i))%nat ->
  (forall r, (r < nu i)%nat -> G i r j = q_BAbt qp i r j) /\
  (forall r, (r < kept idx (i - 1))%nat -> (idx < i)%nat -> G i (nu i + r)%nat j = rsum (nx i) (fun l => G (i - 1)%nat r l * q_BAbt qp i (nu i + l)%nat j)).

Lemma kept_S idx i : (idx <= S i)%nat -> kept idx (S i) = (kept idx i + nu (S i))%nat.
Proof.
  intros H. unfold kept. rewrite nuf_S. assert (nsum idx nu <= nuf i)%nat; [|lia]. unfold CondProofs.nuf. destruct (Nat.eq_dec idx 0) as [->|]; [cbn [nsum]; lia|].
  pose proof (nuf_le (idx - 1) i ltac:(lia)) as L. unfold CondProofs.nuf in L. replace (S (idx - 1)) with idx in L by lia. exact L.
Qed.
Lemma kept_sum idx i : (idx <= S i)%nat -> (nsum idx nu + kept idx i = nuf i)%nat.
Proof.
  intros H. unfold kept. enough (nsum idx nu <= nuf i)%nat by lia. unfold CondProofs.nuf. destruct (Nat.eq_dec idx 0) as [->|]; [cbn [nsum]; lia|].
  pose proof (nuf_le (idx - 1) i ltac:(lia)) as L. unfold CondProofs.nuf in L. replace (S (idx - 1)) with idx in L by lia. exact L.
Qed.

(** state of the second loop, stages < i done *)
Definition TI (Go : nat -> rmat) (idx i : nat) (s : (nat -> rmat) * (nat -> rvec) * nat * nat) : Prop :=
  let '(G, Gb, nt, nt1) := s in
  (forall k, (k < i)%nat -> RG G Gb k) /\ (forall k, (i <= k)%nat -> G k = Go k) /\
  (forall k r j, (idx <= k < i)%nat -> (r < kept idx k)%nat -> (j < nx (S k))%nat -> G k r j = Go k r j) /\ nt = nuf (i - 1) /\ nt1 = kept idx (i - 1).
Lemma TI_step Go idx i s : (1 <= idx <= i)%nat -> KG Go idx i -> TI Go idx i s -> TI Go idx (S i) (ubabt_tail qp (nsum idx nu) i s).
Proof.
  destruct s as [[[G Gb] nt] nt1]. intros Hi HK (T1 & T2 & T3 & -> & ->). unfold ubabt_tail. destruct i as [|i]; [lia|]. replace (S i - 1)%nat with i in * by lia. rewrite Nat.add_1_r in *.
  pose proof (kept_S idx i ltac:(lia)) as KS. pose proof (kept_sum idx i ltac:(lia)) as KM. pose proof (nuf_S i) as E.
  set (GM := GEMM_NN _ _ _ _ _ _ _ _ _ _ _ _ _ _ _ _ _). unfold TI.
  assert (GM1 : forall r j, (r < kept idx (S i))%nat -> (j < nx (S (S i)))%nat -> GM r j = Go (S i) r j).
  { intros r j Hr Hj. unfold GM, GEMM_NN. rewrite mblk_o by lia. rewrite T2 by lia. reflexivity. }
  assert (GM2 : forall r j, (kept idx i <= r <= nuf i + nx 0)%nat -> (j < nx (S (S i)))%nat -> GM (nu (S i) + r)%nat j = rsum (nx (S i)) (fun l => G i r l * q_BAbt qp (S i) (nu (S i) + l)%nat j)).
  { intros r j Hr Hj. unfold GM, GEMM_NN. rewrite mblk_i by lia. rewrite fsum_R. rsimp. rewrite R_lit01, R_lit11.
    replace (kept idx i + (nu (S i) + r - (kept idx i + nu (S i))))%nat with r by lia. rewrite Nat.sub_0_r. cbn [Nat.add]. lra. }
  clearbody GM. unfold ROWAD. split; [|split; [|split; [|split]]].
  - intros k Hk. destruct (Nat.eq_dec k (S i)) as [->|Hne]; [|apply (RG_frame G Gb); [intros m Hm; apply upd_other; lia|apply upd_other; exact Hne|apply T1; lia]].
    intros j Hj. rewrite !upd_same. rewrite (upd_other G (S i) _ i) by lia. destruct (HK j Hj) as (K1 & K2). split; [|split].
    + intros r Hr. rewrite mblk_o by lia. rewrite GM1 by lia. apply K1. exact Hr.
    + intros r Hr. replace (S i - 1)%nat with i in K2 by lia. destruct (Nat.eqb_spec r (nuf i + nx 0)) as [->|Hn].
      * rewrite mblk_i by lia. rsimp. rewrite R_lit11, Nat.sub_0_r. cbn [Nat.add]. replace (nuf i + nu (S i) + nx 0)%nat with (nu (S i) + (nuf i + nx 0))%nat by lia. rewrite GM2 by lia. lra.
      * rewrite mblk_o by lia. rewrite Rplus_0_r. destruct (Nat.lt_ge_cases r (kept idx i)) as [Hl|Hl].
        -- rewrite GM1 by lia. assert (Hlt : (idx < S i)%nat).
           { destruct (Nat.eq_dec idx (S i)) as [->|]; [|lia]. exfalso. unfold kept in Hl. change (nsum (S i) nu) with (nuf i) in Hl. lia. }
           rewrite K2 by lia. apply rsum_ext. intros l Hl2. rewrite T3 by lia. reflexivity.
        -- rewrite GM2 by lia. reflexivity.
    + unfold ROWEX. rewrite vset_in' by lia. rewrite Nat.sub_0_r. cbn [Nat.add]. rsimp. rewrite R_lit11, E. lra.
  - intros k Hk. rewrite upd_other by lia. apply T2. lia.
  - intros k r j Hk Hr Hj. destruct (Nat.eq_dec k (S i)) as [->|Hne].
    + rewrite upd_same. rewrite mblk_o by lia. apply GM1; lia.
    + rewrite upd_other by exact Hne. apply T3; lia.
  - replace (S (S i) - 1)%nat with (S i) by lia. lia.
  - replace (S (S i) - 1)%nat with (S i) by lia. lia.
Qed.

(** the whole function *)
Lemma update_babt_R idxc w B b2 : let N := dN D in let idx := idx_of idxc N in
  (forall k, (idx <= k < N)%nat -> KG (cw_Gamma w) idx k) -> (idx = 0%nat -> forall k, (k < N)%nat -> RG (cw_Gamma w) (cw_Gammab w) k) ->
  let '(w', _, _) := update_babt idxc true qp w B b2 in
  (forall k, (k < N)%nat -> RG (cw_Gamma w') (cw_Gammab w') k) /\
  (forall k r j, (idx <= S k)%nat -> (k < N)%nat -> (r < kept idx k)%nat -> (j < nx (S k))%nat -> cw_Gamma w' k r j = cw_Gamma w k r j) /\
  cw_L w' = cw_L w /\ (idx = 0%nat -> w' = w).
Proof.
  cbv zeta. intros HK H0. unfold update_babt. pose proof (idx_of_le idxc (dN D)) as Hle. set (idx := idx_of idxc (dN D)) in *. set (N := dN D) in *.
  destruct (Nat.eqb_spec idx 0) as [E|E].
  - split; [apply H0; exact E|]. repeat split; reflexivity.
  - pose proof (RG_first (cw_Gamma w) (cw_Gammab w)) as B0. destruct (babt_first qp _ _) as [G0 Gb0]. destruct B0 as (B0 & B1).
    pose proof (loop_ind (fun k (s : (nat -> rmat) * (nat -> rvec) * nat) => let '(G, Gb, n) := s in (forall i, (i <= k)%nat -> RG G Gb i) /\ n = nuf k /\ (forall i, (k < i)%nat -> G i = cw_Gamma w i))
      (idx - 1) (fun k s => babt_mid qp (k + 1) s) (G0, Gb0, nu 0)) as L.
    destruct (loop (idx - 1) _ _) as [[G1 Gb1] n1]. destruct L as (L1 & L2 & L3).
    { split; [|split; [reflexivity|]]. { intros i Hi. replace i with 0%nat by lia. exact B0. } intros i Hi. apply B1. lia. }
    { intros k [[G Gb] n] Hk (I1 & -> & I3). rewrite Nat.add_1_r. pose proof (RG_mid k G Gb I1) as Q. destruct (babt_mid qp (S k) (G, Gb, nuf k)) as [[G' Gb'] n']. destruct Q as (Q1 & Q2 & Q3).
      split; [exact Q1|]. split; [exact Q2|]. intros i Hi. rewrite Q3 by lia. apply I3. lia. }
    assert (En : n1 = nsum idx nu) by (rewrite L2; unfold CondProofs.nuf; f_equal; lia). rewrite En.
    pose proof (loop_ind (fun k s => TI (cw_Gamma w) idx (idx + k) s) (N - idx) (fun k s => ubabt_tail qp (nsum idx nu) (idx + k) s) (G1, Gb1, nsum idx nu, 0%nat)) as T. cbv beta in T.
    destruct (loop (N - idx) _ _) as [[[G2 Gb2] n2] n3]. cbn [cw_Gamma cw_Gammab cw_L].
    destruct T as (T1 & T2 & T3 & _).
    { rewrite Nat.add_0_r. split; [|split; [|split; [|split]]].
      - intros k Hk. apply L1. lia.
      - intros k Hk. apply L3. lia.
      - intros; lia.
      - rewrite <- En. exact L2.
      - unfold kept. rewrite <- L2, En. lia. }
    { intros k s Hk Hs. replace (idx + S k)%nat with (S (idx + k)) by lia. apply TI_step; [lia|apply HK; lia|exact Hs]. }
    replace (idx + (N - idx))%nat with N in * by lia.
    split; [exact T1|]. split; [|split; [reflexivity|intros E0; contradiction]]. intros k r j Hk Hk2 Hr Hj. destruct (Nat.le_gt_cases idx k) as [Hc|Hc]; [apply T3; try assumption; lia|].
    exfalso. replace k with (idx - 1)%nat in Hr by lia. unfold kept, CondProofs.nuf in Hr. replace (S (idx - 1)) with idx in Hr by lia. lia.
Qed.

(** consequences of the entrywise description *)
Lemma RG_GIV M G Gb i : (i <= M)%nat -> (forall k, (k <= i)%nat -> RG G Gb k) -> GIV qp M G Gb i.
Proof.
  induction i as [|i IH]; intros HM H j Hj; destruct (H _ (le_n _) j Hj) as (A & B & C); split; try exact C; intros v.
  - destruct B as (B & B2). change (nuf 0) with (nu 0). cbn [st]. rewrite B2, rsum_split. f_equal. f_equal; apply rsum_ext; intros k Hk; [rewrite A by lia; reflexivity|rewrite B by lia; rewrite Nat.add_assoc; reflexivity].
  - specialize (IH ltac:(lia) ltac:(intros; apply H; lia)). rewrite nuf_S. replace (nuf i + nu (S i) + nx 0)%nat with (nu (S i) + (nuf i + nx 0))%nat by lia.
    rewrite rsum_split. rewrite B by lia. rewrite Nat.eqb_refl. cbn [st].
    rewrite (rsum_ext (nu (S i)) (fun r => G (S i) r j * _) (fun r => q_BAbt qp (S i) r j * v (uoff qp M (S i) + r)%nat)) by (intros r Hr; rewrite A by lia; reflexivity).
    rewrite (rsum_ext (nuf i + nx 0) _ (fun r => rsum (nx (S i)) (fun l => G i r l * v (uoff qp M i + r)%nat * q_BAbt qp (S i) (nu (S i) + l)%nat j))).
    2:{ intros r Hr. rewrite B by lia. destruct (Nat.eqb_spec r (nuf i + nx 0)); [lia|]. rewrite Rplus_0_r. rewrite (uoff_S qp M i) by lia. rewrite <- rsum_scal_r. rewrite Nat.add_assoc. apply rsum_ext. intros; lra. }
    rewrite rsum_swap.
    rewrite (rsum_ext (nx (S i)) (fun k => q_BAbt qp (S i) (nu (S i) + k)%nat j * _)
       (fun k => rsum (nuf i + nx 0) (fun r => G i r k * v (uoff qp M i + r)%nat * q_BAbt qp (S i) (nu (S i) + k)%nat j) + G i (nuf i + nx 0)%nat k * q_BAbt qp (S i) (nu (S i) + k)%nat j)).
    2:{ intros l Hl. destruct (IH l Hl) as (I1 & _). rewrite (rsum_scal_r (nuf i + nx 0)). specialize (I1 v). cbn [st] in I1. rewrite I1. lra. }
    rewrite rsum_add. lra.
Qed.
Lemma RG_KG G Gb idx i : (forall k, (k <= i)%nat -> RG G Gb k) -> (idx <= i)%nat -> KG G idx i.
Proof.
  intros H Hi j Hj. destruct (H i (le_n _) j Hj) as (A & B & _). split; [exact A|]. intros r Hr Hlt. destruct i as [|i]; [lia|]. replace (S i - 1)%nat with i in * by lia.
  assert (r < nuf i)%nat by (unfold kept in Hr; lia). rewrite B by lia. destruct (Nat.eqb_spec r (nuf i + nx 0)); [lia|]. lra.
Qed.
(** determined by the QP *)
Lemma RG_det G Gb G' Gb' i : (forall k, (k <= i)%nat -> RG G Gb k) -> (forall k, (k <= i)%nat -> RG G' Gb' k) ->
  (forall r j, (r <= nuf i + nx 0)%nat -> (j < nx (S i))%nat -> G i r j = G' i r j) /\ (forall j, (j < nx (S i))%nat -> Gb i j = Gb' i j).
Proof.
  intros H H'. assert (X : forall r j, (r <= nuf i + nx 0)%nat -> (j < nx (S i))%nat -> G i r j = G' i r j).
  { induction i as [|i IH]; intros r j Hr Hj; destruct (H _ (le_n _) j Hj) as (A & B & _), (H' _ (le_n _) j Hj) as (A' & B' & _).
    - change (nuf 0) with (nu 0) in Hr. destruct (Nat.lt_ge_cases r (nu 0)); [rewrite A, A' by assumption; reflexivity|]. destruct B as (B & B2), B' as (B' & B2').
      destruct (Nat.eq_dec r (nu 0 + nx 0)) as [->|]; [rewrite B2, B2'; reflexivity|]. replace r with (nu 0 + (r - nu 0))%nat by lia. rewrite B, B' by lia. reflexivity.
    - rewrite nuf_S in Hr. destruct (Nat.lt_ge_cases r (nu (S i))); [rewrite A, A' by assumption; reflexivity|]. replace r with (nu (S i) + (r - nu (S i)))%nat by lia. rewrite B, B' by lia. f_equal.
      apply rsum_ext. intros l Hl. rewrite IH; [reflexivity| | |lia|exact Hl]; intros; [apply H|apply H']; lia. }
  split; [exact X|]. intros j Hj. destruct (H i (le_n _) j Hj) as (_ & _ & C), (H' i (le_n _) j Hj) as (_ & _ & C'). rewrite C, C'. apply X; [lia|exact Hj].
Qed.
End Gam.
