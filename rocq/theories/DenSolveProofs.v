(** DenSolveProofs.v -- about DenSolveModel.v: any arithmetic first (which rows are kept), then exact arithmetic (LU factorisation, inconsistency, leading rank). *)
From Coq Require Import ZArith Bool Arith List Reals Lra Lia.
From Verif Require Import Base RSum ArithF Blas Blas2 OcpModel CoreModel ArgModel DenModel DenIpmModel DenSolveModel.

Definition perm (n : nat) (e : nat -> nat) : Prop := (forall i, i < n -> e i < n) /\ (forall i j, i < n -> j < n -> e i = e j -> i = j).
Lemma swap_idx_at i j e k : swap_idx i j e k = if Nat.eqb k j then e i else if Nat.eqb k i then e j else e k.
Proof. unfold swap_idx, upd. destruct (Nat.eqb_spec k j), (Nat.eqb_spec k i); subst; reflexivity. Qed.
Lemma swap_perm n i j e : i < n -> j < n -> perm n e -> perm n (swap_idx i j e).
Proof.
  intros Hi Hj (H1 & H2). split.
  - intros k Hk. rewrite swap_idx_at. destruct (Nat.eqb k j), (Nat.eqb k i); auto.
  - intros a b Ha Hb. rewrite !swap_idx_at.
    destruct (Nat.eqb_spec a j), (Nat.eqb_spec a i), (Nat.eqb_spec b j), (Nat.eqb_spec b i); subst; intros E; try reflexivity; try lia;
      (apply H2 in E; [|assumption|assumption]); subst; try reflexivity; try congruence; try lia.
Qed.

Section Any.
Context {F : Type} {AF : Arith F}.
Notation vec := (nat -> F). Notation mat := (nat -> nat -> F).

Lemma col_max_range m k (M : mat) : k < m -> k <= col_max m k M < m.
Proof.
  intros Hk. unfold col_max. apply (loop_ind (fun _ p => k <= p < m)); [lia|].
  intros i s Hi Hs. destruct (fltb _ _); lia.
Qed.
Lemma lu_step_piv m n k (M : mat) piv : k < m -> snd (lu_step m n k M piv) = upd piv k (snd (lu_step m n k M piv) k) /\ k <= snd (lu_step m n k M piv) k < m.
Proof.
  intros Hk. unfold lu_step. destruct (fltb _ _); cbn [snd]; rewrite upd_same; split; try reflexivity; try lia. apply col_max_range, Hk.
Qed.
Lemma getrf_piv m n (M : mat) piv k : k < Nat.min m n -> k <= snd (getrf_rp m n M piv) k < m.
Proof.
  intros Hk. unfold getrf_rp.
  assert (H : forall k, k < Nat.min m n -> k <= snd (loop (Nat.min m n) (fun k '(M, ipiv) => lu_step m n k M ipiv) (M, piv)) k < m).
  { apply (loop_ind (fun i s => forall k, k < i -> k <= snd s k < m)); [intros; lia|].
    intros i [M' p'] Hi IH j Hj. cbn [snd] in *. destruct (lu_step_piv m n i M' p' ltac:(lia)) as (E & R).
    destruct (Nat.eq_dec j i) as [->|]; [exact R|]. rewrite E, upd_other by lia. apply IH. lia. }
  apply H, Hk.
Qed.
Lemma abs_pivots_perm ne piv : (forall k, k < ne -> piv k < ne) -> perm ne (abs_pivots ne piv).
Proof.
  intros H. unfold abs_pivots. apply (loop_ind (fun _ e => perm ne e)); [split; auto|].
  intros i e Hi He. apply swap_perm; auto.
Qed.

Section Loop.
Variables (thr : F) (nv ne : nat) (A : mat) (b : vec).
Lemma col_search_range (M : mat) ii jj r : snd (col_search thr ne M ii jj) = Some r -> ii <= r < ne /\ r <= jj.
Proof.
  unfold col_search. intros H. revert H.
  apply (loop_ind (fun _ s => snd s = Some r -> ii <= r < ne /\ r <= jj)); [cbn; discriminate|].
  intros i [mx q] Hi IH. cbn [snd] in *. destruct (fltb _ _); cbn [snd]; [|exact IH]. intros E. injection E as E. lia.
Qed.
Lemma search_range (M : mat) ii : forall n jj r c, search thr ne M ii jj n = Some (r, c) -> ii <= r < ne /\ r <= c /\ jj <= c < jj + n.
Proof.
  induction n as [|n IH]; intros jj r c; cbn [search]; [discriminate|].
  destruct (snd (col_search thr ne M ii jj)) as [q|] eqn:E.
  - intros H. injection H as <- <-. apply col_search_range in E. lia.
  - intros H. apply IH in H. lia.
Qed.

Definition kept (s : lst F) : Prop := forall i, i < s_nl s -> (forall j, j < nv -> s_Al s i j = A (s_e s i) j) /\ s_bl s i = b (s_e s i).
Lemma keep_kept ii s : s_nl s = ii -> kept s -> kept (keep nv A b ii s).
Proof.
  intros E H i. unfold keep. cbn [s_nl s_Al s_bl s_e]. intros Hi. destruct (Nat.eq_dec i (s_nl s)) as [->|Hn].
  - rewrite E. split; [intros j Hj|]; [|apply upd_same]. rewrite Nat.eqb_refl. destruct (Nat.ltb_spec j nv); [reflexivity|lia].
  - destruct (H i ltac:(lia)) as (H1 & H2). split; [intros j Hj|]; [|rewrite upd_other by lia; exact H2].
    destruct (Nat.eqb_spec i (s_nl s)); [lia|]. cbn [andb]. apply H1, Hj.
Qed.
Lemma ld_loop_kept : forall n ii s, ii + n = ne -> s_nl s = ii -> perm ne (s_e s) -> kept s ->
  let s' := snd (ld_loop thr nv ne A b n ii s) in s_nl s' <= ne /\ perm ne (s_e s') /\ kept s'.
Proof.
  induction n as [|n IH]; intros ii s Hn En Hp Hk; cbn [ld_loop]; [cbn [snd]; repeat split; try lia; try apply Hp; try (apply Hk; assumption)|].
  destruct (fleb _ _).
  - destruct (search _ _ _ _ _ _) as [[i0 i1]|] eqn:E.
    + apply search_range in E. cbv zeta. apply IH; [lia|destruct (Nat.eqb i0 ii); unfold keep; cbn [s_nl]; lia| |].
      * destruct (Nat.eqb i0 ii); unfold keep; cbn [s_e]; [exact Hp|]. apply swap_perm; try lia. exact Hp.
      * set (s1 := if Nat.eqb i0 ii then _ else _).
        assert (K1 : kept s1).
        { unfold s1. destruct (Nat.eqb i0 ii); [exact Hk|]. intros i Hi. cbn [s_nl s_Al s_bl s_e] in *. rewrite swap_idx_at.
          destruct (Nat.eqb_spec i i0); [lia|]. destruct (Nat.eqb_spec i ii); [lia|]. apply Hk, Hi. }
        assert (E1 : s_nl s1 = ii) by (unfold s1; destruct (Nat.eqb i0 ii); exact En).
        exact (keep_kept ii s1 E1 K1).
    + cbn [snd]. split; [lia|]. split; [exact Hp|exact Hk].
  - apply IH; [lia|unfold keep; cbn [s_nl]; lia|exact Hp|apply keep_kept; assumption].
Qed.
End Loop.

(** the members of the QP other than the equality constraints *)
Definition same_rest (p q : dqp F) : Prop :=
  d_nv p = d_nv q /\ d_nb p = d_nb q /\ d_ng p = d_ng q /\ d_ns p = d_ns q /\ d_H p = d_H q /\ d_Ct p = d_Ct q /\ d_gz p = d_gz q /\
  d_d p = d_d q /\ d_mask p = d_mask q /\ d_m p = d_m q /\ d_Z p = d_Z q /\ d_idxb p = d_idxb q /\ d_idxs_rev p = d_idxs_rev q.
Lemma same_rest_refl p : same_rest p p. Proof. repeat split. Qed.
Lemma remove_rest thr (qp : dqp F) w : same_rest (fst (fst (remove_eq thr qp w))) qp.
Proof.
  unfold remove_eq. destruct (Nat.ltb 0 (d_ne qp)); [|apply same_rest_refl].
  destruct (getrf_rp _ _ _ _) as [M piv]. destruct (ld_loop _ _ _ _ _ _ _ _) as [ok s]. cbv zeta. destruct ok; [|apply same_rest_refl].
  destruct (Nat.ltb _ _); [repeat split|apply same_rest_refl].
Qed.
Lemma remove_rows thr (qp : dqp F) w : d_ne qp <= d_nv qp + 1 ->
  let qp1 := fst (fst (remove_eq thr qp w)) in
  d_ne qp1 <= d_ne qp /\ exists e, (forall i, i < d_ne qp1 -> e i < d_ne qp) /\ (forall i j, i < d_ne qp1 -> j < d_ne qp1 -> e i = e j -> i = j) /\
    forall i, i < d_ne qp1 -> (forall j, j < d_nv qp -> d_A qp1 i j = d_A qp (e i) j) /\ d_b qp1 i = d_b qp (e i).
Proof.
  intros Hne. unfold remove_eq.
  assert (Hid : d_ne qp <= d_ne qp /\ exists e, (forall i, i < d_ne qp -> e i < d_ne qp) /\ (forall i j, i < d_ne qp -> j < d_ne qp -> e i = e j -> i = j) /\
    forall i, i < d_ne qp -> (forall j, j < d_nv qp -> d_A qp i j = d_A qp (e i) j) /\ d_b qp i = d_b qp (e i)).
  { split; [lia|]. exists (fun i => i). repeat split; auto. }
  destruct (Nat.ltb_spec 0 (d_ne qp)); [|exact Hid].
  destruct (getrf_rp _ _ _ _) as [M piv] eqn:EG.
  pose proof (ld_loop_kept thr (d_nv qp) (d_ne qp) (d_A qp) (d_b qp) (d_ne qp) 0 (mklst M (abs_pivots (d_ne qp) piv) (l_A w) (l_b w) 0 0) eq_refl eq_refl) as K.
  destruct (ld_loop _ _ _ _ _ _ _ _) as [ok s]. cbn [snd s_e] in K.
  destruct K as (K1 & K2 & K3).
  { apply abs_pivots_perm. intros k Hk. pose proof (getrf_piv (d_ne qp) (d_nv qp + 1) (augment (d_ne qp) (d_nv qp) (d_A qp) (d_b qp) (l_M w)) (l_piv w) k ltac:(lia)) as P.
    rewrite EG in P. cbn [snd] in P. lia. }
  { intros i Hi. cbn in Hi. lia. }
  cbv zeta. destruct ok; [|exact Hid]. destruct (Nat.ltb_spec (s_nl s) (d_ne qp)); [|exact Hid].
  cbn [fst set_eq d_ne d_A d_b]. split; [lia|]. exists (s_e s). destruct K2 as (P1 & P2). split; [|split].
  - intros i Hi. apply P1. lia.
  - intros i j Hi Hj. apply P2; lia.
  - intros i Hi. apply K3. exact Hi.
Qed.
Lemma remove_keep_all thr (qp : dqp F) w : d_ne (fst (fst (remove_eq thr qp w))) = d_ne qp -> fst (fst (remove_eq thr qp w)) = qp.
Proof.
  unfold remove_eq. destruct (Nat.ltb 0 (d_ne qp)); [|reflexivity].
  destruct (getrf_rp _ _ _ _) as [M piv]. destruct (ld_loop _ _ _ _ _ _ _ _) as [ok s]. cbv zeta. destruct ok; [|reflexivity].
  destruct (Nat.ltb_spec (s_nl s) (d_ne qp)); [|reflexivity]. cbn [fst set_eq d_ne]. lia.
Qed.
Lemma remove_false thr (qp : dqp F) w : snd (remove_eq thr qp w) = false -> fst (fst (remove_eq thr qp w)) = qp /\ l_ne (snd (fst (remove_eq thr qp w))) = l_ne w.
Proof.
  unfold remove_eq. destruct (Nat.ltb 0 (d_ne qp)); [|discriminate].
  destruct (getrf_rp _ _ _ _) as [M piv]. destruct (ld_loop _ _ _ _ _ _ _ _) as [ok s]. cbv zeta. destruct ok; [|intros _; split; reflexivity].
  destruct (Nat.ltb _ _); discriminate.
Qed.
Lemma set_set (qp : dqp F) n A b : set_eq (set_eq qp n A b) (d_ne qp) (d_A qp) (d_b qp) = qp.
Proof. destruct qp. reflexivity. Qed.
Lemma restore_remove thr (qp : dqp F) w : l_ne w <= d_ne qp -> 0 < d_ne (fst (fst (remove_eq thr qp w))) \/ d_ne qp = 0 ->
  let '(qp1, w1, _) := remove_eq thr qp w in restore_eq qp1 w1 = qp.
Proof.
  intros Hw. unfold remove_eq. destruct (Nat.ltb_spec 0 (d_ne qp)).
  - destruct (getrf_rp _ _ _ _) as [M piv]. destruct (ld_loop _ _ _ _ _ _ _ _) as [ok s]. cbv zeta.
    assert (Hid : forall w', l_ne w' = l_ne w -> restore_eq qp w' = qp).
    { intros w' E. unfold restore_eq. destruct (Nat.ltb 0 _); [|reflexivity]. rewrite E. destruct (Nat.ltb_spec (d_ne qp) (l_ne w)); [lia|reflexivity]. }
    destruct ok; [|intros _; apply Hid; reflexivity].
    destruct (Nat.ltb_spec (s_nl s) (d_ne qp)); [|intros _; apply Hid; reflexivity].
    intros Hp. cbn [fst set_eq d_ne] in Hp. unfold restore_eq. cbn [d_ne set_eq l_ne l_Abkp l_bbkp].
    destruct (Nat.ltb_spec 0 (s_nl s)); [|lia]. destruct (Nat.ltb_spec (s_nl s) (d_ne qp)); [|lia]. apply (set_set qp).
  - intros _. unfold restore_eq. destruct (Nat.ltb_spec 0 (d_ne qp)); [lia|reflexivity].
Qed.
End Any.

(** ---- exact arithmetic ---- *)
Local Open Scope R_scope.
Notation rmat := (nat -> nat -> R).
(** the upper factor after k steps, with the multipliers stored below the diagonal replaced by zero *)
Definition Uh (k : nat) (M : rmat) (r c : nat) : R := if Nat.ltb c (Nat.min r k) then 0 else M r c.
Definition swaps (k : nat) (piv : nat -> nat) : nat -> nat := loop k (fun ll e => swap_idx ll (piv ll) e) (fun ll => ll).
Definition LUk (ne n k : nat) (Ab M : rmat) (e : nat -> nat) : Prop :=
  forall r c, (r < ne)%nat -> (c < n)%nat -> Ab (e r) c = rsum (Nat.min r k) (fun i => M r i * Uh k M i c) + Uh k M r c.
Lemma lu_step_LU ne n k Ab M piv : (k < Nat.min ne n)%nat -> LUk ne n k Ab M (swaps k piv) ->
  let r := lu_step ne n k M piv in LUk ne n (S k) Ab (fst r) (swaps (S k) (snd r)).
Proof.
  intros Hk H. pose proof (lu_step_piv ne n k M piv ltac:(lia)) as (Ep & Rp). cbv zeta.
  assert (Es : swaps (S k) (snd (lu_step ne n k M piv)) = swap_idx k (snd (lu_step ne n k M piv) k) (swaps k piv)).
  { unfold swaps at 1. cbn [loop]. f_equal. unfold swaps. apply loop_ext. intros i s Hi. rewrite Ep, upd_other by lia. reflexivity. }
  rewrite Es. clear Es. clear Ep. unfold lu_step in *. set (p := col_max ne k M) in *.
  destruct (fltb f0 (fabs (M p k))) eqn:E; cbn [fst snd] in *; rewrite upd_same in *.
  - rsimp. destruct (Rltb_spec (0 / 1) (Rabs (M p k))) as [Hlt|]; [|discriminate].
    assert (Hpk : M p k <> 0). { intros E0. rewrite E0, Rabs_R0 in Hlt. lra. }
    set (M1 := swap_rows 0 k p M).
    assert (H1 : LUk ne n k Ab M1 (swap_idx k p (swaps k piv))).
    { intros r c Hr Hc. rewrite swap_idx_at. unfold M1, swap_rows, Uh. cbn [Nat.leb].
      assert (Low : forall i, (i < k)%nat -> Uh k (fun r c => if Nat.eqb r k then M p c else if Nat.eqb r p then M k c else M r c) i c = Uh k M i c).
      { intros i Hi. unfold Uh. destruct (Nat.eqb_spec i k); [lia|]. destruct (Nat.eqb_spec i p); [lia|]. reflexivity. }
      destruct (Nat.eqb_spec r p) as [->|Np]; [|destruct (Nat.eqb_spec r k) as [->|Nk]].
      - destruct (Nat.eqb_spec p k) as [Epk|Npk].
        + replace (swaps k piv k) with (swaps k piv p) by (rewrite Epk; reflexivity). rewrite (H p c) by lia. f_equal. apply rsum_ext. intros i Hi. rewrite <- Low by lia. unfold Uh. reflexivity.
        + rewrite (H k c) by lia. replace (Nat.min p k) with k by lia. rewrite Nat.min_id. f_equal.
          * apply rsum_ext. intros i Hi. rewrite <- Low by lia. unfold Uh. reflexivity.
          * unfold Uh. rewrite Nat.min_id. reflexivity.
      - rewrite (H p c) by lia. replace (Nat.min p k) with k by lia. rewrite Nat.min_id. f_equal.
        + apply rsum_ext. intros i Hi. rewrite <- Low by lia. unfold Uh. reflexivity.
        + unfold Uh. replace (Nat.min p k) with k by lia. reflexivity.
      - rewrite (H r c) by lia. f_equal. apply rsum_ext. intros i Hi. rewrite <- Low by lia. unfold Uh. reflexivity. }
    assert (Hpiv : M1 k k <> 0). { unfold M1, swap_rows. cbn [Nat.leb]. rewrite Nat.eqb_refl. exact Hpk. }
    clearbody M1. clear H. intros r c Hr Hc. rewrite (H1 r c Hr Hc).
    match goal with |- _ = _ + Uh (S k) ?m r c => set (M2 := m) end.
    change (rsum (Nat.min r k) (fun i => M1 r i * Uh k M1 i c) + Uh k M1 r c = rsum (Nat.min r (S k)) (fun i => M2 r i * Uh (S k) M2 i c) + Uh (S k) M2 r c).
    assert (M2lo : forall i c, (i <= k)%nat -> M2 i c = M1 i c). { intros i j Hi. unfold M2. destruct (Nat.ltb_spec k i); [lia|]. reflexivity. }
    assert (Ulo : forall i, (i <= k)%nat -> Uh (S k) M2 i c = Uh k M1 i c).
    { intros i Hi. unfold Uh. rewrite M2lo by exact Hi. replace (Nat.min i (S k)) with (Nat.min i k) by lia. reflexivity. }
    destruct (le_gt_dec r k) as [Hrk|Hrk].
    + rewrite Ulo by exact Hrk. f_equal. replace (Nat.min r (S k)) with (Nat.min r k) by lia. apply rsum_ext. intros i Hi.
      rewrite Ulo, M2lo by lia. reflexivity.
    + replace (Nat.min r (S k)) with (S k) by lia. replace (Nat.min r k) with k by lia. cbn [rsum].
      assert (Es : rsum k (fun i => M2 r i * Uh (S k) M2 i c) = rsum k (fun i => M1 r i * Uh k M1 i c)).
      { apply rsum_ext. intros i Hi. rewrite Ulo by lia. f_equal. unfold M2.
        destruct (Nat.ltb_spec k r); [|lia]. destruct (Nat.ltb_spec r ne); [|lia]. cbn [andb]. destruct (Nat.eqb_spec i k); [lia|].
        destruct (Nat.ltb_spec k i); [lia|]. reflexivity. }
      rewrite Es, Ulo by lia. rewrite Rplus_assoc. f_equal.
      assert (Mk : M2 r k = M1 r k * (1 / 1 / M1 k k)).
      { unfold M2. destruct (Nat.ltb_spec k r); [|lia]. destruct (Nat.ltb_spec r ne); [|lia]. cbn [andb]. rewrite Nat.eqb_refl. reflexivity. }
      rewrite Mk. unfold Uh. replace (Nat.min r (S k)) with (S k) by lia. replace (Nat.min r k) with k by lia. rewrite Nat.min_id.
      destruct (Nat.ltb_spec c k); [destruct (Nat.ltb_spec c (S k)); [|lia]; lra|].
      destruct (Nat.ltb_spec c (S k)).
      * assert (c = k) by lia. subst c. field. exact Hpiv.
      * unfold M2. destruct (Nat.ltb_spec k r); [|lia]. destruct (Nat.ltb_spec r ne); [|lia]. cbn [andb]. destruct (Nat.eqb_spec c k); [lia|].
        destruct (Nat.ltb_spec k c); [|lia]. destruct (Nat.ltb_spec c n); [|lia]. cbn [andb]. lra.
  - rsimp. destruct (Rltb_spec (0 / 1) (Rabs (M p k))) as [|Hge]; [discriminate|].
    assert (Hmax : forall r, (k <= r < ne)%nat -> Rabs (M r k) <= Rabs (M p k)).
    { unfold p, col_max. intros r Hr. replace r with (k + (r - k))%nat by lia. assert (Hr' : (r - k < ne - k)%nat) by lia. revert Hr'. generalize (r - k)%nat. clear Hr r.
      apply (loop_ind (fun i p => forall j, (j < i)%nat -> Rabs (M (k + j)%nat k) <= Rabs (M p k))); [intros; lia|].
      intros i s Hi IH j Hj. rsimp. destruct (Rltb_spec (Rabs (M s k)) (Rabs (M (k + i)%nat k))).
      - destruct (Nat.eq_dec j i) as [->|]; [lra|]. specialize (IH j ltac:(lia)). lra.
      - destruct (Nat.eq_dec j i) as [->|]; [lra|]. apply IH. lia. }
    assert (Hz : forall r, (k <= r < ne)%nat -> M r k = 0).
    { intros r Hr. specialize (Hmax r Hr). pose proof (Rabs_pos (M r k)). destruct (Req_dec (M r k) 0) as [|Hn]; [assumption|]. pose proof (Rabs_pos_lt _ Hn). lra. }
    intros r c Hr Hc. rewrite swap_idx_at. assert (Ee : (if Nat.eqb r k then swaps k piv k else if Nat.eqb r k then swaps k piv k else swaps k piv r) = swaps k piv r).
    { destruct (Nat.eqb_spec r k); subst; reflexivity. }
    rewrite Ee. rewrite (H r c Hr Hc).
    assert (Ulo : forall i, (i <= k)%nat -> Uh (S k) M i c = Uh k M i c).
    { intros i Hi. unfold Uh. replace (Nat.min i (S k)) with (Nat.min i k) by lia. reflexivity. }
    destruct (le_gt_dec r k) as [Hrk|Hrk].
    + rewrite Ulo by exact Hrk. f_equal. replace (Nat.min r (S k)) with (Nat.min r k) by lia. apply rsum_ext. intros i Hi. rewrite Ulo by lia. reflexivity.
    + replace (Nat.min r (S k)) with (S k) by lia. replace (Nat.min r k) with k by lia. cbn [rsum]. rewrite Rplus_assoc. f_equal.
      * apply rsum_ext. intros i Hi. rewrite Ulo by lia. reflexivity.
      * rewrite (Hz r) by lia. unfold Uh. replace (Nat.min r (S k)) with (S k) by lia. replace (Nat.min r k) with k by lia.
        destruct (Nat.ltb_spec c k), (Nat.ltb_spec c (S k)); try lia; try lra. assert (c = k) by lia. subst c. rewrite (Hz r) by lia. lra.
Qed.
Definition U_of (M : rmat) (r c : nat) : R := if Nat.ltb c r then 0 else M r c.
(** rows e r of Ab: unit lower times upper triangular *)
Lemma getrf_LU ne n Ab piv0 : (ne <= n)%nat -> let '(M, piv) := getrf_rp ne n Ab piv0 in
  forall r c, (r < ne)%nat -> (c < n)%nat -> Ab (abs_pivots ne piv r) c = rsum r (fun i => M r i * U_of M i c) + U_of M r c.
Proof.
  intros Hn. unfold getrf_rp.
  assert (H : LUk ne n (Nat.min ne n) Ab (fst (loop (Nat.min ne n) (fun k '(M, ipiv) => lu_step ne n k M ipiv) (Ab, piv0)))
     (swaps (Nat.min ne n) (snd (loop (Nat.min ne n) (fun k '(M, ipiv) => lu_step ne n k M ipiv) (Ab, piv0))))).
  { apply (loop_ind (fun k s => LUk ne n k Ab (fst s) (swaps k (snd s)))).
    - intros r c _ _. unfold swaps, Uh. cbn [loop fst]. rewrite Nat.min_0_r. cbn [rsum Nat.ltb]. destruct (Nat.ltb_spec c 0); [lia|]. lra.
    - intros i [M p] Hi IH. cbn [fst snd] in *. exact (lu_step_LU ne n i Ab M p Hi IH). }
  destruct (loop _ _ _) as [M piv]. cbn [fst snd] in H. rewrite (Nat.min_l ne n Hn) in H. intros r c Hr Hc.
  change (abs_pivots ne piv) with (swaps ne piv). rewrite (H r c Hr Hc). rewrite Nat.min_l by lia. unfold Uh, U_of.
  rewrite (Nat.min_l r ne) by lia. f_equal. apply rsum_ext. intros i Hi. rewrite (Nat.min_l i ne) by lia. reflexivity.
Qed.
