(** DenSolveProofs3.v -- removal of dependent equalities when the leading columns of A carry its rank, exact arithmetic, threshold 0. *)
From Coq Require Import ZArith Bool Arith List Reals Lra Lia FinFun.
From Verif Require Import Base RSum ArithF Blas Blas2 OcpModel CoreModel ArgModel DenModel DenIpmModel DenSolveModel DenSolveProofs DenSolveProofs2.
Local Open Scope R_scope.

Lemma perm_surj n e : perm n e -> forall i, (i < n)%nat -> exists r, (r < n)%nat /\ e r = i.
Proof.
  intros (H1 & H2) i Hi. assert (S : bSurjective n e).
  { apply (proj1 (bInjective_bSurjective H1)). intros x y Hx Hy E. apply H2; assumption. }
  exact (S i Hi).
Qed.
Lemma rsum_trunc n m f : (n <= m)%nat -> (forall k, (n <= k < m)%nat -> f k = 0) -> rsum m f = rsum n f.
Proof.
  intros Hn H. replace m with (n + (m - n))%nat by lia. rewrite rsum_split, (rsum_0 (m - n)); [lra|]. intros k Hk. apply H. lia.
Qed.
(** triangular systems *)
Lemma tri_solve (M : rmat) : forall k, (forall i, (i < k)%nat -> M i i <> 0) -> forall y, exists z, forall i, (i < k)%nat -> rsum k (fun c => U_of M i c * z c) = y i.
Proof.
  induction k as [|k IH]; intros Hd y; [exists (fun _ => 0); intros; lia|].
  set (zk := y k / M k k). destruct (IH ltac:(intros i Hi; apply Hd; lia) (fun i => y i - M i k * zk)) as (z & Hz).
  exists (fun c => if Nat.eqb c k then zk else z c). intros i Hi. cbn [rsum]. rewrite Nat.eqb_refl.
  rewrite (rsum_ext k _ (fun c => U_of M i c * z c)) by (intros c Hc; destruct (Nat.eqb_spec c k); [lia|reflexivity]).
  destruct (Nat.eq_dec i k) as [->|Hn].
  - rewrite rsum_0 by (intros c Hc; unfold U_of; destruct (Nat.ltb_spec c k); [lra|lia]). unfold U_of. rewrite Nat.ltb_irrefl. unfold zk. field. apply Hd. lia.
  - rewrite Hz by lia. unfold U_of. destruct (Nat.ltb_spec k i); [lia|]. lra.
Qed.
Lemma tri_left (M : rmat) r w : (forall i, (i < r)%nat -> M i i <> 0) -> (forall c, (c < r)%nat -> rsum r (fun i => w i * U_of M i c) = 0) -> forall c, (c < r)%nat -> w c = 0.
Proof.
  intros Hd H. induction c as [c IH] using lt_wf_ind. intros Hc. specialize (H c Hc).
  rewrite (rsum_trunc (S c) r) in H.
  2: lia. 2:{ intros k Hk. unfold U_of. destruct (Nat.ltb_spec c k); [lra|lia]. }
  cbn [rsum] in H. rewrite rsum_0 in H by (intros k Hk; rewrite IH by lia; lra). unfold U_of in H. rewrite Nat.ltb_irrefl in H.
  specialize (Hd c Hc). apply (Rmult_eq_reg_r (M c c)); [lra|exact Hd].
Qed.
(** unit lower triangular, transposed *)
Lemma unit_left (M : rmat) r y : (forall i, (i < r)%nat -> y i + rsum (r - S i) (fun k => y (S i + k)%nat * M (S i + k)%nat i) = 0) -> forall i, (i < r)%nat -> y i = 0.
Proof.
  intros H. assert (G : forall d i, (d = r - i)%nat -> (i < r)%nat -> y i = 0).
  { induction d as [d IH] using lt_wf_ind. intros i Hd Hi. specialize (H i Hi). rewrite rsum_0 in H; [lra|].
    intros k Hk. rewrite (IH (r - (S i + k))%nat) by lia. lra. }
  intros i Hi. apply (G (r - i)%nat); auto.
Qed.

Lemma rsum_perm n e : perm n e -> forall f : nat -> R, rsum n (fun i => f (e i)) = rsum n f.
Proof.
  intros Hp f.
  rewrite (rsum_ext n (fun i => f (e i)) (fun i => rsum n (fun j => if Nat.eqb j (e i) then f j else 0))) by (intros i Hi; rewrite rsum_one; [reflexivity|apply Hp, Hi]).
  rewrite rsum_swap. apply rsum_ext. intros j Hj. destruct (perm_surj n e Hp j Hj) as (i & Hi & E).
  rewrite (rsum_ext n _ (fun k => if Nat.eqb k i then f j else 0)); [apply (rsum_one n i (fun _ => f j)), Hi|].
  intros k Hk. destruct (Nat.eqb_spec j (e k)) as [H|H], (Nat.eqb_spec k i) as [H'|H']; try reflexivity; subst; try contradiction.
  exfalso. apply H'. apply Hp; auto.
Qed.
Section Lead.
Variables (nv ne : nat) (Ab M : rmat) (e : nat -> nat).
Hypothesis (Hne : (ne <= nv)%nat) (Hp : perm ne e).
Hypothesis (LU : forall r c, (r < ne)%nat -> (c < nv + 1)%nat -> Ab (e r) c = rsum r (fun i => M r i * U_of M i c) + U_of M r c).
Definition ker (B : rmat) (z : nat -> R) (i : nat) : Prop := rsum (nv + 1) (fun c => B i c * z c) = 0.
Lemma row_ker z r : (r < ne)%nat -> rsum (nv + 1) (fun c => Ab (e r) c * z c) = rsum r (fun i => M r i * rsum (nv + 1) (fun c => U_of M i c * z c)) + rsum (nv + 1) (fun c => U_of M r c * z c).
Proof.
  intros Hr. rewrite (rsum_ext (nv + 1) (fun c => Ab (e r) c * z c) (fun c => rsum r (fun i => M r i * (U_of M i c * z c)) + U_of M r c * z c)).
  2:{ intros c Hc. rewrite (LU r c Hr Hc), Rmult_plus_distr_r. f_equal. rewrite <- rsum_scal_r. apply rsum_ext. intros i _. lra. }
  rewrite rsum_add. f_equal. rewrite rsum_swap. apply rsum_ext. intros i _. rewrite rsum_scal. reflexivity.
Qed.
Lemma ker_U_prefix z r : (r <= ne)%nat -> (forall i, (i < r)%nat -> ker Ab z (e i)) -> forall i, (i < r)%nat -> ker (U_of M) z i.
Proof.
  intros Hr H. induction i as [i IH] using lt_wf_ind. intros Hi. pose proof (H i Hi) as K. unfold ker in *. rewrite row_ker in K by lia.
  rewrite rsum_0 in K; [lra|]. intros k Hk. rewrite (IH k) by lia. lra.
Qed.
Lemma ker_prefix_U z r : (r <= ne)%nat -> (forall i, (i < r)%nat -> ker (U_of M) z i) -> forall i, (i < r)%nat -> ker Ab z (e i).
Proof.
  intros Hr H i Hi. unfold ker in *. rewrite row_ker by lia. rewrite H by exact Hi. rewrite rsum_0; [lra|]. intros k Hk. rewrite H by lia. lra.
Qed.
Lemma ker_iff z : (forall i, (i < ne)%nat -> ker Ab z i) <-> (forall i, (i < ne)%nat -> ker (U_of M) z i).
Proof.
  split; intros H.
  - apply (ker_U_prefix z ne); [lia|]. intros i Hi. apply H. apply Hp. exact Hi.
  - intros i Hi. destruct (perm_surj ne e Hp i Hi) as (r & Hr & <-). apply (ker_prefix_U z ne); [lia|exact H|exact Hr].
Qed.
Variable r : nat.
Hypothesis (Hr : (r <= ne)%nat).
Hypothesis (Hind : forall z, (forall i, (i < ne)%nat -> rsum r (fun k => Ab i k * z k) = 0) -> forall k, (k < r)%nat -> z k = 0).
Hypothesis (Hspan : forall c, (c < nv)%nat -> exists z, forall i, (i < ne)%nat -> Ab i c = rsum r (fun k => Ab i k * z k)).
Lemma pivots_nonzero : forall k, (k < r)%nat -> M k k <> 0.
Proof.
  induction k as [k IH] using lt_wf_ind. intros Hk E.
  destruct (tri_solve M k ltac:(intros i Hi; apply IH; lia) (fun i => - M i k)) as (z & Hz).
  set (z1 := fun c => if Nat.ltb c k then z c else if Nat.eqb c k then 1 else 0).
  assert (K : forall i, (i < ne)%nat -> ker (U_of M) z1 i).
  { intros i Hi. unfold ker. rewrite (rsum_trunc (S k)) by (first [lia|intros c Hc; unfold z1; destruct (Nat.ltb_spec c k); [lia|]; destruct (Nat.eqb_spec c k); [lia|]; lra]).
    cbn [rsum]. unfold z1 at 2. rewrite Nat.ltb_irrefl, Nat.eqb_refl.
    rewrite (rsum_ext k _ (fun c => U_of M i c * z c)) by (intros c Hc; unfold z1; destruct (Nat.ltb_spec c k); [reflexivity|lia]).
    destruct (le_gt_dec k i) as [Hki|Hki].
    - rewrite rsum_0 by (intros c Hc; unfold U_of; destruct (Nat.ltb_spec c i); [lra|lia]). unfold U_of. destruct (Nat.ltb_spec k i); [lra|]. replace i with k by lia. rewrite E. lra.
    - rewrite Hz by exact Hki. unfold U_of. destruct (Nat.ltb_spec k i); [lia|]. lra. }
  pose proof (proj2 (ker_iff z1) K) as K0. clear K. rename K0 into K.
  assert (Z : z1 k = 0).
  { apply (Hind z1); [|exact Hk]. intros i Hi. specialize (K i Hi). unfold ker in K. rewrite (rsum_trunc r) in K; [exact K|lia|].
    intros c Hc. unfold z1. destruct (Nat.ltb_spec c k); [lia|]. destruct (Nat.eqb_spec c k); [lia|]. lra. }
  unfold z1 in Z. rewrite Nat.ltb_irrefl, Nat.eqb_refl in Z. lra.
Qed.
Lemma rest_zero : forall ll c, (r <= ll < ne)%nat -> (c < nv)%nat -> U_of M ll c = 0.
Proof.
  intros ll c Hl Hc. destruct (Hspan c Hc) as (z & Hz).
  set (w := fun k => (if Nat.ltb k r then z k else 0) - (if Nat.eqb k c then 1 else 0)).
  assert (S : forall (B : rmat) i, rsum (nv + 1) (fun k => B i k * w k) = rsum r (fun k => B i k * z k) - B i c).
  { intros B i. unfold w. rewrite (rsum_ext (nv + 1) _ (fun k => (if Nat.ltb k r then B i k * z k else 0) - (if Nat.eqb k c then B i k else 0))).
    2:{ intros k _. destruct (Nat.ltb k r), (Nat.eqb k c); lra. }
    rewrite rsum_sub, (rsum_one (nv + 1) c (fun k => B i k)) by lia. f_equal. rewrite (rsum_trunc r); [|lia|intros k Hk; destruct (Nat.ltb_spec k r); [lia|reflexivity]].
    apply rsum_ext. intros k Hk. destruct (Nat.ltb_spec k r); [reflexivity|lia]. }
  assert (K : forall i, (i < ne)%nat -> ker Ab w i). { intros i Hi. unfold ker. rewrite S, <- Hz by exact Hi. lra. }
  pose proof (proj1 (ker_iff w) K ll ltac:(lia)) as K0. clear K. rename K0 into K. unfold ker in K. rewrite S in K. rewrite rsum_0 in K; [lra|].
  intros k Hk. unfold U_of. destruct (Nat.ltb_spec k ll); [lra|lia].
Qed.
(** first r rows of the factor imply all, once the right-hand sides of the others vanish *)
Lemma kept_suffice z : (forall ll, (r <= ll < ne)%nat -> U_of M ll nv = 0) -> (forall i, (i < r)%nat -> ker Ab z (e i)) -> forall i, (i < ne)%nat -> ker Ab z i.
Proof.
  intros Hb H. apply ker_iff. intros i Hi. destruct (le_gt_dec r i) as [Hri|Hri]; [|apply (ker_U_prefix z r Hr H); lia].
  unfold ker. apply rsum_0. intros c Hc. destruct (Nat.eq_dec c nv) as [->|]; [rewrite Hb by lia; lra|]. rewrite rest_zero by lia. lra.
Qed.
Lemma solvable : (forall ll, (r <= ll < ne)%nat -> U_of M ll nv = 0) -> exists x : nat -> R, forall i, (i < ne)%nat -> ker Ab (fun c => if Nat.ltb c nv then x c else -1) i.
Proof.
  intros Hb. destruct (tri_solve M r pivots_nonzero (fun i => U_of M i nv)) as (z & Hz). exists (fun c => if Nat.ltb c r then z c else 0).
  apply ker_iff. intros i Hi. unfold ker. rewrite Nat.add_1_r. cbn [rsum]. rewrite Nat.ltb_irrefl.
  rewrite (rsum_trunc r nv) by (first [lia|intros k Hk; destruct (Nat.ltb_spec k nv); [|lia]; destruct (Nat.ltb_spec k r); [lia|]; lra]).
  rewrite (rsum_ext r _ (fun c => U_of M i c * z c)) by (intros k Hk; destruct (Nat.ltb_spec k nv); [|lia]; destruct (Nat.ltb_spec k r); [reflexivity|lia]).
  destruct (le_gt_dec r i) as [Hri|Hri].
  - rewrite Hb by lia. rewrite rsum_0; [lra|]. intros k Hk. rewrite rest_zero by lia. lra.
  - rewrite Hz by exact Hri. lra.
Qed.
(** the kept rows are linearly independent *)
Lemma kept_indep y : (forall c, (c < nv)%nat -> rsum r (fun i => y i * Ab (e i) c) = 0) -> forall i, (i < r)%nat -> y i = 0.
Proof.
  intros H. set (w := fun i => y i + rsum (r - S i) (fun k => y (S i + k)%nat * M (S i + k)%nat i)).
  assert (W : forall i, (i < r)%nat -> w i = 0).
  { apply (tri_left M r w pivots_nonzero). intros c Hc. rewrite <- (H c) by lia.
    rewrite (rsum_ext r (fun i => y i * Ab (e i) c) (fun i => rsum r (fun k => (if Nat.ltb k i then y i * M i k * U_of M k c else 0)) + y i * U_of M i c)).
    2:{ intros i Hi. rewrite LU by lia. rewrite Rmult_plus_distr_l. f_equal. rewrite <- rsum_scal. rewrite (rsum_trunc i r); [|lia|intros k Hk; destruct (Nat.ltb_spec k i); [lia|reflexivity]].
        apply rsum_ext. intros k Hk. destruct (Nat.ltb_spec k i); [lra|lia]. }
    rewrite rsum_add, rsum_swap, <- rsum_add. apply rsum_ext. intros k Hk. unfold w. rewrite Rmult_plus_distr_r, Rplus_comm. f_equal.
    rewrite <- rsum_scal_r.
    assert (Q : rsum r (fun i => if Nat.ltb k i then y i * M i k * U_of M k c else 0) = rsum (r - S k) (fun i => (fun i => if Nat.ltb k i then y i * M i k * U_of M k c else 0) (S k + i)%nat)).
    { replace r with (S k + (r - S k))%nat at 1 by lia. rewrite rsum_split. rewrite (rsum_0 (S k)); [lra|]. intros i Hi. destruct (Nat.ltb_spec k i); [lia|reflexivity]. }
    rewrite Q.
    apply rsum_ext. intros i Hi. destruct (Nat.ltb_spec k (S k + i)); [reflexivity|lia]. }
  apply (unit_left M r y). exact W.
Qed.
(** the loop: keeps exactly the first r rows in pivoted order *)
Variables (A : rmat) (b : nat -> R).
Lemma ld_lead : forall n ii s, (ii + n = ne)%nat -> (ii <= r)%nat -> s_M s = M -> s_e s = e -> s_nl s = ii ->
  let '(ok, s') := ld_loop 0 nv ne A b n ii s in s_nl s' = r /\ s_e s' = e /\ (ok = true <-> forall ll, (r <= ll < ne)%nat -> U_of M ll nv = 0).
Proof.
  induction n as [|n IH]; intros ii s Hn Hi EM Ee En; cbn [ld_loop].
  - split; [lia|]. split; [exact Ee|]. split; [intros _ ll Hl; lia|reflexivity].
  - rewrite EM. destruct (Nat.eq_dec ii r) as [->|Hnr].
    + assert (D : M r r = 0). { pose proof (rest_zero r r ltac:(lia) ltac:(lia)) as Z. unfold U_of in Z. rewrite Nat.ltb_irrefl in Z. exact Z. }
      rsimp. rewrite D, Rabs_R0. destruct (Rleb_spec 0 0) as [_|]; [|lra].
      set (j1 := Nat.max (r + 1) (s_j0 s)). pose proof (search_R 0 nv ne Hne M r (nv - j1) j1) as S. pose proof (search_range 0 ne M r (nv - j1) j1) as SR.
      destruct (search 0 ne M r j1 (nv - j1)) as [[i0 i1]|].
      * exfalso. destruct (SR i0 i1 eq_refl) as (R1 & R2 & R3). destruct S as (S1 & _).
        pose proof (rest_zero i0 i1 ltac:(lia) ltac:(lia)) as Z. unfold U_of in Z. destruct (Nat.ltb_spec i1 i0); [lia|]. rewrite Z, Rabs_R0 in S1. lra.
      * split; [exact En|]. split; [exact Ee|]. pose proof (bad_b_R 0 nv ne Hne M r ltac:(lia)) as B. destruct (bad_b 0 nv ne M r); cbn [negb].
        -- split; [discriminate|]. intros H. exfalso. destruct B as (ll & Hl & Hb). specialize (H ll Hl). unfold U_of in H. destruct (Nat.ltb_spec nv ll); [lia|]. rewrite H, Rabs_R0 in Hb. lra.
        -- split; [intros _|reflexivity]. intros ll Hl. specialize (B ll Hl). unfold U_of. destruct (Nat.ltb_spec nv ll); [lia|].
           destruct (Req_dec (M ll nv) 0) as [|Hz]; [assumption|]. pose proof (Rabs_pos_lt _ Hz). lra.
    + rsimp. destruct (Rleb_spec (Rabs (M ii ii)) 0) as [Hle|_].
      * exfalso. pose proof (Rabs_pos_lt _ (pivots_nonzero ii ltac:(lia))). lra.
      * apply IH; try lia; try assumption. unfold keep. cbn [s_nl]. lia.
Qed.
End Lead.

(** the first r columns of A are linearly independent and span the others *)
Definition leading_rank (ne nv : nat) (A : rmat) (r : nat) : Prop :=
  (r <= ne)%nat /\ (r <= nv)%nat /\
  (forall z, (forall i, (i < ne)%nat -> rsum r (fun k => A i k * z k) = 0) -> forall k, (k < r)%nat -> z k = 0) /\
  (forall c, (c < nv)%nat -> exists z, forall i, (i < ne)%nat -> A i c = rsum r (fun k => A i k * z k)).
Definition eq_hold (q : dqp R) (x : nat -> R) : Prop := forall j, (j < d_ne q)%nat -> rsum (d_nv q) (fun k => d_A q j k * x k) = d_b q j.

Lemma remove_lead (qp : dqp R) w r : (d_ne qp <= d_nv qp)%nat -> leading_rank (d_ne qp) (d_nv qp) (d_A qp) r ->
  let '(qp1, _, ok) := remove_eq 0 qp w in
  (ok = true <-> exists x, eq_hold qp x) /\
  (ok = true -> d_ne qp1 = r /\ (forall x, eq_hold qp1 x <-> eq_hold qp x) /\
    forall y, (forall c, (c < d_nv qp)%nat -> rsum r (fun i => y i * d_A qp1 i c) = 0) -> forall i, (i < r)%nat -> y i = 0).
Proof.
  intros Hne (Hr & Hrv & Hind & Hspan).
  pose proof (remove_rows 0 qp w ltac:(lia)) as RR.
  unfold remove_eq in *. destruct (Nat.ltb_spec 0 (d_ne qp)) as [Hpos|H0].
  2:{ split; [split; [intros _; exists (fun _ => 0); intros j Hj; lia|reflexivity]|]. intros _. split; [lia|]. split; [intros x; reflexivity|]. intros; lia. }
  pose proof (getrf_LU (d_ne qp) (d_nv qp + 1) (augment (d_ne qp) (d_nv qp) (d_A qp) (d_b qp) (l_M w)) (l_piv w) ltac:(lia)) as LU.
  assert (PR : forall k, (k < d_ne qp)%nat -> (snd (getrf_rp (d_ne qp) (d_nv qp + 1) (augment (d_ne qp) (d_nv qp) (d_A qp) (d_b qp) (l_M w)) (l_piv w)) k < d_ne qp)%nat).
  { intros k Hk. apply getrf_piv. lia. }
  destruct (getrf_rp _ _ _ _) as [M piv]. cbn [snd] in PR. set (Ab := augment _ _ _ _ _) in *.
  set (e := abs_pivots (d_ne qp) piv) in *. assert (Hp : perm (d_ne qp) e) by (apply abs_pivots_perm; exact PR).
  assert (AbA : forall i c, (i < d_ne qp)%nat -> (c < d_nv qp)%nat -> Ab i c = d_A qp i c).
  { intros i c Hi Hc. unfold Ab, augment. destruct (Nat.ltb_spec i (d_ne qp)); [|lia]. destruct (Nat.ltb_spec c (d_nv qp)); [|lia]. reflexivity. }
  assert (Abb : forall i, (i < d_ne qp)%nat -> Ab i (d_nv qp) = d_b qp i).
  { intros i Hi. unfold Ab, augment. destruct (Nat.ltb_spec i (d_ne qp)); [|lia]. rewrite Nat.ltb_irrefl, Nat.eqb_refl. reflexivity. }
  assert (Hind' : forall z, (forall i, (i < d_ne qp)%nat -> rsum r (fun k => Ab i k * z k) = 0) -> forall k, (k < r)%nat -> z k = 0).
  { intros z H. apply Hind. intros i Hi. rewrite <- (H i Hi). apply rsum_ext. intros k Hk. rewrite AbA by lia. reflexivity. }
  assert (Hspan' : forall c, (c < d_nv qp)%nat -> exists z, forall i, (i < d_ne qp)%nat -> Ab i c = rsum r (fun k => Ab i k * z k)).
  { intros c Hc. destruct (Hspan c Hc) as (z & Hz). exists z. intros i Hi. rewrite AbA, (Hz i Hi) by lia. apply rsum_ext. intros k Hk. rewrite AbA by lia. reflexivity. }
  assert (KE : forall x i, (i < d_ne qp)%nat -> (ker (d_nv qp) Ab (fun c => if Nat.ltb c (d_nv qp) then x c else -1) i <-> rsum (d_nv qp) (fun k => d_A qp i k * x k) = d_b qp i)).
  { intros x i Hi. unfold ker. rewrite Nat.add_1_r. cbn [rsum]. rewrite Nat.ltb_irrefl, Abb by exact Hi.
    rewrite (rsum_ext (d_nv qp) (fun c => Ab i c * _) (fun k => d_A qp i k * x k)); [split; lra|]. intros k Hk. rewrite AbA by lia. destruct (Nat.ltb_spec k (d_nv qp)); [reflexivity|lia]. }
  set (s0 := mklst M e (l_A w) (l_b w) 0 0) in *.
  pose proof (ld_lead (d_nv qp) (d_ne qp) Ab M e Hne Hp LU r Hr Hind' Hspan' (d_A qp) (d_b qp) (d_ne qp) 0 s0 eq_refl ltac:(lia) eq_refl eq_refl eq_refl) as LL.
  pose proof (ld_loop_kept 0 (d_nv qp) (d_ne qp) (d_A qp) (d_b qp) (d_ne qp) 0 s0 eq_refl eq_refl Hp ltac:(intros i Hi; cbn in Hi; lia)) as LK.
  destruct (ld_loop 0 _ _ _ _ _ _ s0) as [ok s]. cbn [snd] in LK. destruct LL as (L1 & L2 & L3). destruct LK as (_ & _ & LK). unfold kept in LK. rewrite L1, L2 in LK.
  (* the two outcomes *)
  assert (OK : ok = true <-> exists x, eq_hold qp x).
  { rewrite L3. split.
    - intros Hb. destruct (solvable (d_nv qp) (d_ne qp) Ab M e Hne Hp LU r Hr Hind' Hspan' Hb) as (x & Hx). exists x. intros i Hi. apply KE; [exact Hi|]. apply Hx, Hi.
    - intros (x & Hx). assert (K : forall i, (i < d_ne qp)%nat -> ker (d_nv qp) Ab (fun c => if Nat.ltb c (d_nv qp) then x c else -1) i) by (intros i Hi; apply KE; [exact Hi|apply Hx, Hi]).
      intros ll Hl. pose proof (proj1 (ker_iff (d_nv qp) (d_ne qp) Ab M e Hne Hp LU _) K ll ltac:(lia)) as K0. clear K. rename K0 into K. unfold ker in K. rewrite Nat.add_1_r in K. cbn [rsum] in K.
      rewrite Nat.ltb_irrefl in K. rewrite rsum_0 in K; [lra|]. intros k Hk. rewrite (rest_zero (d_nv qp) (d_ne qp) Ab M e Hne Hp LU r Hr Hspan') by lia. lra. }
  assert (IFF : ok = true -> forall x, (forall i, (i < r)%nat -> rsum (d_nv qp) (fun k => d_A qp (e i) k * x k) = d_b qp (e i)) <-> eq_hold qp x).
  { intros Eo x. split.
    - intros H i Hi. apply KE; [exact Hi|]. apply (kept_suffice (d_nv qp) (d_ne qp) Ab M e Hne Hp LU r Hr Hspan'); [apply L3; exact Eo| |exact Hi].
      intros j Hj. assert (e j < d_ne qp)%nat by (apply Hp; lia). apply KE; [assumption|]. apply H, Hj.
    - intros H i Hi. apply H. apply Hp. lia. }
  cbv zeta. destruct ok; [|split; [exact OK|intros Hx; discriminate]].
  destruct (Nat.ltb_spec (s_nl s) (d_ne qp)) as [Hlt|Hge].
  - cbn [l_A l_b]. split; [exact OK|]. intros _. unfold eq_hold at 1. cbn [set_eq d_ne d_nv d_A d_b]. rewrite L1. split; [reflexivity|]. split.
    + intros x. rewrite <- (IFF eq_refl x). split; intros H i Hi; specialize (H i Hi); destruct (LK i Hi) as (K1 & K2).
      * rewrite <- K2, <- H. apply rsum_ext. intros k Hk. rewrite K1 by exact Hk. reflexivity.
      * rewrite K2, <- H. apply rsum_ext. intros k Hk. rewrite K1 by exact Hk. reflexivity.
    + intros y Hy. apply (kept_indep (d_nv qp) (d_ne qp) Ab M e Hne Hp LU r Hr Hind').
      intros c Hc. rewrite <- (Hy c Hc). apply rsum_ext. intros i Hi. destruct (LK i Hi) as (K1 & _). rewrite K1 by exact Hc. rewrite AbA; [reflexivity|apply Hp; lia|exact Hc].
  - assert (Er : r = d_ne qp) by lia. split; [exact OK|]. intros _. split; [auto|]. split; [intros x; reflexivity|].
    intros y Hy. 
    assert (Y : forall i, (i < r)%nat -> y (e i) = 0).
    { apply (kept_indep (d_nv qp) (d_ne qp) Ab M e Hne Hp LU r Hr Hind' (fun i => y (e i))). intros c Hc. rewrite <- (Hy c Hc). clear - Hp Er AbA Hc.
      rewrite (rsum_ext r _ (fun i => (fun j => y j * d_A qp j c) (e i))).
      2:{ intros i Hi. cbv beta. rewrite AbA; [reflexivity|apply Hp; lia|exact Hc]. }
      rewrite Er. clear Er AbA. apply (rsum_perm (d_ne qp) e Hp (fun j => y j * d_A qp j c)). }
    intros i Hi. destruct (perm_surj _ e Hp i ltac:(lia)) as (j & Hj & <-). apply Y. lia.
Qed.
