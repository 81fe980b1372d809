(** DenSolveProofs2.v -- exact arithmetic: what a reported inconsistency means, and the removal when the leading columns carry the rank. *)
From Coq Require Import ZArith Bool Arith List Reals Lra Lia FinFun.
From Verif Require Import Base RSum ArithF Blas Blas2 OcpModel CoreModel ArgModel DenModel DenIpmModel DenSolveModel DenSolveProofs.
Local Open Scope R_scope.

Section Inc.
Variables (thr : R) (nv ne : nat) (A : rmat) (b : nat -> R) (Ab : rmat).
Hypothesis (Hthr : 0 <= thr) (Hne : (ne <= nv)%nat).
(** the combination of the rows of Ab with weights Y, column c *)
Definition rc (Y : nat -> R) (c : nat) : R := rsum ne (fun k => Y k * Ab k c).
Definition Inv (ii j0 : nat) (M : rmat) (B : R) : Prop :=
  forall ll, (ii <= ll < ne)%nat -> exists Y, (forall c, (j0 <= c <= nv)%nat -> rc Y c = U_of M ll c) /\ (forall c, (c < j0)%nat -> Rabs (rc Y c) <= B).
Lemma rc_lin Y Z t c : rc (fun k => Y k + t * Z k) c = rc Y c + t * rc Z c.
Proof. unfold rc. rewrite <- rsum_scal, <- rsum_add. apply rsum_ext. intros k _. lra. Qed.

Lemma col_search_R (M : rmat) ii jj :
  match snd (col_search thr ne M ii jj) with
  | Some r => thr < Rabs (M r jj) /\ forall ll, (ii <= ll < Nat.min ne (jj + 1))%nat -> Rabs (M ll jj) <= Rabs (M r jj)
  | None => forall ll, (ii <= ll < Nat.min ne (jj + 1))%nat -> Rabs (M ll jj) <= thr
  end.
Proof.
  unfold col_search.
  set (P := fun (i : nat) (s : R * option nat) => (match snd s with Some r => fst s = Rabs (M r jj) /\ thr < fst s | None => fst s = thr end)
     /\ forall j, (j < i)%nat -> Rabs (M (ii + j)%nat jj) <= fst s).
  assert (H : P (Nat.min ne (jj + 1) - ii)%nat (loop (Nat.min ne (jj + 1) - ii) (fun i '(mx, r) => let t := fabs (M (ii + i)%nat jj) in
     if fltb mx t then (t, Some (ii + i)%nat) else (mx, r)) (thr, None))).
  { apply loop_ind; [split; [reflexivity|intros; lia]|].
    intros i [mx q] Hi (H1 & H2). cbn [fst snd] in *. rsimp. cbv zeta. destruct (Rltb_spec mx (Rabs (M (ii + i)%nat jj))); unfold P; cbn [fst snd].
    - assert (thr <= mx) by (destruct q; lra). split; [split; [reflexivity|lra]|]. intros j Hj. destruct (Nat.eq_dec j i) as [->|]; [lra|].
      specialize (H2 j ltac:(lia)). lra.
    - split; [exact H1|]. intros j Hj. destruct (Nat.eq_dec j i) as [->|]; [lra|]. apply H2. lia. }
  destruct (loop _ _ _) as [mx q]. cbn [fst snd] in *. destruct H as (H1 & H2). cbn [fst snd] in *.
  assert (H3 : forall ll, (ii <= ll < Nat.min ne (jj + 1))%nat -> Rabs (M ll jj) <= mx).
  { intros ll Hl. specialize (H2 (ll - ii)%nat ltac:(lia)). replace (ii + (ll - ii))%nat with ll in H2 by lia. exact H2. }
  destruct q; [|rewrite <- H1; exact H3]. destruct H1 as (E & Hlt). rewrite E in *. split; assumption.
Qed.
Lemma search_R (M : rmat) ii : forall n jj,
  match search thr ne M ii jj n with
  | Some (r, c) => thr < Rabs (M r c) /\ (forall ll, (ii <= ll < Nat.min ne (c + 1))%nat -> Rabs (M ll c) <= Rabs (M r c)) /\
      forall c' ll, (jj <= c' < c)%nat -> (ii <= ll < Nat.min ne (c' + 1))%nat -> Rabs (M ll c') <= thr
  | None => forall c' ll, (jj <= c' < jj + n)%nat -> (ii <= ll < Nat.min ne (c' + 1))%nat -> Rabs (M ll c') <= thr
  end.
Proof.
  induction n as [|n IH]; intros jj; cbn [search]; [intros; lia|].
  pose proof (col_search_R M ii jj) as C. destruct (snd (col_search thr ne M ii jj)) as [q|].
  - destruct C as (C1 & C2). split; [exact C1|]. split; [exact C2|]. intros; lia.
  - specialize (IH (S jj)). destruct (search thr ne M ii (S jj) n) as [[r c]|].
    + destruct IH as (I1 & I2 & I3). split; [exact I1|]. split; [exact I2|]. intros c' ll Hc Hl. destruct (Nat.eq_dec c' jj) as [->|]; [apply C; exact Hl|]. apply I3; lia.
    + intros c' ll Hc Hl. destruct (Nat.eq_dec c' jj) as [->|]; [apply C; exact Hl|]. apply IH; lia.
Qed.
Lemma clear_below_R ii i1 (M : rmat) : M ii i1 <> 0 -> forall r c,
  clear_below nv ne ii i1 M r c =
  if andb (andb (Nat.ltb ii r) (Nat.ltb r (Nat.min ne (i1 + 1)))) (andb (Nat.leb i1 c) (Nat.leb c nv)) then M r c + - (Rabs (M r i1) / M ii i1) * M ii c else M r c.
Proof.
  intros Hp. unfold clear_below. cbv zeta.
  match goal with |- context [loop _ ?f M] => set (body := f) end.
  assert (H : forall r c, loop (Nat.min ne (i1 + 1) - (ii + 1)) body M r c =
    if andb (andb (Nat.ltb ii r) (Nat.ltb r (ii + 1 + (Nat.min ne (i1 + 1) - (ii + 1))))) (andb (Nat.leb i1 c) (Nat.leb c nv)) then M r c + - (Rabs (M r i1) / M ii i1) * M ii c else M r c).
  { apply (loop_ind (fun i M' => forall r c, M' r c = if andb (andb (Nat.ltb ii r) (Nat.ltb r (ii + 1 + i))) (andb (Nat.leb i1 c) (Nat.leb c nv)) then M r c + - (Rabs (M r i1) / M ii i1) * M ii c else M r c)).
    - intros r c. destruct (Nat.ltb_spec ii r), (Nat.ltb_spec r (ii + 1 + 0)); cbn [andb]; try reflexivity; lia.
    - intros i M' Hi IH r c. unfold body. cbv zeta.
      assert (Eii : forall c, M' ii c = M ii c). { intros c'. rewrite IH. rewrite Nat.ltb_irrefl. reflexivity. }
      assert (Ell : forall c, M' (ii + 1 + i)%nat c = M (ii + 1 + i)%nat c). { intros c'. rewrite IH. rewrite Nat.ltb_irrefl. rewrite andb_false_r. reflexivity. }
      rsimp. rewrite !(Ell i1).
      destruct (Reqb_spec (Rabs (M (ii + 1 + i)%nat i1)) (0 / 1)) as [E|E]; cbn [negb].
      + rewrite IH. destruct (Nat.eq_dec r (ii + 1 + i)) as [->|Hn].
        * destruct (Nat.ltb_spec ii (ii + 1 + i)); [|lia]. destruct (Nat.ltb_spec (ii + 1 + i) (ii + 1 + i)); [lia|]. destruct (Nat.ltb_spec (ii + 1 + i) (ii + 1 + S i)); [|lia].
          cbn [andb]. rewrite E. destruct (_ && _)%bool; [|reflexivity]. field. exact Hp.
        * replace (Nat.ltb r (ii + 1 + S i)) with (Nat.ltb r (ii + 1 + i)); [reflexivity|]. destruct (Nat.ltb_spec r (ii + 1 + i)), (Nat.ltb_spec r (ii + 1 + S i)); try reflexivity; lia.
      + destruct (Nat.eqb_spec r (ii + 1 + i)) as [->|Hn]; cbn [andb].
        * destruct (Nat.ltb_spec ii (ii + 1 + i)); [|lia]. destruct (Nat.ltb_spec (ii + 1 + i) (ii + 1 + S i)); [|lia]. cbn [andb].
          destruct (_ && _)%bool; [|apply Ell]. rewrite Eii, Ell. field. exact Hp.
        * rewrite IH. replace (Nat.ltb r (ii + 1 + S i)) with (Nat.ltb r (ii + 1 + i)); [reflexivity|]. destruct (Nat.ltb_spec r (ii + 1 + i)), (Nat.ltb_spec r (ii + 1 + S i)); try reflexivity; lia. }
  intros r c. rewrite H. destruct (Nat.ltb_spec ii r); [|reflexivity]. cbn [andb].
  replace (Nat.ltb r (ii + 1 + (Nat.min ne (i1 + 1) - (ii + 1)))) with (Nat.ltb r (Nat.min ne (i1 + 1))); [reflexivity|].
  destruct (Nat.ltb_spec r (Nat.min ne (i1 + 1))), (Nat.ltb_spec r (ii + 1 + (Nat.min ne (i1 + 1) - (ii + 1)))); try reflexivity; lia.
Qed.
Lemma bad_b_R (M : rmat) ii : (ii <= ne)%nat -> if bad_b thr nv ne M ii then exists ll, (ii <= ll < ne)%nat /\ thr < Rabs (M ll nv) else forall ll, (ii <= ll < ne)%nat -> Rabs (M ll nv) <= thr.
Proof.
  intros Hi. unfold bad_b.
  set (P := fun (i : nat) (x : bool) => if x then exists ll, (ii <= ll < ii + i)%nat /\ thr < Rabs (M ll nv) else forall ll, (ii <= ll < ii + i)%nat -> Rabs (M ll nv) <= thr).
  assert (H : P (ne - ii)%nat (loop (ne - ii) (fun i x => orb x (fltb thr (fabs (M (ii + i)%nat nv)))) false)).
  { apply loop_ind; [unfold P; intros; lia|]. intros i x Hi' IH. unfold P in *. rsimp. destruct x; cbn [orb].
    - destruct IH as (ll & H1 & H2). exists ll. split; [lia|exact H2].
    - destruct (Rltb_spec thr (Rabs (M (ii + i)%nat nv))).
      + exists (ii + i)%nat. split; [lia|assumption].
      + intros ll Hl. destruct (Nat.eq_dec ll (ii + i)) as [->|]; [lra|]. apply IH. lia. }
  unfold P in H. destruct (loop _ _ _).
  - destruct H as (ll & H1 & H2). exists ll. split; [lia|exact H2].
  - intros ll Hl. apply H. lia.
Qed.

Lemma ld_incons : forall n ii s B, (ii + n = ne)%nat -> thr <= B -> Inv ii (s_j0 s) (s_M s) B -> (s_j0 s <= nv)%nat -> fst (ld_loop thr nv ne A b n ii s) = false ->
  exists Y, (forall c, (c < nv)%nat -> Rabs (rc Y c) <= 2 ^ n * B) /\ thr < Rabs (rc Y nv).
Proof.
  induction n as [|n IH]; intros ii s B Hn HB HI Hj0 Hf; cbn [ld_loop] in Hf; [discriminate|].
  assert (Hpow : 1 <= 2 ^ n) by (apply pow_R1_Rle; lra).
  assert (HBn : B <= 2 ^ n * B) by (rewrite <- (Rmult_1_l B) at 1; apply Rmult_le_compat_r; lra).
  destruct (fleb (fabs (s_M s ii ii)) thr) eqn:E.
  - rsimp. destruct (Rleb_spec (Rabs (s_M s ii ii)) thr) as [Hd|]; [|discriminate].
    set (j1 := Nat.max (ii + 1) (s_j0 s)) in *. pose proof (search_R (s_M s) ii (nv - j1) j1) as S.
    destruct (search thr ne (s_M s) ii j1 (nv - j1)) as [[i0 i1]|] eqn:ES.
    + apply search_range in ES. destruct S as (S1 & S2 & S3). cbv zeta in Hf.
      set (M1 := if Nat.eqb i0 ii then s_M s else swap_rows i1 ii i0 (s_M s)).
      (* rows after the swap, with the bound for all columns before i1 *)
      assert (HI0 : forall ll, (ii <= ll < ne)%nat -> exists Y, (forall c, (i1 <= c <= nv)%nat -> rc Y c = U_of (s_M s) ll c) /\ (forall c, (c < i1)%nat -> Rabs (rc Y c) <= B)).
      { intros ll Hl. destruct (HI ll Hl) as (Y & Y1 & Y2). exists Y. split; [intros c Hc; apply Y1; lia|]. intros c Hc.
        destruct (le_gt_dec (s_j0 s) c) as [Hjc|Hjc]; [|apply Y2; lia]. rewrite Y1 by lia. unfold U_of. destruct (Nat.ltb_spec c ll); [rewrite Rabs_R0; lra|].
        destruct (Nat.eq_dec c ii) as [->|Hcn]; [replace ll with ii by lia; lra|]. specialize (S3 c ll ltac:(lia) ltac:(lia)). lra. }
      assert (HI1 : forall ll, (ii <= ll < ne)%nat -> exists Y, (forall c, (i1 <= c <= nv)%nat -> rc Y c = U_of M1 ll c) /\ (forall c, (c < i1)%nat -> Rabs (rc Y c) <= B)).
      { intros ll Hl. unfold M1. destruct (Nat.eqb_spec i0 ii) as [|Hni]; [apply HI0; exact Hl|].
        assert (Hsw : forall q, (q = if Nat.eqb ll ii then i0 else if Nat.eqb ll i0 then ii else ll) -> forall c, (i1 <= c <= nv)%nat -> U_of (s_M s) q c = U_of (swap_rows i1 ii i0 (s_M s)) ll c).
        { intros q -> c Hc. unfold U_of, swap_rows. destruct (Nat.leb_spec i1 c); [|lia].
          destruct (Nat.eqb_spec ll ii) as [->|]; [destruct (Nat.ltb_spec c i0), (Nat.ltb_spec c ii); try lia; reflexivity|].
          destruct (Nat.eqb_spec ll i0) as [->|]; [destruct (Nat.ltb_spec c i0), (Nat.ltb_spec c ii); try lia; reflexivity|]. reflexivity. }
        destruct (HI0 (if Nat.eqb ll ii then i0 else if Nat.eqb ll i0 then ii else ll)) as (Y & Y1 & Y2).
        { destruct (Nat.eqb ll ii), (Nat.eqb ll i0); lia. }
        exists Y. split; [|exact Y2]. intros c Hc. rewrite Y1 by exact Hc. apply Hsw; [reflexivity|exact Hc]. }
      assert (Hpiv : M1 ii i1 = s_M s i0 i1).
      { unfold M1. destruct (Nat.eqb_spec i0 ii) as [->|]; [reflexivity|]. unfold swap_rows. destruct (Nat.leb_spec i1 i1); [|lia]. rewrite Nat.eqb_refl. reflexivity. }
      assert (Hpn : M1 ii i1 <> 0). { rewrite Hpiv. intros E0. rewrite E0, Rabs_R0 in S1. lra. }
      assert (Hmx : forall ll, (ii <= ll < Nat.min ne (i1 + 1))%nat -> Rabs (M1 ll i1) <= Rabs (M1 ii i1)).
      { intros ll Hl. rewrite Hpiv. unfold M1. destruct (Nat.eqb_spec i0 ii); [apply S2; exact Hl|]. unfold swap_rows. destruct (Nat.leb_spec i1 i1); [|lia].
        destruct (Nat.eqb_spec ll ii); [lra|]. destruct (Nat.eqb_spec ll i0); [apply S2; lia|]. apply S2. exact Hl. }
      assert (HI2 : Inv (S ii) i1 (clear_below nv ne ii i1 M1) (2 * B)).
      { intros ll Hl. destruct (HI1 ll ltac:(lia)) as (Y & Y1 & Y2). destruct (le_gt_dec ll i1) as [Hli|Hli].
        - destruct (HI1 ii ltac:(lia)) as (Z & Z1 & Z2). set (t := - (Rabs (M1 ll i1) / M1 ii i1)).
          assert (Ht : Rabs t <= 1).
          { unfold t, Rdiv. rewrite Rabs_Ropp, Rabs_mult, Rabs_Rabsolu, Rabs_inv. apply (Rmult_le_reg_r (Rabs (M1 ii i1))); [apply Rabs_pos_lt; exact Hpn|].
            rewrite Rmult_assoc, Rinv_l by (apply Rabs_no_R0; exact Hpn). rewrite Rmult_1_r, Rmult_1_l. apply Hmx. lia. }
          exists (fun k => Y k + t * Z k). split.
          + intros c Hc. rewrite rc_lin, Y1, Z1 by exact Hc. unfold U_of. rewrite clear_below_R by exact Hpn.
            destruct (Nat.ltb_spec c ll); [lia|]. destruct (Nat.ltb_spec c ii); [lia|]. destruct (Nat.ltb_spec ii ll); [|lia]. destruct (Nat.ltb_spec ll (Nat.min ne (i1 + 1))); [|lia].
            destruct (Nat.leb_spec i1 c); [|lia]. destruct (Nat.leb_spec c nv); [|lia]. reflexivity.
          + intros c Hc. rewrite rc_lin. specialize (Y2 c Hc). specialize (Z2 c Hc). eapply Rle_trans; [apply Rabs_triang|]. rewrite Rabs_mult.
            assert (Rabs t * Rabs (rc Z c) <= 1 * B); [apply Rmult_le_compat; try apply Rabs_pos; assumption|]. lra.
        - exists Y. split; [|intros c Hc; specialize (Y2 c Hc); lra]. intros c Hc. rewrite Y1 by exact Hc. unfold U_of. rewrite clear_below_R by exact Hpn.
          destruct (Nat.ltb_spec c ll); [reflexivity|]. destruct (Nat.ltb_spec ll (Nat.min ne (i1 + 1))); [lia|]. rewrite andb_false_r. reflexivity. }
      match type of Hf with fst (ld_loop _ _ _ _ _ _ _ ?st) = _ => set (s2 := st) in * end.
      assert (HM2 : s_M s2 = clear_below nv ne ii i1 M1) by (unfold s2, keep, M1; cbn [s_M]; destruct (Nat.eqb i0 ii); reflexivity).
      assert (HJ2 : s_j0 s2 = i1) by (unfold s2, keep; cbn [s_j0]; destruct (Nat.eqb i0 ii); reflexivity). clearbody s2.
      destruct (IH (S ii) s2 (2 * B) ltac:(lia) ltac:(lra)) as (Y & Y1 & Y2); [rewrite HM2, HJ2; exact HI2|lia|exact Hf|].
      exists Y. split; [|exact Y2]. intros c Hc. cbn [pow]. specialize (Y1 c Hc). lra.
    + cbn [fst] in Hf. pose proof (bad_b_R (s_M s) ii ltac:(lia)) as Bb. destruct (bad_b thr nv ne (s_M s) ii); [|discriminate]. clear Hf.
      destruct Bb as (ll & Hl & Hb). destruct (HI ll Hl) as (Y & Y1 & Y2). exists Y. split.
      * intros c Hc. apply Rle_trans with B; [|cbn [pow]; lra].
        destruct (le_gt_dec (s_j0 s) c) as [Hjc|Hjc]; [|apply Y2; lia]. rewrite Y1 by lia. unfold U_of. destruct (Nat.ltb_spec c ll); [rewrite Rabs_R0; lra|].
        destruct (Nat.eq_dec c ii) as [->|Hcn]; [replace ll with ii by lia; lra|].
        assert (Rabs (s_M s ll c) <= thr); [|lra]. apply S; lia.
      * rewrite Y1 by lia. unfold U_of. destruct (Nat.ltb_spec nv ll); [lia|]. exact Hb.
  - edestruct (IH (S ii) (keep nv A b ii s) B ltac:(lia) HB) as (Y & Y1 & Y2); [|exact Hj0|exact Hf|].
    + intros ll Hl. apply HI. lia.
    + exists Y. split; [|exact Y2]. intros c Hc. cbn [pow]. specialize (Y1 c Hc). lra.
Qed.
End Inc.

(** upper factor rows are combinations of the rows *)
Lemma U_rows ne n Ab M e : (forall i, (i < ne)%nat -> (e i < ne)%nat) ->
  (forall r c, (r < ne)%nat -> (c < n)%nat -> Ab (e r) c = rsum r (fun i => M r i * U_of M i c) + U_of M r c) ->
  forall r, (r < ne)%nat -> exists Y, forall c, (c < n)%nat -> rc ne Ab Y c = U_of M r c.
Proof.
  intros He H. induction r as [r IH] using lt_wf_ind. intros Hr.
  assert (Hs : forall k, (k <= r)%nat -> exists Y, forall c, (c < n)%nat -> rc ne Ab Y c = rsum k (fun i => M r i * U_of M i c)).
  { induction k as [|k IHk]; intros Hk.
    - exists (fun _ => 0). intros c _. cbn [rsum]. unfold rc. apply rsum_0. intros; lra.
    - destruct (IHk ltac:(lia)) as (Y & HY). destruct (IH k ltac:(lia) ltac:(lia)) as (Z & HZ). exists (fun j => Y j + M r k * Z j).
      intros c Hc. rewrite rc_lin, HY, HZ by exact Hc. reflexivity. }
  destruct (Hs r ltac:(lia)) as (Y & HY).
  exists (fun k => (if Nat.eqb k (e r) then 1 else 0) + (-1) * Y k). intros c Hc. rewrite rc_lin, HY by exact Hc.
  assert (E : rc ne Ab (fun k => if Nat.eqb k (e r) then 1 else 0) c = Ab (e r) c).
  { unfold rc. rewrite <- (rsum_one ne (e r) (fun k => Ab k c)) by (apply He; exact Hr). apply rsum_ext. intros k _. destruct (Nat.eqb k (e r)); lra. }
  rewrite E, (H r c Hr Hc). lra.
Qed.
Lemma remove_incons thr (qp : dqp R) w : 0 <= thr -> (d_ne qp <= d_nv qp)%nat -> snd (remove_eq thr qp w) = false ->
  exists y, (forall c, (c < d_nv qp)%nat -> Rabs (rsum (d_ne qp) (fun k => y k * d_A qp k c)) <= 2 ^ d_ne qp * thr) /\ thr < Rabs (rsum (d_ne qp) (fun k => y k * d_b qp k)).
Proof.
  intros Ht Hne. unfold remove_eq. destruct (Nat.ltb 0 (d_ne qp)); [|discriminate].
  pose proof (getrf_LU (d_ne qp) (d_nv qp + 1) (augment (d_ne qp) (d_nv qp) (d_A qp) (d_b qp) (l_M w)) (l_piv w) ltac:(lia)) as LU.
  assert (PR : forall k, (k < d_ne qp)%nat -> (snd (getrf_rp (d_ne qp) (d_nv qp + 1) (augment (d_ne qp) (d_nv qp) (d_A qp) (d_b qp) (l_M w)) (l_piv w)) k < d_ne qp)%nat).
  { intros k Hk. apply getrf_piv. lia. }
  destruct (getrf_rp _ _ _ _) as [M piv]. cbn [snd] in PR. set (Ab := augment _ _ _ _ _) in *.
  set (s0 := mklst M (abs_pivots (d_ne qp) piv) (l_A w) (l_b w) 0 0).
  pose proof (ld_incons thr (d_nv qp) (d_ne qp) (d_A qp) (d_b qp) Ab Ht Hne (d_ne qp) 0 s0 thr eq_refl (Rle_refl _)) as H.
  destruct (ld_loop _ _ _ _ _ _ _ _) as [ok s]. cbv zeta. cbn [fst] in H.
  intros Hf. assert (Eo : ok = false). { destruct ok; [|reflexivity]. destruct (Nat.ltb _ _); discriminate. }
  destruct H as (Y & Y1 & Y2); [|cbn; lia|exact Eo|].
  - intros ll Hl. destruct (U_rows (d_ne qp) (d_nv qp + 1) Ab M (abs_pivots (d_ne qp) piv)) with (r := ll) as (Y & HY).
    + intros i Hi. apply (abs_pivots_perm _ _ PR). exact Hi.
    + exact LU.
    + lia.
    + exists Y. split; [intros c Hc; apply HY; lia|]. cbn [s0 s_j0]. intros; lia.
  - exists Y. split.
    + intros c Hc. specialize (Y1 c Hc). unfold rc in Y1. rewrite (rsum_ext _ _ (fun k => Y k * Ab k c)); [exact Y1|].
      intros k Hk. unfold Ab, augment. destruct (Nat.ltb_spec k (d_ne qp)); [|lia]. destruct (Nat.ltb_spec c (d_nv qp)); [|lia]. reflexivity.
    + unfold rc in Y2. rewrite (rsum_ext _ _ (fun k => Y k * Ab k (d_nv qp))); [exact Y2|].
      intros k Hk. unfold Ab, augment. destruct (Nat.ltb_spec k (d_ne qp)); [|lia]. rewrite Nat.ltb_irrefl, Nat.eqb_refl. reflexivity.
Qed.
