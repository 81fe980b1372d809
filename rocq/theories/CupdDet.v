(** CupdDet.v -- the invariant of CupdFull determines the dense QP: an update gives what a fresh condensing gives. *)
From Coq Require Import ZArith Bool Arith Lia Reals Lra.
From Verif Require Import Base ArithF RSum Blas Blas2 OcpModel ResSpec ResProofs ResProofs2 CholProofs CholPD KktModel KktProofs KktProofs2 DenModel DenSpec CondModel CondSpec CondProofs CondCost CondCost2 CondCost3 CondCon CondCon2 CondCon3 CondSem CondFull.
From Verif Require Import CupdModel CupdSpec CupdProofs CupdCost CupdCon CupdFull.
Local Open Scope R_scope.

Section Det.
Variable qp : oqp R.
Notation D := (q_dim qp).
Notation N := (dN D).
Notation nu := (dnu D).
Notation nx := (dnx D).
Notation uo := (uoff qp N).
Notation nh := (n_hard qp N).

Lemma find_stage c : (c < uo 0)%nat -> exists m, (1 <= m <= N)%nat /\ (uo m <= c < uo m + nu m)%nat.
Proof.
  enough (X : forall k, (k <= N)%nat -> (c < uo (N - k))%nat -> exists m, (1 <= m <= N)%nat /\ (uo m <= c < uo m + nu m)%nat).
  { intros H. apply (X N); [lia|]. rewrite Nat.sub_diag. exact H. }
  induction k as [|k IH]; intros Hk Hc.
  - rewrite Nat.sub_0_r, uoff_M in Hc. lia.
  - rewrite (uoff_S qp N (N - S k)) in Hc by lia. replace (S (N - S k)) with (N - k)%nat in Hc by lia. destruct (Nat.lt_ge_cases c (uo (N - k))); [apply IH; lia|]. exists (N - k)%nat. split; lia.
Qed.

Variables (q q' : dqp R) (w w' : cws R).
Hypothesis HC : condensed qp q w.
Hypothesis HC' : condensed qp q' w'.
Hypothesis Hwf : qp_wf qp.
Hypothesis Hns : no_slacks qp.

Lemma det_G i : (i < N)%nat -> (forall r j, (r <= nuf qp i + nx 0)%nat -> (j < nx (S i))%nat -> cw_Gamma w i r j = cw_Gamma w' i r j) /\ (forall j, (j < nx (S i))%nat -> cw_Gammab w i j = cw_Gammab w' i j).
Proof. intros Hi. destruct HC as (_ & A & _), HC' as (_ & B & _). apply RG_det; intros k Hk; [apply A|apply B]; lia. Qed.
Lemma det_L i : (1 <= N)%nat -> (i <= N)%nat -> AG qp i (cw_L w i) (cw_L w' i).
Proof.
  intros HN Hi. destruct HC as (_ & _ & _ & _ & A), HC' as (_ & _ & _ & _ & B). destruct (A HN) as ((_ & _ & A3 & A4 & _) & _), (B HN) as ((_ & _ & B3 & B4 & _) & _). cbn [sts rs_L] in *.
  enough (X : forall k, (k <= N)%nat -> AG qp (N - k) (cw_L w (N - k)%nat) (cw_L w' (N - k)%nat)) by (replace i with (N - (N - i))%nat by lia; apply X; lia).
  induction k as [|k IH]; intros Hk.
  - rewrite Nat.sub_0_r. apply PLlast_det; assumption.
  - specialize (IH ltac:(lia)). replace (N - k)%nat with (S (N - S k)) in IH by lia. eapply PL_det; [exact IH|apply A3; lia|apply B3; lia].
Qed.
Lemma det_H : (1 <= N)%nat -> (forall r c, (c <= r < nh)%nat -> d_H q' r c = d_H q r c) /\ (forall c, (c < nh)%nat -> d_H q' nh c = d_H q nh c).
Proof.
  intros HN. pose proof HC as (_ & _ & _ & _ & A). pose proof HC' as (_ & _ & _ & _ & B). destruct (A HN) as ((A1 & A2 & _) & _), (B HN) as ((B1 & B2 & _) & _). cbn [sts rs_L rs_H] in *.
  specialize (A2 eq_refl). specialize (B2 eq_refl).
  assert (Hnh : nh = (uo 0 + nux qp 0)%nat) by (unfold n_hard, ResSpec.nux; lia).
  assert (X : forall c, (c < uo 0)%nat -> exists m, (1 <= m <= N)%nat /\ (uo m <= c < uo m + nu m)%nat) by apply find_stage.
  split.
  - intros r c H. destruct (Nat.lt_ge_cases c (uo 0)) as [L|L].
    + destruct (X c L) as (m & Hm & Hc). destruct (A1 m ltac:(lia) ltac:(lia)) as (E1 & E2 & _), (B1 m ltac:(lia) ltac:(lia)) as (F1 & F2 & _).
      pose proof (nh_uo qp N m Hm) as En. destruct (det_L m HN ltac:(lia)) as (L1 & _). destruct (Nat.lt_ge_cases r (uo m + nu m)) as [Lr|Lr].
      * replace r with (uo m + (r - uo m))%nat by lia. replace c with (uo m + (c - uo m))%nat by lia. rewrite E1, F1 by lia. symmetry. apply L1. unfold ResSpec.nux. lia.
      * replace r with (uo m + nu m + (r - (uo m + nu m)))%nat by lia. replace c with (uo m + (c - uo m))%nat by lia. rewrite E2, F2 by lia. apply rsum_ext. intros l Hl. symmetry. f_equal.
        -- apply (proj1 (det_G (m - 1) ltac:(lia))); [unfold CondProofs.nuf; replace (S (m - 1)) with m by lia; lia|replace (S (m - 1)) with m by lia; exact Hl].
        -- apply L1. unfold ResSpec.nux. lia.
    + destruct (det_L 0%nat HN ltac:(lia)) as (L1 & _). destruct A2 as (A2 & _), B2 as (B2 & _). replace r with (uo 0 + (r - uo 0))%nat by lia. replace c with (uo 0 + (c - uo 0))%nat by lia. rewrite A2, B2 by lia. symmetry. apply L1. lia.
  - intros c H. destruct (Nat.lt_ge_cases c (uo 0)) as [L|L].
    + destruct (X c L) as (m & Hm & Hc). destruct (A1 m ltac:(lia) ltac:(lia)) as (_ & _ & E2), (B1 m ltac:(lia) ltac:(lia)) as (_ & _ & F2). destruct (det_L m HN ltac:(lia)) as (L1 & L2).
      replace c with (uo m + (c - uo m))%nat by lia. rewrite E2, F2 by lia. symmetry. f_equal; [|apply L2; unfold ResSpec.nux; lia]. apply rsum_ext. intros l Hl. f_equal.
      * apply (proj1 (det_G (m - 1) ltac:(lia))); [unfold CondProofs.nuf; replace (S (m - 1)) with m by lia; lia|replace (S (m - 1)) with m by lia; exact Hl].
      * apply L1. unfold ResSpec.nux. lia.
    + destruct (det_L 0%nat HN ltac:(lia)) as (_ & L1). destruct A2 as (_ & A2), B2 as (_ & B2). replace c with (uo 0 + (c - uo 0))%nat by lia. rewrite A2, B2 by lia. symmetry. apply L1. lia.
Qed.
Lemma det_shift i j : valid qp N i j -> shift qp (cw_Gammab w) i j = shift qp (cw_Gammab w') i j.
Proof.
  intros (Hi & Hj). unfold shift. destruct (Nat.eqb_spec i 0); [reflexivity|]. destruct (Hwf i Hi) as (W1 & _). unfold ResSpec.nux in W1.
  assert (G : forall l, (l < nx i)%nat -> cw_Gammab w (i - 1)%nat l = cw_Gammab w' (i - 1)%nat l) by (intros l Hl; apply (proj2 (det_G (i - 1) ltac:(lia))); replace (S (i - 1)) with i by lia; exact Hl).
  destruct (Nat.ltb_spec j (dnb D i)).
  - destruct (box qp i j) eqn:Eb; [reflexivity|]. unfold box in Eb. apply orb_false_iff in Eb. destruct Eb as (_ & Eb). unfold is_input in Eb. apply Nat.ltb_ge in Eb. apply G. specialize (W1 j ltac:(assumption)). lia.
  - apply rsum_ext. intros l Hl. rewrite G by exact Hl. reflexivity.
Qed.
Lemma det_colv i j k : valid qp N i j -> isbox qp i j = false -> (lows qp N i j <= k < nh)%nat -> colv qp N (cw_Gamma w) i j k = colv qp N (cw_Gamma w') i j k.
Proof.
  intros (Hi & Hj) Eb (Hl & Hk). destruct (Hwf i Hi) as (W1 & _). unfold ResSpec.nux in W1. unfold isbox, box, is_input in Eb. unfold colv.
  assert (G : forall l, (1 <= i)%nat -> (l < nx i)%nat -> cw_Gamma w (i - 1)%nat (k - uo (i - 1))%nat l = cw_Gamma w' (i - 1)%nat (k - uo (i - 1))%nat l).
  { intros l H1 H. apply (proj1 (det_G (i - 1) ltac:(lia))); replace (S (i - 1)) with i by lia; [|exact H]. unfold CondProofs.nuf. replace (S (i - 1)) with i by lia. pose proof (nh_pred qp N i ltac:(lia)). lia. }
  destruct (Nat.ltb_spec j (dnb D i)) as [L|L].
  - cbn [andb] in Eb. apply orb_false_iff in Eb. destruct Eb as (E1 & E2). apply Nat.eqb_neq in E1. apply Nat.ltb_ge in E2. apply G; [lia|]. specialize (W1 j L). lia.
  - destruct (Nat.eqb_spec i 0); [reflexivity|]. destruct (Nat.ltb_spec k (uo (i - 1))); [reflexivity|]. apply rsum_ext. intros l H1. rewrite G by lia. reflexivity.
Qed.
Lemma pos_valid p : (p < count_nbb qp N + (count_nbg qp N + ngg_of qp N))%nat -> exists i j, valid qp N i j /\ posl qp N i j = p.
Proof.
  intros Hp. destruct (pos_surj qp N p ltac:(lia)) as (i & c & Hi & Hc & E). exists i, c. unfold pos in E. unfold nct in Hc. pose proof (Hns i Hi) as En. cbv zeta in E.
  destruct (Nat.ltb_spec c (dnb D i + dng D i)) as [L|L]; [split; [split; lia|exact E]|].
  destruct (Nat.ltb_spec c (2 * (dnb D i + dng D i))) as [L2|L2]; [exfalso; lia|]. destruct (Nat.ltb_spec c (2 * (dnb D i + dng D i) + dns D i)); exfalso; lia.
Qed.
Lemma condensed_det : same_dense q q'.
Proof.
  pose proof HC as ((E1 & E2 & E3 & E4 & E5) & _ & (A & _) & A4 & A5). pose proof HC' as ((F1 & F2 & F3 & F4 & F5) & _ & (B & _) & B4 & B5).
  assert (X : forall p, (p < count_nbb qp N + (count_nbg qp N + ngg_of qp N))%nat -> let pu := (count_nbb qp N + (count_nbg qp N + ngg_of qp N) + p)%nat in
     (d_d q' p = d_d q p /\ d_mask q' p = d_mask q p /\ d_m q' p = d_m q p) /\ (d_d q' pu = d_d q pu /\ d_mask q' pu = d_mask q pu /\ d_m q' pu = d_m q pu) /\ d_idxs_rev q' p = d_idxs_rev q p).
  { intros p Hp pu. destruct (pos_valid p Hp) as (i & j & V & <-). specialize (A i j V). specialize (B i j V). cbv zeta in A, B. fold pu in A, B. destruct A as ((a1 & a2) & (a3 & a4) & (a5 & a6) & a7 & _), B as ((b1 & b2) & (b3 & b4) & (b5 & b6) & b7 & _).
    rewrite a1, a2, a3, a4, a5, a6, a7, b1, b2, b3, b4, b5, b6, b7, (det_shift i j V). repeat split; reflexivity. }
  unfold same_dense. rewrite E1, E2, E3, E4, E5, F1, F2, F3, F4, F5. split; [repeat split; reflexivity|].
  split; [|split; [|split; [|split; [|split]]]].
  - intros r c H. destruct (Nat.eq_dec N 0) as [E0|E0]; [rewrite (proj1 (A4 E0)), (proj1 (B4 E0)) by exact H; reflexivity|apply det_H; [lia|exact H]].
  - intros k H. destruct (Nat.eq_dec N 0) as [E0|E0]; [rewrite (proj2 (A4 E0)), (proj2 (B4 E0)) by exact H; reflexivity|]. rewrite (proj2 (A5 ltac:(lia))), (proj2 (B5 ltac:(lia))) by exact H. apply det_H; [lia|exact H].
  - intros c Hc. destruct (Nat.lt_ge_cases c (count_nbb qp N + (count_nbg qp N + ngg_of qp N))) as [L|L]; [apply (X c L)|].
    replace c with (count_nbb qp N + (count_nbg qp N + ngg_of qp N) + (c - (count_nbb qp N + (count_nbg qp N + ngg_of qp N))))%nat by lia. apply X. lia.
  - intros p Hp. destruct (pos_valid p ltac:(lia)) as (i & j & V & <-). destruct (isbox qp i j) eqn:Eb; [|pose proof (posl_gen qp N i j V Eb); lia].
    specialize (A i j V). specialize (B i j V). cbv zeta in A, B. destruct A as (_ & _ & _ & _ & A & _), B as (_ & _ & _ & _ & B & _). rewrite (A Eb), (B Eb). reflexivity.
  - intros p Hp. apply X. exact Hp.
  - intros k p Hk Hp. destruct (pos_valid (count_nbb qp N + p) ltac:(lia)) as (i & j & V & E). destruct (isbox qp i j) eqn:Eb; [pose proof (posl_box qp N i j V Eb); lia|].
    specialize (A i j V). specialize (B i j V). cbv zeta in A, B. destruct A as (_ & _ & _ & _ & _ & A), B as (_ & _ & _ & _ & _ & B). specialize (A Eb k Hk). specialize (B Eb k Hk). rewrite E in A, B. replace (count_nbb qp N + p - count_nbb qp N)%nat with p in A, B by lia. rewrite A, B.
    destruct (Nat.ltb_spec k (lows qp N i j)); [reflexivity|]. symmetry. apply det_colv; [exact V|exact Eb|lia].
Qed.
End Det.
