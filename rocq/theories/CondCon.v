(** CondCon.v -- COND_DCTD: where every constraint of the OCP QP goes in the dense QP, and what is written there. *)
From Coq Require Import ZArith Bool Arith Lia Reals Lra.
From Verif Require Import Base ArithF RSum Blas Blas2 OcpModel ResSpec ResProofs CholProofs KktModel KktProofs KktProofs2 DenModel DenSpec CondModel CondSpec CondProofs.
Local Open Scope R_scope.

(** ** offsets of stages stored from M down to 0 *)
Section Roff.
Variables (M : nat) (n : nat -> nat).
Definition roff (i : nat) : nat := nsum (M - i) (fun k => n (M - k)%nat).
Lemma roff_S i : (i < M)%nat -> roff i = (roff (S i) + n (S i))%nat.
Proof. intros H. unfold roff. replace (M - i)%nat with (S (M - S i)) by lia. cbn [nsum]. replace (M - (M - S i))%nat with (S i) by lia. reflexivity. Qed.
Lemma roff_M : roff M = 0%nat.
Proof. unfold roff. rewrite Nat.sub_diag. reflexivity. Qed.
Lemma roff_it k : (k <= M)%nat -> roff (M - k) = nsum k (fun k => n (M - k)%nat).
Proof. intros H. unfold roff. f_equal. lia. Qed.
Lemma roff_mono a b : (a < b)%nat -> (b <= M)%nat -> (roff b + n b <= roff a)%nat.
Proof.
  intros H HM. replace a with (b - 1 - (b - 1 - a))%nat by lia. assert (Hk : (b - 1 - a <= b - 1)%nat) by lia. revert Hk. generalize (b - 1 - a)%nat. intros k. induction k as [|k IH]; intros Hk.
  - rewrite Nat.sub_0_r, (roff_S (b - 1)) by lia. replace (S (b - 1)) with b by lia. lia.
  - specialize (IH ltac:(lia)). rewrite (roff_S (b - 1 - S k)) by lia. replace (S (b - 1 - S k)) with (b - 1 - k)%nat by lia. lia.
Qed.
Lemma roff_inj i j a b : (i <= M)%nat -> (j <= M)%nat -> (a < n i)%nat -> (b < n j)%nat -> (roff i + a = roff j + b)%nat -> i = j /\ a = b.
Proof.
  intros Hi Hj Ha Hb E. destruct (Nat.lt_trichotomy i j) as [L|[->|L]].
  - pose proof (roff_mono i j L Hj). lia.
  - split; [reflexivity|lia].
  - pose proof (roff_mono j i L Hi). lia.
Qed.
Lemma roff_lt i a : (i <= M)%nat -> (a < n i)%nat -> (roff i + a < roff 0 + n 0)%nat.
Proof. intros Hi Ha. destruct (Nat.eq_dec i 0) as [->|]; [lia|]. pose proof (roff_mono 0 i ltac:(lia) Hi). lia. Qed.
Lemma roff_sum i : (i <= M)%nat -> (roff i + nsum (S i) n = nsum (S M) n)%nat.
Proof.
  intros H. pose proof (nsum_rev' (S M) (S i) n ltac:(lia)) as E. rewrite <- E. unfold roff. replace (S M - S i)%nat with (M - i)%nat by lia.
  rewrite (nsum_ext (M - i) (fun k => n (M - k)%nat) (fun k => n (S M - 1 - k)%nat)); [lia|]. intros k Hk. f_equal. lia.
Qed.
Lemma rsum_roff f : rsum (roff 0 + n 0%nat) f = rsum (S M) (fun i => rsum (n i) (fun a => f (roff i + a)%nat)).
Proof.
  assert (X : forall k, (k <= M)%nat -> rsum (roff (M - k) + n (M - k)%nat) f = rsum (S k) (fun q => rsum (n (M - k + q)%nat) (fun a => f (roff (M - k + q) + a)%nat))).
  { induction k as [|k IH]; intros Hk.
    - rewrite Nat.sub_0_r, roff_M. cbn [rsum]. rewrite Nat.add_0_r, roff_M. cbn [Nat.add]. rewrite Rplus_0_l. reflexivity.
    - rewrite rsum_split, rsum_S_l. rewrite Nat.add_0_r. rewrite Rplus_comm. f_equal. rewrite roff_S by lia. replace (S (M - S k)) with (M - k)%nat by lia. rewrite IH by lia.
      apply rsum_ext. intros q Hq. replace (M - S k + S q)%nat with (M - k + q)%nat by lia. reflexivity. }
  specialize (X M (le_n _)). rewrite Nat.sub_diag in X. exact X.
Qed.
End Roff.

(** ** counting the elements of a class *)
Section Cnt.
Variable P : nat -> bool.
Definition cnt (m : nat) : nat := nsum m (fun j => if P j then 1 else 0)%nat.
Lemma cnt_lt j m : (j < m)%nat -> P j = true -> (cnt j < cnt m)%nat.
Proof. intros H HP. unfold cnt. pose proof (nsum_mono (S j) m (fun j => if P j then 1 else 0)%nat H) as X. cbn [nsum] in X. rewrite HP in X. lia. Qed.
Lemma cnt_inj i j : P i = true -> P j = true -> cnt i = cnt j -> i = j.
Proof. intros Hi Hj E. destruct (Nat.lt_trichotomy i j) as [L|[->|L]]; [pose proof (cnt_lt i j L Hi); lia|reflexivity|pose proof (cnt_lt j i L Hj); lia]. Qed.
Lemma cnt_neg m : (cnt m + nsum m (fun j => if P j then 0 else 1) = m)%nat.
Proof. unfold cnt. induction m as [|m IH]; [reflexivity|]. cbn [nsum]. destruct (P m); lia. Qed.
Lemma rsum_cnt m o f : rsum (cnt m) (fun a => f (o + a)%nat) = rsum m (fun j => if P j then f (o + cnt j)%nat else 0).
Proof.
  induction m as [|m IH]; [reflexivity|]. cbn [rsum]. rewrite <- IH. unfold cnt at 1. cbn [nsum]. fold (cnt m). destruct (P m).
  - rewrite Nat.add_1_r. cbn [rsum]. reflexivity.
  - rewrite Nat.add_0_r. lra.
Qed.
End Cnt.

Section Con.
Variables (qp : oqp R) (M : nat) (Gm : nat -> rmat) (Gb : nat -> rvec).
Notation D := (q_dim qp).
Notation nu := (dnu D).
Notation nx := (dnx D).
Notation nb := (dnb D).
Notation ng := (dng D).
Notation ns := (dns D).
Notation uo := (uoff qp M).
Notation so := (soff qp M).
Notation nux := (nux qp).
Notation nh := (n_hard qp M).
Notation nsf := (n_soft qp M).
Notation nb2 := (count_nbb qp M).
Notation nbg := (count_nbg qp M).
Notation ng2 := (count_nbg qp M + ngg_of qp M)%nat.

(** bounds on inputs (any stage) and on the initial state stay bounds *)
Definition box (i j : nat) : bool := orb (Nat.eqb i 0) (is_input qp i j).
Definition nbox (i j : nat) : bool := negb (box i j).
Definition cb (i : nat) : nat := cnt (box i) (nb i).
Definition cg (i : nat) : nat := cnt (nbox i) (nb i).
(** position in the dense QP of the two-sided constraint j of stage i *)
Definition posl (i j : nat) : nat :=
  if (j <? nb i)%nat then if box i j then (roff M cb i + cnt (box i) j)%nat else (nb2 + (roff M cg i + cnt (nbox i) j))%nat
  else (nb2 + nbg + (roff M ng i + (j - nb i)))%nat.
(** position of the one-sided constraint c of stage i *)
Definition pos (i c : nat) : nat :=
  let n2 := (nb i + ng i)%nat in
  if (c <? n2)%nat then posl i c
  else if (c <? 2 * n2)%nat then (nb2 + ng2 + posl i (c - n2))%nat
  else if (c <? 2 * n2 + ns i)%nat then (2 * nb2 + 2 * ng2 + (so i + (c - 2 * n2)))%nat
  else (2 * nb2 + 2 * ng2 + nsf + (so i + (c - 2 * n2 - ns i)))%nat.

Lemma cb_0 : cb 0 = nb 0%nat.
Proof. unfold cb, cnt, box. induction (nb 0%nat) as [|m IH]; [reflexivity|]. cbn [nsum Nat.eqb orb] in *. lia. Qed.
Lemma cg_0 : cg 0 = 0%nat.
Proof. unfold cg, cnt, nbox, box. induction (nb 0%nat) as [|m IH]; [reflexivity|]. cbn [nsum Nat.eqb orb negb] in *. lia. Qed.
Lemma count_loop (P : nat -> bool) m s : loop m (fun jj s => if P jj then S s else s) s = (s + cnt P m)%nat.
Proof. induction m as [|m IH]; [unfold cnt; cbn; lia|]. rewrite loop_S, IH. unfold cnt. cbn [nsum]. destruct (P m); lia. Qed.
Lemma count_out (h : nat -> nat) (g : nat -> nat -> nat) m s : (forall k s, g k s = s + h k)%nat -> loop m g s = (s + nsum m h)%nat.
Proof. intros E. induction m as [|m IH]; [cbn; lia|]. rewrite loop_S, IH, E. cbn [nsum]. lia. Qed.
Lemma nsum_shift_roff n : nsum M (fun k => n (k + 1)%nat) = roff M n 0.
Proof. unfold roff. rewrite Nat.sub_0_r. pose proof (nsum_rev' M 0 (fun k => n (k + 1)%nat) ltac:(lia)) as E. cbn [nsum Nat.add] in E. rewrite Nat.sub_0_r in E. rewrite <- E. apply nsum_ext. intros k Hk. f_equal. lia. Qed.
Lemma nb2_eq : nb2 = (roff M cb 0 + nb 0)%nat.
Proof.
  unfold count_nbb. rewrite (count_out (fun k => cb (k + 1)%nat)).
  - rewrite nsum_shift_roff. lia.
  - intros k s. rewrite count_loop. f_equal. unfold cb, cnt. apply nsum_ext. intros j _. unfold box. replace (Nat.eqb (k + 1) 0) with false by (symmetry; apply Nat.eqb_neq; lia). reflexivity.
Qed.
Lemma nbg_eq : nbg = roff M cg 0.
Proof.
  unfold count_nbg. rewrite (count_out (fun k => cg (k + 1)%nat)).
  - rewrite nsum_shift_roff. lia.
  - intros k s. rewrite (loop_ext _ _ (fun jj s => if nbox (k + 1) jj then S s else s)).
    + rewrite count_loop. reflexivity.
    + intros jj s' _. unfold nbox, box. replace (Nat.eqb (k + 1) 0) with false by (symmetry; apply Nat.eqb_neq; lia). cbn [orb]. destruct (is_input _ _ _); reflexivity.
Qed.
Lemma ngg_eq : ngg_of qp M = (roff M ng 0 + ng 0)%nat.
Proof. unfold ngg_of. rewrite Nat.add_1_r, <- (roff_sum M ng 0) by lia. cbn [nsum]. lia. Qed.
Lemma ns2_eq : ns2_of qp M = nsf.
Proof. unfold ns2_of, n_soft. rewrite Nat.add_1_r, <- (roff_sum M ns 0) by lia. cbn [nsum]. unfold soff, roff. lia. Qed.

Definition valid (i j : nat) : Prop := (i <= M)%nat /\ (j < nb i + ng i)%nat.
Definition isbox (i j : nat) : bool := andb (Nat.ltb j (nb i)) (box i j).
Lemma posl_box i j : valid i j -> isbox i j = true -> (posl i j < nb2)%nat.
Proof.
  intros (Hi & Hj) Hb. unfold isbox in Hb. apply andb_true_iff in Hb. destruct Hb as (B1 & B2). unfold posl. rewrite B1, B2. apply Nat.ltb_lt in B1.
  rewrite nb2_eq. rewrite <- cb_0. apply roff_lt; [exact Hi|]. apply cnt_lt; assumption.
Qed.
Lemma posl_gen i j : valid i j -> isbox i j = false -> (nb2 <= posl i j < nb2 + ng2)%nat.
Proof.
  intros (Hi & Hj) Hb. unfold isbox in Hb. unfold posl. destruct (Nat.ltb_spec j (nb i)) as [H|H].
  - cbn [andb] in Hb. rewrite Hb. enough (roff M cg i + cnt (nbox i) j < nbg)%nat by lia. rewrite nbg_eq. pose proof (roff_lt M cg i (cnt (nbox i) j) Hi) as Q. rewrite cg_0, Nat.add_0_r in Q. apply Q. apply cnt_lt; [exact H|]. unfold nbox. rewrite Hb. reflexivity.
  - rewrite ngg_eq. pose proof (roff_lt M ng i (j - nb i) Hi ltac:(lia)). lia.
Qed.
Lemma posl_lt i j : valid i j -> (posl i j < nb2 + ng2)%nat.
Proof. intros V. destruct (isbox i j) eqn:E; [pose proof (posl_box i j V E); lia|pose proof (posl_gen i j V E); lia]. Qed.
Lemma posl_sb i j : valid i j -> (j < nb i)%nat -> box i j = false -> (posl i j < nb2 + nbg)%nat.
Proof.
  intros (Hi & Hj) H Hb. unfold posl. destruct (Nat.ltb_spec j (nb i)); [|lia]. rewrite Hb. enough (roff M cg i + cnt (nbox i) j < nbg)%nat by lia.
  rewrite nbg_eq. pose proof (roff_lt M cg i (cnt (nbox i) j) Hi) as Q. rewrite cg_0, Nat.add_0_r in Q. apply Q. apply cnt_lt; [exact H|]. unfold nbox. rewrite Hb. reflexivity.
Qed.
Lemma posl_inj i j i' j' : valid i j -> valid i' j' -> posl i j = posl i' j' -> i = i' /\ j = j'.
Proof.
  intros V V' E. destruct (isbox i j) eqn:B, (isbox i' j') eqn:B'.
  - unfold posl in E. unfold isbox in B, B'. apply andb_true_iff in B. apply andb_true_iff in B'. destruct B as (B1 & B2), B' as (B1' & B2'). rewrite B1, B2, B1', B2' in E.
    apply Nat.ltb_lt in B1. apply Nat.ltb_lt in B1'. destruct V as (Hi & _), V' as (Hi' & _).
    destruct (roff_inj M cb i i' _ _ Hi Hi' (cnt_lt _ _ _ B1 B2) (cnt_lt _ _ _ B1' B2') E) as (-> & E2). split; [reflexivity|]. eapply cnt_inj; eassumption.
  - pose proof (posl_box _ _ V B). pose proof (posl_gen _ _ V' B'). lia.
  - pose proof (posl_box _ _ V' B'). pose proof (posl_gen _ _ V B). lia.
  - destruct (Nat.lt_ge_cases j (nb i)) as [J|J], (Nat.lt_ge_cases j' (nb i')) as [J'|J'].
    + assert (Bo : box i j = false). { unfold isbox in B. apply Nat.ltb_lt in J. rewrite J in B. exact B. }
      assert (Bo' : box i' j' = false). { unfold isbox in B'. apply Nat.ltb_lt in J'. rewrite J' in B'. exact B'. }
      unfold posl in E. destruct (Nat.ltb_spec j (nb i)); [|lia]. destruct (Nat.ltb_spec j' (nb i')); [|lia]. rewrite Bo, Bo' in E.
      destruct V as (Hi & _), V' as (Hi' & _). assert (N1 : nbox i j = true) by (unfold nbox; rewrite Bo; reflexivity). assert (N2 : nbox i' j' = true) by (unfold nbox; rewrite Bo'; reflexivity).
      destruct (roff_inj M cg i i' _ _ Hi Hi' (cnt_lt _ _ _ J N1) (cnt_lt _ _ _ J' N2) ltac:(lia)) as (-> & E2). split; [reflexivity|]. eapply cnt_inj; eassumption.
    + assert (Bo : box i j = false). { unfold isbox in B. apply Nat.ltb_lt in J. rewrite J in B. exact B. }
      pose proof (posl_sb _ _ V J Bo). unfold posl at 2 in E. destruct (Nat.ltb_spec j' (nb i')); lia.
    + assert (Bo' : box i' j' = false). { unfold isbox in B'. apply Nat.ltb_lt in J'. rewrite J' in B'. exact B'. }
      pose proof (posl_sb _ _ V' J' Bo'). unfold posl at 1 in E. destruct (Nat.ltb_spec j (nb i)); lia.
    + unfold posl in E. destruct (Nat.ltb_spec j (nb i)); [lia|]. destruct (Nat.ltb_spec j' (nb i')); [lia|]. destruct V as (Hi & Hj), V' as (Hi' & Hj').
      destruct (roff_inj M ng i i' (j - nb i) (j' - nb i') Hi Hi' ltac:(lia) ltac:(lia) ltac:(lia)) as (-> & E2). split; [reflexivity|lia].
Qed.

(** ** sums over the constraints of the dense QP *)
Lemma rsum_posl f : rsum (nb2 + ng2) f = rsum (S M) (fun i => rsum (nb i + ng i) (fun j => f (posl i j))).
Proof.
  rewrite (rsum_ext (S M) _ (fun i => rsum (nb i) (fun j => if box i j then f (roff M cb i + cnt (box i) j)%nat else 0) + rsum (nb i) (fun j => if nbox i j then f (nb2 + (roff M cg i + cnt (nbox i) j))%nat else 0)
     + rsum (ng i) (fun l => f (nb2 + nbg + (roff M ng i + l))%nat))).
  2:{ intros i _. rewrite rsum_split. f_equal.
      - rewrite <- rsum_add. apply rsum_ext. intros j Hj. unfold posl, nbox. destruct (Nat.ltb_spec j (nb i)); [|lia]. destruct (box i j); cbn [negb]; lra.
      - apply rsum_ext. intros l Hl. unfold posl. destruct (Nat.ltb_spec (nb i + l) (nb i)); [lia|]. f_equal. lia. }
  rewrite !rsum_add. rewrite rsum_split. rewrite (rsum_split nbg (ngg_of qp M)).
  rewrite nb2_eq at 1. rewrite <- cb_0. rewrite (rsum_roff M cb f).
  rewrite (rsum_ext (S M) (fun i => rsum (cb i) _) (fun i => rsum (nb i) (fun j => if box i j then f (roff M cb i + cnt (box i) j)%nat else 0))) by (intros i _; apply rsum_cnt).
  rewrite nbg_eq at 1. replace (roff M cg 0) with (roff M cg 0 + cg 0)%nat at 1 by (rewrite cg_0; lia).
  rewrite (rsum_roff M cg (fun k => f (nb2 + k)%nat)).
  rewrite (rsum_ext (S M) (fun i => rsum (cg i) _) (fun i => rsum (nb i) (fun j => if nbox i j then f (nb2 + (roff M cg i + cnt (nbox i) j))%nat else 0))).
  2:{ intros i _. pose proof (rsum_cnt (nbox i) (nb i) (roff M cg i) (fun k => f (nb2 + k)%nat)) as E. unfold cg. exact E. }
  rewrite ngg_eq. rewrite (rsum_roff M ng (fun k => f (nb2 + (nbg + k))%nat)).
  rewrite (rsum_ext (S M) (fun i => rsum (ng i) (fun a => f (nb2 + (nbg + _))%nat)) (fun i => rsum (ng i) (fun l => f (nb2 + nbg + (roff M ng i + l))%nat))).
  2:{ intros i _. apply rsum_ext. intros a _. f_equal. lia. }
  lra.
Qed.
Lemma rsum_pos f : rsum (2 * nb2 + 2 * ng2 + 2 * nsf) f = rsum (S M) (fun i => rsum (nct D i) (fun c => f (pos i c))).
Proof.
  rewrite (rsum_ext (S M) _ (fun i => rsum (nb i + ng i) (fun j => f (posl i j)) + rsum (nb i + ng i) (fun j => f (nb2 + ng2 + posl i j)%nat)
      + (rsum (ns i) (fun l => f (2 * nb2 + 2 * ng2 + (so i + l))%nat) + rsum (ns i) (fun l => f (2 * nb2 + 2 * ng2 + nsf + (so i + l))%nat)))).
  2:{ intros i _. unfold nct. replace (2 * nb i + 2 * ng i + 2 * ns i)%nat with ((nb i + ng i) + (nb i + ng i) + (ns i + ns i))%nat by lia. rewrite (rsum_split (nb i + ng i + (nb i + ng i)) (ns i + ns i)), (rsum_split (nb i + ng i) (nb i + ng i)), (rsum_split (ns i) (ns i)). f_equal; [f_equal|f_equal].
      - apply rsum_ext. intros j Hj. unfold pos. destruct (Nat.ltb_spec j (nb i + ng i)); [reflexivity|lia].
      - apply rsum_ext. intros j Hj. unfold pos. destruct (Nat.ltb_spec (nb i + ng i + j) (nb i + ng i)); [lia|]. destruct (Nat.ltb_spec (nb i + ng i + j) (2 * (nb i + ng i))); [|lia]. repeat f_equal. lia.
      - apply rsum_ext. intros l Hl. unfold pos. destruct (Nat.ltb_spec (nb i + ng i + (nb i + ng i) + l) (nb i + ng i)); [lia|]. destruct (Nat.ltb_spec (nb i + ng i + (nb i + ng i) + l) (2 * (nb i + ng i))); [lia|].
        destruct (Nat.ltb_spec (nb i + ng i + (nb i + ng i) + l) (2 * (nb i + ng i) + ns i)); [|lia]. f_equal. lia.
      - apply rsum_ext. intros l Hl. unfold pos. destruct (Nat.ltb_spec (nb i + ng i + (nb i + ng i) + (ns i + l)) (nb i + ng i)); [lia|]. destruct (Nat.ltb_spec (nb i + ng i + (nb i + ng i) + (ns i + l)) (2 * (nb i + ng i))); [lia|].
        destruct (Nat.ltb_spec (nb i + ng i + (nb i + ng i) + (ns i + l)) (2 * (nb i + ng i) + ns i)); [lia|]. f_equal. lia. }
  rewrite !rsum_add. replace (2 * nb2 + 2 * ng2 + 2 * nsf)%nat with ((nb2 + ng2) + (nb2 + ng2) + (nsf + nsf))%nat by lia. rewrite (rsum_split (nb2 + ng2 + (nb2 + ng2)) (nsf + nsf)), (rsum_split (nb2 + ng2) (nb2 + ng2)), (rsum_split nsf nsf).
  rewrite (rsum_posl f), (rsum_posl (fun k => f (nb2 + ng2 + k)%nat)).
  change nsf with (roff M ns 0 + ns 0)%nat at 1 2. rewrite (rsum_roff M ns (fun k => f (nb2 + ng2 + (nb2 + ng2) + k)%nat)), (rsum_roff M ns (fun k => f (nb2 + ng2 + (nb2 + ng2) + (nsf + k))%nat)).
  f_equal; f_equal; apply rsum_ext; intros i _; apply rsum_ext; intros a _; change (roff M ns i) with (so i); f_equal; lia.
Qed.

(** ** what has to be written for the two-sided constraint j of stage i *)
Definition shift (i j : nat) : R :=
  if (i =? 0)%nat then 0 else if (j <? nb i)%nat then if box i j then 0 else Gb (i - 1)%nat (q_idxb qp i j - nu i)%nat
  else rsum (nx i) (fun l => q_DCt qp i (nu i + l)%nat (j - nb i)%nat * Gb (i - 1)%nat l).
(** first row and rows of the constraint-matrix column *)
Definition lows (i j : nat) : nat := if (j <? nb i)%nat then uo (i - 1) else uo i.
Definition colv (i j k : nat) : R :=
  if (j <? nb i)%nat then Gm (i - 1)%nat (k - uo (i - 1))%nat (q_idxb qp i j - nu i)%nat
  else if (i =? 0)%nat then q_DCt qp 0 (k - uo 0)%nat (j - nb 0)%nat
  else if (k <? uo (i - 1))%nat then q_DCt qp i (k - uo i)%nat (j - nb i)%nat
  else rsum (nx i) (fun l => Gm (i - 1)%nat (k - uo (i - 1))%nat l * q_DCt qp i (nu i + l)%nat (j - nb i)%nat).
Definition CF (s : dcs (F := R)) (i j : nat) : Prop :=
  let p := posl i j in let pu := (nb2 + ng2 + p)%nat in let ju := (nb i + ng i + j)%nat in
  (x_d s p = q_d qp i j - shift i j /\ x_d s pu = q_d qp i ju + shift i j) /\
  (x_mask s p = q_mask qp i j /\ x_mask s pu = q_mask qp i ju) /\ (x_m s p = q_m qp i j /\ x_m s pu = q_m qp i ju) /\
  ((0 <= q_idxs_rev qp i j)%Z -> x_idxs s p = (Z.of_nat (so i) + q_idxs_rev qp i j)%Z) /\
  (isbox i j = true -> x_idxb s p = (uo i + q_idxb qp i j)%nat) /\
  (isbox i j = false -> forall k, (lows i j <= k < nh)%nat -> x_Ct s k (p - nb2)%nat = colv i j k).
(** never touched: softening index of the constraints that are not softened, rows above the first one *)
Definition US (s : dcs (F := R)) : Prop := forall i j, valid i j ->
  ((q_idxs_rev qp i j < 0)%Z -> x_idxs s (posl i j) = (-1)%Z) /\ (isbox i j = false -> forall k, (k < lows i j)%nat -> (k < nh)%nat -> x_Ct s k (posl i j - nb2)%nat = 0).
(** s' differs from s only at the positions of the constraints in P *)
Definition same_at (s s' : dcs (F := R)) (i j : nat) : Prop :=
  let p := posl i j in let pu := (nb2 + ng2 + p)%nat in
  (x_d s' p = x_d s p /\ x_d s' pu = x_d s pu) /\ (x_mask s' p = x_mask s p /\ x_mask s' pu = x_mask s pu) /\ (x_m s' p = x_m s p /\ x_m s' pu = x_m s pu) /\
  x_idxs s' p = x_idxs s p /\ x_idxb s' p = x_idxb s p /\ (isbox i j = false -> forall k, x_Ct s' k (p - nb2)%nat = x_Ct s k (p - nb2)%nat).
Lemma CF_same s s' i j : same_at s s' i j -> CF s i j -> CF s' i j.
Proof.
  intros ((A1 & A2) & (A3 & A4) & (A5 & A6) & A7 & A8 & A9) ((C1 & C2) & (C3 & C4) & (C5 & C6) & C7 & C8 & C9). unfold CF.
  rewrite A1, A2, A3, A4, A5, A6, A7, A8. split; [split; assumption|]. split; [split; assumption|]. split; [split; assumption|]. split; [assumption|]. split; [assumption|]. intros B k Hk. rewrite A9 by assumption. apply C9; assumption.
Qed.
Lemma US_same s s' : US s -> (forall i j, valid i j -> same_at s s' i j \/
   (((q_idxs_rev qp i j < 0)%Z -> x_idxs s' (posl i j) = x_idxs s (posl i j)) /\ (isbox i j = false -> forall k, (k < lows i j)%nat -> (k < nh)%nat -> x_Ct s' k (posl i j - nb2)%nat = x_Ct s k (posl i j - nb2)%nat))) -> US s'.
Proof.
  intros H0 H i j V. destruct (H0 i j V) as (U1 & U2). destruct (H i j V) as [(_ & _ & _ & A7 & _ & A9)|(A7 & A9)].
  - rewrite A7. split; [exact U1|]. intros B k K1 K2. rewrite A9 by assumption. apply U2; assumption.
  - split; [intros N; rewrite A7 by exact N; apply U1; exact N|]. intros B k K1 K2. rewrite A9 by assumption. apply U2; assumption.
Qed.

Lemma uo_roff i : uo i = roff M nu i.
Proof. reflexivity. Qed.
Lemma uo_pred i : (1 <= i <= M)%nat -> uo (i - 1) = (uo i + nu i)%nat.
Proof. intros H. rewrite (uoff_S qp M (i - 1)) by lia. replace (S (i - 1)) with i by lia. reflexivity. Qed.
Lemma nh_pred i : (1 <= i <= M)%nat -> (nx 0 + nsum i nu + uo (i - 1) = nh)%nat.
Proof. intros H. rewrite n_hard_eq. unfold nu2_of. rewrite Nat.add_1_r, <- (uoff_sum qp M (i - 1)) by lia. replace (S (i - 1)) with i by lia. lia. Qed.

(** ** one bound *)
Definition ctr (s : dcs (F := R)) (i j : nat) : Prop := x_ib s = (roff M cb i + cnt (box i) j)%nat /\ x_ig s = (roff M cg i + cnt (nbox i) j)%nat.
Lemma dctd_bound_R i jj s : (1 <= i <= M)%nat -> (jj < nb i)%nat -> ctr s i jj ->
  let s' := dctd_bound qp M Gm Gb i (uo (i - 1)) (so i) (nx 0 + nsum i nu) jj s in
  CF s' i jj /\ (forall i' j', valid i' j' -> (i', j') <> (i, jj) -> same_at s s' i' j') /\ (US s -> US s') /\ ctr s' i (S jj).
Proof.
  intros Hi Hj (C1 & C2) s'. assert (V : valid i jj) by (split; lia).
  pose proof (uo_pred i Hi) as Eu. pose proof (nh_pred i Hi) as En.
  assert (NE : forall i' j', valid i' j' -> (i', j') <> (i, jj) -> posl i' j' <> posl i jj).
  { intros i' j' V' Hne E. destruct (posl_inj i' j' i jj V' V E) as (-> & ->). apply Hne. reflexivity. }
  assert (Hlt := posl_lt i jj V).
  unfold s', dctd_bound. clear s'. fold (is_input qp i jj).
  assert (Eb : box i jj = is_input qp i jj). { unfold box. replace (Nat.eqb i 0) with false by (symmetry; apply Nat.eqb_neq; lia). reflexivity. }
  assert (Ej : (jj <? nb i)%nat = true) by (apply Nat.ltb_lt; exact Hj).
  assert (Ei : (i =? 0)%nat = false) by (apply Nat.eqb_neq; lia).
  destruct (is_input qp i jj) eqn:Hin.
  - assert (Ep : x_ib s = posl i jj). { unfold posl. rewrite Ej, Eb. exact C1. }
    assert (Bx : isbox i jj = true) by (unfold isbox; rewrite Ej, Eb; reflexivity).
    assert (Esh : shift i jj = 0) by (unfold shift; rewrite Ei, Ej, Eb; reflexivity).
    cbn [put_con put_idxs x_d x_mask x_m x_idxb x_idxs x_Ct x_ib x_ig]. rewrite Ep. set (p := posl i jj) in *. set (s' := mkdcs _ _ _ _ _ _ _ _).
    assert (F : x_d s' = upd (upd (x_d s) p (q_d qp i jj)) (nb2 + ng2 + p) (q_d qp i (nb i + ng i + jj)%nat) /\ x_mask s' = upd (upd (x_mask s) p (q_mask qp i jj)) (nb2 + ng2 + p) (q_mask qp i (nb i + ng i + jj)%nat) /\
       x_m s' = upd (upd (x_m s) p (q_m qp i jj)) (nb2 + ng2 + p) (q_m qp i (nb i + ng i + jj)%nat) /\ x_idxb s' = upd (x_idxb s) p (uo (i - 1) - nu i + q_idxb qp i jj)%nat /\
       x_idxs s' = (if Z.leb 0 (q_idxs_rev qp i jj) then upd (x_idxs s) p (Z.of_nat (so i) + q_idxs_rev qp i jj)%Z else x_idxs s) /\ x_Ct s' = x_Ct s /\ x_ib s' = S p /\ x_ig s' = x_ig s).
    { unfold s'. unfold put_idxs. cbn [x_d x_mask x_m x_idxb x_idxs x_Ct x_ib x_ig]. destruct (Z.leb 0 (q_idxs_rev qp i jj)); cbn [x_d x_mask x_m x_idxb x_idxs x_Ct x_ib x_ig]; repeat split; reflexivity. }
    clearbody s'. destruct F as (F1 & F2 & F3 & F4 & F5 & F6 & F7 & F8).
    assert (FR : forall i' j', valid i' j' -> (i', j') <> (i, jj) -> same_at s s' i' j').
    { intros i' j' V' Hne. specialize (NE i' j' V' Hne). pose proof (posl_lt i' j' V'). unfold same_at. rewrite F1, F2, F3, F4, F5, F6.
      rewrite !upd_other by lia. repeat split; try reflexivity. destruct (Z.leb 0 _); [rewrite upd_other by lia|]; reflexivity. }
    split; [|split; [exact FR|split]].
    + unfold CF. fold p. rewrite F1, F2, F3, F4, F5, Esh. rewrite !upd_same. rewrite !(upd_other _ (nb2 + ng2 + p) _ p) by lia. rewrite !upd_same.
      split; [split; lra|]. split; [split; reflexivity|]. split; [split; reflexivity|]. split; [|split; [|rewrite Bx; discriminate]].
      * intros Hz. destruct (Z.leb_spec 0 (q_idxs_rev qp i jj)); [rewrite upd_same; reflexivity|lia].
      * intros _. lia.
    + intros HU. apply (US_same s s' HU). intros i' j' V'. destruct (Nat.eq_dec i' i) as [->|Ni]; [destruct (Nat.eq_dec j' jj) as [->|Nj]|]; [right|left; apply FR; [assumption|congruence]|left; apply FR; [assumption|congruence]].
      split; [|rewrite Bx; discriminate]. intros Hz. rewrite F5. destruct (Z.leb_spec 0 (q_idxs_rev qp i jj)); [lia|reflexivity].
    + unfold ctr. rewrite F7, F8. unfold cnt in *. cbn [nsum]. unfold nbox at 2. rewrite Eb. cbn [negb]. split; lia.
  - assert (Ep : (nb2 + x_ig s)%nat = posl i jj). { unfold posl. rewrite Ej, Eb. rewrite C2. reflexivity. }
    assert (Bx : isbox i jj = false) by (unfold isbox; rewrite Ej, Eb; reflexivity).
    assert (Esh : shift i jj = Gb (i - 1)%nat (q_idxb qp i jj - nu i)%nat) by (unfold shift; rewrite Ei, Ej, Eb; reflexivity).
    cbn [put_con put_idxs x_d x_mask x_m x_idxb x_idxs x_Ct x_ib x_ig]. rewrite <- Esh. replace (2 * nb2 + ng2 + x_ig s)%nat with (nb2 + ng2 + posl i jj)%nat by lia. rewrite Ep. set (p := posl i jj) in *. set (s' := mkdcs _ _ _ _ _ _ _ _).
    assert (F : x_d s' = upd (upd (x_d s) p (q_d qp i jj - shift i jj)) (nb2 + ng2 + p) (q_d qp i (nb i + ng i + jj)%nat + shift i jj) /\ x_mask s' = upd (upd (x_mask s) p (q_mask qp i jj)) (nb2 + ng2 + p) (q_mask qp i (nb i + ng i + jj)%nat) /\
       x_m s' = upd (upd (x_m s) p (q_m qp i jj)) (nb2 + ng2 + p) (q_m qp i (nb i + ng i + jj)%nat) /\ x_idxb s' = x_idxb s /\
       x_idxs s' = (if Z.leb 0 (q_idxs_rev qp i jj) then upd (x_idxs s) p (Z.of_nat (so i) + q_idxs_rev qp i jj)%Z else x_idxs s) /\
       x_Ct s' = GECP (nx 0 + nsum i nu) 1 (Gm (i - 1)%nat) 0 (q_idxb qp i jj - nu i) (x_Ct s) (uo (i - 1)) (x_ig s) /\ x_ib s' = x_ib s /\ x_ig s' = S (x_ig s)).
    { unfold s'. unfold put_idxs. cbn [x_d x_mask x_m x_idxb x_idxs x_Ct x_ib x_ig]. destruct (Z.leb 0 (q_idxs_rev qp i jj)); cbn [x_d x_mask x_m x_idxb x_idxs x_Ct x_ib x_ig]; repeat split; reflexivity. }
    clearbody s'. destruct F as (F1 & F2 & F3 & F4 & F5 & F6 & F7 & F8).
    assert (FR : forall i' j', valid i' j' -> (i', j') <> (i, jj) -> same_at s s' i' j').
    { intros i' j' V' Hne. specialize (NE i' j' V' Hne). pose proof (posl_lt i' j' V'). unfold same_at. rewrite F1, F2, F3, F4, F5, F6.
      rewrite !upd_other by lia. repeat split; try reflexivity; [destruct (Z.leb 0 _); [rewrite upd_other by lia|]; reflexivity|].
      intros B k. unfold GECP. apply mblk_o. pose proof (posl_gen i' j' V' B). lia. }
    split; [|split; [exact FR|split]].
    + unfold CF. fold p. rewrite F1, F2, F3, F5, F6. rewrite !upd_same. rewrite !(upd_other _ (nb2 + ng2 + p) _ p) by lia. rewrite !upd_same.
      split; [split; lra|]. split; [split; reflexivity|]. split; [split; reflexivity|]. split; [|split; [rewrite Bx; discriminate|]].
      * intros Hz. destruct (Z.leb_spec 0 (q_idxs_rev qp i jj)); [rewrite upd_same; reflexivity|lia].
      * intros _ k Hk. unfold lows in Hk. rewrite Ej in Hk. unfold GECP. rewrite mblk_i by lia. unfold colv. rewrite Ej. cbn [Nat.add]. f_equal. lia.
    + intros HU. apply (US_same s s' HU). intros i' j' V'. destruct (Nat.eq_dec i' i) as [->|Ni]; [destruct (Nat.eq_dec j' jj) as [->|Nj]|]; [right|left; apply FR; [assumption|congruence]|left; apply FR; [assumption|congruence]].
      split.
      * intros Hz. rewrite F5. destruct (Z.leb_spec 0 (q_idxs_rev qp i jj)); [lia|reflexivity].
      * intros _ k Hk _. unfold lows in Hk. rewrite Ej in Hk. rewrite F6. unfold GECP. apply mblk_o. lia.
    + unfold ctr. rewrite F7, F8. unfold cnt in *. cbn [nsum]. unfold nbox at 2. rewrite Eb. cbn [negb]. split; lia.
Qed.
End Con.
