(** CondCon3.v -- COND_DCTD: the soft parts, the whole function, and the meaning of the constraints of the dense QP. *)
From Coq Require Import ZArith Bool Arith Lia Reals Lra.
From Verif Require Import Base ArithF RSum Blas Blas2 OcpModel ResSpec ResProofs CholProofs KktModel KktProofs KktProofs2 DenModel DenSpec CondModel CondSpec CondProofs CondCost CondCost2 CondCon CondCon2.
Local Open Scope R_scope.

Section Con3.
Variables (qp : oqp R) (M : nat).
Notation D := (q_dim qp).
Notation nu := (dnu D).
Notation nx := (dnx D).
Notation nb := (dnb D).
Notation ng := (dng D).
Notation ns := (dns D).
Notation uo := (uoff qp M).
Notation so := (soff qp M).
Notation nux := (nux qp).
Notation nh := (n_hard qp M).
Notation nsf := (n_soft qp M).
Notation nb2 := (count_nbb qp M).
Notation nbg := (count_nbg qp M).
Notation ng2 := (count_nbg qp M + ngg_of qp M)%nat.
Notation US := (US qp M).
Notation valid := (valid qp M).
Notation same_at := (same_at qp M).
Notation posl := (posl qp M).
Notation pos := (pos qp M).
Notation box := (box qp).
Notation nbox := (nbox qp).
Notation lows := (lows qp M).

(** ** soft parts *)
Lemma soft_copy_R i is o2 os src dst : (is + ns i <= nsf)%nat -> let v := soft_copy qp M i is o2 os src dst in
  (forall l, (l < ns i)%nat -> v (o2 + is + l)%nat = src (os + l)%nat /\ v (o2 + nsf + is + l)%nat = src (os + ns i + l)%nat) /\
  (forall p, (p < o2 + is \/ o2 + is + ns i <= p)%nat -> (p < o2 + nsf + is \/ o2 + nsf + is + ns i <= p)%nat -> v p = dst p).
Proof.
  intros H. unfold soft_copy. rewrite ns2_eq. cbv zeta.
  enough (X : forall n, (n <= ns i)%nat -> let v := loop n (fun jj v => upd (upd v (o2 + is + jj)%nat (src (os + jj)%nat)) (o2 + nsf + is + jj)%nat (src (os + ns i + jj)%nat)) dst in
    (forall l, (l < n)%nat -> v (o2 + is + l)%nat = src (os + l)%nat /\ v (o2 + nsf + is + l)%nat = src (os + ns i + l)%nat) /\
    (forall p, (p < o2 + is \/ o2 + is + n <= p)%nat -> (p < o2 + nsf + is \/ o2 + nsf + is + n <= p)%nat -> v p = dst p)) by (apply (X (ns i)); lia).
  induction n as [|n IH]; intros Hn; cbv zeta.
  - cbn [loop]. split; [intros; lia|reflexivity].
  - rewrite loop_S. specialize (IH ltac:(lia)). cbv zeta in IH. set (v0 := loop n _ dst) in *. clearbody v0. destruct IH as (I1 & I2). split.
    + intros l Hl. destruct (Nat.eq_dec l n) as [->|].
      * rewrite upd_same. rewrite (upd_other _ (o2 + nsf + is + n)%nat) by lia. rewrite upd_same. split; reflexivity.
      * rewrite !upd_other by lia. apply I1. lia.
    + intros p H1 H2. rewrite !upd_other by lia. apply I2; lia.
Qed.
(** the stages M, M-1, ..., M-k+1 are done *)
Definition SC (k : nat) (o2 : nat) (os : nat -> nat) (src : nat -> rvec) (dst v : rvec) : Prop :=
  (forall i l, (M - k < i <= M)%nat -> (l < ns i)%nat -> v (o2 + so i + l)%nat = src i (os i + l)%nat /\ v (o2 + nsf + so i + l)%nat = src i (os i + ns i + l)%nat) /\
  (forall p, (p < o2)%nat -> v p = dst p).
Definition SCall o2 os src (dst v : rvec) : Prop :=
  (forall i l, (i <= M)%nat -> (l < ns i)%nat -> v (o2 + so i + l)%nat = src i (os i + l)%nat /\ v (o2 + nsf + so i + l)%nat = src i (os i + ns i + l)%nat) /\
  (forall p, (p < o2)%nat -> v p = dst p).
Lemma so_fit i : (i <= M)%nat -> (so i + ns i <= nsf)%nat.
Proof. intros Hi. unfold n_soft. destruct (Nat.eq_dec i 0) as [->|]; [lia|]. pose proof (roff_mono M ns 0 i ltac:(lia) Hi) as Q. change (roff M ns i) with (so i) in Q. change (roff M ns 0) with (so 0) in Q. lia. Qed.
Lemma so_mono i j : (i < j)%nat -> (j <= M)%nat -> (so j + ns j <= so i)%nat.
Proof. intros A B. exact (roff_mono M ns i j A B). Qed.
Lemma soft_step k o2 os src dst v : (k < M)%nat -> SC k o2 os src dst v -> SC (S k) o2 os src dst (soft_copy qp M (M - k) (so (M - k)) o2 (os (M - k)%nat) (src (M - k)%nat) v).
Proof.
  intros Hk (I1 & I2). pose proof (so_fit (M - k) ltac:(lia)) as Hf. pose proof (soft_copy_R (M - k) (so (M - k)) o2 (os (M - k)%nat) (src (M - k)%nat) v Hf) as C. cbv zeta in C. set (v' := soft_copy _ _ _ _ _ _ _ _) in *. clearbody v'. destruct C as (C1 & C2). split.
  - intros i l Hi Hl. destruct (Nat.eq_dec i (M - k)) as [->|Hne]; [apply C1; exact Hl|]. pose proof (so_mono (M - k) i ltac:(lia) ltac:(lia)). rewrite !C2 by lia. apply I1; [lia|exact Hl].
  - intros p Hp. rewrite C2 by lia. apply I2. exact Hp.
Qed.
Lemma soft_last o2 os src dst v : SC M o2 os src dst v -> SCall o2 os src dst (soft_copy qp M 0 (so 0) o2 (os 0%nat) (src 0%nat) v).
Proof.
  intros (I1 & I2). pose proof (so_fit 0 ltac:(lia)) as Hf. pose proof (soft_copy_R 0 (so 0) o2 (os 0%nat) (src 0%nat) v Hf) as C. cbv zeta in C. set (v' := soft_copy _ _ _ _ _ _ _ _) in *. clearbody v'. destruct C as (C1 & C2). split.
  - intros i l Hi Hl. destruct (Nat.eq_dec i 0) as [->|Hne]; [apply C1; exact Hl|]. pose proof (so_mono 0 i ltac:(lia) ltac:(lia)). rewrite !C2 by lia. apply I1; [lia|exact Hl].
  - intros p Hp. rewrite C2 by lia. apply I2. exact Hp.
Qed.
Notation oc2 := (2 * nb2 + 2 * ng2)%nat.
Notation oc := (fun i => 2 * nb i + 2 * ng i)%nat.
Lemma dctd_soft_R s Z0 g0 : let '(s', Z2, gz) := dctd_soft qp M (s, Z0, g0) in
  SCall oc2 oc (q_d qp) (x_d s) (x_d s') /\ SCall oc2 oc (q_mask qp) (x_mask s) (x_mask s') /\ SCall oc2 oc (q_m qp) (x_m s) (x_m s') /\
  SCall 0 (fun _ => 0%nat) (q_Z qp) Z0 Z2 /\ SCall nh nux (q_rqz qp) g0 gz /\
  x_idxb s' = x_idxb s /\ x_idxs s' = x_idxs s /\ x_Ct s' = x_Ct s.
Proof.
  unfold dctd_soft. rewrite <- n_hard_eq. rewrite Nat.add_1_r, loop_S.
  match goal with |- context [loop M ?f ?a] => pose proof (loop_ind (fun k (x : dcs * rvec * rvec * nat) => let '(s', Z2, gz, is) := x in
    SC k oc2 oc (q_d qp) (x_d s) (x_d s') /\ SC k oc2 oc (q_mask qp) (x_mask s) (x_mask s') /\ SC k oc2 oc (q_m qp) (x_m s) (x_m s') /\
    SC k 0 (fun _ => 0%nat) (q_Z qp) Z0 Z2 /\ SC k nh nux (q_rqz qp) g0 gz /\ x_idxb s' = x_idxb s /\ x_idxs s' = x_idxs s /\ x_Ct s' = x_Ct s /\ is = so (M - k)) M f a) as L; destruct (loop M f a) as [[[s1 Z1] g1] is1] end.
  cbv beta in L. destruct L as (L1 & L2 & L3 & L4 & L5 & L6 & L7 & L8 & L9).
  - rewrite Nat.sub_0_r. unfold SC. repeat (split; [split; [intros; lia|reflexivity]|]). repeat (split; [reflexivity|]). symmetry. apply roff_M.
  - intros k [[[s2 Z2] g2] is2] Hk (I1 & I2 & I3 & I4 & I5 & I6 & I7 & I8 & I9). cbv zeta. subst is2. cbn [x_d x_mask x_m x_idxb x_idxs x_Ct].
    split; [apply (soft_step k oc2 oc); assumption|]. split; [apply (soft_step k oc2 oc); assumption|]. split; [apply (soft_step k oc2 oc); assumption|].
    split; [apply (soft_step k 0%nat (fun _ => 0%nat)); assumption|]. split; [apply (soft_step k nh nux); assumption|]. repeat (split; [assumption|]).
    change (so (M - S k)) with (roff M ns (M - S k)). rewrite (roff_S M ns (M - S k)) by lia. replace (S (M - S k)) with (M - k)%nat by lia. reflexivity.
  - cbv zeta. rewrite Nat.sub_diag in *. subst is1. cbn [fst x_d x_mask x_m x_idxb x_idxs x_Ct].
    split; [apply (soft_last oc2 oc); assumption|]. split; [apply (soft_last oc2 oc); assumption|]. split; [apply (soft_last oc2 oc); assumption|].
    split; [apply (soft_last 0%nat (fun _ => 0%nat)); assumption|]. split; [apply (soft_last nh nux); assumption|]. repeat split; assumption.
Qed.

(** ** the constraints of the dense QP *)
Definition CQ (Gm : nat -> rmat) (Gb : nat -> rvec) (q : dqp R) : Prop :=
  (forall i j, valid i j ->
    let p := posl i j in let pu := (nb2 + ng2 + p)%nat in let ju := (nb i + ng i + j)%nat in
    (d_d q p = q_d qp i j - shift qp Gb i j /\ d_d q pu = q_d qp i ju + shift qp Gb i j) /\
    (d_mask q p = q_mask qp i j /\ d_mask q pu = q_mask qp i ju) /\ (d_m q p = q_m qp i j /\ d_m q pu = q_m qp i ju) /\
    d_idxs_rev q p = (if Z.ltb (q_idxs_rev qp i j) 0 then -1 else Z.of_nat (so i) + q_idxs_rev qp i j)%Z /\
    (isbox qp i j = true -> d_idxb q p = (uo i + q_idxb qp i j)%nat) /\
    (isbox qp i j = false -> forall k, (k < nh)%nat -> d_Ct q k (p - nb2)%nat = if (k <? lows i j)%nat then 0 else colv qp M Gm i j k)) /\
  SCall oc2 oc (q_d qp) (d_d q) (d_d q) /\ SCall oc2 oc (q_mask qp) (d_mask q) (d_mask q) /\ SCall oc2 oc (q_m qp) (d_m q) (d_m q) /\
  SCall 0 (fun _ => 0%nat) (q_Z qp) (d_Z q) (d_Z q).
Lemma dctd_main_R Gm Gb q0 tbg : (forall p, (p < nb2 + ng2)%nat -> d_idxs_rev q0 p = (-1)%Z) ->
  let q := fst (dctd_main qp M Gm Gb q0 tbg) in
  CQ Gm Gb q /\ SCall nh nux (q_rqz qp) (d_gz q0) (d_gz q) /\ d_H q = d_H q0 /\ (d_nv q = d_nv q0 /\ d_ne q = d_ne q0 /\ d_nb q = d_nb q0 /\ d_ng q = d_ng q0 /\ d_ns q = d_ns q0).
Proof.
  intros H0. unfold dctd_main. rewrite <- n_hard_eq. set (s0 := mkdcs _ _ _ _ _ _ _ _).
  assert (U0 : US s0).
  { intros i j V. cbn [s0 x_idxs x_Ct]. split.
    - intros _. apply H0. apply posl_lt. exact V.
    - intros B k Hk Hk2. unfold GESE. pose proof (posl_gen qp M i j V B). rewrite mblk_i by lia. rsimp. apply R_lit01. }
  assert (C0 : ctr qp M s0 M 0).
  { unfold ctr. cbn [s0 x_ib x_ig]. rewrite !roff_M. split; reflexivity. }
  pose proof (dctd_bounds_R qp M Gm Gb s0 C0) as B1. set (s1 := dctd_bounds qp M Gm Gb s0) in *.
  pose proof (dctd_gens_R qp M Gm Gb s1 tbg) as B2. destruct (dctd_gens qp M Gm Gb (s1, tbg)) as [s2 tb2]. cbn [fst] in B2.
  pose proof (dctd_soft_R s2 (d_Z q0) (d_gz q0)) as B3. destruct (dctd_soft qp M (s2, d_Z q0, d_gz q0)) as [[s3 Z2] gz]. destruct B3 as (S1 & S2 & S3 & S4 & S5 & S6 & S7 & S8).
  assert (X : (forall i j, valid i j -> CF qp M Gm Gb s2 i j) /\ US s2).
  { destruct B1 as (P1 & P2 & P3). destruct B2 as (Q1 & Q2 & Q3). split; [|auto]. intros i j V.
    destruct (Nat.lt_ge_cases j (nb i)) as [Hj|Hj]; [|apply Q1; assumption].
    eapply CF_same; [apply Q2; [exact V|unfold PGall; lia]|]. apply P1; assumption. }
  destruct X as (X1 & X2). clear B1 B2. clearbody s1 s0. cbn [fst d_H d_nv d_ne d_nb d_ng d_ns d_gz].
  split; [|split; [exact S5|]]. 2:{ repeat split; reflexivity. }
  split; [|].
  - intros i j V. cbv zeta. cbn [d_d d_mask d_m d_idxs_rev d_idxb d_Ct]. pose proof (posl_lt qp M i j V) as Pl.
    destruct (X1 i j V) as ((A1 & A2) & (A3 & A4) & (A5 & A6) & A7 & A8 & A9). destruct (X2 i j V) as (U1 & U2).
    rewrite (proj2 S1), (proj2 S1), (proj2 S2), (proj2 S2), (proj2 S3), (proj2 S3), S6, S7, S8 by lia.
    split; [split; assumption|]. split; [split; assumption|]. split; [split; assumption|]. split; [|split; [exact A8|]].
    + destruct (Z.ltb_spec (q_idxs_rev qp i j) 0); [apply U1; assumption|apply A7; assumption].
    + intros B k Hk. destruct (Nat.ltb_spec k (lows i j)); [apply U2; assumption|apply A9; [exact B|lia]].
  - cbn [d_d d_mask d_m d_Z]. destruct S1 as (S1 & _), S2 as (S2 & _), S3 as (S3 & _), S4 as (S4 & _). repeat split; try reflexivity; try (apply S1; assumption); try (apply S2; assumption); try (apply S3; assumption); apply S4; assumption.
Qed.
End Con3.

(** the single-stage case *)
Lemma posl_0 qp j : (j < dnb (q_dim qp) 0 + dng (q_dim qp) 0)%nat -> posl qp 0 0 j = j.
Proof.
  intros Hj. unfold posl. destruct (Nat.ltb_spec j (dnb (q_dim qp) 0)).
  - change (box qp 0 j) with true. cbn iota. rewrite roff_M. cbn [Nat.add]. unfold cnt. clear. induction j as [|j IH]; [reflexivity|]. cbn [nsum]. rewrite IH. change (box qp 0 j) with true. cbn iota. lia.
  - rewrite roff_M. rewrite nb2_eq, nbg_eq, !roff_M. lia.
Qed.
Lemma loop_upd0 {A} n (f : nat -> A) a k : (k < n)%nat -> loop n (fun ii x => upd x ii (f ii)) a k = f k.
Proof. intros H. pose proof (loop_upd_vset a 0 n f k) as E. cbn [Nat.add] in E. rewrite E. rewrite vset_in' by lia. f_equal. lia. Qed.
Lemma dctd_one_R qp Gm Gb q0 : stage_wf (nux qp 0) (dnb (q_dim qp) 0) (dng (q_dim qp) 0) (dns (q_dim qp) 0) (q_idxb qp 0%nat) (q_idxs_rev qp 0%nat) ->
  let q := dctd_one qp q0 in
  CQ qp 0 Gm Gb q /\ SCall qp 0 (n_hard qp 0) (nux qp) (q_rqz qp) (d_gz q0) (d_gz q) /\ d_H q = d_H q0 /\ (d_nv q = d_nv q0 /\ d_ne q = d_ne q0 /\ d_nb q = d_nb q0 /\ d_ng q = d_ng q0 /\ d_ns q = d_ns q0).
Proof.
  intros (Hw1 & Hw2). cbv zeta. set (q := dctd_one qp q0).
  assert (Eb : count_nbb qp 0 = dnb (q_dim qp) 0) by (rewrite nb2_eq, roff_M; reflexivity).
  assert (Eg : (count_nbg qp 0 + ngg_of qp 0)%nat = dng (q_dim qp) 0) by (rewrite nbg_eq, ngg_eq, !roff_M; reflexivity).
  assert (Es : n_soft qp 0 = dns (q_dim qp) 0) by (unfold n_soft, soff; reflexivity).
  assert (En : n_hard qp 0 = nux qp 0) by (unfold n_hard, uoff; reflexivity).
  split; [|split; [|repeat split; reflexivity]].
  - split.
    + intros i j (Hi & Hj). replace i with 0%nat in * by lia. cbv zeta. rewrite posl_0 by exact Hj. rewrite Eb, Eg.
      unfold q, dctd_one. cbn [d_d d_mask d_m d_idxs_rev d_idxb d_Ct]. unfold VECCP. rewrite !vset_in' by lia. rewrite !Nat.sub_0_r. cbn [Nat.add].
      change (shift qp Gb 0 j) with 0. split; [split; lra|]. split; [split; reflexivity|]. split; [split; reflexivity|]. split; [|split].
      * rewrite loop_upd0 by lia. destruct (Hw2 j Hj) as [E|E]; destruct (Z.ltb_spec (q_idxs_rev qp 0%nat j) 0); try lia. change (soff qp 0 0) with 0%nat. lia.
      * intros B. unfold isbox in B. apply andb_true_iff in B. destruct B as (B & _). apply Nat.ltb_lt in B. rewrite loop_upd0 by lia. reflexivity.
      * intros B k Hk. unfold isbox in B. destruct (Nat.ltb_spec j (dnb (q_dim qp) 0)) as [L|L]; [discriminate|]. unfold lows, colv. destruct (Nat.ltb_spec j (dnb (q_dim qp) 0)); [lia|].
        change (uoff qp 0 0) with 0%nat. cbn [Nat.ltb Nat.leb Nat.eqb]. unfold GECP. rewrite En in Hk. unfold nux in Hk. rewrite mblk_i by lia. cbn [Nat.add]. f_equal; lia.
    + unfold SCall. change (soff qp 0) with (fun _ : nat => 0%nat). rewrite Eb, Eg, Es. unfold q, dctd_one. cbn [d_d d_mask d_m d_Z]. unfold VECCP.
      split; [|split; [|split]]; (split; [|reflexivity]); intros i l Hi Hl; replace i with 0%nat in * by lia; rewrite !vset_in' by lia; split; f_equal; lia.
  - unfold SCall. rewrite Es, En. unfold q, dctd_one. cbn [d_gz]. unfold VECCP. fold (nux qp 0). split.
    + intros i l Hi Hl. replace i with 0%nat in * by lia. change (soff qp 0 0) with 0%nat. rewrite !vset_in' by lia. split; f_equal; lia.
    + intros p Hp. rewrite vset_out by lia. reflexivity.
Qed.
