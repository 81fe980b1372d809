(** RedFull.v -- the reduction over all stages; the reduced QP is the restriction of the original one. *)
From Coq Require Import ZArith Bool Arith List Lia Reals Lra.
From Verif Require Import Base ArithF RSum Blas OcpModel ResSpec ResProofs ResProofs2 KktProofs RedModel RedSpec RedSem RedProofs.
Local Open Scope R_scope.

(** *** frames: a stage writes its own entries only; each of the two parts its own fields *)
Lemma lhs_frame al (qp : oqp R) e ii r w : let r' := fst (red_lhs_stage al qp e ii (r, w)) in
  q_dim r' = q_dim r /\ (q_b r' = q_b r /\ q_rqz r' = q_rqz r /\ q_d r' = q_d r /\ q_mask r' = q_mask r /\ q_m r' = q_m r) /\
  (forall i, i <> ii -> q_BAbt r' i = q_BAbt r i /\ q_RSQ r' i = q_RSQ r i /\ q_DCt r' i = q_DCt r i /\ q_Z r' i = q_Z r i /\ q_idxb r' i = q_idxb r i /\ q_idxs_rev r' i = q_idxs_rev r i).
Proof.
  cbv zeta. unfold red_lhs_stage. destruct (0 <? ne_thr e ii)%nat; [|destruct al]; cbn [fst q_dim q_b q_rqz q_d q_mask q_m q_BAbt q_RSQ q_DCt q_Z q_idxb q_idxs_rev]; (split; [reflexivity|]; split; [repeat split|]; intros i Hi; destruct (ii <? dN (q_dim qp))%nat; rewrite !upd_other by exact Hi; repeat split; reflexivity).
Qed.
Lemma rhs_frame (qp : oqp R) e ii r w : let r' := fst (red_rhs_stage qp e ii (r, w)) in
  q_dim r' = q_dim r /\ (q_BAbt r' = q_BAbt r /\ q_RSQ r' = q_RSQ r /\ q_DCt r' = q_DCt r /\ q_Z r' = q_Z r /\ q_idxb r' = q_idxb r /\ q_idxs_rev r' = q_idxs_rev r) /\
  (forall i, i <> ii -> q_b r' i = q_b r i /\ q_rqz r' i = q_rqz r i /\ q_d r' i = q_d r i /\ q_mask r' i = q_mask r i /\ q_m r' i = q_m r i).
Proof.
  cbv zeta. unfold red_rhs_stage. destruct (0 <? ne_thr e ii)%nat; cbn [fst q_dim q_b q_rqz q_d q_mask q_m q_BAbt q_RSQ q_DCt q_Z q_idxb q_idxs_rev]; (split; [reflexivity|]; split; [repeat split|]; intros i Hi; destruct (ii <? dN (q_dim qp))%nat; rewrite !upd_other by exact Hi; repeat split; reflexivity).
Qed.
Lemma lhs_post_ext qp e i r r' : q_BAbt r' i = q_BAbt r i -> q_RSQ r' i = q_RSQ r i -> q_DCt r' i = q_DCt r i -> q_Z r' i = q_Z r i -> q_idxb r' i = q_idxb r i -> q_idxs_rev r' i = q_idxs_rev r i -> lhs_post qp e i r -> lhs_post qp e i r'.
Proof. intros E1 E2 E3 E4 E5 E6. unfold lhs_post. rewrite E1, E2, E3, E4, E5, E6. exact (fun H => H). Qed.
Lemma rhs_post_ext qp e i r r' : q_b r' i = q_b r i -> q_rqz r' i = q_rqz r i -> q_d r' i = q_d r i -> q_mask r' i = q_mask r i -> q_m r' i = q_m r i -> rhs_post qp e i r -> rhs_post qp e i r'.
Proof. intros E1 E2 E3 E4 E5. unfold rhs_post. rewrite E1, E2, E3, E4, E5. exact (fun H => H). Qed.

Section Full.
Variables (qp : oqp R) (e : eqd).
Let D := q_dim qp.
Hypothesis WF : qp_wf qp.
Hypothesis EW : eq_wf qp e.
Definition reduced_ok (r : oqp R) : Prop := q_dim r = dim_reduce D e /\ forall i, (i <= dN D)%nat -> lhs_post qp e i r /\ rhs_post qp e i r.

Lemma reduce_eq_dof_R al r0 w0 : q_dim r0 = dim_reduce D e -> reduced_ok (fst (reduce_eq_dof al qp e (r0, w0))).
Proof.
  intros E0. unfold reduce_eq_dof. fold D.
  assert (X : forall n, (n <= dN D + 1)%nat -> let r := fst (loop n (fun ii s => red_rhs_stage qp e ii (red_lhs_stage al qp e ii s)) (r0, w0)) in
    q_dim r = dim_reduce D e /\ forall i, (i < n)%nat -> lhs_post qp e i r /\ rhs_post qp e i r).
  { induction n as [|n IH]; intros Hn; [cbn [loop fst]; split; [exact E0|lia]|]. cbv zeta. rewrite loop_S. specialize (IH ltac:(lia)). cbv zeta in IH. destruct (loop n _ (r0, w0)) as [r w]. cbn [fst] in IH. destruct IH as (ED & IH).
    pose proof (lhs_frame al qp e n r w) as F1. pose proof (lhs_stage_R qp e n ltac:(fold D; lia) EW al r w ED) as P1. cbv zeta in F1. destruct (red_lhs_stage al qp e n (r, w)) as [r1 w1]. cbn [fst] in F1, P1. destruct F1 as (A1 & (A2 & A3 & A4 & A5 & A6) & A7).
    pose proof (rhs_frame qp e n r1 w1) as F2. pose proof (rhs_stage_R qp e n ltac:(fold D; lia) WF EW r1 w1 ltac:(rewrite A1; exact ED)) as P2. cbv zeta in F2. destruct (red_rhs_stage qp e n (r1, w1)) as [r2 w2]. cbn [fst] in F2, P2 |- *. destruct F2 as (B1 & (B2 & B3 & B4 & B5 & B6 & B7) & B8).
    split; [rewrite B1, A1; exact ED|]. intros i Hi. destruct (Nat.eq_dec i n) as [->|N].
    - split; [|exact P2]. apply (lhs_post_ext qp e n r1); try exact P1; try (rewrite ?B2, ?B3, ?B4, ?B5, ?B6, ?B7; reflexivity).
    - destruct (IH i ltac:(lia)) as (I1 & I2). destruct (A7 i N) as (C1 & C2 & C3 & C4 & C5 & C6). destruct (B8 i N) as (D1 & D2 & D3 & D4 & D5). split.
      + apply (lhs_post_ext qp e i r); try exact I1; rewrite ?B2, ?B3, ?B4, ?B5, ?B6, ?B7; assumption.
      + apply (rhs_post_ext qp e i r); try exact I2; rewrite ?D1, ?D2, ?D3, ?D4, ?D5, ?A2, ?A3, ?A4, ?A5, ?A6; reflexivity. }
  specialize (X (dN D + 1)%nat (le_n _)). cbv zeta in X. destruct X as (X1 & X2). split; [exact X1|]. intros i Hi. apply X2. lia.
Qed.
Lemma reduce_lhs_R al r0 w0 : q_dim r0 = dim_reduce D e -> let r := fst (reduce_lhs al qp e (r0, w0)) in
  q_dim r = dim_reduce D e /\ (q_b r = q_b r0 /\ q_rqz r = q_rqz r0 /\ q_d r = q_d r0 /\ q_mask r = q_mask r0 /\ q_m r = q_m r0) /\ forall i, (i <= dN D)%nat -> lhs_post qp e i r.
Proof.
  intros E0. unfold reduce_lhs. fold D.
  assert (X : forall n, (n <= dN D + 1)%nat -> let r := fst (loop n (red_lhs_stage al qp e) (r0, w0)) in
    q_dim r = dim_reduce D e /\ (q_b r = q_b r0 /\ q_rqz r = q_rqz r0 /\ q_d r = q_d r0 /\ q_mask r = q_mask r0 /\ q_m r = q_m r0) /\ forall i, (i < n)%nat -> lhs_post qp e i r).
  { induction n as [|n IH]; intros Hn; [cbn [loop fst]; split; [exact E0|]; split; [repeat split|lia]|]. cbv zeta. rewrite loop_S. specialize (IH ltac:(lia)). cbv zeta in IH. destruct (loop n _ (r0, w0)) as [r w]. cbn [fst] in IH. destruct IH as (ED & (G1 & G2 & G3 & G4 & G5) & IH).
    pose proof (lhs_frame al qp e n r w) as F1. pose proof (lhs_stage_R qp e n ltac:(fold D; lia) EW al r w ED) as P1. cbv zeta in F1. destruct (red_lhs_stage al qp e n (r, w)) as [r1 w1]. cbn [fst] in F1, P1 |- *. destruct F1 as (A1 & (A2 & A3 & A4 & A5 & A6) & A7).
    split; [rewrite A1; exact ED|]. split; [rewrite A2, A3, A4, A5, A6; auto|]. intros i Hi. destruct (Nat.eq_dec i n) as [->|N]; [exact P1|].
    destruct (A7 i N) as (C1 & C2 & C3 & C4 & C5 & C6). apply (lhs_post_ext qp e i r); try assumption. apply IH. lia. }
  specialize (X (dN D + 1)%nat (le_n _)). cbv zeta in X. destruct X as (X1 & X3 & X2). split; [exact X1|]. split; [exact X3|]. intros i Hi. apply X2. lia.
Qed.
Lemma reduce_rhs_R r0 w0 : q_dim r0 = dim_reduce D e -> let r := fst (reduce_rhs qp e (r0, w0)) in
  q_dim r = dim_reduce D e /\ (q_BAbt r = q_BAbt r0 /\ q_RSQ r = q_RSQ r0 /\ q_DCt r = q_DCt r0 /\ q_Z r = q_Z r0 /\ q_idxb r = q_idxb r0 /\ q_idxs_rev r = q_idxs_rev r0) /\ forall i, (i <= dN D)%nat -> rhs_post qp e i r.
Proof.
  intros E0. unfold reduce_rhs. fold D.
  assert (X : forall n, (n <= dN D + 1)%nat -> let r := fst (loop n (red_rhs_stage qp e) (r0, w0)) in
    q_dim r = dim_reduce D e /\ (q_BAbt r = q_BAbt r0 /\ q_RSQ r = q_RSQ r0 /\ q_DCt r = q_DCt r0 /\ q_Z r = q_Z r0 /\ q_idxb r = q_idxb r0 /\ q_idxs_rev r = q_idxs_rev r0) /\ forall i, (i < n)%nat -> rhs_post qp e i r).
  { induction n as [|n IH]; intros Hn; [cbn [loop fst]; split; [exact E0|]; split; [repeat split|lia]|]. cbv zeta. rewrite loop_S. specialize (IH ltac:(lia)). cbv zeta in IH. destruct (loop n _ (r0, w0)) as [r w]. cbn [fst] in IH. destruct IH as (ED & (G1 & G2 & G3 & G4 & G5 & G6) & IH).
    pose proof (rhs_frame qp e n r w) as F1. pose proof (rhs_stage_R qp e n ltac:(fold D; lia) WF EW r w ED) as P1. cbv zeta in F1. destruct (red_rhs_stage qp e n (r, w)) as [r1 w1]. cbn [fst] in F1, P1 |- *. destruct F1 as (A1 & (A2 & A3 & A4 & A5 & A6 & A8) & A7).
    split; [rewrite A1; exact ED|]. split; [rewrite A2, A3, A4, A5, A6, A8; repeat split; assumption|]. intros i Hi. destruct (Nat.eq_dec i n) as [->|N]; [exact P1|].
    destruct (A7 i N) as (C1 & C2 & C3 & C4 & C5). apply (rhs_post_ext qp e i r); try assumption. apply IH. lia. }
  specialize (X (dN D + 1)%nat (le_n _)). cbv zeta in X. destruct X as (X1 & X3 & X2). split; [exact X1|]. split; [exact X3|]. intros i Hi. apply X2. lia.
Qed.
(** the matrices first, the vectors later (in either order) *)
Lemma reduce_lhs_rhs_R al r0 w0 w1 : q_dim r0 = dim_reduce D e -> reduced_ok (fst (reduce_rhs qp e (fst (reduce_lhs al qp e (r0, w0)), w1))).
Proof.
  intros E0. pose proof (reduce_lhs_R al r0 w0 E0) as A. cbv zeta in A. set (r1 := fst (reduce_lhs _ _ _ _)) in *. clearbody r1. destruct A as (A1 & _ & A2).
  pose proof (reduce_rhs_R r1 w1 A1) as B. cbv zeta in B. set (r2 := fst _) in *. clearbody r2. destruct B as (B1 & (B2 & B3 & B4 & B5 & B6 & B7) & B8). split; [exact B1|]. intros i Hi. split; [|apply B8; exact Hi].
  apply (lhs_post_ext qp e i r1); rewrite ?B2, ?B3, ?B4, ?B5, ?B6, ?B7; try reflexivity. apply A2. exact Hi.
Qed.

(** *** the restriction *)
Hypothesis BF : bounds_first qp e.
Variable r : oqp R.
Hypothesis OK : reduced_ok r.
Let Dr := q_dim r.
Section I.
Variable i : nat.
Hypothesis Hi : (i <= dN D)%nat.
Notation fx := (fixed qp e i).
Notation rm := (removed e i).
Notation vp := (vplace qp e i).
Notation cp := (cplace qp e i).
Notation rmc := (removedc qp e i).
Notation fv := (fixval qp e i).
Notation nn := (nux qp i).
Notation nb := (dnb D i).
Notation ng := (dng D i).
Notation ns := (dns D i).
Lemma Dr_eq : Dr = dim_reduce D e. Proof. exact (proj1 OK). Qed.
Lemma nuxr : nux r i = vp nn.
Proof. unfold nux at 1. fold Dr. rewrite Dr_eq. apply (nuxr_eq qp e i); assumption. Qed.
Lemma nbr_i : dnb Dr i = rk rm nb.
Proof. rewrite Dr_eq. apply (nbr_eq qp e i); assumption. Qed.
Lemma ngr_i : dng Dr i = ng. Proof. rewrite Dr_eq. reflexivity. Qed.
Lemma nsr_i : dns Dr i = ns. Proof. rewrite Dr_eq. reflexivity. Qed.
Lemma fx_big k : (nn <= k)%nat -> fx k = false. Proof. apply fixed_big. exact Hi. Qed.
Lemma vp_sl s : vp (nn + s)%nat = (vp nn + s)%nat. Proof. apply vp_slack. exact Hi. Qed.
Lemma vp_lt k : (k < nn)%nat -> fx k = false -> (vp k < vp nn)%nat. Proof. intros A B. apply rk_lt; assumption. Qed.
Lemma nvt_split : nvt D i = (nn + 2 * ns)%nat. Proof. unfold nvt, nux. fold D. lia. Qed.
Lemma nvtr : nvt Dr i = vp (nvt D i).
Proof. rewrite nvt_split, vp_sl. rewrite <- nuxr. unfold nvt, nux. fold Dr. rewrite nsr_i. lia. Qed.
Lemma fv_big k : (nn <= k)%nat -> fv k = 0.
Proof. intros H. apply (fixval_0 qp e WF EW); [exact Hi|apply fx_big; exact H]. Qed.
Lemma nctr : nct Dr i = cp (nct D i).
Proof.
  unfold nct. pose proof (cp_rest qp e i Hi EW (ng + 2 * ns)) as X. fold D in X. rewrite <- Dr_eq in X. rewrite ngr_i, nsr_i. replace (2 * nb + 2 * ng + 2 * ns)%nat with (2 * nb + ng + (ng + 2 * ns))%nat by lia. rewrite X. lia.
Qed.
Lemma rsum_hard (f : nat -> R) : rsum (nvt D i) (fun k => f k * fv k) = rsum nn (fun k => f k * fv k).
Proof. rewrite nvt_split, rsum_split. rewrite (rsum_0 (2 * ns)); [ring|]. intros k _. rewrite fv_big by lia. ring. Qed.
Lemma hess_r k l : (k < nvt D i)%nat -> fx k = false -> (l < nvt D i)%nat -> fx l = false -> Hess r i (vp k) (vp l) = Hess qp i k l.
Proof.
  destruct OK as (_ & O). destruct (O i Hi) as ((_ & P2 & _ & P4 & _) & _). intros Hk Fk Hl Fl. rewrite nvt_split in Hk, Hl. unfold Hess, H_co. rewrite nuxr.
  destruct (Nat.ltb_spec k nn) as [L1|L1].
  - pose proof (vp_lt k L1 Fk). destruct (Nat.ltb_spec (vp k) (vp nn)); [|lia]. destruct (Nat.ltb_spec l nn) as [L2|L2].
    + pose proof (vp_lt l L2 Fl). destruct (Nat.ltb_spec (vp l) (vp nn)); [|lia]. destruct (Nat.leb_spec l k) as [L3|L3].
      * pose proof (rk_mono fx l k L3) as M. change (rk fx) with vp in M. destruct (Nat.leb_spec (vp l) (vp k)); [|lia]. apply P2; try assumption. lia.
      * pose proof (rk_lt fx k l L3 Fk) as M. change (rk fx) with vp in M. destruct (Nat.leb_spec (vp l) (vp k)); [lia|]. apply P2; try assumption. lia.
    + replace l with (nn + (l - nn))%nat by lia. rewrite vp_sl. destruct (Nat.ltb_spec (vp nn + (l - nn)) (vp nn)); [lia|]. reflexivity.
  - replace k with (nn + (k - nn))%nat by lia. rewrite vp_sl. destruct (Nat.ltb_spec (vp nn + (k - nn)) (vp nn)); [lia|]. replace (nn + (k - nn) - nn)%nat with (k - nn)%nat by lia.
    destruct (Nat.lt_ge_cases l nn) as [L2|L2].
    + pose proof (vp_lt l L2 Fl). destruct (Nat.eqb_spec (vp nn + (k - nn)) (vp l)); [lia|]. destruct (Nat.eqb_spec (nn + (k - nn)) l); [lia|]. reflexivity.
    + replace l with (nn + (l - nn))%nat by lia. rewrite vp_sl. destruct (Nat.eqb_spec (nn + (k - nn)) (nn + (l - nn))); destruct (Nat.eqb_spec (vp nn + (k - nn)) (vp nn + (l - nn))); try lia; [|reflexivity].
      replace (vp nn + (k - nn) - vp nn)%nat with (k - nn)%nat by lia. apply P4. fold D. lia.
Qed.
Lemma grad_r k : (k < nvt D i)%nat -> fx k = false -> q_rqz r i (vp k) = q_rqz qp i k + rsum (nvt D i) (fun l => Hess qp i k l * fv l).
Proof.
  destruct OK as (_ & O). destruct (O i Hi) as (_ & (_ & P2 & P3 & _)). intros Hk Fk. rewrite rsum_hard. rewrite nvt_split in Hk. destruct (Nat.lt_ge_cases k nn) as [L|L].
  - rewrite P2 by assumption. f_equal. apply rsum_ext. intros l Hl. f_equal. unfold Hess, H_co, symL. destruct (Nat.ltb_spec k nn); [|lia]. destruct (Nat.ltb_spec l nn); [|lia]. reflexivity.
  - replace k with (nn + (k - nn))%nat by lia. rewrite vp_sl, P3 by (fold D; lia). rewrite rsum_0; [ring|]. intros l Hl. unfold Hess, H_co. destruct (Nat.ltb_spec (nn + (k - nn)) nn); [lia|]. destruct (Nat.eqb_spec (nn + (k - nn)) l); [lia|]. ring.
Qed.
(** two-sided constraint j kept: its place *)
Definition rp (j : nat) : nat := if (j <? nb)%nat then rk rm j else (dnb Dr i + (j - nb))%nat.
Definition kept (j : nat) : bool := negb ((j <? nb)%nat && rm j).
Lemma rp_lt j : (j < nb + ng)%nat -> kept j = true -> (rp j < dnb Dr i + ng)%nat /\ ((j < nb)%nat -> rp j < dnb Dr i)%nat /\ ((nb <= j)%nat -> dnb Dr i <= rp j)%nat.
Proof.
  intros Hj K. unfold rp, kept in *. destruct (Nat.ltb_spec j nb) as [L|L].
  - cbn [andb] in K. apply negb_true_iff in K. pose proof (rk_lt rm j nb L K) as M. rewrite <- nbr_i in M. lia.
  - lia.
Qed.
Lemma row_r j k : (j < nb + ng)%nat -> kept j = true -> (k < nn)%nat -> fx k = false ->
  row_co (dnb Dr i) (q_idxb r i) (q_DCt r i) (rp j) (vp k) = row_co nb (q_idxb qp i) (q_DCt qp i) j k.
Proof.
  destruct OK as (_ & O). destruct (O i Hi) as ((_ & _ & P3 & _ & P5 & _) & _). intros Hj K Hk Fk. destruct (rp_lt j Hj K) as (R1 & R2 & R3). unfold row_co. unfold kept in K. destruct (Nat.ltb_spec j nb) as [L|L].
  - cbn [andb] in K. apply negb_true_iff in K. destruct (Nat.ltb_spec (rp j) (dnb Dr i)); [|lia]. unfold rp. destruct (Nat.ltb_spec j nb); [|lia]. destruct (P5 j L K) as (-> & _).
    pose proof (BF i j Hi L K) as B. rewrite <- B at 1. destruct (EW i Hi) as (_ & _ & _ & _ & _ & _ & _ & NF). pose proof (NF j L K) as F.
    destruct (Nat.eqb_spec (q_idxb qp i j) k) as [->|N]; [rewrite Nat.eqb_refl; reflexivity|]. destruct (Nat.eqb_spec (vp (q_idxb qp i j)) (vp k)) as [E|_]; [|reflexivity]. exfalso. apply N. exact (rk_inj fx _ _ F Fk E).
  - destruct (Nat.ltb_spec (rp j) (dnb Dr i)); [lia|]. unfold rp. destruct (Nat.ltb_spec j nb); [lia|]. replace (dnb Dr i + (j - nb) - dnb Dr i)%nat with (j - nb)%nat by lia. apply P3; try assumption. fold D. lia.
Qed.
Lemma soft_r j : (j < nb + ng)%nat -> kept j = true -> q_idxs_rev r i (rp j) = q_idxs_rev qp i j.
Proof.
  destruct OK as (_ & O). destruct (O i Hi) as ((_ & _ & _ & _ & P5 & P6) & _). intros Hj K. unfold kept in K. unfold rp. destruct (Nat.ltb_spec j nb) as [L|L].
  - cbn [andb] in K. apply negb_true_iff in K. apply P5; assumption.
  - rewrite Dr_eq. etransitivity; [apply (P6 (j - nb)%nat); fold D; lia|]. f_equal. fold D. lia.
Qed.
Lemma soft_co_r off j k : (j < nb + ng)%nat -> kept j = true -> soft_co (q_idxs_rev r i) (vp nn + off) (rp j) (vp nn + k) = soft_co (q_idxs_rev qp i) (nn + off) j (nn + k).
Proof.
  intros Hj K. unfold soft_co. rewrite soft_r by assumption. destruct (Z.eqb _ _); [reflexivity|]. destruct (Nat.eqb_spec (vp nn + k) (vp nn + off + Z.to_nat (q_idxs_rev qp i j))); destruct (Nat.eqb_spec (nn + k) (nn + off + Z.to_nat (q_idxs_rev qp i j))); try lia; reflexivity.
Qed.
Lemma cp_places c : (c < nct D i)%nat -> rmc c = false ->
  ((c < nb + ng)%nat /\ kept c = true /\ cp c = rp c) \/
  ((nb + ng <= c < 2 * (nb + ng))%nat /\ kept (c - (nb + ng)) = true /\ cp c = (dnb Dr i + ng + rp (c - (nb + ng)))%nat) \/
  ((2 * (nb + ng) <= c)%nat /\ cp c = (2 * (dnb Dr i + ng) + (c - 2 * (nb + ng)))%nat).
Proof.
  intros Hc Hr. unfold nct in Hc. assert (EN : dnb Dr i = dnb (dim_reduce (q_dim qp) e) i) by (rewrite Dr_eq; reflexivity).
  destruct (Nat.lt_ge_cases c nb) as [L1|L1]; [|destruct (Nat.lt_ge_cases c (nb + ng)) as [L2|L2]; [|destruct (Nat.lt_ge_cases c (2 * nb + ng)) as [L3|L3]; [|destruct (Nat.lt_ge_cases c (2 * (nb + ng))) as [L4|L4]]]].
  - left. split; [lia|]. unfold kept, rp. rewrite (rm_rmc_lo qp e i Hi) in Hr by exact L1. rewrite Hr. destruct (Nat.ltb_spec c nb); [|lia]. split; [reflexivity|]. apply (cp_lo qp e i Hi). fold D. lia.
  - left. split; [lia|]. unfold kept, rp. destruct (Nat.ltb_spec c nb); [lia|]. split; [reflexivity|]. rewrite EN. replace c with (nb + (c - nb))%nat at 1 by lia. apply (cp_g qp e i Hi EW). fold D. lia.
  - right. left. split; [lia|]. unfold kept, rp. destruct (Nat.ltb_spec (c - (nb + ng)) nb); [|lia].
    assert (E : c = (nb + ng + (c - (nb + ng)))%nat) by lia. pose proof Hr as Hr'. rewrite E in Hr'. rewrite (rm_rmc_up qp e i Hi) in Hr' by (fold D; lia). rewrite Hr'. split; [reflexivity|]. rewrite EN. rewrite E at 1. apply (cp_up qp e i Hi EW). fold D. lia.
  - right. left. split; [lia|]. unfold kept, rp. destruct (Nat.ltb_spec (c - (nb + ng)) nb); [lia|]. split; [reflexivity|]. rewrite EN. replace c with (2 * nb + ng + (c - 2 * nb - ng))%nat at 1 by lia. etransitivity; [apply (cp_rest qp e i Hi EW)|]. fold D. lia.
  - right. right. split; [lia|]. rewrite EN. replace c with (2 * nb + ng + (c - 2 * nb - ng))%nat at 1 by lia. etransitivity; [apply (cp_rest qp e i Hi EW)|]. fold D. lia.
Qed.
Lemma G_r c k : (c < nct D i)%nat -> rmc c = false -> (k < nvt D i)%nat -> fx k = false -> G r i (cp c) (vp k) = G qp i c k.
Proof.
  intros Hc Hr Hk Fk. rewrite nvt_split in Hk. unfold nct in Hc. unfold G, G_co. fold D Dr. rewrite nuxr, ngr_i, nsr_i.
  assert (HK : ((k < nn)%nat /\ (vp k < vp nn)%nat) \/ ((nn <= k)%nat /\ vp k = (vp nn + (k - nn))%nat)).
  { destruct (Nat.lt_ge_cases k nn) as [L|L]; [left; split; [exact L|apply vp_lt; assumption]|right; split; [exact L|]]. rewrite <- vp_sl. f_equal. lia. }
  destruct (cp_places c ltac:(unfold nct; lia) Hr) as [(L & K & E)|[(L & K & E)|(L & E)]]; rewrite E.
  - destruct (rp_lt c L K) as (R1 & _). destruct (Nat.ltb_spec (rp c) (dnb Dr i + ng)); [|lia]. destruct (Nat.ltb_spec c (nb + ng)); [|lia].
    destruct HK as [(L1 & L2)|(L1 & L2)].
    + destruct (Nat.ltb_spec (vp k) (vp nn)); [|lia]. destruct (Nat.ltb_spec k nn); [|lia]. apply row_r; assumption.
    + destruct (Nat.ltb_spec (vp k) (vp nn)); [lia|]. destruct (Nat.ltb_spec k nn); [lia|]. rewrite L2. pose proof (soft_co_r 0 c (k - nn) L K) as S. rewrite !Nat.add_0_r in S. rewrite S. f_equal. lia.
  - set (j := (c - (nb + ng))%nat) in *. destruct (rp_lt j ltac:(lia) K) as (R1 & _). destruct (Nat.ltb_spec (dnb Dr i + ng + rp j) (dnb Dr i + ng)); [lia|]. destruct (Nat.ltb_spec (dnb Dr i + ng + rp j) (2 * (dnb Dr i + ng))); [|lia].
    destruct (Nat.ltb_spec c (nb + ng)); [lia|]. destruct (Nat.ltb_spec c (2 * (nb + ng))); [|lia]. replace (dnb Dr i + ng + rp j - (dnb Dr i + ng))%nat with (rp j) by lia.
    destruct HK as [(L1 & L2)|(L1 & L2)].
    + destruct (Nat.ltb_spec (vp k) (vp nn)); [|lia]. destruct (Nat.ltb_spec k nn); [|lia]. f_equal. apply row_r; try assumption. lia.
    + destruct (Nat.ltb_spec (vp k) (vp nn)); [lia|]. destruct (Nat.ltb_spec k nn); [lia|]. rewrite L2. rewrite (soft_co_r ns j (k - nn) ltac:(lia) K). f_equal. lia.
  - destruct (Nat.ltb_spec (2 * (dnb Dr i + ng) + (c - 2 * (nb + ng))) (dnb Dr i + ng)); [lia|]. destruct (Nat.ltb_spec (2 * (dnb Dr i + ng) + (c - 2 * (nb + ng))) (2 * (dnb Dr i + ng))); [lia|]. destruct (Nat.ltb_spec c (nb + ng)); [lia|]. destruct (Nat.ltb_spec c (2 * (nb + ng))); [lia|].
    destruct HK as [(L1 & L2)|(L1 & L2)].
    + destruct (Nat.eqb_spec (vp k) (vp nn + (2 * (dnb Dr i + ng) + (c - 2 * (nb + ng)) - 2 * (dnb Dr i + ng)))); [lia|]. destruct (Nat.eqb_spec k (nn + (c - 2 * (nb + ng)))); [lia|reflexivity].
    + rewrite L2. destruct (Nat.eqb_spec (vp nn + (k - nn)) (vp nn + (2 * (dnb Dr i + ng) + (c - 2 * (nb + ng)) - 2 * (dnb Dr i + ng)))); destruct (Nat.eqb_spec k (nn + (c - 2 * (nb + ng)))); try lia; reflexivity.
Qed.
(** the shift of d: a kept bound acts on no fixed variable, so only general constraints move *)
Lemma shift_eq c : (c < nct D i)%nat -> rmc c = false -> gen_shift qp e i c = - rsum (nvt D i) (fun k => G qp i c k * fv k).
Proof.
  intros Hc Hr. rewrite rsum_hard. unfold nct in Hc. unfold gen_shift. fold D.
  assert (RB : forall j, (j < nb)%nat -> rm j = false -> rsum nn (fun k => row_co nb (q_idxb qp i) (q_DCt qp i) j k * fv k) = 0).
  { intros j Hj R. apply rsum_0. intros k Hk. unfold row_co. destruct (Nat.ltb_spec j nb); [|lia]. destruct (Nat.eqb_spec (q_idxb qp i j) k) as [<-|_]; [|ring]. destruct (EW i Hi) as (_ & _ & _ & _ & _ & _ & _ & NF). rewrite (fixval_0 qp e WF EW i _ Hi (NF j Hj R)). ring. }
  assert (RG : forall j, (nb <= j)%nat -> rsum nn (fun k => row_co nb (q_idxb qp i) (q_DCt qp i) j k * fv k) = rsum nn (fun k => q_DCt qp i k (j - nb)%nat * fv k)).
  { intros j Hj. apply rsum_ext. intros k Hk. unfold row_co. destruct (Nat.ltb_spec j nb); [lia|reflexivity]. }
  assert (G1 : (c < nb + ng)%nat -> rsum nn (fun k => G qp i c k * fv k) = rsum nn (fun k => row_co nb (q_idxb qp i) (q_DCt qp i) c k * fv k)).
  { intros L. apply rsum_ext. intros k Hk. unfold G, G_co. fold D. destruct (Nat.ltb_spec c (nb + ng)); [|lia]. destruct (Nat.ltb_spec k nn); [reflexivity|lia]. }
  assert (G2 : (nb + ng <= c < 2 * (nb + ng))%nat -> rsum nn (fun k => G qp i c k * fv k) = - rsum nn (fun k => row_co nb (q_idxb qp i) (q_DCt qp i) (c - (nb + ng)) k * fv k)).
  { intros L. rewrite <- rsum_opp. apply rsum_ext. intros k Hk. unfold G, G_co. fold D. destruct (Nat.ltb_spec c (nb + ng)); [lia|]. destruct (Nat.ltb_spec c (2 * (nb + ng))); [|lia]. destruct (Nat.ltb_spec k nn); [ring|lia]. }
  destruct (Nat.ltb_spec c nb) as [L1|L1]; [|destruct (Nat.ltb_spec c (nb + ng)) as [L2|L2]; [|destruct (Nat.ltb_spec c (2 * nb + ng)) as [L3|L3]; [|destruct (Nat.ltb_spec c (2 * nb + 2 * ng)) as [L4|L4]]]].
  - rewrite G1, RB; [ring|exact L1|rewrite <- (rm_rmc_lo qp e i Hi) by exact L1; exact Hr|lia].
  - rewrite G1, RG by lia. reflexivity.
  - rewrite G2 by lia. rewrite RB; [ring|lia|]. rewrite <- (rm_rmc_up qp e i Hi) by (fold D; lia). rewrite <- Hr. f_equal. fold D. lia.
  - rewrite G2, RG by lia. replace (c - (nb + ng) - nb)%nat with (c - 2 * nb - ng)%nat by lia. ring.
  - rewrite rsum_0; [ring|]. intros k Hk. unfold G, G_co. fold D. destruct (Nat.ltb_spec c (nb + ng)); [lia|]. destruct (Nat.ltb_spec c (2 * (nb + ng))); [lia|]. destruct (Nat.eqb_spec k (nn + (c - 2 * (nb + ng)))); [lia|ring].
Qed.
End I.
Lemma restriction_R : restriction qp e r.
Proof.
  unfold restriction. fold D Dr. pose proof Dr_eq as ED. split; [|split; [|split; [|split]]].
  - rewrite ED. reflexivity.
  - intros i Hi. split; [rewrite ED; apply (nur_eq qp e i); assumption|]. split; [exact (nuxr i Hi)|]. split; [apply nvtr; exact Hi|]. split; [apply nctr; exact Hi|].
    intros Hp. rewrite ED. unfold dim_reduce. cbn [dnx]. destruct (Nat.eqb_spec i 0); lia.
  - intros i Hi j Hj. destruct OK as (_ & O). destruct (O i ltac:(lia)) as ((P1 & _) & (Q1 & _)). split; [intros k Hk F; apply P1; assumption|apply Q1; assumption].
  - intros i k Hi Hk F. split; [intros l Hl Fl; apply hess_r; assumption|apply grad_r; assumption].
  - intros i c Hi Hc Hr. split; [intros k Hk F; apply G_r; assumption|]. destruct OK as (_ & O). destruct (O i Hi) as (_ & (_ & _ & _ & Q4)). destruct (Q4 c Hc Hr) as (A & B & C). split; [|split; assumption].
    rewrite A, (shift_eq i Hi c Hc Hr). unfold D. ring.
Qed.
Lemma reduced_wf : qp_wf r.
Proof.
  intros i Hi. fold Dr in Hi. rewrite Dr_eq in Hi. change (dN (dim_reduce D e)) with (dN D) in Hi. fold Dr. rewrite (nuxr i Hi), (ngr_i i), (nsr_i i). destruct (WF i Hi) as (W1 & W2). fold D in W1, W2. split.
  - intros p Hp. rewrite (nbr_i i Hi) in Hp. destruct (rk_surj _ _ _ Hp) as (j & Hj & Rj & E). destruct OK as (_ & O). destruct (O i Hi) as ((_ & _ & _ & _ & P5 & _) & _). rewrite <- E. destruct (P5 j Hj Rj) as (-> & _).
    rewrite <- (BF i j Hi Hj Rj). destruct (EW i Hi) as (_ & _ & _ & _ & _ & _ & _ & NF). apply (vp_lt i); [apply W1; exact Hj|apply NF; assumption].
  - intros p Hp. assert (X : exists j, (j < dnb D i + dng D i)%nat /\ kept i j = true /\ rp i j = p).
    { destruct (Nat.lt_ge_cases p (dnb Dr i)) as [L|L].
      - rewrite (nbr_i i Hi) in L. destruct (rk_surj _ _ _ L) as (j & Hj & Rj & E). exists j. unfold kept, rp. destruct (Nat.ltb_spec j (dnb D i)); [|lia]. rewrite Rj. split; [lia|]. split; [reflexivity|exact E].
      - exists (dnb D i + (p - dnb Dr i))%nat. unfold kept, rp. destruct (Nat.ltb_spec (dnb D i + (p - dnb Dr i)) (dnb D i)); [lia|]. split; [lia|]. split; [reflexivity|lia]. }
    destruct X as (j & Hj & K & <-). rewrite (soft_r i Hi j Hj K). apply W2. exact Hj.
Qed.
End Full.
