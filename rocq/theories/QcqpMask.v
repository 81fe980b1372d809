(** QcqpMask.v -- proofs about the masking of the lower sides of the quadratic constraints (OCP_QCQP_IPM_SOLVE, lines 1696-1709). *)
From Coq Require Import ZArith Bool Arith Lia Reals Lra.
From Verif Require Import Base ArithF RSum Blas Blas2 OcpModel ResSpec ResProofs ResProofs2 QcqpModel QcqpSpec QcqpProofs QcqpProofs2 QcqpProofs3 QcqpLinSpec.
Local Open Scope R_scope.

(** the slack c softens the lower side of some quadratic constraint *)
Definition lowslack (qc : oqcqp R) (i c : nat) : Prop := exists j, (j < c_nq qc i)%nat /\ c_idxs_rev qc i (lq qc i j) <> (-1)%Z /\ c = (2 * cn2 qc i + Z.to_nat (c_idxs_rev qc i (lq qc i j)))%nat.
(** the QCQP as solved: with the masks changed *)
Definition with_mask (qc : oqcqp R) (m : nat -> nat -> R) : oqcqp R :=
  mkqc (c_dim qc) (c_nq qc) (c_BAbt qc) (c_RSQ qc) (c_DCt qc) (c_Hq qc) (c_b qc) (c_rqz qc) (c_d qc) m (c_m qc) (c_Z qc) (c_idxb qc) (c_idxs_rev qc).

Lemma mask_lower_stage (qc : oqcqp R) i (v : nat -> R) c : 
  let nb := dnb (c_dim qc) i in let ng := dng (c_dim qc) i in let nq := c_nq qc i in
  let r := loop nq (fun jj v => let idx := c_idxs_rev qc i (nb + ng + jj)%nat in if Z.eqb idx (-1) then v else upd v (2 * nb + 2 * ng + 2 * nq + Z.to_nat idx)%nat f0) (VECSE nq f0 v (nb + ng)) in
  (lowerq qc i c = true \/ lowslack qc i c -> r c = 0) /\ (lowerq qc i c = false -> ~ lowslack qc i c -> r c = v c).
Proof.
  cbv zeta. set (nb := dnb (c_dim qc) i). set (ng := dng (c_dim qc) i). set (nq := c_nq qc i). set (v0 := VECSE nq f0 v (nb + ng)).
  assert (Ec : (2 * cn2 qc i = 2 * nb + 2 * ng + 2 * nq)%nat) by (unfold cn2; fold nb ng nq; lia).
  assert (H0 : (lowerq qc i c = true -> v0 c = 0) /\ (lowerq qc i c = false -> v0 c = v c)).
  { unfold lowerq, cn2, v0, VECSE. fold nb ng nq. destruct (Nat.leb_spec (nb + ng) c), (Nat.ltb_spec c (nb + ng + nq)); cbn [andb]; split; intros X; try discriminate X; clear X; vn; first [reflexivity|apply R_lit01|idtac]. all: try lia. all: rsimp; reflexivity. }
  assert (H : forall m, (m <= nq)%nat ->
    let r := loop m (fun jj v => if Z.eqb (c_idxs_rev qc i (nb + ng + jj)%nat) (-1) then v else upd v (2 * nb + 2 * ng + 2 * nq + Z.to_nat (c_idxs_rev qc i (nb + ng + jj)%nat))%nat f0) v0 in
    let low m := exists j, (j < m)%nat /\ c_idxs_rev qc i (lq qc i j) <> (-1)%Z /\ c = (2 * cn2 qc i + Z.to_nat (c_idxs_rev qc i (lq qc i j)))%nat in
    (lowerq qc i c = true \/ low m -> r c = 0) /\ (~ low m -> r c = v0 c)).
  { induction m as [|m IH]; intros Hm; cbv zeta.
    - cbn [loop]. split; [intros [A|(j & A & _)]; [apply H0; exact A|lia]|reflexivity].
    - rewrite loop_S. destruct (IH ltac:(lia)) as [I1 I2]. cbv zeta in I1, I2. set (r := loop m _ v0) in *.
      destruct (Z.eqb_spec (c_idxs_rev qc i (nb + ng + m)%nat) (-1)) as [E|E].
      + split.
        * intros [A|(j & A & B & C)]; apply I1; [left; exact A|right]. exists j. split; [|split; assumption]. destruct (Nat.eq_dec j m) as [->|]; [|lia]. exfalso. apply B. exact E.
        * intros A. apply I2. intros (j & B & C). apply A. exists j. split; [lia|exact C].
      + destruct (Nat.eq_dec c (2 * nb + 2 * ng + 2 * nq + Z.to_nat (c_idxs_rev qc i (nb + ng + m)%nat))) as [Ex|Ex].
        * rewrite <- Ex. rewrite upd_same. split; [intros _; apply R_lit01|]. intros A. exfalso. apply A. exists m. split; [lia|]. split; [exact E|]. rewrite Ec. exact Ex.
        * rewrite upd_other by congruence. split.
          -- intros [A|(j & A & B & C)]; apply I1; [left; exact A|right]. exists j. split; [|split; assumption]. destruct (Nat.eq_dec j m) as [->|]; [|lia]. exfalso. apply Ex. rewrite <- Ec. exact C.
          -- intros A. apply I2. intros (j & B & C). apply A. exists j. split; [lia|exact C]. }
  destruct (H nq (le_n _)) as [A B]. cbv zeta in A, B. split; [exact A|]. intros E F. rewrite B by exact F. apply H0. exact E.
Qed.
Lemma mask_lower_R (qc : oqcqp R) i c : (i <= dN (c_dim qc))%nat ->
  (lowerq qc i c = true \/ lowslack qc i c -> mask_lower qc i c = 0) /\ (lowerq qc i c = false -> ~ lowslack qc i c -> mask_lower qc i c = c_mask qc i c).
Proof.
  intros Hi. unfold mask_lower. match goal with |- context [loop _ ?f _] => set (body := f) end.
  assert (H : forall n, forall i c, ((i < n)%nat -> (lowerq qc i c = true \/ lowslack qc i c -> loop n body (c_mask qc) i c = 0) /\ (lowerq qc i c = false -> ~ lowslack qc i c -> loop n body (c_mask qc) i c = c_mask qc i c))
     /\ ((n <= i)%nat -> loop n body (c_mask qc) i = c_mask qc i)).
  { induction n as [|n IH]; intros i0 c0.
    - cbn [loop]. split; [lia|reflexivity].
    - rewrite loop_S. set (mk := loop n body (c_mask qc)) in *. unfold body. cbv zeta. split.
      + intros Hi0. destruct (Nat.eq_dec i0 n) as [->|].
        * rewrite upd_same. pose proof (mask_lower_stage qc n (mk n) c0) as [A B]. cbv zeta in A, B. destruct (IH n c0) as [_ E]. rewrite (E (le_n _)) in A, B |- *. split; assumption.
        * rewrite upd_other by assumption. apply (IH i0 c0). lia.
      + intros Hi0. rewrite upd_other by lia. apply (IH i0 c0). lia. }
  apply (H (dN (c_dim qc) + 1)%nat i c). lia.
Qed.
Lemma act_masked (qc : oqcqp R) i c : (i <= dN (c_dim qc))%nat -> act (with_mask qc (mask_lower qc)) i c <> 0 -> act qc i c <> 0 /\ ~ lowslack qc i c.
Proof.
  intros Hi. unfold act. change (lowerq (with_mask qc (mask_lower qc)) i c) with (lowerq qc i c). cbn [with_mask c_mask]. destruct (lowerq qc i c) eqn:E; [intros H; exfalso; apply H; reflexivity|].
  intros H. destruct (mask_lower_R qc i c Hi) as [A B].
  assert (N : ~ lowslack qc i c) by (intros N; apply H; apply A; right; exact N). rewrite (B E N) in H. split; assumption.
Qed.
Lemma act_masked_eq (qc : oqcqp R) i c : (i <= dN (c_dim qc))%nat -> ~ lowslack qc i c -> act (with_mask qc (mask_lower qc)) i c = act qc i c.
Proof.
  intros Hi N. unfold act. change (lowerq (with_mask qc (mask_lower qc)) i c) with (lowerq qc i c). cbn [with_mask c_mask]. destruct (lowerq qc i c) eqn:E; [reflexivity|].
  destruct (mask_lower_R qc i c Hi) as [_ B]. exact (B E N).
Qed.

(** ** when it does no harm *)
Section Equiv.
Variable qc : oqcqp R.
Let D := c_dim qc.
(** the slack number s of stage i softens the lower side of a quadratic constraint *)
Definition qslack (i s : nat) : Prop := exists j, (j < c_nq qc i)%nat /\ c_idxs_rev qc i (lq qc i j) <> (-1)%Z /\ s = Z.to_nat (c_idxs_rev qc i (lq qc i j)).
Definition mask_harmless : Prop := forall i s, (i <= dN D)%nat -> qslack i s ->
  c_rqz qc i (cnux qc i + s)%nat = 0 /\ 0 <= c_Z qc i s /\ c_d qc i (2 * cn2 qc i + s)%nat <= 0 /\
  (forall j, (j < dnb D i + dng D i)%nat -> c_idxs_rev qc i j <> (-1)%Z -> Z.to_nat (c_idxs_rev qc i j) <> s).
Lemma qslack_dec i s : {qslack i s} + {~ qslack i s}.
Proof.
  assert (H : forall n, {exists j, (j < n)%nat /\ c_idxs_rev qc i (lq qc i j) <> (-1)%Z /\ s = Z.to_nat (c_idxs_rev qc i (lq qc i j))} + {~ exists j, (j < n)%nat /\ c_idxs_rev qc i (lq qc i j) <> (-1)%Z /\ s = Z.to_nat (c_idxs_rev qc i (lq qc i j))}).
  { induction n as [|n [IH|IH]].
    - right. intros (j & H & _). lia.
    - left. destruct IH as (j & H & K). exists j. split; [lia|exact K].
    - destruct (Z.eq_dec (c_idxs_rev qc i (lq qc i n)) (-1)) as [E|E].
      + right. intros (j & H & K & L). destruct (Nat.eq_dec j n) as [->|]; [contradiction|]. apply IH. exists j. split; [lia|split; assumption].
      + destruct (Nat.eq_dec s (Z.to_nat (c_idxs_rev qc i (lq qc i n)))) as [F|F].
        * left. exists n. split; [lia|split; assumption].
        * right. intros (j & H & K & L). destruct (Nat.eq_dec j n) as [->|]; [contradiction|]. apply IH. exists j. split; [lia|split; assumption]. }
  apply H.
Qed.
(** those slacks set to zero *)
Definition zeroed (y : nat -> nat -> R) (i k : nat) : R := if (cnux qc i <=? k)%nat then (if qslack_dec i (k - cnux qc i) then 0 else y i k) else y i k.
Lemma zeroed_hard y i k : (k < cnux qc i)%nat -> zeroed y i k = y i k.
Proof. intros H. unfold zeroed. destruct (Nat.leb_spec (cnux qc i) k); [lia|reflexivity]. Qed.
Lemma qslack_lt i s : qc_wf qc -> (i <= dN D)%nat -> qslack i s -> (s < dns D i)%nat.
Proof.
  intros Hwf Hi (j & Hj & Hn & ->). destruct (Hwf i Hi) as [_ H]. destruct (H (lq qc i j)) as [E|E]; [unfold lq, cn2; lia|contradiction|]. unfold D. lia.
Qed.
Lemma zeroed_hi y i k : qc_wf qc -> (i <= dN D)%nat -> (cnux qc i + dns D i <= k)%nat -> zeroed y i k = y i k.
Proof.
  intros Hwf Hi H. unfold zeroed. destruct (Nat.leb_spec (cnux qc i) k); [|reflexivity]. destruct (qslack_dec i (k - cnux qc i)) as [Q|]; [|reflexivity].
  pose proof (qslack_lt i _ Hwf Hi Q). lia.
Qed.
Lemma two_zeroed y i j : qc_wf qc -> (i <= dN D)%nat -> (j < cn2 qc i)%nat -> two qc (zeroed y) i j = two qc y i j.
Proof.
  intros Hwf Hi Hj. destruct (Hwf i Hi) as [Hb _]. unfold two. fold D. destruct (Nat.ltb_spec j (dnb D i)); [apply zeroed_hard; apply Hb; assumption|].
  destruct (Nat.ltb_spec j (dnb D i + dng D i)).
  - apply rsum_ext. intros k Hk. rewrite zeroed_hard by assumption. reflexivity.
  - unfold qfun. f_equal; [f_equal; apply rsum_ext; intros k Hk; apply rsum_ext; intros l Hl; rewrite !zeroed_hard by assumption; reflexivity|].
    apply rsum_ext. intros k Hk. rewrite zeroed_hard by assumption. reflexivity.
Qed.
Lemma cost_zeroed y : qc_wf qc -> mask_harmless -> qcost qc (zeroed y) <= qcost qc y.
Proof.
  intros Hwf Hh. unfold qcost. apply rsum_le. intros i Hi.
  assert (Hi' : (i <= dN D)%nat) by (unfold D; lia).
  assert (E : forall w : nat -> nat -> R, 1 / 2 * rsum (cnv qc i) (fun k => rsum (cnv qc i) (fun l => w i k * qHess qc i k l * w i l)) + rsum (cnv qc i) (fun k => c_rqz qc i k * w i k) =
     (1 / 2 * rsum (cnux qc i) (fun k => rsum (cnux qc i) (fun l => w i k * qHess qc i k l * w i l)) + rsum (cnux qc i) (fun k => c_rqz qc i k * w i k)) +
     rsum (2 * dns D i) (fun s => 1 / 2 * (c_Z qc i s * (w i (cnux qc i + s)%nat * w i (cnux qc i + s)%nat)) + c_rqz qc i (cnux qc i + s)%nat * w i (cnux qc i + s)%nat)).
  { intros w. unfold cnv. fold D. rewrite (rsum_split (cnux qc i)). rewrite (rsum_split (cnux qc i) (2 * dns D i) (fun k => c_rqz qc i k * w i k)). rewrite (rsum_add (2 * dns D i)). rewrite rsum_scal.
    rewrite (rsum_ext (cnux qc i) (fun k => rsum (cnux qc i + 2 * dns D i) (fun l => w i k * qHess qc i k l * w i l)) (fun k => rsum (cnux qc i) (fun l => w i k * qHess qc i k l * w i l))).
    2:{ intros k Hk. rewrite rsum_split. rewrite (rsum_0 (2 * dns D i)); [lra|]. intros l Hl. unfold qHess, H_co. destruct (Nat.ltb_spec k (cnux qc i)); [|lia]. destruct (Nat.ltb_spec (cnux qc i + l) (cnux qc i)); [lia|lra]. }
    rewrite (rsum_ext (2 * dns D i) (fun i0 => rsum (cnux qc i + 2 * dns D i) (fun l => w i (cnux qc i + i0)%nat * qHess qc i (cnux qc i + i0) l * w i l)) (fun s => c_Z qc i s * (w i (cnux qc i + s)%nat * w i (cnux qc i + s)%nat))).
    2:{ intros s Hs. rewrite (rsum_ext _ _ (fun l => if (cnux qc i + s =? l)%nat then c_Z qc i s * (w i (cnux qc i + s)%nat * w i l) else 0)).
        - rewrite rsum_one' by lia. reflexivity.
        - intros l Hl. unfold qHess, H_co. destruct (Nat.ltb_spec (cnux qc i + s) (cnux qc i)); [lia|]. destruct (Nat.eqb_spec (cnux qc i + s) l) as [<-|]; [|lra].
          replace (cnux qc i + s - cnux qc i)%nat with s by lia. lra. }
    lra. }
  rewrite !E.
  rewrite (rsum_ext (cnux qc i) (fun k => rsum (cnux qc i) (fun l => zeroed y i k * qHess qc i k l * zeroed y i l)) (fun k => rsum (cnux qc i) (fun l => y i k * qHess qc i k l * y i l))).
  2:{ intros k Hk. apply rsum_ext. intros l Hl. rewrite !zeroed_hard by assumption. reflexivity. }
  rewrite (rsum_ext (cnux qc i) (fun k => c_rqz qc i k * zeroed y i k) (fun k => c_rqz qc i k * y i k)) by (intros k Hk; rewrite zeroed_hard by assumption; reflexivity).
  apply Rplus_le_compat_l. apply rsum_le. intros s Hs. unfold zeroed. destruct (Nat.leb_spec (cnux qc i) (cnux qc i + s)); [|lia]. replace (cnux qc i + s - cnux qc i)%nat with s by lia.
  destruct (qslack_dec i s) as [Q|Q]; [|lra]. destruct (Hh i s Hi' Q) as (-> & Hz & _). pose proof (Rle_0_sqr (y i (cnux qc i + s)%nat)) as S. unfold Rsqr in S.
  assert (0 <= c_Z qc i s * (y i (cnux qc i + s)%nat * y i (cnux qc i + s)%nat)) by (apply Rmult_le_pos; assumption). lra.
Qed.
Lemma feas_zeroed y : qc_wf qc -> mask_harmless -> qfeasible (with_mask qc (mask_lower qc)) y -> qfeasible qc (zeroed y).
Proof.
  intros Hwf Hh [F1 F2]. split.
  - intros i j Hi Hj. rewrite <- (F1 i j Hi Hj). unfold qdyn. cbn [with_mask c_BAbt c_b c_dim]. change (cnux (with_mask qc (mask_lower qc)) i) with (cnux qc i). fold D.
    rewrite zeroed_hard. 2:{ unfold cnux. fold D. fold D in Hj. lia. }
    rewrite (rsum_ext (cnux qc i) (fun k => c_BAbt qc i k j * zeroed y i k) (fun k => c_BAbt qc i k j * y i k)) by (intros k Hk; rewrite zeroed_hard by assumption; reflexivity). reflexivity.
  - intros i c Hi Hc Ha. fold D in Hi. cbn [with_mask c_dim] in F2. fold D in F2.
    assert (Ls : lowslack qc i c <-> exists s, qslack i s /\ c = (2 * cn2 qc i + s)%nat).
    { split; [intros (j & A & B & C)|intros (s & (j & A & B & ->) & C)]; [exists (Z.to_nat (c_idxs_rev qc i (lq qc i j))); split; [exists j; repeat split; assumption|exact C]|exists j; repeat split; assumption]. }
    destruct (Nat.ltb_spec c (2 * cn2 qc i)) as [H2|H2].
    + assert (N : ~ lowslack qc i c) by (intros (j & _ & _ & E); lia).
      specialize (F2 i c Hi Hc). rewrite act_masked_eq in F2 by assumption. specialize (F2 Ha). cbn [with_mask c_d] in F2. change (qcon (with_mask qc (mask_lower qc)) y i c) with (qcon qc y i c) in F2.
      replace (qcon qc (zeroed y) i c) with (qcon qc y i c); [exact F2|]. unfold qcon. fold D. destruct (Nat.ltb_spec c (cn2 qc i)) as [H3|H3].
      * rewrite two_zeroed by assumption. f_equal. unfold slk. destruct (Z.eqb_spec (c_idxs_rev qc i c) (-1)) as [E|E]; [reflexivity|].
        unfold zeroed. destruct (Nat.leb_spec (cnux qc i) (cnux qc i + Z.to_nat (c_idxs_rev qc i c))); [|lia]. replace (cnux qc i + Z.to_nat (c_idxs_rev qc i c) - cnux qc i)%nat with (Z.to_nat (c_idxs_rev qc i c)) by lia.
        destruct (qslack_dec i (Z.to_nat (c_idxs_rev qc i c))) as [Q|Q]; [|reflexivity]. exfalso.
        destruct (Hh i _ Hi Q) as (_ & _ & _ & Hs). apply (Hs c); [|exact E|reflexivity].
        unfold act in Ha. destruct (lowerq qc i c) eqn:L; [contradiction|]. unfold lowerq in L. fold D in L. apply andb_false_iff in L as [L|L]; [apply Nat.leb_gt in L; exact L|apply Nat.ltb_ge in L; lia].
      * destruct (Nat.ltb_spec c (2 * cn2 qc i)); [|lia]. rewrite two_zeroed by (try assumption; lia). f_equal. unfold slk. destruct (Z.eqb (c_idxs_rev qc i (c - cn2 qc i)) (-1)); [reflexivity|].
        rewrite zeroed_hi by (try assumption; lia). reflexivity.
    + unfold qcon. fold D. destruct (Nat.ltb_spec c (cn2 qc i)); [lia|]. destruct (Nat.ltb_spec c (2 * cn2 qc i)); [lia|].
      unfold zeroed. destruct (Nat.leb_spec (cnux qc i) (cnux qc i + (c - 2 * cn2 qc i))); [|lia]. replace (cnux qc i + (c - 2 * cn2 qc i) - cnux qc i)%nat with (c - 2 * cn2 qc i)%nat by lia.
      destruct (qslack_dec i (c - 2 * cn2 qc i)) as [Q|Q].
      * destruct (Hh i _ Hi Q) as (_ & _ & Hd & _). replace (2 * cn2 qc i + (c - 2 * cn2 qc i))%nat with c in Hd by lia. lra.
      * assert (N : ~ lowslack qc i c). { rewrite Ls. intros (s & A & B). apply Q. replace (c - 2 * cn2 qc i)%nat with s by lia. exact A. }
        specialize (F2 i c Hi Hc). rewrite act_masked_eq in F2 by assumption. specialize (F2 Ha). cbn [with_mask c_d] in F2. change (qcon (with_mask qc (mask_lower qc)) y i c) with (qcon qc y i c) in F2.
        unfold qcon in F2. fold D in F2. destruct (Nat.ltb_spec c (cn2 qc i)); [lia|]. destruct (Nat.ltb_spec c (2 * cn2 qc i)); [lia|]. exact F2.
Qed.
Lemma feas_masked y : qfeasible qc y -> qfeasible (with_mask qc (mask_lower qc)) y.
Proof.
  intros [F1 F2]. split; [exact F1|]. intros i c Hi Hc Ha. cbn [with_mask c_dim] in Hi. apply act_masked in Ha; [|exact Hi]. destruct Ha as [Ha _]. exact (F2 i c Hi Hc Ha).
Qed.
End Equiv.
