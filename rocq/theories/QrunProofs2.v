(** QrunProofs2.v -- the QP linearising a convex QCQP is convex; the residuals of the QCQP after a damped step along a Newton direction of that QP. *)
From Coq Require Import ZArith Bool Arith List Lia Reals Lra.
From Verif Require Import Base ArithF RSum Blas Blas2 QpDataProofs OcpModel ResSpec KktSpec ResProofs ResProofs2 ResProps CoreModel CoreProofs ArgModel IpmModel IpmProofs IpmProofs2 IpmProps IpmInit IpmReal SolveModel KktModel RunModel RunProofs RunProofs2 RunProofs3 RunProofs4
  QcqpModel QcqpSpec QcqpProofs QcqpProofs2 QcqpProofs3 QcqpProps QcqpLinSpec QcqpLin QcqpNewton QcqpMask QcqpLinProps QipmModel QipmProofs QipmProps Qinit QinitProps QipmRealProps QrunSpec QrunProofs.
Local Open Scope R_scope.

(** the quantities of the QCQP depend on the entries in range only *)
Section Ext.
Variable qc : oqcqp R.
Hypothesis Hwf : qc_wf qc.
Notation N := (dN (c_dim qc)).
Notation agree z z' := (forall i k, (i <= N)%nat -> (k < cnv qc i)%nat -> z i k = z' i k).
Lemma qdyn_ext (z z' : nat -> nat -> R) i j : agree z z' -> (i < N)%nat -> (j < dnx (c_dim qc) (S i))%nat -> qdyn qc z i j = qdyn qc z' i j.
Proof.
  intros H Hi Hj. unfold qdyn. rewrite (rsum_ext _ (fun k => c_BAbt qc i k j * z i k) (fun k => c_BAbt qc i k j * z' i k)).
  - rewrite H by (unfold cnv, cnux; lia). reflexivity.
  - intros k Hk. rewrite H by (unfold cnv; lia). reflexivity.
Qed.
Lemma qfun_ext (z z' : nat -> nat -> R) i j : agree z z' -> (i <= N)%nat -> qfun qc z i j = qfun qc z' i j.
Proof.
  intros H Hi. unfold qfun. assert (E : forall k, (k < cnux qc i)%nat -> z i k = z' i k) by (intros k Hk; apply H; [exact Hi|unfold cnv; lia]). f_equal.
  - f_equal. apply rsum_ext. intros k Hk. apply rsum_ext. intros l Hl. rewrite !E by assumption. reflexivity.
  - apply rsum_ext. intros k Hk. rewrite E by assumption. reflexivity.
Qed.
Lemma two_ext (z z' : nat -> nat -> R) i j : agree z z' -> (i <= N)%nat -> (j < cn2 qc i)%nat -> two qc z i j = two qc z' i j.
Proof.
  intros H Hi Hj. unfold two. destruct (Nat.ltb_spec j (dnb (c_dim qc) i)).
  - destruct (Hwf i Hi) as [W _]. apply H; [exact Hi|]. specialize (W j ltac:(assumption)). unfold cnv. lia.
  - destruct (Nat.ltb_spec j (dnb (c_dim qc) i + dng (c_dim qc) i)).
    + apply rsum_ext. intros k Hk. rewrite H by (try exact Hi; unfold cnv; lia). reflexivity.
    + apply qfun_ext; assumption.
Qed.
Lemma slk_ext (z z' : nat -> nat -> R) i j b : agree z z' -> (i <= N)%nat -> (j < cn2 qc i)%nat -> (b <= dns (c_dim qc) i)%nat -> slk qc (cnux qc i + b) z i j = slk qc (cnux qc i + b) z' i j.
Proof.
  intros H Hi Hj Hb. unfold slk. destruct (Z.eqb_spec (c_idxs_rev qc i j) (-1)); [reflexivity|]. destruct (Hwf i Hi) as [_ W]. destruct (W j Hj) as [E|E]; [contradiction|].
  apply H; [exact Hi|]. unfold cnv. lia.
Qed.
Lemma qcon_ext (z z' : nat -> nat -> R) i c : agree z z' -> (i <= N)%nat -> (c < cnc qc i)%nat -> qcon qc z i c = qcon qc z' i c.
Proof.
  intros H Hi Hc. unfold qcon. destruct (Nat.ltb_spec c (cn2 qc i)).
  - rewrite (two_ext z z') by assumption. pose proof (slk_ext z z' i c 0 H Hi ltac:(assumption) ltac:(lia)) as E. rewrite Nat.add_0_r in E. rewrite E. reflexivity.
  - destruct (Nat.ltb_spec c (2 * cn2 qc i)).
    + rewrite (two_ext z z') by (try assumption; lia). rewrite (slk_ext z z') by (try assumption; lia). reflexivity.
    + apply H; [exact Hi|]. unfold cnc in Hc. unfold cnv. lia.
Qed.
Lemma dqcon_ext (z z' : nat -> nat -> R) i c k : agree z z' -> (i <= N)%nat -> dqcon qc z i c k = dqcon qc z' i c k.
Proof.
  intros H Hi. unfold dqcon. assert (E : forall j, dtwo qc z i j k = dtwo qc z' i j k).
  { intros j. unfold dtwo. destruct (j <? _)%nat; [reflexivity|]. destruct (j <? _)%nat; [reflexivity|]. unfold qgrad. f_equal. apply rsum_ext. intros l Hl. rewrite H by (try exact Hi; unfold cnv; lia). reflexivity. }
  rewrite !E. reflexivity.
Qed.
Lemma qkkt_g_ext (z z' pi pi' lam lam' : nat -> nat -> R) i k : agree z z' -> (forall i j, (i < N)%nat -> (j < dnx (c_dim qc) (S i))%nat -> pi i j = pi' i j) ->
  (forall i c, (i <= N)%nat -> (c < cnc qc i)%nat -> act qc i c * lam i c = act qc i c * lam' i c) -> (i <= N)%nat -> (k < cnv qc i)%nat -> qkkt_g qc z pi lam i k = qkkt_g qc z' pi' lam' i k.
Proof.
  intros H Hp Hl Hi Hk. unfold qkkt_g.
  rewrite (rsum_ext _ (fun l => qHess qc i k l * z i l) (fun l => qHess qc i k l * z' i l)) by (intros; rewrite H by assumption; reflexivity).
  rewrite (rsum_ext (cnc qc i) (fun c => dqcon qc z i c k * (act qc i c * lam i c)) (fun c => dqcon qc z' i c k * (act qc i c * lam' i c)))
    by (intros; rewrite Hl, (dqcon_ext z z') by assumption; reflexivity).
  f_equal. f_equal; [f_equal|].
  - destruct (Nat.ltb_spec i N); [|reflexivity]. cbn [andb]. destruct (k <? cnux qc i)%nat; [|reflexivity]. apply rsum_ext. intros j Hj. rewrite Hp by assumption. reflexivity.
  - destruct (Nat.ltb_spec 0 i); [|reflexivity]. cbn [andb]. destruct (Nat.leb_spec (dnu (c_dim qc) i) k); [|reflexivity]. cbn [andb]. destruct (Nat.ltb_spec k (cnux qc i)); [|reflexivity].
    apply Hp; [lia|]. replace (S (i - 1)) with i by lia. unfold cnux in *. lia.
Qed.
End Ext.

Section L.
Variables (qc : oqcqp R) (qp : oqp R) (z lam : nat -> nat -> R) (reg : R).
Let qm := masked_qc qc.
Let D := qcD qc.
Hypothesis Hlin : lin_of qm z lam qp.
Hypothesis Hm : qmask01 qc.
Hypothesis Hwf : qc_wf qc.
Lemma l_dim : q_dim qp = D. Proof. destruct Hlin as [E _]. exact E. Qed.
Lemma l_nct i : nct (q_dim qp) i = cnc qc i. Proof. rewrite l_dim. symmetry. apply cnc_eq. Qed.
Lemma l_nvt i : nvt (q_dim qp) i = cnv qc i. Proof. rewrite l_dim. reflexivity. Qed.
Lemma l_nux i : nux qp i = cnux qc i. Proof. unfold nux. rewrite l_dim. reflexivity. Qed.
Lemma l_mask i c : (i <= dN (c_dim qc))%nat -> (c < cnc qc i)%nat -> q_mask qp i c = mask_lower qc i c.
Proof. intros Hi Hc. destruct Hlin as [_ H]. destruct (H i Hi) as (_ & _ & H3 & _). destruct (H3 c Hc) as (_ & E & _). exact E. Qed.
Lemma l_mask01 : mask01 qp.
Proof. intros i c Hi Hc. rewrite l_nct in Hc. rewrite l_dim in Hi. change (dN D) with (dN (c_dim qc)) in Hi. rewrite l_mask by assumption. apply ml01; assumption. Qed.
Lemma l_wf : qp_wf qp.
Proof.
  intros i Hi. rewrite l_dim in Hi. change (dN D) with (dN (c_dim qc)) in Hi. rewrite l_nux, l_dim. cbn [D qcD qp_dims dnb dng dns]. destruct Hlin as [_ H]. destruct (H i Hi) as (_ & _ & _ & _ & H5 & H6 & _).
  destruct (Hwf i Hi) as [W1 W2]. split.
  - intros j Hj. cbn in Hj. rewrite H5 by exact Hj. apply W1. exact Hj.
  - intros j Hj. cbn in Hj. cbn. assert (Hj' : (j < cn2 qc i)%nat) by (unfold cn2; lia). rewrite (H6 j Hj'). apply W2. exact Hj'.
Qed.
Lemma l_soft : qsoft_inj qc -> soft_inj qp.
Proof.
  intros Hs i j j'. rewrite l_dim. cbn [D qcD qp_dims dN dnb dng]. intros Hi Hj Hj'. destruct Hlin as [_ H]. destruct (H i Hi) as (_ & _ & _ & _ & _ & H6 & _).
  assert (J : (j < cn2 qc i)%nat) by (unfold cn2; lia). assert (J' : (j' < cn2 qc i)%nat) by (unfold cn2; lia). rewrite (H6 j J), (H6 j' J'). intros N E. apply (Hs i); assumption.
Qed.
Lemma imposed_mask i c : (i <= dN (c_dim qc))%nat -> (c < cnc qc i)%nat -> imposed qc i c <-> mask_lower qc i c = 1.
Proof.
  intros Hi Hc. destruct (mask_lower_R qc i c Hi) as [E1 E2]. split.
  - intros (L & S & M). rewrite E2 by assumption. exact M.
  - intros E. destruct (lowerq qc i c) eqn:L; [rewrite E1 in E by (left; reflexivity); lra|]. destruct (lowslack_dec qc i c) as [S|S]; [rewrite E1 in E by (right; exact S); lra|].
    split; [exact L|]. split; [exact S|]. rewrite E2 in E by (try exact S; reflexivity). exact E.
Qed.
Hypothesis Hl : forall i c, (i <= dN (c_dim qc))%nat -> (c < cnc qc i)%nat -> 0 <= mask_lower qc i c * lam i c.
Hypothesis Hprep : q_prepared qm lam.
Lemma l_cx : qrun_convex qc reg -> run_convex reg qp.
Proof.
  intros Hcx. split; rewrite l_dim; cbn [D qcD qp_dims dN dns].
  - intros i v Hi Hv. rewrite l_nux in *. pose proof (qr_H _ _ Hcx i v Hi Hv) as H0.
    rewrite (rsum_ext _ (fun k => rsum (cnux qc i) (fun l => v k * Hess qp i k l * v l))
      (fun k => rsum (cnux qc i) (fun l => v k * qHess qc i k l * v l) + rsum (c_nq qc i) (fun j => mask_lower qc i (uqx qc i j) * lam i (uqx qc i j) * rsum (cnux qc i) (fun l => v k * Hsym qc i j k l * v l)))).
    + rewrite rsum_add. rewrite (rsum_swap (cnux qc i) (c_nq qc i) (fun k j => mask_lower qc i (uqx qc i j) * lam i (uqx qc i j) * rsum (cnux qc i) (fun l => v k * Hsym qc i j k l * v l))). assert (0 <= rsum (c_nq qc i) (fun j => rsum (cnux qc i) (fun k => mask_lower qc i (uqx qc i j) * lam i (uqx qc i j) * rsum (cnux qc i) (fun l => v k * Hsym qc i j k l * v l)))); [|lra].
      apply rsum_nonneg. intros j Hj. rewrite rsum_scal. assert (L2 : (uqx qc i j < cnc qc i)%nat) by (unfold uqx, cnc, cn2; lia).
      destruct (Req_dec (c_mask qc i (uqx qc i j)) 0) as [E|E].
      * assert (Z : mask_lower qc i (uqx qc i j) = 0).
        { destruct (mask_lower_R qc i (uqx qc i j) Hi) as [X1 X2]. destruct (lowerq qc i (uqx qc i j)) eqn:El; [apply X1; left; reflexivity|]. destruct (lowslack_dec qc i (uqx qc i j)) as [L|L]; [apply X1; right; exact L|].
          rewrite X2 by (try exact L; reflexivity). exact E. }
        rewrite Z. lra.
      * apply Rmult_le_pos; [apply Hl; assumption|]. apply (qr_q _ _ Hcx i j v Hi Hj). exact E.
    + intros k Hk.
      assert (Eq : forall j, mask_lower qc i (uqx qc i j) * lam i (uqx qc i j) * rsum (cnux qc i) (fun l => v k * Hsym qc i j k l * v l) =
        rsum (cnux qc i) (fun l => mask_lower qc i (uqx qc i j) * lam i (uqx qc i j) * (v k * Hsym qc i j k l * v l))) by (intros j; rewrite rsum_scal; reflexivity).
      rewrite (rsum_ext (c_nq qc i) _ (fun j => rsum (cnux qc i) (fun l => mask_lower qc i (uqx qc i j) * lam i (uqx qc i j) * (v k * Hsym qc i j k l * v l)))) by (intros; apply Eq).
      rewrite rsum_swap, <- rsum_add. apply rsum_ext. intros l Hll.
      rewrite (lin_H qm qp z lam Hlin Hprep i k l) by (first [exact Hi|change (cnv qm i) with (cnv qc i); unfold cnv; lia]). unfold qlHess.
      change (cnux qm i) with (cnux qc i). destruct (Nat.ltb_spec k (cnux qc i)); [|lia]. destruct (Nat.ltb_spec l (cnux qc i)); [|lia]. cbn [andb].
      rewrite Rmult_plus_distr_l, Rmult_plus_distr_r. f_equal. change (c_nq qm i) with (c_nq qc i). change (cn2 qm i) with (cn2 qc i). change (c_dim qm) with (c_dim qc).
      rewrite Rmult_comm, <- Rmult_assoc, <- rsum_scal. apply rsum_ext. intros j Hj. fold (uqx qc i j). change (uqx qc i j) with (uqx qm i j). rewrite act_up. change (Hsym qm i j k l) with (Hsym qc i j k l).
      change (c_mask qm i (uqx qm i j)) with (mask_lower qc i (uqx qc i j)). change (uqx qm i j) with (uqx qc i j). ring.
  - intros i k Hi Hk. destruct Hlin as [_ H]. destruct (H i Hi) as (_ & _ & _ & H4 & _). rewrite H4 by exact Hk. apply (qr_Z _ _ Hcx); assumption.
  - intros i k Hi Hk. destruct Hlin as [_ H]. destruct (H i Hi) as (_ & _ & _ & H4 & _). rewrite H4 by exact Hk. destruct (qr_slack _ _ Hcx i k Hi Hk) as [Q|Q]; [left; exact Q|right].
    replace (2 * dnb D i + 2 * dng D i + k)%nat with (2 * cn2 qc i + k)%nat by (change (dnb D i) with (dnb (c_dim qc) i); change (dng D i) with (dng (c_dim qc) i + c_nq qc i)%nat; unfold cn2; lia).
    assert (Hc : (2 * cn2 qc i + k < cnc qc i)%nat) by (unfold cnc; lia). pose proof (l_mask i _ Hi Hc) as E. rewrite E. apply imposed_mask; assumption.
Qed.
End L.
