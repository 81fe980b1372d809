(** DqrunProofs2.v -- the QP linearising a convex dense QCQP is convex; the quantities of the QCQP depend on the entries in range only. *)
From Coq Require Import ZArith Bool Arith List Lia Reals Lra.
From Verif Require Import Base ArithF RSum Blas Blas2 OcpModel ResSpec ResProofs ResProofs2 ArgModel DenModel DenSpec DenProofs DenKktModel DenKktSpec
  QcqpModel QcqpSpec QcqpProofs QcqpProofs2 QcqpProofs3 QcqpLinSpec QcqpLin QcqpNewton QcqpMask DqcModel DqcSpec DqcProofs DqlModel DqlSpec DqlProofs DenIpmModel DqiModel DqiReal DrunModel DrunProofs4 DqrunSpec.
From Verif Require QrunProofs2.
Local Open Scope R_scope.
Notation rv := (nat -> R).

Section Ext.
Variable q : dqcqp R.
Hypothesis Hwf : dqc_wf q.
Notation agree z z' := (forall k, (k < dqnv q)%nat -> z k = z' k).
Lemma dq_eq_ext (z z' : rv) j : agree z z' -> dq_eq q z j = dq_eq q z' j.
Proof. intros H. unfold dq_eq. f_equal. apply rsum_ext. intros k Hk. rewrite H by (unfold dqnv; lia). reflexivity. Qed.
Lemma dq_con_ext (z z' : rv) c : agree z z' -> (c < dqnc q)%nat -> dq_con q z c = dq_con q z' c.
Proof. intros H Hc. exact (QrunProofs2.qcon_ext (one_qc q) (oneq_wf q Hwf) (fun _ => z) (fun _ => z') 0 c (fun _ k _ Hk => H k Hk) (Nat.le_refl 0) Hc). Qed.
Lemma dq_kkt_g_ext (z z' pi pi' lam lam' : rv) k : agree z z' -> (forall j, (j < dq_ne q)%nat -> pi j = pi' j) ->
  (forall c, (c < dqnc q)%nat -> dq_act q c * lam c = dq_act q c * lam' c) -> (k < dqnv q)%nat -> dq_kkt_g q z pi lam k = dq_kkt_g q z' pi' lam' k.
Proof.
  intros H Hp Hl Hk.
  pose proof (QrunProofs2.qkkt_g_ext (one_qc q) (fun _ => z) (fun _ => z') (fun _ => pi) (fun _ => pi') (fun _ => lam) (fun _ => lam') 0 k
    (fun _ k _ Hk => H k Hk) (fun i j Hi _ => match Nat.nlt_0_r i Hi with end) (fun _ c _ Hc => Hl c Hc) (Nat.le_refl 0) Hk) as E.
  rewrite !oneq_kkt_g in E. destruct (k <? dq_nv q)%nat; [|lra].
  assert (EA : rsum (dq_ne q) (fun j => dq_A q j k * pi j) = rsum (dq_ne q) (fun j => dq_A q j k * pi' j)) by (apply rsum_ext; intros j Hj; rewrite Hp by exact Hj; reflexivity).
  lra.
Qed.
End Ext.

Section L.
Variables (q : dqcqp R) (qp : dqp R) (z lam : rv) (reg dreg : R) (alg : Z).
Let qm := dqc_masked q.
Hypothesis Hlin : dlin_of qm z lam qp.
Hypothesis Hm : dq_mask01 q.
Hypothesis Hwf : dqc_wf q.
Lemma l_same : dq_same_dims q qp. Proof. destruct Hlin as [((L1 & L2 & L3 & L4 & L5) & _) _]. repeat split; assumption. Qed.
Lemma l_nct : d_nct qp = dqnc q. Proof. destruct l_same as (E1 & E2 & E3 & E4 & E5). unfold d_nct. rewrite E3, E4, E5. unfold dqnc, dqn2. lia. Qed.
Lemma l_nvt : dnv qp = dqnv q. Proof. destruct l_same as (E1 & E2 & E3 & E4 & E5). unfold dnv. rewrite E1, E5. reflexivity. Qed.
Lemma l_nv : d_nv qp = dq_nv q. Proof. apply l_same. Qed.
Lemma l_ne : d_ne qp = dq_ne q. Proof. apply l_same. Qed.
Lemma l_ns : d_ns qp = dq_ns q. Proof. apply l_same. Qed.
Lemma l_n2 : (d_nb qp + d_ng qp)%nat = dqn2 q. Proof. destruct l_same as (E1 & E2 & E3 & E4 & E5). rewrite E3, E4. unfold dqn2. lia. Qed.
Lemma l_mask c : (c < dqnc q)%nat -> d_mask qp c = dqc_mask_lower q c.
Proof. intros Hc. destruct Hlin as [(_ & _ & _ & _ & _ & E & _) _]. exact (E c Hc). Qed.
Lemma l_A j k : (j < dq_ne q)%nat -> (k < dq_nv q)%nat -> d_A qp j k = dq_A q j k.
Proof. intros Hj Hk. destruct Hlin as [(_ & E & _) _]. exact (E j k Hj Hk). Qed.
Lemma l_Z k : (k < 2 * dq_ns q)%nat -> d_Z qp k = dq_Z q k.
Proof. intros Hk. destruct Hlin as [(_ & _ & _ & _ & _ & _ & E & _) _]. exact (E k Hk). Qed.
Lemma l_rev j : (j < dqn2 q)%nat -> d_idxs_rev qp j = dq_idxs_rev q j.
Proof. intros Hk. destruct Hlin as [(_ & _ & _ & _ & _ & _ & _ & _ & E) _]. exact (E j Hk). Qed.
Lemma l_idxb j : (j < dq_nb q)%nat -> d_idxb qp j = dq_idxb q j.
Proof. intros Hk. destruct Hlin as [(_ & _ & _ & _ & _ & _ & _ & E & _) _]. exact (E j Hk). Qed.
Lemma l_mask01 : den_mask01 qp.
Proof. intros c Hc. rewrite l_nct in Hc. rewrite l_mask by exact Hc. apply (dml01 q Hm). exact Hc. Qed.
Lemma l_wf : den_wf qp.
Proof.
  destruct Hwf as [W1 W2]. pose proof l_n2 as N2. destruct l_same as (E1 & E2 & E3 & E4 & E5). split.
  - intros j Hj. rewrite E3 in Hj. rewrite l_idxb, E1 by exact Hj. apply W1. exact Hj.
  - intros j Hj. assert (Hj' : (j < dqn2 q)%nat) by lia. rewrite l_rev, E5 by exact Hj'. apply W2. exact Hj'.
Qed.
Lemma l_soft : dq_soft_inj q -> den_soft_inj qp.
Proof. intros Hs j j'. rewrite l_n2. intros Hj Hj'. rewrite (l_rev j Hj), (l_rev j' Hj'). apply Hs; assumption. Qed.
Lemma dimposed_mask c : (c < dqnc q)%nat -> dimposed q c <-> dqc_mask_lower q c = 1.
Proof.
  intros Hc. destruct (dmask_lower_R q c) as [E1 E2]. split.
  - intros (L & S & M). rewrite E2 by assumption. exact M.
  - intros E. destruct (dq_lower q c) eqn:L; [rewrite E1 in E by (left; reflexivity); lra|]. destruct (dlowslack_dec q c) as [S|S]; [rewrite E1 in E by (right; exact S); lra|].
    split; [exact L|]. split; [exact S|]. rewrite E2 in E by (try exact S; reflexivity). exact E.
Qed.
Hypothesis Hl : forall c, (c < dqnc q)%nat -> 0 <= dqc_mask_lower q c * lam c.
Hypothesis Hprep : dq_prepared qm lam.
Lemma l_Hess k l : (k < dq_nv q)%nat -> (l < dq_nv q)%nat -> den_Hess qp k l = dq_Hess q k l + rsum (dq_nq q) (fun j => dqc_mask_lower q (duq q j) * lam (duq q j) * dq_Hsym q j k l).
Proof.
  intros Hk Hk'. destruct Hlin as [_ (V1 & _)]. change (dq_nv qm) with (dq_nv q) in V1. change (dq_nq qm) with (dq_nq q) in V1. unfold den_Hess, dq_Hess, H_co. rewrite l_nv.
  destruct (Nat.ltb_spec k (dq_nv q)); [|lia]. destruct (Nat.ltb_spec l (dq_nv q)); [|lia].
  assert (P : forall j, (j < dq_nq q)%nat -> lam (duq qm j) - lam (dlq qm j) = dqc_mask_lower q (duq q j) * lam (duq q j)).
  { intros j Hj. destruct (Hprep j Hj) as (_ & P2 & P3). change (dlq qm j) with (dlq q j) in *. change (duq qm j) with (duq q j) in *. change (dq_mask qm (duq q j)) with (dqc_mask_lower q (duq q j)) in P3. rewrite P2, P3. lra. }
  destruct (Nat.leb_spec l k).
  - rewrite V1 by assumption. f_equal. apply rsum_ext. intros j Hj. rewrite P by exact Hj. unfold dq_Hsym. destruct (Nat.leb_spec l k); [reflexivity|lia].
  - rewrite V1 by (try assumption; lia). f_equal. apply rsum_ext. intros j Hj. rewrite P by exact Hj. unfold dq_Hsym. destruct (Nat.leb_spec l k); [lia|reflexivity].
Qed.
Lemma l_quad (p : rv) : dq_con_psd q -> dq_quad q p <= den_quad qp p.
Proof.
  intros Hq. unfold den_quad. rewrite l_nv.
  assert (E : rsum (dq_nv q) (fun k => rsum (dq_nv q) (fun l => p k * den_Hess qp k l * p l)) =
    dq_quad q p + rsum (dq_nq q) (fun j => dqc_mask_lower q (duq q j) * lam (duq q j) * rsum (dq_nv q) (fun k => rsum (dq_nv q) (fun l => p k * dq_Hsym q j k l * p l)))).
  { unfold dq_quad.
    rewrite (rsum_ext (dq_nv q) (fun k => rsum (dq_nv q) (fun l => p k * den_Hess qp k l * p l))
      (fun k => rsum (dq_nv q) (fun l => p k * dq_Hess q k l * p l) + rsum (dq_nq q) (fun j => dqc_mask_lower q (duq q j) * lam (duq q j) * rsum (dq_nv q) (fun l => p k * dq_Hsym q j k l * p l)))).
    - rewrite rsum_add. f_equal. rewrite (rsum_swap (dq_nv q) (dq_nq q) (fun k j => dqc_mask_lower q (duq q j) * lam (duq q j) * rsum (dq_nv q) (fun l => p k * dq_Hsym q j k l * p l))).
      apply rsum_ext. intros j Hj. apply rsum_scal.
    - intros k Hk.
      rewrite (rsum_ext (dq_nq q) (fun j => dqc_mask_lower q (duq q j) * lam (duq q j) * rsum (dq_nv q) (fun l => p k * dq_Hsym q j k l * p l))
        (fun j => rsum (dq_nv q) (fun l => dqc_mask_lower q (duq q j) * lam (duq q j) * (p k * dq_Hsym q j k l * p l)))) by (intros; rewrite rsum_scal; reflexivity).
      rewrite rsum_swap, <- rsum_add. apply rsum_ext. intros l Hll. rewrite l_Hess by assumption. rewrite Rmult_plus_distr_l, Rmult_plus_distr_r. f_equal.
      rewrite Rmult_comm, <- Rmult_assoc, <- rsum_scal. apply rsum_ext. intros j Hj. ring. }
  rewrite E. assert (0 <= rsum (dq_nq q) (fun j => dqc_mask_lower q (duq q j) * lam (duq q j) * rsum (dq_nv q) (fun k => rsum (dq_nv q) (fun l => p k * dq_Hsym q j k l * p l)))); [|lra].
  apply rsum_nonneg. intros j Hj. assert (L2 : (duq q j < dqnc q)%nat) by (unfold duq, dqnc, dqn2; lia).
  destruct (Req_dec (dq_mask q (duq q j)) 0) as [E0|E0].
  - assert (Z : dqc_mask_lower q (duq q j) = 0).
    { destruct (dmask_lower_R q (duq q j)) as [X1 X2]. destruct (dq_lower q (duq q j)) eqn:El; [apply X1; left; reflexivity|]. destruct (dlowslack_dec q (duq q j)) as [L|L]; [apply X1; right; exact L|].
      rewrite X2 by (try exact L; reflexivity). exact E0. }
    rewrite Z. lra.
  - apply Rmult_le_pos; [apply Hl; exact L2|]. apply (Hq j p Hj). exact E0.
Qed.
Lemma l_dir p : (alg = 0%Z -> forall j, (j < d_ne qp)%nat -> rsum (d_nv qp) (fun k => d_A qp j k * p k) = 0) -> dq_dir q alg p.
Proof.
  intros H E j Hj. rewrite <- (H E j) by (rewrite l_ne; exact Hj). rewrite l_nv. apply rsum_ext. intros k Hk. rewrite l_A by assumption. reflexivity.
Qed.
Lemma l_cx : dqrun_convex q reg dreg alg -> drun_convex reg dreg alg qp.
Proof.
  intros Hcx. split.
  - exact (dqx_reg _ _ _ _ Hcx).
  - rewrite l_ns. intros k Hk. rewrite l_Z by exact Hk. apply (dqx_Z _ _ _ _ Hcx). exact Hk.
  - rewrite l_ns. intros k Hk. rewrite l_Z by exact Hk. destruct (dqx_slack _ _ _ _ Hcx k Hk) as [Q|Q]; [left; exact Q|right].
    replace (2 * d_nb qp + 2 * d_ng qp + k)%nat with (2 * dqn2 q + k)%nat by (pose proof l_n2; lia).
    assert (Hc : (2 * dqn2 q + k < dqnc q)%nat) by (unfold dqnc; lia). rewrite l_mask by exact Hc. apply dimposed_mask; assumption.
  - intros p Hp. pose proof (dqx_H0 _ _ _ _ Hcx p (l_dir p Hp)) as H. pose proof (l_quad p (dqx_q _ _ _ _ Hcx)). lra.
  - intros p Hp (k & Hk & Nk). rewrite l_nv in Hk. assert (Hex : exists k, (k < dq_nv q)%nat /\ p k <> 0) by (exists k; split; assumption).
    pose proof (dqx_H _ _ _ _ Hcx p (l_dir p Hp) Hex) as H. pose proof (l_quad p (dqx_q _ _ _ _ Hcx)) as H2. rewrite l_nv. lra.
  - intros Hn Ha. rewrite l_ne in Hn. destruct (dqx_A _ _ _ _ Hcx Hn Ha) as [H1 H2]. split; [exact H1|]. intros y (j & Hj & Ny). rewrite l_ne in Hj.
    destruct (H2 y (ex_intro _ j (conj Hj Ny))) as [H3|(k & Hk & H3)]; [left; exact H3|right]. exists k. rewrite l_nv, l_ne. split; [exact Hk|].
    rewrite (rsum_ext _ (fun j => y j * d_A qp j k) (fun j => y j * dq_A q j k)) by (intros j' Hj'; rewrite l_A by assumption; reflexivity). exact H3.
Qed.
End L.
