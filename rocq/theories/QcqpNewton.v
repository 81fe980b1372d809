(** QcqpNewton.v -- the linearised QP gives the Newton system of the QCQP's optimality conditions. *)
From Coq Require Import ZArith Bool Arith Lia Reals Lra.
From Verif Require Import Base ArithF RSum Blas Blas2 OcpModel ResSpec ResProofs ResProofs2 SolveModel QcqpModel QcqpSpec QcqpProofs QcqpProofs2 QcqpProofs3 QcqpLinSpec.
Local Open Scope R_scope.

Section Newton.
Variables (qc : oqcqp R) (qp : oqp R) (z pi lam t : nat -> nat -> R).
Let D := c_dim qc.
Hypothesis Hwf : qc_wf qc.
Hypothesis Hlin : lin_of qc z lam qp.
Hypothesis Hprep : q_prepared qc lam.
(** the product H_j v *)
Definition Hv (i j k : nat) (v : nat -> nat -> R) : R := rsum (cnux qc i) (fun l => Hsym qc i j k l * v i l).

Lemma lin_G i c k : (i <= dN D)%nat -> (c < cnc qc i)%nat -> G qp i c k = dqcon qc z i c k.
Proof.
  intros Hi Hc. destruct Hlin as [Hd H]. destruct (H i Hi) as (_ & H2 & _ & _ & H5 & H6 & _).
  rewrite <- G_T. unfold G, nux. rewrite Hd. cbn [tang q_dim q_idxb q_DCt q_idxs_rev qp_dims dnb dng dns dnu dnx]. fold D.
  change (dnu D i + dnx D i)%nat with (cnux qc i). unfold G_co. cbv zeta.
  replace (dnb D i + (dng D i + c_nq qc i))%nat with (cn2 qc i) by (unfold cn2, D; lia).
  assert (Er : forall j, (j < cn2 qc i)%nat -> (k < cnux qc i)%nat -> row_co (dnb D i) (q_idxb qp i) (q_DCt qp i) j k = row_co (dnb D i) (c_idxb qc i) (b_Ct (cnux qc i) (dng D i) (c_DCt qc i) (c_Hq qc i) (z i)) j k).
  { intros j Hj Hk. transitivity (dtwo qc z i j k); [|symmetry; exact (dtwo_T qc z i j k)]. unfold row_co, dtwo. fold D. destruct (Nat.ltb_spec j (dnb D i)) as [Hb|Hb]; [rewrite H5 by exact Hb; reflexivity|].
    rewrite H2 by (try assumption; unfold cn2 in Hj; fold D in Hj |- *; unfold D in *; lia). fold D.
    destruct (Nat.ltb_spec (j - dnb D i) (dng D i)), (Nat.ltb_spec j (dnb D i + dng D i)); try lia; [reflexivity|].
    f_equal. lia. }
  assert (Es : forall off j, (j < cn2 qc i)%nat -> soft_co (q_idxs_rev qp i) off j k = soft_co (c_idxs_rev qc i) off j k).
  { intros off j Hj. unfold soft_co. rewrite H6 by exact Hj. reflexivity. }
  destruct (Nat.ltb_spec c (cn2 qc i)).
  - destruct (Nat.ltb_spec k (cnux qc i)); [apply Er; assumption|apply Es; assumption].
  - destruct (Nat.ltb_spec c (2 * cn2 qc i)); [|reflexivity].
    destruct (Nat.ltb_spec k (cnux qc i)); [rewrite Er by (try assumption; lia); reflexivity|apply Es; lia].
Qed.
Lemma act_up i j : act qc i (uqx qc i j) = c_mask qc i (uqx qc i j).
Proof. unfold act, lowerq, uqx. destruct (Nat.ltb_spec (cn2 qc i + (dnb (c_dim qc) i + dng (c_dim qc) i) + j) (cn2 qc i)); [lia|]. rewrite andb_false_r. reflexivity. Qed.
Lemma act_mask i c : (i <= dN D)%nat -> act qc i c = c_mask qc i c.
Proof.
  intros Hi. unfold act. destruct (lowerq qc i c) eqn:E; [|reflexivity]. unfold lowerq in E. apply andb_prop in E as [E1 E2]. apply Nat.leb_le in E1. apply Nat.ltb_lt in E2.
  destruct (Hprep i Hi (c - (dnb D i + dng D i))%nat) as (E & _); [unfold cn2 in E2; fold D in E1, E2; lia|]. fold D in E1. unfold lq in E. fold D in E.
  replace (dnb D i + dng D i + (c - (dnb D i + dng D i)))%nat with c in E by lia. symmetry. exact E.
Qed.
Lemma lin_H i k l : (i <= dN D)%nat -> (k < cnv qc i)%nat -> (l < cnv qc i)%nat -> Hess qp i k l = qlHess qc lam i k l.
Proof.
  intros Hi Hk Hl. destruct Hlin as [Hd H]. destruct (H i Hi) as (H1 & _ & _ & H4 & _).
  unfold Hess, qlHess, qHess, nux. rewrite Hd. cbn [qp_dims dnu dnx]. change (dnu (c_dim qc) i + dnx (c_dim qc) i)%nat with (cnux qc i).
  assert (Es : forall a b, rsum (c_nq qc i) (fun j => (lam i (uqx qc i j) - lam i (lq qc i j)) * c_Hq qc i j a b) =
     rsum (c_nq qc i) (fun j => act qc i (uqx qc i j) * lam i (uqx qc i j) * c_Hq qc i j a b)).
  { intros a b. apply rsum_ext. intros j Hj. destruct (Hprep i Hi j Hj) as (_ & E2 & E3). rewrite act_up, E2, E3. lra. }
  unfold H_co. destruct (Nat.ltb_spec k (cnux qc i)) as [Hk'|Hk'].
  - destruct (Nat.ltb_spec l (cnux qc i)) as [Hl'|Hl']; cbn [andb]; [|lra].
    unfold Hsym. fold D. destruct (Nat.leb_spec l k).
    + rewrite H1 by assumption. rewrite Es. reflexivity.
    + rewrite H1 by (try assumption; lia). rewrite Es. reflexivity.
  - cbn [andb]. destruct (Nat.eqb_spec k l) as [->|]; [|lra]. rewrite H4 by (unfold cnv in Hk; fold D in Hk |- *; lia). lra.
Qed.
Lemma dq_diff y i c k : (k < cnux qc i)%nat -> dqcon qc y i c k = dqcon qc z i c k - usgn qc i c (fun j => Hv i j k (fun i l => y i l - z i l)).
Proof.
  intros Hk. unfold dqcon. destruct (Nat.ltb_spec k (cnux qc i)); [|lia].
  assert (E : forall j, qgrad qc y i j k = qgrad qc z i j k + Hv i j k (fun i l => y i l - z i l)).
  { intros j. unfold qgrad, Hv. rewrite Rplus_assoc, <- rsum_add. f_equal. apply rsum_ext. intros; lra. }
  unfold usgn, lowerq, dtwo, uq. fold D.
  assert (E2 : cn2 qc i = (dnb D i + dng D i + c_nq qc i)%nat) by reflexivity.
  destruct (Nat.ltb_spec c (cn2 qc i)) as [H1|H1].
  - rewrite andb_true_r. destruct (Nat.leb_spec (dnb D i + dng D i) c) as [H2|H2].
    + destruct (Nat.ltb_spec c (dnb D i)); [lia|]. destruct (Nat.ltb_spec c (dnb D i + dng D i)); [lia|]. rewrite E. lra.
    + destruct (Nat.leb_spec (cn2 qc i + (dnb D i + dng D i) + 0) c); [lia|]. cbn [andb]. destruct (Nat.ltb_spec c (dnb D i)); [lra|]. destruct (Nat.ltb_spec c (dnb D i + dng D i)); [lra|lia].
  - rewrite andb_false_r. destruct (Nat.ltb_spec c (2 * cn2 qc i)) as [H2|H2].
    + rewrite andb_true_r. destruct (Nat.leb_spec (cn2 qc i + (dnb D i + dng D i) + 0) c) as [H3|H3].
      * destruct (Nat.ltb_spec (c - cn2 qc i) (dnb D i)); [lia|]. destruct (Nat.ltb_spec (c - cn2 qc i) (dnb D i + dng D i)); [lia|]. rewrite E.
        replace (c - cn2 qc i - (dnb D i + dng D i))%nat with (c - (cn2 qc i + (dnb D i + dng D i) + 0))%nat by lia. lra.
      * destruct (Nat.ltb_spec (c - cn2 qc i) (dnb D i)); [lra|]. destruct (Nat.ltb_spec (c - cn2 qc i) (dnb D i + dng D i)); [lra|lia].
    + rewrite andb_false_r. lra.
Qed.
Lemma dq_slack y i c k : (cnux qc i <= k)%nat -> dqcon qc y i c k = dqcon qc z i c k.
Proof. intros Hk. unfold dqcon. destruct (Nat.ltb_spec k (cnux qc i)); [lia|]. reflexivity. Qed.

(** the right-hand side: the residuals of the QCQP *)
Definition newton_qp (rm : nat -> nat -> R) : oqp R := with_rhs qp (qkkt_g qc z pi lam) (qdyn qc z) (qkkt_d qc z t) rm.
Variable rm : nat -> nat -> R.
Notation st := (newton_qp rm).
Variables (dz dpi dlam dt : nat -> nat -> R).
Notation add a b := (fun i k => a i k + b i k).

Lemma newton_g i k : (i <= dN D)%nat -> (k < cnv qc i)%nat ->
  kkt_g st dz dpi dlam i k = qkkt_g qc (add z dz) (add pi dpi) (add lam dlam) i k
    - (if (k <? cnux qc i)%nat then rsum (c_nq qc i) (fun j => c_mask qc i (uqx qc i j) * dlam i (uqx qc i j) * Hv i j k dz) else 0).
Proof.
  intros Hi Hk. unfold kkt_g. unfold newton_qp, with_rhs. cbn [q_dim q_rqz q_mask q_BAbt].
  assert (EN : dN (q_dim qp) = dN D /\ dnx (q_dim qp) = dnx D /\ dnu (q_dim qp) = dnu D /\ nvt (q_dim qp) i = cnv qc i /\ nct (q_dim qp) i = cnc qc i /\ nux qp i = cnux qc i).
  { destruct Hlin as [-> _]. rewrite <- cnc_eq. unfold nux. destruct Hlin as [-> _]. repeat split. }
  destruct EN as (EN & Ex & Eu & Ev & Ecc & En).
  change (nux (mkqp (q_dim qp) (q_BAbt qp) (q_RSQ qp) (q_DCt qp) (qdyn qc z) (qkkt_g qc z pi lam) (qkkt_d qc z t) (q_mask qp) rm (q_Z qp) (q_idxb qp) (q_idxs_rev qp))) with (nux qp).
  rewrite EN, Ex, Eu, Ev, Ecc, En.
  change (Hess (mkqp (q_dim qp) (q_BAbt qp) (q_RSQ qp) (q_DCt qp) (qdyn qc z) (qkkt_g qc z pi lam) (qkkt_d qc z t) (q_mask qp) rm (q_Z qp) (q_idxb qp) (q_idxs_rev qp))) with (Hess qp).
  change (G (mkqp (q_dim qp) (q_BAbt qp) (q_RSQ qp) (q_DCt qp) (qdyn qc z) (qkkt_g qc z pi lam) (qkkt_d qc z t) (q_mask qp) rm (q_Z qp) (q_idxb qp) (q_idxs_rev qp))) with (G qp).
  rewrite (rsum_ext (cnv qc i) (fun l => Hess qp i k l * dz i l) (fun l => qlHess qc lam i k l * dz i l)) by (intros l Hl; rewrite lin_H by assumption; reflexivity).
  rewrite (rsum_ext (cnc qc i) (fun c => G qp i c k * (q_mask qp i c * dlam i c)) (fun c => dqcon qc z i c k * (act qc i c * dlam i c))).
  2:{ intros c Hc. rewrite lin_G by assumption. destruct Hlin as [_ H]. destruct (H i Hi) as (_ & _ & H3 & _). destruct (H3 c Hc) as (_ & -> & _). rewrite act_mask by assumption. reflexivity. }
  assert (EB : (if ((i <? dN D) && (k <? cnux qc i))%nat then rsum (dnx D (S i)) (fun j => q_BAbt qp i k j * dpi i j) else 0) = (if ((i <? dN D) && (k <? cnux qc i))%nat then rsum (dnx D (S i)) (fun j => c_BAbt qc i k j * dpi i j) else 0)).
  { destruct (Nat.ltb_spec i (dN D)), (Nat.ltb_spec k (cnux qc i)); cbn [andb]; try reflexivity. apply rsum_ext. intros j Hj. destruct Hlin as [_ H']. destruct (H' i Hi) as (_ & _ & _ & _ & _ & _ & H7).
    destruct (H7 ltac:(assumption) j Hj) as [_ H8]. rewrite H8 by assumption. reflexivity. }
  rewrite EB. clear EB. unfold qkkt_g. fold D.
  (* cost Hessian *)
  assert (E1 : rsum (cnv qc i) (fun l => qHess qc i k l * (z i l + dz i l)) = rsum (cnv qc i) (fun l => qHess qc i k l * z i l) + rsum (cnv qc i) (fun l => qHess qc i k l * dz i l)).
  { rewrite <- rsum_add. apply rsum_ext. intros; lra. }
  assert (E2 : rsum (cnv qc i) (fun l => qlHess qc lam i k l * dz i l) = rsum (cnv qc i) (fun l => qHess qc i k l * dz i l)
     + (if (k <? cnux qc i)%nat then rsum (c_nq qc i) (fun j => act qc i (uqx qc i j) * lam i (uqx qc i j) * Hv i j k dz) else 0)).
  { unfold qlHess. rewrite (rsum_ext _ _ (fun l => qHess qc i k l * dz i l + (if ((k <? cnux qc i) && (l <? cnux qc i))%nat then rsum (c_nq qc i) (fun j => act qc i (uqx qc i j) * lam i (uqx qc i j) * Hsym qc i j k l) * dz i l else 0))).
    2:{ intros l Hl. unfold uqx. destruct ((k <? cnux qc i) && (l <? cnux qc i))%nat; lra. }
    rewrite rsum_add. f_equal. destruct (Nat.ltb_spec k (cnux qc i)) as [Hk'|Hk']; cbn [andb]; [|apply rsum_0; reflexivity].
    unfold cnv. rewrite rsum_split. rewrite (rsum_0 (2 * dns (c_dim qc) i)).
    2:{ intros l Hl. destruct (Nat.ltb_spec (cnux qc i + l) (cnux qc i)); [lia|reflexivity]. }
    rewrite Rplus_0_r. rewrite (rsum_ext (cnux qc i) _ (fun l => rsum (c_nq qc i) (fun j => act qc i (uqx qc i j) * lam i (uqx qc i j) * (Hsym qc i j k l * dz i l)))).
    2:{ intros l Hl. destruct (Nat.ltb_spec l (cnux qc i)); [|lia]. rewrite <- rsum_scal_r. apply rsum_ext. intros; lra. }
    rewrite rsum_swap. apply rsum_ext. intros j _. unfold Hv. rewrite rsum_scal. reflexivity. }
  (* constraints *)
  assert (E3 : rsum (cnc qc i) (fun c => dqcon qc (add z dz) i c k * (act qc i c * (lam i c + dlam i c))) =
     rsum (cnc qc i) (fun c => dqcon qc z i c k * (act qc i c * lam i c)) + rsum (cnc qc i) (fun c => dqcon qc z i c k * (act qc i c * dlam i c))
     - (if (k <? cnux qc i)%nat then rsum (c_nq qc i) (fun j => act qc i (uqx qc i j) * (lam i (uqx qc i j) + dlam i (uqx qc i j)) * Hv i j k dz) else 0)).
  { destruct (Nat.ltb_spec k (cnux qc i)) as [Hk'|Hk'].
    - pose proof (act_usgn qc (add lam dlam) i (fun j => Hv i j k dz)) as U. cbv beta in U. change (uq qc i) with (uqx qc i) in U. rewrite <- U. clear U. rewrite <- rsum_add, <- rsum_sub. apply rsum_ext. intros c Hc.
      rewrite (dq_diff (add z dz)) by exact Hk'.
      rewrite (usgn_ext qc i c (fun j => Hv i j k (fun i0 l => z i0 l + dz i0 l - z i0 l)) (fun j => Hv i j k dz)).
      2:{ intros j _. unfold Hv. apply rsum_ext. intros; lra. }
      lra.
    - rewrite Rminus_0_r, <- rsum_add. apply rsum_ext. intros c Hc. rewrite (dq_slack (add z dz)) by exact Hk'. lra. }
  assert (E4 : rsum (dnx D (S i)) (fun j => c_BAbt qc i k j * (pi i j + dpi i j)) = rsum (dnx D (S i)) (fun j => c_BAbt qc i k j * pi i j) + rsum (dnx D (S i)) (fun j => c_BAbt qc i k j * dpi i j)).
  { rewrite <- rsum_add. apply rsum_ext. intros; lra. }
  cbv beta. rewrite E1, E2, E3, E4.
  assert (E5 : rsum (c_nq qc i) (fun j => act qc i (uqx qc i j) * (lam i (uqx qc i j) + dlam i (uqx qc i j)) * Hv i j k dz) =
     rsum (c_nq qc i) (fun j => act qc i (uqx qc i j) * lam i (uqx qc i j) * Hv i j k dz) + rsum (c_nq qc i) (fun j => c_mask qc i (uqx qc i j) * dlam i (uqx qc i j) * Hv i j k dz)).
  { rewrite <- rsum_add. apply rsum_ext. intros j _. rewrite act_up. lra. }
  rewrite E5.
  destruct ((i <? dN D) && (k <? cnux qc i))%nat, ((0 <? i) && (dnu D i <=? k) && (k <? cnux qc i))%nat, (k <? cnux qc i)%nat; lra.
Qed.
Lemma newton_b i j : (i < dN D)%nat -> (j < dnx D (S i))%nat -> dyn st dz i j = qdyn qc (add z dz) i j.
Proof.
  intros Hi Hj. unfold dyn, newton_qp, with_rhs, nux. cbn [q_dim q_BAbt q_b]. unfold qdyn. destruct Hlin as [Hd H]. rewrite Hd. cbn [qp_dims dnu dnx]. fold D.
  change (dnu D i + dnx D i)%nat with (cnux qc i). destruct (H i ltac:(unfold D in *; lia)) as (_ & _ & _ & _ & _ & _ & H7). destruct (H7 Hi j Hj) as [_ H8].
  rewrite (rsum_ext _ _ (fun k => c_BAbt qc i k j * dz i k)) by (intros k Hk; rewrite H8 by assumption; reflexivity).
  rewrite (rsum_ext _ (fun k => c_BAbt qc i k j * (z i k + dz i k)) (fun k => c_BAbt qc i k j * z i k + c_BAbt qc i k j * dz i k)) by (intros; lra).
  rewrite rsum_add. lra.
Qed.
Lemma con_st i c : (i <= dN D)%nat -> (c < cnc qc i)%nat -> con st dz i c = qcon qc (add z dz) i c - qcon qc z i c + usgn qc i c (fun j => 1 / 2 * rsum (cnux qc i) (fun k => dz i k * Hv i j k dz)).
Proof.
  intros Hi Hc.
  assert (E : con st dz i c = con (tang qc z) dz i c).
  { unfold con. unfold newton_qp, with_rhs. cbn [q_dim]. assert (Ev : nvt (q_dim qp) i = nvt (q_dim (tang qc z)) i) by (destruct Hlin as [-> _]; reflexivity). rewrite Ev.
    apply rsum_ext. intros k _. f_equal. change (G qp i c k = G (tang qc z) i c k). rewrite lin_G, G_T by assumption. reflexivity. }
  rewrite E. pose proof (con_T qc (add z dz) z i c Hi Hwf Hc) as A. pose proof (con_T_at qc z i c Hi Hwf Hc) as B.
  pose proof (con_sub (tang qc z) (add z dz) z i c) as C.
  assert (E2 : con (tang qc z) (fun i k => z i k + dz i k - z i k) i c = con (tang qc z) dz i c).
  { unfold con. apply rsum_ext. intros k _. lra. }
  cbv beta in C. rewrite E2 in C. rewrite C.
  rewrite (usgn_ext qc i c (fun j => 1 / 2 * rsum (cnux qc i) (fun k => dz i k * Hv i j k dz)) (qrem qc (add z dz) z i)).
  2:{ intros j _. unfold qrem, Hv. f_equal. apply rsum_ext. intros k _. rewrite <- rsum_scal. apply rsum_ext. intros l _. lra. }
  lra.
Qed.
Lemma newton_d i c : (i <= dN D)%nat -> (c < cnc qc i)%nat -> c_mask qc i c = 0 \/ c_mask qc i c = 1 ->
  kkt_d st dz dt i c = qkkt_d qc (add z dz) (add t dt) i c
    - c_mask qc i c * (if ((uqx qc i 0 <=? c) && (c <? 2 * cn2 qc i))%nat then 1 / 2 * rsum (cnux qc i) (fun k => dz i k * Hv i (c - uqx qc i 0) k dz) else 0).
Proof.
  intros Hi Hc Hm. unfold kkt_d. rewrite con_st by assumption. unfold newton_qp, with_rhs. cbn [q_mask q_d].
  destruct Hlin as [_ H]. destruct (H i Hi) as (_ & _ & H3 & _). destruct (H3 c Hc) as (_ & -> & _). clear H3 H.
  unfold qkkt_d. unfold usgn. destruct (lowerq qc i c) eqn:E.
  - assert (c_mask qc i c = 0). { rewrite <- act_mask by assumption. unfold act. rewrite E. reflexivity. } rewrite H. lra.
  - change (uq qc i 0) with (uqx qc i 0). destruct ((uqx qc i 0 <=? c) && (c <? 2 * cn2 qc i))%nat; destruct Hm as [-> | ->]; lra.
Qed.
Lemma newton_m i c : (i <= dN D)%nat -> (c < cnc qc i)%nat -> c_mask qc i c = 0 \/ c_mask qc i c = 1 -> rm i c = qkkt_m qc lam t i c ->
  q_mask st i c * (q_m st i c + lam i c * dt i c + dlam i c * t i c) = qkkt_m qc (add lam dlam) (add t dt) i c - c_mask qc i c * (dlam i c * dt i c).
Proof.
  intros Hi Hc Hm Hr. unfold newton_qp, with_rhs. cbn [q_mask q_m]. destruct Hlin as [_ H]. destruct (H i Hi) as (_ & _ & H3 & _). destruct (H3 c Hc) as (_ & -> & _).
  rewrite Hr. unfold qkkt_m. rewrite act_mask by assumption. destruct Hm as [-> | ->]; lra.
Qed.
End Newton.

(** affine dependence on the step *)
Lemma kkt_g_scal (q : oqp R) dz dpi dlam a i k :
  kkt_g q (fun i k => a * dz i k) (fun i k => a * dpi i k) (fun i k => a * dlam i k) i k = (1 - a) * q_rqz q i k + a * kkt_g q dz dpi dlam i k.
Proof.
  unfold kkt_g.
  rewrite (rsum_ext _ (fun l => Hess q i k l * (a * dz i l)) (fun l => a * (Hess q i k l * dz i l))) by (intros; lra). rewrite rsum_scal.
  rewrite (rsum_ext (dnx (q_dim q) (S i)) (fun j => q_BAbt q i k j * (a * dpi i j)) (fun j => a * (q_BAbt q i k j * dpi i j))) by (intros; lra). rewrite rsum_scal.
  rewrite (rsum_ext _ (fun c => G q i c k * (q_mask q i c * (a * dlam i c))) (fun c => a * (G q i c k * (q_mask q i c * dlam i c)))) by (intros; lra). rewrite rsum_scal.
  destruct (_ && _)%bool; destruct (_ && _ && _)%bool; lra.
Qed.
Lemma con_scal (q : oqp R) dz a i c : con q (fun i k => a * dz i k) i c = a * con q dz i c.
Proof. unfold con. rewrite <- rsum_scal. apply rsum_ext. intros; lra. Qed.
