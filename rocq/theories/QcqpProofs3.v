(** QcqpProofs3.v -- whole-horizon QCQP residuals, in the terms of QcqpSpec.v; duality. *)
From Coq Require Import ZArith Bool Arith Lia Reals Lra.
From Verif Require Import Base ArithF RSum Blas Blas2 OcpModel ResSpec ResProofs ResProofs2 QcqpModel QcqpSpec QcqpProofs QcqpProofs2.
Local Open Scope R_scope.

Section Bridge.
Variable qc : oqcqp R.
Let D := c_dim qc.
Lemma cnc_eq i : cnc qc i = nct (qp_dims (c_dim qc) (c_nq qc)) i.
Proof. unfold cnc, cn2, nct. cbn [qp_dims dnb dng dns]. lia. Qed.
Lemma cnc_eqD i : nct (qp_dims D (c_nq qc)) i = cnc qc i.
Proof. symmetry. apply cnc_eq. Qed.
Lemma tang_wf z : qc_wf qc -> qp_wf (tang qc z).
Proof.
  intros H i Hi. destruct (H i Hi) as [A B]. split; [exact A|]. intros j Hj. apply B. unfold cn2. cbn [tang q_dim qp_dims dnb dng] in Hj. lia.
Qed.
Lemma dtwo_T z i j k : row_co (dnb D i) (c_idxb qc i) (b_Ct (cnux qc i) (dng D i) (c_DCt qc i) (c_Hq qc i) (z i)) j k = dtwo qc z i j k.
Proof.
  unfold row_co, dtwo. fold D. destruct (Nat.ltb_spec j (dnb D i)); [reflexivity|]. unfold b_Ct.
  destruct (Nat.ltb_spec (j - dnb D i) (dng D i)), (Nat.ltb_spec j (dnb D i + dng D i)); try lia; [reflexivity|].
  unfold b_grad, qgrad. fold D. replace (j - dnb D i - dng D i)%nat with (j - (dnb D i + dng D i))%nat by lia. reflexivity.
Qed.
Lemma G_T z i c k : G (tang qc z) i c k = dqcon qc z i c k.
Proof.
  unfold G. change (nux (tang qc z) i) with (cnux qc i). cbn [tang q_dim q_idxb q_DCt q_idxs_rev qp_dims dnb dng dns]. fold D. unfold G_co, dqcon. cbv zeta.
  replace (dnb D i + (dng D i + c_nq qc i))%nat with (cn2 qc i) by (unfold cn2, D; lia).
  rewrite !dtwo_T. reflexivity.
Qed.
(** the remainder of the linearisation of quadratic constraint j *)
Definition qrem (y z : nat -> nat -> R) (i j : nat) : R :=
  1 / 2 * rsum (cnux qc i) (fun k => rsum (cnux qc i) (fun l => (y i k - z i k) * Hsym qc i j k l * (y i l - z i l))).
Lemma Hsym_sym i j k l : Hsym qc i j k l = Hsym qc i j l k.
Proof. unfold Hsym. destruct (Nat.leb_spec l k), (Nat.leb_spec k l); try reflexivity; try lia. replace k with l by lia. reflexivity. Qed.
Lemma qfun_lin y z i j : qfun qc y i j = rsum (cnux qc i) (fun k => qgrad qc z i j k * y i k) - b_h (cnux qc i) (c_Hq qc i) (z i) j + qrem y z i j.
Proof.
  unfold qfun, qrem. rewrite (quad_expand (cnux qc i) (Hsym qc i j) (z i) (y i)) by (intros; apply Hsym_sym).
  set (n := cnux qc i). set (HZ := fun k => rsum n (fun l => Hsym qc i j k l * z i l)).
  assert (E1 : rsum n (fun k => qgrad qc z i j k * y i k) = rsum n (fun k => c_DCt qc i k (dng D i + j)%nat * y i k) + rsum n (fun k => HZ k * y i k)).
  { rewrite <- rsum_add. apply rsum_ext. intros k _. unfold qgrad, HZ. fold n D. lra. }
  assert (E2 : rsum n (fun k => rsum n (fun l => z i k * Hsym qc i j k l * z i l)) = rsum n (fun k => HZ k * z i k)).
  { apply rsum_ext. intros k _. unfold HZ. rewrite <- rsum_scal_r. apply rsum_ext. intros; lra. }
  assert (E3 : b_h n (c_Hq qc i) (z i) j = 1 / 2 * rsum n (fun k => HZ k * z i k)) by reflexivity.
  assert (E4 : rsum n (fun k => HZ k * (y i k - z i k)) = rsum n (fun k => HZ k * y i k) - rsum n (fun k => HZ k * z i k)).
  { rewrite <- rsum_sub. apply rsum_ext. intros; lra. }
  change (rsum n (fun k => rsum n (fun l => Hsym qc i j k l * z i l) * (y i k - z i k))) with (rsum n (fun k => HZ k * (y i k - z i k))).
  fold D. rewrite E1, E2, E3, E4. lra.
Qed.
Definition uq (i j : nat) : nat := (cn2 qc i + (dnb (c_dim qc) i + dng (c_dim qc) i) + j)%nat.
Lemma row_T y z i j : (i <= dN D)%nat -> qc_wf qc -> (j < cn2 qc i)%nat ->
  rsum (cnux qc i) (fun k => dtwo qc z i j k * y i k) =
  if (j <? dnb D i + dng D i)%nat then two qc y i j
  else two qc y i j - qrem y z i (j - (dnb D i + dng D i)) + b_h (cnux qc i) (c_Hq qc i) (z i) (j - (dnb D i + dng D i)).
Proof.
  intros Hi Hwf Hj. unfold two, dtwo. fold D. destruct (Nat.ltb_spec j (dnb D i)) as [L|L].
  - destruct (Nat.ltb_spec j (dnb D i + dng D i)); [|lia].
    rewrite <- (rsum_one' (cnux qc i) (c_idxb qc i j) (y i)) by (apply (proj1 (Hwf i Hi)); exact L).
    apply rsum_ext. intros k _. destruct (c_idxb qc i j =? k)%nat; lra.
  - destruct (Nat.ltb_spec j (dnb D i + dng D i)); [reflexivity|].
    rewrite (qfun_lin y z). lra.
Qed.
(** constraint values of the tangent QP *)
Definition usgn (i c : nat) (v : nat -> R) : R :=
  if lowerq qc i c then - v (c - (dnb D i + dng D i))%nat else if ((uq i 0 <=? c) && (c <? 2 * cn2 qc i))%nat then v (c - uq i 0)%nat else 0.
Lemma con_T y z i c : (i <= dN D)%nat -> qc_wf qc -> (c < cnc qc i)%nat ->
  con (tang qc z) y i c - q_d (tang qc z) i c = qcon qc y i c - c_d qc i c + usgn i c (qrem y z i).
Proof.
  intros Hi Hwf Hc. pose proof (tang_wf z Hwf i Hi) as Hst.
  unfold con. change (nvt (q_dim (tang qc z)) i) with (cnux qc i + 2 * dns D i)%nat. unfold G.
  change (nux (tang qc z) i) with (cnux qc i) in *. cbn [tang q_dim q_idxb q_DCt q_idxs_rev q_d qp_dims dnb dng dns dN] in *. fold D in Hst |- *.
  unfold qcon, usgn, lowerq. fold D. unfold uq. fold D.
  assert (E2 : (dnb D i + (dng D i + c_nq qc i) = cn2 qc i)%nat) by (unfold cn2, D; lia).
  assert (E3 : (cn2 qc i = dnb D i + dng D i + c_nq qc i)%nat) by reflexivity.
  unfold b_d.
  assert (Erow : forall j, (j < cn2 qc i)%nat -> rsum (cnux qc i) (fun k => row_co (dnb D i) (c_idxb qc i) (b_Ct (cnux qc i) (dng D i) (c_DCt qc i) (c_Hq qc i) (z i)) j k * y i k) =
     if (j <? dnb D i + dng D i)%nat then two qc y i j
     else two qc y i j - qrem y z i (j - (dnb D i + dng D i)) + b_h (cnux qc i) (c_Hq qc i) (z i) (j - (dnb D i + dng D i))).
  { intros j Hj. rewrite <- (row_T y z i j Hi Hwf Hj). apply rsum_ext. intros k _. rewrite dtwo_T. reflexivity. }
  destruct (Nat.ltb_spec c (cn2 qc i)) as [L|L]; [|destruct (Nat.ltb_spec c (2 * cn2 qc i)) as [L2|L2]].
  - rewrite G_val_lo by (try exact Hst; lia). rewrite Erow by assumption. unfold slk.
    destruct (Nat.ltb_spec c (dnb D i + dng D i)) as [M|M].
    + destruct (Nat.leb_spec (dnb D i + dng D i) c); [lia|]. cbn [andb]. destruct (Nat.leb_spec (2 * dnb D i + 2 * dng D i + c_nq qc i) c); [lia|].
      destruct (Nat.leb_spec (cn2 qc i + (dnb D i + dng D i) + 0) c); [lia|]. cbn [andb]. lra.
    + destruct (Nat.leb_spec (dnb D i + dng D i) c); [|lia]. destruct (Nat.ltb_spec c (dnb D i + dng D i + c_nq qc i)); [|lia]. cbn [andb]. lra.
  - rewrite G_val_up by (try exact Hst; lia). rewrite E2. rewrite Erow by lia. unfold slk.
    destruct (Nat.ltb_spec c (dnb D i + dng D i + c_nq qc i)); [lia|]. rewrite !andb_false_r.
    destruct (Nat.ltb_spec (c - cn2 qc i) (dnb D i + dng D i)) as [M|M].
    + destruct (Nat.leb_spec (2 * dnb D i + 2 * dng D i + c_nq qc i) c); [lia|].
      destruct (Nat.leb_spec (cn2 qc i + (dnb D i + dng D i) + 0) c); [lia|]. cbn [andb]. lra.
    + destruct (Nat.leb_spec (2 * dnb D i + 2 * dng D i + c_nq qc i) c); [|lia].
      destruct (Nat.leb_spec (cn2 qc i + (dnb D i + dng D i) + 0) c); [|lia].
      destruct (Nat.ltb_spec c (2 * (dnb D i + dng D i + c_nq qc i))); [|lia]. cbn [andb].
      replace (c - (2 * dnb D i + 2 * dng D i + c_nq qc i))%nat with (c - cn2 qc i - (dnb D i + dng D i))%nat by lia.
      replace (c - (cn2 qc i + (dnb D i + dng D i) + 0))%nat with (c - cn2 qc i - (dnb D i + dng D i))%nat by lia. lra.
  - rewrite G_val_sl by (try exact Hst; unfold cnc in Hc; fold D in Hc; lia). rewrite E2.
    destruct (Nat.ltb_spec c (dnb D i + dng D i + c_nq qc i)); [lia|]. rewrite !andb_false_r.
    destruct (Nat.ltb_spec c (2 * (dnb D i + dng D i + c_nq qc i))); [lia|]. rewrite !andb_false_r. lra.
Qed.
Lemma qrem_0 z i j : qrem z z i j = 0.
Proof. unfold qrem. rewrite rsum_0; [lra|]. intros k _. apply rsum_0. intros; lra. Qed.
Lemma usgn_ext i c v w : (forall j, (j < c_nq qc i)%nat -> v j = w j) -> usgn i c v = usgn i c w.
Proof.
  intros H. unfold usgn, lowerq, uq, cn2. fold D. destruct (Nat.leb_spec (dnb D i + dng D i) c), (Nat.ltb_spec c (dnb D i + dng D i + c_nq qc i)); cbn [andb];
  try (rewrite H by lia; reflexivity); (destruct (Nat.leb_spec (dnb D i + dng D i + c_nq qc i + (dnb D i + dng D i) + 0) c); cbn [andb]; [|reflexivity];
  destruct (Nat.ltb_spec c (2 * (dnb D i + dng D i + c_nq qc i))); [rewrite H by lia|]; reflexivity).
Qed.
Lemma con_T_at z i c : (i <= dN D)%nat -> qc_wf qc -> (c < cnc qc i)%nat -> con (tang qc z) z i c - q_d (tang qc z) i c = qcon qc z i c - c_d qc i c.
Proof.
  intros Hi Hwf Hc. rewrite con_T by assumption. rewrite (usgn_ext i c _ (fun _ => 0)) by (intros; apply qrem_0). unfold usgn. destruct (lowerq qc i c); [lra|]. destruct (_ && _); lra.
Qed.
Lemma mask_lam0 lam i c : c_mask qc i c * lam0 qc lam i c = act qc i c * lam i c.
Proof. unfold lam0, act. destruct (lowerq qc i c); lra. Qed.
Lemma kkt_g_T z pi lam i k : kkt_g (tang qc z) z pi (lam0 qc lam) i k = qkkt_g qc z pi lam i k.
Proof.
  unfold kkt_g, qkkt_g. change (nvt (q_dim (tang qc z)) i) with (cnv qc i). rewrite cnc_eq. cbn [tang q_dim q_rqz q_BAbt q_mask]. cbn [qp_dims dN dnx dnu].
  f_equal. apply rsum_ext. intros c _. rewrite G_T, mask_lam0. reflexivity.
Qed.
Lemma kkt_d_T z t i c : (i <= dN D)%nat -> qc_wf qc -> (c < cnc qc i)%nat -> kkt_d (tang qc z) z t i c = qkkt_d qc z t i c.
Proof.
  intros Hi Hwf Hc. unfold kkt_d, qkkt_d. pose proof (con_T_at z i c Hi Hwf Hc) as E. change (q_mask (tang qc z)) with (c_mask qc). 
  replace (q_d (tang qc z) i c + t i c - con (tang qc z) z i c) with (c_d qc i c + t i c - qcon qc z i c) by lra. reflexivity.
Qed.
Lemma kkt_m_T z lam t i c : kkt_m (tang qc z) (lam0 qc lam) t i c = qkkt_m qc lam t i c.
Proof. unfold kkt_m, qkkt_m. change (q_mask (tang qc z)) with (c_mask qc). change (q_m (tang qc z)) with (c_m qc). rewrite mask_lam0. reflexivity. Qed.
Lemma dyn_T z y i j : dyn (tang qc z) y i j = qdyn qc y i j.
Proof. reflexivity. Qed.
Lemma cost_T z y : cost (tang qc z) y = qcost qc y.
Proof. reflexivity. Qed.
Lemma qlHess_sum (lam : nat -> nat -> R) i (v : nat -> R) :
  rsum (cnv qc i) (fun k => rsum (cnv qc i) (fun l => v k * qlHess qc lam i k l * v l)) =
  rsum (cnv qc i) (fun k => rsum (cnv qc i) (fun l => v k * qHess qc i k l * v l)) +
  rsum (c_nq qc i) (fun j => act qc i (uq i j) * lam i (uq i j) * rsum (cnux qc i) (fun k => rsum (cnux qc i) (fun l => v k * Hsym qc i j k l * v l))).
Proof.
  set (n := cnux qc i). set (a := fun j => act qc i (uq i j) * lam i (uq i j)).
  transitivity (rsum (cnv qc i) (fun k => rsum (cnv qc i) (fun l => v k * qHess qc i k l * v l)) +
     rsum n (fun k => rsum n (fun l => rsum (c_nq qc i) (fun j => a j * (v k * Hsym qc i j k l * v l))))).
  - assert (E : forall f : nat -> nat -> R, (forall k l, (n <= k \/ n <= l)%nat -> f k l = 0) -> rsum (cnv qc i) (fun k => rsum (cnv qc i) (fun l => f k l)) = rsum n (fun k => rsum n (fun l => f k l))).
    { intros f Hf. change (cnv qc i) with (n + 2 * dns D i)%nat. rewrite rsum_split. rewrite (rsum_0 (2 * dns D i)).
      - rewrite Rplus_0_r. apply rsum_ext. intros k Hk. rewrite rsum_split, (rsum_0 (2 * dns D i)); [lra|]. intros l Hl. apply Hf. lia.
      - intros k Hk. apply rsum_0. intros l Hl. apply Hf. lia. }
    rewrite <- (E (fun k l => if ((k <? n) && (l <? n))%nat then rsum (c_nq qc i) (fun j => a j * (v k * Hsym qc i j k l * v l)) else 0) ltac:(intros k l [H|H]; destruct (Nat.ltb_spec k n), (Nat.ltb_spec l n); try lia; reflexivity)) at 1 || idtac.
    rewrite (rsum_ext n (fun k => rsum n (fun l => rsum (c_nq qc i) (fun j => a j * (v k * Hsym qc i j k l * v l))))
       (fun k => rsum n (fun l => if ((k <? n) && (l <? n))%nat then rsum (c_nq qc i) (fun j => a j * (v k * Hsym qc i j k l * v l)) else 0))).
    2:{ intros k Hk. apply rsum_ext. intros l Hl. destruct (Nat.ltb_spec k n), (Nat.ltb_spec l n); try lia. reflexivity. }
    rewrite <- (E (fun k l => if ((k <? n) && (l <? n))%nat then rsum (c_nq qc i) (fun j => a j * (v k * Hsym qc i j k l * v l)) else 0)).
    2:{ intros k l [H|H]; destruct (Nat.ltb_spec k n), (Nat.ltb_spec l n); try lia; reflexivity. }
    rewrite <- rsum_add. apply rsum_ext. intros k _. rewrite <- rsum_add. apply rsum_ext. intros l _. unfold qlHess. fold n D.
    change (cn2 qc i + (dnb D i + dng D i))%nat with (cn2 qc i + (dnb (c_dim qc) i + dng (c_dim qc) i))%nat. change (fun j => act qc i (cn2 qc i + (dnb (c_dim qc) i + dng (c_dim qc) i) + j) * lam i (cn2 qc i + (dnb (c_dim qc) i + dng (c_dim qc) i) + j)%nat * Hsym qc i j k l) with (fun j => a j * Hsym qc i j k l).
    destruct ((k <? n) && (l <? n))%nat; [|lra].
    replace (rsum (c_nq qc i) (fun j => a j * (v k * Hsym qc i j k l * v l))) with (v k * v l * rsum (c_nq qc i) (fun j => a j * Hsym qc i j k l)); [lra|].
    rewrite <- rsum_scal. apply rsum_ext. intros; lra.
  - f_equal. rewrite (rsum_ext n _ (fun k => rsum (c_nq qc i) (fun j => rsum n (fun l => a j * (v k * Hsym qc i j k l * v l))))) by (intros k _; apply rsum_swap).
    rewrite rsum_swap. apply rsum_ext. intros j _. fold (a j). rewrite <- rsum_scal. apply rsum_ext. intros k _. rewrite <- rsum_scal. reflexivity.
Qed.
(** exact second-order expansion of the Lagrangian *)
Lemma act_usgn lam i (v : nat -> R) : rsum (cnc qc i) (fun c => act qc i c * lam i c * usgn i c v) = rsum (c_nq qc i) (fun j => act qc i (uq i j) * lam i (uq i j) * v j).
Proof.
  assert (En : cnc qc i = (uq i 0 + c_nq qc i + 2 * dns D i)%nat) by (unfold cnc, uq, cn2; fold D; lia).
  rewrite En, (rsum_split (uq i 0 + c_nq qc i)), (rsum_split (uq i 0)). rewrite (rsum_0 (uq i 0)), (rsum_0 (2 * dns D i)).
  - rewrite Rplus_0_l, Rplus_0_r. apply rsum_ext. intros j Hj. unfold usgn. replace (uq i 0 + j)%nat with (uq i j) by (unfold uq; lia).
    unfold lowerq. fold D. destruct (Nat.ltb_spec (uq i j) (cn2 qc i)); [unfold uq in *; lia|]. rewrite andb_false_r.
    destruct (Nat.leb_spec (uq i 0) (uq i j)); [|unfold uq in *; lia]. destruct (Nat.ltb_spec (uq i j) (2 * cn2 qc i)); [|unfold uq, cn2, D in *; lia]. cbn [andb].
    replace (uq i j - uq i 0)%nat with j by (unfold uq; lia). reflexivity.
  - intros j Hj. unfold usgn, lowerq. fold D. destruct (Nat.ltb_spec (uq i 0 + c_nq qc i + j) (cn2 qc i)); [unfold uq in *; lia|]. rewrite andb_false_r.
    destruct (Nat.ltb_spec (uq i 0 + c_nq qc i + j) (2 * cn2 qc i)); [unfold uq, cn2, D in *; lia|]. rewrite andb_false_r. lra.
  - intros c Hc. unfold usgn, act. destruct (lowerq qc i c); [lra|]. destruct (Nat.leb_spec (uq i 0) c); [lia|]. cbn [andb]. lra.
Qed.
Lemma lagr_T z y pi lam : qc_wf qc -> lagr (tang qc z) y pi (lam0 qc lam) = qlagr qc y pi lam - rsum (dN D + 1) (fun i => rsum (c_nq qc i) (fun j => act qc i (uq i j) * lam i (uq i j) * qrem y z i j)).
Proof.
  intros Hwf. unfold lagr, qlagr. rewrite cost_T. cbn [tang q_dim qp_dims dN dnx]. fold D.
  assert (E : rsum (dN D + 1) (fun i => rsum (nct (qp_dims D (c_nq qc)) i) (fun c => q_mask (tang qc z) i c * lam0 qc lam i c * (con (tang qc z) y i c - q_d (tang qc z) i c))) =
     rsum (dN D + 1) (fun i => rsum (cnc qc i) (fun c => act qc i c * lam i c * (qcon qc y i c - c_d qc i c))) +
     rsum (dN D + 1) (fun i => rsum (c_nq qc i) (fun j => act qc i (uq i j) * lam i (uq i j) * qrem y z i j))).
  { rewrite <- rsum_add. apply rsum_ext. intros i Hi. rewrite <- (act_usgn lam i (qrem y z i)), <- rsum_add. rewrite cnc_eqD. apply rsum_ext. intros c Hc.
    rewrite con_T by (try assumption; lia). change (q_mask (tang qc z)) with (c_mask qc). rewrite mask_lam0. lra. }
  rewrite E. change (dyn (tang qc z)) with (qdyn qc). lra.
Qed.
Lemma qlagr_expand z pi lam y : qc_wf qc ->
  qlagr qc y pi lam = qlagr qc z pi lam + rsum (dN D + 1) (fun i => rsum (cnv qc i) (fun k => qkkt_g qc z pi lam i k * (y i k - z i k)))
    + 1 / 2 * rsum (dN D + 1) (fun i => rsum (cnv qc i) (fun k => rsum (cnv qc i) (fun l => (y i k - z i k) * qlHess qc lam i k l * (y i l - z i l)))).
Proof.
  intros Hwf. pose proof (lagr_expand (tang qc z) z pi (lam0 qc lam) y) as E. cbv zeta in E. unfold dot2 in E.
  rewrite (lagr_T z y pi lam Hwf), (lagr_T z z pi lam Hwf) in E. cbn [tang q_dim qp_dims dN] in E. fold D in E.
  rewrite (rsum_0 (dN D + 1) (fun i => rsum (c_nq qc i) (fun j => act qc i (uq i j) * lam i (uq i j) * qrem z z i j))) in E.
  2:{ intros i _. apply rsum_0. intros j _. rewrite qrem_0. lra. }
  assert (E2 : rsum (dN D + 1) (fun i => rsum (cnv qc i) (fun k => rsum (cnv qc i) (fun l => (y i k - z i k) * qlHess qc lam i k l * (y i l - z i l)))) =
    rsum (dN D + 1) (fun i => rsum (cnv qc i) (fun k => rsum (cnv qc i) (fun l => (y i k - z i k) * qHess qc i k l * (y i l - z i l)))) +
    2 * rsum (dN D + 1) (fun i => rsum (c_nq qc i) (fun j => act qc i (uq i j) * lam i (uq i j) * qrem y z i j))).
  { rewrite <- rsum_scal, <- rsum_add. apply rsum_ext. intros i _. rewrite (qlHess_sum lam i (fun k => y i k - z i k)). f_equal. rewrite <- rsum_scal. apply rsum_ext. intros j _. unfold qrem. lra. }
  rewrite E2.
  assert (E3 : forall i, rsum (cnv qc i) (fun k => qkkt_g qc z pi lam i k * (y i k - z i k)) = rsum (cnv qc i) (fun k => kkt_g (tang qc z) z pi (lam0 qc lam) i k * (y i k - z i k))).
  { intros i. apply rsum_ext. intros k _. rewrite kkt_g_T. reflexivity. }
  rewrite (rsum_ext _ _ _ (fun i _ => E3 i)).
  change (nvt (qp_dims D (c_nq qc))) with (cnv qc) in E.
  change (Hess (tang qc z)) with (qHess qc) in E. 
  clear E2 E3. lra.
Qed.
End Bridge.

(** ** Whole horizon *)
Section Whole.
Variables (cache : option ((nat -> nat -> R) * (nat -> nat -> R))) (qc : oqcqp R) (sol : osol R).
Let D := c_dim qc.
Hypothesis Hwf : qc_wf qc.
Hypothesis Hca : cache_ok cache qc (s_ux sol) (s_lam sol).
Notation z := (s_ux sol). Notation pi := (s_pi sol). Notation lam := (s_lam sol). Notation t := (s_t sol).
Definition qgap_stage (i : nat) : R := stage_gap (tang qc (s_ux sol)) (mksol (s_ux sol) (s_pi sol) (lam0 qc (s_lam sol)) (s_t sol)) i.
Definition qmu_stage (i : nat) : R := rsum (cnc qc i) (fun c => act qc i c * lam i c * t i c).
Lemma qcres_loop_R mc res0 ws0 : (mc = true \/ masks_one (qp_dims D (c_nq qc)) (c_mask qc)) -> forall n, (n <= dN D + 1)%nat ->
  let r := fst (loop n (qcres_stage cache mc qc sol) (res0, ws0)) in
  (forall i k, (i < n)%nat -> (k < cnv qc i)%nat -> r_g r i k = qkkt_g qc z pi lam i k) /\
  (forall i j, (i < n)%nat -> (i < dN D)%nat -> (j < dnx D (S i))%nat -> r_b r i j = qdyn qc z i j) /\
  (forall i c, (i < n)%nat -> (c < cnc qc i)%nat -> r_d r i c = qkkt_d qc z t i c) /\
  (forall i c, (i < n)%nat -> (c < cnc qc i)%nat -> r_m r i c = qkkt_m qc lam t i c) /\
  r_obj r = r_obj res0 + rsum n (stage_cost (tang qc z) z) /\
  r_gap r = r_gap res0 + rsum n qgap_stage /\
  r_mu_sum r = r_mu_sum res0 + rsum n qmu_stage /\ r_mu r = r_mu res0.
Proof.
  intros Hmc. induction n as [|n IH]; intros Hn.
  - cbn [loop fst rsum]. repeat split; intros; try lia; try lra; reflexivity.
  - rewrite loop_S. specialize (IH ltac:(lia)). destruct (loop n _ _) as [res ws]. cbn [fst] in IH.
    destruct IH as (I1 & I2 & I3 & I4 & I5 & I6 & I7 & I8).
    assert (Hmn : mc = true \/ forall c, (c < nct (q_dim (tang qc z)) n)%nat -> q_mask (tang qc z) n c = 1).
    { destruct Hmc as [H|H]; [left; exact H|right; intros c Hc; apply H; [cbn [qp_dims dN]; unfold D in *; lia|exact Hc]]. }
    pose proof (qcres_stage_R cache mc qc sol n (tang_wf qc z Hwf n ltac:(cbn [tang q_dim qp_dims dN]; unfold D in *; lia)) Hmn Hca ltac:(cbn [tang q_dim qp_dims dN]; unfold D in *; lia) res ws) as S.
    cbv zeta in S |- *. destruct S as (S1 & S2 & S3 & S4 & S5 & S6 & S7 & S8 & S9).
    change (nvt (q_dim (tang qc z))) with (cnv qc) in S1. change (nct (q_dim (tang qc z)) n) with (nct (qp_dims (c_dim qc) (c_nq qc)) n) in S3, S4. rewrite <- cnc_eq in S3, S4.
    split; [|split; [|split; [|split; [|split; [|split; [|split]]]]]]; cbn [rsum].
    + intros i k Hi Hk. destruct (Nat.eq_dec i n) as [->|]; [rewrite <- kkt_g_T; apply S1; assumption|]. destruct (S9 i ltac:(assumption)) as (-> & _). apply I1; [lia|assumption].
    + intros i k Hi HN Hk. destruct (Nat.eq_dec i n) as [->|]; [apply S2; assumption|]. destruct (S9 i ltac:(assumption)) as (_ & -> & _). apply I2; [lia|assumption|assumption].
    + intros i k Hi Hk. destruct (Nat.eq_dec i n) as [->|]; [rewrite <- kkt_d_T by (try assumption; unfold D in *; lia); apply S3; assumption|]. destruct (S9 i ltac:(assumption)) as (_ & _ & -> & _). apply I3; [lia|assumption].
    + intros i k Hi Hk. destruct (Nat.eq_dec i n) as [->|]; [rewrite <- (kkt_m_T qc z); apply S4; assumption|]. destruct (S9 i ltac:(assumption)) as (_ & _ & _ & ->). apply I4; [lia|assumption].
    + rewrite S5, I5. lra.
    + rewrite S6, I6. fold (qgap_stage n). lra.
    + rewrite S7, I7. replace (cstage_mu qc sol n) with (qmu_stage n); [lra|]. unfold cstage_mu, qmu_stage. change (nct (q_dim (tang qc z)) n) with (nct (qp_dims (c_dim qc) (c_nq qc)) n).
      rewrite <- cnc_eq. apply rsum_ext. intros c _. change (q_mask (tang qc z)) with (c_mask qc). rewrite mask_lam0. reflexivity.
    + rewrite S8, I8. reflexivity.
Qed.
Lemma qcres_compute_R valid res0 ws0 : qvalid_ok valid qc ->
  let r := fst (qcres_compute cache valid qc sol res0 ws0) in
  (forall i k, (i <= dN D)%nat -> (k < cnv qc i)%nat -> r_g r i k = qkkt_g qc z pi lam i k) /\
  (forall i j, (i < dN D)%nat -> (j < dnx D (S i))%nat -> r_b r i j = qdyn qc z i j) /\
  (forall i c, (i <= dN D)%nat -> (c < cnc qc i)%nat -> r_d r i c = qkkt_d qc z t i c) /\
  (forall i c, (i <= dN D)%nat -> (c < cnc qc i)%nat -> r_m r i c = qkkt_m qc lam t i c) /\
  r_obj r = qcost qc z /\ r_gap r = rsum (dN D + 1) qgap_stage /\
  r_mu_sum r = rsum (dN D + 1) qmu_stage /\
  (valid = None -> let n := nsum (dN D + 1) (fun i => nsum (cnc qc i) (fun c => is1 (c_mask qc i c))) in
     r_mu r = if Nat.eqb n 0 then 0 else r_mu_sum r / INR n).
Proof.
  intros Hv. unfold qcres_compute. fold D.
  set (mi := match valid with Some _ => _ | None => _ end).
  destruct mi as [mc inv] eqn:Em.
  assert (Hmc : mc = true \/ masks_one (qp_dims D (c_nq qc)) (c_mask qc)).
  { destruct valid as [[mc' inv']|]; unfold mi in Em.
    - injection Em as -> ->. exact Hv.
    - pose proof (mask_count_R (qp_dims D (c_nq qc)) (c_mask qc)) as [_ H2]. destruct (mask_count _ _) as [n b]. injection Em as -> _. cbn in H2.
      destruct mc; [left; reflexivity|right; apply H2; reflexivity]. }
  pose proof (qcres_loop_R mc (mkres (r_g res0) (r_b res0) (r_d res0) (r_m res0) f0 f0 (r_mu res0) f0) ws0 Hmc (dN D + 1) (le_n _)) as H.
  cbv zeta in H. destruct (loop (dN D + 1) _ _) as [res ws]. cbn [fst r_g r_b r_d r_m r_obj r_gap r_mu r_mu_sum] in *.
  destruct H as (I1 & I2 & I3 & I4 & I5 & I6 & I7 & I8).
  rsimp. rewrite R_lit01 in *. rewrite Rplus_0_l in *.
  split; [|split; [|split; [|split; [|split; [|split; [|split]]]]]].
  - intros; apply I1; [lia|assumption].
  - intros; apply I2; [lia|assumption|assumption].
  - intros; apply I3; [lia|assumption].
  - intros; apply I4; [lia|assumption].
  - exact I5.
  - exact I6.
  - exact I7.
  - intros ->. unfold mi in Em. pose proof (mask_count_R (qp_dims D (c_nq qc)) (c_mask qc)) as [H1 _]. destruct (mask_count _ _) as [n b]. injection Em as _ <-. cbn [fst] in H1.
    cbn [qp_dims dN] in H1.
    assert (E : n = nsum (dN D + 1) (fun i => nsum (cnc qc i) (fun c => is1 (c_mask qc i c)))).
    { rewrite H1. apply nsum_ext. intros i _. rewrite cnc_eq. reflexivity. }
    rewrite <- E. destruct (Nat.ltb_spec 0 n) as [Hp|Hp].
    + destruct (Nat.eqb_spec n 0); [lia|]. unfold inv_count. rsimp. rewrite R_lit11. rewrite INR_IZR_INZ. unfold Rdiv. rewrite Rinv_1. rewrite !Rmult_1_r, Rmult_1_l. reflexivity.
    + destruct (Nat.eqb_spec n 0); [|lia]. rsimp. rewrite R_lit01. lra.
Qed.
(** the reported gap is the difference of the objective and the dual function of the tangent problem *)
Lemma qgap_identity : qcost qc z - rsum (dN D + 1) qgap_stage = qlagr qc z pi lam - rsum (dN D + 1) (fun i => rsum (cnv qc i) (fun k => qkkt_g qc z pi lam i k * z i k)).
Proof.
  pose proof (gap_identity (tang qc z) z pi (lam0 qc lam) t) as E. rewrite (lagr_T qc z z pi lam Hwf) in E. rewrite cost_T in E. cbn [tang q_dim qp_dims dN] in E. fold D in E.
  rewrite (rsum_0 (dN D + 1) (fun i => rsum (c_nq qc i) (fun j => act qc i (uq qc i j) * lam i (uq qc i j) * qrem qc z z i j))) in E.
  2:{ intros i _. apply rsum_0. intros j _. rewrite qrem_0. lra. }
  unfold dot2 in E.
  assert (E3 : forall i, rsum (cnv qc i) (fun k => qkkt_g qc z pi lam i k * z i k) = rsum (cnv qc i) (fun k => kkt_g (tang qc z) z pi (lam0 qc lam) i k * z i k)).
  { intros i. apply rsum_ext. intros k _. rewrite kkt_g_T. reflexivity. }
  rewrite (rsum_ext _ _ _ (fun i _ => E3 i)).
  change (nvt (qp_dims D (c_nq qc))) with (cnv qc) in E. rewrite Rminus_0_r in E. exact E.
Qed.
(** weak duality *)
Lemma qlagr_le_cost y : qfeasible qc y -> (forall i c, (i <= dN D)%nat -> (c < cnc qc i)%nat -> 0 <= act qc i c * lam i c) -> qlagr qc y pi lam <= qcost qc y.
Proof.
  intros [F1 F2] Hl. unfold qlagr. fold D.
  rewrite (rsum_0 (dN D)).
  2:{ intros i Hi. apply rsum_0. intros j Hj. rewrite F1 by assumption. lra. }
  assert (0 <= rsum (dN D + 1) (fun i => rsum (cnc qc i) (fun c => act qc i c * lam i c * (qcon qc y i c - c_d qc i c)))); [|lra].
  apply rsum_nonneg. intros i Hi. apply rsum_nonneg. intros c Hc. destruct (Req_dec (act qc i c) 0) as [E|E]; [rewrite E; lra|].
  apply Rmult_le_pos; [apply Hl; [lia|assumption]|]. specialize (F2 i c ltac:(unfold D in *; lia) Hc E). lra.
Qed.
(** the Lagrangian is convex for nonnegative multipliers *)
Lemma qlHess_psd i (v : nat -> R) : qpsd qc -> qcon_psd qc -> (i <= dN D)%nat -> (forall c, (c < cnc qc i)%nat -> 0 <= act qc i c * lam i c) ->
  0 <= rsum (cnv qc i) (fun k => rsum (cnv qc i) (fun l => v k * qlHess qc lam i k l * v l)).
Proof.
  intros Hp Hq Hi Hl. rewrite qlHess_sum. apply Rplus_le_le_0_compat; [apply Hp; exact Hi|]. apply rsum_nonneg. intros j Hj.
  destruct (Req_dec (act qc i (uq qc i j)) 0) as [E|E]; [unfold uq in E; rewrite ?E; unfold uq; rewrite ?E; lra|].
  apply Rmult_le_pos; [apply Hl; unfold uq, cnc, cn2 in *; fold D in Hj |- *; unfold D in *; lia|].
  apply Hq; [exact Hi|exact Hj|]. intros E0. apply E. unfold act. destruct (lowerq _ _ _); [reflexivity|exact E0].
Qed.
End Whole.
