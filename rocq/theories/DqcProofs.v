(** DqcProofs.v -- the dense QCQP residual computation is the OCP one on a single stage plus the equality constraints. *)
From Coq Require Import ZArith Bool Arith Lia Reals Lra.
From Verif Require Import Base ArithF RSum Blas Blas2 OcpModel ResSpec ResProofs ResProofs2 DenModel DenSpec QcqpModel QcqpSpec QcqpProofs QcqpProofs2 QcqpProofs3 QcqpProps DqcModel DqcSpec.
Local Open Scope R_scope.

(** single-stage OCP QCQP without dynamics *)
Definition one_qc (q : dqcqp R) : oqcqp R :=
  mkqc (mkdims 0 (fun _ => dq_nv q) (fun _ => 0%nat) (fun _ => dq_nb q) (fun _ => dq_ng q) (fun _ => dq_ns q)) (fun _ => dq_nq q)
    (fun _ _ _ => 0) (fun _ => dq_H q) (fun _ => dq_Ct q) (fun _ => dq_Hq q) (fun _ _ => 0) (fun _ => dq_gz q) (fun _ => dq_d q) (fun _ => dq_mask q) (fun _ => dq_m q)
    (fun _ => dq_Z q) (fun _ => dq_idxb q) (fun _ => dq_idxs_rev q).
Definition oneq_sol (s : dsol R) : osol R := mksol (fun _ => ds_v s) (fun _ => ds_pi s) (fun _ => ds_lam s) (fun _ => ds_t s).
Definition oneq_res (r : dres R) : ores R := mkres (fun _ => dr_g r) (fun _ => dr_b r) (fun _ => dr_d r) (fun _ => dr_m r) (dr_obj r) (dr_gap r) (dr_mu r) (dr_mu_sum r).
Definition oneq_cache (c : option ((nat -> R) * (nat -> R))) : option ((nat -> nat -> R) * (nat -> nat -> R)) :=
  match c with Some (f, a) => Some (fun _ => f, fun _ => a) | None => None end.

Definition eqq_part (q : dqcqp R) (s : dsol R) (res : dres R) (g : nat -> R) : (nat -> R) * (nat -> R) :=
  if Nat.ltb 0 (dq_ne q) then GEMV_NT (dq_ne q) (dq_nv q) (- f1)%F (- f1)%F (dq_A q) 0 0 (ds_v s) 0 (ds_pi s) 0 f1 f1 (dq_b q) 0 g 0 (dr_b res) 0 g 0 else (dr_b res, g).
Lemma count_nct n n' (mask : nat -> R) : n = n' -> den_mask_count n mask = den_mask_count n' mask. Proof. intros ->; reflexivity. Qed.
Lemma dqc_is_one cache valid q s res ws :
  let r := fst (dqc_res_compute cache valid q s res ws) in let o := fst (qcres_compute (oneq_cache cache) valid (one_qc q) (oneq_sol s) (oneq_res res) ws) in
  dr_g r = snd (eqq_part q s res (r_g o 0%nat)) /\ dr_b r = fst (eqq_part q s res (r_g o 0%nat)) /\ dr_d r = r_d o 0%nat /\ dr_m r = r_m o 0%nat /\ dr_obj r = r_obj o /\
  dr_gap r = r_gap o - (if Nat.ltb 0 (dq_ne q) then DOT (dq_ne q) (dq_b q) 0 (ds_pi s) 0 else 0) /\ dr_mu_sum r = r_mu_sum o /\ dr_mu r = r_mu o.
Proof.
  cbv zeta. unfold dqc_res_compute, qcres_compute, eqq_part. cbv zeta.
  cbn [c_dim one_qc c_nq qp_dims dN dnx dnu dnb dng dns Nat.add loop c_mask].
  change (mask_count _ _) with (den_mask_count (2 * dq_nb q + 2 * (dq_ng q + dq_nq q) + 2 * dq_ns q) (dq_mask q)).
  rewrite (count_nct (2 * dq_nb q + 2 * (dq_ng q + dq_nq q) + 2 * dq_ns q) (2 * dq_nb q + 2 * dq_ng q + 2 * dq_nq q + 2 * dq_ns q)) by lia.
  set (mi := match valid with Some _ => _ | None => _ end).
  destruct mi as [mc inv]. clear valid.
  unfold qcres_stage. cbv zeta.
  cbn [c_dim one_qc c_nq qp_dims dN dnx dnu dnb dng dns Nat.add c_mask c_RSQ c_rqz c_idxb c_DCt c_Hq c_d c_m c_Z c_idxs_rev oneq_sol s_ux s_lam s_t s_pi oneq_res r_g r_d r_m r_b r_obj r_gap r_mu r_mu_sum].
  change (0 <? 0)%nat with false. cbv iota.
  replace (match oneq_cache cache with Some (f, a) => Some (f 0%nat, a 0%nat) | None => None end) with cache by (destruct cache as [[? ?]|]; reflexivity).
  set (nct := (2 * dq_nb q + 2 * dq_ng q + 2 * dq_nq q + 2 * dq_ns q)%nat).
  set (lamk := VECSE _ _ _ _).
  destruct (qineq_block _ _ _ _ _ _ _ _ _ _ _ _ _) as [[[[[[g1 d1] c0] c1] gp] y0] y1].
  destruct (0 <? dq_ns q)%nat.
  - destruct (soft_block _ _ _ _ _ _ _ _ _ _) as [g2 d2].
    destruct (0 <? dq_ne q)%nat; cbn [fst snd r_g r_b r_d r_m r_obj r_gap r_mu r_mu_sum dr_g dr_b dr_d dr_m dr_obj dr_gap dr_mu dr_mu_sum GEMV_NT VECMULDOT]; rewrite upd_same;
    repeat split; rsimp; try reflexivity; rewrite ?upd_same; try reflexivity; try (rewrite ?R_lit01; lra); try (rewrite R_lit01; f_equal; lra).
  - destruct (0 <? dq_ne q)%nat; cbn [fst snd r_g r_b r_d r_m r_obj r_gap r_mu r_mu_sum dr_g dr_b dr_d dr_m dr_obj dr_gap dr_mu dr_mu_sum GEMV_NT VECMULDOT]; rewrite upd_same;
    repeat split; rsimp; try reflexivity; rewrite ?upd_same; try reflexivity; try (rewrite ?R_lit01; lra); try (rewrite R_lit01; f_equal; lra).
Qed.

Section D.
Variable q : dqcqp R.
Notation Q := (one_qc q).
Lemma oneq_wf : dqc_wf q -> qc_wf Q. Proof. intros H i _. exact H. Qed.
Lemma oneq_nct : nct (qp_dims (c_dim Q) (c_nq Q)) 0 = dqnc q.
Proof. unfold nct. cbn [qp_dims c_dim one_qc c_nq dnb dng dns]. unfold dqnc, dqn2. lia. Qed.
Lemma oneq_valid valid : dq_valid_ok q valid -> qvalid_ok valid Q.
Proof.
  destruct valid as [[mc inv]|]; [|intros; exact I]. intros [H|H]; [left; exact H|right]. intros i c _ Hc.
  cbn [c_mask one_qc]. apply H. change (nct _ i) with (nct (qp_dims (c_dim Q) (c_nq Q)) 0) in Hc. rewrite oneq_nct in Hc. exact Hc.
Qed.
Lemma oneq_cacheok cache z lam : dq_cache_ok q cache z lam -> cache_ok (oneq_cache cache) Q (fun _ => z) (fun _ => lam).
Proof. destruct cache as [[f a]|]; [|intros; exact I]. intros H i _. exact H. Qed.
Lemma oneq_mask01 : dq_mask01 q -> qmask01 Q. Proof. intros H i c _ Hc. exact (H c Hc). Qed.
Lemma oneq_psd : dq_psd q -> qpsd Q. Proof. intros H i v _. exact (H v). Qed.
Lemma oneq_cpsd : dq_con_psd q -> qcon_psd Q. Proof. intros H i j v _ Hj Hm. exact (H j v Hj Hm). Qed.
Lemma oneq_cost z : qcost Q (fun _ => z) = dq_cost q z.
Proof. unfold qcost. cbn [c_dim one_qc dN Nat.add rsum]. rewrite Rplus_0_l. reflexivity. Qed.
Lemma oneq_lagr z pi lam : dq_lagr q z pi lam = qlagr Q (fun _ => z) (fun _ => pi) (fun _ => lam) + rsum (dq_ne q) (fun j => pi j * dq_eq q z j).
Proof.
  unfold qlagr, dq_lagr. rewrite oneq_cost. cbn [c_dim one_qc dN Nat.add rsum].
  change (cnc _ 0) with (dqnc q). change (qcon Q (fun _ => z) 0) with (dq_con q z). change (act Q 0) with (dq_act q). change (c_d Q 0) with (dq_d q). lra.
Qed.
Lemma oneq_kkt_g z pi lam k : qkkt_g Q (fun _ => z) (fun _ => pi) (fun _ => lam) 0 k =
  dq_kkt_g q z pi lam k + (if (k <? dq_nv q)%nat then rsum (dq_ne q) (fun j => dq_A q j k * pi j) else 0).
Proof.
  unfold qkkt_g, dq_kkt_g. cbn [c_dim one_qc dN Nat.ltb Nat.leb andb].
  change (cnv _ 0) with (dqnv q). change (cnc _ 0) with (dqnc q). change (qHess Q 0) with (dq_Hess q). change (dqcon Q (fun _ => z) 0) with (dq_dcon q z). change (act Q 0) with (dq_act q).
  change (c_rqz _ 0%nat) with (dq_gz q). lra.
Qed.
Lemma eqq_part_R s res g :
  (forall k, (k < dq_nv q)%nat -> snd (eqq_part q s res g) k = g k - rsum (dq_ne q) (fun j => dq_A q j k * ds_pi s j)) /\
  (forall k, (dq_nv q <= k)%nat -> snd (eqq_part q s res g) k = g k) /\
  (forall j, (j < dq_ne q)%nat -> fst (eqq_part q s res g) j = dq_eq q (ds_v s) j).
Proof.
  unfold eqq_part, dq_eq. destruct (Nat.ltb_spec 0 (dq_ne q)) as [H|H]; cbn [GEMV_NT fst snd]; unfold GEMV_N, GEMV_T.
  - split; [|split].
    + intros k Hk. rewrite vset_in' by lia. rewrite fsum_R. rsimp. rewrite !R_lit11. cbn [Nat.add]. rewrite Nat.sub_0_r. lra.
    + intros k Hk. rewrite vset_out by lia. reflexivity.
    + intros j Hj. rewrite vset_in' by lia. rewrite fsum_R. rsimp. rewrite !R_lit11. cbn [Nat.add]. rewrite Nat.sub_0_r. lra.
  - replace (dq_ne q) with 0%nat by lia. cbn [rsum]. split; [|split]; intros; [lra|reflexivity|lia].
Qed.
Lemma Aq_swap (pi w : nat -> R) : rsum (dqnv q) (fun k => (if (k <? dq_nv q)%nat then rsum (dq_ne q) (fun j => dq_A q j k * pi j) else 0) * w k)
  = rsum (dq_ne q) (fun j => pi j * rsum (dq_nv q) (fun k => dq_A q j k * w k)).
Proof.
  unfold dqnv. rewrite rsum_split. rewrite (rsum_0 (2 * dq_ns q)).
  2:{ intros k Hk. destruct (Nat.ltb_spec (dq_nv q + k) (dq_nv q)); [lia|lra]. }
  rewrite Rplus_0_r. transitivity (rsum (dq_nv q) (fun k => rsum (dq_ne q) (fun j => pi j * (dq_A q j k * w k)))).
  - apply rsum_ext. intros k Hk. destruct (Nat.ltb_spec k (dq_nv q)); [|lia]. rewrite <- rsum_scal_r. apply rsum_ext. intros; lra.
  - rewrite rsum_swap. apply rsum_ext. intros j _. rewrite rsum_scal. reflexivity.
Qed.
Lemma dqkkt_dot z pi lam w : rsum (dqnv q) (fun k => dq_kkt_g q z pi lam k * w k) =
  rsum (dqnv q) (fun k => qkkt_g Q (fun _ => z) (fun _ => pi) (fun _ => lam) 0 k * w k) - rsum (dq_ne q) (fun j => pi j * rsum (dq_nv q) (fun k => dq_A q j k * w k)).
Proof. rewrite <- Aq_swap, <- rsum_sub. apply rsum_ext. intros k _. rewrite oneq_kkt_g. lra. Qed.
Lemma dq_lagr_expand z pi lam y : dqc_wf q -> dq_lagr q y pi lam = dq_lagr q z pi lam + rsum (dqnv q) (fun k => dq_kkt_g q z pi lam k * (y k - z k))
  + 1 / 2 * rsum (dqnv q) (fun k => rsum (dqnv q) (fun l => (y k - z k) * dq_lHess q lam k l * (y l - z l))).
Proof.
  intros Hwf. rewrite !oneq_lagr, (dqkkt_dot z pi lam (fun k => y k - z k)).
  pose proof (qlagr_expand Q (fun _ => z) (fun _ => pi) (fun _ => lam) (fun _ => y) (oneq_wf Hwf)) as H. change (dN (c_dim Q) + 1)%nat with 1%nat in H. cbn [rsum] in H.
  change (cnv Q 0) with (dqnv q) in H. change (qlHess Q (fun _ => lam) 0) with (dq_lHess q lam) in H. rewrite H. clear H.
  assert (E : rsum (dq_ne q) (fun j => pi j * dq_eq q y j) = rsum (dq_ne q) (fun j => pi j * dq_eq q z j) - rsum (dq_ne q) (fun j => pi j * rsum (dq_nv q) (fun k => dq_A q j k * (y k - z k)))).
  { rewrite <- rsum_sub. apply rsum_ext. intros j _. unfold dq_eq.
    rewrite (rsum_ext _ (fun k => dq_A q j k * (y k - z k)) (fun k => dq_A q j k * y k - dq_A q j k * z k)) by (intros; lra). rewrite rsum_sub. lra. }
  rewrite E. lra.
Qed.
Lemma dq_lagr_le_cost pi lam y : dq_feasible q y -> (forall c, (c < dqnc q)%nat -> 0 <= dq_act q c * lam c) -> dq_lagr q y pi lam <= dq_cost q y.
Proof.
  intros [He Hc] Hl. unfold dq_lagr. rewrite (rsum_0 (dq_ne q)) by (intros j Hj; rewrite He by exact Hj; lra).
  assert (0 <= rsum (dqnc q) (fun c => dq_act q c * lam c * (dq_con q y c - dq_d q c))); [|lra].
  apply rsum_nonneg. intros c Hc'. destruct (Req_dec (dq_act q c) 0) as [E|E]; [rewrite E; lra|].
  apply Rmult_le_pos; [apply Hl; exact Hc'|]. specialize (Hc c Hc' E). lra.
Qed.
Lemma dq_lHess_psd lam (v : nat -> R) : dq_psd q -> dq_con_psd q -> (forall c, (c < dqnc q)%nat -> 0 <= dq_act q c * lam c) ->
  0 <= rsum (dqnv q) (fun k => rsum (dqnv q) (fun l => v k * dq_lHess q lam k l * v l)).
Proof. intros H1 H2 H3. exact (qlHess_psd Q (mksol (fun _ => v) (fun _ => v) (fun _ => lam) (fun _ => v)) 0 v (oneq_psd H1) (oneq_cpsd H2) (Nat.le_refl 0) H3). Qed.
End D.
