(** DenProofs.v -- the dense residual computation is the OCP one on a single stage plus the equality constraints. *)
From Coq Require Import ZArith Bool Arith Lia Reals Lra.
From Verif Require Import Base ArithF RSum Blas OcpModel ResSpec ResProofs ResProofs2 DenModel DenSpec.
Local Open Scope R_scope.

(** single-stage OCP QP without dynamics *)
Definition one_stage (q : dqp R) : oqp R :=
  mkqp (mkdims 0 (fun _ => d_nv q) (fun _ => 0%nat) (fun _ => d_nb q) (fun _ => d_ng q) (fun _ => d_ns q))
    (fun _ _ _ => 0) (fun _ => d_H q) (fun _ => d_Ct q) (fun _ _ => 0) (fun _ => d_gz q) (fun _ => d_d q) (fun _ => d_mask q) (fun _ => d_m q)
    (fun _ => d_Z q) (fun _ => d_idxb q) (fun _ => d_idxs_rev q).
Definition one_sol (s : dsol R) : osol R := mksol (fun _ => ds_v s) (fun _ => ds_pi s) (fun _ => ds_lam s) (fun _ => ds_t s).
Definition one_res (r : dres R) : ores R := mkres (fun _ => dr_g r) (fun _ => dr_b r) (fun _ => dr_d r) (fun _ => dr_m r) (dr_obj r) (dr_gap r) (dr_mu r) (dr_mu_sum r).

Definition eq_part (q : dqp R) (s : dsol R) (res : dres R) (g : nat -> R) : (nat -> R) * (nat -> R) :=
  if Nat.ltb 0 (d_ne q) then GEMV_NT (d_ne q) (d_nv q) (- f1)%F (- f1)%F (d_A q) 0 0 (ds_v s) 0 (ds_pi s) 0 f1 f1 (d_b q) 0 g 0 (dr_b res) 0 g 0 else (dr_b res, g).
Lemma den_is_one_stage valid q s res ws :
  let r := fst (den_res_compute valid q s res ws) in let o := fst (res_compute valid (one_stage q) (one_sol s) (one_res res) ws) in
  dr_g r = snd (eq_part q s res (r_g o 0%nat)) /\ dr_b r = fst (eq_part q s res (r_g o 0%nat)) /\ dr_d r = r_d o 0%nat /\ dr_m r = r_m o 0%nat /\ dr_obj r = r_obj o /\
  dr_gap r = r_gap o - (if Nat.ltb 0 (d_ne q) then DOT (d_ne q) (d_b q) 0 (ds_pi s) 0 else 0) /\ dr_mu_sum r = r_mu_sum o /\ dr_mu r = r_mu o.
Proof.
  cbv zeta. unfold den_res_compute, res_compute, eq_part. cbv zeta.
  cbn [q_dim one_stage dN dnx dnu dnb dng dns Nat.add loop q_mask].
  change (mask_count _ _) with (den_mask_count (2 * d_nb q + 2 * d_ng q + 2 * d_ns q) (d_mask q)).
  set (mi := match valid with Some _ => _ | None => _ end).
  destruct mi as [mc inv]. clear valid.
  unfold res_stage. cbv zeta. cbn [q_dim one_stage dN dnx dnu dnb dng dns Nat.add q_mask q_RSQ q_rqz q_idxb q_DCt q_d q_m q_Z q_idxs_rev one_sol s_ux s_lam s_t s_pi one_res r_g r_d r_m r_b r_obj r_gap r_mu r_mu_sum].
  change (0 <? 0)%nat with false. cbv iota.
  set (nct := (2 * d_nb q + 2 * d_ng q + 2 * d_ns q)%nat).
  set (lamk := if mc then _ else _). set (g0 := AXPY _ _ _ _ _ _ _ _). set (obj0 := (_ + _)%F). set (gap0 := (_ + _)%F).
  destruct (ineq_block _ _ _ _ _ _ _ _ _ _) as [[[g1 d1] c0] c1].
  assert (E : forall (x y : R), x = y -> (f0 + x = y)%F) by (intros x y ->; rsimp; lra).
  destruct (0 <? d_ns q)%nat.
  - destruct (soft_block _ _ _ _ _ _ _ _ _ _) as [g2 d2].
    destruct (0 <? d_ne q)%nat; cbn [fst snd r_g r_b r_d r_m r_obj r_gap r_mu r_mu_sum dr_g dr_b dr_d dr_m dr_obj dr_gap dr_mu dr_mu_sum GEMV_NT]; rewrite upd_same;
    repeat split; rsimp; try reflexivity; rewrite ?upd_same; try reflexivity; try (rewrite ?R_lit01; lra); try (rewrite R_lit01; f_equal; lra).
  - destruct (0 <? d_ne q)%nat; cbn [fst snd r_g r_b r_d r_m r_obj r_gap r_mu r_mu_sum dr_g dr_b dr_d dr_m dr_obj dr_gap dr_mu dr_mu_sum GEMV_NT]; rewrite upd_same;
    repeat split; rsimp; try reflexivity; rewrite ?upd_same; try reflexivity; try (rewrite ?R_lit01; lra); try (rewrite R_lit01; f_equal; lra).
Qed.
Lemma den_reslin_one_stage valid q s p res ws :
  let r := fst (den_reslin_compute valid q s p res ws) in let o := fst (reslin_compute valid (one_stage q) (one_sol s) (one_sol p) (one_res res) ws) in
  dr_g r = snd (eq_part q p res (r_g o 0%nat)) /\ dr_b r = fst (eq_part q p res (r_g o 0%nat)) /\ dr_d r = r_d o 0%nat /\ dr_m r = r_m o 0%nat.
Proof.
  cbv zeta. unfold den_reslin_compute, reslin_compute, eq_part. cbv zeta.
  cbn [q_dim one_stage dN dnx dnu dnb dng dns Nat.add loop q_mask].
  change (any_mask _ _) with (den_any_mask (2 * d_nb q + 2 * d_ng q + 2 * d_ns q) (d_mask q)).
  set (mc := match valid with Some _ => _ | None => _ end). clearbody mc. clear valid.
  unfold reslin_stage. cbv zeta. cbn [q_dim one_stage dN dnx dnu dnb dng dns Nat.add q_mask q_RSQ q_rqz q_idxb q_DCt q_d q_m q_Z q_idxs_rev one_sol s_ux s_lam s_t s_pi one_res r_g r_d r_m r_b r_obj r_gap r_mu r_mu_sum].
  change (0 <? 0)%nat with false. cbv iota.
  set (nct := (2 * d_nb q + 2 * d_ng q + 2 * d_ns q)%nat). set (lamk := if mc then _ else _).
  destruct (ineq_block _ _ _ _ _ _ _ _ _ _) as [[[g1 d1] c0] c1].
  destruct (0 <? d_ns q)%nat.
  - destruct (soft_block _ _ _ _ _ _ _ _ _ _) as [g2 d2].
    destruct (0 <? d_ne q)%nat; cbn [fst snd r_g r_b r_d r_m dr_g dr_b dr_d dr_m GEMV_NT]; rewrite !upd_same; repeat split; reflexivity.
  - destruct (0 <? d_ne q)%nat; cbn [fst snd r_g r_b r_d r_m dr_g dr_b dr_d dr_m GEMV_NT]; rewrite !upd_same; repeat split; reflexivity.
Qed.

Section D.
Variable q : dqp R.
Lemma one_wf : den_wf q -> qp_wf (one_stage q). Proof. intros H i _. exact H. Qed.
Lemma one_valid valid : den_valid_ok q valid -> valid_ok valid (one_stage q).
Proof. destruct valid as [[mc inv]|]; [|intros; exact I]. intros [H|H]; [left; exact H|right]. intros i c _ Hc. apply H. exact Hc. Qed.
Lemma one_kkt_g z pi lam k : kkt_g (one_stage q) (fun _ => z) (fun _ => pi) (fun _ => lam) 0 k =
  den_kkt_g q z pi lam k + (if (k <? d_nv q)%nat then rsum (d_ne q) (fun j => d_A q j k * pi j) else 0).
Proof.
  unfold kkt_g, den_kkt_g. cbn [q_dim one_stage dN Nat.ltb Nat.leb andb].
  change (nvt _ 0) with (dnv q). change (nct _ 0) with (d_nct q). change (Hess (one_stage q) 0) with (den_Hess q). change (G (one_stage q) 0) with (den_G q).
  cbn [q_rqz one_stage q_mask]. lra.
Qed.
(** the equality part *)
Lemma eq_part_R s res g :
  (forall k, (k < d_nv q)%nat -> snd (eq_part q s res g) k = g k - rsum (d_ne q) (fun j => d_A q j k * ds_pi s j)) /\
  (forall k, (d_nv q <= k)%nat -> snd (eq_part q s res g) k = g k) /\
  (forall j, (j < d_ne q)%nat -> fst (eq_part q s res g) j = den_eq q (ds_v s) j).
Proof.
  unfold eq_part, den_eq. destruct (Nat.ltb_spec 0 (d_ne q)) as [H|H]; cbn [GEMV_NT fst snd]; unfold GEMV_N, GEMV_T.
  - split; [|split].
    + intros k Hk. rewrite vset_in' by lia. rewrite fsum_R. rsimp. rewrite !R_lit11. cbn [Nat.add]. rewrite Nat.sub_0_r. lra.
    + intros k Hk. rewrite vset_out by lia. reflexivity.
    + intros j Hj. rewrite vset_in' by lia. rewrite fsum_R. rsimp. rewrite !R_lit11. cbn [Nat.add]. rewrite Nat.sub_0_r. lra.
  - replace (d_ne q) with 0%nat by lia. cbn [rsum]. split; [|split]; intros; [lra|reflexivity|lia].
Qed.
Lemma one_cost z : cost (one_stage q) (fun _ => z) = den_cost q z.
Proof. unfold cost. cbn [q_dim one_stage dN Nat.add rsum]. rewrite Rplus_0_l. reflexivity. Qed.
Lemma one_lagr z pi lam : den_lagr q z pi lam = lagr (one_stage q) (fun _ => z) (fun _ => pi) (fun _ => lam) + rsum (d_ne q) (fun j => pi j * den_eq q z j).
Proof.
  unfold lagr, den_lagr. rewrite one_cost. cbn [q_dim one_stage dN Nat.add rsum].
  change (nct _ 0) with (d_nct q). change (con (one_stage q) (fun _ => z) 0) with (den_con q z). cbn [q_mask q_d one_stage]. lra.
Qed.
Lemma A_swap (pi w : nat -> R) : rsum (dnv q) (fun k => (if (k <? d_nv q)%nat then rsum (d_ne q) (fun j => d_A q j k * pi j) else 0) * w k)
  = rsum (d_ne q) (fun j => pi j * rsum (d_nv q) (fun k => d_A q j k * w k)).
Proof.
  unfold dnv. rewrite rsum_split. rewrite (rsum_0 (2 * d_ns q)).
  2:{ intros k Hk. destruct (Nat.ltb_spec (d_nv q + k) (d_nv q)); [lia|lra]. }
  rewrite Rplus_0_r. transitivity (rsum (d_nv q) (fun k => rsum (d_ne q) (fun j => pi j * (d_A q j k * w k)))).
  - apply rsum_ext. intros k Hk. destruct (Nat.ltb_spec k (d_nv q)); [|lia]. rewrite <- rsum_scal_r. apply rsum_ext. intros; lra.
  - rewrite rsum_swap. apply rsum_ext. intros j _. rewrite rsum_scal. reflexivity.
Qed.
Lemma dkkt_dot z pi lam w : rsum (dnv q) (fun k => den_kkt_g q z pi lam k * w k) =
  dot2 1 (nvt (q_dim (one_stage q))) (kkt_g (one_stage q) (fun _ => z) (fun _ => pi) (fun _ => lam)) (fun _ => w) - rsum (d_ne q) (fun j => pi j * rsum (d_nv q) (fun k => d_A q j k * w k)).
Proof.
  rewrite <- A_swap. unfold dot2. cbn [rsum]. rewrite Rplus_0_l. change (nvt _ 0) with (dnv q). rewrite <- rsum_sub. apply rsum_ext. intros k _. rewrite one_kkt_g. lra.
Qed.
Lemma den_lagr_expand z pi lam y : den_lagr q y pi lam = den_lagr q z pi lam + rsum (dnv q) (fun k => den_kkt_g q z pi lam k * (y k - z k))
  + 1 / 2 * rsum (dnv q) (fun k => rsum (dnv q) (fun l => (y k - z k) * den_Hess q k l * (y l - z l))).
Proof.
  rewrite !one_lagr, (dkkt_dot z pi lam (fun k => y k - z k)).
  pose proof (lagr_expand (one_stage q) (fun _ => z) (fun _ => pi) (fun _ => lam) (fun _ => y)) as H. cbn [q_dim one_stage dN Nat.add] in H.
  change (mkdims _ _ _ _ _ _) with (q_dim (one_stage q)) in H. rewrite H. clear H.
  assert (E : rsum (d_ne q) (fun j => pi j * den_eq q y j) = rsum (d_ne q) (fun j => pi j * den_eq q z j) - rsum (d_ne q) (fun j => pi j * rsum (d_nv q) (fun k => d_A q j k * (y k - z k)))).
  { rewrite <- rsum_sub. apply rsum_ext. intros j _. unfold den_eq.
    rewrite (rsum_ext _ (fun k => d_A q j k * (y k - z k)) (fun k => d_A q j k * y k - d_A q j k * z k)) by (intros; lra). rewrite rsum_sub. lra. }
  rewrite E. set (dd := dot2 _ _ _ _). cbn [rsum].
  change (nvt _ 0) with (dnv q). change (Hess (one_stage q) 0) with (den_Hess q). lra.
Qed.
Lemma den_lagr_le_cost pi lam y : den_feasible q y -> den_mask01 q -> (forall c, (c < d_nct q)%nat -> d_mask q c <> 0 -> 0 <= lam c) -> den_lagr q y pi lam <= den_cost q y.
Proof.
  intros [He Hc] Hm Hl. unfold den_lagr. rewrite (rsum_0 (d_ne q)) by (intros j Hj; rewrite He by exact Hj; lra).
  assert (0 <= rsum (d_nct q) (fun c => d_mask q c * lam c * (den_con q y c - d_d q c))); [|lra].
  apply rsum_nonneg. intros c Hc'. destruct (Hm c Hc') as [E|E]; rewrite E; [lra|].
  assert (H1 := Hc c Hc' ltac:(rewrite E; lra)). assert (H2 := Hl c Hc' ltac:(rewrite E; lra)). rewrite Rmult_1_l. apply Rmult_le_pos; lra.
Qed.
End D.
