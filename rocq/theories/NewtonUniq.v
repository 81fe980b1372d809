(** NewtonUniq.v -- a strictly convex QP has at most one Newton step at an interior point. *)
From Coq Require Import ZArith Bool Arith Lia Reals Lra.
From Verif Require Import Base ArithF RSum Blas CoreModel OcpModel ResSpec KktModel KktSpec ResProofs ResProofs2 UncProps SolveModel.
Local Open Scope R_scope.

(** the step solves the Newton system of qp at (lam, t) of a, regularised by reg_diag *)
Definition newton_solution (a : kargs R) (qp : oqp R) (preg : R) (step : osol R) : Prop :=
  let D := q_dim qp in
  (forall i k, (i <= dN D)%nat -> (k < nvt D i)%nat -> kkt_g qp (s_ux step) (s_pi step) (s_lam step) i k + reg_diag qp (a_reg a) preg i k * s_ux step i k = 0) /\
  (forall i j, (i < dN D)%nat -> (j < dnx D (S i))%nat -> dyn qp (s_ux step) i j = 0) /\
  (forall i c, (i <= dN D)%nat -> (c < nct D i)%nat -> q_d qp i c + s_t step i c - con qp (s_ux step) i c = 0) /\
  (forall i c, (i <= dN D)%nat -> (c < nct D i)%nat -> q_m qp i c + a_lam a i c * s_t step i c + s_lam step i c * a_t a i c = 0).

Lemma rsum_zero_terms n f : (forall k, (k < n)%nat -> 0 <= f k) -> rsum n f = 0 -> forall k, (k < n)%nat -> f k = 0.
Proof.
  induction n as [|n IH]; intros Hf H k Hk; [lia|]. cbn [rsum] in H.
  assert (0 <= rsum n f) by (apply rsum_nonneg; intros; apply Hf; lia). assert (0 <= f n) by (apply Hf; lia).
  destruct (Nat.eq_dec k n) as [->|Hne]; [lra|]. apply IH; [intros; apply Hf; lia|lra|lia].
Qed.

Section Uniq.
Variables (a : kargs R) (qp : oqp R).
Notation D := (q_dim qp).
Notation N := (dN D).
Hypothesis Hwf : qp_wf qp.
Hypothesis Hc : ipm_convex a qp.
Variables (s1 s2 : osol R).
Hypothesis H1 : newton_solution a qp (a_reg a) s1.
Hypothesis H2 : newton_solution a qp (a_reg a) s2.
Let z i k := s_ux s1 i k - s_ux s2 i k.
Let p i j := s_pi s1 i j - s_pi s2 i j.
Let l i c := s_lam s1 i c - s_lam s2 i c.
Let t i c := s_t s1 i c - s_t s2 i c.
Let q0 := with_rhs qp (fun _ _ => 0) (fun _ _ => 0) (fun _ _ => 0) (fun _ _ => 0).

Lemma rd i k : reg_diag qp (a_reg a) (a_reg a) i k = a_reg a.
Proof. unfold reg_diag. destruct (_ || _)%bool; reflexivity. Qed.
Lemma d_g i k : kkt_g q0 z p l i k = kkt_g qp (s_ux s1) (s_pi s1) (s_lam s1) i k - kkt_g qp (s_ux s2) (s_pi s2) (s_lam s2) i k.
Proof.
  unfold kkt_g. change (q_dim q0) with D. change (Hess q0) with (Hess qp). change (G q0) with (G qp). change (q_BAbt q0) with (q_BAbt qp). change (nux q0) with (nux qp). change (q_mask q0) with (q_mask qp). change (q_rqz q0 i k) with 0.
  assert (E1 : rsum (nvt D i) (fun l0 => Hess qp i k l0 * z i l0) = rsum (nvt D i) (fun l0 => Hess qp i k l0 * s_ux s1 i l0) - rsum (nvt D i) (fun l0 => Hess qp i k l0 * s_ux s2 i l0)).
  { rewrite <- rsum_sub. apply rsum_ext. intros. unfold z. lra. }
  assert (E2 : rsum (dnx D (S i)) (fun j => q_BAbt qp i k j * p i j) = rsum (dnx D (S i)) (fun j => q_BAbt qp i k j * s_pi s1 i j) - rsum (dnx D (S i)) (fun j => q_BAbt qp i k j * s_pi s2 i j)).
  { rewrite <- rsum_sub. apply rsum_ext. intros. unfold p. lra. }
  assert (E3 : rsum (nct D i) (fun c => G qp i c k * (q_mask qp i c * l i c)) = rsum (nct D i) (fun c => G qp i c k * (q_mask qp i c * s_lam s1 i c)) - rsum (nct D i) (fun c => G qp i c k * (q_mask qp i c * s_lam s2 i c))).
  { rewrite <- rsum_sub. apply rsum_ext. intros. unfold l. lra. }
  rewrite E1, E2, E3. unfold p. destruct (_ && _)%bool; destruct (_ && _ && _)%bool; lra.
Qed.
Lemma d_stat i k : (i <= N)%nat -> (k < nvt D i)%nat -> kkt_g q0 z p l i k = - (a_reg a * z i k).
Proof.
  intros Hi Hk. rewrite d_g. destruct H1 as (A1 & _). destruct H2 as (A2 & _). specialize (A1 i k Hi Hk). specialize (A2 i k Hi Hk). rewrite rd in A1, A2. unfold z. lra.
Qed.
Lemma d_dyn i j : (i < N)%nat -> (j < dnx D (S i))%nat -> rsum (nux qp i) (fun k => q_BAbt qp i k j * z i k) - z (S i) (dnu D (S i) + j)%nat = 0.
Proof.
  intros Hi Hj. destruct H1 as (_ & A1 & _). destruct H2 as (_ & A2 & _). unfold z. rewrite <- dyn_sub, (A1 i j Hi Hj), (A2 i j Hi Hj). lra.
Qed.
Lemma d_t i c : (i <= N)%nat -> (c < nct D i)%nat -> t i c = con qp z i c.
Proof.
  intros Hi Hk. destruct H1 as (_ & _ & A1 & _). destruct H2 as (_ & _ & A2 & _). specialize (A1 i c Hi Hk). specialize (A2 i c Hi Hk).
  unfold z. rewrite con_sub. unfold t. lra.
Qed.
Lemma d_l i c : (i <= N)%nat -> (c < nct D i)%nat -> l i c = - (wgt a i c * t i c).
Proof.
  intros Hi Hk. destruct H1 as (_ & _ & _ & A1). destruct H2 as (_ & _ & _ & A2). specialize (A1 i c Hi Hk). specialize (A2 i c Hi Hk).
  destruct (ic_t _ _ Hc i c Hi Hk) as (T & _). unfold l, t, wgt.
  apply (Rmult_eq_reg_r (a_t a i c)); [|lra]. field_simplify; [|lra..]. lra.
Qed.
Hypothesis Hm : mask01 qp.
Hypothesis Hlm : forall i c, (i <= N)%nat -> (c < nct D i)%nat -> q_mask qp i c = 0 -> a_lam a i c = 0.

Let quad i := rsum (nvt D i) (fun k => rsum (nvt D i) (fun m => Hess qp i k m * z i m) * z i k) + a_reg a * rsum (nvt D i) (fun k => z i k * z i k).
Let slk i c := wgt a i c * (con qp z i c * con qp z i c).
Lemma energy : rsum (N + 1) (fun i => quad i + rsum (nct D i) (slk i)) = 0.
Proof.
  pose proof (kkt_g_dot q0 z p l z) as H. unfold dot2 in H. change (q_dim q0) with D in H. change (Hess q0) with (Hess qp) in H. change (q_BAbt q0) with (q_BAbt qp) in H. change (nux q0) with (nux qp) in H. change (q_mask q0) with (q_mask qp) in H.
  rewrite (rsum_ext (N + 1) (fun i => rsum (nvt D i) (fun k => kkt_g q0 z p l i k * z i k)) (fun i => - (a_reg a * rsum (nvt D i) (fun k => z i k * z i k)))) in H.
  2:{ intros i Hi. rewrite <- rsum_scal, <- rsum_opp. apply rsum_ext. intros k Hk. rewrite d_stat by (try assumption; lia). lra. }
  rewrite (rsum_0 N) in H by (intros i Hi; apply rsum_0; intros j Hj; rewrite d_dyn by assumption; lra).
  rewrite (rsum_ext (N + 1) (fun i => rsum (nct D i) (fun c => q_mask qp i c * l i c * con q0 z i c)) (fun i => - rsum (nct D i) (slk i))) in H.
  2:{ intros i Hi. rewrite <- rsum_opp. apply rsum_ext. intros c Hk. change (con q0 z i c) with (con qp z i c). rewrite d_l, d_t by (try assumption; lia). unfold slk.
      destruct (Hm i c ltac:(lia) Hk) as [E|E]; rewrite E; [|lra]. assert (W : wgt a i c = 0) by (unfold wgt; rewrite (Hlm i c ltac:(lia) Hk E); unfold Rdiv; lra). rewrite W. lra. }
  rewrite !rsum_opp in H.
  rewrite (rsum_ext (N + 1) (fun i => quad i + rsum (nct D i) (slk i)) (fun i => (rsum (nvt D i) (fun k => rsum (nvt D i) (fun m => Hess qp i k m * z i m) * z i k) + a_reg a * rsum (nvt D i) (fun k => z i k * z i k)) + rsum (nct D i) (slk i))) by reflexivity.
  rewrite !rsum_add in *. rewrite (rsum_0 (N + 1) (fun i => rsum (nvt D i) (fun k => q_rqz q0 i k * z i k))) in H by (intros i Hi; apply rsum_0; intros k Hk; cbn; lra).
  lra.
Qed.
Let hard i := rsum (nux qp i) (fun k => rsum (nux qp i) (fun m => z i k * Hess qp i k m * z i m)) + a_reg a * rsum (nux qp i) (fun k => z i k * z i k).
Let soft i k := (q_Z qp i k + a_reg a) * (z i (nux qp i + k)%nat * z i (nux qp i + k)%nat).
Lemma quad_split i : quad i = hard i + rsum (2 * dns D i) (soft i).
Proof.
  unfold quad, hard. change (nvt D i) with (nux qp i + 2 * dns D i)%nat. rewrite (rsum_split (nux qp i) _ (fun k => z i k * z i k)).
  rewrite (rsum_split (nux qp i) _ (fun k => rsum _ _ * z i k)).
  rewrite (rsum_ext (nux qp i) (fun k => rsum (nux qp i + 2 * dns D i) (fun m => Hess qp i k m * z i m) * z i k) (fun k => rsum (nux qp i) (fun m => z i k * Hess qp i k m * z i m))).
  2:{ intros k Hk. unfold Hess at 1. rewrite H_hard by assumption. rewrite <- rsum_scal_r. apply rsum_ext. intros m Hm'. rewrite Hess_hard by assumption. lra. }
  rewrite (rsum_ext (2 * dns D i) (fun k => rsum (nux qp i + 2 * dns D i) (fun m => Hess qp i (nux qp i + k) m * z i m) * z i (nux qp i + k)%nat) (fun k => q_Z qp i k * (z i (nux qp i + k)%nat * z i (nux qp i + k)%nat))).
  2:{ intros k Hk. unfold Hess. rewrite H_slack by lia. replace (nux qp i + k - nux qp i)%nat with k by lia. lra. }
  unfold soft. rewrite (rsum_ext (2 * dns D i) (fun k => (q_Z qp i k + a_reg a) * _) (fun k => q_Z qp i k * (z i (nux qp i + k)%nat * z i (nux qp i + k)%nat) + a_reg a * (z i (nux qp i + k)%nat * z i (nux qp i + k)%nat))) by (intros; lra).
  rewrite rsum_add, rsum_scal. lra.
Qed.
Lemma wgt_nn i c : (i <= N)%nat -> (c < nct D i)%nat -> 0 <= wgt a i c.
Proof. intros Hi Hk. destruct (ic_t _ _ Hc i c Hi Hk). unfold wgt, Rdiv. apply Rmult_le_pos; [assumption|]. left. apply Rinv_0_lt_compat. assumption. Qed.
Lemma slk_nn i c : (i <= N)%nat -> (c < nct D i)%nat -> 0 <= slk i c.
Proof. intros Hi Hk. unfold slk. apply Rmult_le_pos; [apply wgt_nn; assumption|apply Rle_0_sqr]. Qed.
Lemma soft_nn i k : (i <= N)%nat -> (k < 2 * dns D i)%nat -> 0 <= soft i k.
Proof. intros Hi Hk. unfold soft. apply Rmult_le_pos; [apply (ic_Z _ _ Hc); assumption|apply Rle_0_sqr]. Qed.
Lemma hard_nn i : (i <= N)%nat -> 0 <= hard i /\ (hard i = 0 -> forall k, (k < nux qp i)%nat -> z i k = 0).
Proof.
  intros Hi.
  assert (DEC : (forall k, (k < nux qp i)%nat -> z i k = 0) \/ exists k, (k < nux qp i)%nat /\ z i k <> 0).
  { generalize (nux qp i). intros n. induction n as [|n IH]; [left; intros; lia|]. destruct IH as [IH|(k & Hk & E)]; [|right; exists k; split; [lia|exact E]].
    destruct (Req_dec (z i n) 0) as [E|E]; [left|right; exists n; split; [lia|exact E]]. intros k Hk. destruct (Nat.eq_dec k n) as [->|]; [exact E|apply IH; lia]. }
  destruct DEC as [E|E].
  - split; [|intros; apply E; assumption]. right. symmetry. unfold hard. rewrite (rsum_0 (nux qp i)). rewrite (rsum_0 (nux qp i)). lra. intros k Hk. rewrite E by assumption. lra. intros k Hk. apply rsum_0. intros m Hm'. rewrite (E k Hk). lra.
  - pose proof (ic_H _ _ Hc i (z i) Hi E) as H. fold (hard i) in H. split; [lra|lra].
Qed.
Lemma z_0 i k : (i <= N)%nat -> (k < nvt D i)%nat -> z i k = 0.
Proof.
  assert (HS : forall i, (i <= N)%nat -> 0 <= rsum (2 * dns D i) (soft i) /\ 0 <= rsum (nct D i) (slk i)).
  { intros j Hj. split; apply rsum_nonneg; intros; [apply soft_nn|apply slk_nn]; assumption. }
  intros Hi Hk. assert (E : quad i + rsum (nct D i) (slk i) = 0).
  { apply (rsum_zero_terms (N + 1) (fun i => quad i + rsum (nct D i) (slk i))); [|exact energy|lia]. intros j Hj. rewrite quad_split. destruct (HS j ltac:(lia)). destruct (hard_nn j ltac:(lia)). lra. }
  rewrite quad_split in E. destruct (HS i Hi) as (S1 & S2). destruct (hard_nn i Hi) as (S3 & S4).
  destruct (Nat.lt_ge_cases k (nux qp i)) as [Hk'|Hk']; [apply S4; [lra|exact Hk']|].
  assert (Hks : (k - nux qp i < 2 * dns D i)%nat) by (unfold nvt, nux in *; lia). set (m := (k - nux qp i)%nat) in *.
  pose proof (rsum_zero_terms (2 * dns D i) (soft i) (fun k => soft_nn i k Hi) ltac:(lra) m Hks) as A.
  set (c := (2 * dnb D i + 2 * dng D i + m)%nat).
  pose proof (rsum_zero_terms (nct D i) (slk i) (fun k => slk_nn i k Hi) ltac:(lra) c ltac:(unfold c, nct; lia)) as B.
  unfold soft in A. replace (nux qp i + m)%nat with k in A by (unfold m; lia).
  assert (EC : con qp z i c = z i k).
  { unfold con, G. change (nvt D i) with (nux qp i + 2 * dns D i)%nat. rewrite (G_val_sl _ _ _ _ _ _ _ _ c) by (unfold c; lia). f_equal. unfold c, m. lia. }
  unfold slk in B. rewrite EC in B.
  assert (P : 0 < q_Z qp i m + a_reg a \/ 0 < wgt a i c).
  { destruct (ic_slack _ _ Hc i m Hi Hks) as [P|P]; [left; exact P|right]. destruct (ic_t _ _ Hc i c Hi ltac:(unfold c, nct; lia)). unfold wgt. apply Rdiv_lt_0_compat; assumption. }
  assert (Q : z i k * z i k = 0). { destruct P as [P|P]; [apply (Rmult_eq_reg_l (q_Z qp i m + a_reg a)); lra|apply (Rmult_eq_reg_l (wgt a i c)); lra]. }
  apply Rmult_integral in Q. destruct Q; assumption.
Qed.
Lemma t_0 i c : (i <= N)%nat -> (c < nct D i)%nat -> t i c = 0.
Proof. intros Hi Hk. rewrite d_t by assumption. unfold con. apply rsum_0. intros k Hk'. rewrite z_0 by assumption. lra. Qed.
Lemma l_0 i c : (i <= N)%nat -> (c < nct D i)%nat -> l i c = 0.
Proof. intros Hi Hk. rewrite d_l, t_0 by assumption. lra. Qed.
Lemma p_0 : forall m i, (i + m = N)%nat -> (0 < i)%nat -> forall j, (j < dnx D i)%nat -> p (i - 1)%nat j = 0.
Proof.
  induction m as [|m IH]; intros i Hi H0 j Hj.
  - pose proof (d_stat i (dnu D i + j)%nat ltac:(lia) ltac:(unfold nvt; lia)) as H. rewrite z_0 in H by (try lia; unfold nvt; lia). unfold kkt_g in H. change (q_dim q0) with D in H. change (nux q0) with (nux qp) in H. change (q_rqz q0 i (dnu D i + j)) with 0 in H.
    rewrite (rsum_0 (nvt D i)) in H by (intros k Hk; rewrite z_0 by (try assumption; lia); lra). rewrite (rsum_0 (nct D i)) in H by (intros k Hk; rewrite l_0 by (try assumption; lia); lra).
    destruct (Nat.ltb_spec i N); [lia|]. destruct (Nat.ltb_spec 0 i); [|lia]. destruct (Nat.leb_spec (dnu D i) (dnu D i + j)); [|lia]. destruct (Nat.ltb_spec (dnu D i + j) (nux qp i)); [|unfold nux in *; lia]. cbn [andb] in H.
    replace (dnu D i + j - dnu D i)%nat with j in H by lia. lra.
  - pose proof (d_stat i (dnu D i + j)%nat ltac:(lia) ltac:(unfold nvt; lia)) as H. rewrite z_0 in H by (try lia; unfold nvt; lia). unfold kkt_g in H. change (q_dim q0) with D in H. change (nux q0) with (nux qp) in H. change (q_rqz q0 i (dnu D i + j)) with 0 in H.
    rewrite (rsum_0 (nvt D i)) in H by (intros k Hk; rewrite z_0 by (try assumption; lia); lra). rewrite (rsum_0 (nct D i)) in H by (intros k Hk; rewrite l_0 by (try assumption; lia); lra).
    rewrite (rsum_0 (dnx D (S i))) in H. 2:{ intros k Hk. pose proof (IH (S i) ltac:(lia) ltac:(lia) k Hk) as E. replace (S i - 1)%nat with i in E by lia. rewrite E. lra. }
    destruct (Nat.ltb_spec 0 i); [|lia]. destruct (Nat.leb_spec (dnu D i) (dnu D i + j)); [|lia]. destruct (Nat.ltb_spec (dnu D i + j) (nux qp i)); [|unfold nux in *; lia].
    replace (dnu D i + j - dnu D i)%nat with j in H by lia. destruct (i <? N)%nat; cbn [andb] in H; lra.
Qed.
End Uniq.

(** at most one Newton step *)
Theorem newton_unique_mask (a : kargs R) (qp : oqp R) s1 s2 : ipm_convex a qp -> mask01 qp ->
  (forall i c, (i <= dN (q_dim qp))%nat -> (c < nct (q_dim qp) i)%nat -> q_mask qp i c = 0 -> a_lam a i c = 0) ->
  newton_solution a qp (a_reg a) s1 -> newton_solution a qp (a_reg a) s2 ->
  let D := q_dim qp in
  (forall i k, (i <= dN D)%nat -> (k < nvt D i)%nat -> s_ux s1 i k = s_ux s2 i k) /\
  (forall i j, (i < dN D)%nat -> (j < dnx D (S i))%nat -> s_pi s1 i j = s_pi s2 i j) /\
  (forall i c, (i <= dN D)%nat -> (c < nct D i)%nat -> s_lam s1 i c = s_lam s2 i c) /\
  (forall i c, (i <= dN D)%nat -> (c < nct D i)%nat -> s_t s1 i c = s_t s2 i c).
Proof.
  intros Hc Hm Hl H1 H2. cbv zeta. split; [|split; [|split]].
  - intros i k Hi Hk. apply Rminus_diag_uniq. eapply (z_0 a qp); eassumption.
  - intros i j Hi Hj. apply Rminus_diag_uniq. pose proof (p_0 a qp Hc s1 s2 H1 H2 Hm Hl (dN (q_dim qp) - S i) (S i) ltac:(lia) ltac:(lia) j Hj) as E. replace (S i - 1)%nat with i in E by lia. exact E.
  - intros i c Hi Hk. apply Rminus_diag_uniq. eapply (l_0 a qp); eassumption.
  - intros i c Hi Hk. apply Rminus_diag_uniq. eapply (t_0 a qp); eassumption.
Qed.
