(** TreeUniq.v -- the Newton system of a strictly convex tree-structured OCP QP has one solution. *)
From Coq Require Import ZArith Bool Arith Lia Reals Lra.
From Verif Require Import Base ArithF RSum OcpModel ResSpec KktSpec ResProofs ResProofs2 KktModel SolveModel NewtonUniq TreeModel TreeSpec TreeProofs TreeKktSpec.
Local Open Scope R_scope.

Section Uniq.
Variables (a : kargs R) (T : ttree) (qp : oqp R).
Notation D := (q_dim qp).
Notation N := (dN D).
Hypothesis HT : tree_ok (N + 1) T.
Hypothesis Hc : ipm_convex a qp.
Variables (s1 s2 : osol R).
Hypothesis H1 : tnewton a T qp s1.
Hypothesis H2 : tnewton a T qp s2.
Let z i k := s_ux s1 i k - s_ux s2 i k.
Let p i j := s_pi s1 i j - s_pi s2 i j.
Let l i c := s_lam s1 i c - s_lam s2 i c.
Let t i c := s_t s1 i c - s_t s2 i c.
Let q0 := with_rhs qp (fun _ _ => 0) (fun _ _ => 0) (fun _ _ => 0) (fun _ _ => 0).

Lemma td_g i k : tkkt_g T q0 z p l i k = tkkt_g T qp (s_ux s1) (s_pi s1) (s_lam s1) i k - tkkt_g T qp (s_ux s2) (s_pi s2) (s_lam s2) i k.
Proof.
  unfold tkkt_g. change (q_dim q0) with D. change (Hess q0) with (Hess qp). change (G q0) with (G qp). change (q_BAbt q0) with (q_BAbt qp). change (nux q0) with (nux qp). change (q_mask q0) with (q_mask qp). change (q_rqz q0 i k) with 0.
  assert (E1 : rsum (nvt D i) (fun l0 => Hess qp i k l0 * z i l0) = rsum (nvt D i) (fun l0 => Hess qp i k l0 * s_ux s1 i l0) - rsum (nvt D i) (fun l0 => Hess qp i k l0 * s_ux s2 i l0)).
  { rewrite <- rsum_sub. apply rsum_ext. intros. unfold z. lra. }
  assert (E2 : forall e n, rsum n (fun j => q_BAbt qp e k j * p e j) = rsum n (fun j => q_BAbt qp e k j * s_pi s1 e j) - rsum n (fun j => q_BAbt qp e k j * s_pi s2 e j)).
  { intros e n. rewrite <- rsum_sub. apply rsum_ext. intros. unfold p. lra. }
  assert (E3 : rsum (nct D i) (fun c => G qp i c k * (q_mask qp i c * l i c)) = rsum (nct D i) (fun c => G qp i c k * (q_mask qp i c * s_lam s1 i c)) - rsum (nct D i) (fun c => G qp i c k * (q_mask qp i c * s_lam s2 i c))).
  { rewrite <- rsum_sub. apply rsum_ext. intros. unfold l. lra. }
  assert (E4 : rsum (t_nk T i) (fun jj => let k0 := t_kid T i jj in rsum (dnx D k0) (fun j => q_BAbt qp (k0 - 1)%nat k j * p (k0 - 1)%nat j)) =
    rsum (t_nk T i) (fun jj => let k0 := t_kid T i jj in rsum (dnx D k0) (fun j => q_BAbt qp (k0 - 1)%nat k j * s_pi s1 (k0 - 1)%nat j)) -
    rsum (t_nk T i) (fun jj => let k0 := t_kid T i jj in rsum (dnx D k0) (fun j => q_BAbt qp (k0 - 1)%nat k j * s_pi s2 (k0 - 1)%nat j))).
  { rewrite <- rsum_sub. apply rsum_ext. intros jj _. cbv zeta. apply E2. }
  cbv zeta in E4 |- *. rewrite E1, E3, E4. unfold p. destruct (_ <? _)%nat; destruct (_ && _)%bool; lra.
Qed.
Lemma td_stat i k : (i <= N)%nat -> (k < nvt D i)%nat -> tkkt_g T q0 z p l i k = - (a_reg a * z i k).
Proof.
  intros Hi Hk. rewrite td_g. destruct H1 as (A1 & _). destruct H2 as (A2 & _). specialize (A1 i k Hi Hk). specialize (A2 i k Hi Hk). unfold z. lra.
Qed.
Lemma td_dyn i jj j : (i <= N)%nat -> (jj < t_nk T i)%nat -> (j < dnx D (t_kid T i jj))%nat -> tlin qp z i (t_kid T i jj) j = 0.
Proof.
  intros Hi Hjj Hj. destruct H1 as (_ & A1 & _). destruct H2 as (_ & A2 & _). unfold z. rewrite <- tdyn_sub, (A1 i jj j Hi Hjj Hj), (A2 i jj j Hi Hjj Hj). lra.
Qed.
Lemma td_t i c : (i <= N)%nat -> (c < nct D i)%nat -> t i c = con qp z i c.
Proof.
  intros Hi Hk. destruct H1 as (_ & _ & A1 & _). destruct H2 as (_ & _ & A2 & _). specialize (A1 i c Hi Hk). specialize (A2 i c Hi Hk).
  unfold z. rewrite con_sub. unfold t. lra.
Qed.
Lemma td_l i c : (i <= N)%nat -> (c < nct D i)%nat -> l i c = - (wgt a i c * t i c).
Proof.
  intros Hi Hk. destruct H1 as (_ & _ & _ & A1). destruct H2 as (_ & _ & _ & A2). specialize (A1 i c Hi Hk). specialize (A2 i c Hi Hk).
  destruct (ic_t _ _ Hc i c Hi Hk) as (TT & _). unfold l, t, wgt.
  apply (Rmult_eq_reg_r (a_t a i c)); [|lra]. field_simplify; [|lra..]. lra.
Qed.
Hypothesis Hm : mask01 qp.
Hypothesis Hlm : forall i c, (i <= N)%nat -> (c < nct D i)%nat -> q_mask qp i c = 0 -> a_lam a i c = 0.

Let quad i := rsum (nvt D i) (fun k => rsum (nvt D i) (fun m => Hess qp i k m * z i m) * z i k) + a_reg a * rsum (nvt D i) (fun k => z i k * z i k).
Let slk i c := wgt a i c * (con qp z i c * con qp z i c).
Lemma tenergy : rsum (N + 1) (fun i => quad i + rsum (nct D i) (slk i)) = 0.
Proof.
  pose proof (tkkt_g_dot T q0 HT z p l z) as H. unfold dot2 in H. change (q_dim q0) with D in H. change (Hess q0) with (Hess qp) in H. change (q_mask q0) with (q_mask qp) in H.
  rewrite (rsum_ext (N + 1) (fun i => rsum (nvt D i) (fun k => tkkt_g T q0 z p l i k * z i k)) (fun i => - (a_reg a * rsum (nvt D i) (fun k => z i k * z i k)))) in H.
  2:{ intros i Hi. rewrite <- rsum_scal, <- rsum_opp. apply rsum_ext. intros k Hk. rewrite td_stat by (try assumption; lia). lra. }
  assert (E0 : edges T q0 (fun i k => rsum (dnx D k) (fun j => p (k - 1)%nat j * tlin q0 z i k j)) = 0).
  { unfold edges. apply rsum_0. intros i Hi. apply rsum_0. intros jj Hjj. apply rsum_0. intros j Hj. change (tlin q0) with (tlin qp). change (dN (q_dim q0)) with N in Hi. rewrite td_dyn by (try assumption; lia). lra. }
  rewrite E0 in H.
  rewrite (rsum_ext (N + 1) (fun i => rsum (nct D i) (fun c => q_mask qp i c * l i c * con q0 z i c)) (fun i => - rsum (nct D i) (slk i))) in H.
  2:{ intros i Hi. rewrite <- rsum_opp. apply rsum_ext. intros c Hk. change (con q0 z i c) with (con qp z i c). rewrite td_l, td_t by (try assumption; lia). unfold slk.
      destruct (Hm i c ltac:(lia) Hk) as [E|E]; rewrite E; [|lra]. assert (W : wgt a i c = 0) by (unfold wgt; rewrite (Hlm i c ltac:(lia) Hk E); unfold Rdiv; lra). rewrite W. lra. }
  rewrite !rsum_opp in H.
  rewrite (rsum_ext (N + 1) (fun i => quad i + rsum (nct D i) (slk i)) (fun i => (rsum (nvt D i) (fun k => rsum (nvt D i) (fun m => Hess qp i k m * z i m) * z i k) + a_reg a * rsum (nvt D i) (fun k => z i k * z i k)) + rsum (nct D i) (slk i))) by reflexivity.
  rewrite !rsum_add in *. rewrite (rsum_0 (N + 1) (fun i => rsum (nvt D i) (fun k => q_rqz q0 i k * z i k))) in H by (intros i Hi; apply rsum_0; intros k Hk; cbn; lra).
  lra.
Qed.
Let hard i := rsum (nux qp i) (fun k => rsum (nux qp i) (fun m => z i k * Hess qp i k m * z i m)) + a_reg a * rsum (nux qp i) (fun k => z i k * z i k).
Let soft i k := (q_Z qp i k + a_reg a) * (z i (nux qp i + k)%nat * z i (nux qp i + k)%nat).
Lemma tz_0 i k : (i <= N)%nat -> (k < nvt D i)%nat -> z i k = 0.
Proof.
  pose proof (quad_split a qp s1 s2 : forall i, quad i = hard i + rsum (2 * dns D i) (soft i)) as QS.
  pose proof (fun i k => soft_nn a qp Hc s1 s2 i k : (i <= N)%nat -> (k < 2 * dns D i)%nat -> 0 <= soft i k) as SN.
  pose proof (fun i k => slk_nn a qp Hc s1 s2 i k : (i <= N)%nat -> (k < nct D i)%nat -> 0 <= slk i k) as LN.
  pose proof (fun i => hard_nn a qp Hc s1 s2 i : (i <= N)%nat -> 0 <= hard i /\ (hard i = 0 -> forall k, (k < nux qp i)%nat -> z i k = 0)) as HN.
  assert (HS : forall i, (i <= N)%nat -> 0 <= rsum (2 * dns D i) (soft i) /\ 0 <= rsum (nct D i) (slk i)).
  { intros j Hj. split; apply rsum_nonneg; intros; [apply SN|apply LN]; assumption. }
  intros Hi Hk. assert (E : quad i + rsum (nct D i) (slk i) = 0).
  { apply (rsum_zero_terms (N + 1) (fun i => quad i + rsum (nct D i) (slk i))); [|exact tenergy|lia]. intros j Hj. rewrite QS. destruct (HS j ltac:(lia)). destruct (HN j ltac:(lia)). lra. }
  rewrite QS in E. destruct (HS i Hi) as (S1 & S2). destruct (HN i Hi) as (S3 & S4).
  destruct (Nat.lt_ge_cases k (nux qp i)) as [Hk'|Hk']; [apply S4; [lra|exact Hk']|].
  assert (Hks : (k - nux qp i < 2 * dns D i)%nat) by (unfold nvt, nux in *; lia). set (m := (k - nux qp i)%nat) in *.
  pose proof (rsum_zero_terms (2 * dns D i) (soft i) (fun k => SN i k Hi) ltac:(lra) m Hks) as A.
  set (c := (2 * dnb D i + 2 * dng D i + m)%nat).
  pose proof (rsum_zero_terms (nct D i) (slk i) (fun k => LN i k Hi) ltac:(lra) c ltac:(unfold c, nct; lia)) as B.
  unfold soft in A. replace (nux qp i + m)%nat with k in A by (unfold m; lia).
  assert (EC : con qp z i c = z i k).
  { unfold con, G. change (nvt D i) with (nux qp i + 2 * dns D i)%nat. rewrite (G_val_sl _ _ _ _ _ _ _ _ c) by (unfold c; lia). f_equal. unfold c, m. lia. }
  unfold slk in B. rewrite EC in B.
  assert (P : 0 < q_Z qp i m + a_reg a \/ 0 < wgt a i c).
  { destruct (ic_slack _ _ Hc i m Hi Hks) as [P|P]; [left; exact P|right]. destruct (ic_t _ _ Hc i c Hi ltac:(unfold c, nct; lia)). unfold wgt. apply Rdiv_lt_0_compat; assumption. }
  assert (Q : z i k * z i k = 0). { destruct P as [P|P]; [apply (Rmult_eq_reg_l (q_Z qp i m + a_reg a)); lra|apply (Rmult_eq_reg_l (wgt a i c)); lra]. }
  apply Rmult_integral in Q. destruct Q; assumption.
Qed.
Lemma tt_0 i c : (i <= N)%nat -> (c < nct D i)%nat -> t i c = 0.
Proof. intros Hi Hk. rewrite td_t by assumption. unfold con. apply rsum_0. intros k Hk'. rewrite tz_0 by assumption. lra. Qed.
Lemma tl_0 i c : (i <= N)%nat -> (c < nct D i)%nat -> l i c = 0.
Proof. intros Hi Hk. rewrite td_l, tt_0 by assumption. lra. Qed.
(** the multipliers of the edges, from the leaves to the root *)
Lemma tp_0 : forall m i, (N <= i + m)%nat -> (0 < i <= N)%nat -> forall j, (j < dnx D i)%nat -> p (i - 1)%nat j = 0.
Proof.
  induction m as [|m IH]; intros i Hi H0 j Hj.
  all: pose proof (td_stat i (dnu D i + j)%nat ltac:(lia) ltac:(unfold nvt; lia)) as H; rewrite tz_0 in H by (try lia; unfold nvt; lia); unfold tkkt_g in H; cbv zeta in H; change (q_dim q0) with D in H; change (nux q0) with (nux qp) in H; change (q_rqz q0 i (dnu D i + j)) with 0 in H.
  all: rewrite (rsum_0 (nvt D i)) in H by (intros k Hk; rewrite tz_0 by (try assumption; lia); lra); rewrite (rsum_0 (nct D i)) in H by (intros k Hk; rewrite tl_0 by (try assumption; lia); lra).
  all: rewrite (rsum_0 (t_nk T i)) in H; [destruct (Nat.ltb_spec 0 i); [|lia]; destruct (Nat.leb_spec (dnu D i) (dnu D i + j)); [|lia]; destruct (Nat.ltb_spec (dnu D i + j) (nux qp i)); [|unfold nux in *; lia]; cbn [andb] in H;
    replace (dnu D i + j - dnu D i)%nat with j in H by lia; lra|].
  all: intros jj Hjj; cbv zeta; apply rsum_0; intros k Hk; pose proof (proj1 HT i jj ltac:(lia) Hjj).
  - lia.
  - rewrite (IH (t_kid T i jj)) by (try assumption; lia). lra.
Qed.
End Uniq.

Theorem tnewton_unique (a : kargs R) (T : ttree) (qp : oqp R) s1 s2 : tree_ok (dN (q_dim qp) + 1) T -> ipm_convex a qp -> mask01 qp ->
  (forall i c, (i <= dN (q_dim qp))%nat -> (c < nct (q_dim qp) i)%nat -> q_mask qp i c = 0 -> a_lam a i c = 0) ->
  tnewton a T qp s1 -> tnewton a T qp s2 ->
  let D := q_dim qp in
  (forall i k, (i <= dN D)%nat -> (k < nvt D i)%nat -> s_ux s1 i k = s_ux s2 i k) /\
  (forall i j, (i < dN D)%nat -> (j < dnx D (S i))%nat -> s_pi s1 i j = s_pi s2 i j) /\
  (forall i c, (i <= dN D)%nat -> (c < nct D i)%nat -> s_lam s1 i c = s_lam s2 i c) /\
  (forall i c, (i <= dN D)%nat -> (c < nct D i)%nat -> s_t s1 i c = s_t s2 i c).
Proof.
  intros HT Hc Hm Hl H1 H2. cbv zeta. split; [|split; [|split]].
  - intros i k Hi Hk. apply Rminus_diag_uniq. eapply (tz_0 a T qp); eassumption.
  - intros i j Hi Hj. apply Rminus_diag_uniq. pose proof (tp_0 a T qp HT Hc s1 s2 H1 H2 Hm Hl (dN (q_dim qp)) (S i) ltac:(lia) ltac:(lia) j Hj) as E. replace (S i - 1)%nat with i in E by lia. exact E.
  - intros i c Hi Hk. apply Rminus_diag_uniq. eapply (tl_0 a T qp); eassumption.
  - intros i c Hi Hk. apply Rminus_diag_uniq. eapply (tt_0 a T qp); eassumption.
Qed.
