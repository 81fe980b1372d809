(** UncProps.v -- C26: the Riccati recursion of OCP_QP_FACT_SOLVE_KKT_UNCONSTR solves QPs without inequality constraints; C40: effect on the QP data. *)
From Coq Require Import ZArith Bool Arith Lia Reals Lra SpecFloat.
From Verif Require Import Base ArithF RSum Blas Blas2 CoreModel OcpModel ResSpec KktSpec ResProofs ResProofs2 CholProofs CholPD KktModel KktProofs KktProofs2 KktProofs3 KktProofs7 UncModel UncProofs.
Local Open Scope R_scope.

Definition no_ineq (qp : oqp R) : Prop := forall i, (i <= dN (q_dim qp))%nat -> dnb (q_dim qp) i = 0%nat /\ dng (q_dim qp) i = 0%nat /\ dns (q_dim qp) i = 0%nat.
(** the regularisation in effect: reg on every variable (square-root algorithm), on the inputs only (classical algorithm) *)
Definition unc_reg (sq : bool) (reg : R) (qp : oqp R) (i k : nat) : R := if sq then reg else if (k <? dnu (q_dim qp) i)%nat then reg else 0.
(** memory at entry: RSQ is the Hessian block of the QP (the gradient row below it is arbitrary) *)
Definition RSQ_is (qp : oqp R) (RSQ : nat -> nat -> nat -> R) : Prop :=
  forall i k l, (i <= dN (q_dim qp))%nat -> (k < nux qp i)%nat -> (l < nux qp i)%nat -> RSQ i k l = q_RSQ qp i k l.
(** no breakdown: the inverse pivots BLASFEO keeps with every factorised block are non-zero *)
Definition no_breakdown (sq : bool) (qp : oqp R) (w : kws R) : Prop :=
  forall i j, (i <= dN (q_dim qp))%nat -> (j < if (sq || (i =? 0)%nat)%bool then nux qp i else dnu (q_dim qp) i)%nat -> k_dA w i j <> 0.
(** every stage Hessian is positive definite once regularised *)
Definition stage_pd (sq : bool) (reg : R) (qp : oqp R) : Prop :=
  forall i (v : nat -> R), (i <= dN (q_dim qp))%nat -> (exists k, (k < nux qp i)%nat /\ v k <> 0) ->
    0 < rsum (nux qp i) (fun k => rsum (nux qp i) (fun l => v k * Hess qp i k l * v l)) + rsum (nux qp i) (fun k => unc_reg sq reg qp i k * (v k * v k)).

Lemma Hess_hard qp i k l : (k < nux qp i)%nat -> (l < nux qp i)%nat -> Hess qp i k l = symL (q_RSQ qp i) k l.
Proof. intros Hk Hl. unfold Hess, H_co, symL. destruct (Nat.ltb_spec k (nux qp i)); [|lia]. destruct (Nat.ltb_spec l (nux qp i)); [|lia]. reflexivity. Qed.
Lemma no_ineq_nvt qp i : no_ineq qp -> (i <= dN (q_dim qp))%nat -> nvt (q_dim qp) i = nux qp i /\ nct (q_dim qp) i = 0%nat.
Proof. intros H Hi. destruct (H i Hi) as (A & B & C). unfold nvt, nct, nux. rewrite A, B, C. lia. Qed.

Lemma eqs_kkt sq reg qp (z pi lam : nat -> nat -> R) : no_ineq qp -> unc_eqs qp reg sq z pi ->
  (forall i k, (i <= dN (q_dim qp))%nat -> (k < nvt (q_dim qp) i)%nat -> kkt_g qp z pi lam i k = - unc_reg sq reg qp i k * z i k) /\
  (forall i j, (i < dN (q_dim qp))%nat -> (j < dnx (q_dim qp) (S i))%nat -> dyn qp z i j = 0).
Proof.
  intros Hn (E1 & E2). split.
  - intros i k Hi Hk. destruct (no_ineq_nvt qp i Hn Hi) as (Ev & Ec). rewrite Ev in Hk. specialize (E2 i k Hi Hk). unfold kkt_g. rewrite Ev, Ec. cbn [rsum].
    rewrite (rsum_ext _ (fun l => Hess qp i k l * z i l) (fun l => symL (q_RSQ qp i) k l * z i l)) by (intros l Hl; rewrite Hess_hard by assumption; reflexivity).
    apply Nat.ltb_lt in Hk. rewrite Hk, !andb_true_r. change (unc_reg sq reg qp i k) with (urho qp reg sq i k). lra.
  - intros i j Hi Hj. unfold dyn. rewrite E1 by assumption. lra.
Qed.
Lemma stage_pd_Hpd sq reg qp : stage_pd sq reg qp -> Hpd qp reg sq.
Proof.
  intros H i Hi v Hv. specialize (H i v Hi Hv). rewrite quadf_add. unfold quadf.
  replace (rsum (nux qp i) (fun k => rsum (nux qp i) (fun l => v k * symL (q_RSQ qp i) k l * v l))) with (rsum (nux qp i) (fun k => rsum (nux qp i) (fun l => v k * Hess qp i k l * v l))).
  - replace (rsum (nux qp i) (fun k => rsum (nux qp i) (fun l => v k * (if (k =? l)%nat then urho qp reg sq i k else 0) * v l))) with (rsum (nux qp i) (fun k => unc_reg sq reg qp i k * (v k * v k))); [exact H|].
    apply rsum_ext. intros k Hk. change (unc_reg sq reg qp i k) with (urho qp reg sq i k). rewrite (rsum_ext _ _ (fun l => if (l =? k)%nat then urho qp reg sq i k * (v k * v k) else 0)).
    + rewrite (rsum_one _ k (fun _ => urho qp reg sq i k * (v k * v k)) Hk). reflexivity.
    + intros l Hl. rewrite (Nat.eqb_sym l k). destruct (Nat.eqb_spec k l) as [-> | ]; ring.
  - apply rsum_ext. intros k Hk. apply rsum_ext. intros l Hl. rewrite Hess_hard by assumption. reflexivity.
Qed.

(** C26.  Whatever the horizon, the dimensions and the data: if no pivot broke down, the returned (ux, pi) satisfies the dynamics and the
    stationarity condition of the QP regularised by unc_reg (exactly, in real arithmetic).  [lam] is irrelevant (no inequality). *)
Theorem C26_unconstrained_kkt (qp : oqp R) (sq : bool) (reg : R) (RSQ : nat -> nat -> nat -> R) (w : kws R) lam :
  no_ineq qp -> (1 <= dN (q_dim qp))%nat -> RSQ_is qp RSQ -> BAok qp w ->
  let '(_, w') := unc_solve sq reg true qp (RSQ, w) in
  no_breakdown sq qp w' ->
  let D := q_dim qp in
  (forall i k, (i <= dN D)%nat -> (k < nvt D i)%nat -> kkt_g qp (k_ux w') (k_pi w') lam i k = - unc_reg sq reg qp i k * k_ux w' i k) /\
  (forall i j, (i < dN D)%nat -> (j < dnx D (S i))%nat -> dyn qp (k_ux w') i j = 0).
Proof.
  intros Hn HN HR HB. destruct (unc_solve_R qp reg sq (RSQ, w) HN HR HB) as (_ & H & _). destruct (unc_solve _ _ _ _ _) as [RSQ' w']. cbn [fst snd] in H.
  intros Hnb. cbv zeta. apply eqs_kkt; [exact Hn|]. apply H. exact Hnb.
Qed.

(** C26, total: positive definite stage Hessians exclude breakdown. *)
Theorem C26_convex_no_breakdown (qp : oqp R) (sq : bool) (reg : R) RSQ w :
  (1 <= dN (q_dim qp))%nat -> RSQ_is qp RSQ -> BAok qp w -> stage_pd sq reg qp ->
  no_breakdown sq qp (snd (unc_solve sq reg true qp (RSQ, w))).
Proof.
  intros HN HR HB HP. destruct (unc_solve_R qp reg sq (RSQ, w) HN HR HB) as (_ & _ & H). apply H. apply stage_pd_Hpd. exact HP.
Qed.

(** C26, user level: strictly convex stages, no regularisation: the returned trajectory is feasible and is the unique minimiser. *)
Theorem C26_global_minimum (qp : oqp R) (sq : bool) RSQ w :
  no_ineq qp -> (1 <= dN (q_dim qp))%nat -> RSQ_is qp RSQ -> BAok qp w -> stage_pd sq 0 qp ->
  let '(_, w') := unc_solve sq 0 true qp (RSQ, w) in
  feasible qp (k_ux w') /\
  forall y, feasible qp y -> cost qp (k_ux w') <= cost qp y /\
    ((exists i k, (i <= dN (q_dim qp))%nat /\ (k < nux qp i)%nat /\ y i k <> k_ux w' i k) -> cost qp (k_ux w') < cost qp y).
Proof.
  intros Hn HN HR HB HP. pose proof (C26_unconstrained_kkt qp sq 0 RSQ w (fun _ _ => 0) Hn HN HR HB) as K. pose proof (C26_convex_no_breakdown qp sq 0 RSQ w HN HR HB HP) as NB.
  destruct (unc_solve _ _ _ _ _) as [RSQ' w']. cbn [snd] in NB. specialize (K NB). cbv zeta in K. destruct K as (K1 & K2). clear NB.
  set (z := k_ux w') in *. set (pi := k_pi w') in *. set (D := q_dim qp) in *.
  assert (Hf : feasible qp z). { split; [exact K2|]. intros i c Hi Hc. destruct (no_ineq_nvt qp i Hn Hi) as (_ & E). fold D in Hc, E. rewrite E in Hc. lia. }
  split; [exact Hf|]. intros y Hy.
  assert (L : forall x, feasible qp x -> lagr qp x pi (fun _ _ => 0) = cost qp x).
  { intros x (Hx & _). unfold lagr. fold D. rewrite (rsum_0 (dN D)). 2:{ intros i Hi. apply rsum_0. intros j Hj. rewrite Hx by assumption. lra. }
    rewrite (rsum_0 (dN D + 1)); [lra|]. intros i Hi. apply rsum_0. intros c Hc. lra. }
  pose proof (lagr_expand qp z pi (fun _ _ => 0) y) as E. unfold dot2 in E. fold D in E. rewrite !L in E by assumption.
  set (Q := fun i => rsum (nvt D i) (fun k => rsum (nvt D i) (fun l => (y i k - z i k) * Hess qp i k l * (y i l - z i l)))) in *.
  assert (E1 : cost qp y = cost qp z + 1 / 2 * rsum (dN D + 1) Q).
  { rewrite E. rewrite (rsum_0 (dN D + 1) (fun i => rsum (nvt D i) (fun k => kkt_g qp z pi (fun _ _ => 0) i k * (y i k - z i k)))); [lra|]. intros i Hi. apply rsum_0. intros k Hk. rewrite K1 by (try assumption; lia). unfold unc_reg. destruct sq; [lra|]. destruct (_ <? _)%nat; lra. }
  assert (QP : forall i, (i <= dN D)%nat -> (exists k, (k < nux qp i)%nat /\ y i k <> z i k) -> 0 < Q i).
  { intros i Hi (k & Hk & Hne). pose proof (HP i (fun k => y i k - z i k) Hi) as H. destruct (no_ineq_nvt qp i Hn Hi) as (Ev & _). unfold Q. unfold D. rewrite Ev.
    rewrite (rsum_0 (nux qp i) (fun k => unc_reg sq 0 qp i k * _)) in H by (intros k' _; unfold unc_reg; destruct sq; [lra|destruct (_ <? _)%nat; lra]). rewrite Rplus_0_r in H. apply H. exists k. split; [exact Hk|lra]. }
  assert (Q0 : forall i, (i <= dN D)%nat -> 0 <= Q i).
  { intros i Hi. destruct (no_ineq_nvt qp i Hn Hi) as (Ev & _).
    assert (Dec : (exists k, (k < nux qp i)%nat /\ y i k <> z i k) \/ forall k, (k < nux qp i)%nat -> y i k = z i k).
    { clear. induction (nux qp i) as [|n IH]; [right; intros; lia|]. destruct IH as [(k & Hk & Hne)|IH]; [left; exists k; split; [lia|exact Hne]|].
      destruct (Req_EM_T (y i n) (z i n)) as [E|E]; [right; intros k Hk; destruct (Nat.eq_dec k n) as [-> | ]; [exact E|apply IH; lia]|left; exists n; split; [lia|exact E]]. }
    destruct Dec as [Hne|Heq]; [left; apply QP; assumption|]. right. unfold Q. symmetry. apply rsum_0. intros k Hk. apply rsum_0. intros l Hl. unfold D in Hk. rewrite Ev in Hk. rewrite (Heq k Hk). lra. }
  assert (HQ : 0 <= rsum (dN D + 1) Q) by (apply rsum_nonneg; intros i Hi; apply Q0; lia).
  split; [lra|]. intros (i & k & Hi & Hk & Hne).
  assert (0 < rsum (dN D + 1) Q); [|lra].
  apply Rlt_le_trans with (Q i); [apply QP; [exact Hi|exists k; split; assumption]|].
  fold D in Hi. clear - Q0 Hi. assert (G : forall n, (i < n <= dN D + 1)%nat -> Q i <= rsum n Q).
  { induction n as [|n IH]; intros Hn; [lia|]. cbn [rsum]. destruct (Nat.eq_dec i n) as [-> | Hne].
    - assert (0 <= rsum n Q); [|lra]. apply rsum_nonneg. intros j Hj. apply Q0. lia.
    - specialize (IH ltac:(lia)). assert (0 <= Q n) by (apply Q0; lia). lra. }
  apply G. lia.
Qed.

(** C40: in exact arithmetic the Hessian stored in the QP object is the same after the solve as before, whatever reg and whatever the pivots. *)
Theorem C40_hessian_restored (qp : oqp R) (sq : bool) (reg : R) RSQ w : (1 <= dN (q_dim qp))%nat -> RSQ_is qp RSQ -> BAok qp w ->
  RSQ_is qp (fst (unc_solve sq reg true qp (RSQ, w))).
Proof. intros HN HR HB. destruct (unc_solve_R qp reg sq (RSQ, w) HN HR HB) as (H & _). exact H. Qed.

(** C40, in binary64 it is not: the Hessian is regularised in place and reg subtracted again.  One input per stage with weight 2 and the default
    reg_prim = 1e-15 (x_ocp_qp_ipm.c lines 90, 125, 160, 195): the stored weight is no longer 2 after the solve. *)
Section Float.
Let f (z : Z) : spec_float := sf_of_Z z.
Definition c40D : dims := mkdims 1 (fun _ => 0%nat) (fun _ => 1%nat) (fun _ => 0%nat) (fun _ => 0%nat) (fun _ => 0%nat).
Definition c40h : spec_float := sf_of_Z 2.
Definition c40qp : oqp spec_float := mkqp c40D (fun _ _ _ => f 0) (fun _ _ _ => c40h) (fun _ _ _ => f 0) (fun _ _ => f 0) (fun _ _ => f 1)
  (fun _ _ => f 0) (fun _ _ => f 1) (fun _ _ => f 0) (fun _ _ => f 1) (fun _ j => j) (fun _ _ => (-1)%Z).
Definition c40v : nat -> spec_float := fun _ => f 0.
Definition c40w : kws spec_float := mkkws (fun _ _ => c40v) (fun _ _ => c40v) (fun _ => c40v) (fun _ _ => c40v) (fun _ => c40v) (fun _ => c40v) (fun _ => c40v) (fun _ => c40v) (fun _ => c40v) c40v (fun _ => c40v) (fun _ => c40v) (fun _ => c40v) (fun _ => c40v).
Definition c40s (sq : bool) := unc_solve sq (lit 1 1000000000000000) true c40qp (q_RSQ c40qp, c40w).
End Float.
Theorem C40_hessian_restored_float_refuted (sq : bool) : feqb (fst (c40s sq) 0%nat 0%nat 0%nat) (q_RSQ c40qp 0%nat 0%nat 0%nat) = false.
Proof. destruct sq; vm_compute; reflexivity. Qed.

(** a case which meets the hypotheses: two stages, x1 = u0 + x0 + 1, one state, one input *)
Definition c26D : dims := mkdims 1 (fun _ => 1%nat) (fun i => match i with 0%nat => 1%nat | _ => 0%nat end) (fun _ => 0%nat) (fun _ => 0%nat) (fun _ => 0%nat).
Definition c26qp : oqp R := mkqp c26D (fun _ _ _ => 1) (fun _ i j => if (i =? j)%nat then 2 else 1) (fun _ _ _ => 0) (fun _ _ => 1) (fun _ _ => 3)
  (fun _ _ => 0) (fun _ _ => 1) (fun _ _ => 0) (fun _ _ => 0) (fun _ _ => 0%nat) (fun _ _ => (-1)%Z).
Example C26_hypotheses_met : no_ineq c26qp /\ (1 <= dN (q_dim c26qp))%nat /\ RSQ_is c26qp (q_RSQ c26qp) /\ (forall sq, stage_pd sq 0 c26qp) /\ nux c26qp 0 = 2%nat /\
  BAok c26qp (mkkws (q_BAbt c26qp) (fun _ _ _ => 0) (fun _ _ => 0) (fun _ _ _ => 0) (fun _ _ => 0) (fun _ _ => 0) (fun _ _ => 0) (fun _ _ => 0) (fun _ _ => 0) (fun _ => 0) (fun _ _ => 0) (fun _ _ => 0) (fun _ _ => 0) (fun _ _ => 0)).
Proof.
  split; [intros i _; cbn; auto|]. split; [cbn; lia|]. split; [intros i k l _ _ _; reflexivity|]. split; [|split; [reflexivity|intros ss i j _ _ _; reflexivity]].
  intros sq i v Hi (k & Hk & Hne). cbn in Hi.
  assert (Er : rsum (nux c26qp i) (fun k0 => unc_reg sq 0 c26qp i k0 * (v k0 * v k0)) = 0). { apply rsum_0. intros j _. unfold unc_reg. destruct sq; [lra|destruct (_ <? _)%nat; lra]. }
  rewrite Er. destruct i as [|[|i]]; [| |lia]; unfold nux in *; cbn in *; unfold Hess, H_co; cbn.
  - match goal with |- 0 < ?e => replace e with (v 0%nat * v 0%nat + v 1%nat * v 1%nat + (v 0%nat + v 1%nat) * (v 0%nat + v 1%nat)) by ring end.
    assert (H0 : 0 <= v 0%nat * v 0%nat) by apply Rle_0_sqr. assert (H1 : 0 <= v 1%nat * v 1%nat) by apply Rle_0_sqr. assert (H2 : 0 <= (v 0%nat + v 1%nat) * (v 0%nat + v 1%nat)) by apply Rle_0_sqr.
    assert (H3 : 0 < v k * v k) by (apply Rsqr_pos_lt; exact Hne). assert (k = 0 \/ k = 1)%nat as [-> | ->] by lia; lra.
  - assert (k = 0)%nat as -> by lia. assert (H3 : 0 < v 0%nat * v 0%nat) by (apply Rsqr_pos_lt; exact Hne). lra.
Qed.
Print Assumptions C26_unconstrained_kkt.
Print Assumptions C26_global_minimum.
Print Assumptions C40_hessian_restored.
Print Assumptions C40_hessian_restored_float_refuted.
