(** SolverProofs.v -- proofs for SolverProps.v: what holds for the reduced QP and its solution holds for the QP and the restored solution (reals). *)
From Coq Require Import ZArith Bool Arith List Lia Reals Lra String.
From Verif Require Import Base ArithF RSum Blas OcpModel ResSpec ResProofs ResProofs2 CondSpec CondProps ExpProps RedModel RedSpec RedSem RedProofs RedFull RedRest RedRest2 RedProps.
From Verif Require Import CoreModel ArgModel IpmModel IpmProofs IpmProofs2 IpmProps IpmReal KktModel SolveModel SensModel SolverModel SolverSpec.
Local Open Scope R_scope.

Lemma dyn_same qp y z i j : same_point qp y z -> (i < dN (q_dim qp))%nat -> (j < dnx (q_dim qp) (S i))%nat -> dyn qp y i j = dyn qp z i j.
Proof.
  intros S Hi Hj. unfold dyn. rewrite (S (Datatypes.S i)) by (try lia; unfold nvt; lia). f_equal. f_equal. apply rsum_ext. intros k Hk. unfold nux in Hk. rewrite (S i k) by (try lia; unfold nvt; lia). reflexivity.
Qed.
Lemma kkt_g_same qp z z' pi pi' lam lam' i k : same_point qp z z' -> (i <= dN (q_dim qp))%nat ->
  (forall i j, (i < dN (q_dim qp))%nat -> (j < dnx (q_dim qp) (S i))%nat -> pi i j = pi' i j) -> (forall c, (c < nct (q_dim qp) i)%nat -> lam i c = lam' i c) ->
  kkt_g qp z pi lam i k = kkt_g qp z' pi' lam' i k.
Proof.
  intros S Hi P L. unfold kkt_g. f_equal; [f_equal; [f_equal; [f_equal|]|]|].
  - apply rsum_ext. intros l Hl. rewrite (S i l Hi Hl). reflexivity.
  - destruct (Nat.ltb_spec i (dN (q_dim qp))) as [Hn|]; [|reflexivity]. destruct (k <? nux qp i)%nat; [|reflexivity]. cbn [andb]. apply rsum_ext. intros j Hj. rewrite (P i j Hn Hj). reflexivity.
  - destruct (Nat.ltb_spec 0 i) as [H0|]; [|reflexivity]. destruct (Nat.leb_spec (dnu (q_dim qp) i) k) as [H1|]; [|reflexivity]. destruct (Nat.ltb_spec k (nux qp i)) as [H2|]; [|reflexivity]. cbn [andb]. unfold nux in H2. apply P; [lia|]. replace (Datatypes.S (i - 1)) with i by lia. lia.
  - apply rsum_ext. intros c Hc. rewrite (L c Hc). reflexivity.
Qed.
(** the solution struct seen through its flat storage *)
Lemma vf_ux D s i k : (i <= dN D)%nat -> (k < nvt D i)%nat -> s_ux (view D (flat (F := R) D s)) i k = s_ux s i k.
Proof. intros. cbn [view flat s_ux va_v]. unfold win. apply cat_at; [lia|assumption]. Qed.
Lemma vf_pi D s i j : (i < dN D)%nat -> (j < dnx D (S i))%nat -> s_pi (view D (flat (F := R) D s)) i j = s_pi s i j.
Proof. intros H H0. cbn [view flat s_pi va_pi]. unfold win. apply cat_at; [lia|]. unfold npi. replace (i + 1)%nat with (S i) by lia. exact H0. Qed.
Lemma vf_lam D s i c : (i <= dN D)%nat -> (c < nct D i)%nat -> s_lam (view D (flat (F := R) D s)) i c = s_lam s i c.
Proof. intros. cbn [view flat s_lam va_lam]. unfold win. apply cat_at; [lia|assumption]. Qed.
Lemma vf_t D s i c : (i <= dN D)%nat -> (c < nct D i)%nat -> s_t (view D (flat (F := R) D s)) i c = s_t s i c.
Proof. intros. cbn [view flat s_t va_t]. unfold win. apply cat_at; [lia|assumption]. Qed.

Section Restr.
Variables (qp : oqp R) (e : eqd) (r : oqp R).
Hypothesis RR : restriction qp e r.
Let D := q_dim qp.
Let Dr := q_dim r.
Lemma r_N : dN Dr = dN D. Proof. exact (proj1 RR). Qed.
Lemma r_nvt i : (i <= dN D)%nat -> nvt Dr i = vplace qp e i (nvt D i).
Proof. intros Hi. destruct RR as (_ & A & _). destruct (A i Hi) as (_ & _ & A3 & _). exact A3. Qed.
Lemma r_nct i : (i <= dN D)%nat -> nct Dr i = cplace qp e i (nct D i).
Proof. intros Hi. destruct RR as (_ & A & _). destruct (A i Hi) as (_ & _ & _ & A3 & _). exact A3. Qed.
Lemma r_nx i : (0 < i <= dN D)%nat -> dnx Dr i = dnx D i.
Proof. intros Hi. destruct RR as (_ & A & _). destruct (A i) as (_ & _ & _ & _ & A3); [unfold D in *; lia|]. apply A3. lia. Qed.
Lemma r_con i c : (i <= dN D)%nat -> (c < nct Dr i)%nat -> exists c', (c' < nct D i)%nat /\ removedc qp e i c' = false /\ cplace qp e i c' = c.
Proof. intros Hi Hc. rewrite r_nct in Hc by exact Hi. apply rk_surj. exact Hc. Qed.
Lemma r_mask01 : mask01 qp -> mask01 r.
Proof.
  intros H i c Hi Hc. fold Dr in Hi, Hc. rewrite r_N in Hi. destruct (r_con i c Hi Hc) as (c' & Hc' & Hr & <-). destruct RR as (_ & _ & _ & _ & B). destruct (B i c' Hi Hc' Hr) as (_ & _ & -> & _). apply H; assumption.
Qed.
Lemma r_psd : psd qp -> psd r.
Proof.
  intros H i v Hi. fold Dr in Hi |- *. rewrite r_N in Hi. set (v' := fun k => if fixed qp e i k then 0 else v (vplace qp e i k)). pose proof (H i v' Hi) as X. fold D in X.
  destruct RR as (_ & _ & _ & B & _).
  replace (rsum (nvt Dr i) (fun k => rsum (nvt Dr i) (fun l => v k * Hess r i k l * v l))) with (rsum (nvt D i) (fun k => rsum (nvt D i) (fun l => v' k * Hess qp i k l * v' l))); [exact X|].
  rewrite (r_nvt i Hi). rewrite <- (place_sum qp e i (nvt D i) (fun k => rsum (nvt D i) (fun l => v' k * Hess qp i k l * v' l)) (fun k => rsum (vplace qp e i (nvt D i)) (fun l => v k * Hess r i k l * v l))).
  - apply rsum_ext. intros k Hk. destruct (fixed qp e i k) eqn:E; [|reflexivity]. apply rsum_0. intros l _. unfold v' at 1. rewrite E. ring.
  - intros k Hk E. rewrite <- (place_sum qp e i (nvt D i) (fun l => v' k * Hess qp i k l * v' l) (fun l => v (vplace qp e i k) * Hess r i (vplace qp e i k) l * v l)).
    + apply rsum_ext. intros l Hl. destruct (fixed qp e i l) eqn:E'; [|reflexivity]. unfold v' at 2. rewrite E'. ring.
    + intros l Hl E'. unfold v'. rewrite E, E'. destruct (B i k Hi Hk E) as (B1 & _). rewrite B1 by assumption. reflexivity.
Qed.
(** sums over the constraints of the reduced QP *)
Lemma r_csum i (f g : nat -> R) : (i <= dN D)%nat -> (forall c, (c < nct D i)%nat -> removedc qp e i c = false -> g c = f (cplace qp e i c)) ->
  rsum (nct Dr i) f = rsum (nct D i) (fun c => if removedc qp e i c then 0 else g c).
Proof.
  intros Hi H. rewrite (r_nct i Hi). unfold cplace. rewrite <- (rsum_rk (removedc qp e i)). apply rsum_ext. intros c Hc. destruct (removedc qp e i c) eqn:E; [reflexivity|]. symmetry. apply H; assumption.
Qed.
Lemma r_vsum i (f g : nat -> R) : (i <= dN D)%nat -> (forall k, (k < nvt D i)%nat -> fixed qp e i k = false -> g k = f (vplace qp e i k)) -> (forall k, (k < nvt D i)%nat -> fixed qp e i k = true -> g k = 0) ->
  rsum (nvt Dr i) f = rsum (nvt D i) g.
Proof.
  intros Hi H H0. rewrite (r_nvt i Hi), <- (place_sum qp e i (nvt D i) g f H). apply rsum_ext. intros k Hk. destruct (fixed qp e i k) eqn:E; [|reflexivity]. symmetry. apply H0; assumption.
Qed.
End Restr.

Section Transfer.
Variables (al : bool) (qp : oqp R) (e : eqd) (r0 : oqp R) (w : rwork (F := R)).
Hypothesis HP : red_pre qp e r0.
Hypothesis HB : eq_bounds qp e.
Hypothesis HI : eq_imposed qp e.
Let r := fst (reduce_eq_dof al qp e (r0, w)).
Let D := q_dim qp.
Let RR : restriction qp e r. Proof. exact (proj1 (C30_restriction_partial al qp e r0 w HP)). Qed.
Variables (eg eb ed em tau lmin tmin : R) (sr o : osol R) (w2 : rwork (F := R)).
Hypothesis HL : olam_masked r (s_lam sr).
Hypothesis HC : certified r sr eg eb ed em tau.
Let s0 := fst (restore_eq_dof true true true lmin tmin qp (q_dim r) e sr (o, w2)).
Variable s : osol R.
Hypothesis S1 : same_point qp (s_ux s) (s_ux s0).
Hypothesis S2 : forall i j, (i < dN D)%nat -> (j < dnx D (S i))%nat -> s_pi s i j = s_pi s0 i j.
Hypothesis S3 : forall i c, (i <= dN D)%nat -> (c < nct D i)%nat -> s_lam s i c = s_lam s0 i c /\ s_t s i c = s_t s0 i c.
Lemma transfer : certified_red qp e s eg eb ed em tau (Rabs lmin).
Proof.
  pose proof HP as (WF & EW & _ & ED). pose proof (reduce_eq_dof_R qp e WF EW al r0 w ED) as (EDr & _). fold r in EDr.
  destruct (C30_restore_residuals_partial al qp e r0 w lmin tmin sr o w2 HP HB HI HL) as (K1 & K2 & K3 & K4 & K5). fold r s0 D in K1, K2, K3, K4, K5.
  pose proof (C30_restore_copies qp e lmin tmin true true true sr o w2 WF EW) as C. cbv zeta in C. rewrite <- EDr in C. fold s0 D in C. destruct C as (C1 & C2 & C3). specialize (C1 eq_refl). specialize (C2 eq_refl). specialize (C3 eq_refl).
  assert (PL : same_point qp (s_ux s) (lift qp e (s_ux sr))) by (intros i k Hi Hk; rewrite S1 by assumption; apply C1; assumption).
  destruct HC as (Q1 & Q2 & Q3 & Q4 & Q5). rewrite (r_N qp e r RR) in *. fold D in Q1, Q2, Q3, Q4, Q5.
  assert (RRR := RR). destruct RRR as (_ & _ & _ & _ & B).
  assert (LC : forall i c, (i <= dN D)%nat -> (c < nct D i)%nat -> removedc qp e i c = false -> (cplace qp e i c < nct (q_dim r) i)%nat).
  { intros i c Hi Hc Hr. rewrite (r_nct qp e r RR i Hi). apply rk_lt; assumption. }
  assert (SL : forall i c, (i <= dN D)%nat -> (c < nct D i)%nat -> removedc qp e i c = false -> s_lam s i c = s_lam sr i (cplace qp e i c) /\ s_t s i c = s_t sr i (cplace qp e i c)).
  { intros i c Hi Hc Hr. destruct (S3 i c Hi Hc) as (-> & ->). apply C3; assumption. }
  split; [|split; [|split; [|split; [|split; [|split]]]]].
  - intros i j Hi Hj. rewrite (dyn_same qp _ _ i j S1 Hi Hj), (K3 i j Hi Hj). apply Q1; [exact Hi|]. rewrite (r_nx qp e r RR) by (fold D in Hi |- *; lia). exact Hj.
  - intros i j Hi Hj Hr. destruct (removed_ex e i j Hr) as (q & Hq & ->). destruct (EW i Hi) as (_ & _ & _ & A1 & A2). destruct (A1 q Hq) as (A3 & _).
    assert (Hk : (q_idxb qp i (e_idxe e i q) < nux qp i)%nat). { apply (fixed_lt qp e i). apply (fixed_q qp e WF EW); assumption. }
    rewrite PL by (try assumption; unfold nvt; unfold nux in Hk; lia). unfold lift. rewrite (fixed_q qp e WF EW) by assumption. apply (fixval_q qp e EW); assumption.
  - intros i c Hi Hc Hr. rewrite (same_con qp _ _ i c PL Hi). apply (con_removed qp e WF EW); assumption.
  - intros i c Hi Hc Hr Hm. destruct (B i c Hi Hc Hr) as (_ & _ & Em & _). pose proof (Q2 i (cplace qp e i c) Hi (LC i c Hi Hc Hr)) as X. rewrite Em in X. specialize (X Hm).
    rewrite (same_con qp _ _ i c PL Hi). pose proof (con_lift qp e r WF EW RR (s_ux sr) i c Hi Hc Hr). lra.
  - intros i k Hi Hk. rewrite (kkt_g_same qp (s_ux s) (s_ux s0) (s_pi s) (s_pi s0) (s_lam s) (s_lam s0) i k S1 Hi); [|exact S2|intros c Hc; apply S3; assumption].
    destruct (fixed qp e i k) eqn:F.
    + destruct (K2 i k Hi F) as [-> | ->]; rewrite ?Rabs_Ropp; lra.
    + rewrite K1 by assumption. apply Q3; [exact Hi|]. rewrite (r_nvt qp e r RR i Hi). apply rk_lt; assumption.
  - intros i c Hi Hc Hr Hm. destruct (B i c Hi Hc Hr) as (_ & _ & Em & E4). destruct (SL i c Hi Hc Hr) as (-> & ->). rewrite <- E4. apply Q4; [exact Hi|apply LC; assumption|]. rewrite Em. exact Hm.
  - intros Hpsd y Hy. pose proof (feasible_unlift qp e WF EW y HB HI Hy) as U. set (y' := unlift qp e y) in *.
    assert (Fy : feasible r y').
    { apply (feasible_lift qp e r WF EW RR y' HB). destruct Hy as (Y1 & Y2). split.
      - intros i j Hi Hj. rewrite <- (dyn_same qp _ _ i j U Hi Hj). apply Y1; assumption.
      - intros i c Hi Hc Hm. rewrite <- (same_con qp _ _ i c U Hi). apply Y2; assumption. }
    specialize (Q5 (r_psd qp e r RR Hpsd) y' Fy). rewrite (same_cost qp _ _ PL), (same_cost qp _ _ U), !(cost_lift qp e r WF EW RR).
    match type of Q5 with ?x <= _ => match goal with |- ?y <= _ => replace y with x by ring end end.
    eapply Rle_trans; [exact Q5|]. right. f_equal; [f_equal; [f_equal|]|].
    + f_equal. apply rsum_ext. intros i Hi. apply (r_vsum qp e r RR); [unfold D in *; lia| |].
      * intros k Hk F. rewrite (PL i k), (U i k) by (try assumption; unfold D in *; lia). unfold lift. rewrite F. reflexivity.
      * intros k Hk F. rewrite (PL i k), (U i k) by (try assumption; unfold D in *; lia). unfold lift. rewrite F. rewrite Rminus_diag_eq by reflexivity. apply Rabs_R0.
    + f_equal. apply rsum_ext. intros i Hi. rewrite (r_nx qp e r RR) by (unfold D in *; lia). apply rsum_ext. intros j Hj. rewrite S2, C2 by assumption. reflexivity.
    + f_equal. apply rsum_ext. intros i Hi. apply (r_csum qp e r RR); [unfold D in *; lia|]. intros c Hc Hr. apply SL; [unfold D in *; lia|assumption|assumption].
    + apply rsum_ext. intros i Hi. apply (r_csum qp e r RR); [unfold D in *; lia|]. intros c Hc Hr. destruct (B i c ltac:(unfold D in *; lia) Hc Hr) as (_ & _ & -> & ->). reflexivity.
Qed.
End Transfer.
