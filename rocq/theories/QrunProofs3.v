(** QrunProofs3.v -- residuals of the QCQP after a clipped, damped step along a Newton direction of its linearisation. *)
From Coq Require Import ZArith Bool Arith List Lia Reals Lra.
From Verif Require Import Base ArithF RSum Blas Blas2 QpDataProofs OcpModel ResSpec KktSpec ResProofs ResProofs2 ResProps CoreModel CoreProofs ArgModel IpmModel IpmProofs IpmProofs2 IpmProps IpmInit IpmReal SolveModel KktModel RunModel RunProofs RunProofs2 RunProofs3 RunProofs4
  QcqpModel QcqpSpec QcqpProofs QcqpProofs2 QcqpProofs3 QcqpProps QcqpLinSpec QcqpLin QcqpNewton QcqpMask QcqpLinProps QipmModel QipmProofs QipmProps Qinit QinitProps QipmRealProps QrunSpec QrunProofs QrunProofs2.
Local Open Scope R_scope.

Section A.
Variables (A : arg R) (qc : oqcqp R) (qp : oqp R) (X X' s : osol R) (g0 b0 d0 : nat -> nat -> R) (p q : R).
Let qm := masked_qc qc.
Let D := qcD qc.
Notation N := (dN (c_dim qc)).
Hypothesis Hm : qmask01 qc.
Hypothesis Hwf : qc_wf qc.
Hypothesis Hlin : lin_of qm (s_ux X) (s_lam X) qp.
Hypothesis Hprep : q_prepared qm (s_lam X).
Hypothesis Eg : forall i k, (i <= N)%nat -> (k < cnv qc i)%nat -> g0 i k = qkkt_g qm (s_ux X) (s_pi X) (s_lam X) i k.
Hypothesis Eb : forall i j, (i < N)%nat -> (j < dnx (c_dim qc) (S i))%nat -> b0 i j = qdyn qc (s_ux X) i j.
Hypothesis Ed : forall i c, (i <= N)%nat -> (c < cnc qc i)%nat -> d0 i c = qkkt_d qm (s_ux X) (s_t X) i c.
Hypothesis HD : QrunProofs.DIR A qp g0 b0 d0 s.
Hypothesis V1 : forall i k, (i <= N)%nat -> (k < cnv qc i)%nat -> s_ux X' i k = s_ux X i k + p * s_ux s i k.
Hypothesis V2 : forall i j, (i < N)%nat -> (j < dnx (c_dim qc) (S i))%nat -> s_pi X' i j = s_pi X i j + q * s_pi s i j.
Hypothesis V3 : forall i c, (i <= N)%nat -> (c < cnc qc i)%nat -> s_lam X' i c = mask_lower qc i c * (let v := s_lam X i c + q * s_lam s i c in if Rleb v (ar A lam_min) then ar A lam_min else v).
Hypothesis V4 : forall i c, (i <= N)%nat -> (c < cnc qc i)%nat -> s_t X' i c = let v := s_t X i c + p * s_t s i c in if Rleb v (ar A t_min) then ar A t_min else v.
Notation sc := (fun (f : nat -> nat -> R) i k => p * f i k).
Let rm : nat -> nat -> R := fun _ _ => 0.
Let st := newton_qp qm qp (s_ux X) (s_pi X) (s_lam X) (s_t X) rm.
Lemma dim_eq : q_dim qp = D. Proof. exact (l_dim qc qp _ _ Hlin). Qed.

Lemma after_dyn i j : (i < N)%nat -> (j < dnx (c_dim qc) (S i))%nat -> qdyn qc (s_ux X') i j = (1 - p) * qdyn qc (s_ux X) i j.
Proof.
  intros Hi Hj. rewrite (qdyn_ext qc (s_ux X') (fun i k => s_ux X i k + p * s_ux s i k) i j V1 Hi Hj).
  change (qdyn qc) with (qdyn qm). rewrite <- (newton_b qm qp (s_ux X) (s_pi X) (s_lam X) (s_t X) Hlin rm (sc (s_ux s)) i j Hi Hj).
  destruct HD as (D1 & _). assert (Hi' : (i < dN (q_dim qp))%nat) by (rewrite dim_eq; exact Hi). assert (Hj' : (j < dnx (q_dim qp) (S i))%nat) by (rewrite dim_eq; exact Hj).
  specialize (D1 i j Hi' Hj'). rewrite (Eb i j Hi Hj) in D1. change (qdyn qc) with (qdyn qm) in D1. unfold newton_qp. rewrite dyn_rhs.
  rewrite (dyn_lin qp (sc (s_ux s)) (s_ux s) (s_ux s) (p - 1) i j) by (try assumption; intros; ring). rewrite D1. ring.
Qed.

Lemma after_gap i c : (i <= N)%nat -> (c < cnc qc i)%nat -> imposed qc i c -> 0 <= s_t X i c + p * s_t s i c ->
  0 <= qgap qc X' i c - (1 - p) * qgap qc X i c - curv qc (fun k => s_ux X' i k - s_ux X i k) i c <= ar A t_min \/
  (ar A t_min < 0 /\ qgap qc X' i c - (1 - p) * qgap qc X i c - curv qc (fun k => s_ux X' i k - s_ux X i k) i c = 0).
Proof.
  intros Hi Hc Him Ht. pose proof (proj1 (imposed_mask qc i c Hi Hc) Him) as Em.
  assert (Em' : c_mask qm i c = 1) by exact Em.
  pose proof (newton_d qm qp (s_ux X) (s_pi X) (s_lam X) (s_t X) Hwf Hlin Hprep rm (sc (s_ux s)) (sc (s_t s)) i c Hi Hc (or_intror Em')) as E.
  rewrite Em' in E. unfold kkt_d, newton_qp in E. cbn [with_rhs q_mask q_d] in E. rewrite (l_mask qc qp _ _ Hlin i c Hi Hc), Em in E.
  unfold qkkt_d in E. rewrite Em' in E. rewrite con_scal in E.
  destruct HD as (_ & D2 & _). assert (Hi' : (i <= dN (q_dim qp))%nat) by (rewrite dim_eq; exact Hi). assert (Hc' : (c < nct (q_dim qp) i)%nat) by (rewrite (l_nct qc qp _ _ Hlin); exact Hc).
  specialize (D2 i c Hi' Hc'). rewrite (l_mask qc qp _ _ Hlin i c Hi Hc), Em, (Ed i c Hi Hc) in D2. specialize (D2 eq_refl). unfold qkkt_d in D2. rewrite Em' in D2.
  change (con (with_rhs qp (qkkt_g qm (s_ux X) (s_pi X) (s_lam X)) (qdyn qm (s_ux X)) (fun i0 c0 => c_mask qm i0 c0 * (c_d qm i0 c0 + s_t X i0 c0 - qcon qm (s_ux X) i0 c0)) rm)) with (con qp) in E.
  change (qkkt_d qm (s_ux X) (s_t X) i c) with (c_mask qm i c * (c_d qm i c + s_t X i c - qcon qm (s_ux X) i c)) in E. rewrite ?Em' in E.
  assert (Ecv : curv qc (fun k => s_ux X' i k - s_ux X i k) i c =
    (if ((uqx qm i 0 <=? c) && (c <? 2 * cn2 qm i))%nat then 1 / 2 * rsum (cnux qm i) (fun k => p * s_ux s i k * Hv qm i (c - uqx qm i 0) k (sc (s_ux s))) else 0)).
  { unfold curv, upperq, quad_of. change (cn2 qm i) with (cn2 qc i). replace (uqx qm i 0) with (cn2 qc i + (dnb (c_dim qc) i + dng (c_dim qc) i))%nat by (unfold uqx; change (cn2 qm i) with (cn2 qc i); change (c_dim qm) with (c_dim qc); lia).
    match goal with |- (if ?b then _ else _) = _ => destruct b end; [|reflexivity]. f_equal. apply rsum_ext. intros k Hk. unfold Hv. rewrite <- rsum_scal. apply rsum_ext. intros l Hll.
    change (cnux qm i) with (cnux qc i) in *. rewrite !V1 by (first [exact Hi|unfold cnv; lia]). change (Hsym qm) with (Hsym qc). ring. }
  rewrite Ecv. unfold qgap. rewrite (qcon_ext qc Hwf (s_ux X') (fun i k => s_ux X i k + p * s_ux s i k) i c V1 Hi Hc). rewrite V4 by assumption. cbv zeta.
  change (qcon qm) with (qcon qc) in *. change (c_d qm) with (c_d qc) in *.
  set (cv := if ((uqx qm i 0 <=? c) && (c <? 2 * cn2 qm i))%nat then _ else _) in *. clearbody cv.
  set (c1 := qcon qc (fun i k => s_ux X i k + p * s_ux s i k) i c) in *. set (c0 := qcon qc (s_ux X) i c) in *. set (cc := con qp (s_ux s) i c) in *. clearbody c1 c0 cc.
  set (t := s_t X i c) in *. set (dt := s_t s i c) in *. set (d := c_d qc i c) in *.
  assert (F : (1 - p) * (d + t - c0) = d + (t + p * dt) - c1 - cv).
  { assert (dt = cc - (d + t - c0)) by lra. replace ((1 - p) * (d + t - c0)) with (d + t - c0 + p * (dt - cc)) by (rewrite H; ring). lra. }
  rewrite F. destruct (Rleb_spec (t + p * dt) (ar A t_min)) as [L|L]; [left; lra|]. destruct (Rlt_dec (ar A t_min) 0); [right|left]; lra.
Qed.

Lemma after_g : ar A reg_prim = 0 -> p = q -> (forall i c, (i <= N)%nat -> (c < cnc qc i)%nat -> imposed qc i c -> ar A lam_min < s_lam X i c + q * s_lam s i c) ->
  forall i k, (i <= N)%nat -> (k < cnv qc i)%nat ->
  qkkt_g qm (s_ux X') (s_pi X') (s_lam X') i k = (1 - p) * qkkt_g qm (s_ux X) (s_pi X) (s_lam X) i k +
   (if (k <? cnux qc i)%nat then rsum (c_nq qc i) (fun j => (s_lam X' i (uqx qc i j) - s_lam X i (uqx qc i j)) * rsum (cnux qc i) (fun l => Hsym qc i j k l * (s_ux X' i l - s_ux X i l))) else 0).
Proof.
  intros Er Epq Hcl i k Hi Hk. subst q.
  assert (V3' : forall i c, (i <= N)%nat -> (c < cnc qc i)%nat -> mask_lower qc i c * s_lam X' i c = mask_lower qc i c * (s_lam X i c + p * s_lam s i c)).
  { intros i' c Hi' Hc. rewrite V3 by assumption. cbv zeta. destruct (ml01 qc Hm i' c Hi' Hc) as [E|E]; rewrite E; [lra|].
    specialize (Hcl i' c Hi' Hc (proj2 (imposed_mask qc i' c Hi' Hc) E)). destruct (Rleb_spec (s_lam X i' c + p * s_lam s i' c) (ar A lam_min)); lra. }
  rewrite (qkkt_g_ext qm (s_ux X') (fun i k => s_ux X i k + p * s_ux s i k) (s_pi X') (fun i k => s_pi X i k + p * s_pi s i k) (s_lam X') (fun i k => s_lam X i k + p * s_lam s i k) i k V1 V2);
    [|intros i' c Hi' Hc; rewrite (act_mask qm (s_lam X) Hprep i' c Hi'); apply V3'; assumption|exact Hi|exact Hk].
  pose proof (newton_g qm qp (s_ux X) (s_pi X) (s_lam X) (s_t X) Hlin Hprep rm (sc (s_ux s)) (sc (s_pi s)) (sc (s_lam s)) i k Hi Hk) as E.
  cbv beta in E. rewrite kkt_g_scal in E. unfold newton_qp in E at 2. rewrite g_rhs in E. destruct HD as (_ & _ & D3). assert (Hi' : (i <= dN (q_dim qp))%nat) by (rewrite dim_eq; exact Hi).
  assert (Hk' : (k < nvt (q_dim qp) i)%nat) by (rewrite (l_nvt qc qp _ _ Hlin); exact Hk). rewrite (D3 Er i k Hi' Hk'), (Eg i k Hi Hk) in E.
  unfold newton_qp in E. cbn [with_rhs q_rqz] in E. change (c_nq qm i) with (c_nq qc i) in E. change (cnux qm i) with (cnux qc i) in E.
  destruct (k <? cnux qc i)%nat eqn:Hkn; [|lra].
  assert (E2 : rsum (c_nq qc i) (fun j => (s_lam X' i (uqx qc i j) - s_lam X i (uqx qc i j)) * rsum (cnux qc i) (fun l => Hsym qc i j k l * (s_ux X' i l - s_ux X i l))) =
    rsum (c_nq qc i) (fun j => c_mask qm i (uqx qm i j) * (p * s_lam s i (uqx qm i j)) * Hv qm i j k (sc (s_ux s)))).
  { apply rsum_ext. intros j Hj. assert (L2 : (uqx qc i j < cnc qc i)%nat) by (unfold uqx, cnc, cn2; lia).
    f_equal.
    - change (uqx qm i j) with (uqx qc i j). change (c_mask qm i (uqx qc i j)) with (mask_lower qc i (uqx qc i j)). pose proof (V3' i _ Hi L2) as W. destruct (Hprep i Hi j Hj) as (_ & _ & P3).
      change (uqx qm i j) with (uqx qc i j) in P3. change (c_mask qm i (uqx qc i j)) with (mask_lower qc i (uqx qc i j)) in P3. rewrite V3 in W |- * by assumption. cbv zeta in *.
      destruct (ml01 qc Hm i _ Hi L2) as [Ez|Ez]; rewrite Ez in *; lra.
    - unfold Hv. change (cnux qm i) with (cnux qc i). apply rsum_ext. intros l Hl. rewrite V1 by (first [exact Hi|unfold cnv; lia]). change (Hsym qm) with (Hsym qc). ring. }
  rewrite E2. lra.
Qed.
End A.
