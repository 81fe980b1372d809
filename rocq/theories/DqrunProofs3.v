(** DqrunProofs3.v -- residuals of the dense QCQP after a clipped, damped step along a Newton direction of its linearisation. *)
From Coq Require Import ZArith Bool Arith List Lia Reals Lra.
From Verif Require Import Base ArithF RSum Blas Blas2 OcpModel ResSpec ResProofs ResProofs2 ArgModel DenModel DenSpec DenProofs DenKktModel DenKktSpec
  QcqpModel QcqpSpec QcqpProofs QcqpProofs2 QcqpProofs3 QcqpLinSpec QcqpLin QcqpNewton QcqpMask DqcModel DqcSpec DqcProofs DqlModel DqlSpec DqlProofs DenIpmModel DqiModel DqiReal DrunModel DrunProofs DrunProofs4 DqrunSpec DqrunProofs DqrunProofs2.
Local Open Scope R_scope.

Section A.
Variables (A : arg R) (q : dqcqp R) (qp : dqp R) (X X' s : dsol R) (g0 b0 d0 : nat -> R) (EX : Prop) (al be : R).
Let qm := dqc_masked q.
Hypothesis Hm : dq_mask01 q.
Hypothesis Hwf : dqc_wf q.
Hypothesis Hlin : dlin_of qm (ds_v X) (ds_lam X) qp.
Hypothesis Hprep : dq_prepared qm (ds_lam X).
Hypothesis Eg : forall k, (k < dqnv q)%nat -> g0 k = dq_kkt_g qm (ds_v X) (ds_pi X) (ds_lam X) k.
Hypothesis Eb : forall j, (j < dq_ne q)%nat -> b0 j = dq_eq q (ds_v X) j.
Hypothesis Ed : forall c, (c < dqnc q)%nat -> d0 c = dq_kkt_d qm (ds_v X) (ds_t X) c.
Hypothesis HD : DqrunProofs.DIR A qp EX g0 b0 d0 s.
Hypothesis V1 : forall k, (k < dqnv q)%nat -> ds_v X' k = ds_v X k + al * ds_v s k.
Hypothesis V2 : forall j, (j < dq_ne q)%nat -> ds_pi X' j = ds_pi X j + be * ds_pi s j.
Hypothesis V3 : forall c, (c < dqnc q)%nat -> ds_lam X' c = dqc_mask_lower q c * (let v := ds_lam X c + be * ds_lam s c in if Rleb v (ar A lam_min) then ar A lam_min else v).
Hypothesis V4 : forall c, (c < dqnc q)%nat -> ds_t X' c = let v := ds_t X c + al * ds_t s c in if Rleb v (ar A t_min) then ar A t_min else v.
Notation sc := (fun (f : nat -> R) k => al * f k).
Let rm0 : nat -> R := fun _ => 0.
Let st := dwith_rhs qp (dq_kkt_g qm (ds_v X) (ds_pi X) (ds_lam X)) (dq_eq qm (ds_v X)) (dq_kkt_d qm (ds_v X) (ds_t X)) rm0.
Lemma st_eq : st = den_with_rhs qp (dq_kkt_g qm (ds_v X) (ds_pi X) (ds_lam X)) (dq_eq qm (ds_v X)) (dq_kkt_d qm (ds_v X) (ds_t X)) rm0.
Proof. reflexivity. Qed.

Lemma after_eq j : EX -> (j < dq_ne q)%nat -> dq_eq q (ds_v X') j = (1 - al) * dq_eq q (ds_v X) j.
Proof.
  intros Hex Hj. rewrite (dq_eq_ext q (ds_v X') (fun k => ds_v X k + al * ds_v s k) j V1).
  pose proof (dnewton_b qm qp (ds_v X) (ds_pi X) (ds_lam X) (ds_t X) Hlin rm0 (sc (ds_v s)) j Hj) as E. cbv beta in E.
  change (dq_eq q (fun k => ds_v X k + al * ds_v s k) j) with (dq_eq qm (fun k => ds_v X k + al * ds_v s k) j). etransitivity; [symmetry; exact E|]. clear E.
  fold st. rewrite st_eq, deq_rhs. destruct HD as (D1 & _). rewrite <- (l_ne q qp _ _ Hlin) in Hj. specialize (D1 Hex j Hj). rewrite (l_ne q qp _ _ Hlin) in Hj. rewrite (Eb j Hj) in D1.
  rewrite (deq_lin qp (sc (ds_v s)) (ds_v s) (ds_v s) (al - 1) j) by (intros; ring). rewrite D1. change (dq_eq qm (ds_v X) j) with (dq_eq q (ds_v X) j). ring.
Qed.

Lemma after_gap c : (c < dqnc q)%nat -> dimposed q c -> 0 <= ds_t X c + al * ds_t s c ->
  0 <= dqgap q X' c - (1 - al) * dqgap q X c - dqcurv q (fun k => ds_v X' k - ds_v X k) c <= ar A t_min \/
  (ar A t_min < 0 /\ dqgap q X' c - (1 - al) * dqgap q X c - dqcurv q (fun k => ds_v X' k - ds_v X k) c = 0).
Proof.
  intros Hc Him Ht. pose proof (proj1 (dimposed_mask q c Hc) Him) as Em.
  assert (Em' : dq_mask qm c = 1) by exact Em.
  pose proof (dnewton_d qm qp (ds_v X) (ds_pi X) (ds_lam X) (ds_t X) Hwf Hlin Hprep rm0 (sc (ds_v s)) (sc (ds_t s)) c Hc (or_intror Em')) as E.
  fold st in E. rewrite st_eq in E. unfold den_kkt_d in E.
  change (d_mask (den_with_rhs qp (dq_kkt_g qm (ds_v X) (ds_pi X) (ds_lam X)) (dq_eq qm (ds_v X)) (dq_kkt_d qm (ds_v X) (ds_t X)) rm0) c) with (d_mask qp c) in E.
  change (d_d (den_with_rhs qp (dq_kkt_g qm (ds_v X) (ds_pi X) (ds_lam X)) (dq_eq qm (ds_v X)) (dq_kkt_d qm (ds_v X) (ds_t X)) rm0) c) with (dq_kkt_d qm (ds_v X) (ds_t X) c) in E.
  change (den_con (den_with_rhs qp (dq_kkt_g qm (ds_v X) (ds_pi X) (ds_lam X)) (dq_eq qm (ds_v X)) (dq_kkt_d qm (ds_v X) (ds_t X)) rm0)) with (den_con qp) in E.
  rewrite (l_mask q qp _ _ Hlin c Hc), Em, den_con_scal in E. rewrite Em' in E. unfold dq_kkt_d in E. rewrite Em' in E.
  destruct HD as (_ & D2 & _). assert (Hc' : (c < d_nct qp)%nat) by (rewrite (l_nct q qp _ _ Hlin); exact Hc).
  specialize (D2 c Hc'). rewrite (l_mask q qp _ _ Hlin c Hc), Em, (Ed c Hc) in D2. specialize (D2 eq_refl). unfold dq_kkt_d in D2. rewrite Em' in D2.
  assert (Ecv : dqcurv q (fun k => ds_v X' k - ds_v X k) c =
    (if ((duq qm 0 <=? c) && (c <? 2 * dqn2 qm))%nat then 1 / 2 * rsum (dq_nv qm) (fun k => sc (ds_v s) k * rsum (dq_nv qm) (fun l => dq_Hsym qm (c - duq qm 0) k l * sc (ds_v s) l)) else 0)).
  { unfold dqcurv, dupper. change (duq qm 0) with (duq q 0). change (dqn2 qm) with (dqn2 q). change (dq_nv qm) with (dq_nv q). change (dq_Hsym qm) with (dq_Hsym q).
    match goal with |- (if ?b then _ else _) = _ => destruct b end; [|reflexivity]. f_equal. apply rsum_ext. intros k Hk. rewrite <- rsum_scal. apply rsum_ext. intros l Hll.
    rewrite !V1 by (unfold dqnv; lia). ring. }
  rewrite Ecv. unfold dqgap. rewrite (dq_con_ext q Hwf (ds_v X') (fun k => ds_v X k + al * ds_v s k) c V1 Hc). rewrite V4 by assumption. cbv zeta.
  change (dq_con qm) with (dq_con q) in *. change (dq_d qm) with (dq_d q) in *.
  set (cv := if ((duq qm 0 <=? c) && (c <? 2 * dqn2 qm))%nat then _ else _) in *. clearbody cv.
  set (c1 := dq_con q (fun k => ds_v X k + al * ds_v s k) c) in *. set (c0 := dq_con q (ds_v X) c) in *. set (cc := den_con qp (ds_v s) c) in *. clearbody c1 c0 cc.
  set (t := ds_t X c) in *. set (dt := ds_t s c) in *. set (d := dq_d q c) in *.
  assert (F : (1 - al) * (d + t - c0) = d + (t + al * dt) - c1 - cv).
  { assert (dt = cc - (d + t - c0)) by lra. replace ((1 - al) * (d + t - c0)) with (d + t - c0 + al * (dt - cc)) by (rewrite H; ring). lra. }
  rewrite F. destruct (Rleb_spec (t + al * dt) (ar A t_min)) as [L|L]; [left; lra|]. destruct (Rlt_dec (ar A t_min) 0); [right|left]; lra.
Qed.

Lemma act_masked c : dq_act qm c = dqc_mask_lower q c.
Proof. unfold dq_act. change (dq_lower qm c) with (dq_lower q c). change (dq_mask qm c) with (dqc_mask_lower q c). destruct (dq_lower q c) eqn:E; [|reflexivity]. symmetry. apply dmask_lower_R. left. exact E. Qed.
Lemma after_g : ar A reg_prim = 0 -> al = be -> (forall c, (c < dqnc q)%nat -> dimposed q c -> ar A lam_min < ds_lam X c + be * ds_lam s c) ->
  forall k, (k < dqnv q)%nat ->
  dq_kkt_g qm (ds_v X') (ds_pi X') (ds_lam X') k = (1 - al) * dq_kkt_g qm (ds_v X) (ds_pi X) (ds_lam X) k +
   (if (k <? dq_nv q)%nat then rsum (dq_nq q) (fun j => (ds_lam X' (duq q j) - ds_lam X (duq q j)) * rsum (dq_nv q) (fun l => dq_Hsym q j k l * (ds_v X' l - ds_v X l))) else 0).
Proof.
  intros Er Epq Hcl k Hk. subst be.
  assert (V3' : forall c, (c < dqnc q)%nat -> dqc_mask_lower q c * ds_lam X' c = dqc_mask_lower q c * (ds_lam X c + al * ds_lam s c)).
  { intros c Hc. rewrite V3 by assumption. cbv zeta. destruct (dml01 q Hm c Hc) as [E|E]; rewrite E; [lra|].
    specialize (Hcl c Hc (proj2 (dimposed_mask q c Hc) E)). destruct (Rleb_spec (ds_lam X c + al * ds_lam s c) (ar A lam_min)); lra. }
  rewrite (dq_kkt_g_ext qm (ds_v X') (fun k => ds_v X k + al * ds_v s k) (ds_pi X') (fun k => ds_pi X k + al * ds_pi s k) (ds_lam X') (fun k => ds_lam X k + al * ds_lam s k) k V1 V2);
    [|intros c Hc; rewrite act_masked; apply V3'; assumption|exact Hk].
  pose proof (dnewton_g qm qp (ds_v X) (ds_pi X) (ds_lam X) (ds_t X) Hlin Hprep rm0 (sc (ds_v s)) (sc (ds_pi s)) (sc (ds_lam s)) k Hk) as E.
  cbv beta in E. fold st in E. rewrite den_kkt_g_scal in E. rewrite st_eq in E. rewrite dg_rhs in E. destruct HD as (_ & _ & D3).
  assert (Hk' : (k < dnv qp)%nat) by (rewrite (l_nvt q qp _ _ Hlin); exact Hk). rewrite (D3 Er k Hk'), (Eg k Hk) in E.
  match type of E with context [d_gz ?p k] => change (d_gz p k) with (dq_kkt_g qm (ds_v X) (ds_pi X) (ds_lam X) k) in E end. change (dq_nq qm) with (dq_nq q) in E. change (dq_nv qm) with (dq_nv q) in E.
  destruct (k <? dq_nv q)%nat eqn:Hkn; [|lra].
  assert (E2 : rsum (dq_nq q) (fun j => (ds_lam X' (duq q j) - ds_lam X (duq q j)) * rsum (dq_nv q) (fun l => dq_Hsym q j k l * (ds_v X' l - ds_v X l))) =
    rsum (dq_nq q) (fun j => dq_mask qm (duq qm j) * (al * ds_lam s (duq qm j)) * rsum (dq_nv q) (fun l => dq_Hsym qm j k l * (al * ds_v s l)))).
  { apply rsum_ext. intros j Hj. assert (L2 : (duq q j < dqnc q)%nat) by (unfold duq, dqnc, dqn2; lia).
    f_equal.
    - change (duq qm j) with (duq q j). change (dq_mask qm (duq q j)) with (dqc_mask_lower q (duq q j)). pose proof (V3' _ L2) as W. destruct (Hprep j Hj) as (_ & _ & P3).
      change (duq qm j) with (duq q j) in P3. change (dq_mask qm (duq q j)) with (dqc_mask_lower q (duq q j)) in P3. rewrite V3 in W |- * by assumption. cbv zeta in *.
      destruct (dml01 q Hm _ L2) as [Ez|Ez]; rewrite Ez in *; lra.
    - apply rsum_ext. intros l Hl. rewrite V1 by (unfold dqnv; lia). change (dq_Hsym qm) with (dq_Hsym q). ring. }
  rewrite E2. lra.
Qed.
End A.
