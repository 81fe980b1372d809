(** TrunProofs4.v -- the tree Riccati routines solve the Newton systems of the loop exactly (strictly convex QP, exact arithmetic). *)
From Coq Require Import ZArith Bool Arith List Lia Reals Lra.
From Verif Require Import Base ArithF RSum Blas Blas2 OcpModel ResSpec KktSpec ResProofs ResProps CoreModel CoreProofs CholPD KktModel KktProofs KktProofs2 KktProofs3 KktProofs4 KktProofs5 KktProofs6 KktProofs7 KktProps.
From Verif Require Import SolveModel SolveProofs SolveProofs2 SolveProofs3 SolveProps ArgModel IpmModel IpmReal NewtonUniq RunModel RunProofs RunProofs2 RunProofs4.
From Verif Require Import TreeModel TreeSpec TreeProofs TreeProps TreeKktModel TreeKktProofs TreeKktProofs2 TreeKktProofs3 TreeKktProofs4 TreeKktSpec TreeKktProps TrunModel TrunProofs TrunProofs2.
Local Open Scope R_scope.

Section Inst.
Variables (A : arg R) (T : ttree) (qp : oqp R).
Notation D := (q_dim qp).
Notation N := (dN D).
Notation r2 := (nat -> nat -> R).
Hypothesis Hm : mask01 qp.
Hypothesis Hwf : qp_wf qp.
Hypothesis HT : tree_ok (N + 1) T.
Hypothesis Hinj : soft_inj qp.
Hypothesis Htl : ai A t_lam_min <> 1%Z.
Hypothesis Hdu : ai A comp_dual_sol_eq <> 0%Z.
Hypothesis Hcx : run_convex (ar A reg_prim) qp.
Notation reg := (ar A reg_prim).
Definition tkI (k : kst R) : Prop := True.
Definition tkFC (k : kst R) (sol : osol R) (b : r2) : Prop :=
  tlhs (run_ka A 0 sol) T qp (ks_Gam k) (ks_w k) /\ tPb T (with_rhs qp (q_rqz qp) b (q_d qp) (q_m qp)) (ks_w k) /\
  (forall i c, (i <= N)%nat -> (c < nct D i)%nat -> ks_tinv k i c = 1 / s_t sol i c /\ ks_Gam k i c = s_lam sol i c / s_t sol i c).
Lemma trun_dual preg sol : a_dual (run_ka A preg sol) = true.
Proof. cbn [run_ka a_dual]. destruct (Z.eqb_spec (ai A comp_dual_sol_eq) 0); [contradiction|reflexivity]. Qed.
Lemma trun_cx preg sol g b d m : point qp sol -> ipm_convex (run_ka A preg sol) (with_rhs qp g b d m).
Proof.
  intros P. split; cbn [run_ka a_t a_lam a_reg q_dim q_Z with_rhs].
  - intros i c Hi Hc. destruct (P i c Hi Hc) as (P1 & P2 & P3). split; [exact P1|]. destruct (Hm i c Hi Hc) as [E|E]; [rewrite (P3 E); lra|specialize (P2 E); lra].
  - exact (rc_Z _ _ Hcx).
  - intros i k Hi Hk. destruct (rc_slack _ _ Hcx i k Hi Hk) as [H|H]; [left; exact H|right].
    apply (P i (2 * dnb D i + 2 * dng D i + k)%nat Hi); [unfold nct; lia|exact H].
  - exact (rc_H _ _ Hcx).
Qed.
Lemma trun_point preg sol g b d m : point qp sol -> mz qp m -> ipm_point (run_ka A preg sol) (with_rhs qp g b d m).
Proof.
  intros P Z. pose proof (trun_cx preg sol g b d m P) as Cx. split.
  - intros i c Hi Hc. destruct (ic_t _ _ Cx i c Hi Hc). lra.
  - left. exact Htl.
  - intros i c Hi Hc E. split; [apply (P i c Hi Hc); exact E|apply Z; assumption].
  - intros i k Hi Hk. pose proof (cx_piv _ _ Cx i k Hi Hk). lra.
Qed.
Lemma tnsol_of preg sol g b d m s : tnewton (run_ka A preg sol) T (with_rhs qp g b d m) s -> nsol A T qp sol g b d m s.
Proof.
  intros (N1 & N2 & N3 & N4). cbn [q_dim with_rhs run_ka a_reg a_lam a_t q_d q_m] in N1, N2, N3, N4. split; [|split; [|split]].
  - intros Er i k Hi Hk. pose proof (N1 i k Hi Hk) as H. rewrite tg_rhs, Er in H. lra.
  - intros i jj j Hi Hjj Hj. pose proof (N2 i jj j Hi Hjj Hj) as H. rewrite tdyn_rhs in H. lra.
  - intros i c Hi Hc. pose proof (N3 i c Hi Hc) as H. change (con (with_rhs qp g b d m)) with (con qp) in H. lra.
  - intros i c Hi Hc. pose proof (N4 i c Hi Hc) as H. lra.
Qed.
Lemma trun_H_fs k g b d m sol stp : tkI k -> point qp sol -> mz qp m ->
  let r := trun_fs A T k (with_rhs qp g b d m) sol stp in nsol A T qp sol g b d m (fst r) /\ tkFC (snd r) sol b.
Proof.
  intros _ P Z. cbv zeta. unfold trun_fs. set (a := run_ka A (ks_preg k) sol). set (q := with_rhs qp g b d m).
  pose proof (trun_point (ks_preg k) sol g b d m P Z) as Hip. pose proof (trun_cx (ks_preg k) sol g b d m P) as Cx. fold a q in Hip, Cx.
  assert (Hdual : a_dual a = true) by (apply trun_dual).
  pose proof (tfactor_R a T q (kkt_Gam a q (ks_tinv k) (ks_Gam k) (ks_gam k)) (kkt_gam a q (ks_tinv k) (ks_Gam k) (ks_gam k)) Hwf HT (t_pd a q (ks_tinv k) (ks_Gam k) (ks_gam k) Hwf Cx Hip) (ks_w k)) as (_ & L & Pb).
  assert (NS : tnewton a T q (fst (tree_fact_solve a T q (ks_tinv k) (ks_Gam k) (ks_gam k) stp (ks_w k)))).
  { apply C54_newton_step; try assumption.
    - left. exact Htl.
    - intros i c Hi Hc E. split; [apply (P i c Hi Hc); exact E|apply Z; assumption]. }
  assert (EW : snd (tree_fact_solve a T q (ks_tinv k) (ks_Gam k) (ks_gam k) stp (ks_w k)) = tfwd true T q (tfact (a_reg a) T q (kkt_Gam a q (ks_tinv k) (ks_Gam k) (ks_gam k)) (kkt_gam a q (ks_tinv k) (ks_Gam k) (ks_gam k)) (ks_w k)))
    by (unfold tree_fact_solve, tree_factor; rewrite Hdual; reflexivity).
  rewrite <- EW in L, Pb. clear EW.
  destruct (tree_fact_solve a T q (ks_tinv k) (ks_Gam k) (ks_gam k) stp (ks_w k)) as [s w']. cbn [fst snd] in *.
  split; [apply (tnsol_of (ks_preg k) sol); exact NS|].
  split; [exact L|]. split; [exact Pb|]. cbn [ks_tinv ks_Gam]. intros i c Hi Hc. destruct (Gamgam_R a q Hip (ks_tinv k) (ks_Gam k) (ks_gam k) i c Hi Hc) as (G1 & G2 & _). split; assumption.
Qed.
Lemma trun_H_sv u k g b b0 d m sol stp : tkFC k sol b0 -> point qp sol -> mz qp m -> (u = true -> forall i j, (i < N)%nat -> (j < dnx D (S i))%nat -> b i j = b0 i j) ->
  let r := trun_sv A T u k (with_rhs qp g b d m) sol stp in nsol A T qp sol g b d m (fst r) /\ tkFC (snd r) sol b0.
Proof.
  intros (L1 & L2 & L3) P Z Hb. cbv zeta. unfold trun_sv. set (a := run_ka A (ks_preg k) sol). set (q := with_rhs qp g b d m).
  pose proof (trun_point (ks_preg k) sol g b d m P Z) as Hip. fold a q in Hip.
  assert (Hdual : a_dual a = true) by (apply trun_dual).
  assert (HB : u = true -> tPb T q (ks_w k)).
  { intros Eu i Hi jj j Hjj. cbv zeta. cbn [q q_dim with_rhs]. intros Hj. pose proof (L2 i Hi jj j Hjj Hj) as E. cbv zeta in E. rewrite E. apply rsum_ext. intros l Hl. unfold q. cbn [q_b with_rhs].
    assert (Hi1 : (i <= N)%nat) by exact Hi; pose proof (proj1 HT i jj ltac:(lia) Hjj). rewrite (Hb Eu); [reflexivity|lia|]. replace (S (t_kid T i jj - 1)) with (t_kid T i jj) by lia. exact Hl. }
  set (gam := sol_gam a q (ks_tinv k) (ks_gam k)).
  destruct (tsweeps_R a T q (ks_Gam k) gam Hwf HT u (with_sol (ks_w k) stp)) as (S & Kp).
  { exact L1. }
  { exact HB. }
  assert (HG : forall ss c, (ss <= dN (q_dim q))%nat -> (c < nct (q_dim q) ss)%nat -> ks_tinv k ss c = 1 / a_t a ss c /\ ks_Gam k ss c = wgt a ss c /\ gam ss c = 1 / a_t a ss c * (q_m q ss c - a_lam a ss c * q_d q ss c)).
  { intros ss c Hss Hk. destruct (L3 ss c Hss Hk) as (E1 & E2). split; [exact E1|]. split; [exact E2|]. unfold gam, sol_gam. rewrite compute_gamma_R by assumption. rewrite E1. reflexivity. }
  assert (EW : tsol_ws u a T q (ks_tinv k) (ks_Gam k) (ks_gam k) stp (ks_w k) = tfwds true T q (tbwd u T q (ks_Gam k) gam (with_sol (ks_w k) stp))) by (unfold tsol_ws; rewrite Hdual; reflexivity).
  rewrite <- EW in S, Kp. clear EW.
  pose proof (tcomb a T q Hwf HT Hinj Hip Hm (ks_tinv k) (ks_Gam k) gam HG (tsol_ws u a T q (ks_tinv k) (ks_Gam k) (ks_gam k) stp (ks_w k)) stp
     (tsol_ut u a T q (ks_tinv k) (ks_Gam k) (ks_gam k) stp (ks_w k)) (tsol_lt u a T q (ks_tinv k) (ks_Gam k) (ks_gam k) stp (ks_w k)) S (fun ss => eq_refl) (fun ss => eq_refl)) as (E1 & E2 & E3 & E4). cbv zeta in *.
  unfold tree_solve. cbn [fst snd].
  split.
  - apply (tnsol_of (ks_preg k) sol). fold a q. split; [|split; [exact E2|split; [exact E3|exact E4]]]. intros i v Hi Hv. rewrite E1 by assumption. rewrite Ropp_mult_distr_l_reverse. apply Rplus_opp_l.
  - split; [|split; [|exact L3]]; cbn [ks_w ks_Gam].
    + intros i Hi. apply (nd_lhs_same T qp (a_reg a) (ks_Gam k) (ks_w k) _ i Kp). apply L1. exact Hi.
    + intros i Hi. apply (nd_Pb_same T _ (ks_w k) _ i Kp). apply L2. exact Hi.
Qed.
End Inst.
