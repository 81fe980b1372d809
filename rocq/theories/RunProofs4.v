(** RunProofs4.v -- the Riccati routines solve the Newton systems of the loop exactly (strictly convex QP, exact arithmetic). *)
From Coq Require Import ZArith Bool Arith List Lia Reals Lra.
From Verif Require Import Base ArithF RSum Blas Blas2 OcpModel ResSpec KktSpec ResProofs ResProps CoreModel CoreProofs CholPD KktModel KktProofs KktProofs2 KktProofs3 KktProofs4 KktProofs5 KktProofs6 KktProofs7 KktProps.
From Verif Require Import SolveModel SolveProofs SolveProofs2 SolveProofs3 SolveProps ArgModel IpmModel IpmReal NewtonUniq RunModel RunProofs RunProofs2.
Local Open Scope R_scope.

(** strict convexity of the QP as the solver sees it: Hessians of every stage positive definite after adding reg_prim, slack costs non-negative and, where
    zero, the slack bounded below *)
Record run_convex (reg : R) (qp : oqp R) : Prop := {
  rc_H : forall i (v : nat -> R), (i <= dN (q_dim qp))%nat -> (exists k, (k < nux qp i)%nat /\ v k <> 0) ->
    0 < rsum (nux qp i) (fun k => rsum (nux qp i) (fun l => v k * Hess qp i k l * v l)) + reg * rsum (nux qp i) (fun k => v k * v k);
  rc_Z : forall i k, (i <= dN (q_dim qp))%nat -> (k < 2 * dns (q_dim qp) i)%nat -> 0 <= q_Z qp i k + reg;
  rc_slack : forall i k, (i <= dN (q_dim qp))%nat -> (k < 2 * dns (q_dim qp) i)%nat ->
    0 < q_Z qp i k + reg \/ q_mask qp i (2 * dnb (q_dim qp) i + 2 * dng (q_dim qp) i + k)%nat = 1 }.

Section Inst.
Variables (A : arg R) (sq : bool) (fuel : nat) (qp : oqp R).
Notation D := (q_dim qp).
Notation N := (dN D).
Notation r2 := (nat -> nat -> R).
Hypothesis Hm : mask01 qp.
Hypothesis Hwf : qp_wf qp.
Hypothesis HN : (1 <= N)%nat.
Hypothesis Hinj : soft_inj qp.
Hypothesis Htl : ai A t_lam_min <> 1%Z.
Hypothesis Hdu : ai A comp_dual_sol_eq <> 0%Z.
Hypothesis Hcx : run_convex (ar A reg_prim) qp.
Notation reg := (ar A reg_prim).
Definition kI (k : kst R) : Prop := BAok qp (ks_w k).
Definition kFC (k : kst R) (sol : osol R) (b : r2) : Prop :=
  lhs_ok qp reg (ks_Gam k) sq (reg_diag qp reg reg) (ks_w k) /\ Pb_ok (with_rhs qp (q_rqz qp) b (q_d qp) (q_m qp)) sq (ks_w k) /\
  (forall i c, (i <= N)%nat -> (c < nct D i)%nat -> ks_tinv k i c = 1 / s_t sol i c /\ ks_Gam k i c = s_lam sol i c / s_t sol i c).
Lemma kFC_I k s b : kFC k s b -> kI k.
Proof. intros ((_ & _ & _ & _ & H) & _). exact H. Qed.
Lemma run_dual preg sol : a_dual (run_ka A preg sol) = true.
Proof. cbn [run_ka a_dual]. destruct (Z.eqb_spec (ai A comp_dual_sol_eq) 0); [contradiction|reflexivity]. Qed.
Lemma run_cx preg sol g b d m : point qp sol -> ipm_convex (run_ka A preg sol) (with_rhs qp g b d m).
Proof.
  intros P. split; cbn [run_ka a_t a_lam a_reg q_dim q_Z with_rhs].
  - intros i c Hi Hc. destruct (P i c Hi Hc) as (P1 & P2 & P3). split; [exact P1|]. destruct (Hm i c Hi Hc) as [E|E]; [rewrite (P3 E); lra|specialize (P2 E); lra].
  - exact (rc_Z _ _ Hcx).
  - intros i k Hi Hk. destruct (rc_slack _ _ Hcx i k Hi Hk) as [H|H]; [left; exact H|right].
    apply (P i (2 * dnb D i + 2 * dng D i + k)%nat Hi); [unfold nct; lia|exact H].
  - exact (rc_H _ _ Hcx).
Qed.
Lemma run_point preg sol g b d m : point qp sol -> mz qp m -> ipm_point (run_ka A preg sol) (with_rhs qp g b d m).
Proof.
  intros P Z. pose proof (run_cx preg sol g b d m P) as Cx. split.
  - intros i c Hi Hc. destruct (ic_t _ _ Cx i c Hi Hc). lra.
  - left. exact Htl.
  - intros i c Hi Hc E. split; [apply (P i c Hi Hc); exact E|apply Z; assumption].
  - intros i k Hi Hk. pose proof (cx_piv _ _ Cx i k Hi Hk). lra.
Qed.
Lemma nsol_of preg sol g b d m s : newton_solution (run_ka A preg sol) (with_rhs qp g b d m) reg s -> nsol A qp sol g b d m s.
Proof.
  intros (N1 & N2 & N3 & N4). cbn [q_dim with_rhs run_ka a_reg a_lam a_t q_d q_m] in N1, N2, N3, N4. split; [|split; [|split]].
  - intros Er i k Hi Hk. pose proof (N1 i k Hi Hk) as H. rewrite g_rhs in H. assert (E0 : reg_diag (with_rhs qp g b d m) reg reg i k = 0) by (unfold reg_diag; rewrite Er; destruct (_ || _); reflexivity).
    rewrite E0 in H. lra.
  - intros i j Hi Hj. pose proof (N2 i j Hi Hj) as H. rewrite dyn_rhs in H. lra.
  - intros i c Hi Hc. pose proof (N3 i c Hi Hc) as H. change (con (with_rhs qp g b d m)) with (con qp) in H. lra.
  - intros i c Hi Hc. pose proof (N4 i c Hi Hc) as H. lra.
Qed.
Lemma Pb_any w g b d m g' d' m' : Pb_ok (with_rhs qp g b d m) sq w -> Pb_ok (with_rhs qp g' b d' m') sq w.
Proof. intros H. exact H. Qed.

Lemma run_H_fs k g b d m sol stp : kI k -> point qp sol -> mz qp m ->
  let r := run_fs A sq fuel k (with_rhs qp g b d m) sol stp in nsol A qp sol g b d m (fst r) /\ kFC (snd r) sol b.
Proof.
  intros HI P Z. cbv zeta. unfold run_fs. set (a := run_ka A (ks_preg k) sol). set (q := with_rhs qp g b d m).
  pose proof (run_point (ks_preg k) sol g b d m P Z) as Hip. pose proof (run_cx (ks_preg k) sol g b d m P) as Cx. fold a q in Hip, Cx.
  assert (HB : BAok q (ks_w k)) by exact HI.
  assert (E : forall f, exists step w', fact_solve_kkt f sq a q (ks_tinv k) (ks_Gam k) (ks_gam k) stp (ks_w k) = Some (step, reg, w')).
  { intros f. apply (C39_convex_returns a q f sq (ks_tinv k) (ks_Gam k) (ks_gam k) stp (ks_w k) Hwf HN Cx (or_introl Htl) HB). }
  destruct (E fuel) as (step & w' & E1). rewrite E1. cbn [fst snd].
  split.
  - apply (nsol_of (ks_preg k) sol). exact (C27_newton_step a q fuel sq (ks_tinv k) (ks_Gam k) (ks_gam k) stp (ks_w k) step reg w' Hwf HN Hinj Hm Hip HB (run_dual _ _) E1).
  - assert (E0 : fact_solve_kkt 0 sq a q (ks_tinv k) (ks_Gam k) (ks_gam k) stp (ks_w k) = Some (step, reg, w')).
    { destruct (E 0%nat) as (step' & w0' & E0). rewrite <- E1. revert E0. unfold fact_solve_kkt, kkt_factor. destruct (if sq then _ else _) as [w3 [|]]; [discriminate|reflexivity]. }
    unfold fact_solve_kkt in E0. destruct (kkt_factor a q (ks_tinv k) (ks_Gam k) (ks_gam k) 0 sq (ks_w k)) as [[w2 p2]|] eqn:Ek; [|discriminate].
    apply Some_inj, pair_inj in E0. destruct E0 as (E0 & Ew). apply pair_inj in E0. destruct E0 as (_ & Ep). subst w' p2.
    destruct (factor_lhs a q Hwf HN (ks_tinv k) (ks_Gam k) (ks_gam k) 0 sq (ks_w k) w2 reg HB Ek) as (L1 & L2).
    { intros Es. subst sq. unfold kkt_factor in Ek. destruct (fact_sqrt _ _ _ _ _ (ks_w k)) as [w3 [|]]; [discriminate|reflexivity]. }
    split; [exact L1|]. split; [exact L2|]. cbn [ks_tinv ks_Gam]. intros i c Hi Hc. destruct (Gamgam_R a q Hip (ks_tinv k) (ks_Gam k) (ks_gam k) i c Hi Hc) as (G1 & G2 & _). split; assumption.
Qed.
Lemma run_H_sv u k g b b0 d m sol stp : kFC k sol b0 -> point qp sol -> mz qp m -> (u = true -> forall i j, (i < N)%nat -> (j < dnx D (S i))%nat -> b i j = b0 i j) ->
  let r := run_sv A sq u k (with_rhs qp g b d m) sol stp in nsol A qp sol g b d m (fst r) /\ kFC (snd r) sol b0.
Proof.
  intros (L1 & L2 & L3) P Z Hb. cbv zeta. unfold run_sv. set (a := run_ka A (ks_preg k) sol). set (q := with_rhs qp g b d m).
  pose proof (run_point (ks_preg k) sol g b d m P Z) as Hip. fold a q in Hip.
  assert (LP : u = true -> Pb_ok q sq (ks_w k)).
  { intros Eu ss j Hss Hj. rewrite (L2 ss j Hss Hj). apply rsum_ext. intros l Hl. unfold q. cbn [q_b with_rhs]. rewrite <- (Hb Eu ss l Hss Hl). reflexivity. }
  destruct (solve_kkt sq u a q (ks_tinv k) (ks_Gam k) (ks_gam k) stp (ks_w k)) as [s w'] eqn:E. cbn [fst snd].
  destruct (solve_R a q Hwf HN Hinj Hip Hm (run_dual _ _) (ks_tinv k) (ks_Gam k) L3 sq u reg (ks_gam k) stp (ks_w k) s w' L1 LP E) as (S1 & S2 & S3 & S4).
  pose proof (solve_keeps a q Hwf HN (run_dual _ _) (ks_tinv k) (ks_Gam k) sq u reg (ks_gam k) stp (ks_w k) s w' L1 LP E) as Sk.
  split.
  - apply (nsol_of (ks_preg k) sol). split; [|split; [exact S2|split; [exact S3|exact S4]]]. intros i kk Hi Hk. rewrite S1 by assumption. unfold a, q. cbn [a_reg run_ka]. rewrite Ropp_mult_distr_l_reverse. apply Rplus_opp_l.
  - split; [|split; [|exact L3]]; cbn [ks_w ks_Gam].
    + exact (same_ok qp reg (ks_Gam k) sq (reg_diag qp reg reg) (ks_w k) w' Sk L1).
    + exact (same_Pb _ sq (ks_w k) w' Sk L2).
Qed.
End Inst.
