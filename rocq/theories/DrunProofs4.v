(** DrunProofs4.v -- the dense KKT routines solve the Newton systems of the loop exactly (enough curvature, exact arithmetic). *)
From Coq Require Import ZArith Bool Arith List Lia Reals Lra.
From Verif Require Import Base ArithF RSum Blas Blas2 OcpModel ResSpec CoreModel CoreProofs ArgModel DenModel DenSpec DenProofs DenProps KktModel DenKktModel DenKktSpec DenKktProofs2 DenKktProofs3 DenKktProofs4 DenKktProofs5 DenKktProofs6 DenKktProofs7 DenKktProps DrunModel DrunProofs DrunProofs2.
Local Open Scope R_scope.
Notation rv := (nat -> R). Notation rm := (nat -> nat -> R).

(** the curvature and rank the chosen method needs, at every interior point: the Hessian on the directions the method regularises
    (null-space method: those with A p = 0; Schur complement: all), the slack penalties, the rank of A (Schur complement, no dual regularisation) *)
Record drun_convex (reg dreg : R) (alg : Z) (qp : dqp R) : Prop := {
  drc_reg : 0 <= reg;
  drc_Z : forall k, (k < 2 * d_ns qp)%nat -> 0 <= d_Z qp k + reg;
  drc_slack : forall k, (k < 2 * d_ns qp)%nat -> 0 < d_Z qp k + reg \/ d_mask qp (2 * d_nb qp + 2 * d_ng qp + k)%nat = 1;
  drc_H0 : forall p : rv, (alg = 0%Z -> forall j, (j < d_ne qp)%nat -> rsum (d_nv qp) (fun k => d_A qp j k * p k) = 0) -> 0 <= den_quad qp p;
  drc_H : forall p : rv, (alg = 0%Z -> forall j, (j < d_ne qp)%nat -> rsum (d_nv qp) (fun k => d_A qp j k * p k) = 0) ->
    (exists k, (k < d_nv qp)%nat /\ p k <> 0) -> 0 < den_quad qp p + reg * rsum (d_nv qp) (fun k => p k * p k);
  drc_A : d_ne qp <> 0%nat -> alg <> 0%Z -> 0 <= dreg /\ forall y : rv, (exists j, (j < d_ne qp)%nat /\ y j <> 0) ->
    0 < dreg \/ exists k, (k < d_nv qp)%nat /\ rsum (d_ne qp) (fun j => y j * d_A qp j k) <> 0 }.

Section Inst.
Variables (A : arg R) (dreg : R) (alg : Z) (sc : bool) (lqf : nat -> nat -> rm -> rm * rm -> rm * rm) (scr : nat -> rv) (fuel : nat) (qp : dqp R).
Notation nc := (d_nct qp).
Notation ne := (d_ne qp).
Notation reg := (ar A reg_prim).
Hypothesis Hm : den_mask01 qp.
Hypothesis Hwf : den_wf qp.
Hypothesis Hinj : den_soft_inj qp.
Hypothesis Htl : ai A t_lam_min <> 1%Z.
Hypothesis Hcx : drun_convex reg dreg alg qp.
Notation EX := (ne = 0%nat \/ alg = 0%Z \/ dreg = 0).
Notation ka sol := (drun_ka A dreg alg sc sol).
Definition dkI (k : dkst R) : Prop := (ne <> 0%nat -> alg = 0%Z -> (ne <= d_nv qp)%nat /\ lq_given qp lqf (dk_w k)) /\ (ai A abs_form = 0%Z \/ w_scale (dk_w k) = sc).
Definition dkFC (k : dkst R) (sol : dsol R) : Prop :=
  fac_ok (ka sol) qp sc (dk_Gam k) reg dreg (dk_w k) /\ w_scale (dk_w k) = sc /\
  (forall c, (c < nc)%nat -> dk_tinv k c = 1 / ds_t sol c /\ dk_Gam k c = ds_lam sol c / ds_t sol c) /\ dkI k.
Lemma dkFC_I k s : dkFC k s -> dkI k.
Proof. intros (_ & _ & _ & H). exact H. Qed.
Lemma drun_cx sol g b d m : point qp sol -> den_convex (ka sol) (den_with_rhs qp g b d m).
Proof.
  intros P. split; cbn [drun_ka da_t da_lam da_reg da_tlm da_alg da_dreg].
  - intros c Hc. destruct (P c Hc) as (P1 & P2 & P3). split; [exact P1|]. destruct (Hm c Hc) as [E|E]; [rewrite (P3 E); lra|specialize (P2 E); lra].
  - left. exact Htl.
  - exact (drc_Z _ _ _ _ Hcx).
  - intros k Hk. destruct (drc_slack _ _ _ _ Hcx k Hk) as [H|H]; [left; exact H|right]. apply (P (2 * d_nb qp + 2 * d_ng qp + k)%nat); [cbn in Hk; unfold d_nct; lia|exact H].
  - exact (drc_reg _ _ _ _ Hcx).
  - exact (drc_H0 _ _ _ _ Hcx).
  - exact (drc_H _ _ _ _ Hcx).
  - exact (drc_A _ _ _ _ Hcx).
Qed.
Lemma drun_moff sol g b d m : point qp sol -> mz qp m -> den_mask_off (ka sol) (den_with_rhs qp g b d m).
Proof. intros P Z c Hc E. split; [apply (P c Hc); exact E|apply Z; assumption]. Qed.
Lemma drun_point sol g b d m : point qp sol -> mz qp m -> den_point (ka sol) (den_with_rhs qp g b d m).
Proof. intros P Z. apply cx_den_point; [apply drun_cx; exact P|apply drun_moff; assumption]. Qed.
Lemma dnsol_of sol g b d m s : den_newton_reg sc (ka sol) (den_with_rhs qp g b d m) reg dreg s -> nsol A qp EX sol g b d m s.
Proof.
  intros (rp & rd & HF & Hs & N1 & N2 & N3 & N4). unfold den_forces in HF.
  change (d_ne (den_with_rhs qp g b d m)) with ne in *. change (d_nv (den_with_rhs qp g b d m)) with (d_nv qp) in *. change (d_A (den_with_rhs qp g b d m)) with (d_A qp) in *.
  change (da_alg (ka sol)) with alg in *. change (da_reg (ka sol)) with reg in *. change (dnv (den_with_rhs qp g b d m)) with (dnv qp) in *. change (d_nct (den_with_rhs qp g b d m)) with nc in *.
  split; [|split; [|split]].
  - intros Er k Hk. pose proof (N1 k Hk) as H. rewrite dg_rhs in H. assert (Z : rp k = 0); [|lra].
    destruct (Nat.lt_ge_cases k (d_nv qp)) as [Hn|Hn]; [|rewrite Hs by (split; assumption); rewrite Er; lra]. rewrite Er in HF.
    destruct (Nat.eqb_spec ne 0) as [E0|E0]; [|destruct (alg =? 0)%Z].
    + destruct HF as (wv & _ & _ & F). rewrite F by exact Hn. lra.
    + destruct HF as ((p & y & _ & _ & F) & _). rewrite F by exact Hn. lra.
    + destruct HF as (wv & we & _ & _ & _ & F & _). rewrite F by exact Hn. destruct sc; lra.
  - intros Hex j Hj. pose proof (N2 j Hj) as H. rewrite deq_rhs in H. assert (Z : rd j = 0); [|lra].
    destruct (Nat.eqb_spec ne 0) as [E0|E0]; [lia|]. destruct (Z.eqb_spec alg 0) as [Ea|Ea].
    + apply HF. exact Hj.
    + destruct HF as (wv & we & _ & _ & _ & _ & F). rewrite F by exact Hj. destruct Hex as [X|[X|X]]; [contradiction|contradiction|rewrite X; lra].
  - intros c Hc. pose proof (N3 c Hc) as H. change (den_con (den_with_rhs qp g b d m)) with (den_con qp) in H. change (d_d (den_with_rhs qp g b d m)) with d in H. lra.
  - intros c Hc. pose proof (N4 c Hc) as H. change (d_m (den_with_rhs qp g b d m)) with m in H. cbn [drun_ka da_lam da_t] in H. lra.
Qed.
Lemma drun_H_fs k g b d m sol stp : dkI k -> point qp sol -> mz qp m ->
  let r := drun_fs A dreg alg sc lqf scr (S fuel) k (den_with_rhs qp g b d m) sol stp in nsol A qp EX sol g b d m (fst r) /\ dkFC (snd r) sol.
Proof.
  intros (I1 & I2) P Z. cbv zeta. unfold drun_fs. set (a := ka sol). set (q := den_with_rhs qp g b d m).
  pose proof (drun_cx sol g b d m P) as Cx. pose proof (drun_moff sol g b d m P Z) as Mo. pose proof (drun_point sol g b d m P Z) as Hp. fold a q in Cx, Mo, Hp.
  assert (HL : lq_ready a q lqf (set_scale A sc (dk_w k))) by (intros H1 H2; exact (I1 H1 H2)).
  destruct (C47_convex_returns a q lqf scr fuel (dk_tinv k, dk_Gam k, dk_gam k) stp (set_scale A sc (dk_w k)) Hwf Cx Mo HL) as (s & g3 & w' & E & _).
  rewrite E. destruct g3 as [[tinv Gam] gam]. cbn [fst snd].
  destruct (fact_solve_R a q lqf scr Hwf Hinj Hp Hm (S fuel) _ stp _ s _ _ tinv Gam gam w' HL E) as (N & HG & HF & HL').
  assert (Hsc : w_scale w' = sc).
  { rewrite (fact_solve_scale a q lqf scr (S fuel) _ stp _ s _ _ w' E). unfold set_scale. cbn [w_scale]. destruct (Z.eqb_spec (ai A abs_form) 0) as [E0|E0]; [reflexivity|]. destruct I2 as [I2|I2]; [contradiction|exact I2]. }
  split; [apply dnsol_of; exact N|]. split; [exact HF|]. split; [exact Hsc|]. cbn [dk_tinv dk_Gam dk_w]. split; [|split].
  - intros c Hc. destruct (HG c Hc) as (G1 & G2 & _). split; assumption.
  - intros H1 H2. exact (HL' H1 H2).
  - right. exact Hsc.
Qed.
Lemma drun_H_sv k g b d m sol stp : dkFC k sol -> point qp sol -> mz qp m ->
  let r := drun_sv A dreg alg sc scr k (den_with_rhs qp g b d m) sol stp in nsol A qp EX sol g b d m (fst r) /\ dkFC (snd r) sol.
Proof.
  intros (F1 & F2 & F3 & I1 & I2) P Z. cbv zeta. unfold drun_sv. set (a := ka sol). set (q := den_with_rhs qp g b d m).
  pose proof (drun_point sol g b d m P Z) as Hp. fold a q in Hp.
  assert (HG : Gg_ok a q (dk_tinv k) (dk_Gam k) (fun c => 1 / da_t a c * (d_m q c - da_lam a c * d_d q c))) by (intros c Hc; destruct (F3 c Hc) as (G1 & G2); split; [exact G1|split; [exact G2|reflexivity]]).
  assert (HF : fac_ok a q (w_scale (dk_w k)) (dk_Gam k) reg dreg (dk_w k)) by (rewrite F2; exact F1).
  pose proof (solve_kkt_R a q scr Hwf Hinj Hp Hm (dk_tinv k) (dk_Gam k) (dk_gam k) stp (dk_w k) reg dreg HG HF) as Y.
  destruct (den_solve_kkt a q scr (dk_tinv k) (dk_Gam k) (dk_gam k) stp (dk_w k)) as [[s gam] w'] eqn:E. cbn [fst snd]. destruct Y as (N & HF' & HS'). rewrite F2 in N, HF', HS'.
  split; [apply dnsol_of; exact N|]. split; [exact HF'|]. split; [exact HS'|]. split; [exact F3|]. cbn [dk_w]. split; [|right; exact HS'].
  unfold den_solve_kkt in E. destruct (den_tmp1 _ _ _ _ _) as [tmp dv]. destruct (if (0 <? _)%nat then den_solve_ne _ _ _ _ _ _ _ else _) as [dv1 dpi]. destruct (den_epilogue _ _ _ _ _ _ _ _) as [[? ?] ?].
  injection E as _ _ <-. exact I1.
Qed.
End Inst.
