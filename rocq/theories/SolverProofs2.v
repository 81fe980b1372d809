(** SolverProofs2.v -- proofs for SensRedProps.v: forward sensitivities through the removal of fixed variables (reals). *)
From Coq Require Import ZArith Bool Arith List Lia Reals Lra String.
From Verif Require Import Base ArithF RSum Blas OcpModel ResSpec ResProofs ResProofs2 CondSpec CondProps RedModel RedSpec RedSem RedProofs RedFull RedRest RedRest2 RedProps.
From Verif Require Import CoreModel KktModel KktSpec SolveModel NewtonUniq SolveProps SensModel SensSpec SensProofs SensProofs2 SolverModel SolverSpec SolverProofs.
Local Open Scope R_scope.

Section Generic.
Variables (qp : oqp R) (e : eqd) (r : oqp R).
Hypothesis WF : qp_wf qp.
Hypothesis EW : eq_wf qp e.
Hypothesis RR : restriction qp e r.
Hypothesis EDr : q_dim r = dim_reduce (q_dim qp) e.
(** C30_restore_residuals_partial for any restriction of the QP *)
Lemma restored lmin tmin sr o w2 : eq_imposed qp e -> olam_masked r (s_lam sr) ->
  let s := fst (restore_eq_dof true true true lmin tmin qp (q_dim r) e sr (o, w2)) in let D := q_dim qp in
  same_point qp (s_ux s) (lift qp e (s_ux sr)) /\ (forall i j, (i < dN D)%nat -> (j < dnx D (S i))%nat -> s_pi s i j = s_pi sr i j) /\
  (forall i c, (i <= dN D)%nat -> (c < nct D i)%nat -> removedc qp e i c = false -> s_lam s i c = s_lam sr i (cplace qp e i c) /\ s_t s i c = s_t sr i (cplace qp e i c)) /\
  (forall i k, (i <= dN D)%nat -> (k < nvt D i)%nat -> fixed qp e i k = false -> kkt_g qp (s_ux s) (s_pi s) (s_lam s) i k = kkt_g r (s_ux sr) (s_pi sr) (s_lam sr) i (vplace qp e i k)) /\
  (forall i k, (i <= dN D)%nat -> fixed qp e i k = true -> kkt_g qp (s_ux s) (s_pi s) (s_lam s) i k = lmin \/ kkt_g qp (s_ux s) (s_pi s) (s_lam s) i k = - lmin) /\
  (forall i j, (i < dN D)%nat -> (j < dnx D (S i))%nat -> dyn qp (s_ux s) i j = dyn r (s_ux sr) i j).
Proof.
  cbv zeta. intros HI HM. rewrite EDr.
  pose proof (C30_restore_copies qp e lmin tmin true true true sr o w2 WF EW) as C. cbv zeta in C. destruct C as (C1 & C2 & C4). specialize (C1 eq_refl). specialize (C2 eq_refl). specialize (C4 eq_refl).
  assert (C3 : forall i, (i <= dN (q_dim qp))%nat -> let s := fst (restore_eq_dof true true true lmin tmin qp (dim_reduce (q_dim qp) e) e sr (o, w2)) in rest_ineq qp e i lmin tmin sr (s_ux s) (s_pi sr) (s_lam s) (s_t s)).
  { intros i Hi. cbv zeta. pose proof (restore_R qp e WF EW true true true lmin tmin sr o w2) as Y. cbv zeta in Y. apply (Y i Hi). reflexivity. }
  cbv zeta in C3. set (s := fst _) in *. clearbody s.
  assert (LM : forall i c, (i <= dN (q_dim qp))%nat -> (c < nct (q_dim r) i)%nat -> (q_mask r i c = 0 /\ s_lam sr i c = 0) \/ q_mask r i c = 1) by (intros i c Hi Hc; apply HM; [rewrite EDr; exact Hi|exact Hc]).
  split; [exact C1|]. split; [exact C2|]. split; [exact C4|]. split; [|split].
  - intros i k Hi Hk F. eapply (kkt_g_free_r qp e WF EW r RR lmin tmin sr s); eassumption.
  - intros i k Hi F. eapply (kkt_g_fixed qp e EW r RR HI lmin tmin sr s); eassumption.
  - intros i j Hi Hj. eapply (dyn_rest qp e WF EW r RR sr s); eassumption.
Qed.
End Generic.

Section Seed.
Variables (qp : oqp R) (e : eqd) (r : oqp R).
Hypothesis WF : qp_wf qp.
Hypothesis EW : eq_wf qp e.
Hypothesis BF : bounds_first qp e.
Hypothesis OK : reduced_ok qp e r.
Let D := q_dim qp.
Let RR : restriction qp e r. Proof. exact (restriction_R qp e WF EW BF r OK). Qed.
Variables (sd sd0 : seed R) (w : rwork (F := R)).
Let sdr := fst (reduce_seed qp e (q_dim r) sd (sd0, w)).
Lemma seed_ok : reduced_ok (seed_qp qp sd) e (seed_qp r sdr).
Proof.
  destruct OK as (ED & P). unfold sdr, reduce_seed.
  match goal with |- context [reduce_rhs (seed_qp qp sd) e (?x, w)] => set (r0 := x) end.
  assert (ED0 : q_dim r0 = dim_reduce (q_dim (seed_qp qp sd)) e) by exact ED.
  pose proof (reduce_rhs_R (seed_qp qp sd) e WF EW r0 w ED0) as X. cbv zeta in X. destruct (reduce_rhs (seed_qp qp sd) e (r0, w)) as [r1 w1]. cbn [fst] in X |- *. destruct X as (_ & _ & X).
  split; [exact ED|]. intros i Hi. destruct (P i Hi) as (P1 & (_ & _ & _ & P2)). destruct (X i Hi) as (X1 & X2 & X3 & X4). split; [exact P1|]. unfold rhs_post. split; [exact X1|]. split; [exact X2|]. split; [exact X3|].
  intros c Hc Hr. destruct (X4 c Hc Hr) as (Y1 & _ & Y3). split; [exact Y1|]. split; [|exact Y3]. exact (proj1 (proj2 (P2 c Hc Hr))).
Qed.
Lemma seed_restr : restriction (seed_qp qp sd) e (seed_qp r sdr).
Proof. apply restriction_R; [exact WF|exact EW|exact BF|exact seed_ok]. Qed.
Lemma soft_inj_r : soft_inj qp -> soft_inj r.
Proof.
  destruct OK as (ED & P). intros H i p p' Hi Hp Hp' Hn E. rewrite ED in Hi, Hp, Hp'. change (dN (dim_reduce D e)) with (dN D) in Hi. change (dng (dim_reduce (q_dim qp) e) i) with (dng D i) in Hp, Hp'.
  destruct (P i Hi) as ((_ & _ & _ & _ & P5 & P6) & _). pose proof (nbr_eq qp e i Hi EW) as NB. fold D in NB, P6, P5, Hp, Hp'.
  set (nbr := dnb (dim_reduce D e) i) in *.
  assert (X : forall p, (p < nbr + dng D i)%nat -> exists j, (j < dnb D i + dng D i)%nat /\ q_idxs_rev r i p = q_idxs_rev qp i j /\ ((j < dnb D i /\ removed e i j = false /\ p = rk (removed e i) j) \/ (dnb D i <= j /\ p = nbr + (j - dnb D i)))%nat).
  { intros q Hq. destruct (Nat.lt_ge_cases q nbr) as [L|L].
    - rewrite NB in L. destruct (rk_surj _ _ _ L) as (j & Hj & Hr & <-). exists j. split; [lia|]. destruct (P5 j Hj Hr) as (_ & ->). split; [reflexivity|]. left. auto.
    - exists (dnb D i + (q - nbr))%nat. split; [lia|]. split; [|right; lia]. replace q with (nbr + (q - nbr))%nat at 1 by lia. rewrite P6 by lia. reflexivity. }
  destruct (X p Hp) as (j & Hj & E1 & C1). destruct (X p' Hp') as (j' & Hj' & E2 & C2).
  assert (EJ : j = j') by (apply (H i j j'); try assumption; rewrite <- ?E1, <- ?E2; assumption). subst j'.
  destruct C1 as [(A1 & A2 & A3)|(A1 & A3)], C2 as [(B1 & B2 & B3)|(B1 & B3)]; lia.
Qed.
Lemma masked_zero_r : masked_zero qp (sd_m sd) -> masked_zero r (sd_m sdr).
Proof.
  intros H i p Hi Hp E. destruct seed_restr as (_ & _ & _ & _ & B). destruct RR as (RN & _ & _ & _ & B0). rewrite RN in Hi. destruct (r_con qp e r RR i p Hi Hp) as (c & Hc & Hr & <-).
  destruct (B i c Hi Hc Hr) as (_ & _ & _ & B4). cbn [q_m seed_qp with_rhs] in B4. change (cplace (seed_qp qp sd) e i c) with (cplace qp e i c) in B4. rewrite B4.
  apply H; try assumption. destruct (B0 i c Hi Hc Hr) as (_ & _ & E3 & _). rewrite <- E3. exact E.
Qed.
Lemma reg_same reg preg i k : (i <= dN D)%nat -> (k < nvt D i)%nat -> fixed qp e i k = false -> reg_diag r reg preg i (vplace qp e i k) = reg_diag qp reg preg i k.
Proof.
  intros Hi Hk F. unfold reg_diag. destruct RR as (_ & A & _).
  assert (M : forall n, ((vplace qp e i k <? vplace qp e i n) = (k <? n))%nat).
  { intros n. destruct (Nat.ltb_spec k n) as [L|L]; [apply Nat.ltb_lt; apply rk_lt; assumption|apply Nat.ltb_ge; apply rk_mono; exact L]. }
  destruct (A i Hi) as (A1 & A2 & _). rewrite A1, M. destruct (Nat.eqb_spec i 0) as [->|]; [|reflexivity]. unfold nux at 1. rewrite A2, M. reflexivity.
Qed.
(** the restored sensitivities *)
Variables (a : kargs R) (preg lmin tmin : R) (sr o : osol R) (w2 : rwork (F := R)).
Hypothesis HI : eq_imposed qp e.
Hypothesis HM : mask01 r.
Hypothesis Hip : interior a r.
Hypothesis Hz : masked_zero qp (sd_m sd).
Hypothesis NS : newton_solution a (seed_qp r sdr) preg sr.
Lemma sens_lam_masked : olam_masked r (s_lam sr).
Proof.
  intros i c Hi Hc. destruct (HM i c Hi Hc) as [E|E]; [left; split; [exact E|]|right; exact E]. destruct NS as (_ & _ & _ & N4). specialize (N4 i c Hi Hc). cbn [q_m seed_qp with_rhs] in N4.
  rewrite (masked_zero_r Hz i c Hi Hc E) in N4. destruct (ip_mask _ _ Hip i c Hi Hc E) as (A & _). rewrite A in N4. pose proof (ip_t _ _ Hip i c Hi Hc) as T. assert (P : s_lam sr i c * a_t a i c = 0) by lra. apply Rmult_integral in P. tauto.
Qed.
Lemma sens_R : let s := fst (restore_seed true true true lmin tmin qp sd (q_dim r) e sr (o, w2)) in
  sens_red qp e (fun i c => a_lam a i (cplace qp e i c)) (fun i c => a_t a i (cplace qp e i c)) (reg_diag qp (a_reg a) preg) sd s (Rabs lmin).
Proof.
  cbv zeta. unfold restore_seed. pose proof (restored (seed_qp qp sd) e (seed_qp r sdr) WF EW seed_restr (proj1 OK) lmin tmin sr o w2 HI sens_lam_masked) as X. cbv zeta in X. cbn [q_dim seed_qp with_rhs] in X.
  set (s := fst (restore_eq_dof _ _ _ _ _ _ _ _ _ _)) in *. clearbody s. fold D in X. destruct X as (C1 & C2 & C3 & K1 & K2 & K3). destruct NS as (N1 & N2 & N3 & N4).
  change (lift (seed_qp qp sd) e) with (lift (seed_qp qp sd) e) in C1. cbn [q_dim seed_qp with_rhs q_d q_m] in N1, N2, N3, N4. rewrite (r_N qp e r RR) in N1, N2, N3, N4. fold D in N1, N2, N3, N4.
  split; [|split; [|split; [|split; [|split]]]]; cbn [q_dim seed_qp with_rhs]; fold D.
  - intros i j Hi Hj Hr. destruct (removed_ex e i j Hr) as (q & Hq & ->).
    assert (F : fixed (seed_qp qp sd) e i (q_idxb qp i (e_idxe e i q)) = true) by (apply (fixed_q (seed_qp qp sd) e WF EW); assumption).
    assert (Hk : (q_idxb qp i (e_idxe e i q) < nux qp i)%nat) by (apply (fixed_lt (seed_qp qp sd) e i); exact F).
    rewrite C1; [|exact Hi|cbn [q_dim seed_qp with_rhs]; fold D; unfold nvt; unfold nux in Hk; fold D in Hk; lia]. unfold lift. rewrite F. exact (fixval_q (seed_qp qp sd) e EW i q Hi Hq).
  - intros i k Hi Hk F. rewrite (K1 i k Hi Hk F). rewrite <- (reg_same (a_reg a) preg i k Hi Hk F).
    assert (Ex : s_ux s i k = s_ux sr i (vplace qp e i k)). { rewrite C1 by assumption. unfold lift. change (fixed (seed_qp qp sd) e i k) with (fixed qp e i k). rewrite F. reflexivity. }
    rewrite Ex. apply (N1 i (vplace qp e i k) Hi). rewrite (r_nvt qp e r RR i Hi). apply rk_lt; assumption.
  - intros i k Hi Hk F. destruct (K2 i k Hi F) as [-> | ->]; rewrite ?Rabs_Ropp; lra.
  - intros i j Hi Hj. rewrite (K3 i j Hi Hj). apply N2; [exact Hi|]. rewrite (r_nx qp e r RR) by (unfold D in *; lia). exact Hj.
  - intros i c Hi Hc Hr. destruct (C3 i c Hi Hc Hr) as (_ & ET). rewrite ET. rewrite (same_con (seed_qp qp sd) _ _ i c C1 Hi).
    pose proof (con_lift (seed_qp qp sd) e (seed_qp r sdr) WF EW seed_restr (s_ux sr) i c Hi Hc Hr) as CL. cbn [q_d seed_qp with_rhs] in CL. change (cplace (seed_qp qp sd) e i c) with (cplace qp e i c) in *.
    assert (Hp : (cplace qp e i c < nct (q_dim r) i)%nat) by (rewrite (r_nct qp e r RR i Hi); apply rk_lt; assumption).
    specialize (N3 i (cplace qp e i c) Hi Hp). lra.
  - intros i c Hi Hc Hr. destruct (C3 i c Hi Hc Hr) as (EL & ET). rewrite ET, EL. change (cplace (seed_qp qp sd) e i c) with (cplace qp e i c) in *.
    assert (Hp : (cplace qp e i c < nct (q_dim r) i)%nat) by (rewrite (r_nct qp e r RR i Hi); apply rk_lt; assumption).
    specialize (N4 i (cplace qp e i c) Hi Hp). destruct seed_restr as (_ & _ & _ & _ & B). destruct (B i c Hi Hc Hr) as (_ & _ & _ & B4). cbn [q_m seed_qp with_rhs] in B4. change (cplace (seed_qp qp sd) e i c) with (cplace qp e i c) in B4. rewrite <- B4. exact N4.
Qed.
End Seed.

(** ** derivatives *)
Section Deriv.
Variables (qp : oqp R) (e : eqd) (r : oqp R).
Hypothesis WF : qp_wf qp.
Hypothesis EW : eq_wf qp e.
Hypothesis BF : bounds_first qp e.
Hypothesis OK : reduced_ok qp e r.
Let D := q_dim qp.
Let RR : restriction qp e r. Proof. exact (restriction_R qp e WF EW BF r OK). Qed.
Variables (sd sd0 : seed R) (w : rwork (F := R)).
Let red (s : seed R) : seed R := fst (reduce_seed qp e (q_dim r) s (sd0, w)).
Definition unliftc (z : nat -> nat -> R) (i p : nat) : R := z i (match find (fun k => (negb (removedc qp e i k) && (cplace qp e i k =? p)%nat)%bool) (seq 0 (nct D i)) with Some k => k | None => 0%nat end).
Lemma unliftc_at z i k : (k < nct D i)%nat -> removedc qp e i k = false -> unliftc z i (cplace qp e i k) = z i k.
Proof.
  intros Hk E. unfold unliftc. destruct (find _ _) as [k'|] eqn:F.
  - apply find_some in F. destruct F as (_ & F). apply andb_prop in F. destruct F as (F1 & F2). apply Nat.eqb_eq in F2. apply negb_true_iff in F1. f_equal. exact (rk_inj _ _ _ F1 E F2).
  - exfalso. pose proof (find_none _ _ F k ltac:(apply in_seq; lia)) as X. cbv beta in X. rewrite E, Nat.eqb_refl in X. discriminate.
Qed.
Variables (c : curve) (l : osol R) (eps : R).
Hypothesis He : 0 < eps.
Let sdh h := mkseed (c_g c h) (c_b c h) (c_d c h) (c_m c h).
Let qph h := with_rhs qp (c_g c h) (c_b c h) (c_d c h) (c_m c h).
Hypothesis Hsol : forall h, Rabs h < eps -> relaxed_red (qph h) e (mksol (c_ux c h) (c_pi c h) (c_lam c h) (c_t c h)).
Hypothesis Hdata : data_derivative D c sd.
Hypothesis Hd : curve_derivative_red qp e c l.
(** the curve of reduced data and reduced points *)
Definition cred : curve := Build_curve (fun h => sd_g (red (sdh h))) (fun h => sd_b (red (sdh h))) (fun h => sd_d (red (sdh h))) (fun h => sd_m (red (sdh h)))
  (fun h => unlift qp e (c_ux c h)) (fun h => c_pi c h) (fun h => unliftc (c_lam c h)) (fun h => unliftc (c_t c h)).
Definition lred : osol R := mksol (unlift qp e (s_ux l)) (s_pi l) (unliftc (s_lam l)) (unliftc (s_t l)).
Lemma restr_h h : restriction (qph h) e (with_rhs r (c_g cred h) (c_b cred h) (c_d cred h) (c_m cred h)).
Proof. exact (seed_restr qp e r WF EW BF OK (sdh h) sd0 w). Qed.
Lemma r_var i p : (i <= dN D)%nat -> (p < nvt (q_dim r) i)%nat -> exists k, (k < nvt D i)%nat /\ fixed qp e i k = false /\ vplace qp e i k = p.
Proof. intros Hi Hp. rewrite (r_nvt qp e r RR i Hi) in Hp. apply rk_surj. exact Hp. Qed.
Lemma fixval_d i k : (i <= dN D)%nat -> derivable_pt_lim (fun h => fixval (qph h) e i k) 0 (fixval (seed_qp qp sd) e i k).
Proof.
  intros Hi. unfold fixval. cbn [q_idxb q_d qph seed_qp with_rhs]. destruct Hdata as (_ & _ & Dd & _).
  apply (dlim_rsum (ne_thr e i) (fun q h => if (k =? q_idxb qp i (e_idxe e i q))%nat then c_d c h i (e_idxe e i q) else 0)). intros q Hq. destruct (k =? _)%nat; [|apply derivable_pt_lim_const].
  apply Dd; [exact Hi|]. destruct (EW i Hi) as (_ & _ & _ & A & _). destruct (A q Hq) as (A1 & _). fold D in A1. unfold nct. lia.
Qed.
Lemma cred_data : data_derivative (q_dim r) cred (red sd).
Proof.
  destruct Hdata as (Dg & Db & Dd & Dm). pose proof (seed_restr qp e r WF EW BF OK sd sd0 w) as (_ & _ & S3 & S4 & S5). fold (red sd) in S3, S4, S5. cbn [q_dim seed_qp with_rhs q_b q_rqz q_d q_m q_mask q_BAbt] in S3, S4, S5. fold D in S3, S4, S5.
  unfold data_derivative. rewrite (r_N qp e r RR). fold D. split; [|split; [|split]].
  - intros i p Hi Hp. destruct (r_var i p Hi Hp) as (k & Hk & F & <-). destruct (S4 i k Hi Hk F) as (_ & E). change (vplace (seed_qp qp sd) e i k) with (vplace qp e i k) in E. rewrite E.
    apply (dlim_ext_loc (fun h => c_g c h i k + rsum (nvt D i) (fun l => Hess qp i k l * fixval (qph h) e i l)) _ 0 _ eps He).
    + intros h _. destruct (restr_h h) as (_ & _ & _ & B & _). destruct (B i k Hi Hk F) as (_ & E2). symmetry. exact E2.
    + apply (derivable_pt_lim_plus (fun h => c_g c h i k)); [apply Dg; assumption|]. apply (dlim_lin (nvt D i) (fun m => Hess qp i k m) (fun h m => fixval (qph h) e i m)). intros m _. apply fixval_d. exact Hi.
  - intros i j Hi Hj. rewrite (r_nx qp e r RR) in Hj by (unfold D in *; lia). destruct (S3 i Hi j Hj) as (_ & E). rewrite E.
    apply (dlim_ext_loc (fun h => c_b c h i j + rsum (nux qp i) (fun k => q_BAbt qp i k j * fixval (qph h) e i k)) _ 0 _ eps He).
    + intros h _. destruct (restr_h h) as (_ & _ & B & _). destruct (B i Hi j Hj) as (_ & E2). symmetry. exact E2.
    + apply (derivable_pt_lim_plus (fun h => c_b c h i j)); [apply Db; assumption|]. apply (dlim_lin (nux qp i) (fun m => q_BAbt qp i m j) (fun h m => fixval (qph h) e i m)). intros m _. apply fixval_d. unfold D in *; lia.
  - intros i p Hi Hp. destruct (r_con qp e r RR i p Hi Hp) as (k & Hk & F & <-). destruct (S5 i k Hi Hk F) as (_ & E & _). change (cplace (seed_qp qp sd) e i k) with (cplace qp e i k) in E. rewrite E.
    apply (dlim_ext_loc (fun h => c_d c h i k - rsum (nvt D i) (fun l => G qp i k l * fixval (qph h) e i l)) _ 0 _ eps He).
    + intros h _. destruct (restr_h h) as (_ & _ & _ & _ & B). destruct (B i k Hi Hk F) as (_ & E2 & _). symmetry. exact E2.
    + apply (derivable_pt_lim_minus (fun h => c_d c h i k)); [apply Dd; assumption|]. apply (dlim_lin (nvt D i) (fun m => G qp i k m) (fun h m => fixval (qph h) e i m)). intros m _. apply fixval_d. exact Hi.
  - intros i p Hi Hp. destruct (r_con qp e r RR i p Hi Hp) as (k & Hk & F & <-). destruct (S5 i k Hi Hk F) as (_ & _ & _ & E). change (cplace (seed_qp qp sd) e i k) with (cplace qp e i k) in E. rewrite E.
    apply (dlim_ext_loc (fun h => c_m c h i k) _ 0 _ eps He).
    + intros h _. destruct (restr_h h) as (_ & _ & _ & _ & B). destruct (B i k Hi Hk F) as (_ & _ & _ & E2). symmetry. exact E2.
    + apply Dm; assumption.
Qed.
Lemma cred_deriv : curve_derivative (q_dim r) cred lred.
Proof.
  destruct Hd as (Du & Dp & Dl & Dt). unfold curve_derivative. rewrite (r_N qp e r RR). fold D. cbn [cred lred c_ux c_pi c_lam c_t s_ux s_pi s_lam s_t]. split; [|split; [|split]].
  - intros i p Hi Hp. destruct (r_var i p Hi Hp) as (k & Hk & F & <-). rewrite unlift_at by assumption. apply (dlim_ext_loc (fun h => c_ux c h i k) _ 0 _ eps He); [intros h _; rewrite unlift_at by assumption; reflexivity|]. apply Du; assumption.
  - intros i j Hi Hj. rewrite (r_nx qp e r RR) in Hj by (unfold D in *; lia). apply Dp; assumption.
  - intros i p Hi Hp. destruct (r_con qp e r RR i p Hi Hp) as (k & Hk & F & <-). rewrite unliftc_at by assumption. apply (dlim_ext_loc (fun h => c_lam c h i k) _ 0 _ eps He); [intros h _; rewrite unliftc_at by assumption; reflexivity|]. apply Dl; assumption.
  - intros i p Hi Hp. destruct (r_con qp e r RR i p Hi Hp) as (k & Hk & F & <-). rewrite unliftc_at by assumption. apply (dlim_ext_loc (fun h => c_t c h i k) _ 0 _ eps He); [intros h _; rewrite unliftc_at by assumption; reflexivity|]. apply Dt; assumption.
Qed.
Lemma cred_sol h : Rabs h < eps -> relaxed_kkt (with_rhs r (c_g cred h) (c_b cred h) (c_d cred h) (c_m cred h)) (mksol (c_ux cred h) (c_pi cred h) (c_lam cred h) (c_t cred h)).
Proof.
  intros Hh. destruct (Hsol h Hh) as (A0 & A1 & A2 & A3 & A4). cbn [qph with_rhs q_dim s_ux s_pi s_lam s_t q_idxb q_d q_m] in A0, A1, A2, A3, A4. fold D in A0, A1, A2, A3, A4. pose proof (restr_h h) as RH. set (rh := with_rhs r (c_g cred h) (c_b cred h) (c_d cred h) (c_m cred h)) in *.
  assert (WFh : qp_wf (qph h)) by exact WF. assert (EWh : eq_wf (qph h) e) by exact EW.
  assert (SP : same_point (qph h) (c_ux c h) (lift (qph h) e (c_ux cred h))).
  { intros i k Hi Hk. change (nvt (q_dim (qph h)) i) with (nvt D i) in Hk. change (dN (q_dim (qph h))) with (dN D) in Hi. unfold lift. change (fixed (qph h) e i k) with (fixed qp e i k). destruct (fixed qp e i k) eqn:F.
    - destruct (fixed_ex qp e i k F) as (q & Hq & ->). destruct (EW i Hi) as (_ & _ & _ & A & _). destruct (A q Hq) as (B1 & _). rewrite (A0 i (e_idxe e i q) Hi B1 (removed_q e i q Hq)). symmetry. exact (fixval_q (qph h) e EWh i q Hi Hq).
    - change (vplace (qph h) e i k) with (vplace qp e i k). cbn [cred c_ux]. symmetry. apply unlift_at; assumption. }
  unfold relaxed_kkt. change (q_dim rh) with (q_dim r). rewrite (r_N qp e r RR). fold D. cbn [s_ux s_pi s_lam s_t]. split; [|split; [|split]].
  - intros i p Hi Hp. destruct (r_var i p Hi Hp) as (k & Hk & F & <-).
    change (vplace qp e i k) with (vplace (qph h) e i k). rewrite <- (kkt_g_lift (qph h) e rh WFh EWh RH (c_ux cred h) (c_ux c h) (c_pi c h) (c_pi cred h) (c_lam c h) (c_lam cred h) i k Hi Hk F SP).
    + apply A1; assumption.
    + reflexivity.
    + intros i' k' Hi' Hk' F'. cbn [cred c_lam]. symmetry. apply unliftc_at; assumption.
  - intros i j Hi Hj. rewrite (r_nx qp e r RR) in Hj by (unfold D in *; lia). rewrite <- (dyn_lift (qph h) e rh WFh EWh RH (c_ux cred h) i j Hi Hj). rewrite <- (dyn_same (qph h) _ _ i j SP Hi Hj). apply A2; assumption.
  - intros i p Hi Hp. destruct (r_con qp e r RR i p Hi Hp) as (k & Hk & F & <-). pose proof (con_lift (qph h) e rh WFh EWh RH (c_ux cred h) i k Hi Hk F) as CL. change (cplace (qph h) e i k) with (cplace qp e i k) in CL. rewrite <- (same_con (qph h) _ _ i k SP Hi) in CL.
    specialize (A3 i k Hi Hk F). change (q_d (qph h) i k) with (c_d c h i k) in CL. cbn [cred c_t]. rewrite unliftc_at by assumption. lra.
  - intros i p Hi Hp. destruct (r_con qp e r RR i p Hi Hp) as (k & Hk & F & <-). cbn [cred c_t c_lam]. rewrite !unliftc_at by assumption. rewrite (A4 i k Hi Hk F). destruct RH as (_ & _ & _ & _ & B). destruct (B i k Hi Hk F) as (_ & _ & _ & E2). symmetry. exact E2.
Qed.
(** back: derivatives of the reduced curve, restored, are derivatives of the curve *)
Lemma restore_deriv sr s : curve_derivative (q_dim r) cred sr -> same_point qp (s_ux s) (lift (seed_qp qp sd) e (s_ux sr)) ->
  (forall i j, (i < dN D)%nat -> (j < dnx D (S i))%nat -> s_pi s i j = s_pi sr i j) ->
  (forall i k, (i <= dN D)%nat -> (k < nct D i)%nat -> removedc qp e i k = false -> s_lam s i k = s_lam sr i (cplace qp e i k) /\ s_t s i k = s_t sr i (cplace qp e i k)) ->
  curve_derivative_red qp e c s.
Proof.
  intros (Du & Dp & Dl & Dt) C1 C2 C3. rewrite (r_N qp e r RR) in Du, Dp, Dl, Dt. fold D in Du, Dp, Dl, Dt. unfold curve_derivative_red. fold D. split; [|split; [|split]].
  - intros i k Hi Hk. rewrite C1 by assumption. unfold lift. change (fixed (seed_qp qp sd) e i k) with (fixed qp e i k). destruct (fixed qp e i k) eqn:F.
    + apply (dlim_ext_loc (fun h => fixval (qph h) e i k) _ 0 _ eps He); [|apply fixval_d; exact Hi]. intros h Hh. rewrite Rminus_0_r in Hh. destruct (Hsol h Hh) as (A0 & _).
      destruct (fixed_ex qp e i k F) as (q & Hq & ->). destruct (EW i Hi) as (_ & _ & _ & A & _). destruct (A q Hq) as (B1 & _). symmetry. etransitivity; [exact (A0 i (e_idxe e i q) Hi B1 (removed_q e i q Hq))|]. symmetry. exact (fixval_q (qph h) e EW i q Hi Hq).
    + change (vplace (seed_qp qp sd) e i k) with (vplace qp e i k). apply (dlim_ext_loc (fun h => c_ux cred h i (vplace qp e i k)) _ 0 _ eps He); [intros h _; cbn [cred c_ux]; apply unlift_at; assumption|]. apply Du; [exact Hi|]. rewrite (r_nvt qp e r RR i Hi). apply rk_lt; assumption.
  - intros i j Hi Hj. rewrite C2 by assumption. apply Dp; [exact Hi|]. rewrite (r_nx qp e r RR) by (unfold D in *; lia). exact Hj.
  - intros i k Hi Hk F. rewrite (proj1 (C3 i k Hi Hk F)). apply (dlim_ext_loc (fun h => c_lam cred h i (cplace qp e i k)) _ 0 _ eps He); [intros h _; cbn [cred c_lam]; apply unliftc_at; assumption|]. apply Dl; [exact Hi|]. rewrite (r_nct qp e r RR i Hi). apply rk_lt; assumption.
  - intros i k Hi Hk F. rewrite (proj2 (C3 i k Hi Hk F)). apply (dlim_ext_loc (fun h => c_t cred h i (cplace qp e i k)) _ 0 _ eps He); [intros h _; cbn [cred c_t]; apply unliftc_at; assumption|]. apply Dt; [exact Hi|]. rewrite (r_nct qp e r RR i Hi). apply rk_lt; assumption.
Qed.
End Deriv.
