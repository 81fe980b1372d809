(** RedProps.v -- property C30: removing the variables fixed by equality bounds (OCP_QP_REDUCE_EQ_DOF) and restoring them. *)
From Coq Require Import ZArith Bool Arith List Lia Reals Lra.
From Verif Require Import Base ArithF RSum Blas OcpModel ResSpec ResProofs ResProofs2 CondSpec CondProps ExpProps RedModel RedSpec RedSem RedProofs RedFull RedRest RedRest2.
Local Open Scope R_scope.

(** What the caller provides: legal indices (RedSpec.v), no removed variable stored before a variable with a kept bound, and a QP object with
    the dimensions computed by OCP_QP_DIM_REDUCE_EQ_DOF. *)
Definition red_pre (qp : oqp R) (e : eqd) (r0 : oqp R) : Prop := qp_wf qp /\ eq_wf qp e /\ bounds_first qp e /\ q_dim r0 = dim_reduce (q_dim qp) e.

(** *** the reduced QP is the restriction of the QP to the fixed values, and well formed *)
Theorem C30_restriction_partial : forall al qp e r0 w, red_pre qp e r0 ->
  let r := fst (reduce_eq_dof al qp e (r0, w)) in restriction qp e r /\ qp_wf r.
Proof.
  cbv zeta. intros al qp e r0 w (A & B & C & E). pose proof (reduce_eq_dof_R qp e A B al r0 w E) as O. set (r := fst _) in *. clearbody r. split; [apply restriction_R; assumption|exact (reduced_wf qp e A B C r O)].
Qed.
(** the same when the matrices are reduced first and the vectors later, possibly after changes of the vectors only *)
Theorem C30_lhs_rhs_partial : forall al qp qp' e r0 w w', red_pre qp e r0 ->
  q_dim qp' = q_dim qp -> q_BAbt qp' = q_BAbt qp -> q_RSQ qp' = q_RSQ qp -> q_DCt qp' = q_DCt qp -> q_Z qp' = q_Z qp -> q_idxb qp' = q_idxb qp -> q_idxs_rev qp' = q_idxs_rev qp ->
  restriction qp' e (fst (reduce_rhs qp' e (fst (reduce_lhs al qp e (r0, w)), w'))) /\ restriction qp' e (fst (reduce_rhs qp' e (fst (reduce_eq_dof al qp e (r0, w)), w'))).
Proof.
  intros al qp qp' e r0 w w' (A & B & C & E) H1 H2 H3 H4 H5 H6 H7. destruct qp as [dim BAbt RSQ DCt b rqz d mask m Z idxb idxs]. destruct qp' as [dim' BAbt' RSQ' DCt' b' rqz' d' mask' m' Z' idxb' idxs']. cbn [q_dim q_BAbt q_RSQ q_DCt q_Z q_idxb q_idxs_rev] in *. subst.
  set (qp := mkqp dim BAbt RSQ DCt b rqz d mask m Z idxb idxs) in *. set (qp' := mkqp dim BAbt RSQ DCt b' rqz' d' mask' m' Z idxb idxs).
  assert (A' : qp_wf qp') by exact A. assert (B' : eq_wf qp' e) by exact B. assert (C' : bounds_first qp' e) by exact C.
  assert (X : forall r, q_dim r = dim_reduce dim e -> (forall i, (i <= dN dim)%nat -> lhs_post qp e i r) -> restriction qp' e (fst (reduce_rhs qp' e (r, w')))).
  { intros r Er L. apply restriction_R; try assumption. pose proof (reduce_rhs_R qp' e A' B' r w' Er) as Y. cbv zeta in Y. set (r2 := fst _) in *. clearbody r2. destruct Y as (Y1 & (Y2 & Y3 & Y4 & Y5 & Y6 & Y7) & Y8). split; [exact Y1|]. intros i Hi. split; [|apply Y8; exact Hi].
    apply (lhs_post_ext qp' e i r); rewrite ?Y2, ?Y3, ?Y4, ?Y5, ?Y6, ?Y7; try reflexivity. exact (L i Hi). }
  split.
  - pose proof (reduce_lhs_R qp e B al r0 w E) as Y. cbv zeta in Y. destruct Y as (Y1 & _ & Y2). apply X; assumption.
  - pose proof (reduce_eq_dof_R qp e A B al r0 w E) as (Y1 & Y2). apply X; [exact Y1|]. intros i Hi. apply Y2. exact Hi.
Qed.
(** *** the two problems are the same problem.  [eq_bounds]: the removed bounds are equalities (lb = ub); [eq_imposed]: not masked out *)
Theorem C30_equivalent_partial : forall al qp e r0 w, red_pre qp e r0 -> eq_bounds qp e -> eq_imposed qp e ->
  let r := fst (reduce_eq_dof al qp e (r0, w)) in
  (forall y, feasible qp (lift qp e y) <-> feasible r y) /\
  (exists K, forall y, cost qp (lift qp e y) = cost r y + K) /\
  (forall z, feasible qp z -> exists y, same_point qp z (lift qp e y)) /\
  (forall y, ocp_optimal qp (lift qp e y) <-> ocp_optimal r y).
Proof.
  cbv zeta. intros al qp e r0 w HP HB HI. pose proof (C30_restriction_partial al qp e r0 w HP) as X. cbv zeta in X. set (r := fst _) in *. clearbody r. destruct X as (RR & _). destruct HP as (WF & EW & _).
  pose proof (fun y => feasible_lift qp e r WF EW RR y HB) as FL. pose proof (cost_lift qp e r WF EW RR) as CL. pose proof (fun z H => feasible_unlift qp e WF EW z HB HI H) as UL.
  split; [exact FL|]. split; [eexists; exact CL|]. split; [intros z Hz; eexists; apply UL; exact Hz|].
  intros y. split; intros (O1 & O2).
  - split; [apply FL; exact O1|]. intros y' Hy'. apply FL in Hy'. pose proof (O2 _ Hy') as X. rewrite !CL in X. lra.
  - split; [apply FL; exact O1|]. intros z Hz. pose proof (UL z Hz) as S. rewrite (same_cost qp _ _ S). rewrite !CL. apply Rplus_le_compat_r. apply O2. apply FL.
    destruct Hz as (Z1 & Z2). split.
    + intros i j Hi Hj. rewrite <- (Z1 i j Hi Hj). unfold dyn. rewrite (S (Datatypes.S i)) by (try lia; unfold nvt; lia). f_equal. f_equal. apply rsum_ext. intros k Hk. unfold nux in Hk. rewrite (S i k) by (try lia; unfold nvt; lia). reflexivity.
    + intros i c Hi Hc Hm. rewrite <- (same_con qp _ _ i c S Hi). apply Z2; assumption.
Qed.
(** *** a sufficient condition met by the usual use (the initial state is fixed): no input removed, kept bounds of stage 0 on inputs only *)
Theorem C30_initial_state : forall qp e, qp_wf qp -> eq_wf qp e -> (forall i, (i <= dN (q_dim qp))%nat -> e_nbue e i = 0%nat) ->
  (forall j, (j < dnb (q_dim qp) 0)%nat -> removed e 0 j = false -> (q_idxb qp 0%nat j < dnu (q_dim qp) 0)%nat) -> bounds_first qp e.
Proof.
  intros qp e WF EW HU HS i j Hi Hj Hr. unfold vplace. pose proof (rk_free (fixed qp e i) 0 (q_idxb qp i j)) as X. cbn [Nat.add] in X. apply X. intros k Hk. destruct (fixed qp e i k) eqn:F; [|reflexivity]. exfalso. destruct (fixed_ex qp e i k F) as (q & Hq & ->). destruct (EW i Hi) as (_ & _ & _ & _ & _ & U & _).
  pose proof (U q ltac:(rewrite (HU i Hi); lia)) as Y. unfold ne_thr in Hq. rewrite (HU i Hi) in Hq. destruct (Nat.eqb_spec i 0) as [->|N]; [|lia]. pose proof (HS j Hj Hr). lia.
Qed.

(** *** restoring a solution: fixed variables at their value, the others, the multipliers and the slacks copied from their place *)
Theorem C30_restore_copies : forall qp e lmin tmin pr du dq sr o w, qp_wf qp -> eq_wf qp e ->
  let o' := fst (restore_eq_dof pr du dq lmin tmin qp (dim_reduce (q_dim qp) e) e sr (o, w)) in let D := q_dim qp in
  (pr = true -> same_point qp (s_ux o') (lift qp e (s_ux sr))) /\
  (dq = true -> forall i j, (i < dN D)%nat -> (j < dnx D (S i))%nat -> s_pi o' i j = s_pi sr i j) /\
  (du = true -> forall i c, (i <= dN D)%nat -> (c < nct D i)%nat -> removedc qp e i c = false -> s_lam o' i c = s_lam sr i (cplace qp e i c) /\ s_t o' i c = s_t sr i (cplace qp e i c)).
Proof.
  cbv zeta. intros qp e lmin tmin pr du dq sr o w WF EW. pose proof (restore_R qp e WF EW pr du dq lmin tmin sr o w) as X. cbv zeta in X. set (o' := fst _) in *. clearbody o'. split; [|split].
  - intros E i k Hi Hk. apply (X i Hi); assumption.
  - intros E i j Hi Hj. apply (X i ltac:(lia)); assumption.
  - intros E i c Hi Hc Hr. destruct (X i Hi) as (_ & _ & Y). destruct (Y E) as (Y1 & _). apply Y1; assumption.
Qed.
(** parts not requested are left as they are (any arithmetic) *)
Theorem C30_restore_flags : forall F (AF : Arith F) pr du dq lmin tmin (qp : oqp F) Dr e r o w, let o' := fst (restore_eq_dof pr du dq lmin tmin qp Dr e r (o, w)) in
  (pr = false -> s_ux o' = s_ux o) /\ (dq = false -> s_pi o' = s_pi o) /\ (du = false -> s_lam o' = s_lam o /\ s_t o' = s_t o).
Proof. intros F AF. exact (@restore_flags F AF). Qed.
(** reducing the restored solution gives the solution of the reduced QP back *)
Theorem C30_reduce_sol : forall qp e lmin tmin sr o w r' w', qp_wf qp -> eq_wf qp e -> let D := q_dim qp in let Dr := dim_reduce D e in
  let o' := fst (restore_eq_dof true true true lmin tmin qp Dr e sr (o, w)) in let s := fst (reduce_sol true true true qp Dr e o' (r', w')) in
  (forall i k, (i <= dN D)%nat -> (k < nvt Dr i)%nat -> s_ux s i k = s_ux sr i k) /\
  (forall i j, (i < dN D)%nat -> (j < dnx D (S i))%nat -> s_pi s i j = s_pi sr i j) /\
  (forall i c, (i <= dN D)%nat -> (c < nct Dr i)%nat -> s_lam s i c = s_lam sr i c /\ s_t s i c = s_t sr i c).
Proof.
  cbv zeta. intros qp e lmin tmin sr o w r' w' WF EW. pose proof (C30_restore_copies qp e lmin tmin true true true sr o w WF EW) as X. cbv zeta in X. destruct X as (X1 & X2 & X3). specialize (X1 eq_refl). specialize (X2 eq_refl). specialize (X3 eq_refl). set (o' := fst _) in *. clearbody o'.
  pose proof (reduce_sol_R qp e WF EW true true true o' r' w') as Y. set (s := fst _) in *. clearbody s. split; [|split].
  - intros i p Hi Hp. assert (EV : nvt (dim_reduce (q_dim qp) e) i = vplace qp e i (nvt (q_dim qp) i)).
    { replace (nvt (q_dim qp) i) with (nux qp i + 2 * dns (q_dim qp) i)%nat by (unfold nvt, nux; lia). rewrite (vp_slack qp e i Hi). rewrite <- (nuxr_eq qp e i Hi WF EW). unfold nvt. change (dns (dim_reduce (q_dim qp) e) i) with (dns (q_dim qp) i). lia. }
    rewrite EV in Hp. destruct (rk_surj _ _ _ Hp) as (k & Hk & F & <-). change (rk (fixed qp e i) k) with (vplace qp e i k). destruct (Y i Hi) as (Y1 & _). rewrite (Y1 eq_refl k Hk F), (X1 i k Hi Hk). unfold lift. rewrite F. reflexivity.
  - intros i j Hi Hj. destruct (Y i ltac:(lia)) as (_ & Y2 & _). rewrite (Y2 eq_refl Hi j Hj). apply X2; assumption.
  - intros i p Hi Hp. assert (EC : nct (dim_reduce (q_dim qp) e) i = cplace qp e i (nct (q_dim qp) i)).
    { pose proof (cp_rest qp e i Hi EW (dng (q_dim qp) i + 2 * dns (q_dim qp) i)) as Q. unfold nct. change (dng (dim_reduce (q_dim qp) e) i) with (dng (q_dim qp) i). change (dns (dim_reduce (q_dim qp) e) i) with (dns (q_dim qp) i).
      replace (2 * dnb (q_dim qp) i + 2 * dng (q_dim qp) i + 2 * dns (q_dim qp) i)%nat with (2 * dnb (q_dim qp) i + dng (q_dim qp) i + (dng (q_dim qp) i + 2 * dns (q_dim qp) i))%nat by lia. rewrite Q. lia. }
    rewrite EC in Hp. destruct (rk_surj _ _ _ Hp) as (c & Hc & Hr & <-). change (rk (removedc qp e i) c) with (cplace qp e i c). destruct (Y i Hi) as (_ & _ & Y3). destruct (Y3 eq_refl c Hc Hr) as (-> & ->). apply X3; assumption.
Qed.
(** no multiplier on a constraint that is masked out (and masks 0 or 1): the interior point solver ensures it *)
Definition olam_masked (q : oqp R) (lam : nat -> nat -> R) : Prop := forall i c, (i <= dN (q_dim q))%nat -> (c < nct (q_dim q) i)%nat -> (q_mask q i c = 0 /\ lam i c = 0) \/ q_mask q i c = 1.
(** *** KKT residuals of the restored solution: those of the reduced solution at the same place; +-lam_min at the fixed variables, t_min at the
    removed bounds (lam_min, t_min: arguments, by default 1e-16) *)
Theorem C30_restore_residuals_partial : forall al qp e r0 w lmin tmin sr o w2, red_pre qp e r0 -> eq_bounds qp e -> eq_imposed qp e ->
  let r := fst (reduce_eq_dof al qp e (r0, w)) in olam_masked r (s_lam sr) ->
  let s := fst (restore_eq_dof true true true lmin tmin qp (q_dim r) e sr (o, w2)) in let D := q_dim qp in
  (forall i k, (i <= dN D)%nat -> (k < nvt D i)%nat -> fixed qp e i k = false -> kkt_g qp (s_ux s) (s_pi s) (s_lam s) i k = kkt_g r (s_ux sr) (s_pi sr) (s_lam sr) i (vplace qp e i k)) /\
  (forall i k, (i <= dN D)%nat -> fixed qp e i k = true -> kkt_g qp (s_ux s) (s_pi s) (s_lam s) i k = lmin \/ kkt_g qp (s_ux s) (s_pi s) (s_lam s) i k = - lmin) /\
  (forall i j, (i < dN D)%nat -> (j < dnx D (S i))%nat -> dyn qp (s_ux s) i j = dyn r (s_ux sr) i j) /\
  (forall i c, (i <= dN D)%nat -> (c < nct D i)%nat -> removedc qp e i c = false ->
     kkt_d qp (s_ux s) (s_t s) i c = kkt_d r (s_ux sr) (s_t sr) i (cplace qp e i c) /\ kkt_m qp (s_lam s) (s_t s) i c = kkt_m r (s_lam sr) (s_t sr) i (cplace qp e i c)) /\
  (forall i c, (i <= dN D)%nat -> (c < nct D i)%nat -> removedc qp e i c = true ->
     kkt_d qp (s_ux s) (s_t s) i c = tmin /\ kkt_m qp (s_lam s) (s_t s) i c = s_lam s i c * tmin - q_m qp i c /\ s_t s i c = tmin /\ (0 <= lmin -> 0 <= s_lam s i c)).
Proof.
  cbv zeta. intros al qp e r0 w lmin tmin sr o w2 HP HB HI. pose proof (C30_restriction_partial al qp e r0 w HP) as X. cbv zeta in X. pose proof HP as (WF & EW & _ & ED). pose proof (reduce_eq_dof_R qp e WF EW al r0 w ED) as (EDr & _). set (r := fst _) in *. clearbody r. destruct X as (RR & _). intros HM. rewrite EDr.
  pose proof (C30_restore_copies qp e lmin tmin true true true sr o w2 WF EW) as C. cbv zeta in C. destruct C as (C1 & C2 & _). specialize (C1 eq_refl). specialize (C2 eq_refl).
  assert (C3 : forall i, (i <= dN (q_dim qp))%nat -> let s := fst (restore_eq_dof true true true lmin tmin qp (dim_reduce (q_dim qp) e) e sr (o, w2)) in rest_ineq qp e i lmin tmin sr (s_ux s) (s_pi sr) (s_lam s) (s_t s)).
  { intros i Hi. cbv zeta. pose proof (restore_R qp e WF EW true true true lmin tmin sr o w2) as Y. cbv zeta in Y. apply (Y i Hi). reflexivity. }
  cbv zeta in C3. set (s := fst _) in *. clearbody s.
  assert (LM : forall i c, (i <= dN (q_dim qp))%nat -> (c < nct (q_dim r) i)%nat -> (q_mask r i c = 0 /\ s_lam sr i c = 0) \/ q_mask r i c = 1) by (intros i c Hi Hc; apply HM; [rewrite EDr; exact Hi|exact Hc]).
  split; [|split; [|split; [|split]]].
  - intros i k Hi Hk F. eapply (kkt_g_free_r qp e WF EW r RR lmin tmin sr s); eassumption.
  - intros i k Hi F. eapply (kkt_g_fixed qp e EW r RR HI lmin tmin sr s); eassumption.
  - intros i j Hi Hj. eapply (dyn_rest qp e WF EW r RR sr s); eassumption.
  - intros i c Hi Hc Hr. eapply (kkt_d_kept qp e WF EW r RR lmin tmin sr s); eassumption.
  - intros i c Hi Hc Hr. eapply (kkt_d_removed qp e WF EW HB HI lmin tmin sr s); eassumption.
Qed.
(** with lam_min = t_min = 0 and no complementarity target on the removed bounds, a KKT point of the reduced QP is restored to a KKT point;
    a minimiser always to a minimiser *)
Theorem C30_restore_kkt_partial : forall al qp e r0 w sr o w2, red_pre qp e r0 -> eq_bounds qp e -> eq_imposed qp e ->
  (forall i c, (i <= dN (q_dim qp))%nat -> (c < nct (q_dim qp) i)%nat -> removedc qp e i c = true -> q_m qp i c = 0) ->
  let r := fst (reduce_eq_dof al qp e (r0, w)) in olam_masked r (s_lam sr) -> ocp_kkt_point r sr -> ocp_kkt_point qp (fst (restore_eq_dof true true true 0 0 qp (q_dim r) e sr (o, w2))).
Proof.
  cbv zeta. intros al qp e r0 w sr o w2 HP HB HI Hm. pose proof (C30_restore_residuals_partial al qp e r0 w 0 0 sr o w2 HP HB HI) as X. cbv zeta in X. pose proof (C30_restriction_partial al qp e r0 w HP) as Y. cbv zeta in Y. pose proof HP as (WF & EW & _ & ED). pose proof (reduce_eq_dof_R qp e WF EW al r0 w ED) as (EDr & _). set (r := fst (reduce_eq_dof _ _ _ _)) in *. clearbody r. destruct Y as (RR & _). intros HM (K1 & K2 & K3). specialize (X HM). destruct X as (X1 & X2 & X3 & X4 & X5).
  pose proof (C30_restore_copies qp e 0 0 true true true sr o w2 WF EW) as C. cbv zeta in C. destruct C as (_ & _ & C3). specialize (C3 eq_refl). rewrite EDr in *. set (s := fst (restore_eq_dof _ _ _ _ _ _ _ _ _ _)) in *. clearbody s. destruct RR as (_ & A & _). rewrite EDr in A. split; [|split].
  - intros i k Hi Hk. destruct (fixed qp e i k) eqn:F.
    + destruct (X2 i k Hi F) as [->| ->]; lra.
    + rewrite X1 by assumption. apply K1; [exact Hi|]. destruct (A i Hi) as (_ & _ & -> & _). apply rk_lt; assumption.
  - intros i j Hi Hj. rewrite X3 by assumption. apply K2; [exact Hi|]. destruct (A (S i) ltac:(lia)) as (_ & _ & _ & _ & ->); [exact Hj|lia].
  - intros i c Hi Hc. destruct (removedc qp e i c) eqn:Rc.
    + destruct (X5 i c Hi Hc Rc) as (-> & -> & -> & L). rewrite (Hm i c Hi Hc Rc). split; [reflexivity|]. split; [ring|]. split; [apply L|]; lra.
    + destruct (X4 i c Hi Hc Rc) as (-> & ->). destruct (C3 i c Hi Hc Rc) as (-> & ->). apply K3; [exact Hi|]. destruct (A i Hi) as (_ & _ & _ & -> & _). apply rk_lt; assumption.
Qed.
Theorem C30_restore_optimal_partial : forall al qp e r0 w sr o w2 lmin tmin du dq, red_pre qp e r0 -> eq_bounds qp e -> eq_imposed qp e ->
  let r := fst (reduce_eq_dof al qp e (r0, w)) in ocp_optimal r (s_ux sr) -> ocp_optimal qp (s_ux (fst (restore_eq_dof true du dq lmin tmin qp (q_dim r) e sr (o, w2)))).
Proof.
  cbv zeta. intros al qp e r0 w sr o w2 lmin tmin du dq HP HB HI HO. apply (C30_equivalent_partial al qp e r0 w HP HB HI) in HO. pose proof HP as (WF & EW & _ & ED). pose proof (reduce_eq_dof_R qp e WF EW al r0 w ED) as (EDr & _). rewrite EDr.
  pose proof (C30_restore_copies qp e lmin tmin true du dq sr o w2 WF EW) as C. cbv zeta in C. destruct C as (S & _). specialize (S eq_refl). set (s := fst _) in *. clearbody s. destruct HO as ((Z1 & Z2) & O2). split; [split|].
  - intros i j Hi Hj. rewrite <- (Z1 i j Hi Hj). unfold dyn. rewrite (S (Datatypes.S i)) by (try lia; unfold nvt; lia). f_equal. f_equal. apply rsum_ext. intros k Hk. unfold nux in Hk. rewrite (S i k) by (try lia; unfold nvt; lia). reflexivity.
  - intros i c Hi Hc Hm. rewrite (same_con qp _ _ i c S Hi). apply Z2; assumption.
  - intros y Hy. rewrite (same_cost qp _ _ S). apply O2. exact Hy.
Qed.

(** *** the hypotheses are met: two stages, one input, two fixed initial states, a bound on the input, a softened general constraint *)
Definition rx_dims : dims := mkdims 1 (fun i => if (i =? 0)%nat then 2%nat else 1%nat) (fun i => if (i =? 0)%nat then 1%nat else 0%nat) (fun i => if (i =? 0)%nat then 3%nat else 1%nat) (fun _ => 1%nat) (fun i => if (i =? 0)%nat then 1%nat else 0%nat).
Definition rx_qp : oqp R := mkqp rx_dims (fun _ r _ => INR r + 1) (fun _ r c => if (r =? c)%nat then 2 else 1) (fun _ _ _ => 3) (fun _ _ => 1) (fun _ _ => 1)
  (fun i c => if (i =? 0)%nat then (if (c =? 1)%nat then 5 else if (c =? 2)%nat then 7 else if (c =? 5)%nat then -5 else if (c =? 6)%nat then -7 else -10) else -10)
  (fun _ _ => 1) (fun _ _ => 0) (fun _ _ => 1) (fun _ j => j) (fun i j => if ((i =? 0) && (j =? 3))%nat%bool then 0%Z else (-1)%Z).
Definition rx_eq : eqd := mkeqd (fun i => if (i =? 0)%nat then 1%nat else 0%nat) (fun i => if (i =? 0)%nat then 2%nat else 1%nat) (fun _ => 0%nat) (fun i => if (i =? 0)%nat then 2%nat else 0%nat) (fun _ q => S q).
Definition rx_r0 : oqp R := mkqp (dim_reduce rx_dims rx_eq) (fun _ _ _ => 9) (fun _ _ _ => 9) (fun _ _ _ => 9) (fun _ _ => 9) (fun _ _ => 9) (fun _ _ => 9) (fun _ _ => 9) (fun _ _ => 9) (fun _ _ => 9) (fun _ _ => 0%nat) (fun _ _ => 0%Z).
Example ex_red_pre : red_pre rx_qp rx_eq rx_r0 /\ eq_bounds rx_qp rx_eq /\ eq_imposed rx_qp rx_eq /\
  (forall i k, fixed rx_qp rx_eq i k = true <-> (i = 0 /\ (k = 1 \/ k = 2))%nat) /\ fixval rx_qp rx_eq 0 1 = 5 /\ fixval rx_qp rx_eq 0 2 = 7 /\ vplace rx_qp rx_eq 0 3 = 1%nat.
Proof.
  assert (W : qp_wf rx_qp).
  { intros i Hi. assert (E : i = 0%nat \/ i = 1%nat) by (cbn in Hi; lia). destruct E as [-> | ->]; split; cbn; intros j Hj; try lia.
    - do 4 (destruct j as [|j]; [cbn; lia|]). lia. }
  assert (Rm : forall i j, removed rx_eq i j = true <-> (i = 0 /\ (j = 1 \/ j = 2))%nat).
  { intros i j. destruct i as [|i]; [|cbn; split; [discriminate|lia]]. do 3 (destruct j as [|j]; [cbn; split; (discriminate || lia || reflexivity || auto)|]). cbn. split; [discriminate|lia]. }
  assert (EW : eq_wf rx_qp rx_eq).
  { intros i Hi. assert (E : i = 0%nat \/ i = 1%nat) by (cbn in Hi; lia). destruct E as [-> | ->].
    - split; [reflexivity|]. split; [cbn; lia|]. split; [cbn; lia|]. split; [|split; [cbn; lia|split; [|split]]].
      + cbn. intros q Hq. destruct q as [|[|q]]; [split; [lia|reflexivity]|split; [lia|reflexivity]|lia].
      + cbn. intros q Hq. lia.
      + cbn. intros q q' _ _ E. lia.
      + cbn. intros j Hj. do 3 (destruct j as [|j]; [cbn; (discriminate || reflexivity)|]). lia.
    - split; [reflexivity|]. split; [cbn; lia|]. split; [cbn; lia|]. split; [cbn; lia|]. split; [cbn; lia|]. split; [cbn; lia|]. split; [cbn; lia|]. intros j _ _. apply (none_fx rx_qp rx_eq 1 eq_refl). }
  split; [|split; [|split; [|split; [|split; [|split]]]]].
  - split; [exact W|]. split; [exact EW|]. split; [|reflexivity]. apply C30_initial_state; try assumption; [intros; reflexivity|]. cbn. intros j Hj Hr. do 3 (destruct j as [|j]; [cbn in *; (discriminate || lia)|]). lia.
  - intros i j Hi Hj Hr. apply Rm in Hr. destruct Hr as (-> & [->| ->]); cbn; lra.
  - intros i c _ _ _. reflexivity.
  - intros i k. destruct i as [|i]; [|rewrite (none_fx rx_qp rx_eq (S i) eq_refl); split; [discriminate|lia]]. do 3 (destruct k as [|k]; [cbn; split; (discriminate || lia || reflexivity || auto)|]). cbn. split; [discriminate|lia].
  - cbn. lra.
  - cbn. lra.
  - reflexivity.
Qed.

Example ex_red_masked : forall al w lam, olam_masked (fst (reduce_eq_dof al rx_qp rx_eq (rx_r0, w))) lam.
Proof.
  intros al w lam. destruct ex_red_pre as (HP & _). pose proof (C30_restriction_partial al rx_qp rx_eq rx_r0 w HP) as X. cbv zeta in X. set (r := fst _) in *. clearbody r. destruct X as ((EN & A & _ & _ & B) & _). intros i p Hi Hp. rewrite EN in Hi. right. destruct (A i Hi) as (_ & _ & _ & A4 & _). rewrite A4 in Hp. destruct (rk_surj _ _ _ Hp) as (c & Hc & Hr & <-). destruct (B i c Hi Hc Hr) as (_ & _ & E & _). exact E.
Qed.

(** *** without [bounds_first] the property fails: x0 = (a, b, c), a fixed to 0, 0 <= b <= 1, c free.  The reduced QP has variables (b, c) and its
    bound carries the old index 1, so it acts on c: b = 5 is accepted *)
Definition rf_dims : dims := mkdims 0 (fun _ => 3%nat) (fun _ => 0%nat) (fun _ => 2%nat) (fun _ => 0%nat) (fun _ => 0%nat).
Definition rf_qp : oqp R := mkqp rf_dims (fun _ _ _ => 0) (fun _ r c => if (r =? c)%nat then 1 else 0) (fun _ _ _ => 0) (fun _ _ => 0) (fun _ _ => 0)
  (fun _ c => if (c =? 3)%nat then -1 else 0) (fun _ _ => 1) (fun _ _ => 0) (fun _ _ => 0) (fun _ j => j) (fun _ _ => (-1)%Z).
Definition rf_eq : eqd := mkeqd (fun _ => 0%nat) (fun _ => 2%nat) (fun _ => 0%nat) (fun _ => 1%nat) (fun _ q => q).
Definition rf_r0 : oqp R := mkqp (dim_reduce rf_dims rf_eq) (fun _ _ _ => 0) (fun _ _ _ => 0) (fun _ _ _ => 0) (fun _ _ => 0) (fun _ _ => 0) (fun _ _ => 0) (fun _ _ => 0) (fun _ _ => 0) (fun _ _ => 0) (fun _ _ => 0%nat) (fun _ _ => 0%Z).
Definition rf_w0 : rwork (F := R) := mkrw (fun _ => 0) (fun _ => 0) (fun _ => 0) (fun _ => false) (fun _ => false).
Definition rf_r : oqp R := fst (reduce_eq_dof false rf_qp rf_eq (rf_r0, rf_w0)).
Definition rf_y : nat -> nat -> R := fun _ k => if (k =? 0)%nat then 5 else 0.
Theorem C30_bound_moved_refuted : qp_wf rf_qp /\ eq_wf rf_qp rf_eq /\ q_dim rf_r0 = dim_reduce (q_dim rf_qp) rf_eq /\ eq_bounds rf_qp rf_eq /\ eq_imposed rf_qp rf_eq /\
  feasible rf_r rf_y /\ ~ feasible rf_qp (lift rf_qp rf_eq rf_y) /\ lift rf_qp rf_eq rf_y 0%nat 1%nat = 5.
Proof.
  assert (N0 : forall i, (i <= 0)%nat -> i = 0%nat) by (intros; lia).
  split; [|split; [|split; [|split; [|split; [|split; [|split]]]]]].
  - intros i Hi. split; cbn; intros j Hj; [lia|left; reflexivity].
  - intros i Hi. cbn in Hi. apply N0 in Hi. subst i. cbn. repeat split; try lia; try (intros; lia); try reflexivity. intros [|[|j]] Hj; cbn; (discriminate || reflexivity || lia).
  - reflexivity.
  - intros i j Hi Hj Hr. cbn in Hi. apply N0 in Hi. subst i. cbn in Hj. destruct j as [|[|j]]; [cbn; lra|cbn in Hr; discriminate|lia].
  - intros i c _ _ _. reflexivity.
  - split.
    + intros i j Hi. exfalso. change (dN (q_dim rf_r)) with 0%nat in Hi. lia.
    + intros i c Hi Hc _. change (dN (q_dim rf_r)) with 0%nat in Hi. apply N0 in Hi. subst i. assert (E : nct (q_dim rf_r) 0 = 2%nat) by (vm_compute; reflexivity). rewrite E in Hc. destruct c as [|[|c]]; [| |lia]; cbv -[Rplus Rmult Rminus Ropp IZR Rinv Rdiv Rge]; lra.
  - intros (_ & F). pose proof (F 0%nat 3%nat ltac:(cbn; lia) ltac:(cbn; lia) ltac:(cbn; lra)) as X. revert X. cbv -[Rplus Rmult Rminus Ropp IZR Rinv Rdiv Rge]. lra.
  - reflexivity.
Qed.
Print Assumptions C30_restriction_partial.
Print Assumptions C30_lhs_rhs_partial.
Print Assumptions C30_equivalent_partial.
Print Assumptions C30_initial_state.
Print Assumptions C30_restore_copies.
Print Assumptions C30_restore_flags.
Print Assumptions C30_reduce_sol.
Print Assumptions C30_restore_residuals_partial.
Print Assumptions C30_restore_kkt_partial.
Print Assumptions C30_restore_optimal_partial.
Print Assumptions C30_bound_moved_refuted.
