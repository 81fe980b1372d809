(** SensProps.v -- C46: solution sensitivities (forward, adjoint) and prediction with a stored factorisation.
    Specification: ResSpec.v (the QP), NewtonUniq.v (newton_solution), SensSpec.v.  Exact arithmetic unless said otherwise. *)
From Coq Require Import ZArith Bool Arith Lia Reals Lra List String.
From Coq Require Import Floats.SpecFloat.
From Verif Require Import Base ArithF RSum Blas AuxModel AuxProofs NamesAux CoreModel CoreProofs OcpModel ResSpec KktSpec ResProofs ResProofs2 ResProps KktModel KktProps QpDataModel.
From Verif Require Import SolveModel NewtonUniq SolveProps SensModel SensSpec SensProofs SensProofs2 SensProofs3.
Import ListNotations.
Local Open Scope R_scope.

(** C46: the forward sensitivity call returns the solution of the KKT system at the saved point with the seeds as right-hand side,
    whatever the previous contents of the output struct and however often the factorisation has been used before. *)
Theorem C46_forward sq a (qp : oqp R) pb bX preg tinv Gam w0 w bkp sd gam0 out :
  qp_wf qp -> (1 <= dN (q_dim qp))%nat -> soft_inj qp -> mask01 qp -> interior a qp -> a_dual a = true ->
  factored sq a qp pb bX preg tinv Gam w0 -> saved_point a (q_dim qp) bkp -> history sq a qp pb bX tinv Gam bkp w0 w -> masked_zero qp (sd_m sd) ->
  newton_solution a (seed_qp qp sd) preg (fst (sens_frw sq a qp sd bkp tinv Gam gam0 out w)).
Proof. intros. eapply frw_R; eassumption. Qed.

(** C46: ... and for a strictly convex QP it is the derivative of the solution of the relaxed KKT conditions with respect to the data:
    along any differentiable curve of data with a differentiable curve of relaxed solutions through the saved point, seeds = derivatives of the
    data (seed_m = minus the derivative of the relaxation). *)
Theorem C46_forward_is_derivative sq a (qp : oqp R) pb bX tinv Gam w0 w bkp sd gam0 out c l eps :
  qp_wf qp -> (1 <= dN (q_dim qp))%nat -> soft_inj qp -> masks_one (q_dim qp) (q_mask qp) -> ipm_convex a qp -> a_tlm a <> 1%Z -> a_reg a = 0 -> a_dual a = true ->
  factored sq a qp pb bX 0 tinv Gam w0 -> saved_point a (q_dim qp) bkp -> history sq a qp pb bX tinv Gam bkp w0 w ->
  0 < eps ->
  (forall h, Rabs h < eps -> relaxed_kkt (with_rhs qp (c_g c h) (c_b c h) (c_d c h) (c_m c h)) (mksol (c_ux c h) (c_pi c h) (c_lam c h) (c_t c h))) ->
  (forall i k, (i <= dN (q_dim qp))%nat -> (k < nct (q_dim qp) i)%nat -> c_lam c 0 i k = a_lam a i k /\ c_t c 0 i k = a_t a i k) ->
  data_derivative (q_dim qp) c sd -> curve_derivative (q_dim qp) c l ->
  curve_derivative (q_dim qp) c (fst (sens_frw sq a qp sd bkp tinv Gam gam0 out w)).
Proof.
  intros Hwf HN Hinj Hm Hc Hcl Hr Hd Hf Hb Hh He Hsol Hpt Hdat Hder.
  assert (Hm1 : mask01 qp) by (intros i k Hi Hk; right; apply Hm; assumption).
  assert (Hno : forall m, masked_zero qp m) by (intros m i k Hi Hk E; rewrite (Hm i k Hi Hk) in E; lra).
  assert (Hip : interior a qp). { apply cx_point; [|exact Hm|exact Hcl]. split; [exact (ic_t _ _ Hc)|exact (ic_Z _ _ Hc)|exact (ic_slack _ _ Hc)|exact (ic_H _ _ Hc)]. }
  pose proof (frw_R sq a qp Hwf HN Hinj Hm1 Hip Hd pb bX 0 tinv Gam w0 bkp Hf Hb w sd gam0 out Hh (Hno _)) as H1. set (s := fst _) in *. clearbody s.
  pose proof (deriv_newton a qp c l sd eps Hr He Hsol Hpt Hdat Hder) as H2. rewrite <- Hr in H1, H2.
  assert (Hc' : ipm_convex a (seed_qp qp sd)) by (split; [exact (ic_t _ _ Hc)|exact (ic_Z _ _ Hc)|exact (ic_slack _ _ Hc)|exact (ic_H _ _ Hc)]).
  destruct (C27_newton_unique a (seed_qp qp sd) s l Hc' Hm1) as (E1 & E2 & E3 & E4); [|exact H1|exact H2|].
  { intros i k Hi Hk E. cbn [q_mask seed_qp with_rhs q_dim] in *. rewrite (Hm i k Hi Hk) in E. lra. }
  cbn [q_dim seed_qp with_rhs] in *. destruct Hder as (Du & Dp & Dl & Dt). split; [|split; [|split]]; intros i k Hi Hk.
  - rewrite E1 by assumption. apply Du; assumption.
  - rewrite E2 by assumption. apply Dp; assumption.
  - rewrite E3 by assumption. apply Dl; assumption.
  - rewrite E4 by assumption. apply Dt; assumption.
Qed.

(** C46: the adjoint call is the transpose of the forward call: c . forward(r) = r . adjoint(c), for all seeds and any state of outputs. *)
Theorem C46_adjoint sq a (qp : oqp R) pb bX preg tinv Gam w0 w1 w2 bkp r c gam1 gam2 tmp out1 out2 :
  qp_wf qp -> (1 <= dN (q_dim qp))%nat -> soft_inj qp -> mask01 qp -> interior a qp -> a_dual a = true ->
  factored sq a qp pb bX preg tinv Gam w0 -> saved_point a (q_dim qp) bkp ->
  history sq a qp pb bX tinv Gam bkp w0 w1 -> history sq a qp pb bX tinv Gam bkp w0 w2 -> masked_zero qp (sd_m r) -> masked_zero qp (sd_m c) ->
  seed_dot (q_dim qp) c (fst (sens_frw sq a qp r bkp tinv Gam gam1 out1 w1)) = seed_dot (q_dim qp) r (fst (fst (fst (sens_adj sq a qp c bkp tinv Gam gam2 tmp out2 w2)))).
Proof.
  intros Hwf HN Hinj Hm Hip Hd Hf Hb Hh1 Hh2 Hr Hc.
  pose proof (frw_R sq a qp Hwf HN Hinj Hm Hip Hd pb bX preg tinv Gam w0 bkp Hf Hb w1 r gam1 out1 Hh1 Hr) as H1.
  destruct (adj_R sq a qp Hwf HN Hinj Hm Hip Hd pb bX preg tinv Gam w0 bkp Hf Hb w2 c gam2 tmp out2 Hh2 Hc) as (s0 & H2 & E1 & E2 & E3 & E4).
  set (sf := fst (sens_frw _ _ _ _ _ _ _ _ _ _)) in *. set (sa := fst (fst (fst _))) in *. clearbody sf sa.
  unfold seed_dot. rewrite E1, E2, E3.
  replace (pair2 (dN (q_dim qp) + 1) (nct (q_dim qp)) (sd_m r) (s_t sa)) with (pair2 (dN (q_dim qp) + 1) (nct (q_dim qp)) (sd_m r) (fun i k => s_t s0 i k / a_t a i k)).
  2:{ unfold pair2. apply rsum_ext. intros i Hi. apply rsum_ext. intros k Hk. rewrite E4 by (try lia; assumption). reflexivity. }
  apply (dual_identity a qp preg r c sf s0 Hm); [exact (ip_t _ _ Hip)| |exact H1|exact H2].
  intros i k Hi Hk E. destruct (ip_mask _ _ Hip i k Hi Hk E) as (A & _). split; [exact A|]. split; [apply Hr|apply Hc]; assumption.
Qed.
(** C46: hence one adjoint call gives the derivative of any linear functional c of the solution with respect to all data at once. *)
Theorem C46_adjoint_is_gradient sq a (qp : oqp R) pb bX tinv Gam w0 w bkp sd f gam0 tmp out c l eps :
  qp_wf qp -> (1 <= dN (q_dim qp))%nat -> soft_inj qp -> masks_one (q_dim qp) (q_mask qp) -> ipm_convex a qp -> a_tlm a <> 1%Z -> a_reg a = 0 -> a_dual a = true ->
  factored sq a qp pb bX 0 tinv Gam w0 -> saved_point a (q_dim qp) bkp -> history sq a qp pb bX tinv Gam bkp w0 w ->
  0 < eps ->
  (forall h, Rabs h < eps -> relaxed_kkt (with_rhs qp (c_g c h) (c_b c h) (c_d c h) (c_m c h)) (mksol (c_ux c h) (c_pi c h) (c_lam c h) (c_t c h))) ->
  (forall i k, (i <= dN (q_dim qp))%nat -> (k < nct (q_dim qp) i)%nat -> c_lam c 0 i k = a_lam a i k /\ c_t c 0 i k = a_t a i k) ->
  data_derivative (q_dim qp) c sd -> curve_derivative (q_dim qp) c l ->
  derivable_pt_lim (fun h => seed_dot (q_dim qp) f (mksol (c_ux c h) (c_pi c h) (c_lam c h) (c_t c h))) 0
    (seed_dot (q_dim qp) sd (fst (fst (fst (sens_adj sq a qp f bkp tinv Gam gam0 tmp out w))))).
Proof.
  intros Hwf HN Hinj Hm Hc Hcl Hr Hd Hf Hb Hh He Hsol Hpt Hdat Hder.
  assert (Hm1 : mask01 qp) by (intros i k Hi Hk; right; apply Hm; assumption).
  assert (Hno : forall m, masked_zero qp m) by (intros m i k Hi Hk E; rewrite (Hm i k Hi Hk) in E; lra).
  assert (Hip : interior a qp). { apply cx_point; [|exact Hm|exact Hcl]. split; [exact (ic_t _ _ Hc)|exact (ic_Z _ _ Hc)|exact (ic_slack _ _ Hc)|exact (ic_H _ _ Hc)]. }
  rewrite <- (C46_adjoint sq a qp pb bX 0 tinv Gam w0 w w bkp sd f gam0 gam0 tmp out out); try assumption; [|apply Hno|apply Hno].
  destruct (C46_forward_is_derivative sq a qp pb bX tinv Gam w0 w bkp sd gam0 out c l eps) as (Du & Dp & Dl & Dt); try assumption.
  set (s := fst _) in *. clearbody s. unfold seed_dot, pair2. cbn [s_ux s_pi s_lam s_t].
  repeat match goal with |- derivable_pt_lim (fun h => ?A + ?B) _ (?x + ?y) => apply (derivable_pt_lim_plus (fun h => A) (fun h => B)) end;
    match goal with |- derivable_pt_lim (fun h => rsum ?n (@?F h)) _ _ => apply (dlim_rsum n (fun k h => F h k)) end; intros i Hi.
  - apply (dlim_lin (nvt (q_dim qp) i) (sd_g f i) (fun h k => c_ux c h i k)). intros k Hk. apply Du; [lia|exact Hk].
  - apply (dlim_lin (dnx (q_dim qp) (S i)) (sd_b f i) (fun h k => c_pi c h i k)). intros k Hk. apply Dp; assumption.
  - apply (dlim_lin (nct (q_dim qp) i) (sd_d f i) (fun h k => c_lam c h i k)). intros k Hk. apply Dl; [lia|exact Hk].
  - apply (dlim_lin (nct (q_dim qp) i) (sd_m f i) (fun h k => c_t c h i k)). intros k Hk. apply Dt; [lia|exact Hk].
Qed.
(** C46: the adjoint call scales seed_m in place during the solve and puts it back: the seed is unchanged, bit for bit, in any arithmetic. *)
Theorem C46_adjoint_keeps_seed {F} {AF : Arith F} sq a (qp : oqp F) sd bkp tinv Gam gam0 tmp out w :
  let sd' := snd (fst (sens_adj sq a qp sd bkp tinv Gam gam0 tmp out w)) in
  (forall i k, sd_g sd' i k = sd_g sd i k) /\ (forall i k, sd_b sd' i k = sd_b sd i k) /\ (forall i k, sd_d sd' i k = sd_d sd i k) /\ (forall i k, sd_m sd' i k = sd_m sd i k).
Proof. cbv zeta. destruct (adj_seed sq a qp sd bkp tinv Gam gam0 tmp out w) as (A & B & C & E). rewrite A, B, C. auto. Qed.

(** C46: the backup used by these calls is the iterate before the last step (the point of the last factorisation), whether or not the step
    was damped or clipped. *)
Theorem C46_backup_is_previous_iterate D tlm lam_min t_min ap ad (step x bkp : osol R) :
  let bkp' := snd (ocp_update D tlm lam_min t_min ap ad step x bkp) in
  same_step D bkp' x.
Proof. cbv zeta. destruct (update_bkp D tlm lam_min t_min ap ad step x bkp) as (A & B & C & E). split; [|split; [|split]]; intros; auto. Qed.

(** C46: seeds set through the API are the derivatives of the stored problem data: run any list of data setters with values x + h v, and with
    values x; the stored gradients, offsets and constraint vectors differ by h times the seed object filled by the same list of seed setters with values v. *)
Definition run_data (D : xdim) (h : R) (l : list (sfield * nat * (nat -> R) * (nat -> R))) (p : qpd R) : qpd R :=
  fold_left (fun p '(f, s, x, v) => set_r D (data_field f) s (fun k => x k + h * v k) p) l p.
Definition run_seed (D : xdim) (l : list (sfield * nat * (nat -> R) * (nat -> R))) (sd : seed R) : seed R :=
  fold_left (fun sd '(f, s, x, v) => seed_set_f D f s v sd) l sd.
Theorem C46_seed_is_data_derivative (D : xdim) l (p : qpd R) h i k :
  let p1 := run_data D h l p in let p0 := run_data D 0 l p in let sd := run_seed D l seed_create in
  p_rqz p1 i k - p_rqz p0 i k = h * sd_g sd i k /\ p_b p1 i k - p_b p0 i k = h * sd_b sd i k /\ p_d p1 i k - p_d p0 i k = h * sd_d sd i k /\ sd_m sd i k = 0.
Proof.
  cbv zeta.
  assert (H : diff_by h (run_data D h l p) (run_data D 0 l p) (run_seed D l seed_create)).
  { unfold run_data, run_seed.
    assert (H0 : diff_by h p p seed_create) by (intros i' k'; cbn [seed_create sd_g sd_b sd_d sd_m]; rsimp; rewrite ?R_lit01; repeat split; ring).
    revert H0. generalize p at 1 3 as p1. generalize p as p0. generalize (@seed_create R _) as sd. induction l as [|[[[f s] x] v] l IH]; intros sd p0 p1 H; [exact H|]. cbn [fold_left].
    apply IH. assert (E : set_r D (data_field f) s (fun k => x k + 0 * v k) p0 = set_r D (data_field f) s x p0 \/ True) by (right; exact I). clear E.
    pose proof (seed_step D f s (fun k => x k + 0 * v k) v h p1 p0 sd H) as S.
    intros i' k'. destruct (S i' k') as (S1 & S2 & S3 & S4).
    assert (X : forall q : qpd R, forall i k, p_rqz (set_r D (data_field f) s (fun k => x k + 0 * v k + h * v k) q) i k = p_rqz (set_r D (data_field f) s (fun k => x k + h * v k) q) i k /\
       p_b (set_r D (data_field f) s (fun k => x k + 0 * v k + h * v k) q) i k = p_b (set_r D (data_field f) s (fun k => x k + h * v k) q) i k /\
       p_d (set_r D (data_field f) s (fun k => x k + 0 * v k + h * v k) q) i k = p_d (set_r D (data_field f) s (fun k => x k + h * v k) q) i k).
    { intros q i'' k''. destruct f; cbn [data_field set_r w_rqz w_b w_d w_RSQ w_BAbt p_rqz p_b p_d]; (split; [|split]); try reflexivity; unfold upd; destruct (Nat.eqb i'' s); try reflexivity; unfold VECSC, PACK_VEC, vset; rsimp;
      repeat match goal with |- context [if ?b then _ else _] => destruct b end; ring. }
    destruct (X p1 i' k') as (X1 & X2 & X3). rewrite <- X1, <- X2, <- X3. repeat split; assumption. }
  destruct (H i k) as (A & B & C & E). rewrite A, B, C. repeat split; try ring. exact E.
Qed.
(** C46: the names accepted by the seed setter *)
Definition seed_names : list (string * sfield) :=
  [("seed_r", Sr); ("seed_q", Sq); ("seed_zl", Szl); ("seed_zu", Szu); ("seed_b", Sb); ("seed_lb", Slb); ("seed_lbu", Slbu); ("seed_lbx", Slbx);
   ("seed_ub", Sub); ("seed_ubu", Subu); ("seed_ubx", Subx); ("seed_lg", Slg); ("seed_ug", Sug); ("seed_ls", Sls); ("seed_us", Sus)]%string%list.
Theorem C46_seed_names {F} {AF : Arith F} (D : xdim) (n : string) f : nonul n = true ->
  (seed_dispatch n = Some f <-> In (n, f) seed_names) /\
  forall s v p, seed_set (F := F) D n s v p = match seed_dispatch n with Some f => Some (seed_set_f D f s v p) | None => None end.
Proof.
  intros Hn. split; [|reflexivity]. rewrite <- (chain_In n seed_names f Hn) by reflexivity. reflexivity.
Qed.

(** C46: SET_ZERO leaves no seed: every entry a sensitivity call reads is 0, whatever was set before *)
Theorem C46_seed_zero {F} {AF : Arith F} (D : xdim) (p : seed F) i k : (i <= xN D)%nat ->
  ((k < xnu D i + xnx D i + 2 * xns D i)%nat -> sd_g (seed_zero D p) i k = f0) /\
  ((i < xN D)%nat -> (k < xnx D (i + 1))%nat -> sd_b (seed_zero D p) i k = f0) /\
  ((k < 2 * xnb D i + 2 * xng D i + 2 * xns D i)%nat -> sd_d (seed_zero D p) i k = f0 /\ sd_m (seed_zero D p) i k = f0).
Proof.
  intros Hi. unfold seed_zero. cbn [sd_g sd_b sd_d sd_m].
  assert (Z : forall N (n : nat -> nat) (g : nat -> nat -> F) i k, (i < N)%nat -> (k < n i)%nat -> loop N (fun ii g => upd g ii (VECSE (n ii) f0 (g ii) 0)) g i k = f0).
  { clear. intros N n g i k Hi Hk. revert i k Hi Hk. induction N as [|N IH]; intros i k Hi Hk; [lia|]. rewrite loop_S. destruct (Nat.eq_dec i N) as [->|Hne].
    - rewrite upd_same. unfold VECSE. change k with (0 + k)%nat at 1. rewrite vset_in by lia. reflexivity.
    - rewrite upd_other by lia. apply IH; [lia|exact Hk]. }
  split; [|split; [|intros Hk; split]]; intros.
  - exact (Z (xN D + 1)%nat (fun i => xnu D i + xnx D i + 2 * xns D i)%nat (sd_g p) i k ltac:(lia) H).
  - exact (Z (xN D) (fun i => xnx D (i + 1)) (sd_b p) i k H H0).
  - exact (Z (xN D + 1)%nat (fun i => 2 * xnb D i + 2 * xng D i + 2 * xns D i)%nat (sd_d p) i k ltac:(lia) Hk).
  - exact (Z (xN D + 1)%nat (fun i => 2 * xnb D i + 2 * xng D i + 2 * xns D i)%nat (sd_m p) i k ltac:(lia) Hk).
Qed.

(** C46, prediction (relative formulation): with step lengths p, q in effect the residuals of the NEW problem at the predicted point are those at the
    saved point times 1-p (dynamics, constraints) and, if p = q, 1-p for stationarity, up to the regularisation. *)
Theorem C46_predict_residuals sq a (qp : oqp R) pb bX preg tinv Gam w0 w bkp g b d m ap ad gam0 res0 rw0 stp out :
  qp_wf qp -> (1 <= dN (q_dim qp))%nat -> soft_inj qp -> mask01 qp -> interior a qp -> a_dual a = true -> a_tlm a <> 2%Z ->
  factored sq a qp pb bX preg tinv Gam w0 -> saved_point a (q_dim qp) bkp -> history sq a qp pb bX tinv Gam bkp w0 w ->
  let new := with_rhs qp g b d m in
  let x := fst (fst (predict sq a new ap ad bkp tinv Gam gam0 res0 rw0 stp out w)) in
  let D := q_dim qp in let p := fst (damped ap ad) in let q := snd (damped ap ad) in
  (forall i j, (i < dN D)%nat -> (j < dnx D (S i))%nat -> dyn new (s_ux x) i j = (1 - p) * dyn new (s_ux bkp) i j) /\
  (forall i c, (i <= dN D)%nat -> (c < nct D i)%nat -> kkt_d new (s_ux x) (s_t x) i c = (1 - p) * kkt_d new (s_ux bkp) (s_t bkp) i c) /\
  (p = q -> a_reg a = 0 -> preg = 0 -> forall i k, (i <= dN D)%nat -> (k < nvt D i)%nat ->
     kkt_g new (s_ux x) (s_pi x) (s_lam x) i k = (1 - p) * kkt_g new (s_ux bkp) (s_pi bkp) (s_lam bkp) i k).
Proof.
  intros Hwf HN Hinj Hm Hip Hd Hcl Hf Hb Hh. cbv zeta. set (new := with_rhs qp g b d m). set (D := q_dim qp). set (p := fst (damped ap ad)). set (q := snd (damped ap ad)).
  unfold predict. change (q_dim new) with D. set (y := load D bkp out).
  destruct (C18_residuals new y None res0 rw0 Hwf I) as (R1 & R2 & R3 & R4). set (r := fst (res_compute None new y res0 rw0)) in *. clearbody r.
  assert (Hmm : masked_zero qp (r_m r)). { intros i c Hi Hc E. rewrite R4 by assumption. unfold kkt_m. cbn [q_mask new with_rhs]. rewrite E. ring. }
  pose proof (one_solve sq a qp Hwf HN Hinj Hm Hip Hd pb bX preg tinv Gam w0 bkp Hf Hb (alias_args a y) w (r_g r) (r_b r) (r_d r) (r_m r) gam0 stp Hh (load_at a qp bkp Hb out) Hmm) as HS.
  change (with_rhs new (r_g r) (r_b r) (r_d r) (r_m r)) with (with_rhs qp (r_g r) (r_b r) (r_d r) (r_m r)).
  destruct (solve_kkt sq false (alias_args a y) (with_rhs qp (r_g r) (r_b r) (r_d r) (r_m r)) tinv Gam gam0 stp w) as [dx w2]. cbn [fst] in HS.
  destruct (update_val D (a_tlm a) (a_lam_min a) (a_t_min a) ap ad dx y bkp Hcl) as (Xu & Xp & Xl & Xt). fold p q in Xu, Xp, Xl, Xt.
  destruct (ocp_update D (a_tlm a) (a_lam_min a) (a_t_min a) ap ad dx y bkp) as [x bk]. cbn [fst] in *.
  assert (Ed : forall i j, (i < dN D)%nat -> (j < dnx D (S i))%nat -> dyn new (s_ux y) i j = dyn new (s_ux bkp) i j).
  { intros i j Hi Hj. unfold dyn. change (q_dim new) with D. unfold y at 2. rewrite load_ux by (unfold nvt; lia). f_equal. f_equal. apply rsum_ext. intros k Hk. unfold y. rewrite load_ux by (unfold nvt, nux in *; cbn in Hk; fold D in Hk; lia). reflexivity. }
  assert (Ec : forall i c, con new (s_ux y) i c = con new (s_ux bkp) i c). { intros i c. unfold con. apply rsum_ext. intros k Hk. unfold y. rewrite load_ux by exact Hk. reflexivity. }
  assert (HS' : newton_solution a (with_rhs new (r_g r) (r_b r) (r_d r) (r_m r)) preg dx) by exact HS.
  split; [|split].
  - intros i j Hi Hj. rewrite (line_dyn a new preg p y x dx r R2 HS' Xu i j Hi Hj), Ed by assumption. reflexivity.
  - intros i c Hi Hc. rewrite (line_con a new preg p y x dx r Hm R3 HS' Xu Xt i c Hi Hc). f_equal. unfold kkt_d. rewrite Ec. unfold y. rewrite load_t by exact Hc. reflexivity.
  - intros Epq Hr Hpr i k Hi Hk. rewrite (line_g a new preg p q y x dx r R1 HS' Xu Xp Xl i k Hi Hk Epq).
    assert (reg_diag new (a_reg a) preg i k = 0) as -> by (unfold reg_diag; rewrite Hr, Hpr; destruct (_ || _)%bool; reflexivity).
    assert (kkt_g new (s_ux y) (s_pi y) (s_lam y) i k = kkt_g new (s_ux bkp) (s_pi bkp) (s_lam bkp) i k) as ->; [|ring].
    unfold kkt_g. change (q_dim new) with D. f_equal; [f_equal; [f_equal; [f_equal|]|]|].
    + apply rsum_ext. intros l Hl. unfold y. rewrite load_ux by exact Hl. reflexivity.
    + destruct (Nat.ltb_spec i (dN D)); cbn [andb]; [|reflexivity]. destruct (k <? nux new i)%nat; [|reflexivity]. apply rsum_ext. intros j Hj. unfold y. rewrite load_pi by (try assumption; rewrite Nat.add_1_r; exact Hj). reflexivity.
    + destruct (Nat.ltb_spec 0 i); cbn [andb]; [|reflexivity]. destruct (Nat.leb_spec (dnu D i) k); cbn [andb]; [|reflexivity]. destruct (Nat.ltb_spec k (nux new i)) as [Hk'|]; [|reflexivity].
      unfold y. rewrite load_pi; [reflexivity|fold D in Hi; lia|]. replace (i - 1 + 1)%nat with i by lia. unfold nux in Hk'. cbn in Hk'. fold D in Hk'. lia.
    + apply rsum_ext. intros c Hc. unfold y. rewrite load_lam by exact Hc. reflexivity.
Qed.
(** C46, prediction with full step lengths in the workspace: the predicted point satisfies stationarity, dynamics and constraints of the new problem. *)
Theorem C46_predict_full_step sq a (qp : oqp R) pb bX tinv Gam w0 w bkp g b d m gam0 res0 rw0 stp out :
  qp_wf qp -> (1 <= dN (q_dim qp))%nat -> soft_inj qp -> mask01 qp -> interior a qp -> a_dual a = true -> a_tlm a <> 2%Z -> a_reg a = 0 ->
  factored sq a qp pb bX 0 tinv Gam w0 -> saved_point a (q_dim qp) bkp -> history sq a qp pb bX tinv Gam bkp w0 w ->
  let new := with_rhs qp g b d m in
  let x := fst (fst (predict sq a new 1 1 bkp tinv Gam gam0 res0 rw0 stp out w)) in
  let D := q_dim qp in
  (forall i j, (i < dN D)%nat -> (j < dnx D (S i))%nat -> dyn new (s_ux x) i j = 0) /\
  (forall i c, (i <= dN D)%nat -> (c < nct D i)%nat -> kkt_d new (s_ux x) (s_t x) i c = 0) /\
  (forall i k, (i <= dN D)%nat -> (k < nvt D i)%nat -> kkt_g new (s_ux x) (s_pi x) (s_lam x) i k = 0).
Proof.
  intros Hwf HN Hinj Hm Hip Hd Hcl Hr Hf Hb Hh. cbv zeta.
  destruct (C46_predict_residuals sq a qp pb bX 0 tinv Gam w0 w bkp g b d m 1 1 gam0 res0 rw0 stp out) as (A & B & C); try assumption.
  assert (E : damped (F := R) 1 1 = (1, 1)). { unfold damped. rsimp. rewrite R_lit11. destruct (Rltb_spec 1 1) as [|_]; [lra|]. destruct (Rltb_spec 1 1) as [|_]; [lra|]. reflexivity. }
  rewrite E in *. cbn [fst snd] in *. split; [|split].
  - intros. rewrite A by assumption. ring.
  - intros. rewrite B by assumption. ring.
  - intros. rewrite C by (try assumption; reflexivity). ring.
Qed.
(** C46, prediction in the absolute formulation (speed_abs mode): the predicted point satisfies stationarity, dynamics and constraints of the new problem
    and the complementarity condition linearised at the saved point, with right-hand side -m. *)
Theorem C46_predict_absolute sq a (qp : oqp R) pb bX tinv Gam w0 w bkp g b d m gam0 out :
  qp_wf qp -> (1 <= dN (q_dim qp))%nat -> soft_inj qp -> mask01 qp -> interior a qp -> a_dual a = true -> a_reg a = 0 ->
  factored sq a qp pb bX 0 tinv Gam w0 -> saved_point a (q_dim qp) bkp -> history sq a qp pb bX tinv Gam bkp w0 w -> masked_zero qp m ->
  let new := with_rhs qp g b d m in
  let x := fst (predict_abs sq a new bkp tinv Gam gam0 out w) in
  let D := q_dim qp in
  (forall i j, (i < dN D)%nat -> (j < dnx D (S i))%nat -> dyn new (s_ux x) i j = 0) /\
  (forall i c, (i <= dN D)%nat -> (c < nct D i)%nat -> kkt_d new (s_ux x) (s_t x) i c = 0) /\
  (forall i k, (i <= dN D)%nat -> (k < nvt D i)%nat -> kkt_g new (s_ux x) (s_pi x) (s_lam x) i k = 0) /\
  (forall i c, (i <= dN D)%nat -> (c < nct D i)%nat -> s_lam bkp i c * s_t x i c + s_t bkp i c * s_lam x i c = - m i c).
Proof.
  intros Hwf HN Hinj Hm Hip Hd Hr Hf Hb Hh Hmm. cbv zeta.
  pose proof (frw_R sq a qp Hwf HN Hinj Hm Hip Hd pb bX 0 tinv Gam w0 bkp Hf Hb w (mkseed g b d m) gam0 out Hh Hmm) as (A & B & C & E).
  change (fst (predict_abs sq a (with_rhs qp g b d m) bkp tinv Gam gam0 out w)) with (fst (sens_frw sq a qp (mkseed g b d m) bkp tinv Gam gam0 out w)).
  change (with_rhs qp g b d m) with (seed_qp qp (mkseed g b d m)). set (x := fst _) in *. clearbody x. split; [|split; [|split]]; intros i k Hi Hk.
  - exact (B i k Hi Hk).
  - specialize (C i k Hi Hk). unfold kkt_d. destruct (Hm i k Hi Hk) as [E0|E0].
    + cbn [q_mask seed_qp with_rhs]. rewrite E0. ring.
    + cbn [q_mask seed_qp with_rhs] in *. rewrite E0. lra.
  - specialize (A i k Hi Hk). unfold reg_diag in A. rewrite Hr in A. destruct (_ || _)%bool in A; lra.
  - specialize (E i k Hi Hk). destruct (Hb i k Hi Hk) as (L & T). cbn [q_m seed_qp with_rhs sd_m] in E. rewrite L, T. lra.
Qed.
(** C46, prediction after a solve: the step lengths in effect are the ones left over from the last iteration, not 1 (line 3351 sets another field):
    binary64 run, x1 = u0 + b, weights 1; saved point optimal for b = 0, new problem b = 1, left-over step lengths 1/2: the predicted trajectory violates
    the dynamics of the new problem by more than 1/2, although one full step would satisfy them exactly. *)
Section Stale.
Let f (z : Z) : spec_float := sf_of_Z z.
Definition stqp (b : Z) : oqp spec_float := mkqp rtD (fun _ _ _ => f 1) (fun _ _ _ => f 1) (fun _ _ _ => f 0) (fun _ _ => f b) (fun _ _ => f 0)
  (fun _ _ => f 0) (fun _ _ => f 1) (fun _ _ => f 0) (fun _ _ => f 0) (fun _ _ => 0%nat) (fun _ _ => (-1)%Z).
Definition st_run (sq : bool) (al : spec_float) : option spec_float :=
  match fact_solve_kkt 0 sq sha (stqp 0) (fun _ => v0) (fun _ => v0) (fun _ => v0) shs0 rtw with
  | None => None
  | Some (_, _, w) =>
      let res0 := mkres (fun _ => v0) (fun _ => v0) (fun _ => v0) (fun _ => v0) (f 0) (f 0) (f 0) (f 0) in
      let x := fst (fst (predict sq sha (stqp 1) al al shs0 (kkt_tinv sha (stqp 0) (fun _ => v0) (fun _ => v0) (fun _ => v0)) (kkt_Gam sha (stqp 0) (fun _ => v0) (fun _ => v0) (fun _ => v0)) (fun _ => v0) res0 (mkrws v0 v0 v0) shs0 shs0 w)) in
      Some (r_b (fst (res_compute None (stqp 1) x res0 (mkrws v0 v0 v0))) 0%nat 0%nat)
  end.
End Stale.
Theorem C46_predict_stale_step_refuted (sq : bool) :
  (exists r, st_run sq (lit 1 2) = Some r /\ SFltb (lit 1 2) r = true) /\ (exists r, st_run sq (lit 1 1) = Some r /\ SFeqb r (lit 0 1) = true).
Proof. destruct sq; (split; eexists; split; vm_compute; reflexivity). Qed.

(** ** The hypotheses are met. *)
(** a curve of data and relaxed solutions through the point of the concrete case of KktProps.v: points moving on a straight line, data defined by the KKT equations *)
Definition exc : curve :=
  let ux h (i k : nat) := 1 + h * INR (i + k) in let pi (h : R) (i k : nat) := 2 - h in let lam h (i k : nat) := 2 + h * INR k in let t (h : R) (i k : nat) := 3 - h in
  let z0 := fun _ _ : nat => 0 in let q0 := with_rhs kxqp z0 z0 z0 z0 in
  Build_curve (fun h i k => - kkt_g q0 (ux h) (pi h) (lam h) i k) (fun h i j => - dyn q0 (ux h) i j) (fun h i c => con kxqp (ux h) i c - t h i c) (fun h i c => lam h i c * t h i c) ux pi lam t.
Definition exl : osol R := mksol (fun i k => INR (i + k)) (fun _ _ => -1) (fun _ k => INR k) (fun _ _ => -1).
Lemma dlim_aff c e : derivable_pt_lim (fun h => c + h * e) 0 e.
Proof. intros eps He. exists (mkposreal 1 Rlt_0_1). intros h Hh _. replace ((c + (0 + h) * e - (c + 0 * e)) / h - e) with 0 by (field; exact Hh). rewrite Rabs_R0. exact He. Qed.
Example C46_curve_exists : (forall h, relaxed_kkt (with_rhs kxqp (c_g exc h) (c_b exc h) (c_d exc h) (c_m exc h)) (mksol (c_ux exc h) (c_pi exc h) (c_lam exc h) (c_t exc h))) /\
  (forall i k, c_lam exc 0 i k = a_lam kxa i k /\ c_t exc 0 i k = a_t kxa i k) /\ curve_derivative (q_dim kxqp) exc exl /\ exists sd, data_derivative (q_dim kxqp) exc sd.
Proof.
  split; [|split; [|split]].
  - intros h. split; [|split; [|split]].
    + intros i k Hi Hk. unfold exc, kkt_g. cbn [c_g c_ux c_pi c_lam s_ux s_pi s_lam q_rqz with_rhs q_dim q_BAbt q_mask].
      change (Hess (with_rhs kxqp (fun _ _ => 0) (fun _ _ => 0) (fun _ _ => 0) (fun _ _ => 0))) with (Hess kxqp).
      change (G (with_rhs kxqp (fun _ _ => 0) (fun _ _ => 0) (fun _ _ => 0) (fun _ _ => 0))) with (G kxqp).
      change (nux (with_rhs kxqp (fun _ _ => 0) (fun _ _ => 0) (fun _ _ => 0) (fun _ _ => 0))) with (nux kxqp).
      match goal with |- context [Hess (with_rhs kxqp ?a1 ?a2 ?a3 ?a4)] => change (Hess (with_rhs kxqp a1 a2 a3 a4)) with (Hess kxqp); change (G (with_rhs kxqp a1 a2 a3 a4)) with (G kxqp); change (nux (with_rhs kxqp a1 a2 a3 a4)) with (nux kxqp) end.
      ring.
    + intros i j Hi Hj. unfold exc, dyn. cbn [c_b c_ux s_ux q_b with_rhs q_dim q_BAbt].
      change (nux (with_rhs kxqp (fun _ _ => 0) (fun _ _ => 0) (fun _ _ => 0) (fun _ _ => 0))) with (nux kxqp).
      match goal with |- context [nux (with_rhs kxqp ?a1 ?a2 ?a3 ?a4)] => change (nux (with_rhs kxqp a1 a2 a3 a4)) with (nux kxqp) end. ring.
    + intros i c Hi Hc. unfold exc. cbn [c_d c_t c_ux s_ux s_t q_d with_rhs]. match goal with |- context [con (with_rhs kxqp ?a1 ?a2 ?a3 ?a4)] => change (con (with_rhs kxqp a1 a2 a3 a4)) with (con kxqp) end. ring.
    + intros i c Hi Hc. reflexivity.
  - intros i k. cbn. split; ring.
  - split; [|split; [|split]]; intros i k _ _; cbn [exc exl c_ux c_pi c_lam c_t s_ux s_pi s_lam s_t].
    + apply dlim_aff.
    + apply (dlim_ext_loc (fun h => 2 + h * (-1)) _ 0 (-1) 1 Rlt_0_1); [intros; ring|apply dlim_aff].
    + apply dlim_aff.
    + apply (dlim_ext_loc (fun h => 3 + h * (-1)) _ 0 (-1) 1 Rlt_0_1); [intros; ring|apply dlim_aff].
  - set (z0 := fun _ _ : nat => 0). set (q0 := with_rhs kxqp z0 z0 z0 z0).
    exists (mkseed (fun i k => - kkt_g q0 (s_ux exl) (s_pi exl) (s_lam exl) i k) (fun i j => - dyn q0 (s_ux exl) i j) (fun i c => con kxqp (s_ux exl) i c - -1) (fun i c => - (INR c * 3 + 2 * -1))).
    split; [|split; [|split]]; intros i k _ _; cbn [exc c_g c_b c_d c_m sd_g sd_b sd_d sd_m].
    + fold z0. fold q0. set (B := kkt_g q0 (fun _ _ => 1) (fun _ _ => 2) (fun _ _ => 2) i k).
      apply (dlim_ext_loc (fun h => - B + h * (- kkt_g q0 (s_ux exl) (s_pi exl) (s_lam exl) i k)) _ 0 _ 1 Rlt_0_1); [|apply dlim_aff]. intros h _. unfold B, kkt_g. cbn [q0 with_rhs q_rqz q_dim q_BAbt q_mask exl s_ux s_pi s_lam]. fold q0.
      rewrite (rsum_ext (nvt (q_dim kxqp) i) (fun l => Hess q0 i k l * (1 + h * INR (i + l))) (fun l => Hess q0 i k l * 1 + h * (Hess q0 i k l * INR (i + l)))) by (intros; ring).
      rewrite (rsum_ext (dnx (q_dim kxqp) (S i)) (fun j => q_BAbt kxqp i k j * (2 - h)) (fun j => q_BAbt kxqp i k j * 2 + h * (q_BAbt kxqp i k j * -1))) by (intros; ring).
      rewrite (rsum_ext (nct (q_dim kxqp) i) (fun c => G q0 i c k * (q_mask kxqp i c * (2 + h * INR c))) (fun c => G q0 i c k * (q_mask kxqp i c * 2) + h * (G q0 i c k * (q_mask kxqp i c * INR c)))) by (intros; ring).
      rewrite !rsum_add, !rsum_scal. unfold z0. destruct (_ && _)%bool; destruct (_ && _ && _)%bool; ring.
    + fold z0. fold q0. set (B := dyn q0 (fun _ _ => 1) i k).
      apply (dlim_ext_loc (fun h => - B + h * (- dyn q0 (s_ux exl) i k)) _ 0 _ 1 Rlt_0_1); [|apply dlim_aff]. intros h _. unfold B, dyn. cbn [q0 with_rhs q_b q_dim q_BAbt exl s_ux]. fold q0.
      rewrite (rsum_ext (nux q0 i) (fun j => q_BAbt kxqp i j k * (1 + h * INR (i + j))) (fun j => q_BAbt kxqp i j k * 1 + h * (q_BAbt kxqp i j k * INR (i + j)))) by (intros; ring).
      rewrite rsum_add, rsum_scal. unfold z0. ring.
    + set (B := con kxqp (fun _ _ => 1) i k - 3).
      apply (dlim_ext_loc (fun h => B + h * (con kxqp (s_ux exl) i k - -1)) _ 0 _ 1 Rlt_0_1); [|apply dlim_aff]. intros h _. unfold B, con. cbn [exl s_ux].
      rewrite (rsum_ext (nvt (q_dim kxqp) i) (fun l => G kxqp i k l * (1 + h * INR (i + l))) (fun l => G kxqp i k l * 1 + h * (G kxqp i k l * INR (i + l)))) by (intros; ring).
      rewrite rsum_add, rsum_scal. ring.
    + replace (- - (INR k * 3 + 2 * -1)) with (INR k * (3 + 0 * -1) + (2 + 0 * INR k) * -1) by ring.
      apply (dlim_ext_loc (fun h => (2 + h * INR k) * (3 + h * -1)) _ 0 _ 1 Rlt_0_1); [intros; ring|].
      apply (derivable_pt_lim_mult (fun h => 2 + h * INR k) (fun h => 3 + h * -1)); apply dlim_aff.
Qed.
(** the remaining hypotheses on the same case: a factorisation exists for both algorithms, and a saved point *)
Definition exw : kws R := mkkws (q_BAbt kxqp) (fun _ _ _ => 0) (fun _ _ => 0) (fun _ _ _ => 0) (fun _ _ => 0) (fun _ _ => 0) (fun _ _ => 0) (fun _ _ => 0) (fun _ _ => 0) (fun _ => 0) (fun _ _ => 0) (fun _ _ => 0) (fun _ _ => 0) (fun _ _ => 0).
Example C46_hypotheses_met (sq : bool) : interior kxa kxqp /\ saved_point kxa (q_dim kxqp) (mksol (fun _ _ => 0) (fun _ _ => 0) (fun _ _ => 2) (fun _ _ => 3)) /\
  (exists tinv Gam w0, factored sq kxa kxqp true (fun _ _ => 0) 0 tinv Gam w0) /\ (exists tinv Gam w0, factored sq kxa kxqp false (fun _ _ => 0) 0 tinv Gam w0).
Proof.
  destruct C45_hypotheses_met as (A & B & C & E & Fc & Cl & Hd & HB).
  assert (Hip : interior kxa kxqp). { apply cx_point; [|exact E|exact Cl]. split; [exact (ic_t _ _ Fc)|exact (ic_Z _ _ Fc)|exact (ic_slack _ _ Fc)|exact (ic_H _ _ Fc)]. }
  split; [exact Hip|]. split; [intros i c _ _; split; reflexivity|]. split.
  - set (z0 := fun _ _ : nat => 0).
    destruct (C39_convex_returns kxa (with_rhs kxqp z0 z0 z0 z0) 0 sq z0 z0 z0 (mksol z0 z0 z0 z0) exw A B) as (step & w' & E1); [split; [exact (ic_t _ _ Fc)|exact (ic_Z _ _ Fc)|exact (ic_slack _ _ Fc)|exact (ic_H _ _ Fc)]|left; exact Cl|exact HB|].
    do 3 eexists. change (a_reg kxa) with 0 in E1. refine (fd_solve sq kxa kxqp 0 z0 z0 z0 z0 z0 z0 _ exw step 0 w' z0 HB (or_intror eq_refl) _ E1). intros i c Hi Hc Em. reflexivity.
  - do 3 eexists. exact (fd_fact sq kxa kxqp (fun _ _ => 0) (fun _ _ => 0) exw (fun _ _ => 0) HB Fc E Cl).
Qed.

Print Assumptions C46_forward.
Print Assumptions C46_forward_is_derivative.
Print Assumptions C46_adjoint.
Print Assumptions C46_adjoint_is_gradient.
Print Assumptions C46_adjoint_keeps_seed.
Print Assumptions C46_backup_is_previous_iterate.
Print Assumptions C46_seed_is_data_derivative.
Print Assumptions C46_seed_names.
Print Assumptions C46_predict_residuals.
Print Assumptions C46_predict_full_step.
Print Assumptions C46_predict_stale_step_refuted.
Print Assumptions C46_predict_absolute.
Print Assumptions C46_seed_zero.
