(** CoreProps.v -- properties C21 (step length), C22 (clipping), C25 (slack / multiplier elimination). *)
From Coq Require Import ZArith Bool Arith Lia Reals Lra.
From Coq Require Import Floats.SpecFloat.
From Verif Require Import Base ArithF CoreModel CoreProofs.
Local Open Scope R_scope.

(** A strictly interior iterate. *)
Definition interior (nc : nat) (lam t : nat -> R) : Prop := forall i, (i < nc)%nat -> 0 < lam i /\ 0 < t i.
(** The step (ap, ad) keeps the iterate in the (closed) positive orthant. *)
Definition stays (nc : nat) (lam t dlam dt : nat -> R) (ap ad : R) : Prop :=
  forall i, (i < nc)%nat -> 0 <= lam i + ad * dlam i /\ 0 <= t i + ap * dt i.

(** C21, separate steps, exact complementarity (m = 0): the step lengths are in (0,1], keep the iterate in the
    orthant, and are the longest such: each is 1 or some constraint blocks exactly. *)
Theorem C21_split_step nc m_safe lam t dlam dt m : interior nc lam t ->
  let '(ap, ad) := compute_alpha 1 true nc m_safe lam t dlam dt m in
  0 < ap <= 1 /\ 0 < ad <= 1 /\ stays nc lam t dlam dt ap ad /\
  (ap = 1 \/ exists i, (i < nc)%nat /\ t i + ap * dt i = 0) /\
  (ad = 1 \/ exists i, (i < nc)%nat /\ lam i + ad * dlam i = 0).
Proof. exact (alpha_split_mzero_spec nc lam t dlam dt). Qed.
Print Assumptions C21_split_step.

(** C21, separate steps, complementarity target m: same positivity, for iterates satisfying the safeguard
    (clipped m_safe) * m < lam * t of every constraint. *)
Theorem C21_split_step_target nc m_safe lam t dlam dt m : interior nc lam t ->
  (forall i, (i < nc)%nat -> Rmax 0 (Rmin 1 m_safe) * m i < lam i * t i) ->
  let '(ap, ad) := compute_alpha 1 false nc m_safe lam t dlam dt m in
  0 < ap <= 1 /\ 0 < ad <= 1 /\ stays nc lam t dlam dt ap ad.
Proof.
  intros Hpos Hc. unfold compute_alpha. cbn [Z.eqb Pos.eqb].
  assert (E : clip_m_safe m_safe = Rmax 0 (Rmin 1 m_safe)).
  { unfold clip_m_safe. rsimp. rewrite !R_lit01, !R_lit11.
    destruct (Rleb_spec 0 m_safe) as [H0|H0].
    - unfold Rmin. destruct (Rleb_spec m_safe 1); destruct (Rle_dec 1 m_safe); rewrite Rmax_right; lra.
    - destruct (Rleb_spec 0 1); [|lra]. rewrite Rmin_right by lra. rewrite Rmax_left; lra. }
  rewrite E. pose proof (alpha_split_m_ok nc (Rmax 0 (Rmin 1 m_safe)) lam t dlam dt m Hpos Hc) as H.
  destruct (alpha_split_m nc (Rmax 0 (Rmin 1 m_safe)) lam t dlam dt m) as [ap ad]. exact H.
Qed.
Print Assumptions C21_split_step_target.

(** C21, one common step, m = 0 -- PARTIAL: proved when no constraint has both its multiplier and its slack
    decreasing; the full statement (no such hypothesis) is false, see C21_joint_step_refuted. *)
Theorem C21_joint_step_partial nc m_safe lam t dlam dt m : interior nc lam t ->
  (forall i, (i < nc)%nat -> 0 <= dlam i \/ 0 <= dt i) ->
  let '(ap, ad) := compute_alpha 0 true nc m_safe lam t dlam dt m in
  ap = ad /\ 0 < ap <= 1 /\ stays nc lam t dlam dt ap ad.
Proof.
  intros Hpos Hone. destruct (alpha_joint_mzero_ok nc lam t dlam dt Hpos Hone) as [H1 H2].
  split; [reflexivity|]. split; [exact H1|exact H2].
Qed.
Print Assumptions C21_joint_step_partial.

(** C21, one common step, target m: with m_safe*m above the tolerance 1e-12 (and non-zero directions) the step
    is in (0,1] and every point of the segment keeps lam, t >= 0 and lam*t >= m_safe*m - 1e-12. *)
Theorem C21_joint_step_target nc m_safe lam t dlam dt m : interior nc lam t -> 0 <= m_safe <= 1 ->
  (forall i, (i < nc)%nat -> 1 / 1000000000000 < m_safe * m i < lam i * t i) ->
  (forall i, (i < nc)%nat -> dlam i <> 0 /\ dt i <> 0) ->
  let '(ap, ad) := compute_alpha 0 false nc m_safe lam t dlam dt m in
  ap = ad /\ 0 < ap <= 1 /\
  forall i x, (i < nc)%nat -> 0 <= x <= ap ->
    0 <= lam i + x * dlam i /\ 0 <= t i + x * dt i /\ m_safe * m i - 1 / 1000000000000 <= (lam i + x * dlam i) * (t i + x * dt i).
Proof.
  intros Hpos Hms Hc Hnz. unfold compute_alpha. cbn [Z.eqb].
  assert (E : clip_m_safe m_safe = m_safe).
  { unfold clip_m_safe. rsimp. rewrite !R_lit01, !R_lit11. destruct (Rleb_spec 0 m_safe); [|lra]. destruct (Rleb_spec m_safe 1); lra. }
  rewrite E. destruct (alpha_joint_m_ok nc m_safe lam t dlam dt m Hpos Hc Hnz) as [H1 H2].
  split; [reflexivity|]. split; [exact H1|]. intros i x Hi Hx. apply (H2 i Hi x Hx).
Qed.
Print Assumptions C21_joint_step_target.

(** The next iterate (update without clipping): never leaves the closed orthant, and is strictly interior unless
    both full steps were taken. *)
Theorem C21_next_iterate nv ne nc m_safe m lam_min t_min d x bkp tl :
  interior nc (va_lam x) (va_t x) -> tl <> 2%Z ->
  let '(ap, ad) := compute_alpha 1 true nc m_safe (va_lam x) (va_t x) (va_lam d) (va_t d) m in
  let '(x', _) := update_var nv ne nc tl lam_min t_min ap ad d (x, bkp) in
  (forall i, (i < nc)%nat -> 0 <= va_lam x' i /\ 0 <= va_t x' i) /\
  (ap < 1 \/ ad < 1 -> interior nc (va_lam x') (va_t x')).
Proof.
  intros Hpos Htl. pose proof (C21_split_step nc m_safe (va_lam x) (va_t x) (va_lam d) (va_t d) m Hpos) as H.
  destruct (compute_alpha 1 true nc m_safe (va_lam x) (va_t x) (va_lam d) (va_t d) m) as [ap ad].
  destruct H as (Hap & Had & Hst & _).
  pose proof (update_var_spec nv ne nc tl lam_min t_min ap ad d x bkp) as U.
  destruct (update_var nv ne nc tl lam_min t_min ap ad d (x, bkp)) as [x' b'].
  unfold damped in U. destruct (Z.eqb_spec tl 2) as [|_]; [contradiction|].
  assert (Hcase : (ap = 1 /\ ad = 1) \/ (ap < 1 \/ ad < 1)) by lra.
  assert (Hmin : (fltb (if fltb ap ad then ap else ad) f1 = true) <-> (ap < 1 \/ ad < 1)).
  { rsimp. rewrite R_lit11. destruct (Rltb_spec ap ad) as [Hc|Hc]; [destruct (Rltb_spec ap 1)|destruct (Rltb_spec ad 1)]; split; intros; try reflexivity; try discriminate; lra. }
  destruct (fltb (if fltb ap ad then ap else ad) f1) eqn:Em.
  - assert (Hlt : ap < 1 \/ ad < 1) by (apply Hmin; reflexivity).
    assert (I : interior nc (va_lam x') (va_t x')).
    { intros i Hi. destruct (U i) as (_ & _ & U3 & U4 & _). assert (Hb : Nat.ltb i nc = true) by (apply Nat.ltb_lt; assumption).
      rewrite Hb in U3, U4. rewrite U3, U4. destruct (Hst i Hi) as [S1 S2]. destruct (Hpos i Hi) as [P1 P2].
      pose proof (damp_bounds ap Hap). pose proof (damp_bounds ad Had).
      split; [apply strict_inside with ad; lra|apply strict_inside with ap; lra]. }
    split; [|intros _; exact I]. intros i Hi. destruct (I i Hi). lra.
  - split.
    + intros i Hi. destruct (U i) as (_ & _ & U3 & U4 & _). assert (Hb : Nat.ltb i nc = true) by (apply Nat.ltb_lt; assumption).
      rewrite Hb in U3, U4. rewrite U3, U4. exact (Hst i Hi).
    + intros Hlt. apply Hmin in Hlt. discriminate.
Qed.
Print Assumptions C21_next_iterate.

(** *** What is false of the code (IEEE doubles, the code as is) *)
Definition sf (z : Z) : spec_float := sf_of_Z z.
Definition vec1 (z : Z) : nat -> spec_float := fun _ => sf z.
(** One common step, m = 0: lam=1, t=1, dlam=-10, dt=-2.  The slack test uses the value computed before the
    multiplier test shortened alpha, so alpha goes 1 -> 0.1 -> 0.5 and lam+alpha*dlam = -4. *)
Theorem C21_joint_step_refuted : exists (lam t dlam dt m : nat -> spec_float) (ms : spec_float),
  SFltb (sf 0) (lam 0%nat) = true /\ SFltb (sf 0) (t 0%nat) = true /\
  let '(_, ad) := compute_alpha 0 true 1 ms lam t dlam dt m in
  SFltb (fadd (lam 0%nat) (fmul ad (dlam 0%nat))) (sf 0) = true.
Proof. exists (vec1 1), (vec1 1), (vec1 (-10)), (vec1 (-2)), (vec1 0), (sf 0). vm_compute. auto. Qed.
Print Assumptions C21_joint_step_refuted.
(** Separate steps with a target the iterate is below: the "step length" is negative (-1). *)
Theorem C21_split_target_refuted : exists (lam t dlam dt m : nat -> spec_float) (ms : spec_float),
  SFltb (sf 0) (lam 0%nat) = true /\ SFltb (sf 0) (t 0%nat) = true /\ SFleb (sf 0) (m 0%nat) = true /\
  let '(_, ad) := compute_alpha 1 false 1 ms lam t dlam dt m in SFltb ad (sf 0) = true.
Proof. exists (vec1 1), (vec1 1), (vec1 (-1)), (vec1 0), (vec1 2), (sf 1). vm_compute. auto. Qed.
Print Assumptions C21_split_target_refuted.
(** One common step with a target and a zero slack direction: 0/0, the step length is NaN. *)
Theorem C21_joint_target_refuted : exists (lam t dlam dt m : nat -> spec_float) (ms : spec_float),
  SFltb (fmul ms (m 0%nat)) (fmul (lam 0%nat) (t 0%nat)) = true /\
  let '(_, ad) := compute_alpha 0 false 1 ms lam t dlam dt m in ad = S754_nan.
Proof. exists (vec1 4), (vec1 1), (vec1 (-3)), (vec1 0), (vec1 2), (sf 1). vm_compute. auto. Qed.
Print Assumptions C21_joint_target_refuted.

(** C22 (IEEE doubles): after the update with t_lam_min = 2, every multiplier is NaN or >= lam_min and every slack is
    NaN or >= t_min, whatever the iterate, the direction and the step lengths (NaN and infinities included); with
    positive floors they are NaN or positive.  The previous iterate is backed up, entries >= nc are untouched. *)
Theorem C22_clipping nv ne nc lam_min t_min ap ad d (x bkp : vars spec_float) :
  is_nan_sf lam_min = false -> is_nan_sf t_min = false ->
  let '(x', bkp') := update_var nv ne nc 2 lam_min t_min ap ad d (x, bkp) in
  (forall i, (i < nc)%nat ->
     (is_nan_sf (va_lam x' i) = true \/ SFleb lam_min (va_lam x' i) = true) /\
     (is_nan_sf (va_t x' i) = true \/ SFleb t_min (va_t x' i) = true) /\
     (SFltb (S754_zero false) lam_min = true -> is_nan_sf (va_lam x' i) = true \/ SFltb (S754_zero false) (va_lam x' i) = true) /\
     (SFltb (S754_zero false) t_min = true -> is_nan_sf (va_t x' i) = true \/ SFltb (S754_zero false) (va_t x' i) = true) /\
     va_lam bkp' i = va_lam x i /\ va_t bkp' i = va_t x i) /\
  (forall i, (nc <= i)%nat -> va_lam x' i = va_lam x i /\ va_t x' i = va_t x i).
Proof.
  intros Hl Ht. pose proof (update_var_spec nv ne nc 2 lam_min t_min ap ad d x bkp) as U.
  destruct (update_var nv ne nc 2 lam_min t_min ap ad d (x, bkp)) as [x' b']. destruct (damped ap ad) as [p q].
  cbn [Z.eqb Pos.eqb] in U. cbn zeta in U. split.
  - intros i Hi. destruct (U i) as (_ & _ & U3 & U4 & _ & _ & U7 & U8).
    assert (Hb : Nat.ltb i nc = true) by (apply Nat.ltb_lt; assumption). rewrite Hb in U3, U4, U7, U8.
    pose proof (clip_floor_sf (fadd (va_lam x i) (fmul q (va_lam d i))) lam_min Hl) as Cl.
    pose proof (clip_floor_sf (fadd (va_t x i) (fmul p (va_t d i))) t_min Ht) as Ct.
    cbn zeta in Cl, Ct. cbn [fleb FArith] in U3, U4. rewrite <- U3 in Cl. rewrite <- U4 in Ct.
    split; [exact Cl|]. split; [exact Ct|]. split; [|split; [|split; assumption]].
    + intros Hp. destruct Cl as [C|C]; [left; exact C|right; eapply SFpos_le; eassumption].
    + intros Hp. destruct Ct as [C|C]; [left; exact C|right; eapply SFpos_le; eassumption].
  - intros i Hi. destruct (U i) as (_ & _ & U3 & U4 & _).
    assert (Hb : Nat.ltb i nc = false) by (apply Nat.ltb_ge; assumption). rewrite Hb in U3, U4. auto.
Qed.
Print Assumptions C22_clipping.

(** C22, exact arithmetic: the update moves every variable by exactly (damped step) * direction before clipping. *)
Theorem C22_update_exact nv ne nc tl lam_min t_min ap ad d (x bkp : vars R) k :
  let '(x', bkp') := update_var nv ne nc tl lam_min t_min ap ad d (x, bkp) in
  let full := ~ (Rmin ap ad < 1) in
  exists p q, (full -> p = ap /\ q = ad) /\
    (~ full -> p = ap * ((1 - ap) * 0.99 + ap * 0.9999999) /\ q = ad * ((1 - ad) * 0.99 + ad * 0.9999999)) /\
    ((k < nv)%nat -> va_v x' k = va_v x k + p * va_v d k /\ va_v bkp' k = va_v x k) /\
    ((k < ne)%nat -> va_pi x' k = va_pi x k + q * va_pi d k /\ va_pi bkp' k = va_pi x k) /\
    ((k < nc)%nat -> va_lam x' k = (if Z.eqb tl 2 then Rmax lam_min (va_lam x k + q * va_lam d k) else va_lam x k + q * va_lam d k) /\
                     va_t x' k = (if Z.eqb tl 2 then Rmax t_min (va_t x k + p * va_t d k) else va_t x k + p * va_t d k)).
Proof.
  pose proof (update_var_spec nv ne nc tl lam_min t_min ap ad d x bkp k) as U.
  destruct (update_var nv ne nc tl lam_min t_min ap ad d (x, bkp)) as [x' b'].
  destruct (damped ap ad) as [p q] eqn:D. destruct U as (U1 & U2 & U3 & U4 & U5 & U6 & _).
  exists p, q. unfold damped in D. rsimp. rewrite !R_lit11 in D.
  assert (Hm : Rmin ap ad = if Rltb ap ad then ap else ad).
  { unfold Rmin. destruct (Rltb_spec ap ad); destruct (Rle_dec ap ad); lra. }
  rewrite Hm.
  assert (Hmax : forall z zmin, (if Rleb z zmin then zmin else z) = Rmax zmin z).
  { intros z zmin. unfold Rmax. destruct (Rleb_spec z zmin); destruct (Rle_dec zmin z); lra. }
  rewrite !Hmax in *.
  split; [|split; [|split; [|split]]].
  - intros Hf. destruct (Rltb_spec (if Rltb ap ad then ap else ad) 1); [contradiction|]. injection D as <- <-. auto.
  - intros Hf. destruct (Rltb_spec (if Rltb ap ad then ap else ad) 1); [|contradiction]. injection D as <- <-. unfold damp. rsimp. rewrite !R_lit11. split; lra.
  - intros Hk. apply Nat.ltb_lt in Hk. rewrite Hk in U1, U5. auto.
  - intros Hk. apply Nat.ltb_lt in Hk. rewrite Hk in U2, U6. auto.
  - intros Hk. apply Nat.ltb_lt in Hk. rewrite Hk in U3, U4. auto.
Qed.
Print Assumptions C22_update_exact.

(** C25: with Gamma, gamma from COMPUTE_GAMMA_GAMMA_QP and the step recovered by COMPUTE_LAM_T_QP from the linear
    image q of the primal step (q = C dv): the slack step is q - res_d, the complementarity row of the Newton system
    holds exactly, and the eliminated form used by the KKT solver, dlam = -(gamma + Gamma q), is the same dlam. *)
Theorem C25_elimination nc lam t lam_min t_min t_min_inv res_d res_m ti0 G0 g0 dlam0 q tl :
  interior nc lam t ->
  let '(t_inv, Gamma, gamma) := compute_Gamma_gamma tl nc lam t lam_min t_min t_min_inv res_d res_m (ti0, G0, g0) in
  let '(dlam, dt) := compute_lam_t nc lam t_inv res_d res_m (dlam0, q) in
  forall i, (i < nc)%nat ->
    dt i = q i - res_d i /\
    lam i * dt i + t i * dlam i = - res_m i /\
    (tl <> 1%Z -> dlam i = - (gamma i + Gamma i * q i) /\ Gamma i = lam i / t i) /\
    (tl = 1%Z -> Gamma i = (if Rlt_dec (t i) t_min then t_min_inv else / t i) * Rmax lam_min (lam i)).
Proof.
  intros Hpos.
  pose proof (compute_Gamma_gamma_spec tl nc lam t lam_min t_min t_min_inv res_d res_m ti0 G0 g0) as HG.
  destruct (compute_Gamma_gamma tl nc lam t lam_min t_min t_min_inv res_d res_m (ti0, G0, g0)) as [[ti G] g].
  pose proof (compute_lam_t_spec nc lam ti res_d res_m dlam0 q) as HL.
  destruct (compute_lam_t nc lam ti res_d res_m (dlam0, q)) as [dl dtt].
  intros i Hi. destruct (HG i) as (G1 & G2 & G3). destruct (HL i) as (L1 & L2). destruct (Hpos i Hi) as [P1 P2].
  assert (Hb : Nat.ltb i nc = true) by (apply Nat.ltb_lt; assumption). rewrite Hb in G1, G2, G3, L1, L2.
  rsimp. rewrite R_lit11 in *. rewrite L1, L2, G1. split; [reflexivity|]. split; [field; lra|]. split.
  - intros Ht. destruct (Z.eqb_spec tl 1); [contradiction|]. rewrite G2, G3. split; field; lra.
  - intros ->. cbn [Z.eqb Pos.eqb] in G2. rewrite G2. unfold Rmax.
    destruct (Rltb_spec (t i) t_min); destruct (Rlt_dec (t i) t_min); try lra;
    destruct (Rltb_spec (lam i) lam_min); destruct (Rle_dec lam_min (lam i)); try lra; f_equal; lra.
Qed.
Print Assumptions C25_elimination.
(** The two cheaper variants compute the same Gamma, t_inv and gamma (up to entries beyond nc). *)
Theorem C25_variants_agree {F} {AF : Arith F} nc (lam t : nat -> F) lam_min t_min t_min_inv res_d res_m ti0 G0 g0 tl i : (i < nc)%nat ->
  let '(t_inv, Gamma, gamma) := compute_Gamma_gamma tl nc lam t lam_min t_min t_min_inv res_d res_m (ti0, G0, g0) in
  let '(t_inv', Gamma') := compute_Ggamma tl nc lam t lam_min t_min t_min_inv (ti0, G0) in
  t_inv' i = t_inv i /\ Gamma' i = Gamma i /\ compute_gamma nc lam t_inv' res_d res_m g0 i = gamma i.
Proof.
  intros Hi.
  pose proof (compute_Gamma_gamma_spec tl nc lam t lam_min t_min t_min_inv res_d res_m ti0 G0 g0 i) as HG.
  destruct (compute_Gamma_gamma tl nc lam t lam_min t_min t_min_inv res_d res_m (ti0, G0, g0)) as [[ti G] g].
  pose proof (compute_Ggamma_spec tl nc lam t lam_min t_min t_min_inv ti0 G0 i) as HG'.
  destruct (compute_Ggamma tl nc lam t lam_min t_min t_min_inv (ti0, G0)) as [ti' G'].
  destruct HG as (H1 & H2 & H3). destruct HG' as (K1 & K2). unfold compute_gamma. rewrite loop_fill.
  assert (Hb : Nat.ltb i nc = true) by (apply Nat.ltb_lt; assumption). rewrite Hb in *. rewrite K1, K2, H1, H2, H3. auto.
Qed.
Print Assumptions C25_variants_agree.

(** Hypotheses are met by concrete cases. *)
Example C21_hyp_met : interior 2 (fun i => INR (S i)) (fun _ => 1 / 2).
Proof. intros i Hi. split; [apply lt_0_INR; lia|lra]. Qed.
Example C21_target_hyp_met : forall i, (i < 2)%nat -> 1 / 1000000000000 < 0.3 * 1 < INR (S i) * (1 / 2).
Proof. intros i Hi. destruct i as [|[|i]]; [cbn [INR]; lra|cbn [INR]; lra|lia]. Qed.
