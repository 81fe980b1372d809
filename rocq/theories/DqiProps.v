(** DqiProps.v -- C75 (part 1): the interior point solve of the dense QCQP: iterations, status, what SUCCESS certifies, statistics.
    Every theorem here holds for every arithmetic, every linear algebra [OP] (predictor, corrector and refinement solves may return anything,
    NaN included), every argument structure and every initial workspace.  Part 2, in exact arithmetic, is DqiReal.v. *)
From Coq Require Import ZArith Bool Arith List Lia.
From Verif Require Import Base ArithF Blas Blas2 QpDataProofs OcpModel ResProofs2 CoreModel CoreProofs ArgModel DenModel QcqpModel DqcModel DqlModel DenIpmModel DenIpmProofs DenIpmProofs2 DqiModel DqiProofs.
Local Open Scope Z_scope.

Section P.
Context {F : Type} {AF : Arith F} {K : Type} (OP : dkops (F := F) K) (A QA : arg F).
Notation vec := (nat -> F).
Notation dqst := (@dqst F K). Notation wk := (@wk F K).
Variables (lq smax : Z) (q : dqcqp F) (sol : vars F) (ws : dqst).
Let o := dqi_solve OP A QA lq smax q sol ws.
Let qm := dqc_masked q.
Let s0 := dqi_start QA q sol ws.
Let C := dqi_ctx lq smax q (da_qp (y_a s0)).

(** some constraint is left after the solver has switched off the lower sides of the quadratic constraints and the slacks softening them *)
Definition dq_constrained : Prop := exists c, (c < dqi_nc q)%nat /\ feqb (dqc_mask_lower q c) f0 = false.
(** the residuals of a solution, as DENSE_QCQP_RES_COMPUTE gives them for this (masked) QCQP from the constraint values and adjoints cached at that solution, in
    whatever residual object and workspace *)
Definition is_dqresidual_of (x : dsol F) (r : dres F) : Prop :=
  exists a r0 rw0, dlin_at qm x a /\ r = fst (dqc_res_compute (Some (da_fun a, da_adj a)) None qm x r0 rw0).

Lemma dcmask_at k : (k < dqi_nc q)%nat -> c_mask C k = dqc_mask_lower q k.
Proof.
  intros Hk. change (c_mask C) with (d_mask (da_qp (y_a s0))). unfold s0, dqi_start. cbn [y_a]. unfold dqc_approx_qp. cbn [da_qp d_mask].
  unfold VECCP. rewrite vset0_in by exact Hk. reflexivity.
Qed.
Lemma dqconstrained_count : dq_constrained <-> orb (Nat.eqb (dqi_nc q) 0) (Nat.eqb (count_mask (dqi_nc q) (c_mask C)) 0) = false.
Proof.
  split.
  - intros (c & Hc & E). apply orb_false_intro; apply Nat.eqb_neq; [lia|]. intros H0. apply count_mask_0 with (i := c) in H0; [|exact Hc].
    rewrite dcmask_at in H0 by exact Hc. rewrite E in H0. discriminate.
  - intros H. apply orb_false_elim in H. destruct H as [_ H]. apply Nat.eqb_neq in H.
    assert (G : forall n, count_mask n (c_mask C) <> 0%nat -> exists k, (k < n)%nat /\ feqb (c_mask C k) f0 = false).
    { induction n as [|n IH]; [cbn; intros Hx; contradiction|]. unfold count_mask. cbn [loop]. destruct (feqb (c_mask C n) f0) eqn:E; cbn [negb].
      - intros Hx. destruct (IH Hx) as (k & Hk & Ek). exists k. split; [lia|exact Ek].
      - intros _. exists n. split; [lia|exact E]. }
    destruct (G _ H) as (k & Hk & Ek). exists k. split; [exact Hk|]. rewrite <- dcmask_at by exact Hk. exact Ek.
Qed.
Lemma dqsolve_case : (~ dq_constrained /\ o = dqi_unc OP A qm C s0) \/
  (dq_constrained /\ ai A abs_form <> 0 /\ o = dqi_abs OP A QA qm C s0) \/
  (dq_constrained /\ ai A abs_form = 0 /\ o = dqi_delta OP A QA qm C s0).
Proof.
  unfold o, dqi_solve. fold s0 C qm. pose proof dqconstrained_count as H. destruct (orb _ _).
  - left. split; [rewrite H; discriminate|reflexivity].
  - right. destruct (Z.eqb_spec (ai A abs_form) 0) as [E|E]; cbn [negb]; [right|left]; (split; [apply H; reflexivity|]; split; [exact E|reflexivity]).
Qed.
Lemma dqunc_facts : o = dqi_unc OP A qm C s0 -> yo_iter o = 0 /\ (yo_status o = SUCCESS \/ yo_status o = NAN_SOL).
Proof.
  intros ->. unfold dqi_unc. destruct (op_unc K OP _ _ _) as [u k]. cbn [yo_iter yo_status]. split; [reflexivity|]. destruct (isnan _); [right|left]; reflexivity.
Qed.

(** C75: the number of iterations never exceeds iter_max of the QCQP arguments, whatever the factorisation returns. *)
Theorem C75_iteration_bound : 0 <= yo_iter o <= Z.max 0 (ai QA iter_max).
Proof.
  destruct dqsolve_case as [[_ E]|[(_ & _ & E)|(_ & _ & E)]].
  - destruct (dqunc_facts E) as [-> _]. lia.
  - rewrite E. destruct (dqsolve_abs_loop OP A QA qm C s0 (fun _ _ => True) I (fun _ _ _ _ _ => I)) as (kk & s' & -> & _ & _ & H). exact H.
  - rewrite E. destruct (dqsolve_delta_loop OP A QA qm C s0 (fun _ _ => True) I (fun _ _ _ _ _ => I)) as (kk & s' & -> & _ & _ & H). exact H.
Qed.
(** C75: no constraint left: no iteration, and the status is SUCCESS or NAN_SOL. *)
Theorem C75_unconstrained : ~ dq_constrained -> yo_iter o = 0 /\ (yo_status o = SUCCESS \/ yo_status o = NAN_SOL).
Proof. intros Hn. destruct dqsolve_case as [[_ E]|[(Hc & _)|(Hc & _)]]; try contradiction. exact (dqunc_facts E). Qed.

(** C75: meaning of the status, both formulations.  Comparisons are the C ones: false as soon as an operand is NaN. *)
Theorem C75_status : dq_constrained -> let i := y_i (yo_s o) in let w := i_w i in
  (yo_status o = MAX_ITER <-> yo_iter o = ai QA iter_max) /\
  (yo_status o = MIN_STEP -> fleb (wk_ap w) (ar QA alpha_min) = true \/ fleb (wk_ad w) (ar QA alpha_min) = true) /\
  (yo_status o = NAN_SOL -> feqb (i_mu i) (i_mu i) = false) /\
  (yo_status o = SUCCESS -> feqb (i_mu i) (i_mu i) = true /\ fleb (wk_ap w) (ar QA alpha_min) = false /\ fleb (wk_ad w) (ar QA alpha_min) = false) /\
  yo_status o <> INCONS_EQ.
Proof.
  intros Hc. cbv zeta. assert (H : exists kk s, o = dqi_finish QA (kk, s)).
  { destruct dqsolve_case as [[Hn _]|[(_ & _ & E)|(_ & _ & E)]]; [contradiction| |]; rewrite E.
    - destruct (dqsolve_abs_loop OP A QA qm C s0 (fun _ _ => True) I (fun _ _ _ _ _ => I)) as (kk & s' & -> & _). eauto.
    - destruct (dqsolve_delta_loop OP A QA qm C s0 (fun _ _ => True) I (fun _ _ _ _ _ => I)) as (kk & s' & -> & _). eauto. }
  destruct H as (kk & s & ->). unfold dqi_finish. cbn [yo_s yo_iter yo_status]. clear. unfold final_status, isnan.
  destruct (Z.eqb_spec kk (ai QA iter_max)) as [E|E]; [repeat split; intros; congruence|].
  destruct (orb _ _) eqn:Em.
  - apply orb_prop in Em. repeat split; intros; try congruence.
  - apply orb_false_elim in Em. destruct Em as [Em1 Em2]. destruct (feqb (i_mu (y_i s)) (i_mu (y_i s))) eqn:En; cbn [negb]; repeat split; intros; try congruence; try assumption.
Qed.

Lemma dnorm_ext n (x y : vec) : (forall k, (k < n)%nat -> x k = y k) -> VECNRM_INF n x 0 = VECNRM_INF n y 0.
Proof. intros H. unfold VECNRM_INF. apply loop_ext. intros k a Hk. cbn [Nat.add]. rewrite H by exact Hk. reflexivity. Qed.

(** C75: what SUCCESS certifies in the delta formulation (all modes except SPEED_ABS): the residual object the solver leaves is the residual of the
    solution it returns for the QCQP with the lower sides switched off, the reported norms are its norms, and, if the step lengths are comparable
    with alpha_min (they are not NaN), no norm and not the duality gap is above the tolerance of the QCQP arguments.  (res_m is taken relative to
    the target tau_min, the one of the embedded QP arguments.) *)
Theorem C75_success_certifies : dq_constrained -> ai A abs_form = 0 -> 0 <= ai QA iter_max ->
  let s := yo_s o in let w := i_w (y_i s) in let r := y_r s in
  is_dqresidual_of (view (y_x s)) r /\ y_max s = dqc_inf_norm q r /\ i_mu (y_i s) = dr_mu r /\
  (yo_status o = SUCCESS -> fltb (ar QA alpha_min) (wk_ap w) = true -> fltb (ar QA alpha_min) (wk_ad w) = true ->
   let '(ng, nb, nd, _) := y_max s in
   fltb (ar QA res_g_max) ng = false /\ fltb (ar QA res_b_max) nb = false /\ fltb (ar QA res_d_max) nd = false /\
   fltb (ar QA res_m_max) (VECNRM_INF (dqi_nc q) (AXPY (dqi_nc q) (fopp (ar A tau_min)) (dqc_mask_lower q) 0 (dr_m r) 0 (fun _ => f0) 0) 0) = false /\
   fltb (ar QA dual_gap_max) (dr_gap r) = false).
Proof.
  intros Hc Ha Him. cbv zeta. destruct dqsolve_case as [[Hn _]|[(_ & Hn & _)|(_ & _ & E)]]; [contradiction|contradiction|]. rewrite E.
  destruct (dqsolve_delta_loop OP A QA qm C s0 (fun _ s => dqreported qm s)) as (kk & s' & -> & ((r0 & rw0 & H1) & H2 & H3 & H4) & Hgo & Hk).
  { unfold dqdelta_init. cbv zeta. pose proof (dqcall_res_rep qm s0) as H. apply H. exists (y_a ws). left. reflexivity. }
  { intros kk s _ _ _. apply dqdelta_body_rep. }
  unfold dqi_finish. cbn [yo_s yo_status]. 
  split; [exists (y_a s'), r0, rw0; split; [exact H4|exact H1]|]. split; [exact H2|]. split; [exact H3|].
  intros HS Hp Hd. unfold dqi_go in Hgo. unfold final_status in HS. destruct (y_max s') as [[[a b] c] e].
  destruct (Z.eqb_spec kk (ai QA iter_max)) as [|Hne]; [discriminate|].
  assert (Hlt : Z.ltb kk (ai QA iter_max) = true) by (apply Z.ltb_lt; lia).
  rewrite Hlt in Hgo. rewrite Hp, Hd in Hgo. cbn [andb] in Hgo. change (dqi_nc qm) with (dqi_nc q) in Hgo.
  repeat (apply orb_false_elim in Hgo; destruct Hgo as [? Hgo]).
  split; [assumption|]. split; [assumption|]. split; [assumption|]. split; [|assumption].
  match goal with H : fltb (ar QA res_m_max) ?x = false |- fltb (ar QA res_m_max) ?y = false => replace y with x; [exact H|] end.
  apply dnorm_ext. intros k Hk'. unfold AXPY. rewrite !vset0_in by exact Hk'. cbn [Nat.add]. rewrite dcmask_at by exact Hk'. reflexivity.
Qed.

(** C75, absolute formulation (SPEED_ABS): SUCCESS only certifies that mu is within res_m_max of tau_min. *)
Theorem C75_success_abs : dq_constrained -> ai A abs_form <> 0 -> 0 <= ai QA iter_max -> yo_status o = SUCCESS ->
  let i := y_i (yo_s o) in let w := i_w i in
  fltb (ar QA alpha_min) (wk_ap w) = true -> fltb (ar QA alpha_min) (wk_ad w) = true ->
  fltb (ar QA res_m_max) (fabs (fsub (i_mu i) (ar A tau_min))) = false.
Proof.
  intros Hc Ha Him. cbv zeta. destruct dqsolve_case as [[Hn _]|[(_ & _ & E)|(_ & Hn & _)]]; [contradiction| |contradiction]. rewrite E.
  destruct (dqsolve_abs_loop OP A QA qm C s0 (fun _ _ => True) I (fun _ _ _ _ _ => I)) as (kk & s' & -> & _ & Hgo & Hk).
  unfold dqi_finish. cbn [yo_s yo_status]. destruct (dqabs_exit_vals A qm C kk s') as (E2 & E3 & E4). rewrite E2, E3, E4. intros HS Hp Hd.
  unfold final_status in HS. destruct (Z.eqb_spec kk (ai QA iter_max)) as [|Hne]; [discriminate|].
  assert (Hlt : Z.ltb kk (ai QA iter_max) = true) by (apply Z.ltb_lt; lia).
  unfold dqi_absgo in Hgo. rewrite Hlt in Hgo. rewrite Hp, Hd in Hgo. exact Hgo.
Qed.

Lemma dqstat_inv : dq_constrained -> forall j, (21 * Z.to_nat (Z.min smax (yo_iter o + 1)) <= j)%nat -> wk_stat (i_w (y_i (yo_s o))) j = wk_stat (i_w (y_i ws)) j.
Proof.
  intros Hc. destruct dqsolve_case as [[Hn _]|[(_ & _ & E)|(_ & _ & E)]]; [contradiction| |]; rewrite E.
  - destruct (dqsolve_abs_loop OP A QA qm C s0
      (fun kk s => forall j, (21 * Z.to_nat (Z.min smax (kk + 1)) <= j)%nat -> wk_stat (i_w (y_i s)) j = wk_stat (i_w (y_i ws)) j)) as (kk & s' & -> & H & _ & Hk).
    + intros j Hj. reflexivity.
    + intros kk s Hk IH _ j Hj. destruct (dqabs_body_stat OP A qm C kk s j) as [Ej|[H1 H2]]; [rewrite Ej; apply IH; lia|]. change (c_smax C) with smax in H1. lia.
    + unfold dqi_finish. cbn [yo_s yo_iter]. intros j Hj.
      destruct (dqabs_exit_stat A qm C kk s' j) as [Ej|[H1 H2]]; [rewrite Ej; apply H; lia|]. change (c_smax C) with smax in H1. lia.
  - destruct (dqsolve_delta_loop OP A QA qm C s0
      (fun kk s => forall j, (21 * Z.to_nat (Z.min smax (kk + 1)) <= j)%nat -> wk_stat (i_w (y_i s)) j = wk_stat (i_w (y_i ws)) j)) as (kk & s' & -> & H & _).
    + intros j Hj. destruct (dqdelta_init_stat qm C s0 j) as [Ej|[H1 H2]]; [exact Ej|]. change (c_smax C) with smax in H1. lia.
    + intros kk s Hk IH _ j Hj. destruct (dqdelta_body_stat OP A qm C kk s j) as [Ej|[H1 H2]]; [rewrite Ej; apply IH; lia|]. change (c_smax C) with smax in H1. lia.
    + exact H.
Qed.
(** C75: whatever iter_max, the solve changes no entry of the statistics outside the stat_max rows of 21 columns, and no row after the last iteration. *)
Theorem C75_stat_in_table j : (21 * Z.to_nat smax <= j)%nat \/ (21 * Z.to_nat (yo_iter o + 1) <= j)%nat -> wk_stat (i_w (y_i (yo_s o))) j = wk_stat (i_w (y_i ws)) j.
Proof.
  intros Hj. assert (Hm : (21 * Z.to_nat (Z.min smax (yo_iter o + 1)) <= j)%nat) by lia.
  destruct dqsolve_case as [[Hn E]|[(Hc & _)|(Hc & _)]]; [|apply dqstat_inv; assumption|apply dqstat_inv; assumption].
  destruct (dqunc_facts E) as [E0 _]. rewrite E0 in Hm. rewrite E. unfold dqi_unc. destruct (op_unc K OP _ _ _) as [u k].
  cbn [yo_s]. destruct (negb (Z.eqb (ai A comp_res_exit) 0)); [|reflexivity].
  destruct (dqc_res_compute _ _ _ _ _ _) as [r rw]. destruct (dqc_inf_norm _ r) as [[[a b] c] e].
  cbn [y_i i_w put_stat wk_stat]. change (c_smax C) with smax. destruct (Z.ltb_spec 0 smax) as [Hs|Hs]; [|reflexivity].
  assert (Hj' : (21 <= j)%nat) by lia. rewrite !upd_other by lia. reflexivity.
Qed.
(** C75: the last row (number = reported iterations) of the delta formulation, if it is inside the table, holds the reported norms, gap and objective. *)
Theorem C75_last_row : dq_constrained -> ai A abs_form = 0 -> yo_iter o < smax ->
  let s := yo_s o in let '(ng, nb, nd, nm) := y_max s in let r := y_r s in let row c := wk_stat (i_w (y_i s)) (21 * Z.to_nat (yo_iter o) + c)%nat in
  row 7%nat = ng /\ row 8%nat = nb /\ row 9%nat = nd /\ row 10%nat = nm /\ row 11%nat = dr_gap r /\ row 12%nat = dr_obj r /\
  (0 < yo_iter o -> row 6%nat = dr_mu r).
Proof.
  intros Hc Ha Hs. cbv zeta. destruct dqsolve_case as [[Hn _]|[(_ & Hn & _)|(_ & _ & E)]]; [contradiction|contradiction|]. rewrite E in *.
  assert (W : forall st row q r, 0 <= row + 1 < smax -> let '(a, b, c, e) := q in let st' := wstat_res C row q r st in let k := (21 * Z.to_nat (row + 1))%nat in
    st' (k + 7)%nat = a /\ st' (k + 8)%nat = b /\ st' (k + 9)%nat = c /\ st' (k + 10)%nat = e /\ st' (k + 11)%nat = dr_gap r /\ st' (k + 12)%nat = dr_obj r /\ st' (k + 6)%nat = st (k + 6)%nat).
  { intros st row [[[a b] c] e] r Hr. cbv zeta. unfold wstat_res, wstat. change (c_smax C) with smax. destruct (Z.ltb_spec (row + 1) smax) as [_|Hx]; [|lia].
    replace (Z.to_nat (21 * (row + 1))) with (21 * Z.to_nat (row + 1))%nat by lia. set (k := (21 * Z.to_nat (row + 1))%nat).
    unfold upd. repeat split; repeat match goal with |- context [Nat.eqb ?a ?b] => destruct (Nat.eqb_spec a b); [try (exfalso; lia)|try (exfalso; lia)] end; reflexivity. }
  destruct (dqsolve_delta_loop OP A QA qm C s0
    (fun kk s => kk < smax -> let '(a, b, c, e) := y_max s in let r := y_r s in let st := wk_stat (i_w (y_i s)) in let k := (21 * Z.to_nat kk)%nat in
       st (k + 7)%nat = a /\ st (k + 8)%nat = b /\ st (k + 9)%nat = c /\ st (k + 10)%nat = e /\ st (k + 11)%nat = dr_gap r /\ st (k + 12)%nat = dr_obj r /\
       (0 < kk -> st (k + 6)%nat = dr_mu r))) as (kk & s' & E1 & H & _ & Hk).
  - intros H0. unfold dqdelta_init. set (s1 := dqi_res qm s0). clearbody s1. cbv zeta. cbn [dqi_put y_max y_r y_i i_w put_stat wk_stat].
    specialize (W (wk_stat (i_w (y_i s1))) (-1) (y_max s1) (y_r s1) ltac:(lia)). destruct (y_max s1) as [[[a b] c] e]. cbv zeta in *.
    change (-1 + 1) with 0 in W. destruct W as (W1 & W2 & W3 & W4 & W5 & W6 & W7). repeat split; try assumption. lia.
  - intros kk s Hk IH Hgo H0. unfold dqi_body. set (s1 := dqi_res qm _). clearbody s1. cbv zeta. cbn [dqi_put y_max y_r y_i i_w put_stat wk_stat].
    specialize (W (wstat C kk 6 (dr_mu (y_r s1)) (wk_stat (i_w (y_i s1)))) kk (y_max s1) (y_r s1) ltac:(lia)). destruct (y_max s1) as [[[a b] c] e]. cbv zeta in *.
    destruct W as (W1 & W2 & W3 & W4 & W5 & W6 & W7). repeat split; try assumption. intros _. rewrite W7. unfold wstat. change (c_smax C) with smax.
    destruct (Z.ltb_spec (kk + 1) smax) as [_|Hx]; [|lia]. replace (Z.to_nat (21 * (kk + 1))) with (21 * Z.to_nat (kk + 1))%nat by lia.
    unfold upd. rewrite Nat.eqb_refl. reflexivity.
  - rewrite E1 in *. unfold dqi_finish in *. cbn [yo_s yo_iter] in *. apply H. exact Hs.
Qed.
End P.
Print Assumptions C75_iteration_bound.
Print Assumptions C75_unconstrained.
Print Assumptions C75_status.
Print Assumptions C75_success_certifies.
Print Assumptions C75_success_abs.
Print Assumptions C75_stat_in_table.
Print Assumptions C75_last_row.
