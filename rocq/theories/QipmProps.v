(** QipmProps.v -- C61 (part 1): the interior point solve of the OCP QCQP: iterations, status, what SUCCESS certifies, statistics.
    Every theorem here holds for every arithmetic, every linear algebra [OP] (predictor, corrector and refinement solves may return anything,
    NaN included), every argument structure, every initial workspace, and every content of the memory behind the two pointers that the
    initialisation reads without having set them ([lgm], [ugm]; see C62).  Part 2, in exact arithmetic, is QipmRealProps.v. *)
From Coq Require Import ZArith Bool Arith List Lia.
From Verif Require Import Base ArithF Blas Blas2 QpDataProofs OcpModel ResProofs2 CoreModel CoreProofs ArgModel IpmModel IpmProofs IpmProofs2 QcqpModel QipmModel QipmProofs.
Local Open Scope Z_scope.

Section P.
Context {F : Type} {AF : Arith F} {K : Type} (OP : kops (F := F) K) (A QA : arg F).
Notation vec := (nat -> F).
Notation qst := (@qst F K). Notation wk := (@wk F K).
Variables (lq smax : Z) (qc : oqcqp F) (lgm ugm : vec) (sol : vars F) (ws : qst).
Let o := qipm_solve OP A QA lq smax qc lgm ugm sol ws.
Let qm := masked_qc qc.
Let s0 := qstart QA qc lgm ugm sol ws.
Let C := qctx lq smax qc (a_qp (qs_a s0)).
Let D := qcD qc.

(** some constraint is left after the solver has switched off the lower sides of the quadratic constraints and the slacks softening them *)
Definition qconstrained : Prop := exists i c, (i <= dN (c_dim qc))%nat /\ (c < nct (qcD qc) i)%nat /\ feqb (mask_lower qc i c) f0 = false.
(** the residuals of a solution, as OCP_QCQP_RES_COMPUTE gives them for this (masked) QCQP from the cached constraint values and adjoints of that solution, in
    whatever residual object and workspace *)
Definition is_qresidual_of (x : osol F) (r : ores F) : Prop :=
  exists a r0 rw0, lin_at qm x a /\ r = fst (qcres_compute (Some (a_fun a, a_adj a)) None qm x r0 rw0).

Lemma mask_at i c : (i <= dN (c_dim qc))%nat -> (c < nct D i)%nat -> q_mask (a_qp (qs_a s0)) i c = mask_lower qc i c.
Proof.
  intros Hi Hc. unfold s0, qstart. cbn [qs_a]. match goal with |- context [approx_qp ?q ?x ?a] => destruct (approx_qp_mask q x a) as [_ H] end. apply H; assumption.
Qed.
Lemma cmask_at k : (k < tot_c D)%nat -> IpmModel.c_mask C k = flatc D (mask_lower qc) k.
Proof.
  intros Hk. change (IpmModel.c_mask C) with (flatc D (q_mask (a_qp (qs_a s0)))). rewrite tot_c_nsum in Hk. destruct (nsum_locate _ _ _ Hk) as (i & c & Hi & Hc & ->).
  unfold flatc. rewrite !cat_at by assumption. apply mask_at; [|exact Hc]. change (dN D) with (dN (c_dim qc)) in Hi. lia.
Qed.
Lemma qconstrained_count : qconstrained <-> orb (Nat.eqb (tot_c D) 0) (Nat.eqb (count_mask (tot_c D) (IpmModel.c_mask C)) 0) = false.
Proof.
  split.
  - intros (i & c & Hi & Hc & E). fold D in Hc.
    assert (Hlt : (nsum i (nct D) + c < tot_c D)%nat) by (rewrite tot_c_nsum; apply win_off_lt; [change (dN D) with (dN (c_dim qc)); lia|exact Hc]).
    apply orb_false_intro; apply Nat.eqb_neq; [lia|]. intros H0. apply count_mask_0 with (i := (nsum i (nct D) + c)%nat) in H0; [|exact Hlt].
    rewrite cmask_at in H0 by exact Hlt. unfold flatc in H0. rewrite cat_at in H0 by (first [exact Hc|change (dN D) with (dN (c_dim qc)); lia]). rewrite E in H0. discriminate.
  - intros H. apply orb_false_elim in H. destruct H as [_ H]. apply Nat.eqb_neq in H.
    assert (Hex : exists k, (k < tot_c D)%nat /\ feqb (IpmModel.c_mask C k) f0 = false).
    { assert (G : forall n, count_mask n (IpmModel.c_mask C) <> 0%nat -> exists k, (k < n)%nat /\ feqb (IpmModel.c_mask C k) f0 = false).
      { induction n as [|n IH]; [cbn; intros Hx; contradiction|]. unfold count_mask. cbn [loop]. destruct (feqb (IpmModel.c_mask C n) f0) eqn:E; cbn [negb].
        - intros Hx. destruct (IH Hx) as (k & Hk & Ek). exists k. split; [lia|exact Ek].
        - intros _. exists n. split; [lia|exact E]. }
      apply G; exact H. }
    destruct Hex as (k & Hk & Ek). rewrite cmask_at in Ek by exact Hk. rewrite tot_c_nsum in Hk. destruct (nsum_locate _ _ _ Hk) as (i & j & Hi & Hj & ->).
    unfold flatc in Ek. rewrite cat_at in Ek by assumption. exists i, j. fold D. split; [change (dN D) with (dN (c_dim qc)) in Hi; lia|]. split; assumption.
Qed.
Lemma qsolve_case : (~ qconstrained /\ o = qsolve_unc OP A qm C s0) \/
  (qconstrained /\ ai A abs_form <> 0 /\ o = qsolve_abs OP A QA qm C s0) \/
  (qconstrained /\ ai A abs_form = 0 /\ o = qsolve_delta OP A QA qm C s0).
Proof.
  unfold o, qipm_solve. fold s0 C D qm. pose proof qconstrained_count as H. destruct (orb _ _).
  - left. split; [rewrite H; discriminate|reflexivity].
  - right. destruct (Z.eqb_spec (ai A abs_form) 0) as [E|E]; cbn [negb]; [right|left]; (split; [apply H; reflexivity|]; split; [exact E|reflexivity]).
Qed.
Lemma qunc_facts : o = qsolve_unc OP A qm C s0 -> qo_iter o = 0 /\ (qo_status o = SUCCESS \/ qo_status o = NAN_SOL).
Proof.
  intros ->. unfold qsolve_unc. destruct (op_unc K OP _ _ _) as [u k]. cbn [qo_iter qo_status]. split; [reflexivity|]. destruct (isnan _); [right|left]; reflexivity.
Qed.

(** C61: the number of iterations never exceeds iter_max of the QCQP arguments, whatever the factorisation returns. *)
Theorem C61_iteration_bound : 0 <= qo_iter o <= Z.max 0 (ai QA iter_max).
Proof.
  destruct qsolve_case as [[_ E]|[(_ & _ & E)|(_ & _ & E)]].
  - destruct (qunc_facts E) as [-> _]. lia.
  - rewrite E. destruct (qsolve_abs_loop OP A QA qm C s0 (fun _ _ => True) I (fun _ _ _ _ _ => I)) as (kk & s' & -> & _ & _ & H). exact H.
  - rewrite E. destruct (qsolve_delta_loop OP A QA qm C s0 (fun _ _ => True) I (fun _ _ _ _ _ => I)) as (kk & s' & -> & _ & _ & H). exact H.
Qed.
(** C61: no constraint left: no iteration, and the status is SUCCESS or NAN_SOL. *)
Theorem C61_unconstrained : ~ qconstrained -> qo_iter o = 0 /\ (qo_status o = SUCCESS \/ qo_status o = NAN_SOL).
Proof. intros Hn. destruct qsolve_case as [[_ E]|[(Hc & _)|(Hc & _)]]; try contradiction. exact (qunc_facts E). Qed.

(** C61: meaning of the status, both formulations.  Comparisons are the C ones: false as soon as an operand is NaN. *)
Theorem C61_status : qconstrained -> let i := qs_i (qo_s o) in let w := i_w i in
  (qo_status o = MAX_ITER <-> qo_iter o = ai QA iter_max) /\
  (qo_status o = MIN_STEP -> fleb (wk_ap w) (ar QA alpha_min) = true \/ fleb (wk_ad w) (ar QA alpha_min) = true) /\
  (qo_status o = NAN_SOL -> feqb (i_mu i) (i_mu i) = false) /\
  (qo_status o = SUCCESS -> feqb (i_mu i) (i_mu i) = true /\ fleb (wk_ap w) (ar QA alpha_min) = false /\ fleb (wk_ad w) (ar QA alpha_min) = false) /\
  qo_status o <> INCONS_EQ.
Proof.
  intros Hc. cbv zeta. assert (H : exists kk s, o = qfinish QA (kk, s)).
  { destruct qsolve_case as [[Hn _]|[(_ & _ & E)|(_ & _ & E)]]; [contradiction| |]; rewrite E.
    - destruct (qsolve_abs_loop OP A QA qm C s0 (fun _ _ => True) I (fun _ _ _ _ _ => I)) as (kk & s' & -> & _). eauto.
    - destruct (qsolve_delta_loop OP A QA qm C s0 (fun _ _ => True) I (fun _ _ _ _ _ => I)) as (kk & s' & -> & _). eauto. }
  destruct H as (kk & s & ->). unfold qfinish. cbn [qo_s qo_iter qo_status]. clear. unfold final_status, isnan.
  destruct (Z.eqb_spec kk (ai QA iter_max)) as [E|E]; [repeat split; intros; congruence|].
  destruct (orb _ _) eqn:Em.
  - apply orb_prop in Em. repeat split; intros; try congruence.
  - apply orb_false_elim in Em. destruct Em as [Em1 Em2]. destruct (feqb (i_mu (qs_i s)) (i_mu (qs_i s))) eqn:En; cbn [negb]; repeat split; intros; try congruence; try assumption.
Qed.

Lemma norm_ext n (x y : vec) : (forall k, (k < n)%nat -> x k = y k) -> VECNRM_INF n x 0 = VECNRM_INF n y 0.
Proof. intros H. unfold VECNRM_INF. apply loop_ext. intros k a Hk. cbn [Nat.add]. rewrite H by exact Hk. reflexivity. Qed.

(** C61: what SUCCESS certifies in the delta formulation (all modes except SPEED_ABS): the residual object the solver leaves is the residual of the
    solution it returns for the QCQP with the lower sides switched off, the reported norms are its norms, and, if the step lengths are comparable
    with alpha_min (they are not NaN), no norm and not the duality gap is above the tolerance of the QCQP arguments.  (res_m is taken relative to
    the target tau_min, the one of the embedded QP arguments.) *)
Theorem C61_success_certifies : qconstrained -> ai A abs_form = 0 -> 0 <= ai QA iter_max ->
  let s := qo_s o in let w := i_w (qs_i s) in let r := qs_r s in
  is_qresidual_of (view D (qs_x s)) r /\ qs_max s = qcres_inf_norm (c_dim qc) (c_nq qc) r /\ i_mu (qs_i s) = r_mu r /\
  (qo_status o = SUCCESS -> fltb (ar QA alpha_min) (wk_ap w) = true -> fltb (ar QA alpha_min) (wk_ad w) = true ->
   let '(ng, nb, nd, _) := qs_max s in
   fltb (ar QA res_g_max) ng = false /\ fltb (ar QA res_b_max) nb = false /\ fltb (ar QA res_d_max) nd = false /\
   fltb (ar QA res_m_max) (VECNRM_INF (tot_c D) (AXPY (tot_c D) (fopp (ar A tau_min)) (flatc D (mask_lower qc)) 0 (flatc D (r_m r)) 0 (fun _ => f0) 0) 0) = false /\
   fltb (ar QA dual_gap_max) (r_gap r) = false).
Proof.
  intros Hc Ha Him. cbv zeta. destruct qsolve_case as [[Hn _]|[(_ & Hn & _)|(_ & _ & E)]]; [contradiction|contradiction|]. rewrite E.
  destruct (qsolve_delta_loop OP A QA qm C s0 (fun _ s => qreported qm s)) as (kk & s' & -> & ((r0 & rw0 & H1) & H2 & H3 & H4) & Hgo & Hk).
  { unfold qdelta_init. cbv zeta. pose proof (qcall_res_rep qm s0) as H. apply H. exists (qs_a ws). left. reflexivity. }
  { intros kk s _ _ _. apply qdelta_body_rep. }
  unfold qfinish. cbn [qo_s qo_status]. change (qcD qm) with D in *.
  split; [exists (qs_a s'), r0, rw0; split; [exact H4|exact H1]|]. split; [exact H2|]. split; [exact H3|].
  intros HS Hp Hd. unfold qdelta_go in Hgo. unfold final_status in HS. destruct (qs_max s') as [[[a b] c] e].
  destruct (Z.eqb_spec kk (ai QA iter_max)) as [|Hne]; [discriminate|].
  assert (Hlt : Z.ltb kk (ai QA iter_max) = true) by (apply Z.ltb_lt; lia).
  rewrite Hlt in Hgo. rewrite Hp, Hd in Hgo. cbn [andb] in Hgo. change (qcD qm) with D in Hgo.
  repeat (apply orb_false_elim in Hgo; destruct Hgo as [? Hgo]).
  split; [assumption|]. split; [assumption|]. split; [assumption|]. split; [|assumption].
  match goal with H : fltb (ar QA res_m_max) ?x = false |- fltb (ar QA res_m_max) ?y = false => replace y with x; [exact H|] end.
  apply norm_ext. intros k Hk'. unfold AXPY. rewrite !vset0_in by exact Hk'. cbn [Nat.add]. rewrite cmask_at by exact Hk'. reflexivity.
Qed.

(** C61, absolute formulation (SPEED_ABS): SUCCESS only certifies that mu is within res_m_max of tau_min. *)
Theorem C61_success_abs : qconstrained -> ai A abs_form <> 0 -> 0 <= ai QA iter_max -> qo_status o = SUCCESS ->
  let i := qs_i (qo_s o) in let w := i_w i in
  fltb (ar QA alpha_min) (wk_ap w) = true -> fltb (ar QA alpha_min) (wk_ad w) = true ->
  fltb (ar QA res_m_max) (fabs (fsub (i_mu i) (ar A tau_min))) = false.
Proof.
  intros Hc Ha Him. cbv zeta. destruct qsolve_case as [[Hn _]|[(_ & _ & E)|(_ & Hn & _)]]; [contradiction| |contradiction]. rewrite E.
  destruct (qsolve_abs_loop OP A QA qm C s0 (fun _ _ => True) I (fun _ _ _ _ _ => I)) as (kk & s' & -> & _ & Hgo & Hk).
  unfold qfinish. cbn [qo_s qo_status]. destruct (qabs_exit_vals A qm C kk s') as (E2 & E3 & E4). rewrite E2, E3, E4. intros HS Hp Hd.
  unfold final_status in HS. destruct (Z.eqb_spec kk (ai QA iter_max)) as [|Hne]; [discriminate|].
  assert (Hlt : Z.ltb kk (ai QA iter_max) = true) by (apply Z.ltb_lt; lia).
  unfold qabs_go in Hgo. rewrite Hlt in Hgo. rewrite Hp, Hd in Hgo. exact Hgo.
Qed.

Lemma qstat_inv : qconstrained -> forall j, (21 * Z.to_nat (Z.min smax (qo_iter o + 1)) <= j)%nat -> wk_stat (i_w (qs_i (qo_s o))) j = wk_stat (i_w (qs_i ws)) j.
Proof.
  intros Hc. destruct qsolve_case as [[Hn _]|[(_ & _ & E)|(_ & _ & E)]]; [contradiction| |]; rewrite E.
  - destruct (qsolve_abs_loop OP A QA qm C s0
      (fun kk s => forall j, (21 * Z.to_nat (Z.min smax (kk + 1)) <= j)%nat -> wk_stat (i_w (qs_i s)) j = wk_stat (i_w (qs_i ws)) j)) as (kk & s' & -> & H & _ & Hk).
    + intros j Hj. reflexivity.
    + intros kk s Hk IH _ j Hj. destruct (qabs_body_stat OP A qm C kk s j) as [Ej|[H1 H2]]; [rewrite Ej; apply IH; lia|]. change (c_smax C) with smax in H1. lia.
    + unfold qfinish. cbn [qo_s qo_iter]. intros j Hj.
      destruct (qabs_exit_stat A qm C kk s' j) as [Ej|[H1 H2]]; [rewrite Ej; apply H; lia|]. change (c_smax C) with smax in H1. lia.
  - destruct (qsolve_delta_loop OP A QA qm C s0
      (fun kk s => forall j, (21 * Z.to_nat (Z.min smax (kk + 1)) <= j)%nat -> wk_stat (i_w (qs_i s)) j = wk_stat (i_w (qs_i ws)) j)) as (kk & s' & -> & H & _).
    + intros j Hj. destruct (qdelta_init_stat qm C s0 j) as [Ej|[H1 H2]]; [exact Ej|]. change (c_smax C) with smax in H1. lia.
    + intros kk s Hk IH _ j Hj. destruct (qdelta_body_stat OP A qm C kk s j) as [Ej|[H1 H2]]; [rewrite Ej; apply IH; lia|]. change (c_smax C) with smax in H1. lia.
    + exact H.
Qed.
(** C61: whatever iter_max, the solve changes no entry of the statistics outside the stat_max rows of 21 columns, and no row after the last iteration. *)
Theorem C61_stat_in_table j : (21 * Z.to_nat smax <= j)%nat \/ (21 * Z.to_nat (qo_iter o + 1) <= j)%nat -> wk_stat (i_w (qs_i (qo_s o))) j = wk_stat (i_w (qs_i ws)) j.
Proof.
  intros Hj. assert (Hm : (21 * Z.to_nat (Z.min smax (qo_iter o + 1)) <= j)%nat) by lia.
  destruct qsolve_case as [[Hn E]|[(Hc & _)|(Hc & _)]]; [|apply qstat_inv; assumption|apply qstat_inv; assumption].
  destruct (qunc_facts E) as [E0 _]. rewrite E0 in Hm. rewrite E. unfold qsolve_unc. destruct (op_unc K OP _ _ _) as [u k].
  cbn [qo_s]. destruct (negb (Z.eqb (ai A comp_res_exit) 0)); [|reflexivity].
  destruct (qcres_compute _ _ _ _ _ _) as [r rw]. destruct (qcres_inf_norm _ _ r) as [[[a b] c] e].
  cbn [qs_i i_w put_stat wk_stat]. change (c_smax C) with smax. destruct (Z.ltb_spec 0 smax) as [Hs|Hs]; [|reflexivity].
  assert (Hj' : (21 <= j)%nat) by lia. rewrite !upd_other by lia. reflexivity.
Qed.
(** C61: the last row (number = reported iterations) of the delta formulation, if it is inside the table, holds the reported norms, gap and objective. *)
Theorem C61_last_row : qconstrained -> ai A abs_form = 0 -> qo_iter o < smax ->
  let s := qo_s o in let '(ng, nb, nd, nm) := qs_max s in let r := qs_r s in let row c := wk_stat (i_w (qs_i s)) (21 * Z.to_nat (qo_iter o) + c)%nat in
  row 7%nat = ng /\ row 8%nat = nb /\ row 9%nat = nd /\ row 10%nat = nm /\ row 11%nat = r_gap r /\ row 12%nat = r_obj r /\
  (0 < qo_iter o -> row 6%nat = r_mu r).
Proof.
  intros Hc Ha Hs. cbv zeta. destruct qsolve_case as [[Hn _]|[(_ & Hn & _)|(_ & _ & E)]]; [contradiction|contradiction|]. rewrite E in *.
  assert (W : forall st row q r, 0 <= row + 1 < smax -> let '(a, b, c, e) := q in let st' := wstat_res C row q r st in let k := (21 * Z.to_nat (row + 1))%nat in
    st' (k + 7)%nat = a /\ st' (k + 8)%nat = b /\ st' (k + 9)%nat = c /\ st' (k + 10)%nat = e /\ st' (k + 11)%nat = r_gap r /\ st' (k + 12)%nat = r_obj r /\ st' (k + 6)%nat = st (k + 6)%nat).
  { intros st row [[[a b] c] e] r Hr. cbv zeta. unfold wstat_res, wstat. change (c_smax C) with smax. destruct (Z.ltb_spec (row + 1) smax) as [_|Hx]; [|lia].
    replace (Z.to_nat (21 * (row + 1))) with (21 * Z.to_nat (row + 1))%nat by lia. set (k := (21 * Z.to_nat (row + 1))%nat).
    unfold upd. repeat split; repeat match goal with |- context [Nat.eqb ?a ?b] => destruct (Nat.eqb_spec a b); [try (exfalso; lia)|try (exfalso; lia)] end; reflexivity. }
  destruct (qsolve_delta_loop OP A QA qm C s0
    (fun kk s => kk < smax -> let '(a, b, c, e) := qs_max s in let r := qs_r s in let st := wk_stat (i_w (qs_i s)) in let k := (21 * Z.to_nat kk)%nat in
       st (k + 7)%nat = a /\ st (k + 8)%nat = b /\ st (k + 9)%nat = c /\ st (k + 10)%nat = e /\ st (k + 11)%nat = r_gap r /\ st (k + 12)%nat = r_obj r /\
       (0 < kk -> st (k + 6)%nat = r_mu r))) as (kk & s' & E1 & H & _ & Hk).
  - intros H0. unfold qdelta_init. set (s1 := qcall_res qm s0). clearbody s1. cbv zeta. cbn [qput_stat qs_max qs_r qs_i i_w put_stat wk_stat].
    specialize (W (wk_stat (i_w (qs_i s1))) (-1) (qs_max s1) (qs_r s1) ltac:(lia)). destruct (qs_max s1) as [[[a b] c] e]. cbv zeta in *.
    change (-1 + 1) with 0 in W. destruct W as (W1 & W2 & W3 & W4 & W5 & W6 & W7). repeat split; try assumption. lia.
  - intros kk s Hk IH Hgo H0. unfold qdelta_body. set (s1 := qcall_res qm _). clearbody s1. cbv zeta. cbn [qput_stat qs_max qs_r qs_i i_w put_stat wk_stat].
    specialize (W (wstat C kk 6 (r_mu (qs_r s1)) (wk_stat (i_w (qs_i s1)))) kk (qs_max s1) (qs_r s1) ltac:(lia)). destruct (qs_max s1) as [[[a b] c] e]. cbv zeta in *.
    destruct W as (W1 & W2 & W3 & W4 & W5 & W6 & W7). repeat split; try assumption. intros _. rewrite W7. unfold wstat. change (c_smax C) with smax.
    destruct (Z.ltb_spec (kk + 1) smax) as [_|Hx]; [|lia]. replace (Z.to_nat (21 * (kk + 1))) with (21 * Z.to_nat (kk + 1))%nat by lia.
    unfold upd. rewrite Nat.eqb_refl. reflexivity.
  - rewrite E1 in *. unfold qfinish in *. cbn [qo_s qo_iter] in *. apply H. exact Hs.
Qed.
End P.
Print Assumptions C61_iteration_bound.
Print Assumptions C61_unconstrained.
Print Assumptions C61_status.
Print Assumptions C61_success_certifies.
Print Assumptions C61_success_abs.
Print Assumptions C61_stat_in_table.
Print Assumptions C61_last_row.
