(** DenIpmProps.v -- the dense interior point solve: C55 (iterations, status, statistics, what SUCCESS certifies).
    Every theorem here holds for every arithmetic, every linear algebra [OP] (predictor, corrector and refinement solves may return anything,
    NaN included), every argument structure and every initial workspace. *)
From Coq Require Import ZArith Bool Arith List Lia.
From Verif Require Import Base ArithF Blas Blas2 OcpModel ResProofs2 CoreModel CoreProofs ArgModel DenModel DenIpmModel DenIpmProofs DenIpmProofs2.
Local Open Scope Z_scope.

Section P.
Context {F : Type} {AF : Arith F} {K : Type} (OP : dkops (F := F) K) (A : arg F).
Notation vec := (nat -> F).
Notation ist := (@ist F K). Notation wk := (@wk F K).
Variables (cne : nat) (lq smax : Z) (qp : dqp F) (sol : vars F) (ws : ist).
Let o := dipm_solve OP A cne lq smax qp sol ws.
Let C := mk_ctx cne lq smax qp.

(** the residuals of a solution, as DENSE_QP_RES_COMPUTE gives them for this QP, in whatever residual object and workspace *)
Definition is_residual_of (x : dsol F) (r : dres F) : Prop := exists r0 rw0, r = fst (den_res_compute (valid_of C) qp x r0 rw0).

(** *** cases of the solve *)
Lemma solve_case : (~ constrained qp /\ o = solve_unc OP A C sol ws) \/
  (constrained qp /\ ai A abs_form <> 0 /\ o = solve_abs OP A C (start A C sol ws)) \/
  (constrained qp /\ ai A abs_form = 0 /\ o = solve_delta OP A C (start A C sol ws)).
Proof.
  unfold o, dipm_solve. fold C. pose proof (constrained_count qp cne lq smax) as H. fold C in H.
  destruct (orb (Nat.eqb (d_nct qp) 0) (Nat.eqb (count_mask (d_nct qp) (c_mask C)) 0)).
  - left. split; [rewrite H; discriminate|reflexivity].
  - right. destruct (Z.eqb_spec (ai A abs_form) 0) as [E|E]; cbn [negb]; [right|left]; (split; [apply H; reflexivity|]; split; [exact E|reflexivity]).
Qed.
Lemma unc_facts : o = solve_unc OP A C sol ws -> o_iter o = 0 /\ (o_status o = NAN_SOL \/ o_status o = SUCCESS).
Proof.
  intros ->. unfold solve_unc. destruct (op_unc K OP _ _ _) as [u k]. set (w := mkwk _ _ _ _ _ _ _ _ _ _ _). clearbody w.
  destruct (negb (Z.eqb (ai A comp_res_exit) 0)).
  - destruct (call_res C (flat u) w) as [w1 [[[a b] c] e]]. cbn [o_iter o_status]. split; [reflexivity|]. destruct (isnan _); [left|right]; reflexivity.
  - cbn [o_iter o_status]. split; [reflexivity|]. destruct (isnan _); [left|right]; reflexivity.
Qed.

(** C55: the number of iterations never exceeds iter_max, whatever the factorisation returns. *)
Theorem C55_iteration_bound : 0 <= o_iter o <= Z.max 0 (ai A iter_max).
Proof.
  destruct solve_case as [[_ E]|[(_ & _ & E)|(_ & _ & E)]].
  - destruct (unc_facts E) as [-> _]. lia.
  - rewrite E. destruct (solve_abs_loop OP A C (start A C sol ws) (fun _ _ => True) I (fun _ _ _ _ _ => I)) as (kk & s' & -> & _ & _ & H).
    destruct (finish_same OP A C kk (abs_exit A C kk s')) as (_ & -> & _). exact H.
  - rewrite E. destruct (solve_delta_loop OP A C (start A C sol ws) (fun _ _ => True) I (fun _ _ _ _ _ => I)) as (kk & s' & -> & _ & _ & H).
    destruct (finish_same OP A C kk s') as (_ & -> & _). exact H.
Qed.

(** C55: QPs without (unmasked) constraints: no iteration, and the status is SUCCESS or NAN_SOL. *)
Theorem C55_unconstrained : ~ constrained qp -> o_iter o = 0 /\ (o_status o = SUCCESS \/ o_status o = NAN_SOL).
Proof.
  intros Hn. destruct solve_case as [[_ E]|[(Hc & _)|(Hc & _)]]; try contradiction. destruct (unc_facts E) as [E1 E2]. split; [exact E1|tauto].
Qed.

(** C55: meaning of the status, both formulations.  Comparisons are the C ones: false as soon as an operand is NaN. *)
Theorem C55_status : constrained qp ->
  (o_status o = MAX_ITER <-> o_iter o = ai A iter_max) /\
  (o_status o = MIN_STEP -> fleb (wk_ap (o_w o)) (ar A alpha_min) = true \/ fleb (wk_ad (o_w o)) (ar A alpha_min) = true) /\
  (o_status o = NAN_SOL -> feqb (o_mu o) (o_mu o) = false) /\
  (o_status o = SUCCESS -> feqb (o_mu o) (o_mu o) = true /\ fleb (wk_ap (o_w o)) (ar A alpha_min) = false /\ fleb (wk_ad (o_w o)) (ar A alpha_min) = false) /\
  o_status o <> INCONS_EQ.
Proof.
  intros Hc. assert (H : exists kk s, o = finish OP A C (kk, s)).
  { destruct solve_case as [[Hn _]|[(_ & _ & E)|(_ & _ & E)]]; [contradiction| |]; rewrite E.
    - destruct (solve_abs_loop OP A C (start A C sol ws) (fun _ _ => True) I (fun _ _ _ _ _ => I)) as (kk & s' & -> & _). eauto.
    - destruct (solve_delta_loop OP A C (start A C sol ws) (fun _ _ => True) I (fun _ _ _ _ _ => I)) as (kk & s' & -> & _). eauto. }
  destruct H as (kk & s & ->). destruct (finish_same OP A C kk s) as (_ & E2 & E3 & E4 & _ & _ & E7 & E8 & _).
  rewrite E2, E3, E4, E7, E8. clear. unfold final_status, isnan.
  destruct (Z.eqb_spec kk (ai A iter_max)) as [E|E]; [repeat split; intros; congruence|].
  destruct (orb _ _) eqn:Em.
  - apply orb_prop in Em. repeat split; intros; try congruence.
  - apply orb_false_elim in Em. destruct Em as [Em1 Em2]. destruct (feqb (i_mu s) (i_mu s)) eqn:En; cbn [negb]; repeat split; intros; try congruence; try assumption.
Qed.

(** C55: what SUCCESS certifies in the delta formulation (all modes except SPEED_ABS): the residual object the solver leaves is the residual of the
    solution it returns, the reported norms are its norms, and, if the step lengths are comparable with alpha_min (they are not NaN), no norm
    and not the duality gap is above its tolerance.  (res_m is taken relative to the target tau_min.) *)
Theorem C55_success_certifies : constrained qp -> ai A abs_form = 0 -> 0 <= ai A iter_max ->
  is_residual_of (view (o_x o)) (wk_res (o_w o)) /\ o_max o = den_inf_norm qp (wk_res (o_w o)) /\ o_mu o = dr_mu (wk_res (o_w o)) /\
  (o_status o = SUCCESS -> fltb (ar A alpha_min) (wk_ap (o_w o)) = true -> fltb (ar A alpha_min) (wk_ad (o_w o)) = true ->
   let '(ng, nb, nd, _) := o_max o in let r := wk_res (o_w o) in
   fltb (ar A res_g_max) ng = false /\ fltb (ar A res_b_max) nb = false /\ fltb (ar A res_d_max) nd = false /\
   fltb (ar A res_m_max) (VECNRM_INF (d_nct qp) (AXPY (d_nct qp) (fopp (ar A tau_min)) (d_mask qp) 0 (dr_m r) 0 (fun _ => f0) 0) 0) = false /\
   fltb (ar A dual_gap_max) (dr_gap r) = false).
Proof.
  intros Hc Ha Him. destruct solve_case as [[Hn _]|[(_ & Hn & _)|(_ & _ & E)]]; [contradiction|contradiction|]. rewrite E.
  destruct (solve_delta_loop OP A C (start A C sol ws) (fun _ s => reported C (i_x s) (i_w s) (i_max s) (i_mu s))) as (kk & s' & -> & (H1 & H2 & H3) & Hgo & Hk).
  { apply delta_init_rep. } { intros kk s _ _ _. apply delta_body_rep. }
  destruct (finish_same OP A C kk s') as (F1 & F2 & F3 & F4 & F5 & F6 & F7 & F8 & _). rewrite F1, F3, F4, F5, F6, F7, F8.
  split; [exact H1|]. split; [exact H2|]. split; [exact H3|]. clear F1 F2 F3 F4 F5 F6 F7 F8 E o.
  intros HS Hp Hd. unfold delta_go in Hgo. unfold final_status in HS. rewrite H2 in *. clear H2.
  change (c_qp C) with qp in *. destruct (den_inf_norm qp (wk_res (i_w s'))) as [[[a b] c] e]. cbv zeta.
  destruct (Z.eqb_spec kk (ai A iter_max)) as [|Hne]; [discriminate|].
  assert (Hlt : Z.ltb kk (ai A iter_max) = true).
  { apply Z.ltb_lt. lia. }
  rewrite Hlt in Hgo. rewrite Hp, Hd in Hgo. cbn [andb] in Hgo.
  repeat (apply orb_false_elim in Hgo; destruct Hgo as [? Hgo]). repeat split; assumption.
Qed.

(** C55, absolute formulation (SPEED_ABS): SUCCESS only certifies that mu is within res_m_max of tau_min. *)
Theorem C55_success_abs : constrained qp -> ai A abs_form <> 0 -> 0 <= ai A iter_max -> o_status o = SUCCESS ->
  fltb (ar A alpha_min) (wk_ap (o_w o)) = true -> fltb (ar A alpha_min) (wk_ad (o_w o)) = true ->
  fltb (ar A res_m_max) (fabs (fsub (o_mu o) (ar A tau_min))) = false.
Proof.
  intros Hc Ha Him. destruct solve_case as [[Hn _]|[(_ & _ & E)|(_ & Hn & _)]]; [contradiction| |contradiction]. rewrite E.
  destruct (solve_abs_loop OP A C (start A C sol ws) (fun _ _ => True) I (fun _ _ _ _ _ => I)) as (kk & s' & -> & _ & Hgo & Hk).
  destruct (finish_same OP A C kk (abs_exit A C kk s')) as (F1 & F2 & F3 & F4 & F5 & F6 & F7 & F8 & _). rewrite F3, F4, F7, F8.
  destruct (abs_exit_same A C kk s') as (E1 & E2 & E3 & E4). rewrite E2, E3, E4. intros HS Hp Hd.
  unfold final_status in HS. destruct (Z.eqb_spec kk (ai A iter_max)) as [|Hne]; [discriminate|].
  assert (Hlt : Z.ltb kk (ai A iter_max) = true) by (apply Z.ltb_lt; lia).
  unfold abs_go in Hgo. rewrite Hlt in Hgo. rewrite Hp, Hd in Hgo. exact Hgo.
Qed.

(** *** C55 *)
(** row r of the table: entries 21 r .. 21 r + 20 *)
Lemma stat_inv_delta : ai A abs_form = 0 -> constrained qp -> forall j, (21 * Z.to_nat (Z.min smax (o_iter o + 1)) <= j)%nat -> wk_stat (o_w o) j = wk_stat (i_w ws) j.
Proof.
  intros Ha Hc. destruct solve_case as [[Hn _]|[(_ & Hn & _)|(_ & _ & E)]]; [contradiction|contradiction|]. rewrite E.
  destruct (solve_delta_loop OP A C (start A C sol ws)
    (fun kk s => forall j, (21 * Z.to_nat (Z.min smax (kk + 1)) <= j)%nat -> wk_stat (i_w s) j = wk_stat (i_w ws) j)) as (kk & s' & -> & H & _).
  - intros j Hj. destruct (delta_init_stat C (start A C sol ws) j) as [Ej|[H1 H2]]; [exact Ej|]. change (c_smax C) with smax in H1. lia.
  - intros kk s Hk IH _ j Hj. destruct (delta_body_stat OP A C kk s j) as [Ej|[H1 H2]]; [rewrite Ej; apply IH; lia|]. change (c_smax C) with smax in H1. lia.
  - destruct (finish_same OP A C kk s') as (_ & F2 & _ & _ & _ & _ & _ & _ & F9). rewrite F2, F9. exact H.
Qed.
Lemma stat_inv_abs : ai A abs_form <> 0 -> constrained qp -> forall j, (21 * Z.to_nat (Z.min smax (o_iter o + 1)) <= j)%nat -> wk_stat (o_w o) j = wk_stat (i_w ws) j.
Proof.
  intros Ha Hc. destruct solve_case as [[Hn _]|[(_ & _ & E)|(_ & Hn & _)]]; [contradiction| |contradiction]. rewrite E.
  destruct (solve_abs_loop OP A C (start A C sol ws)
    (fun kk s => forall j, (21 * Z.to_nat (Z.min smax (kk + 1)) <= j)%nat -> wk_stat (i_w s) j = wk_stat (i_w ws) j)) as (kk & s' & -> & H & _ & Hk).
  - intros j Hj. reflexivity.
  - intros kk s Hk IH _ j Hj. destruct (abs_body_stat OP A C kk s j) as [Ej|[H1 H2]]; [rewrite Ej; apply IH; lia|]. change (c_smax C) with smax in H1. lia.
  - destruct (finish_same OP A C kk (abs_exit A C kk s')) as (_ & F2 & _ & _ & _ & _ & _ & _ & F9). rewrite F2, F9. intros j Hj.
    destruct (abs_exit_stat A C kk s' j) as [Ej|[H1 H2]]; [rewrite Ej; apply H; lia|]. change (c_smax C) with smax in H1. lia.
Qed.
(** C55: whatever iter_max, the solve changes no entry of the statistics outside the stat_max rows of 21 columns (the memory allocated has
    1+stat_max rows), and no row after the last iteration. *)
Theorem C55_stat_in_table j : (21 * Z.to_nat smax <= j)%nat \/ (21 * Z.to_nat (o_iter o + 1) <= j)%nat -> wk_stat (o_w o) j = wk_stat (i_w ws) j.
Proof.
  intros Hj. assert (Hm : (21 * Z.to_nat (Z.min smax (o_iter o + 1)) <= j)%nat) by lia.
  destruct solve_case as [[Hn E]|[(Hc & Ha & _)|(Hc & Ha & _)]]; [|apply stat_inv_abs; assumption|apply stat_inv_delta; assumption].
  destruct (unc_facts E) as [E0 _]. rewrite E0 in Hm. rewrite E. unfold solve_unc. destruct (op_unc K OP _ _ _) as [u k].
  set (w := mkwk _ _ _ _ _ _ _ _ _ _ _). change (wk_stat (i_w ws)) with (wk_stat w). clearbody w.
  destruct (negb (Z.eqb (ai A comp_res_exit) 0)); [|reflexivity].
  destruct (call_res_stat C (flat u) w) as (Ew & _ & _). destruct (call_res C (flat u) w) as [w1 [[[a b] c] e]]. cbn [fst] in Ew.
  cbn [o_w put_stat wk_stat]. rewrite <- Ew. change (c_smax C) with smax. destruct (Z.ltb_spec 0 smax) as [Hs|Hs]; [|reflexivity].
  assert (Hj' : (21 <= j)%nat) by lia. rewrite !upd_other by lia. reflexivity.
Qed.

(** C55: the last row (number = reported iterations) of the delta formulation, if it is inside the table, holds the reported norms, gap and objective. *)
Theorem C55_last_row : constrained qp -> ai A abs_form = 0 -> o_iter o < smax ->
  let '(ng, nb, nd, nm) := o_max o in let r := wk_res (o_w o) in let row c := wk_stat (o_w o) (21 * Z.to_nat (o_iter o) + c)%nat in
  row 7%nat = ng /\ row 8%nat = nb /\ row 9%nat = nd /\ row 10%nat = nm /\ row 11%nat = dr_gap r /\ row 12%nat = dr_obj r /\
  (0 < o_iter o -> row 6%nat = o_mu o).
Proof.
  intros Hc Ha Hs. destruct solve_case as [[Hn _]|[(_ & Hn & _)|(_ & _ & E)]]; [contradiction|contradiction|]. rewrite E in *.
  assert (W : forall st row q r, 0 <= row + 1 < smax -> let '(a, b, c, e) := q in let st' := wstat_res C row q r st in let k := (21 * Z.to_nat (row + 1))%nat in
    st' (k + 7)%nat = a /\ st' (k + 8)%nat = b /\ st' (k + 9)%nat = c /\ st' (k + 10)%nat = e /\ st' (k + 11)%nat = dr_gap r /\ st' (k + 12)%nat = dr_obj r /\ st' (k + 6)%nat = st (k + 6)%nat).
  { intros st row [[[a b] c] e] r Hr. cbv zeta. unfold wstat_res, wstat. change (c_smax C) with smax. destruct (Z.ltb_spec (row + 1) smax) as [_|Hx]; [|lia].
    replace (Z.to_nat (21 * (row + 1))) with (21 * Z.to_nat (row + 1))%nat by lia. set (k := (21 * Z.to_nat (row + 1))%nat).
    unfold upd. repeat split; repeat match goal with |- context [Nat.eqb ?a ?b] => destruct (Nat.eqb_spec a b); [try (exfalso; lia)|try (exfalso; lia)] end; reflexivity. }
  destruct (solve_delta_loop OP A C (start A C sol ws)
    (fun kk s => kk < smax -> let '(a, b, c, e) := i_max s in let r := wk_res (i_w s) in let st := wk_stat (i_w s) in let k := (21 * Z.to_nat kk)%nat in
       st (k + 7)%nat = a /\ st (k + 8)%nat = b /\ st (k + 9)%nat = c /\ st (k + 10)%nat = e /\ st (k + 11)%nat = dr_gap r /\ st (k + 12)%nat = dr_obj r /\
       (0 < kk -> st (k + 6)%nat = i_mu s))) as (kk & s' & E1 & H & _ & Hk).
  - intros H0. unfold delta_init. destruct (call_res C (i_x (start A C sol ws)) (i_w (start A C sol ws))) as [w q].
    cbn [i_max i_w put_stat wk_stat wk_res i_mu]. specialize (W (wk_stat w) (-1) q (wk_res w) ltac:(lia)). destruct q as [[[a b] c] e]. cbv zeta in *.
    change (-1 + 1) with 0 in W. destruct W as (W1 & W2 & W3 & W4 & W5 & W6 & W7). repeat split; try assumption. lia.
  - intros kk s Hk IH Hgo H0. unfold delta_body. set (w := delta_dir _ _ _ _ _ _ _ _ _). clearbody w. destruct (take_step _ _ _ _ _) as [x bkp].
    destruct (call_res C x w) as [w1 q]. cbn [i_max i_w put_stat wk_stat wk_res i_mu].
    specialize (W (wstat C kk 6 (dr_mu (wk_res w1)) (wk_stat w1)) kk q (wk_res w1) ltac:(lia)). destruct q as [[[a b] c] e]. cbv zeta in *.
    destruct W as (W1 & W2 & W3 & W4 & W5 & W6 & W7). repeat split; try assumption. intros _. rewrite W7. unfold wstat. change (c_smax C) with smax.
    destruct (Z.ltb_spec (kk + 1) smax) as [_|Hx]; [|lia]. replace (Z.to_nat (21 * (kk + 1))) with (21 * Z.to_nat (kk + 1))%nat by lia.
    unfold upd. rewrite Nat.eqb_refl. reflexivity.
  - rewrite E1 in *. destruct (finish_same OP A C kk s') as (F1 & F2 & F3 & F4 & F5 & F6 & F7 & F8 & F9). rewrite F2 in Hs. rewrite F2, F4, F5, F6, F9.
    specialize (H Hs). exact H.
Qed.
End P.
Print Assumptions C55_iteration_bound.
Print Assumptions C55_status.
Print Assumptions C55_success_certifies.
Print Assumptions C55_success_abs.
Print Assumptions C55_stat_in_table.
Print Assumptions C55_last_row.
