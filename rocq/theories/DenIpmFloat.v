(** DenIpmFloat.v -- C55 in IEEE double precision: the dense solver never reports SUCCESS with a residual norm above its tolerance. *)
From Coq Require Import ZArith Bool Arith List Lia.
From Coq Require Import Floats.SpecFloat.
From Verif Require Import Base ArithF Blas Blas2 QpDataProofs OcpModel ResProofs2 CoreModel CoreProofs ArgModel DenModel DenIpmModel DenIpmProofs DenIpmProofs2 DenIpmProps.
From Verif Require IpmFloat.
Local Open Scope Z_scope.
Notation sfl := spec_float.
Notation nan := S754_nan.

Lemma den_mu_nan valid (qp : dqp sfl) sol r0 w0 c : (c < d_nct qp)%nat -> ds_lam sol c = nan \/ ds_t sol c = nan ->
  dr_mu (fst (den_res_compute valid qp sol r0 w0)) = nan.
Proof.
  intros Hc Hn. unfold den_res_compute. destruct (match valid with Some (a, b) => (a, b) | None => _ end) as [mc inv].
  destruct (ineq_block _ _ _ _ _ _ _ _ _ _) as [[[g dd] bg0] bg1].
  match goal with |- context [if Nat.ltb 0 (d_ns qp) then ?a else ?b] => set (soft := if Nat.ltb 0 (d_ns qp) then a else b) end.
  destruct soft as [[[g' dd'] obj] gap].
  match goal with |- context [if Nat.ltb 0 (d_ne qp) then ?a else (?b, g', ?c)] => set (dynb := if Nat.ltb 0 (d_ne qp) then a else (b, g', c)) end.
  destruct dynb as [[bb g2] gap2]. cbn [fst dr_mu]. unfold d_nct in Hc.
  set (nc0 := (2 * d_nb qp + 2 * d_ng qp + 2 * d_ns qp)%nat) in *.
  match goal with |- fmul ?x _ = nan => assert (E : x = nan); [|rewrite E; apply IpmFloat.nan_mul_l] end.
  unfold VECNRM_1. apply IpmFloat.fsum_nan with c; [exact Hc|]. cbn [Nat.add].
  set (lamk := if mc then VECMUL nc0 (ds_lam sol) 0 (d_mask qp) 0 (w_lam w0) 0 else VECCP nc0 (ds_lam sol) 0 (w_lam w0) 0).
  assert (H1 : fmul (lamk c) (ds_t sol c) = nan).
  { apply IpmFloat.mul_nan_cases. destruct Hn as [Hn|Hn]; [left|right; exact Hn]. subst lamk. destruct mc.
    - unfold VECMUL. rewrite vset0_in by exact Hc. cbn [Nat.add]. rewrite Hn. apply IpmFloat.nan_mul_l.
    - unfold VECCP. rewrite vset0_in by exact Hc. exact Hn. }
  clearbody lamk.
  assert (H2 : forall mm0, AXPY nc0 (fopp f1) (d_m qp) 0 (VECMUL nc0 lamk 0 (ds_t sol) 0 mm0 0) 0 (VECMUL nc0 lamk 0 (ds_t sol) 0 mm0 0) 0 c = nan).
  { intros mm0. unfold AXPY. rewrite vset0_in by exact Hc. unfold VECMUL. cbn [Nat.add]. rewrite vset0_in by exact Hc. cbn [Nat.add]. rewrite H1.
    rewrite ?IpmFloat.nan_add_r, ?IpmFloat.nan_add_l. reflexivity. }
  destruct mc; [|rewrite H2; reflexivity]. unfold VECMUL at 1. rewrite vset0_in by exact Hc. cbn [Nat.add]. rewrite H2, IpmFloat.nan_mul_r. reflexivity.
Qed.

Section P.
Context {K : Type} (OP : dkops (F := sfl) K) (A : arg sfl).
Variables (cne : nat) (lq smax : Z) (qp : dqp sfl) (sol : vars sfl) (ws : @ist sfl K).
Let o := dipm_solve OP A cne lq smax qp sol ws.
Let C := mk_ctx cne lq smax qp.
Let nc := d_nct qp.
(** a NaN step length makes every multiplier or every slack NaN *)
Lemma take_step_nan x bkp (w : @wk sfl K) k : (k < nc)%nat -> wk_ap w = nan \/ wk_ad w = nan ->
  va_lam (fst (take_step A C x bkp w)) k = nan \/ va_t (fst (take_step A C x bkp w)) k = nan.
Proof.
  intros Hk Hn. unfold take_step. change (d_nct (c_qp C)) with nc.
  pose proof (update_var_spec (tot_v (c_qp C)) (c_ne C) nc (ai A t_lam_min) (ar A lam_min) (ar A t_min) (wk_ap w) (wk_ad w) (wk_stp w) x bkp k) as U.
  destruct (update_var _ _ _ _ _ _ _ _ _ _) as [x' b']. destruct (damped (wk_ap w) (wk_ad w)) as [p q] eqn:Ed.
  assert (Hpq : p = nan \/ q = nan).
  { pose proof (IpmFloat.damped_nan (wk_ap w) (wk_ad w) Hn) as H. rewrite Ed in H. exact H. }
  destruct U as (_ & _ & U3 & U4 & _). assert (Hb : Nat.ltb k nc = true) by (apply Nat.ltb_lt; exact Hk). rewrite Hb in U3, U4. cbn zeta in U3, U4.
  cbn [fst va_lam va_t]. destruct Hpq as [-> | ->].
  - right. rewrite U4, IpmFloat.nan_mul_l, IpmFloat.nan_add_r. destruct (Z.eqb _ 2); reflexivity.
  - left. assert (E : va_lam x' k = nan) by (rewrite U3, IpmFloat.nan_mul_l, IpmFloat.nan_add_r; destruct (Z.eqb _ 2); reflexivity).
    unfold domask. change (d_nct (c_qp C)) with nc. destruct (c_mc C); [|exact E]. unfold VECMUL. rewrite vset0_in by exact Hk. cbn [Nat.add]. rewrite E. apply IpmFloat.nan_mul_r.
Qed.
Lemma delta_nan kk (s : @ist sfl K) : constrained qp -> let s' := delta_body OP A C kk s in wk_ap (i_w s') = nan \/ wk_ad (i_w s') = nan -> i_mu s' = nan.
Proof.
  intros (c & Hc & _). cbv zeta. destruct (delta_body_step OP A C kk s) as (w & _ & E & E1 & E2). rewrite E1, E2. intros Hn.
  destruct (delta_body_rep OP A C kk s) as ((r0 & rw0 & Hr) & _ & Hm). cbv zeta in *. rewrite Hm, Hr.
  apply den_mu_nan with c; [exact Hc|].
  pose proof (take_step_nan (i_x s) (i_bkp s) w c) as H. rewrite <- E in H. apply H; [exact Hc|exact Hn].
Qed.

(** C55 (IEEE doubles): constrained QP, delta formulation, alpha_min not NaN, iter_max >= 0.  SUCCESS implies that the step lengths are numbers and
    that no residual norm of the returned solution and not its duality gap is above the tolerance -- whatever the linear algebra returned. *)
Theorem C55_success_ieee : constrained qp -> ai A abs_form = 0 -> 0 <= ai A iter_max -> is_nan_sf (ar A alpha_min) = false -> o_status o = SUCCESS ->
  SFltb (ar A alpha_min) (wk_ap (o_w o)) = true /\ SFltb (ar A alpha_min) (wk_ad (o_w o)) = true /\
  let '(ng, nb, nd, _) := o_max o in let r := wk_res (o_w o) in
  SFltb (ar A res_g_max) ng = false /\ SFltb (ar A res_b_max) nb = false /\ SFltb (ar A res_d_max) nd = false /\
  SFltb (ar A res_m_max) (VECNRM_INF nc (AXPY nc (SFopp (ar A tau_min)) (d_mask qp) 0 (dr_m r) 0 (fun _ => f0) 0) 0) = false /\
  SFltb (ar A dual_gap_max) (dr_gap r) = false.
Proof.
  intros Hc Ha Him Hnan HS. pose proof (C55_success_certifies OP A cne lq smax qp sol ws Hc Ha Him) as (_ & _ & _ & H). fold o in H. specialize (H HS).
  assert (Hal : wk_ap (o_w o) <> nan /\ wk_ad (o_w o) <> nan).
  { destruct (C55_status OP A cne lq smax qp sol ws Hc) as (_ & _ & _ & Hst & _). fold o in Hst. destruct (Hst HS) as (Hmu & _). clear Hst H.
    destruct (solve_case OP A cne lq smax qp sol ws) as [[Hn _]|[(_ & Hn & _)|(_ & _ & E)]]; [contradiction|contradiction|]. fold o C in E.
    destruct (solve_delta_loop OP A C (start A C sol ws) (fun _ s => wk_ap (i_w s) = nan \/ wk_ad (i_w s) = nan -> i_mu s = nan)) as (kk & s' & E' & HI & _).
    - destruct (delta_init_al C (start A C sol ws)) as [E1 E2]. rewrite E1, E2. intros [Hx|Hx]; discriminate Hx.
    - intros kk s _ _ _. apply delta_nan. exact Hc.
    - rewrite E, E' in Hmu |- *. destruct (finish_same OP A C kk s') as (_ & _ & _ & F4 & _ & _ & F7 & F8 & _). rewrite F4 in Hmu. rewrite F7, F8.
      split; intros Hx; rewrite HI in Hmu by tauto; discriminate Hmu. }
  destruct (C55_status OP A cne lq smax qp sol ws Hc) as (_ & _ & _ & Hst & _). fold o in Hst. destruct (Hst HS) as (_ & Hp & Hd).
  assert (T : forall a b, is_nan_sf a = false -> b <> nan -> SFleb b a = false -> SFltb a b = true).
  { clear. intros a b Ha Hb H. assert (Hb' : is_nan_sf b = false) by (destruct b; try reflexivity; congruence).
    pose proof (SFcompare_num b a Hb' Ha) as N1. unfold SFleb in H. unfold SFltb.
    assert (Sw : SFcompare a b = match SFcompare b a with Some Lt => Some Gt | Some Gt => Some Lt | x => x end).
    { destruct a as [[]|[]| |[] ma ea], b as [[]|[]| |[] mb eb]; try discriminate; try reflexivity; cbn [SFcompare];
        rewrite (Z.compare_antisym ea eb); destruct (ea ?= eb); cbn [CompOpp]; try reflexivity;
        change (Pcompare mb ma Eq) with (Pos.compare mb ma); change (Pcompare ma mb Eq) with (Pos.compare ma mb); rewrite (Pos.compare_antisym ma mb); destruct (Pos.compare ma mb); reflexivity. }
    rewrite Sw. destruct (SFcompare b a) as [[]|]; try discriminate; [reflexivity|congruence]. }
  destruct Hal as [Np Nd]. pose proof (T _ _ Hnan Np Hp) as Tp. pose proof (T _ _ Hnan Nd Hd) as Td.
  split; [exact Tp|]. split; [exact Td|]. exact (H Tp Td).
Qed.
End P.
Print Assumptions C55_success_ieee.

(** *** A concrete case, and what is false of the code *)
Definition z0 : sfl := S754_zero false.
(** one variable v with -1 <= v <= 1, cost v^2/2 + g v *)
Definition exf_den (g : sfl) : dqp sfl := mkdqp 1 0 1 0 0 (fun _ _ => sf_of_Z 1) (fun _ _ => z0) (fun _ _ => z0) (fun _ => g) (fun _ => z0)
  (fun _ => sf_of_Z (-1)) (fun _ => sf_of_Z 1) (fun _ => z0) (fun _ => z0) (fun _ => 0%nat) (fun _ => -1).
(** the SPEED preset with a warm start of all variables *)
Definition exf_arg : arg sfl := wi warm_start 3 (den_default SPEED).
Definition exf_sol : vars sfl := mkvars (fun _ => z0) (fun _ => z0) (fun _ => z0) (fun _ => sf_of_Z 1).
Definition exf_ws : @ist sfl unit := 
  mkist exf_sol exf_sol (mkwk exf_sol exf_sol (mkdres (fun _ => z0) (fun _ => z0) (fun _ => z0) (fun _ => z0) z0 z0 z0 z0)
    (mkdres (fun _ => z0) (fun _ => z0) (fun _ => z0) (fun _ => z0) z0 z0 z0 z0) (mkrws (fun _ => z0) (fun _ => z0) (fun _ => z0)) z0 z0 z0 z0 (fun _ => z0) tt) z0 (fun _ => z0) (z0, z0, z0, z0).
(** the hypotheses of C55_success_ieee are met by this QP and the solver does report SUCCESS on it *)
Example C55_ieee_hypotheses_met (OP : dkops (F := sfl) unit) : let A := exf_arg in
  constrained (exf_den z0) /\ ai A abs_form = 0 /\ 0 <= ai A iter_max /\ is_nan_sf (ar A alpha_min) = false /\
  o_status (dipm_solve OP A 0 0 10 (exf_den z0) exf_sol exf_ws) = SUCCESS.
Proof. cbv zeta. split; [exists 0%nat; repeat split; vm_compute; lia|]. vm_compute. repeat split; discriminate. Qed.
(** SUCCESS does not exclude NaN residuals: the maximum norm skips NaN entries.  With a NaN gradient the solver reports SUCCESS (0 iterations) although
    the stationarity residual of the returned solution is NaN; its reported norm is 0. *)
Theorem C55_nan_residual_refuted (OP : dkops (F := sfl) unit) : let o := dipm_solve OP exf_arg 0 0 10 (exf_den nan) exf_sol exf_ws in
  o_status o = SUCCESS /\ o_iter o = 0 /\ dr_g (wk_res (o_w o)) 0%nat = nan /\ fst (fst (fst (o_max o))) = z0.
Proof. vm_compute. repeat split; reflexivity. Qed.
(** With a negative iter_max (accepted by the setter) no iteration is done and the status is SUCCESS, whatever the residuals: here the stationarity
    residual is 1000. *)
Theorem C55_negative_iter_max_refuted (OP : dkops (F := sfl) unit) : let o := dipm_solve OP (wi iter_max (-1) exf_arg) 0 0 10 (exf_den (sf_of_Z 1000)) exf_sol exf_ws in
  o_status o = SUCCESS /\ SFeqb (fst (fst (fst (o_max o)))) (sf_of_Z 1000) = true.
Proof. vm_compute. repeat split; reflexivity. Qed.
Print Assumptions C55_nan_residual_refuted.
