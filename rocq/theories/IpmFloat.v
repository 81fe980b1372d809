(** IpmFloat.v -- C23 in IEEE double precision: SUCCESS is never reported with a residual above its tolerance. *)
From Coq Require Import ZArith Bool Arith List Lia.
From Coq Require Import Floats.SpecFloat.
From Verif Require Import Base ArithF Blas Blas2 QpDataProofs OcpModel ResProofs2 CoreModel CoreProofs ArgModel IpmModel IpmProofs IpmProofs2 IpmProps.
Local Open Scope Z_scope.
Notation sfl := spec_float.
Notation nan := S754_nan.

Lemma nan_add_l x : fadd nan x = nan. Proof. destruct x; reflexivity. Qed.
Lemma nan_add_r x : fadd x nan = nan. Proof. destruct x as [[]|[]| |[]]; reflexivity. Qed.
Lemma nan_mul_l x : fmul nan x = nan. Proof. destruct x; reflexivity. Qed.
Lemma nan_mul_r x : fmul x nan = nan. Proof. destruct x as [[]|[]| |[]]; reflexivity. Qed.
Lemma fsum_nan n (f : nat -> sfl) k : (k < n)%nat -> f k = nan -> fsum n f = nan.
Proof.
  unfold fsum. induction n as [|n IH]; [lia|]. intros Hk Hf. cbn [loop]. destruct (Nat.eq_dec k n) as [->|Hn]; [rewrite Hf; apply nan_add_r|].
  rewrite IH by (assumption || lia). apply nan_add_l.
Qed.
Lemma mul_nan_cases (a b : sfl) : a = nan \/ b = nan -> fmul a b = nan.
Proof. intros [->| ->]; [apply nan_mul_l|apply nan_mul_r]. Qed.

Lemma damp_nan : damp nan = nan. Proof. unfold damp. rewrite nan_mul_l. reflexivity. Qed.
Lemma damped_nan (a b : sfl) : a = nan \/ b = nan -> fst (damped a b) = nan \/ snd (damped a b) = nan.
Proof.
  intros Hn. unfold damped. destruct (fltb (if fltb a b then a else b) f1); [|exact Hn].
  destruct Hn as [-> | ->]; [left; exact damp_nan|right; exact damp_nan].
Qed.

Section M.
Context (mc : bool) (qp : oqp sfl) (sol : osol sfl).
Lemma res_stage_mu ii st : exists x, r_mu_sum (fst (res_stage mc qp sol ii st)) = fadd (r_mu_sum (fst st)) x /\
  forall c, (c < nct (q_dim qp) ii)%nat -> (s_lam sol ii c = nan \/ s_t sol ii c = nan) -> x = nan.
Proof.
  destruct st as [res ws]. unfold res_stage. destruct (ineq_block _ _ _ _ _ _ _ _ _ _) as [[[g dd] bg0] bg1].
  match goal with |- context [if Nat.ltb 0 (dns (q_dim qp) ii) then ?a else ?b] => set (soft := if Nat.ltb 0 (dns (q_dim qp) ii) then a else b) end.
  destruct soft as [[[g' dd'] obj] gap].
  match goal with |- context [if Nat.ltb ii (dN (q_dim qp)) then ?a else (g', ?b, ?c)] => set (dynb := if Nat.ltb ii (dN (q_dim qp)) then a else (g', b, c)) end.
  destruct dynb as [[g2 bb] gap2]. cbn [fst r_mu_sum]. eexists. split; [reflexivity|]. intros c Hc Hn. unfold nct in Hc.
  unfold VECNRM_1. apply fsum_nan with c; [exact Hc|]. cbn [Nat.add].
  set (nc0 := (2 * dnb (q_dim qp) ii + 2 * dng (q_dim qp) ii + 2 * dns (q_dim qp) ii)%nat) in *.
  set (lamk := if mc then VECMUL nc0 (s_lam sol ii) 0 (q_mask qp ii) 0 (w_lam ws) 0 else VECCP nc0 (s_lam sol ii) 0 (w_lam ws) 0).
  assert (H1 : fmul (lamk c) (s_t sol ii c) = nan).
  { apply mul_nan_cases. destruct Hn as [Hn|Hn]; [left|right; exact Hn]. subst lamk. destruct mc.
    - unfold VECMUL. rewrite vset0_in by exact Hc. cbn [Nat.add]. rewrite Hn. apply nan_mul_l.
    - unfold VECCP. rewrite vset0_in by exact Hc. exact Hn. }
  clearbody lamk.
  assert (H2 : forall mm0, AXPY nc0 (fopp f1) (q_m qp ii) 0 (VECMUL nc0 lamk 0 (s_t sol ii) 0 mm0 0) 0 (VECMUL nc0 lamk 0 (s_t sol ii) 0 mm0 0) 0 c = nan).
  { intros mm0. unfold AXPY. rewrite vset0_in by exact Hc. unfold VECMUL. cbn [Nat.add]. rewrite vset0_in by exact Hc. cbn [Nat.add]. rewrite H1.
    rewrite ?nan_add_r, ?nan_add_l. reflexivity. }
  destruct mc; [|rewrite H2; reflexivity]. unfold VECMUL at 1. rewrite vset0_in by exact Hc. cbn [Nat.add]. rewrite H2, nan_mul_r. reflexivity.
Qed.
Lemma res_loop_mu n st i c : (i < n)%nat -> (c < nct (q_dim qp) i)%nat -> s_lam sol i c = nan \/ s_t sol i c = nan ->
  r_mu_sum (fst (loop n (res_stage mc qp sol) st)) = nan.
Proof.
  induction n as [|n IH]; [lia|]. intros Hi Hc Hn. cbn [loop]. destruct (res_stage_mu n (loop n (res_stage mc qp sol) st)) as (x & Hx & Hnan). rewrite Hx.
  destruct (Nat.eq_dec i n) as [->|Hne]; [rewrite (Hnan c Hc Hn); apply nan_add_r|]. rewrite IH by (assumption || lia). apply nan_add_l.
Qed.
End M.
Lemma res_mu_nan valid (qp : oqp sfl) sol r0 w0 i c : (i <= dN (q_dim qp))%nat -> (c < nct (q_dim qp) i)%nat -> s_lam sol i c = nan \/ s_t sol i c = nan ->
  r_mu (fst (res_compute valid qp sol r0 w0)) = nan.
Proof.
  intros Hi Hc Hn. unfold res_compute. destruct (match valid with Some (a, b) => (a, b) | None => _ end) as [mc inv].
  set (r := mkres _ _ _ _ _ _ _ _). pose proof (res_loop_mu mc qp sol (dN (q_dim qp) + 1) (r, w0) i c ltac:(lia) Hc Hn) as H.
  destruct (loop _ _ _) as [r' w']. cbn [fst] in *. cbn [r_mu]. rewrite H. apply nan_mul_l.
Qed.

Section P.
Context {K : Type} (OP : kops (F := sfl) K) (A : arg sfl).
Variables (lq smax : Z) (qp : oqp sfl) (sol : vars sfl) (ws : @ist sfl K).
Let o := ipm_solve OP A lq smax qp sol ws.
Let C := mk_ctx lq smax qp.
Let D := q_dim qp.
(** a NaN step length makes every multiplier or every slack NaN *)
Lemma take_step_nan x bkp (w : @wk sfl K) k : (k < tot_c D)%nat -> wk_ap w = nan \/ wk_ad w = nan ->
  va_lam (fst (take_step A C x bkp w)) k = nan \/ va_t (fst (take_step A C x bkp w)) k = nan.
Proof.
  intros Hk Hn. unfold take_step. change (q_dim (c_qp C)) with D.
  pose proof (update_var_spec (tot_v D) (tot_e D) (tot_c D) (ai A t_lam_min) (ar A lam_min) (ar A t_min) (wk_ap w) (wk_ad w) (wk_stp w) x bkp k) as U.
  destruct (update_var _ _ _ _ _ _ _ _ _ _) as [x' b']. destruct (damped (wk_ap w) (wk_ad w)) as [p q] eqn:Ed.
  assert (Hpq : p = nan \/ q = nan).
  { pose proof (damped_nan (wk_ap w) (wk_ad w) Hn) as H. rewrite Ed in H. exact H. }
  destruct U as (_ & _ & U3 & U4 & _). assert (Hb : Nat.ltb k (tot_c D) = true) by (apply Nat.ltb_lt; exact Hk). rewrite Hb in U3, U4. cbn zeta in U3, U4.
  cbn [fst va_lam va_t]. destruct Hpq as [-> | ->].
  - right. rewrite U4, nan_mul_l, nan_add_r. destruct (Z.eqb _ 2); reflexivity.
  - left. assert (E : va_lam x' k = nan) by (rewrite U3, nan_mul_l, nan_add_r; destruct (Z.eqb _ 2); reflexivity).
    unfold domask. change (q_dim (c_qp C)) with D. destruct (c_mc C); [|exact E]. unfold VECMUL. rewrite vset0_in by exact Hk. cbn [Nat.add]. rewrite E. apply nan_mul_r.
Qed.
Lemma delta_nan kk (s : @ist sfl K) : constrained qp -> let s' := delta_body OP A C kk s in wk_ap (i_w s') = nan \/ wk_ad (i_w s') = nan -> i_mu s' = nan.
Proof.
  intros (i & c & Hi & Hc & _). cbv zeta. destruct (delta_body_step OP A C kk s) as (w & _ & E & E1 & E2). rewrite E1, E2. intros Hn.
  destruct (delta_body_rep OP A C kk s) as ((r0 & rw0 & Hr) & _ & Hm). cbv zeta in *. rewrite Hm, Hr. change (q_dim (c_qp C)) with D.
  apply res_mu_nan with i c; [exact Hi|exact Hc|].
  pose proof (take_step_nan (i_x s) (i_bkp s) w (nsum i (nct D) + c)) as H. rewrite <- E in H. apply H; [|exact Hn].
  rewrite tot_c_nsum. apply win_off_lt; [unfold D; lia|exact Hc].
Qed.

(** C23 (IEEE doubles): constrained QP, delta formulation, alpha_min not NaN, iter_max >= 0.  SUCCESS implies that the step lengths are numbers and
    that no residual norm of the returned solution and not its duality gap is above the tolerance -- whatever the linear algebra returned. *)
Theorem C23_success_ieee : constrained qp -> ai A abs_form = 0 -> 0 <= ai A iter_max -> is_nan_sf (ar A alpha_min) = false -> o_status o = SUCCESS ->
  SFltb (ar A alpha_min) (wk_ap (o_w o)) = true /\ SFltb (ar A alpha_min) (wk_ad (o_w o)) = true /\
  let '(ng, nb, nd, _) := o_max o in let r := wk_res (o_w o) in
  SFltb (ar A res_g_max) ng = false /\ SFltb (ar A res_b_max) nb = false /\ SFltb (ar A res_d_max) nd = false /\
  SFltb (ar A res_m_max) (VECNRM_INF (tot_c D) (AXPY (tot_c D) (SFopp (ar A tau_min)) (flatc D (q_mask qp)) 0 (flatc D (r_m r)) 0 (fun _ => f0) 0) 0) = false /\
  SFltb (ar A dual_gap_max) (r_gap r) = false.
Proof.
  intros Hc Ha Him Hnan HS. pose proof (C23_success_certifies OP A lq smax qp sol ws Hc Ha Him) as (_ & _ & _ & H). fold o in H. specialize (H HS).
  assert (Hal : wk_ap (o_w o) <> nan /\ wk_ad (o_w o) <> nan).
  { destruct (C23_status OP A lq smax qp sol ws Hc) as (_ & _ & _ & Hst & _). fold o in Hst. destruct (Hst HS) as (Hmu & _). clear Hst H.
    destruct (solve_case OP A lq smax qp sol ws) as [[Hn _]|[(_ & Hn & _)|(_ & _ & E)]]; [contradiction|contradiction|]. fold o C in E.
    destruct (solve_delta_loop OP A C (start A C sol ws) (fun _ s => wk_ap (i_w s) = nan \/ wk_ad (i_w s) = nan -> i_mu s = nan)) as (kk & s' & E' & HI & _).
    - destruct (delta_init_al C (start A C sol ws)) as [E1 E2]. rewrite E1, E2. intros [Hx|Hx]; discriminate Hx.
    - intros kk s _ _ _. apply delta_nan. exact Hc.
    - rewrite E, E' in Hmu |- *. destruct (finish_same OP A C kk s') as (_ & _ & _ & F4 & _ & _ & F7 & F8 & _). rewrite F4 in Hmu. rewrite F7, F8.
      split; intros Hx; rewrite HI in Hmu by tauto; discriminate Hmu. }
  destruct (C23_status OP A lq smax qp sol ws Hc) as (_ & _ & _ & Hst & _). fold o in Hst. destruct (Hst HS) as (_ & Hp & Hd).
  assert (T : forall a b, is_nan_sf a = false -> b <> nan -> SFleb b a = false -> SFltb a b = true).
  { clear. intros a b Ha Hb H. assert (Hb' : is_nan_sf b = false) by (destruct b; try reflexivity; congruence).
    pose proof (SFcompare_num b a Hb' Ha) as N1. unfold SFleb in H. unfold SFltb.
    assert (Sw : SFcompare a b = match SFcompare b a with Some Lt => Some Gt | Some Gt => Some Lt | x => x end).
    { destruct a as [[]|[]| |[] ma ea], b as [[]|[]| |[] mb eb]; try discriminate; try reflexivity; cbn [SFcompare];
        rewrite (Z.compare_antisym ea eb); destruct (ea ?= eb); cbn [CompOpp]; try reflexivity;
        change (Pcompare mb ma Eq) with (Pos.compare mb ma); change (Pcompare ma mb Eq) with (Pos.compare ma mb); rewrite (Pos.compare_antisym ma mb); destruct (Pos.compare ma mb); reflexivity. }
    rewrite Sw. destruct (SFcompare b a) as [[]|]; try discriminate; [reflexivity|congruence]. }
  destruct Hal as [Np Nd]. pose proof (T _ _ Hnan Np Hp) as Tp. pose proof (T _ _ Hnan Nd Hd) as Td.
  split; [exact Tp|]. split; [exact Td|]. exact (H Tp Td).
Qed.
End P.
Print Assumptions C23_success_ieee.

(** *** A concrete case, and what is false of the code *)
Definition z0 : sfl := S754_zero false.
(** one stage, one variable u with -1 <= u <= 1, cost u^2/2 + g u *)
Definition exf_dim : dims := mkdims 0 (fun _ => 0%nat) (fun _ => 1%nat) (fun _ => 1%nat) (fun _ => 0%nat) (fun _ => 0%nat).
Definition exf_qp (g : sfl) : oqp sfl := mkqp exf_dim (fun _ _ _ => z0) (fun _ _ _ => sf_of_Z 1) (fun _ _ _ => z0) (fun _ _ => z0) (fun _ _ => g)
  (fun _ _ => sf_of_Z (-1)) (fun _ _ => sf_of_Z 1) (fun _ _ => z0) (fun _ _ => z0) (fun _ _ => 0%nat) (fun _ _ => -1).
(** the SPEED preset with a warm start of all variables *)
Definition exf_arg (a : arg sfl) : arg sfl := wi warm_start 3 (arg_set_default SPEED a).
Definition exf_sol : vars sfl := mkvars (fun _ => z0) (fun _ => z0) (fun _ => z0) (fun _ => sf_of_Z 1).
Definition exf_ws : @ist sfl unit := 
  mkist exf_sol exf_sol (mkwk exf_sol exf_sol (mkres (fun _ _ => z0) (fun _ _ => z0) (fun _ _ => z0) (fun _ _ => z0) z0 z0 z0 z0)
    (mkres (fun _ _ => z0) (fun _ _ => z0) (fun _ _ => z0) (fun _ _ => z0) z0 z0 z0 z0) (mkrws (fun _ => z0) (fun _ => z0) (fun _ => z0)) z0 z0 z0 z0 (fun _ => z0) tt) z0 (fun _ => z0) (z0, z0, z0, z0).
Definition exf_arg0 : arg sfl := mkarg (fun _ => z0) (fun _ => 0).
(** the hypotheses of C23_success_ieee are met by this QP and the solver does report SUCCESS on it *)
Example C23_hypotheses_met (OP : kops (F := sfl) unit) : let A := exf_arg exf_arg0 in
  constrained (exf_qp z0) /\ ai A abs_form = 0 /\ 0 <= ai A iter_max /\ is_nan_sf (ar A alpha_min) = false /\
  o_status (ipm_solve OP A 0 10 (exf_qp z0) exf_sol exf_ws) = SUCCESS.
Proof. cbv zeta. split; [exists 0%nat, 0%nat; repeat split; vm_compute; lia|]. vm_compute. repeat split; discriminate. Qed.
(** SUCCESS does not exclude NaN residuals: the maximum norm skips NaN entries.  With a NaN gradient the solver reports SUCCESS (0 iterations) although
    the stationarity residual of the returned solution is NaN; its reported norm is 0. *)
Theorem C23_nan_residual_refuted (OP : kops (F := sfl) unit) : let o := ipm_solve OP (exf_arg exf_arg0) 0 10 (exf_qp nan) exf_sol exf_ws in
  o_status o = SUCCESS /\ o_iter o = 0 /\ r_g (wk_res (o_w o)) 0%nat 0%nat = nan /\ fst (fst (fst (o_max o))) = z0.
Proof. vm_compute. repeat split; reflexivity. Qed.
(** With a negative iter_max (accepted by the setter) no iteration is done and the status is SUCCESS, whatever the residuals: here the stationarity
    residual is 1000. *)
Theorem C23_negative_iter_max_refuted (OP : kops (F := sfl) unit) : let o := ipm_solve OP (wi iter_max (-1) (exf_arg exf_arg0)) 0 10 (exf_qp (sf_of_Z 1000)) exf_sol exf_ws in
  o_status o = SUCCESS /\ SFeqb (fst (fst (fst (o_max o)))) (sf_of_Z 1000) = true.
Proof. vm_compute. repeat split; reflexivity. Qed.
Print Assumptions C23_nan_residual_refuted.
