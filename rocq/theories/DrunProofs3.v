(** DrunProofs3.v -- dense solver: linear residuals over one iteration and over the whole loop, for exact linear algebra. *)
From Coq Require Import ZArith Bool Arith List Lia Reals Lra.
From Verif Require Import Base ArithF RSum Blas Blas2 QpDataProofs OcpModel ResSpec ResProofs2 CoreModel CoreProofs ArgModel DenModel DenSpec DenProofs DenProps DenKktModel DenKktSpec
  DenIpmModel DenIpmProofs DenIpmProofs2 DenIpmProps DenIpmInit DenInitProps DenIpmReal DrunProofs DrunProofs2.
From Verif Require RunProofs RunProofs3 IpmReal.
Local Open Scope R_scope.
Notation left := RunProofs3.left.

Section S.
Context {K : Type} (OP : dkops (F := R) K) (A : arg R).
Variables (cne : nat) (lq smax : Z) (qp : dqp R).
Notation C := (mk_ctx cne lq smax qp).
Notation nc := (d_nct qp).
Notation ne := (d_ne qp).
Hypothesis Hm : den_mask01 qp.
Hypothesis Hwf : den_wf qp.
Hypothesis Hcne : (ne <= cne)%nat.
Variable EX : Prop.
Hypothesis Hmz : forall c, (c < nc)%nat -> d_m qp c = 0.
Hypothesis Htl : ai A t_lam_min = 2%Z.
Hypothesis Hl0 : 0 < ar A lam_min.
Hypothesis Ht0 : 0 < ar A t_min.
Lemma mzero_true : c_mzero C = true.
Proof.
  change (c_mzero C) with (Reqb (VECNRM_INF nc (d_m qp) 0) (0 / 1)). rewrite R_lit01.
  destruct (VECNRM_INF_R nc (d_m qp) 0) as (_ & _ & [E|(k & Hk & E)]); rewrite E; [destruct (Reqb_spec 0 0); [reflexivity|lra]|].
  cbn [Nat.add]. rewrite Hmz by exact Hk. rewrite Rabs_R0. destruct (Reqb_spec 0 0); [reflexivity|lra].
Qed.
Lemma inside_point x : inside qp x -> point qp (view x).
Proof. intros H. exact H. Qed.
(** constraint residual *)
Definition rd (s : dsol R) (c : nat) : R := d_d qp c + ds_t s c - den_con qp (ds_v s) c.

Lemma step_view x bkp (w : @wk R K) : let x' := fst (take_step A C x bkp w) in let '(p, q) := damped (wk_ap w) (wk_ad w) in
  (forall k, (k < dnv qp)%nat -> ds_v (view x') k = ds_v (view x) k + p * ds_v (view (wk_stp w)) k) /\
  (forall k, (k < ne)%nat -> ds_pi (view x') k = ds_pi (view x) k + q * ds_pi (view (wk_stp w)) k) /\
  (forall c, (c < nc)%nat -> ds_lam (view x') c = d_mask qp c * (let v := ds_lam (view x) c + q * ds_lam (view (wk_stp w)) c in if Rleb v (ar A lam_min) then ar A lam_min else v)) /\
  (forall c, (c < nc)%nat -> ds_t (view x') c = let v := ds_t (view x) c + p * ds_t (view (wk_stp w)) c in if Rleb v (ar A t_min) then ar A t_min else v).
Proof.
  cbv zeta. unfold take_step. change (c_qp C) with qp. change (c_ne C) with cne. rewrite Htl.
  pose proof (fun k => update_var_spec (tot_v qp) cne nc 2 (ar A lam_min) (ar A t_min) (wk_ap w) (wk_ad w) (wk_stp w) x bkp k) as U.
  destruct (update_var _ _ _ _ _ _ _ _ _ _) as [x' b']. destruct (damped (wk_ap w) (wk_ad w)) as [p q]. cbn [Z.eqb Pos.eqb] in U. cbv zeta in U. cbn [fst].
  split; [|split; [|split]].
  - intros k Hk. destruct (U k) as (U1 & _). change (dnv qp) with (tot_v qp) in Hk. apply Nat.ltb_lt in Hk. rewrite Hk in U1. rsimp. exact U1.
  - intros k Hk. destruct (U k) as (_ & U1 & _). assert (O : (k < cne)%nat) by lia. apply Nat.ltb_lt in O. rewrite O in U1. rsimp. exact U1.
  - intros k Hk. destruct (U k) as (_ & _ & U1 & _). pose proof Hk as O. apply Nat.ltb_lt in O. rewrite O in U1. rsimp.
    cbn [view ds_lam va_lam]. rewrite (domask_val cne lq smax qp Hm) by assumption. rewrite U1. reflexivity.
  - intros k Hk. destruct (U k) as (_ & _ & _ & U1 & _). apply Nat.ltb_lt in Hk. rewrite Hk in U1. rsimp. exact U1.
Qed.
(** what one step does: p, q the lengths of the primal and the dual step *)
Definition contracts (x x' dx : dsol R) (p q : R) : Prop :=
  (EX -> forall j, (j < ne)%nat -> den_eq qp (ds_v x') j = (1 - p) * den_eq qp (ds_v x) j) /\
  (forall c, (c < nc)%nat -> d_mask qp c = 1 -> 0 <= rd x' c - (1 - p) * rd x c <= ar A t_min) /\
  (ar A reg_prim = 0 -> p = q -> (forall c, (c < nc)%nat -> d_mask qp c = 1 -> ar A lam_min < ds_lam x c + q * ds_lam dx c) ->
   forall k, (k < dnv qp)%nat -> den_kkt_g qp (ds_v x') (ds_pi x') (ds_lam x') k = (1 - p) * den_kkt_g qp (ds_v x) (ds_pi x) (ds_lam x) k).
Lemma step_contracts x bkp (w : @wk R K) : inside qp x -> alpha_ok A C x w -> DIR A qp EX x (view (wk_stp w)) ->
  let '(p, q) := damped (wk_ap w) (wk_ad w) in contracts (view x) (view (fst (take_step A C x bkp w))) (view (wk_stp w)) p q /\
  0 <= wk_ap w <= 1 /\ 0 <= wk_ad w <= 1 /\ 99 / 100 * wk_ap w <= p <= wk_ap w /\ 99 / 100 * wk_ad w <= q <= wk_ad w /\ (ai A split_step <> 1%Z -> p = q).
Proof.
  intros Hx Ha (D1 & D2 & D3). unfold alpha_ok in Ha. rewrite mzero_true in Ha.
  pose proof (RunProofs.alpha_closed (ai A split_step) nc (ar A m_safe) (va_lam x) (va_t x) (va_lam (wk_stp w)) (va_t (wk_stp w)) (c_m C)
    (fun k Hk => inside_nonneg qp Hm x Hx k Hk)) as B. change (d_nct (c_qp C)) with nc in Ha. rewrite <- Ha in B. destruct B as (B1 & B2 & B3 & B4).
  pose proof (IpmReal.damped_bounds (wk_ap w) (wk_ad w) B1 B2) as Dm. pose proof (RunProofs.damped_lo (wk_ap w) (wk_ad w) B1 B2) as Dl.
  assert (De : ai A split_step <> 1%Z -> fst (damped (wk_ap w) (wk_ad w)) = snd (damped (wk_ap w) (wk_ad w))).
  { intros Hs. rewrite <- (B4 Hs). pose proof (RunProofs.damped_eq (wk_ap w)) as H. destruct (damped (wk_ap w) (wk_ap w)). exact H. }
  pose proof (step_view x bkp w) as V. cbv zeta in V. destruct (damped (wk_ap w) (wk_ad w)) as [p q]. cbn [fst snd] in De.
  set (x' := view (fst (take_step A C x bkp w))) in *. clearbody x'. destruct V as (V1 & V2 & V3 & V4).
  split; [|split; [exact B1|split; [exact B2|split; [lra|split; [lra|exact De]]]]].
  split; [|split].
  - intros Hex j Hj. rewrite !(deq_qp qp). rewrite (deq_lin qp (ds_v x') (ds_v (view x)) (ds_v (view (wk_stp w))) p j V1), D1, (deq_qp qp) by assumption. lra.
  - intros c Hc E. unfold rd. rewrite (dcon_lin qp (ds_v x') (ds_v (view x)) (ds_v (view (wk_stp w))) p c V1), V4 by assumption. cbv zeta.
    pose proof (D2 c Hc E) as Q. set (t := ds_t (view x) c) in *. set (dt := ds_t (view (wk_stp w)) c) in *.
    assert (T0 : 0 <= t + p * dt).
    { apply IpmReal.shrink_closed with (wk_ap w); try lra.
      - destruct (inside_point x Hx c Hc) as (P & _). fold t in P. lra.
      - apply (B3 c). exact Hc. }
    assert (Qd : dt = den_con qp (ds_v (view (wk_stp w))) c - (d_d qp c + t - den_con qp (ds_v (view x)) c)) by lra.
    destruct (Rleb_spec (t + p * dt) (ar A t_min)) as [L|L].
    + replace (d_d qp c + ar A t_min - (den_con qp (ds_v (view x)) c + p * den_con qp (ds_v (view (wk_stp w))) c) - (1 - p) * (d_d qp c + t - den_con qp (ds_v (view x)) c)) with (ar A t_min - (t + p * dt)) by (rewrite Qd; ring). lra.
    + replace (d_d qp c + (t + p * dt) - (den_con qp (ds_v (view x)) c + p * den_con qp (ds_v (view (wk_stp w))) c) - (1 - p) * (d_d qp c + t - den_con qp (ds_v (view x)) c)) with 0 by (rewrite Qd; ring). lra.
  - intros Er Epq Hcl k Hk. subst q. rewrite !(dg_qp qp).
    assert (V3' : forall c, (c < nc)%nat -> d_mask qp c * ds_lam x' c = d_mask qp c * ds_lam (view x) c + p * (d_mask qp c * ds_lam (view (wk_stp w)) c)).
    { intros c Hc. rewrite V3 by assumption. cbv zeta. destruct (Hm c Hc) as [E|E]; rewrite E; [lra|].
      specialize (Hcl c Hc E). destruct (Rleb_spec (ds_lam (view x) c + p * ds_lam (view (wk_stp w)) c) (ar A lam_min)); lra. }
    rewrite (dg_lin qp (ds_v x') (ds_v (view x)) (ds_v (view (wk_stp w))) (ds_pi x') (ds_pi (view x)) (ds_pi (view (wk_stp w))) (ds_lam x') (ds_lam (view x)) (ds_lam (view (wk_stp w))) p k V1 V2 V3').
    rewrite D3, (dg_qp qp) by assumption. lra.
Qed.

Variables (I : K -> Prop) (FC : K -> dsol R -> Prop).
Hypothesis FC_I : forall k s, FC k s -> I k.
Hypothesis H_fs : forall k g b d m sol stp, I k -> point qp sol -> mz qp m -> let r := op_fact_solve K OP k (den_with_rhs qp g b d m) sol stp in nsol A qp EX sol g b d m (fst r) /\ FC (snd r) sol.
Hypothesis H_sv : forall k g b d m sol stp, FC k sol -> point qp sol -> mz qp m -> let r := op_solve K OP k (den_with_rhs qp g b d m) sol stp in nsol A qp EX sol g b d m (fst r) /\ FC (snd r) sol.
Hypothesis Hlq : lq = 0%Z \/ lq = 1%Z /\ ar A reg_prim = 0 /\ EX.

(** one pass of the loop *)
Lemma delta_body_run kk (s : @ist R K) : I (wk_k (i_w s)) -> inside qp (i_x s) -> reported C (i_x s) (i_w s) (i_max s) (i_mu s) -> let s' := delta_body OP A C kk s in
  exists w : @wk R K, alpha_ok A C (i_x s) w /\ DIR A qp EX (i_x s) (view (wk_stp w)) /\ (i_x s', i_bkp s') = take_step A C (i_x s) (i_bkp s) w /\
    wk_ap (i_w s') = wk_ap w /\ wk_ad (i_w s') = wk_ad w /\ I (wk_k (i_w s')).
Proof.
  intros HI Hx ((r0 & rw0 & Hr) & _). cbv zeta. unfold delta_body. set (mbk := copy_arr _ _ _).
  pose proof (alpha_delta_dir OP A C kk (i_x s) (i_mu s) (i_max s) mbk (i_w s)) as H0.
  pose proof (C35_residuals qp (view (i_x s)) (valid_of C) r0 rw0 Hwf (ctx_valid_ok cne lq smax qp Hm)) as (Rg & Rb & Rd & _). cbv zeta in Rg, Rb, Rd.
  change (c_qp C) with qp in Hr. rewrite <- Hr in Rg, Rb, Rd.
  assert (HW : W A qp EX FC (i_x s) (dr_g (wk_res (i_w s))) (dr_b (wk_res (i_w s))) (dr_d (wk_res (i_w s))) (delta_dir OP A C kk (i_x s) (i_mu s) (i_max s) mbk (i_w s))).
  { apply (W_delta_dir OP A cne lq smax qp Hm Hwf Hcne EX I FC H_fs H_sv Hlq); try reflexivity; try assumption. }
  set (w := delta_dir _ _ _ _ _ _ _ _ _) in *. clearbody w. exists w. split; [exact H0|]. split; [apply HW|]. destruct (take_step _ _ _ _ _) as [x bkp].
  destruct (call_res_stat C x w) as (_ & E1 & E2). assert (E3 : wk_k (fst (call_res C x w)) = wk_k w) by (clear; unfold call_res; destruct (den_res_compute _ _ _ _ _); reflexivity).
  destruct (call_res C x w) as [w1 q]. cbn [fst] in *. repeat split; try assumption.
  cbn [i_w put_stat wk_k]. rewrite E3. eapply FC_I. apply HW.
Qed.
Lemma abs_body_run kk (s : @ist R K) : I (wk_k (i_w s)) -> inside qp (i_x s) -> let s' := abs_body OP A C kk s in
  exists w : @wk R K, alpha_ok A C (i_x s) w /\ DIR A qp EX (i_x s) (view (wk_stp w)) /\ (i_x s', i_bkp s') = take_step A C (i_x s) (i_bkp s) w /\
    wk_ap (i_w s') = wk_ap w /\ wk_ad (i_w s') = wk_ad w /\ I (wk_k (i_w s')).
Proof.
  intros HI Hx. cbv zeta. unfold abs_body. set (w0 := mkwk _ _ _ _ _ _ _ _ _ _ _). assert (HI0 : I (wk_k w0)) by exact HI. clearbody w0. set (mbk := copy_arr _ _ _).
  pose proof (alpha_abs_dir OP A C kk (i_x s) (i_mu s) mbk w0) as H0.
  pose proof (WA_abs_dir OP A cne lq smax qp Hm Hcne EX I FC H_fs H_sv (i_x s) (inside_point _ Hx) kk (i_mu s) mbk w0 HI0) as HW.
  set (w := abs_dir _ _ _ _ _ _ _ _) in *. clearbody w. exists w. split; [exact H0|]. split; [apply HW|]. destruct (take_step _ _ _ _ _) as [x bkp].
  repeat split. eapply FC_I. apply HW.
Qed.

Variables (sol : vars R) (ws : @ist R K).
Hypothesis HI0 : I (wk_k (i_w ws)).
Hypothesis Hg : good_start A.
Let x0 := view (i_x (start A C sol ws)).
(** the invariant of the loop after kk passes *)
Definition run_inv (kk : Z) (s : @ist R K) : Prop := I (wk_k (i_w s)) /\ inside qp (i_x s) /\ (0 <= kk)%Z /\
  exists a : nat -> R, (forall k, (k < Z.to_nat kk)%nat -> 0 <= a k <= 1) /\ (forall k, (S k < Z.to_nat kk)%nat -> 99 / 100 * ar A alpha_min <= a k) /\
    (forall k, (S k = Z.to_nat kk)%nat -> 99 / 100 * wk_ap (i_w s) <= a k) /\
    (EX -> forall j, (j < ne)%nat -> den_eq qp (ds_v (view (i_x s))) j = left a (Z.to_nat kk) * den_eq qp (ds_v x0) j) /\
    (forall c, (c < nc)%nat -> d_mask qp c = 1 -> 0 <= rd (view (i_x s)) c - left a (Z.to_nat kk) * rd x0 c <= IZR kk * ar A t_min).
Lemma run_inv_0 s : I (wk_k (i_w s)) -> i_x s = i_x (start A C sol ws) -> run_inv 0 s.
Proof.
  intros HI Ex. split; [exact HI|]. split; [rewrite Ex; apply start_inside; assumption|]. split; [lia|]. exists (fun _ => 0). cbn [Z.to_nat RunProofs3.left].
  split; [intros; lia|]. split; [intros; lia|]. split; [intros; lia|]. rewrite Ex. fold x0. split; [intros; lra|intros; lra].
Qed.
Lemma run_inv_S kk s s' (w : @wk R K) bkp : run_inv kk s -> ar A alpha_min < wk_ap (i_w s) -> alpha_ok A C (i_x s) w -> DIR A qp EX (i_x s) (view (wk_stp w)) ->
  i_x s' = fst (take_step A C (i_x s) bkp w) -> wk_ap (i_w s') = wk_ap w -> I (wk_k (i_w s')) -> run_inv (kk + 1) s'.
Proof.
  intros (J1 & J2 & J3 & a & A1 & A2 & A3 & A4 & A5) Hap Ha HD Ex Ep HI.
  pose proof (step_contracts (i_x s) bkp w J2 Ha HD) as S. destruct (damped (wk_ap w) (wk_ad w)) as [p q]. destruct S as ((S1 & S2 & _) & B1 & _ & Bp & _). rewrite <- Ex in S1, S2.
  split; [exact HI|]. split; [rewrite Ex; apply (step_inside A cne lq smax qp Hm); assumption|]. split; [lia|].
  set (n := Z.to_nat kk) in *. replace (Z.to_nat (kk + 1)) with (S n) by (unfold n; lia).
  exists (fun k => if Nat.eqb k n then p else a k).
  assert (EL : left (fun k => if Nat.eqb k n then p else a k) n = left a n).
  { apply RunProofs3.left_ext. intros k Hk. destruct (Nat.eqb_spec k n); [lia|reflexivity]. }
  split; [|split; [|split; [|split]]].
  - intros k Hk. destruct (Nat.eqb_spec k n) as [->|Hn]; [lra|apply A1; lia].
  - intros k Hk. destruct (Nat.eqb_spec k n) as [->|Hn]; [lia|]. destruct (Nat.eq_dec (S k) n) as [En|En]; [specialize (A3 k En); lra|apply A2; lia].
  - intros k Hk. assert (k = n) by lia. subst k. rewrite Nat.eqb_refl. rewrite Ep. lra.
  - intros Hex j Hj. cbn [RunProofs3.left]. rewrite EL, Nat.eqb_refl. rewrite S1, A4 by assumption. ring.
  - intros c Hc E. cbn [RunProofs3.left]. rewrite EL, Nat.eqb_refl. specialize (S2 c Hc E). specialize (A5 c Hc E).
    rewrite plus_IZR. set (r := rd (view (i_x s)) c) in *. set (r1 := rd (view (i_x s')) c) in *. set (L := left a n) in *. set (r00 := rd x0 c) in *. set (tm := ar A t_min) in *.
    assert (Q : r1 - (1 - p) * L * r00 = (r1 - (1 - p) * r) + (1 - p) * (r - L * r00)) by ring. rewrite Q.
    assert (Q1 : 0 <= (1 - p) * (r - L * r00)) by (apply Rmult_le_pos; lra).
    assert (Q2 : (1 - p) * (r - L * r00) <= 1 * (IZR kk * tm)) by (apply Rmult_le_compat; lra). lra.
Qed.
Let o := dipm_solve OP A cne lq smax qp sol ws.
Lemma solve_run : constrained qp -> exists s : @ist R K, o_x o = i_x s /\ wk_ap (o_w o) = wk_ap (i_w s) /\ run_inv (o_iter o) s.
Proof.
  intros Hc. destruct (solve_case OP A cne lq smax qp sol ws) as [[Hn _]|[(_ & _ & E)|(_ & _ & E)]]; [contradiction| |]; unfold o; rewrite E.
  - destruct (solve_abs_loop OP A C (start A C sol ws) run_inv) as (kk & s' & -> & H & _).
    + apply run_inv_0; [exact HI0|reflexivity].
    + intros kk s _ IH Hgo. destruct IH as (J1 & J2 & J). pose proof (abs_body_run kk s J1 J2) as (w & W1 & W2 & W3 & W4 & _ & W6).
      unfold abs_go in Hgo. apply andb_prop in Hgo. destruct Hgo as [_ Hgo]. apply andb_prop in Hgo. destruct Hgo as [Hgo _]. rsimp. destruct (Rltb_spec (ar A alpha_min) (wk_ap (i_w s))) as [Hlt|]; [|discriminate].
      apply (run_inv_S kk s _ w (i_bkp s)); try assumption; [split; [exact J1|split; [exact J2|exact J]]|rewrite <- W3; reflexivity].
    + exists s'. destruct (finish_same OP A C kk (abs_exit A C kk s')) as (-> & -> & _ & _ & _ & _ & -> & _). destruct (abs_exit_same A C kk s') as (-> & _ & -> & _). split; [reflexivity|]. split; [reflexivity|exact H].
  - destruct (solve_delta_loop OP A C (start A C sol ws) (fun kk s => run_inv kk s /\ reported C (i_x s) (i_w s) (i_max s) (i_mu s))) as (kk & s' & -> & (H & _) & _).
    + split; [|apply delta_init_rep]. apply run_inv_0; [|apply delta_init_x].
      assert (Ek : wk_k (i_w (delta_init C (start A C sol ws))) = wk_k (i_w ws)) by (unfold delta_init, call_res; match goal with |- context[den_res_compute ?a ?b ?c ?d ?e] => destruct (den_res_compute a b c d e) end; reflexivity). rewrite Ek. exact HI0.
    + intros kk s _ (IH & Rp) Hgo. split; [|apply delta_body_rep]. destruct IH as (J1 & J2 & J). pose proof (delta_body_run kk s J1 J2 Rp) as (w & W1 & W2 & W3 & W4 & _ & W6).
      unfold delta_go in Hgo. destruct (i_max s) as [[[ma mb] mc] md]. apply andb_prop in Hgo. destruct Hgo as [_ Hgo]. apply andb_prop in Hgo. destruct Hgo as [Hgo _]. rsimp. destruct (Rltb_spec (ar A alpha_min) (wk_ap (i_w s))) as [Hlt|]; [|discriminate].
      apply (run_inv_S kk s _ w (i_bkp s)); try assumption; [split; [exact J1|split; [exact J2|exact J]]|rewrite <- W3; reflexivity].
    + exists s'. destruct (finish_same OP A C kk s') as (-> & -> & _ & _ & _ & _ & -> & _). split; [reflexivity|]. split; [reflexivity|exact H].
Qed.
End S.
