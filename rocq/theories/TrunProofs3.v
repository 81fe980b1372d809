(** TrunProofs3.v -- tree solver: linear residuals over one iteration and over the whole loop, for exact linear algebra. *)
From Coq Require Import ZArith Bool Arith List Lia Reals Lra.
From Verif Require Import Base ArithF RSum Blas Blas2 QpDataProofs OcpModel ResSpec ResProofs ResProofs2 ResProps CoreModel CoreProofs ArgModel IpmModel IpmProofs IpmProofs2 IpmProps IpmInit IpmInitProps IpmReal SolveModel RunProofs RunProofs2 RunProofs3.
From Verif Require Import TreeModel TreeSpec TreeProofs TreeProps TipmModel TipmProofs TipmProofs2 TipmProps TipmReal TrunProofs TrunProofs2.
Local Open Scope R_scope.

Section S.
Context {K : Type} (OP : kops (F := R) K) (A : arg R).
Variables (T : ttree) (lq smax : Z) (qp : oqp R).
Notation C := (mk_ctx lq smax qp).
Notation D := (q_dim qp).
Notation N := (dN D).
Hypothesis Hm : mask01 qp.
Hypothesis Hwf : qp_wf qp.
Hypothesis HT : tree_ok (N + 1) T.
Hypothesis Hmz : forall i c, (i <= N)%nat -> (c < nct D i)%nat -> q_m qp i c = 0.
Hypothesis Htl : ai A t_lam_min = 2%Z.
Hypothesis Hl0 : 0 < ar A lam_min.
Hypothesis Ht0 : 0 < ar A t_min.

(** what one step does: p, q the lengths of the primal and the dual step *)
Definition contracts (x x' dx : osol R) (p q : R) : Prop :=
  (forall i jj j, (i <= N)%nat -> (jj < t_nk T i)%nat -> (j < dnx D (t_kid T i jj))%nat -> tdyn qp (s_ux x') i (t_kid T i jj) j = (1 - p) * tdyn qp (s_ux x) i (t_kid T i jj) j) /\
  (forall i c, (i <= N)%nat -> (c < nct D i)%nat -> q_mask qp i c = 1 -> 0 <= rd qp x' i c - (1 - p) * rd qp x i c <= ar A t_min) /\
  (ar A reg_prim = 0 -> p = q -> (forall i c, (i <= N)%nat -> (c < nct D i)%nat -> q_mask qp i c = 1 -> ar A lam_min < s_lam x i c + q * s_lam dx i c) ->
   forall i k, (i <= N)%nat -> (k < nvt D i)%nat -> tkkt_g T qp (s_ux x') (s_pi x') (s_lam x') i k = (1 - p) * tkkt_g T qp (s_ux x) (s_pi x) (s_lam x) i k).
Lemma step_contracts x bkp (w : @wk R K) : inside qp x -> alpha_ok A C x w -> DIR A T qp x (view D (wk_stp w)) ->
  let '(p, q) := damped (wk_ap w) (wk_ad w) in contracts (view D x) (view D (fst (take_step A C x bkp w))) (view D (wk_stp w)) p q /\
  0 <= wk_ap w <= 1 /\ 0 <= wk_ad w <= 1 /\ 99 / 100 * wk_ap w <= p <= wk_ap w /\ 99 / 100 * wk_ad w <= q <= wk_ad w /\ (ai A split_step <> 1%Z -> p = q).
Proof.
  intros Hx Ha (D1 & D2 & D3). unfold alpha_ok in Ha. rewrite (mzero_true lq smax qp Hmz) in Ha.
  pose proof (alpha_closed (ai A split_step) (tot_c (q_dim (c_qp C))) (ar A m_safe) (va_lam x) (va_t x) (va_lam (wk_stp w)) (va_t (wk_stp w)) (c_m C)
    (fun k Hk => inside_nonneg qp Hm x Hx k Hk)) as B. rewrite <- Ha in B. destruct B as (B1 & B2 & B3 & B4).
  pose proof (damped_bounds (wk_ap w) (wk_ad w) B1 B2) as Dm. pose proof (damped_lo (wk_ap w) (wk_ad w) B1 B2) as Dl.
  assert (De : ai A split_step <> 1%Z -> fst (damped (wk_ap w) (wk_ad w)) = snd (damped (wk_ap w) (wk_ad w))).
  { intros Hs. rewrite <- (B4 Hs). pose proof (damped_eq (wk_ap w)) as H. destruct (damped (wk_ap w) (wk_ap w)). exact H. }
  pose proof (step_view A lq smax qp Hm Htl x bkp w) as V. cbv zeta in V. destruct (damped (wk_ap w) (wk_ad w)) as [p q]. cbn [fst snd] in De.
  set (x' := view D (fst (take_step A C x bkp w))) in *. clearbody x'. destruct V as (V1 & V2 & V3 & V4).
  split; [|split; [exact B1|split; [exact B2|split; [lra|split; [lra|exact De]]]]].
  split; [|split].
  - intros i jj j Hi Hjj Hj. rewrite !(tdyn_qp qp). rewrite (tdyn_lin T qp HT (s_ux x') (s_ux (view D x)) (s_ux (view D (wk_stp w))) p i jj j V1 Hi Hjj Hj), D1, (tdyn_qp qp) by assumption. lra.
  - intros i c Hi Hc E. unfold rd. rewrite (con_lin qp (s_ux x') (s_ux (view D x)) (s_ux (view D (wk_stp w))) p i c V1 Hi), V4 by assumption. cbv zeta.
    pose proof (D2 i c Hi Hc E) as Q. set (t := s_t (view D x) i c) in *. set (dt := s_t (view D (wk_stp w)) i c) in *.
    assert (T0 : 0 <= t + p * dt).
    { apply shrink_closed with (wk_ap w); try lra.
      - destruct (inside_point qp x Hx i c Hi Hc) as (P & _). fold t in P. lra.
      - apply (B3 (nsum i (nct D) + c)%nat). apply (off_c D i c Hi Hc). }
    assert (Qd : dt = con qp (s_ux (view D (wk_stp w))) i c - (q_d qp i c + t - con qp (s_ux (view D x)) i c)) by lra.
    destruct (Rleb_spec (t + p * dt) (ar A t_min)) as [L|L].
    + replace (q_d qp i c + ar A t_min - (con qp (s_ux (view D x)) i c + p * con qp (s_ux (view D (wk_stp w))) i c) - (1 - p) * (q_d qp i c + t - con qp (s_ux (view D x)) i c)) with (ar A t_min - (t + p * dt)) by (rewrite Qd; ring). lra.
    + replace (q_d qp i c + (t + p * dt) - (con qp (s_ux (view D x)) i c + p * con qp (s_ux (view D (wk_stp w))) i c) - (1 - p) * (q_d qp i c + t - con qp (s_ux (view D x)) i c)) with 0 by (rewrite Qd; ring). lra.
  - intros Er Epq Hcl i k Hi Hk. subst q. rewrite !(tg_qp T qp).
    assert (V3' : forall i c, (i <= N)%nat -> (c < nct D i)%nat -> q_mask qp i c * s_lam x' i c = q_mask qp i c * s_lam (view D x) i c + p * (q_mask qp i c * s_lam (view D (wk_stp w)) i c)).
    { intros i' c Hi' Hc. rewrite V3 by assumption. cbv zeta. destruct (Hm i' c Hi' Hc) as [E|E]; rewrite E; [lra|].
      specialize (Hcl i' c Hi' Hc E). destruct (Rleb_spec (s_lam (view D x) i' c + p * s_lam (view D (wk_stp w)) i' c) (ar A lam_min)); lra. }
    rewrite (tg_lin T qp HT (s_ux x') (s_ux (view D x)) (s_ux (view D (wk_stp w))) (s_pi x') (s_pi (view D x)) (s_pi (view D (wk_stp w))) (s_lam x') (s_lam (view D x)) (s_lam (view D (wk_stp w))) p i k V1 V2 V3' Hi).
    rewrite D3, (tg_qp T qp) by assumption. lra.
Qed.

Variables (I : K -> Prop) (FC : K -> osol R -> (nat -> nat -> R) -> Prop).
Hypothesis FC_I : forall k s b, FC k s b -> I k.
Hypothesis H_fs : forall k g b d m sol stp, I k -> point qp sol -> mz qp m -> let r := op_fact_solve K OP k (with_rhs qp g b d m) sol stp in nsol A T qp sol g b d m (fst r) /\ FC (snd r) sol b.
Hypothesis H_sv : forall u k g b b0 d m sol stp, FC k sol b0 -> point qp sol -> mz qp m -> (u = true -> forall i j, (i < N)%nat -> (j < dnx D (S i))%nat -> b i j = b0 i j) ->
  let r := op_solve K OP u k (with_rhs qp g b d m) sol stp in nsol A T qp sol g b d m (fst r) /\ FC (snd r) sol b0.
Hypothesis Hlq : lq = 0%Z \/ lq = 1%Z /\ ar A reg_prim = 0.

(** one pass of the loop *)
Lemma tdelta_body_run kk (s : @ist R K) : I (wk_k (i_w s)) -> inside qp (i_x s) -> treported T C (i_x s) (i_w s) (i_max s) (i_mu s) -> let s' := tdelta_body OP A T C kk s in
  exists w : @wk R K, alpha_ok A C (i_x s) w /\ DIR A T qp (i_x s) (view D (wk_stp w)) /\ (i_x s', i_bkp s') = take_step A C (i_x s) (i_bkp s) w /\
    wk_ap (i_w s') = wk_ap w /\ wk_ad (i_w s') = wk_ad w /\ I (wk_k (i_w s')).
Proof.
  intros HI Hx ((r0 & rw0 & Hr) & _). cbv zeta. unfold tdelta_body. set (mbk := copy_arr _ _ _).
  pose proof (talpha_delta_dir OP A T C kk (i_x s) (i_mu s) (i_max s) mbk (i_w s)) as H0.
  pose proof (C53_residuals T qp (view D (i_x s)) (valid_of C) r0 rw0 Hwf (ctx_valid_ok lq smax qp Hm) Hm HT (fun i c Hi Hc => proj2 (proj2 (inside_point qp _ Hx i c Hi Hc)))) as (Rg & Rb & Rd & _). cbv zeta in Rg, Rb, Rd.
  change (c_qp C) with qp in Hr. rewrite <- Hr in Rg, Rb, Rd.
  assert (HW : W A T qp FC (i_x s) (r_g (wk_res (i_w s))) (r_b (wk_res (i_w s))) (r_d (wk_res (i_w s))) (tdelta_dir OP A T C kk (i_x s) (i_mu s) (i_max s) mbk (i_w s))).
  { apply (W_delta_dir OP A T lq smax qp Hm Hwf HT I FC H_fs H_sv Hlq); try reflexivity; try assumption. apply (inside_point qp). exact Hx. }
  set (w := tdelta_dir _ _ _ _ _ _ _ _ _ _) in *. clearbody w. exists w. split; [exact H0|]. split; [apply HW|]. destruct (take_step _ _ _ _ _) as [x bkp].
  destruct (tcall_res_stat T C x w) as (_ & E1 & E2). assert (E3 : wk_k (fst (tcall_res T C x w)) = wk_k w) by (clear; unfold tcall_res; destruct (tree_res_compute _ _ _ _ _ _); reflexivity).
  destruct (tcall_res T C x w) as [w1 q]. cbn [fst] in *. repeat split; try assumption.
  cbn [i_w put_stat wk_k]. rewrite E3. eapply FC_I. apply HW.
Qed.
Lemma tabs_body_run kk (s : @ist R K) : I (wk_k (i_w s)) -> inside qp (i_x s) -> let s' := tabs_body OP A C kk s in
  exists w : @wk R K, alpha_ok A C (i_x s) w /\ DIR A T qp (i_x s) (view D (wk_stp w)) /\ (i_x s', i_bkp s') = take_step A C (i_x s) (i_bkp s) w /\
    wk_ap (i_w s') = wk_ap w /\ wk_ad (i_w s') = wk_ad w /\ I (wk_k (i_w s')).
Proof.
  intros HI Hx. cbv zeta. unfold tabs_body. set (w0 := mkwk _ _ _ _ _ _ _ _ _ _ _). assert (HI0 : I (wk_k w0)) by exact HI. clearbody w0. set (mbk := copy_arr _ _ _).
  pose proof (talpha_abs_dir OP A C kk (i_x s) (i_mu s) mbk w0) as H0.
  pose proof (WA_abs_dir OP A T lq smax qp Hm HT I FC H_fs H_sv (i_x s) (inside_point qp _ Hx) kk (i_mu s) mbk w0 HI0) as HW.
  set (w := tabs_dir _ _ _ _ _ _ _ _) in *. clearbody w. exists w. split; [exact H0|]. split; [apply HW|]. destruct (take_step _ _ _ _ _) as [x bkp].
  repeat split. eapply FC_I. apply HW.
Qed.

Variables (sol : vars R) (ws : @ist R K).
Hypothesis HI0 : I (wk_k (i_w ws)).
Hypothesis Hg : good_start A.
Let x0 := view D (i_x (tstart A C sol ws)).
(** the invariant of the loop after kk passes *)
Definition run_inv (kk : Z) (s : @ist R K) : Prop := I (wk_k (i_w s)) /\ inside qp (i_x s) /\ (0 <= kk)%Z /\
  exists a : nat -> R, (forall k, (k < Z.to_nat kk)%nat -> 0 <= a k <= 1) /\ (forall k, (S k < Z.to_nat kk)%nat -> 99 / 100 * ar A alpha_min <= a k) /\
    (forall k, (S k = Z.to_nat kk)%nat -> 99 / 100 * wk_ap (i_w s) <= a k) /\
    (forall i jj j, (i <= N)%nat -> (jj < t_nk T i)%nat -> (j < dnx D (t_kid T i jj))%nat -> tdyn qp (s_ux (view D (i_x s))) i (t_kid T i jj) j = left a (Z.to_nat kk) * tdyn qp (s_ux x0) i (t_kid T i jj) j) /\
    (forall i c, (i <= N)%nat -> (c < nct D i)%nat -> q_mask qp i c = 1 -> 0 <= rd qp (view D (i_x s)) i c - left a (Z.to_nat kk) * rd qp x0 i c <= IZR kk * ar A t_min).
Lemma run_inv_0 s : I (wk_k (i_w s)) -> i_x s = i_x (tstart A C sol ws) -> run_inv 0 s.
Proof.
  intros HI Ex. split; [exact HI|]. split; [rewrite Ex; apply tstart_inside; assumption|]. split; [lia|]. exists (fun _ => 0). cbn [Z.to_nat left].
  split; [intros; lia|]. split; [intros; lia|]. split; [intros; lia|]. rewrite Ex. fold x0. split; [intros; lra|intros; lra].
Qed.
Lemma run_inv_S kk s s' (w : @wk R K) bkp : run_inv kk s -> ar A alpha_min < wk_ap (i_w s) -> alpha_ok A C (i_x s) w -> DIR A T qp (i_x s) (view D (wk_stp w)) ->
  i_x s' = fst (take_step A C (i_x s) bkp w) -> wk_ap (i_w s') = wk_ap w -> I (wk_k (i_w s')) -> run_inv (kk + 1) s'.
Proof.
  intros (J1 & J2 & J3 & a & A1 & A2 & A3 & A4 & A5) Hap Ha HD Ex Ep HI.
  pose proof (step_contracts (i_x s) bkp w J2 Ha HD) as S. destruct (damped (wk_ap w) (wk_ad w)) as [p q]. destruct S as ((S1 & S2 & _) & B1 & _ & Bp & _). rewrite <- Ex in S1, S2.
  split; [exact HI|]. split; [rewrite Ex; apply (step_inside A lq smax qp Hm); assumption|]. split; [lia|].
  set (n := Z.to_nat kk) in *. replace (Z.to_nat (kk + 1)) with (S n) by (unfold n; lia).
  exists (fun k => if Nat.eqb k n then p else a k).
  assert (EL : left (fun k => if Nat.eqb k n then p else a k) n = left a n).
  { apply left_ext. intros k Hk. destruct (Nat.eqb_spec k n); [lia|reflexivity]. }
  split; [|split; [|split; [|split]]].
  - intros k Hk. destruct (Nat.eqb_spec k n) as [->|Hn]; [lra|apply A1; lia].
  - intros k Hk. destruct (Nat.eqb_spec k n) as [->|Hn]; [lia|]. destruct (Nat.eq_dec (S k) n) as [En|En]; [specialize (A3 k En); lra|apply A2; lia].
  - intros k Hk. assert (k = n) by lia. subst k. rewrite Nat.eqb_refl. rewrite Ep. lra.
  - intros i jj j Hi Hjj Hj. cbn [left]. rewrite EL, Nat.eqb_refl. rewrite S1, A4 by assumption. ring.
  - intros i c Hi Hc E. cbn [left]. rewrite EL, Nat.eqb_refl. specialize (S2 i c Hi Hc E). specialize (A5 i c Hi Hc E).
    rewrite plus_IZR. set (r := rd qp (view D (i_x s)) i c) in *. set (r1 := rd qp (view D (i_x s')) i c) in *. set (L := left a n) in *. set (r00 := rd qp x0 i c) in *. set (tm := ar A t_min) in *.
    assert (Q : r1 - (1 - p) * L * r00 = (r1 - (1 - p) * r) + (1 - p) * (r - L * r00)) by ring. rewrite Q.
    assert (Q1 : 0 <= (1 - p) * (r - L * r00)) by (apply Rmult_le_pos; lra).
    assert (Q2 : (1 - p) * (r - L * r00) <= 1 * (IZR kk * tm)) by (apply Rmult_le_compat; lra). lra.
Qed.
Let o := tipm_solve OP A T lq smax qp sol ws.
Lemma solve_run : constrained qp -> exists s : @ist R K, o_x o = i_x s /\ wk_ap (o_w o) = wk_ap (i_w s) /\ run_inv (o_iter o) s.
Proof.
  intros Hc. destruct (TipmProps.solve_case OP A T lq smax qp sol ws) as [[Hn _]|[(_ & _ & E)|(_ & _ & E)]]; [contradiction| |]; unfold o; rewrite E.
  - destruct (tsolve_abs_loop OP A T C (tstart A C sol ws) run_inv) as (kk & s' & -> & H & _).
    + apply run_inv_0; [exact HI0|reflexivity].
    + intros kk s _ IH Hgo. destruct IH as (J1 & J2 & J). pose proof (tabs_body_run kk s J1 J2) as (w & W1 & W2 & W3 & W4 & _ & W6).
      unfold abs_go in Hgo. apply andb_prop in Hgo. destruct Hgo as [_ Hgo]. apply andb_prop in Hgo. destruct Hgo as [Hgo _]. rsimp. destruct (Rltb_spec (ar A alpha_min) (wk_ap (i_w s))) as [Hlt|]; [|discriminate].
      apply (run_inv_S kk s _ w (i_bkp s)); try assumption; [split; [exact J1|split; [exact J2|exact J]]|rewrite <- W3; reflexivity].
    + exists s'. destruct (tfinish_same A kk (tabs_exit A T C kk s')) as (-> & -> & _ & _ & _ & _ & -> & _). destruct (tabs_exit_same A T C kk s') as (-> & _ & -> & _). split; [reflexivity|]. split; [reflexivity|exact H].
  - destruct (tsolve_delta_loop OP A T C (tstart A C sol ws) (fun kk s => run_inv kk s /\ treported T C (i_x s) (i_w s) (i_max s) (i_mu s))) as (kk & s' & -> & (H & _) & _).
    + split; [|apply tdelta_init_rep]. apply run_inv_0; [|apply tdelta_init_x].
      assert (Ek : wk_k (i_w (tdelta_init T C (tstart A C sol ws))) = wk_k (i_w ws)) by (unfold tdelta_init, tcall_res; match goal with |- context[tree_res_compute ?a ?b ?c ?d ?e ?f] => destruct (tree_res_compute a b c d e f) end; reflexivity). rewrite Ek. exact HI0.
    + intros kk s _ (IH & Rp) Hgo. split; [|apply tdelta_body_rep]. destruct IH as (J1 & J2 & J). pose proof (tdelta_body_run kk s J1 J2 Rp) as (w & W1 & W2 & W3 & W4 & _ & W6).
      unfold delta_go in Hgo. destruct (i_max s) as [[[ma mb] mc] md]. apply andb_prop in Hgo. destruct Hgo as [_ Hgo]. apply andb_prop in Hgo. destruct Hgo as [Hgo _]. rsimp. destruct (Rltb_spec (ar A alpha_min) (wk_ap (i_w s))) as [Hlt|]; [|discriminate].
      apply (run_inv_S kk s _ w (i_bkp s)); try assumption; [split; [exact J1|split; [exact J2|exact J]]|rewrite <- W3; reflexivity].
    + exists s'. destruct (tfinish_same A kk s') as (-> & -> & _ & _ & _ & _ & -> & _). split; [reflexivity|]. split; [reflexivity|exact H].
Qed.
End S.
