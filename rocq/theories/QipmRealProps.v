(** QipmRealProps.v -- C61 (part 2): the QCQP interior point solve in exact arithmetic: its iterates stay in the positive orthant, and SUCCESS certifies a
    nearly optimal, nearly feasible point of the QCQP, whatever the linear algebra returns. *)
From Coq Require Import ZArith Bool Arith List Lia Reals Lra.
From Verif Require Import Base ArithF RSum Blas Blas2 QpDataProofs OcpModel ResSpec ResProofs ResProofs2 ResProps CoreModel CoreProofs ArgModel IpmModel IpmProofs IpmProofs2 IpmProps IpmInit
  QcqpModel QcqpSpec QcqpProofs QcqpProofs2 QcqpProofs3 QcqpProps QcqpLinSpec QcqpMask QcqpLinProps QipmModel QipmProofs QipmProps Qinit QinitProps.
Local Open Scope R_scope.

Lemma copy_arr_at n (x y : nat -> R) k : (k < n)%nat -> copy_arr n x y k = x k.
Proof. intros H. rewrite copy_arr_spec. destruct (Nat.ltb_spec k n); [reflexivity|lia]. Qed.
Lemma conv_sol_at (D : dims) (x y : vars R) k : (k < tot_c D)%nat -> va_lam (conv_sol D x y) k = va_lam x k /\ va_t (conv_sol D x y) k = va_t x k.
Proof. intros Hk. unfold conv_sol, backup_var. cbn [va_lam va_t]. rewrite !copy_arr_at by exact Hk. split; reflexivity. Qed.

Section P.
Context {K : Type} (OP : kops (F := R) K) (A QA : arg R).
Variables (lqf smax : Z) (qc : oqcqp R) (lgm ugm : nat -> R) (sol : vars R) (ws : @qst R K).
Let o := qipm_solve OP A QA lqf smax qc lgm ugm sol ws.
Let D := qcD qc.
Let qm := masked_qc qc.
Let s0 := qstart QA qc lgm ugm sol ws.
Let C := qctx lqf smax qc (a_qp (qs_a s0)).
Let Mk := flatc D (mask_lower qc).
Hypothesis Hm : qmask01 qc.
(** the embedded QP was created with the dimensions of this QCQP *)
Hypothesis Hd : q_dim (a_qp (qs_a ws)) = qcD qc.

Lemma lowslack_dec i c : {lowslack qc i c} + {~ lowslack qc i c}.
Proof.
  destruct (le_lt_dec (2 * cn2 qc i) c) as [H|H].
  - destruct (qslack_dec qc i (c - 2 * cn2 qc i)) as [Q|N]; [left|right].
    + destruct Q as (j & H1 & H2 & H3). exists j. repeat split; [exact H1|exact H2|lia].
    + intros (j & H1 & H2 & H3). apply N. exists j. repeat split; [exact H1|exact H2|lia].
  - right. intros (j & H1 & H2 & H3). lia.
Qed.
Lemma ml01 i c : (i <= dN (c_dim qc))%nat -> (c < cnc qc i)%nat -> mask_lower qc i c = 0 \/ mask_lower qc i c = 1.
Proof.
  intros Hi Hc. destruct (mask_lower_R qc i c Hi) as [E1 E2]. destruct (lowerq qc i c) eqn:E; [left; apply E1; left; reflexivity|].
  destruct (lowslack_dec i c) as [L|L]; [left; apply E1; right; exact L|]. rewrite E2 by (try exact L; reflexivity). apply Hm; assumption.
Qed.
Lemma Mk_at k : (k < tot_c D)%nat -> exists i c, (i <= dN (c_dim qc))%nat /\ (c < cnc qc i)%nat /\ k = (nsum i (nct D) + c)%nat /\ Mk k = mask_lower qc i c.
Proof.
  intros Hk. rewrite tot_c_nsum in Hk. destruct (nsum_locate _ _ _ Hk) as (i & c & Hi & Hc & ->). exists i, c.
  split; [change (dN D) with (dN (c_dim qc)) in Hi; lia|]. split; [rewrite cnc_eq; exact Hc|]. split; [reflexivity|]. unfold Mk, flatc. apply cat_at; assumption.
Qed.
Lemma off_lt i c : (i <= dN (c_dim qc))%nat -> (c < cnc qc i)%nat -> (nsum i (nct D) + c < tot_c D)%nat /\ Mk (nsum i (nct D) + c)%nat = mask_lower qc i c.
Proof.
  intros Hi Hc. rewrite cnc_eq in Hc. split; [rewrite tot_c_nsum; apply win_off_lt; [change (dN D) with (dN (c_dim qc)); lia|exact Hc]|].
  unfold Mk, flatc. apply cat_at; [change (dN D) with (dN (c_dim qc)); lia|exact Hc].
Qed.
Definition qinside (x : vars R) : Prop := forall k, (k < tot_c D)%nat -> 0 < va_t x k /\ (Mk k = 1 -> 0 < va_lam x k) /\ (Mk k = 0 -> va_lam x k = 0).

(** the arguments of the start: thresholds positive; the default choice of the initial multipliers (see C62_t0_init_refuted) *)
Definition good_qstart : Prop := ((ai QA warm_start <= 1)%Z -> 0 < ar QA mu0 /\ ai QA t0_init <> 0%Z /\ ai QA t0_init <> 1%Z) /\
  ((3 <= ai QA warm_start)%Z -> 0 < ar QA lam0_min /\ 0 < ar QA t0_min).
Lemma start_qinside : good_qstart -> qinside (qs_x s0) /\ qinside (i_x (qs_i s0)).
Proof.
  intros [G1 G2]. assert (H : qinside (qs_x s0)).
  { intros k Hk. unfold s0, qstart. cbn [qs_x va_lam va_t]. fold D. unfold VECMUL. rewrite vset0_in by exact Hk. cbn [Nat.add].
    change (flatc D (c_mask (masked_qc qc)) k) with (Mk k).
    destruct (Mk_at k Hk) as (i & c & Hi & Hc & -> & Em). rewrite Em. set (s' := qinit_var QA (masked_qc qc) lgm ugm (view D sol)).
    assert (Hc' : (c < nct D i)%nat) by (rewrite cnc_eq in Hc; exact Hc). cbn [va_lam va_t flat]. change (dN D) with (dN (c_dim qc)). rewrite !cat_at by (first [exact Hc'|lia]). rsimp.
    destruct (C62_interior QA (masked_qc qc) lgm ugm (view D sol) i c Hc) as (I1 & I2 & I3). fold s' in I1, I2, I3. change (lowerq (masked_qc qc) i c) with (lowerq qc i c) in I1.
    assert (P : 0 < s_t s' i c /\ (lowerq qc i c = false -> 0 < s_lam s' i c)).
    { destruct (Z_le_dec (ai QA warm_start) 1) as [H1|H1].
      { destruct (G1 H1) as (Hmu & T0 & T1). destruct (I1 H1 T0 T1 Hmu) as (J1 & J2 & _). split; [exact J1|]. intros E. apply J2. exact E. }
      destruct (Z.eq_dec (ai QA warm_start) 2) as [H2|H2].
      - destruct (I2 H2) as [<- <-]. pose proof (Rmax_r (s_lam (view D sol) i c) (1 / 10)). pose proof (Rmax_r (s_t (view D sol) i c) (1 / 10)). split; intros; lra.
      - destruct (G2 ltac:(lia)) as [G3 G4]. destruct (I3 ltac:(lia)) as [<- <-]. pose proof (Rmax_r (s_lam (view D sol) i c) (ar QA lam0_min)). pose proof (Rmax_r (s_t (view D sol) i c) (ar QA t0_min)). split; intros; lra. }
    destruct P as [P1 P2]. split; [exact P1|]. split; intros E; rewrite E; [|lra]. rewrite Rmult_1_l. apply P2.
    destruct (lowerq qc i c) eqn:El; [|reflexivity]. destruct (mask_lower_R qc i c Hi) as [Z _]. rewrite Z in E by (left; exact El). lra. }
  split; [exact H|]. intros k Hk. specialize (H k Hk). unfold s0 in H |- *. unfold qstart in H |- *. cbn [qs_x qs_i i_x] in H |- *. fold D in H |- *.
  match goal with |- context [conv_sol D ?x ?y] => destruct (conv_sol_at D x y k Hk) as [-> ->] end. exact H.
Qed.
Lemma Cmask_at k : (k < tot_c D)%nat -> IpmModel.c_mask C k = Mk k.
Proof. intros Hk. unfold C, s0. apply cmask_at. exact Hk. Qed.
(** one clipped update *)
Lemma qstep_inside (qp : oqp R) x bkp (w : @wk R K) : q_dim qp = D -> ai A t_lam_min = 2%Z -> 0 < ar A lam_min -> 0 < ar A t_min -> qinside (fst (take_step A (set_qp C qp) x bkp w)).
Proof.
  intros Eq Ht Hl0 Ht0 k Hk. unfold take_step. cbn [set_qp c_qp]. rewrite Eq.
  pose proof (update_var_spec (tot_v D) (tot_e D) (tot_c D) (ai A t_lam_min) (ar A lam_min) (ar A t_min) (wk_ap w) (wk_ad w) (wk_stp w) x bkp k) as U.
  destruct (update_var _ _ _ _ _ _ _ _ _ _) as [x' b']. destruct (damped (wk_ap w) (wk_ad w)) as [p q]. rewrite Ht in U. cbn [Z.eqb Pos.eqb] in U. cbv zeta in U.
  destruct U as (_ & _ & U3 & U4 & _). assert (Hb : Nat.ltb k (tot_c D) = true) by (apply Nat.ltb_lt; exact Hk). rewrite Hb in U3, U4.
  cbn [fst va_lam va_t]. unfold domask. cbn [set_qp c_qp c_mc IpmModel.c_mask]. rewrite Eq. change (c_mc C) with true. cbv iota. unfold VECMUL. rewrite vset0_in by exact Hk. cbn [Nat.add].
  rewrite Cmask_at by exact Hk. rsimp.
  assert (P : forall v f, 0 < f -> 0 < (if Rleb v f then f else v)) by (intros v f Hf; destruct (Rleb_spec v f); lra).
  split; [rewrite U4; apply P; exact Ht0|]. split; intros E; rewrite E; [|lra]. rewrite U3, Rmult_1_l. apply P; exact Hl0.
Qed.
Lemma qinside_conv x y : qinside x -> qinside (conv_sol D x y).
Proof. intros H k Hk. destruct (conv_sol_at D x y k Hk) as [-> ->]. apply H; exact Hk. Qed.
Lemma qinside_mask x : qinside x -> qinside (mkvars (va_v x) (va_pi x) (VECMUL (tot_c D) (IpmModel.c_mask C) 0 (va_lam x) 0 (va_lam x) 0) (va_t x)).
Proof.
  intros H k Hk. destruct (H k Hk) as (H1 & H2 & H3). cbn [va_lam va_t]. unfold VECMUL. rewrite vset0_in by exact Hk. cbn [Nat.add]. rewrite Cmask_at by exact Hk. rsimp.
  split; [exact H1|]. split; intros E; [rewrite E; specialize (H2 E); lra|rewrite E; lra].
Qed.
Definition qinv (s : @qst R K) : Prop := q_dim (a_qp (qs_a s)) = D /\ qinside (qs_x s).
Lemma start_dim : q_dim (a_qp (qs_a s0)) = D.
Proof. unfold s0, qstart. cbn [qs_a]. match goal with |- context [approx_qp ?q ?x ?a] => destruct (approx_qp_mask q x a) as [E _] end. rewrite E. exact Hd. Qed.
Lemma solve_qinv : qconstrained qc -> good_qstart -> ai A t_lam_min = 2%Z -> 0 < ar A lam_min -> 0 < ar A t_min -> qinside (qs_x (qo_s o)).
Proof.
  intros Hc Hg Ht Hl0 Ht0. destruct (qsolve_case OP A QA lqf smax qc lgm ugm sol ws) as [[Hn _]|[(_ & _ & E)|(_ & _ & E)]]; [contradiction| |]; fold o qm s0 C in E; rewrite E.
  - destruct (qsolve_abs_loop OP A QA qm C s0 (fun _ s => qinv s)) as (kk & s' & -> & H & _).
    + split; [|apply start_qinside; exact Hg]. unfold qabs_init. cbn [qabs_mu qs_a]. change (qcD qm) with D.
      destruct (update_abs_const qm (view D (qs_x s0)) (dN (c_dim qm) + 1) (qs_a s0)) as [Ed _]. unfold update_qp_abs. rewrite Ed. exact start_dim.
    + intros kk s _ [I1 I2] _. destruct (qabs_body_step OP A qm C kk s) as (w & Hw & Ew & Ex & Ea). cbv zeta in *. split.
      * rewrite Ea. destruct (update_abs_const qm (view (qcD qm) (qs_x (qabs_body OP A qm C kk s))) (dN (c_dim qm) + 1) (qs_a s)) as [Ed _]. unfold update_qp_abs. rewrite Ed. exact I1.
      * rewrite Ex. apply qinside_conv. pose proof (qstep_inside (a_qp (qs_a s)) (i_x (qs_i s)) (i_bkp (qs_i s)) w I1 Ht Hl0 Ht0) as H. rewrite <- Ew in H. exact H.
    + unfold qfinish. cbn [qo_s]. rewrite qabs_exit_x. apply H.
  - destruct (qsolve_delta_loop OP A QA qm C s0 (fun _ s => qinv s)) as (kk & s' & -> & H & _).
    + destruct (qdelta_init_same qm C s0) as (E1 & E2 & _). split; [rewrite E2; exact start_dim|]. rewrite E1. apply start_qinside; exact Hg.
    + intros kk s _ [I1 I2] _. destruct (qdelta_body_step OP A qm C kk s) as (w & Hw & Ew & _ & _ & Ex & Ea & _). cbv zeta in *. split.
      * rewrite Ea. destruct (update_qp_const qm (view (qcD qm) (qs_x (qdelta_body OP A qm C kk s))) (dN (c_dim qm) + 1) (qs_a s)) as [Ed _]. unfold update_qp. rewrite Ed. exact I1.
      * rewrite Ex. change (qcD qm) with D. apply qinside_mask, qinside_conv. pose proof (qstep_inside (a_qp (qs_a s)) (i_x (qs_i s)) (i_bkp (qs_i s)) w I1 Ht Hl0 Ht0) as H. rewrite <- Ew in H. exact H.
    + unfold qfinish. cbn [qo_s]. apply H.
Qed.

(** C61: with the multipliers and slacks clipped (t_lam_min = 2, the default) and positive thresholds, the returned solution has t > 0 everywhere,
    lam > 0 on every imposed constraint, lam = 0 on every masked one, on the lower sides of the quadratic constraints and on the slacks softening them --
    both formulations, every status, every linear algebra. *)
Theorem C61_strictly_interior : qconstrained qc -> good_qstart -> ai A t_lam_min = 2%Z -> 0 < ar A lam_min -> 0 < ar A t_min ->
  forall i c, (i <= dN (c_dim qc))%nat -> (c < cnc qc i)%nat -> let s := view D (qs_x (qo_s o)) in
  0 < s_t s i c /\
  (lowerq qc i c = false -> ~ lowslack qc i c -> c_mask qc i c = 1 -> 0 < s_lam s i c) /\
  (lowerq qc i c = true \/ lowslack qc i c \/ c_mask qc i c = 0 -> s_lam s i c = 0).
Proof.
  intros Hc Hg Ht Hl0 Ht0 i c Hi Hcc. cbv zeta. pose proof (solve_qinv Hc Hg Ht Hl0 Ht0) as H. destruct (off_lt i c Hi Hcc) as [Hk Ek].
  destruct (H _ Hk) as (H1 & H2 & H3). rewrite Ek in H2, H3. destruct (mask_lower_R qc i c Hi) as [L1 L2].
  split; [exact H1|]. split.
  - intros E N M. apply H2. rewrite L2 by assumption. exact M.
  - intros X. apply H3. destruct (lowerq qc i c) eqn:E; [apply L1; left; reflexivity|]. destruct (lowslack_dec i c) as [L|L]; [apply L1; right; exact L|].
    rewrite L2 by (try exact L; reflexivity). destruct X as [X|[X|X]]; [discriminate|contradiction|exact X].
Qed.

(** C61: what SUCCESS means for the user, in exact arithmetic, delta formulation, clipped multipliers.  (z, pi, lam, t) is the returned solution: it
    satisfies the dynamics, every constraint of the QCQP except the bounds of the slacks softening lower sides of quadratic constraints (those the
    solver drops, see C60), stationarity and complementarity within the tolerances; for a convex QCQP its cost is close to that of every feasible
    point or better. *)
Theorem C61_success_certificate : qconstrained qc -> good_qstart -> ai A t_lam_min = 2%Z -> 0 < ar A lam_min -> 0 < ar A t_min ->
  ai A abs_form = 0%Z -> (0 <= ai QA iter_max)%Z -> qc_wf qc -> qo_status o = SUCCESS ->
  let s := view D (qs_x (qo_s o)) in let z := s_ux s in let N := dN (c_dim qc) in
  (forall i j, (i < N)%nat -> (j < dnx (c_dim qc) (S i))%nat -> Rabs (qdyn qc z i j) <= ar QA res_b_max) /\
  (forall i c, (i <= N)%nat -> (c < cnc qc i)%nat -> act qc i c <> 0 -> ~ lowslack qc i c -> qcon qc z i c >= c_d qc i c - ar QA res_d_max) /\
  (forall i k, (i <= N)%nat -> (k < cnv qc i)%nat -> Rabs (qkkt_g qc z (s_pi s) (s_lam s) i k) <= ar QA res_g_max) /\
  (forall i c, (i <= N)%nat -> (c < cnc qc i)%nat -> act qc i c <> 0 -> ~ lowslack qc i c -> Rabs (s_lam s i c * s_t s i c - c_m qc i c - ar A tau_min) <= ar QA res_m_max) /\
  (qpsd qc -> qcon_psd qc -> forall y, qfeasible qc y ->
     qcost qc z - qcost qc y <= ar QA res_g_max * rsum (N + 1) (fun i => rsum (cnv qc i) (fun k => Rabs (y i k - z i k)))
       + ar QA res_b_max * rsum N (fun i => rsum (dnx (c_dim qc) (S i)) (fun j => Rabs (s_pi s i j)))
       + ar QA res_d_max * rsum (N + 1) (fun i => rsum (cnc qc i) (fun c => s_lam s i c))
       + rsum (N + 1) (fun i => rsum (cnc qc i) (fun c => mask_lower qc i c * (c_m qc i c + ar A tau_min + ar QA res_m_max)))).
Proof.
  intros Hc Hg Ht Hl0 Ht0 Ha Him Hwf HS. cbv zeta.
  pose proof (solve_qinv Hc Hg Ht Hl0 Ht0) as Ins.
  destruct (C61_success_certifies OP A QA lqf smax qc lgm ugm sol ws Hc Ha Him) as ((a & r0 & rw0 & Hlin & Hr) & Hmax & _ & Hcert). fold o D in Hr, Hmax, Hcert, Hlin. specialize (Hcert HS).
  destruct (C61_status OP A QA lqf smax qc lgm ugm sol ws Hc) as (_ & _ & _ & Hst & _). fold o in Hst. destruct (Hst HS) as (_ & Hp & Hdd). clear Hst.
  rsimp. assert (Tr : forall a b, Rleb a b = false -> Rltb b a = true) by (intros a' b H; destruct (Rleb_spec a' b); [discriminate|]; destruct (Rltb_spec b a'); [reflexivity|lra]).
  specialize (Hcert (Tr _ _ Hp) (Tr _ _ Hdd)).
  set (s := view D (qs_x (qo_s o))) in *. set (r := qs_r (qo_s o)) in *.
  assert (Pos : forall i c, (i <= dN (c_dim qc))%nat -> (c < cnc qc i)%nat -> 0 < s_t s i c /\ (mask_lower qc i c = 1 -> 0 < s_lam s i c) /\ (mask_lower qc i c = 0 -> s_lam s i c = 0)).
  { intros i c Hi Hcc. destruct (off_lt i c Hi Hcc) as [Hk Ek]. pose proof (Ins _ Hk) as H. rewrite Ek in H. exact H. }
  pose proof (C59_norms qm r) as Nrm. cbv zeta in Nrm. change (c_dim qm) with (c_dim qc) in Nrm. change (c_nq qm) with (c_nq qc) in Nrm. rewrite <- Hmax in Nrm.
  destruct (qs_max (qo_s o)) as [[[ng nb] nd] nm]. destruct Nrm as ((_ & Ng & _) & (_ & Nb & _) & (_ & Nd & _) & _).
  destruct Hcert as (C1 & C2 & C3 & C4 & _).
  assert (Fl : forall a b, Rltb a b = false -> b <= a) by (intros a' b H; destruct (Rltb_spec a' b); [discriminate|lra]).
  apply Fl in C1, C2, C3, C4.
  assert (Hwfm : qc_wf qm) by exact Hwf.
  assert (Prep : q_prepared qm (s_lam s)).
  { intros i Hi j Hj. change (dN (c_dim qm)) with (dN (c_dim qc)) in Hi. change (c_nq qm i) with (c_nq qc i) in Hj.
    assert (L1 : (QcqpLinSpec.lq qm i j < cnc qc i)%nat) by (unfold QcqpLinSpec.lq, cnc, cn2; change (c_dim qm) with (c_dim qc); lia).
    assert (L2 : (uqx qm i j < cnc qc i)%nat) by (unfold uqx, cnc, cn2; change (c_dim qm) with (c_dim qc); change (c_nq qm i) with (c_nq qc i); lia).
    assert (Lw : lowerq qc i (QcqpLinSpec.lq qm i j) = true).
    { unfold lowerq, QcqpLinSpec.lq, cn2. change (c_dim qm) with (c_dim qc). apply andb_true_intro. split; [apply Nat.leb_le|apply Nat.ltb_lt]; lia. }
    assert (Z0 : c_mask qm i (QcqpLinSpec.lq qm i j) = 0) by (apply (proj1 (mask_lower_R qc i (QcqpLinSpec.lq qm i j) Hi)); left; exact Lw).
    split; [exact Z0|]. split; [apply (Pos i _ Hi L1); exact Z0|].
    change (c_mask qm i (uqx qm i j)) with (mask_lower qc i (uqx qm i j)). destruct (Pos i _ Hi L2) as (_ & _ & P3). destruct (ml01 i _ Hi L2) as [E|E]; rewrite E; [rewrite (P3 E)|]; lra. }
  assert (Hca : cache_ok (Some (a_fun a, a_adj a)) qm (s_ux s) (s_lam s)).
  { destruct Hlin as (a0 & [E|E]); rewrite E; apply (C60_cache qm s a0 Prep). }
  pose proof (C59_residuals (Some (a_fun a, a_adj a)) qm s None r0 rw0 Hwfm Hca I) as (Rg & Rb & Rd & Rm & _). cbv zeta in Rg, Rb, Rd, Rm. fold qm in Hr. rewrite <- Hr in Rg, Rb, Rd, Rm.
  clearbody r. clear Hr Hmax.
  change (c_dim qm) with (c_dim qc) in *. set (N := dN (c_dim qc)) in *. set (z := s_ux s) in *.
  change (cnv qm) with (cnv qc) in *. change (cnc qm) with (cnc qc) in *. change (qdyn qm) with (qdyn qc) in *.
  assert (Alow : forall i c, (i <= N)%nat -> (c < cnc qc i)%nat -> act qm i c = mask_lower qc i c).
  { intros i c Hi Hcc. unfold act. change (lowerq qm i c) with (lowerq qc i c). change (c_mask qm i c) with (mask_lower qc i c). destruct (lowerq qc i c) eqn:E; [|reflexivity].
    symmetry. apply (proj1 (mask_lower_R qc i c Hi)). left. exact E. }
  assert (Al : forall i c, (i <= N)%nat -> (c < cnc qc i)%nat -> act qm i c * s_lam s i c = act qc i c * s_lam s i c).
  { intros i c Hi Hcc. destruct (lowslack_dec i c) as [L|L].
    - destruct (Pos i c Hi Hcc) as (_ & _ & P3). rewrite P3 by (apply (proj1 (mask_lower_R qc i c Hi)); right; exact L). lra.
    - rewrite (act_masked_eq qc i c Hi L : act qm i c = _). reflexivity. }
  assert (Eb : forall i j, (i < N)%nat -> (j < dnx (c_dim qc) (S i))%nat -> Rabs (qdyn qc z i j) <= ar QA res_b_max).
  { intros i j Hi Hj. rewrite <- Rb by assumption. specialize (Nb i j Hi Hj). lra. }
  assert (Egm : forall i k, (i <= N)%nat -> (k < cnv qc i)%nat -> Rabs (qkkt_g qm z (s_pi s) (s_lam s) i k) <= ar QA res_g_max).
  { intros i k Hi Hk. rewrite <- Rg by assumption. specialize (Ng i k ltac:(lia) Hk). lra. }
  assert (Eg : forall i k, (i <= N)%nat -> (k < cnv qc i)%nat -> Rabs (qkkt_g qc z (s_pi s) (s_lam s) i k) <= ar QA res_g_max).
  { intros i k Hi Hk. replace (qkkt_g qc z (s_pi s) (s_lam s) i k) with (qkkt_g qm z (s_pi s) (s_lam s) i k); [apply Egm; assumption|].
    unfold qkkt_g. f_equal. change (cnc qm i) with (cnc qc i). apply rsum_ext. intros c Hcc. rewrite (Al i c Hi Hcc). reflexivity. }
  assert (Ed : forall i c, (i <= N)%nat -> (c < cnc qc i)%nat -> mask_lower qc i c = 1 -> Rabs (c_d qc i c + s_t s i c - qcon qc z i c) <= ar QA res_d_max).
  { intros i c Hi Hcc E. pose proof (Nd i c ltac:(lia) Hcc) as H. rewrite Rd in H by assumption. unfold qkkt_d in H. change (c_mask qm i c) with (mask_lower qc i c) in H. rewrite E, Rmult_1_l in H.
    change (qcon qm z i c) with (qcon qc z i c) in H. change (c_d qm i c) with (c_d qc i c) in H. lra. }
  assert (Em : forall i c, (i <= N)%nat -> (c < cnc qc i)%nat -> mask_lower qc i c = 1 -> Rabs (s_lam s i c * s_t s i c - c_m qc i c - ar A tau_min) <= ar QA res_m_max).
  { intros i c Hi Hcc E.
    pose proof (proj1 (proj2 (VECNRM_INF_R (tot_c D) (AXPY (tot_c D) (- ar A tau_min) (flatc D (mask_lower qc)) 0 (flatc D (r_m r)) 0 (fun _ => 0 / 1) 0) 0)) (nsum i (nct D) + c)%nat) as H.
    destruct (off_lt i c Hi Hcc) as [Hk Ek]. specialize (H Hk). cbn [Nat.add] in H.
    unfold AXPY at 1 in H. rewrite vset0_in in H by exact Hk. cbn [Nat.add] in H. rsimp. fold Mk in H. rewrite Ek, E in H. unfold flatc in H.
    rewrite cat_at in H by (first [change (dN D) with N; lia|rewrite cnc_eq in Hcc; exact Hcc]). rewrite Rm in H by assumption.
    unfold qkkt_m in H. rewrite (Alow i c Hi Hcc) in H. change (c_mask qm i c) with (mask_lower qc i c) in H. rewrite E in H. change (c_m qm i c) with (c_m qc i c) in H.
    match type of H with Rabs ?u <= _ => replace (s_lam s i c * s_t s i c - c_m qc i c - ar A tau_min) with u by lra end.
    eapply Rle_trans; [exact H|]. fold Mk in C4. exact C4. }
  assert (M1 : forall i c, (i <= N)%nat -> (c < cnc qc i)%nat -> act qc i c <> 0 -> ~ lowslack qc i c -> mask_lower qc i c = 1).
  { intros i c Hi Hcc Hn HL. rewrite <- (act_masked_eq qc i c Hi HL) in Hn. change (with_mask qc (mask_lower qc)) with qm in Hn. rewrite (Alow i c Hi Hcc) in Hn. destruct (ml01 i c Hi Hcc); [contradiction|assumption]. }
  split; [exact Eb|]. split.
  { intros i c Hi Hcc Hn HL. specialize (Ed i c Hi Hcc (M1 i c Hi Hcc Hn HL)). destruct (Pos i c Hi Hcc) as (P1 & _). pose proof (Rle_abs (c_d qc i c + s_t s i c - qcon qc z i c)) as Q. lra. }
  split; [exact Eg|]. split; [intros i c Hi Hcc Hn HL; apply Em; auto|].
  intros Hpsd Hcp y Hy.
  assert (Hnn : forall i c, (i <= N)%nat -> (c < cnc qc i)%nat -> 0 <= act qm i c * s_lam s i c).
  { intros i c Hi Hcc. rewrite (Alow i c Hi Hcc). destruct (Pos i c Hi Hcc) as (_ & P2 & P3). destruct (ml01 i c Hi Hcc) as [E|E]; rewrite E; [lra|specialize (P2 E); lra]. }
  pose proof (qlagr_le_cost qm s y (feas_masked qc y Hy) Hnn) as L1.
  pose proof (C59_stationarity_is_gradient qm z (s_pi s) (s_lam s) y Hwfm) as L2. cbv zeta in L2. change (c_dim qm) with (c_dim qc) in L2. fold N in L2. change (cnv qm) with (cnv qc) in L2.
  assert (Hcpm : qcon_psd qm).
  { intros i j v Hi Hj Hn. apply (Hcp i j v Hi Hj). intros E0. apply Hn. change (c_dim qm) with (c_dim qc). change (cn2 qm i) with (cn2 qc i).
    change (c_nq qm i) with (c_nq qc i) in Hj. change (c_mask qm i) with (mask_lower qc i). change (dN (c_dim qm)) with (dN (c_dim qc)) in Hi.
    set (c := (cn2 qc i + (dnb (c_dim qc) i + dng (c_dim qc) i) + j)%nat) in *. destruct (mask_lower_R qc i c Hi) as [X1 X2].
    destruct (lowerq qc i c) eqn:El; [apply X1; left; reflexivity|]. destruct (lowslack_dec i c) as [L|L]; [apply X1; right; exact L|]. rewrite X2 by (try exact L; reflexivity). exact E0. }
  assert (L3 : 0 <= rsum (N + 1) (fun i => rsum (cnv qc i) (fun k => rsum (cnv qc i) (fun l => (y i k - z i k) * qlHess qm (s_lam s) i k l * (y i l - z i l))))).
  { apply rsum_nonneg. intros i Hi. apply (qlHess_psd qm s i (fun k => y i k - z i k)); [exact Hpsd|exact Hcpm|change (c_dim qm) with (c_dim qc); unfold N in *; lia|]. intros c Hcc. apply Hnn; [lia|exact Hcc]. }
  assert (L4 : - (ar QA res_g_max * rsum (N + 1) (fun i => rsum (cnv qc i) (fun k => Rabs (y i k - z i k)))) <=
    rsum (N + 1) (fun i => rsum (cnv qc i) (fun k => qkkt_g qm z (s_pi s) (s_lam s) i k * (y i k - z i k)))).
  { rewrite <- rsum_scal, <- rsum_opp. apply rsum_le. intros i Hi. rewrite <- rsum_scal, <- rsum_opp. apply rsum_le. intros k Hk.
    specialize (Egm i k ltac:(lia) Hk). set (g := qkkt_g qm _ _ _ _ _) in *. set (v := y i k - z i k) in *.
    assert (Hab : Rabs (g * v) <= ar QA res_g_max * Rabs v) by (rewrite Rabs_mult; apply Rmult_le_compat_r; [apply Rabs_pos|exact Egm]).
    pose proof (Rle_abs (- (g * v))) as H. rewrite Rabs_Ropp in H. lra. }
  unfold qlagr in L2 at 2. change (c_dim qm) with (c_dim qc) in L2. fold N in L2. change (cnc qm) with (cnc qc) in L2. change (qdyn qm) with (qdyn qc) in L2. change (qcost qm) with (qcost qc) in L1, L2. change (qcon qm) with (qcon qc) in L2. change (c_d qm) with (c_d qc) in L2.
  assert (L5 : - (ar QA res_b_max * rsum N (fun i => rsum (dnx (c_dim qc) (S i)) (fun j => Rabs (s_pi s i j)))) <= rsum N (fun i => rsum (dnx (c_dim qc) (S i)) (fun j => s_pi s i j * qdyn qc z i j))).
  { rewrite <- rsum_scal, <- rsum_opp. apply rsum_le. intros i Hi. rewrite <- rsum_scal, <- rsum_opp. apply rsum_le. intros j Hj.
    specialize (Eb i j Hi Hj). set (g := qdyn _ _ _ _) in *. set (v := s_pi s i j) in *.
    assert (Hab : Rabs (v * g) <= ar QA res_b_max * Rabs v) by (rewrite Rabs_mult, Rmult_comm; apply Rmult_le_compat_r; [apply Rabs_pos|exact Eb]).
    pose proof (Rle_abs (- (v * g))) as H. rewrite Rabs_Ropp in H. lra. }
  assert (L6 : rsum (N + 1) (fun i => rsum (cnc qc i) (fun c => act qm i c * s_lam s i c * (qcon qc z i c - c_d qc i c))) <=
    ar QA res_d_max * rsum (N + 1) (fun i => rsum (cnc qc i) (fun c => s_lam s i c)) +
    rsum (N + 1) (fun i => rsum (cnc qc i) (fun c => mask_lower qc i c * (c_m qc i c + ar A tau_min + ar QA res_m_max)))).
  { rewrite <- rsum_scal, <- rsum_add. apply rsum_le. intros i Hi. rewrite <- rsum_scal, <- rsum_add. apply rsum_le. intros c Hcc.
    destruct (Pos i c ltac:(lia) Hcc) as (_ & P2 & P3). rewrite (Alow i c) by (first [exact Hcc|lia]). destruct (ml01 i c ltac:(unfold N in *; lia) Hcc) as [E|E].
    - rewrite E, (P3 E). lra.
    - specialize (P2 E). specialize (Ed i c ltac:(lia) Hcc E). specialize (Em i c ltac:(lia) Hcc E). rewrite E.
      pose proof (Rle_abs (- (c_d qc i c + s_t s i c - qcon qc z i c))) as Q. rewrite Rabs_Ropp in Q.
      pose proof (Rle_abs (s_lam s i c * s_t s i c - c_m qc i c - ar A tau_min)) as Q2.
      assert (Q3 : s_lam s i c * (qcon qc z i c - c_d qc i c) <= s_lam s i c * (s_t s i c + ar QA res_d_max)) by (apply Rmult_le_compat_l; lra). lra. }
  fold z in L1. lra.
Qed.
End P.
Print Assumptions C61_strictly_interior.
Print Assumptions C61_success_certificate.

(** The hypotheses are met: min u subject to u^2/2 <= 1/2 (QcqpProps.v), the SPEED preset for the embedded QP arguments; the tolerances of the QCQP arguments
    set to the residual norms of the initial iterate, where the solver then stops with SUCCESS. *)
Lemma qstart_ext {K} (QA QA' : arg R) qc lgm ugm sol (ws : @qst R K) : ai QA = ai QA' -> ar QA mu0 = ar QA' mu0 -> ar QA lam0_min = ar QA' lam0_min -> ar QA t0_min = ar QA' t0_min ->
  qstart QA qc lgm ugm sol ws = qstart QA' qc lgm ugm sol ws.
Proof. intros E1 E2 E3 E4. unfold qstart, qinit_var, qinit_stage. rewrite E1, E2, E3, E4. reflexivity. Qed.
Lemma qsolve_delta_eq {K} (OP : kops (F := R) K) (A QA : arg R) qc C (s : @qst R K) :
  qsolve_delta OP A QA qc C s = qfinish QA (qfor (qdelta_go A QA qc C) (qdelta_body OP A qc C) (Z.to_nat (ai QA iter_max)) 0 (qdelta_init qc C s)).
Proof. reflexivity. Qed.
Lemma ai_wr' (f : rarg) (v : R) x : ai (wr f v x) = ai x. Proof. reflexivity. Qed.
Lemma ar_wr' (f : rarg) (v : R) x g : ar (wr f v x) g = if rarg_eqb g f then v else ar x g. Proof. reflexivity. Qed.
Section Ex.
Context {K : Type} (OP : kops (F := R) K) (a0 : arg R) (lgm ugm : nat -> R) (sol : vars R) (ws : @qst R K).
Let A0 := arg_set_default SPEED a0.
Let st := qstart A0 xqc lgm ugm sol ws.
Let C := qctx 0 10 xqc (a_qp (qs_a st)).
Let s1 := qdelta_init (masked_qc xqc) C st.
Let rm := VECNRM_INF (tot_c (qcD (masked_qc xqc))) (AXPY (tot_c (qcD (masked_qc xqc))) (- ar A0 tau_min)%F (IpmModel.c_mask C) 0 (flatc (qcD (masked_qc xqc)) (r_m (qs_r s1))) 0 (fun _ => f0) 0) 0.
Definition exQA : arg R := let '(a, b, c, _) := qs_max s1 in wr res_g_max a (wr res_b_max b (wr res_d_max c (wr res_m_max rm (wr dual_gap_max (r_gap (qs_r s1)) A0)))).
Example C61_hypotheses_met : q_dim (a_qp (qs_a ws)) = qcD xqc -> qmask01 xqc /\ qconstrained xqc /\ good_qstart exQA /\ ai A0 t_lam_min = 2%Z /\ 0 < ar A0 lam_min /\ 0 < ar A0 t_min /\
  ai A0 abs_form = 0%Z /\ (0 <= ai exQA iter_max)%Z /\ qc_wf xqc /\ qpsd xqc /\ qcon_psd xqc /\ qo_status (qipm_solve OP A0 exQA 0 10 xqc lgm ugm sol ws) = SUCCESS.
Proof.
  intros _. assert (Hc : qconstrained xqc).
  { exists 0%nat, 1%nat. split; [cbn; lia|]. split; [cbn; lia|]. destruct (mask_lower_R xqc 0 1 ltac:(cbn; lia)) as [_ E]. rewrite E; [|reflexivity|].
    - cbn. destruct (Reqb_spec 1 (0 / 1)); [lra|reflexivity].
    - intros (j & Hj & Hx & _). apply Hx. reflexivity. }
  assert (E : exists a b c e, qs_max s1 = (a, b, c, e)) by (destruct (qs_max s1) as [[[a b] c] e]; eauto). destruct E as (a & b & c & e & E).
  unfold exQA. rewrite E. set (QA := wr res_g_max a _).
  assert (Es : qstart QA xqc lgm ugm sol ws = st).
  { unfold st. apply qstart_ext; unfold QA; rewrite ?ai_wr', ?ar_wr'; reflexivity. }
  assert (Ex : forall f, ai QA f = ai A0 f) by (intros f; unfold QA; rewrite !ai_wr'; reflexivity).
  assert (Er : ar QA alpha_min = ar A0 alpha_min /\ ar QA mu0 = ar A0 mu0) by (unfold QA; rewrite !ar_wr'; cbn [rarg_eqb]; split; reflexivity).
  destruct Er as (Er1 & Er4).
  assert (Ev : ar QA res_g_max = a /\ ar QA res_b_max = b /\ ar QA res_d_max = c /\ ar QA res_m_max = rm /\ ar QA dual_gap_max = r_gap (qs_r s1))
    by (unfold QA; rewrite !ar_wr'; cbn [rarg_eqb]; repeat split).
  destruct Ev as (Ev1 & Ev2 & Ev3 & Ev4 & Ev5). clearbody QA.
  split; [exact xq_01|]. split; [exact Hc|].
  split; [split; rewrite Ex; [intros _; rewrite Er4, Ex; cbn; repeat split; [lra|discriminate|discriminate]|cbn; intros; lia]|].
  assert (Hp : 0 < 1 / IZR (10 ^ 16)) by (apply Rdiv_lt_0_compat; [lra|apply IZR_lt; reflexivity]).
  split; [reflexivity|]. split; [exact Hp|]. split; [exact Hp|]. split; [reflexivity|]. split; [rewrite Ex; cbn; lia|].
  split; [exact xq_wf|]. split; [exact xq_psd|]. split; [exact xq_cpsd|].
  destruct (qsolve_case OP A0 QA 0 10 xqc lgm ugm sol ws) as [[Hn _]|[(_ & Hn & _)|(_ & _ & Eo)]]; [contradiction|exfalso; apply Hn; reflexivity|].
  rewrite Eo, Es. fold C. rewrite qsolve_delta_eq. fold s1. clear Eo.
  assert (Hgo : qdelta_go A0 QA (masked_qc xqc) C 0 s1 = false).
  { unfold qdelta_go. rewrite E. assert (I : forall x y : R, x = y -> fltb x y = false) by (intros x y ->; rsimp; destruct (Rltb_spec y y); [lra|reflexivity]).
    rewrite (I _ _ Ev1), (I _ _ Ev2), (I _ _ Ev3), (I _ _ Ev5). fold rm. rewrite (I _ _ Ev4). cbn [orb]. rewrite !andb_false_r. reflexivity. }
  assert (Hfor : forall n, qfor (qdelta_go A0 QA (masked_qc xqc) C) (qdelta_body OP A0 (masked_qc xqc) C) n 0 s1 = (0%Z, s1)) by (intros [|n]; cbn [qfor]; rewrite ?Hgo; reflexivity).
  rewrite Hfor. unfold qfinish. cbn [qo_status]. unfold final_status. rewrite Ex. change (Z.eqb 0 (ai A0 iter_max)) with false. cbv iota.
  destruct (qdelta_init_same (masked_qc xqc) C st) as (_ & _ & _ & E1 & E2). fold s1 in E1, E2. rewrite E1, E2, Er1.
  assert (Hal : fleb (wk_ap (i_w (qs_i st))) (ar A0 alpha_min) = false /\ fleb (wk_ad (i_w (qs_i st))) (ar A0 alpha_min) = false).
  { change (wk_ap (i_w (qs_i st))) with (1 / 1). change (wk_ad (i_w (qs_i st))) with (1 / 1). change (ar A0 alpha_min) with (1 / 1000000000000).
    rsimp. split; destruct (Rleb_spec (1 / 1) (1 / 1000000000000)); try reflexivity; lra. }
  destruct Hal as [-> ->]. cbn [orb]. unfold isnan. rsimp. destruct (Reqb_spec (i_mu (qs_i s1)) (i_mu (qs_i s1))); [reflexivity|contradiction].
Qed.
End Ex.
