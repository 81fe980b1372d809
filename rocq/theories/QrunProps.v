(** QrunProps.v -- C63: the QCQP interior-point solve with the Riccati KKT routines: every iteration multiplies the infeasibility by one factor.
    Model: QipmModel.v (OCP_QCQP_IPM_SOLVE, delta formulation) with the KKT operations of RunModel.v.  Specification: QcqpSpec.v (qdyn, qcon, qkkt_g),
    QrunSpec.v (qgap, curv, imposed, qrun_convex), [remains] of RunProps.v.  Exact arithmetic. *)
From Coq Require Import ZArith Bool Arith List Lia Reals Lra.
From Verif Require Import Base ArithF RSum Blas Blas2 QpDataProofs OcpModel ResSpec KktSpec ResProofs ResProofs2 ResProps CoreModel CoreProofs ArgModel IpmModel IpmProofs IpmProofs2 IpmProps IpmInit IpmReal SolveModel KktModel RunModel RunProofs RunProofs2 RunProofs3 RunProofs4 RunProps
  QcqpModel QcqpSpec QcqpProofs QcqpProofs2 QcqpProofs3 QcqpProps QcqpLinSpec QcqpLin QcqpNewton QcqpMask QcqpLinProps QipmModel QipmProofs QipmProps Qinit QinitProps QipmRealProps QrunSpec QrunProofs QrunProofs2 QrunProofs3 QrunProofs4.
Local Open Scope R_scope.

(** the states of the loop, delta formulation: after the residuals of the initial iterate, then one pass after the other *)
Inductive qpasses {K} (OP : kops (F := R) K) (A QA : arg R) (qm : oqcqp R) (C : ctx) (s0 : @qst R K) : Z -> @qst R K -> Prop :=
| qpasses_0 : qpasses OP A QA qm C s0 0 (qdelta_init qm C s0)
| qpasses_S kk s : qpasses OP A QA qm C s0 kk s -> qdelta_go A QA qm C kk s = true -> qpasses OP A QA qm C s0 (kk + 1) (qdelta_body OP A qm C kk s).

Section P.
Variables (A QA : arg R) (lqf smax : Z) (qc : oqcqp R) (sq : bool) (fuel : nat) (lgm ugm : nat -> R).
Variables (lqop : kst R -> oqp R -> osol R -> osol R -> osol R * kst R) (unc : kst R -> oqp R -> osol R -> osol R * kst R).
Variables (sol : vars R) (ws : @qst R (kst R)).
Notation OP := (run_ops A sq fuel lqop unc).
Notation D := (qcD qc).
Notation N := (dN (c_dim qc)).
Notation qm := (masked_qc qc).
Notation s0 := (qstart QA qc lgm ugm sol ws).
Notation C := (qctx lqf smax qc (a_qp (qs_a s0))).
Let o := qipm_solve OP A QA lqf smax qc lgm ugm sol ws.
(** the initial iterate (OCP_QCQP_INIT_VAR, see C62) *)
Let x0 := qinit_var QA qm lgm ugm (view D sol).
Hypothesis Hs : qrun_setup A QA lqf qc.
(** the embedded QP was created with the dimensions of this QCQP; the matrices of the dynamics the KKT routines work on are those of the QCQP *)
Hypothesis Hd : q_dim (a_qp (qs_a ws)) = qcD qc.
Hypothesis HBA : kBA qc (wk_k (i_w (qs_i ws))).

Lemma passes_QI kk s : qpasses OP A QA qm C s0 kk s -> QI qc s.
Proof.
  induction 1 as [|kk s _ IH _].
  - exact (QI_start A QA lqf smax qc lgm ugm sol ws Hs Hd HBA).
  - exact (QI_next A QA lqf smax qc sq fuel lgm ugm lqop unc sol ws Hs kk s IH).
Qed.
Lemma act_lam s : qinside qc (qs_x s) -> forall i c, (i <= N)%nat -> (c < cnc qc i)%nat -> act qm i c * s_lam (view D (qs_x (K := kst R) s)) i c = act qc i c * s_lam (view D (qs_x s)) i c.
Proof.
  intros Hin i c Hi Hc. destruct (lowslack_dec qc i c) as [L|L].
  - destruct (off_lt qc i c Hi Hc) as [Hk Ek]. destruct (Hin _ Hk) as (_ & _ & P3). rewrite Ek in P3. change (s_lam (view D (qs_x s)) i c) with (va_lam (qs_x s) (nsum i (nct D) + c)%nat).
    rewrite P3 by (apply (proj1 (mask_lower_R qc i c Hi)); right; exact L). lra.
  - rewrite (act_masked_eq qc i c Hi L : act qm i c = _). reflexivity.
Qed.
Lemma g_masked s : qinside qc (qs_x (K := kst R) s) -> let X := view D (qs_x s) in forall i k, (i <= N)%nat -> qkkt_g qm (s_ux X) (s_pi X) (s_lam X) i k = qkkt_g qc (s_ux X) (s_pi X) (s_lam X) i k.
Proof.
  intros Hin X i k Hi. unfold qkkt_g. f_equal. change (cnc qm i) with (cnc qc i). apply rsum_ext. intros c Hc. unfold X. rewrite (act_lam s Hin i c Hi Hc). reflexivity.
Qed.

(** C63: the right-hand side of every QP step is the residual of the QCQP at the current iterate (RES_CONV), for the constraints the solver imposes. *)
Theorem C63_rhs kk (s : @qst R (kst R)) : qpasses OP A QA qm C s0 kk s -> let X := view D (qs_x s) in let r := wk_res (i_w (qs_i s)) in
  (forall i k, (i <= N)%nat -> (k < cnv qc i)%nat -> r_g r i k = qkkt_g qc (s_ux X) (s_pi X) (s_lam X) i k) /\
  (forall i j, (i < N)%nat -> (j < dnx (c_dim qc) (S i))%nat -> r_b r i j = qdyn qc (s_ux X) i j) /\
  (forall i c, (i <= N)%nat -> (c < cnc qc i)%nat -> imposed qc i c -> r_d r i c = qgap qc X i c) /\
  (forall i c, (i <= N)%nat -> (c < cnc qc i)%nat -> imposed qc i c -> r_m r i c = s_lam X i c * s_t X i c).
Proof.
  intros Hp X r. pose proof (passes_QI kk s Hp) as HI. pose proof (p_in qc s HI) as Hin. destruct (qi_res _ _ HI) as (R1 & R2 & R3 & R4). fold X in R1, R2, R3, R4. fold r in R1, R2, R3, R4.
  split; [|split; [exact R2|split]].
  - intros i k Hi Hk. rewrite R1 by assumption. apply (g_masked s Hin i k Hi).
  - intros i c Hi Hc Him. rewrite R3 by assumption. unfold qkkt_d, qgap. change (c_mask qm i c) with (mask_lower qc i c). rewrite (proj1 (imposed_mask qc i c Hi Hc) Him).
    change (c_d qm i c) with (c_d qc i c). change (qcon qm (s_ux X) i c) with (qcon qc (s_ux X) i c). lra.
  - intros i c Hi Hc Him. rewrite R4 by assumption. unfold qkkt_m. unfold act. change (lowerq qm i c) with (lowerq qc i c). change (c_mask qm i c) with (mask_lower qc i c). destruct Him as (E & Him). rewrite E.
    rewrite (proj1 (imposed_mask qc i c Hi Hc) (conj E Him)). change (c_m qm i c) with (c_m qc i c). rewrite (qu_m _ _ _ _ Hs) by assumption. lra.
Qed.

(** C63: one iteration.  From any state the loop reaches, the next iterate comes with step lengths p (primal) and q (dual): the violation of the dynamics
    is multiplied by 1 - p; that of an imposed inequality too, plus the curvature of a quadratic constraint along the step, up to t_min; with a joint step
    (split_step <> 1), no regularisation and no multiplier held at lam_min, the gradient of the Lagrangian is multiplied by 1 - p up to the second-order
    term (change of the multipliers of the quadratic constraints) x (their Hessians) x (primal step). *)
Theorem C63_iteration kk (s : @qst R (kst R)) : qpasses OP A QA qm C s0 kk s ->
  let X := view D (qs_x s) in let s' := qdelta_body OP A qm C kk s in let X' := view D (qs_x s') in
  exists p q, 0 <= p <= 1 /\ 0 <= q <= 1 /\ 99 / 100 * wk_ap (i_w (qs_i s')) <= p <= wk_ap (i_w (qs_i s')) /\ (ai A split_step <> 1%Z -> p = q) /\
  (forall i j, (i < N)%nat -> (j < dnx (c_dim qc) (S i))%nat -> qdyn qc (s_ux X') i j = (1 - p) * qdyn qc (s_ux X) i j) /\
  (forall i c, (i <= N)%nat -> (c < cnc qc i)%nat -> imposed qc i c ->
     0 <= qgap qc X' i c - (1 - p) * qgap qc X i c - curv qc (fun k => s_ux X' i k - s_ux X i k) i c <= ar A t_min) /\
  (ar A reg_prim = 0 -> ai A split_step <> 1%Z -> (forall i c, (i <= N)%nat -> (c < cnc qc i)%nat -> imposed qc i c -> ar A lam_min < s_lam X' i c) ->
   forall i k, (i <= N)%nat -> (k < cnv qc i)%nat ->
   qkkt_g qc (s_ux X') (s_pi X') (s_lam X') i k = (1 - p) * qkkt_g qc (s_ux X) (s_pi X) (s_lam X) i k +
   (if (k <? cnux qc i)%nat then rsum (c_nq qc i) (fun j => (s_lam X' i (uqx qc i j) - s_lam X i (uqx qc i j)) * rsum (cnux qc i) (fun l => Hsym qc i j k l * (s_ux X' i l - s_ux X i l))) else 0)).
Proof.
  intros Hp X s' X'. pose proof (passes_QI kk s Hp) as HI. pose proof (p_in qc s HI) as Hin.
  pose proof (p_in qc s' (QI_next A QA lqf smax qc sq fuel lgm ugm lqop unc sol ws Hs kk s HI)) as Hin'.
  destruct (p_contracts A QA lqf smax qc sq fuel lgm ugm lqop unc sol ws Hs Hd kk s HI) as (p & q & P1 & P2 & P3 & P4 & P5 & P6 & P7).
  exists p, q. split; [exact P1|]. split; [exact P2|]. split; [exact P3|]. split; [exact P4|]. split; [exact P5|]. split; [exact P6|].
  intros Er Hss Hl i k Hi Hk. specialize (P7 Er Hss Hl i k Hi Hk). pose proof (g_masked _ Hin i k Hi) as G. pose proof (g_masked _ Hin' i k Hi) as G'. cbv zeta in G, G'. unfold X', X. rewrite <- G, <- G'. exact P7.
Qed.

Lemma sv_ux i k : (i <= N)%nat -> (k < cnv qc i)%nat -> s_ux (view D (qs_x s0)) i k = s_ux x0 i k.
Proof. intros Hi Hk. change (s_ux (view D (qs_x s0)) i k) with (s_ux (view D (flat D x0)) i k). apply vf_ux; assumption. Qed.
Lemma sv_t i c : (i <= N)%nat -> (c < cnc qc i)%nat -> s_t (view D (qs_x s0)) i c = s_t x0 i c.
Proof. intros Hi Hc. change (s_t (view D (qs_x s0)) i c) with (s_t (view D (flat D x0)) i c). apply vf_t; [exact Hi|rewrite cnc_eq in Hc; exact Hc]. Qed.
Definition q_inv (kk : Z) (s : @qst R (kst R)) : Prop := qpasses OP A QA qm C s0 kk s /\ (0 <= kk)%Z /\
  exists a : nat -> R, (forall k, (k < Z.to_nat kk)%nat -> 0 <= a k <= 1) /\ (forall k, (S k < Z.to_nat kk)%nat -> 99 / 100 * ar QA alpha_min <= a k) /\
  (forall k, (S k = Z.to_nat kk)%nat -> 99 / 100 * wk_ap (i_w (qs_i s)) <= a k) /\
  (forall i j, (i < N)%nat -> (j < dnx (c_dim qc) (S i))%nat -> qdyn qc (s_ux (view D (qs_x s))) i j = left a (Z.to_nat kk) * qdyn qc (s_ux x0) i j) /\
  (forall i c, (i <= N)%nat -> (c < cnc qc i)%nat -> imposed qc i c -> upperq qc i c = false ->
     0 <= qgap qc (view D (qs_x s)) i c - left a (Z.to_nat kk) * qgap qc x0 i c <= IZR kk * ar A t_min).
Lemma q_inv_0 : q_inv 0 (qdelta_init qm C s0).
Proof.
  split; [constructor|]. split; [lia|]. exists (fun _ => 0). destruct (qdelta_init_same qm C s0) as (E & _). rewrite E. change (Z.to_nat 0) with 0%nat. cbn [left].
  split; [intros; lia|]. split; [intros; lia|]. split; [intros; lia|].
  assert (Ag : forall i k, (i <= N)%nat -> (k < cnv qc i)%nat -> s_ux (view D (qs_x s0)) i k = s_ux x0 i k) by exact sv_ux. split.
  - intros i j Hi Hj. rewrite (qdyn_ext qc _ _ i j Ag Hi Hj). lra.
  - intros i c Hi Hc _ _. unfold qgap. rewrite (qcon_ext qc (qu_wf _ _ _ _ Hs) _ _ i c Ag Hi Hc). rewrite sv_t by assumption. lra.
Qed.
Lemma q_inv_S kk s : q_inv kk s -> qdelta_go A QA qm C kk s = true -> q_inv (kk + 1) (qdelta_body OP A qm C kk s).
Proof.
  intros (Hp & Hk & a & A1 & A2 & A3 & A4 & A5) Hgo. split; [constructor; assumption|]. split; [lia|].
  assert (Ha : ar QA alpha_min < wk_ap (i_w (qs_i s))).
  { unfold qdelta_go in Hgo. destruct (qs_max s) as [[[ma mb] mc] md]. apply andb_prop in Hgo. destruct Hgo as [_ Hgo]. apply andb_prop in Hgo. destruct Hgo as [Hgo _]. rsimp.
    destruct (Rltb_spec (ar QA alpha_min) (wk_ap (i_w (qs_i s)))) as [Hlt|]; [exact Hlt|discriminate]. }
  destruct (C63_iteration kk s Hp) as (p & q & P1 & P2 & P3 & P4 & P5 & P6 & _). cbv zeta in *. set (s' := qdelta_body OP A qm C kk s) in *. clearbody s'.
  replace (Z.to_nat (kk + 1)) with (S (Z.to_nat kk)) by lia. set (n := Z.to_nat kk) in *. assert (En : IZR kk = INR n) by (unfold n; rewrite INR_IZR_INZ, Z2Nat.id by lia; reflexivity).
  exists (fun k => if (k =? n)%nat then p else a k).
  assert (L : left (fun k => if (k =? n)%nat then p else a k) n = left a n) by (apply left_ext; intros k Hk'; destruct (Nat.eqb_spec k n); [lia|reflexivity]).
  cbn [left]. rewrite L, Nat.eqb_refl.
  split; [intros k Hk'; destruct (Nat.eqb_spec k n); [exact P1|apply A1; lia]|].
  split; [intros k Hk'; destruct (Nat.eqb_spec k n); [lia|]; destruct (Nat.eq_dec (S k) n) as [E|E]; [specialize (A3 k E); lra|apply A2; lia]|].
  split; [intros k Hk'; destruct (Nat.eqb_spec k n); [lra|lia]|]. split.
  - intros i j Hi Hj. rewrite P5, A4 by assumption. ring.
  - intros i c Hi Hc Him Hu. specialize (P6 i c Hi Hc Him). unfold curv in P6. rewrite Hu in P6. specialize (A5 i c Hi Hc Him Hu). rewrite plus_IZR.
    set (g' := qgap qc (view D (qs_x s')) i c) in *. set (g := qgap qc (view D (qs_x s)) i c) in *. set (g0 := qgap qc x0 i c) in *.
    assert (F : 0 <= (1 - p) * (g - left a n * g0)) by (apply Rmult_le_pos; lra).
    assert (G : (1 - p) * (g - left a n * g0) <= g - left a n * g0) by (assert (0 <= p * (g - left a n * g0)) by (apply Rmult_le_pos; lra); lra). lra.
Qed.
(** C63: the whole solve.  There are step lengths in [0, 1], none but the last below 0.99 alpha_min, such that the solution returned -- whatever the status
    and the number of iterations -- violates each equation of the dynamics by the initial violation times the product of (1 - step), and each imposed
    linear inequality by the same multiple, up to t_min per iteration. *)
Theorem C63_infeasibility : exists a : nat -> R, let n := Z.to_nat (qo_iter o) in let x := view D (qs_x (qo_s o)) in
  (forall k, (k < n)%nat -> 0 <= a k <= 1) /\ (forall k, (S k < n)%nat -> 99 / 100 * ar QA alpha_min <= a k) /\
  (forall k, (S k = n)%nat -> 99 / 100 * wk_ap (i_w (qs_i (qo_s o))) <= a k) /\
  (forall i j, (i < N)%nat -> (j < dnx (c_dim qc) (S i))%nat -> qdyn qc (s_ux x) i j = remains a n * qdyn qc (s_ux x0) i j) /\
  (forall i c, (i <= N)%nat -> (c < cnc qc i)%nat -> imposed qc i c -> upperq qc i c = false ->
     0 <= qgap qc x i c - remains a n * qgap qc x0 i c <= IZR (qo_iter o) * ar A t_min).
Proof.
  destruct (qsolve_case OP A QA lqf smax qc lgm ugm sol ws) as [[Hn _]|[(_ & Hn & _)|(_ & _ & E)]]; [exfalso; apply Hn, (qu_con _ _ _ _ Hs)|exfalso; apply Hn, (qu_abs _ _ _ _ Hs)|].
  unfold o. rewrite E. destruct (qsolve_delta_loop OP A QA qm C s0 q_inv q_inv_0) as (kk & s' & -> & (_ & _ & a & H1 & H2 & H3 & H4 & H5) & _).
  { intros kk s _ H Hgo. apply q_inv_S; assumption. }
  exists a. unfold qfinish. cbn [qo_iter qo_s]. cbv zeta. rewrite remains_left. split; [exact H1|]. split; [exact H2|]. split; [exact H3|]. split; [exact H4|exact H5].
Qed.
(** C63: the dynamics are never violated more than initially; satisfied initially, they are satisfied by every returned solution. *)
Theorem C63_dynamics_never_worse i j : (i < N)%nat -> (j < dnx (c_dim qc) (S i))%nat -> let x := view D (qs_x (qo_s o)) in
  Rabs (qdyn qc (s_ux x) i j) <= Rabs (qdyn qc (s_ux x0) i j) /\ (qdyn qc (s_ux x0) i j = 0 -> qdyn qc (s_ux x) i j = 0).
Proof.
  intros Hi Hj. cbv zeta. destruct C63_infeasibility as (a & A1 & _ & _ & A4 & _). cbv zeta in *. rewrite A4 by assumption. rewrite remains_left. pose proof (left_pos a _ A1) as P.
  split; [|intros ->; lra]. rewrite Rabs_mult, (Rabs_pos_eq (left a _)) by lra. pose proof (Rabs_pos (qdyn qc (s_ux x0) i j)). nra.
Qed.
(** C63: geometric rate.  Unless the solver stopped on a short step, n iterations leave at most (1 - 0.99 alpha_min)^n of the violation; always (..)^(n-1). *)
Theorem C63_rate i j : 0 <= ar QA alpha_min <= 1 -> (i < N)%nat -> (j < dnx (c_dim qc) (S i))%nat -> let n := Z.to_nat (qo_iter o) in let x := view D (qs_x (qo_s o)) in
  (ar QA alpha_min <= wk_ap (i_w (qs_i (qo_s o))) -> Rabs (qdyn qc (s_ux x) i j) <= (1 - 99 / 100 * ar QA alpha_min) ^ n * Rabs (qdyn qc (s_ux x0) i j)) /\
  Rabs (qdyn qc (s_ux x) i j) <= (1 - 99 / 100 * ar QA alpha_min) ^ (n - 1) * Rabs (qdyn qc (s_ux x0) i j).
Proof.
  intros Ha Hi Hj. cbv zeta. destruct C63_infeasibility as (a & A1 & A2 & A3 & A4 & _). cbv zeta in *. rewrite A4 by assumption. rewrite remains_left.
  set (n := Z.to_nat (qo_iter o)) in *. clearbody n. pose proof (left_pos a n A1) as P. rewrite Rabs_mult, (Rabs_pos_eq (left a n)) by lra. pose proof (Rabs_pos (qdyn qc (s_ux x0) i j)) as Q.
  assert (B : forall m, (S m <= n)%nat -> forall k, (k < m)%nat -> 99 / 100 * ar QA alpha_min <= a k <= 1) by (intros m Hmn k Hk; split; [apply A2; lia|apply A1; lia]).
  split.
  - intros Hp. apply Rmult_le_compat_r; [exact Q|]. apply left_pow; [|lra]. intros k Hk. split; [|apply A1; exact Hk].
    destruct (Nat.eq_dec (S k) n) as [E|E]; [specialize (A3 k E); lra|apply A2; lia].
  - apply Rmult_le_compat_r; [exact Q|]. destruct n as [|n]; [cbn; lra|]. replace (S n - 1)%nat with n by lia. cbn [left].
    pose proof (left_pow a (99 / 100 * ar QA alpha_min) n (B n ltac:(lia)) ltac:(lra)) as L. pose proof (A1 n ltac:(lia)).
    assert (0 <= left a n <= 1) by (apply left_pos; intros k Hk; apply A1; lia). nra.
Qed.
End P.
(** The hypotheses are met: mode SPEED, x1 = u0 + 3, u0^2/2 <= 2 (quadratic), -1 <= x1 <= 1; the dynamics are violated initially, and no constraint is softened. *)
Definition rqD : dims := mkdims 1 (fun i => i) (fun i => (1 - i)%nat) (fun i => i) (fun _ => 0%nat) (fun _ => 0%nat).
Definition rqc : oqcqp R := mkqc rqD (fun i => (1 - i)%nat) (fun _ _ _ => 1) (fun _ _ _ => 1) (fun _ _ _ => 0) (fun _ _ _ _ => 1) (fun _ _ => 3) (fun _ _ => 2)
  (fun i c => match i, c with 0%nat, 1%nat => -2 | _, _ => -1 end) (fun _ _ => 1) (fun _ _ => 0) (fun _ _ => 0) (fun _ _ => 0%nat) (fun _ _ => (-1)%Z).
Theorem C63_hypotheses_met (a0 : arg R) lgm ugm sol : let A := arg_set_default SPEED a0 in qrun_setup A A 0 rqc /\ 0 <= ar A alpha_min <= 1 /\ imposed rqc 0 1 /\ upperq rqc 0 1 = true /\ imposed rqc 1 0 /\ upperq rqc 1 0 = false /\ qdyn rqc (s_ux (qinit_var A (masked_qc rqc) lgm ugm (view (qcD rqc) sol))) 0 0 >= 2.
Proof.
  cbv zeta. assert (Hp : 0 < 1 / IZR (10 ^ 16)) by (apply Rdiv_lt_0_compat; [lra|apply IZR_lt; reflexivity]).
  assert (Hr : 0 <= ar (arg_set_default SPEED a0) reg_prim) by (apply Rlt_le, Rdiv_lt_0_compat; [lra|apply IZR_lt; reflexivity]).
  assert (NL : forall i c, ~ lowslack rqc i c) by (intros i c (j & _ & Hx & _); apply Hx; reflexivity).
  split; [|split; [change (ar (arg_set_default SPEED a0) alpha_min) with (1 / 1000000000000); lra|]].
  - split.
    + intros i Hi. split; intros j Hj; [|left; reflexivity]. cbn in Hi, Hj. destruct i as [|[|i]]; [lia|cbn; lia|lia].
    + cbn. lia.
    + intros i c _ _. right. reflexivity.
    + intros i j j' _ _ _ H. exfalso. apply H. reflexivity.
    + reflexivity.
    + exists 0%nat, 1%nat. split; [cbn; lia|]. split; [cbn; lia|]. destruct (mask_lower_R rqc 0 1 ltac:(cbn; lia)) as [_ E]. rewrite E; [|reflexivity|apply NL].
      cbn. destruct (Reqb_spec 1 (0 / 1)); [lra|reflexivity].
    + set (reg := ar (arg_set_default SPEED a0) reg_prim) in *. clearbody reg. split.
      * intros i v Hi (k & Hk & Hv). assert (E : cnux rqc i = 1%nat) by (destruct i as [|[|i]]; [reflexivity|reflexivity|cbn in Hi; lia]). rewrite E in *. assert (k = 0%nat) by lia. subst k.
        cbn [rsum]. unfold qHess, H_co. rewrite E. cbn. assert (0 < v 0%nat * v 0%nat) by (destruct (Rtotal_order (v 0%nat) 0) as [H|[H|H]]; [nra|contradiction|nra]). nra.
      * intros i j v Hi Hj _. unfold cnux. change (j < 1 - i)%nat in Hj. assert (i = 0%nat) by lia. subst i. cbn. unfold Hsym. cbn. pose proof (Rle_0_sqr (v 0%nat)) as H. unfold Rsqr in H. lra.
      * intros i k _ Hk. cbn in Hk. lia.
      * intros i k _ Hk. cbn in Hk. lia.
    + reflexivity.
    + reflexivity.
    + exact Hp.
    + exact Hp.
    + discriminate.
    + split; [intros _; cbn; repeat split; [lra|discriminate|discriminate]|cbn; intros; lia].
    + left. reflexivity.
  - split; [split; [reflexivity|split; [apply NL|reflexivity]]|]. split; [reflexivity|]. split; [split; [reflexivity|split; [apply NL|reflexivity]]|]. split; [reflexivity|].
    set (s0 := view (qcD rqc) sol). clearbody s0. set (x := qinit_var _ _ _ _ _).
    assert (E0 : s_ux x 0%nat 0%nat = 0 / 1) by reflexivity.
    pose proof (C62_bounds (arg_set_default SPEED a0) (masked_qc rqc) lgm ugm s0 1) as B. cbv zeta in B. fold x in B.
    assert (M : forall c, c_mask (masked_qc rqc) 1%nat c = 1).
    { intros c. change (mask_lower rqc 1 c = 1). destruct (mask_lower_R rqc 1 c ltac:(cbn; lia)) as [_ E]. rewrite E; [reflexivity| |apply NL].
      unfold lowerq. destruct (_ && _)%bool eqn:Eb; [|reflexivity]. apply andb_prop in Eb. destruct Eb as [E1 E2]. apply Nat.leb_le in E1. apply Nat.ltb_lt in E2. cbn in E1, E2. lia. }
    destruct B as [B _].
    + cbn. lia.
    + reflexivity.
    + cbn. lra.
    + intros j Hj. cbn. lia.
    + intros j k Hj Hk _. cbn in Hj, Hk. lia.
    + intros j Hj. rewrite !M. reflexivity.
    + specialize (B 0%nat ltac:(cbn; lia)). destruct B as [B _]. specialize (B ltac:(rewrite M; lra) ltac:(rewrite M; lra) ltac:(cbn; lra)).
      destruct B as [_ B]. specialize (B ltac:(cbn; lra)). change (c_idxb (masked_qc rqc) 1%nat 0%nat) with 0%nat in B. set (y := s_ux x 1%nat 0%nat) in *. assert (B' : -1 + 1 / 10 <= y <= - -1 - 1 / 10) by exact B.
      change (qdyn rqc (s_ux x) 0 0) with (0 + 1 * s_ux x 0%nat 0%nat + 3 - y). rewrite E0. clearbody y. lra.
Qed.
Print Assumptions C63_rhs.
Print Assumptions C63_iteration.
Print Assumptions C63_infeasibility.
Print Assumptions C63_dynamics_never_worse.
Print Assumptions C63_rate.
Print Assumptions C63_hypotheses_met.
