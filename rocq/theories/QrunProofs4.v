(** QrunProofs4.v -- the delta iteration of the QCQP solver with the Riccati KKT routines: what every pass keeps and what it does to the residuals. *)
From Coq Require Import ZArith Bool Arith List Lia Reals Lra.
From Verif Require Import Base ArithF RSum Blas Blas2 QpDataProofs OcpModel ResSpec KktSpec ResProofs ResProofs2 ResProps CoreModel CoreProofs ArgModel IpmModel IpmProofs IpmProofs2 IpmProps IpmInit IpmReal SolveModel KktModel RunModel RunProofs RunProofs2 RunProofs3 RunProofs4
  QcqpModel QcqpSpec QcqpProofs QcqpProofs2 QcqpProofs3 QcqpProps QcqpLinSpec QcqpLin QcqpNewton QcqpMask QcqpLinProps QipmModel QipmProofs QipmProps Qinit QinitProps QipmRealProps QrunSpec QrunProofs QrunProofs2 QrunProofs3.
Local Open Scope R_scope.

Lemma cp_at n len (a b : nat -> nat -> R) i k : (i < n)%nat -> (k < len i)%nat -> loop n (fun ii v => upd v ii (VECCP (len ii) (a ii) 0 (b ii) 0)) b i k = a i k.
Proof.
  intros Hi Hk. induction n as [|n IH]; [lia|]. rewrite loop_S. destruct (Nat.eq_dec i n) as [->|Hn]; [rewrite upd_same; unfold VECCP; rewrite vset0_in by exact Hk; reflexivity|].
  rewrite upd_other by lia. apply IH. lia.
Qed.
Lemma conv_res_at (D : dims) (src dst : ores R) : let r := conv_res D src dst in
  (forall i k, (i <= dN D)%nat -> (k < nvt D i)%nat -> r_g r i k = r_g src i k) /\ (forall i j, (i < dN D)%nat -> (j < dnx D (S i))%nat -> r_b r i j = r_b src i j) /\
  (forall i c, (i <= dN D)%nat -> (c < nct D i)%nat -> r_d r i c = r_d src i c) /\ (forall i c, (i <= dN D)%nat -> (c < nct D i)%nat -> r_m r i c = r_m src i c).
Proof.
  unfold conv_res. cbn [r_g r_b r_d r_m]. repeat split; intros.
  - apply (cp_at (dN D + 1) (nvt D)); [lia|assumption].
  - apply (cp_at (dN D) (npi D)); [lia|]. unfold npi. rewrite Nat.add_1_r. assumption.
  - apply (cp_at (dN D + 1) (nct D)); [lia|assumption].
  - apply (cp_at (dN D + 1) (nct D)); [lia|assumption].
Qed.
Lemma conv_sol_v (D : dims) (x y : vars R) k : (k < tot_v D)%nat -> va_v (conv_sol D x y) k = va_v x k.
Proof. intros Hk. unfold conv_sol, backup_var. cbn [va_v]. rewrite copy_arr_at by exact Hk. reflexivity. Qed.
Lemma conv_sol_e (D : dims) (x y : vars R) k : (k < tot_e D)%nat -> va_pi (conv_sol D x y) k = va_pi x k.
Proof. intros Hk. unfold conv_sol, backup_var. cbn [va_pi]. rewrite copy_arr_at by exact Hk. reflexivity. Qed.

(** the QCQP and the options *)
Record qrun_setup (A QA : arg R) (lqf : Z) (qc : oqcqp R) : Prop := {
  qu_wf : qc_wf qc;
  qu_N : (1 <= dN (c_dim qc))%nat;
  qu_mask : qmask01 qc;
  qu_soft : qsoft_inj qc;
  qu_m : forall i c, (i <= dN (c_dim qc))%nat -> (c < cnc qc i)%nat -> c_m qc i c = 0;
  qu_con : qconstrained qc;
  qu_cx : qrun_convex qc (ar A reg_prim);
  qu_abs : ai A abs_form = 0%Z;
  qu_tlm : ai A t_lam_min = 2%Z;
  qu_lam_min : 0 < ar A lam_min;
  qu_t_min : 0 < ar A t_min;
  qu_dual : ai A comp_dual_sol_eq <> 0%Z;
  qu_start : good_qstart QA;
  qu_lq : lqf = 0%Z \/ lqf = 1%Z /\ ar A reg_prim = 0 }.

Section P.
Variables (A QA : arg R) (lqf smax : Z) (qc : oqcqp R) (sq : bool) (fuel : nat) (lgm ugm : nat -> R).
Variables (lqop : kst R -> oqp R -> osol R -> osol R -> osol R * kst R) (unc : kst R -> oqp R -> osol R -> osol R * kst R).
Variables (sol : vars R) (ws : @qst R (kst R)).
Notation OP := (run_ops A sq fuel lqop unc).
Let D := qcD qc.
Notation N := (dN (c_dim qc)).
Let qm := masked_qc qc.
Let s0 := qstart QA qc lgm ugm sol ws.
Let C := qctx lqf smax qc (a_qp (qs_a s0)).
Hypothesis Hs : qrun_setup A QA lqf qc.
Hypothesis Hd : q_dim (a_qp (qs_a ws)) = qcD qc.
Definition kBA (k : kst R) : Prop := forall ss i j, (ss < N)%nat -> (i < cnux qc ss)%nat -> (j < dnx (c_dim qc) (S ss))%nat -> k_BAbt (ks_w k) ss i j = c_BAbt qc ss i j.
Notation Hm := (qu_mask _ _ _ _ Hs).
Notation Hwf := (qu_wf _ _ _ _ Hs).

Definition same (x y : vars R) : Prop := (forall k, (k < tot_v D)%nat -> va_v x k = va_v y k) /\ (forall k, (k < tot_e D)%nat -> va_pi x k = va_pi y k) /\
  (forall k, (k < tot_c D)%nat -> va_lam x k = va_lam y k) /\ (forall k, (k < tot_c D)%nat -> va_t x k = va_t y k).
Definition resw (X : osol R) (r : ores R) : Prop :=
  (forall i k, (i <= N)%nat -> (k < cnv qc i)%nat -> r_g r i k = qkkt_g qm (s_ux X) (s_pi X) (s_lam X) i k) /\
  (forall i j, (i < N)%nat -> (j < dnx (c_dim qc) (S i))%nat -> r_b r i j = qdyn qc (s_ux X) i j) /\
  (forall i c, (i <= N)%nat -> (c < cnc qc i)%nat -> r_d r i c = qkkt_d qm (s_ux X) (s_t X) i c) /\
  (forall i c, (i <= N)%nat -> (c < cnc qc i)%nat -> r_m r i c = qkkt_m qm (s_lam X) (s_t X) i c).
Record QI (s : @qst R (kst R)) : Prop := {
  qi_k : kBA (wk_k (i_w (qs_i s)));
  qi_in : qinside qc (i_x (qs_i s));
  qi_same : same (qs_x s) (i_x (qs_i s));
  qi_lin : lin_of qm (s_ux (view D (qs_x s))) (s_lam (view D (qs_x s))) (a_qp (qs_a s));
  qi_res : resw (view D (qs_x s)) (wk_res (i_w (qs_i s))) }.

Lemma offv i k : (i <= N)%nat -> (k < cnv qc i)%nat -> (nsum i (nvt D) + k < tot_v D)%nat.
Proof. intros Hi Hk. apply off_v; assumption. Qed.
Lemma offe i k : (i < N)%nat -> (k < dnx (c_dim qc) (S i))%nat -> (nsum i (npi D) + k < tot_e D)%nat.
Proof. intros Hi Hk. apply off_e; assumption. Qed.
Lemma offc i k : (i <= N)%nat -> (k < cnc qc i)%nat -> (nsum i (nct D) + k < tot_c D)%nat.
Proof. intros Hi Hk. apply off_c; [exact Hi|]. rewrite cnc_eq in Hk. exact Hk. Qed.
Lemma same_inside x y : same x y -> qinside qc y -> qinside qc x.
Proof. intros (_ & _ & S3 & S4) H k Hk. rewrite S3, S4 by exact Hk. apply H. exact Hk. Qed.
Lemma inside_pos x i c : qinside qc x -> (i <= N)%nat -> (c < cnc qc i)%nat ->
  0 < s_t (view D x) i c /\ (mask_lower qc i c = 1 -> 0 < s_lam (view D x) i c) /\ (mask_lower qc i c = 0 -> s_lam (view D x) i c = 0).
Proof. intros H Hi Hc. destruct (off_lt qc i c Hi Hc) as [Hk Ek]. pose proof (H _ Hk) as P. rewrite Ek in P. exact P. Qed.
Lemma inside_prep x : qinside qc x -> q_prepared qm (s_lam (view D x)).
Proof.
  intros H i Hi j Hj. change (dN (c_dim qm)) with N in Hi. change (c_nq qm i) with (c_nq qc i) in Hj.
  assert (L1 : (QcqpLinSpec.lq qm i j < cnc qc i)%nat) by (unfold QcqpLinSpec.lq, cnc, cn2; change (c_dim qm) with (c_dim qc); lia).
  assert (L2 : (uqx qm i j < cnc qc i)%nat) by (unfold uqx, cnc, cn2; change (c_dim qm) with (c_dim qc); change (c_nq qm i) with (c_nq qc i); lia).
  assert (Lw : lowerq qc i (QcqpLinSpec.lq qm i j) = true).
  { unfold lowerq, QcqpLinSpec.lq, cn2. change (c_dim qm) with (c_dim qc). apply andb_true_intro. split; [apply Nat.leb_le|apply Nat.ltb_lt]; lia. }
  assert (Z0 : c_mask qm i (QcqpLinSpec.lq qm i j) = 0) by (apply (proj1 (mask_lower_R qc i (QcqpLinSpec.lq qm i j) Hi)); left; exact Lw).
  split; [exact Z0|]. split; [apply (inside_pos x i _ H Hi L1); exact Z0|].
  change (c_mask qm i (uqx qm i j)) with (mask_lower qc i (uqx qm i j)). destruct (inside_pos x i _ H Hi L2) as (_ & _ & P3). destruct (ml01 qc Hm i _ Hi L2) as [E|E]; rewrite E; [rewrite (P3 E)|]; lra.
Qed.
(** residuals handed to the QP step *)
Lemma res_passed (s : @qst R (kst R)) : qinside qc (qs_x s) -> lin_at qm (view D (qs_x s)) (qs_a s) -> resw (view D (qs_x s)) (wk_res (i_w (qs_i (qcall_res qm s)))).
Proof.
  intros Hin (a0 & Ha). pose proof (inside_prep _ Hin) as Prep. unfold qcall_res. change (qcD qm) with D.
  assert (Hca : cache_ok (Some (a_fun (qs_a s), a_adj (qs_a s))) qm (s_ux (view D (qs_x s))) (s_lam (view D (qs_x s)))) by (destruct Ha as [E|E]; rewrite E; apply (C60_cache qm _ a0 Prep)).
  pose proof (C59_residuals (Some (a_fun (qs_a s), a_adj (qs_a s))) qm (view D (qs_x s)) None (qs_r s) (qs_rw s) Hwf Hca I) as (Rg & Rb & Rd & Rm & _). cbv zeta in Rg, Rb, Rd, Rm.
  destruct (qcres_compute _ None qm _ _ _) as [r rw]. cbn [fst] in *. cbn [qs_i i_w wk_res].
  destruct (conv_res_at D r (wk_res (i_w (qs_i s)))) as (E1 & E2 & E3 & E4). cbv zeta in *. change (dN D) with N in *.
  split; [|split; [|split]].
  - intros i k Hi Hk. rewrite E1 by assumption. apply Rg; assumption.
  - intros i j Hi Hj. rewrite E2 by assumption. apply Rb; assumption.
  - intros i c Hi Hc. rewrite E3 by (rewrite cnc_eq in Hc; assumption). apply Rd; assumption.
  - intros i c Hi Hc. rewrite E4 by (rewrite cnc_eq in Hc; assumption). apply Rm; assumption.
Qed.
Lemma call_res_k (s : @qst R (kst R)) : wk_k (i_w (qs_i (qcall_res qm s))) = wk_k (i_w (qs_i s)).
Proof. unfold qcall_res. destruct (qcres_compute _ _ _ _ _ _). reflexivity. Qed.
Lemma QI_start : kBA (wk_k (i_w (qs_i ws))) -> QI (qdelta_init qm C s0).
Proof.
  intros Hk. destruct (start_qinside QA qc lgm ugm sol ws (qu_start _ _ _ _ Hs)) as [In1 In2]. fold s0 in In1, In2.
  assert (La : lin_at qm (view D (qs_x s0)) (qs_a s0)) by (exists (qs_a ws); left; reflexivity).
  destruct (qdelta_init_same qm C s0) as (E1 & E2 & E3 & _).
  split.
  - unfold qdelta_init. cbn [qput_stat qs_i i_w put_stat wk_k]. rewrite call_res_k. exact Hk.
  - rewrite E3. exact In2.
  - rewrite E1, E3. unfold s0, qstart. cbn [qs_x qs_i i_x]. fold D. split; [|split; [|split]]; intros k Hk'.
    + rewrite conv_sol_v by exact Hk'. reflexivity.
    + rewrite conv_sol_e by exact Hk'. reflexivity.
    + match goal with |- context [conv_sol D ?x ?y] => destruct (conv_sol_at D x y k Hk') as [-> _] end. reflexivity.
    + match goal with |- context [conv_sol D ?x ?y] => destruct (conv_sol_at D x y k Hk') as [_ ->] end. reflexivity.
  - rewrite E1, E2. apply (C60_approx qm (view D (qs_x s0)) (qs_a ws)). exact Hd.
  - rewrite E1. pose proof (res_passed s0 In1 La) as R. exact R.
Qed.

(** one pass *)
Section Pass.
Variables (kk : Z) (s : @qst R (kst R)).
Hypothesis HI : QI s.
Let qp := a_qp (qs_a s).
Let X := view D (qs_x s).
Let x := i_x (qs_i s).
Let Cq := set_qp C qp.
Lemma p_dim : q_dim qp = D. Proof. exact (l_dim qc qp _ _ (qi_lin _ HI)). Qed.
Lemma X_x i : ((i <= N)%nat -> forall k, (k < cnv qc i)%nat -> s_ux X i k = s_ux (view D x) i k) /\ ((i < N)%nat -> forall k, (k < dnx (c_dim qc) (S i))%nat -> s_pi X i k = s_pi (view D x) i k) /\
  ((i <= N)%nat -> forall k, (k < cnc qc i)%nat -> s_lam X i k = s_lam (view D x) i k) /\ ((i <= N)%nat -> forall k, (k < cnc qc i)%nat -> s_t X i k = s_t (view D x) i k).
Proof.
  destruct (qi_same _ HI) as (S1 & S2 & S3 & S4). split; [|split; [|split]]; intros Hi k Hk.
  - apply S1, offv; assumption.
  - apply S2, offe; assumption.
  - apply S3, offc; assumption.
  - apply S4, offc; assumption.
Qed.
Lemma p_in : qinside qc (qs_x s). Proof. eapply same_inside; [apply (qi_same _ HI)|apply (qi_in _ HI)]. Qed.
Lemma p_prep : q_prepared qm (s_lam X). Proof. apply inside_prep, p_in. Qed.
Lemma p_point : point qp (view (q_dim qp) x).
Proof.
  intros i c Hi Hc. rewrite (l_nct qc qp _ _ (qi_lin _ HI)) in Hc. rewrite p_dim in *. change (dN D) with N in Hi. rewrite (l_mask qc qp _ _ (qi_lin _ HI) i c Hi Hc). apply inside_pos; [apply (qi_in _ HI)|exact Hi|exact Hc].
Qed.
Lemma p_lampos i c : (i <= N)%nat -> (c < cnc qc i)%nat -> 0 <= mask_lower qc i c * s_lam X i c.
Proof. intros Hi Hc. destruct (inside_pos _ i c p_in Hi Hc) as (_ & P2 & P3). fold X in P2, P3. destruct (ml01 qc Hm i c Hi Hc) as [E|E]; rewrite E; [lra|specialize (P2 E); lra]. Qed.
Lemma p_mask01 : mask01 qp. Proof. exact (l_mask01 qc qp _ _ (qi_lin _ HI) Hm). Qed.
Lemma p_wf : qp_wf qp. Proof. exact (l_wf qc qp _ _ (qi_lin _ HI) Hwf). Qed.
Lemma p_cx : run_convex (ar A reg_prim) qp. Proof. exact (l_cx qc qp _ _ _ (qi_lin _ HI) p_lampos p_prep (qu_cx _ _ _ _ Hs)). Qed.
Lemma p_Cmk i c : (i <= dN (q_dim qp))%nat -> (c < nct (q_dim qp) i)%nat -> IpmModel.c_mask C (nsum i (nct (q_dim qp)) + c)%nat = q_mask qp i c.
Proof.
  intros Hi Hc. rewrite (l_nct qc qp _ _ (qi_lin _ HI)) in Hc. rewrite p_dim in *. change (dN D) with N in Hi. rewrite (l_mask qc qp _ _ (qi_lin _ HI) i c Hi Hc).
  destruct (off_lt qc i c Hi Hc) as [Hk Ek]. unfold C, s0. rewrite (Cmask_at QA lqf smax qc lgm ugm sol ws) by exact Hk. exact Ek.
Qed.
Lemma kBA_I k : kBA k <-> kI qp k.
Proof.
  unfold kBA, kI, BAok. rewrite p_dim. unfold nux. rewrite p_dim. change (dN D) with N. destruct (qi_lin _ HI) as [_ H]. split; intros B ss i j Hss Hii Hj.
  - destruct (H ss ltac:(change (dN (c_dim qm)) with N; lia)) as (_ & _ & _ & _ & _ & _ & H7). destruct (H7 Hss j Hj) as [_ H8]. etransitivity; [apply (B ss i j Hss Hii Hj)|]. symmetry. apply H8. exact Hii.
  - destruct (H ss ltac:(change (dN (c_dim qm)) with N; lia)) as (_ & _ & _ & _ & _ & _ & H7). destruct (H7 Hss j Hj) as [_ H8]. etransitivity; [apply (B ss i j Hss Hii Hj)|]. apply H8. exact Hii.
Qed.
Lemma mz0 : c_mzero C = true.
Proof.
  unfold C, qctx. cbn [c_mzero]. fold D. assert (Z : forall i c, (i <= N)%nat -> (c < nct D i)%nat -> q_m (a_qp (qs_a s0)) i c = 0).
  { intros i c Hi Hc. pose proof (C60_approx qm (view D (qs_x s0)) (qs_a ws) Hd) as [_ H]. destruct (H i Hi) as (_ & _ & H3 & _). assert (Hc' : (c < cnc qc i)%nat) by (rewrite cnc_eq; exact Hc). destruct (H3 c Hc') as (_ & _ & E).
    change (a_qp (qs_a s0)) with (a_qp (approx_qp qm (view D (qs_x s0)) (qs_a ws))). rewrite E. apply (qu_m _ _ _ _ Hs); assumption. }
  set (m := q_m (a_qp (qs_a s0))) in *. clearbody m. change f0 with (0 / 1). rewrite R_lit01. change (Reqb (VECNRM_INF (tot_c D) (flatc D m) 0) 0 = true).
  destruct (VECNRM_INF_R (tot_c D) (flatc D m) 0) as (_ & _ & [E|(k & Hk & E)]); rewrite E; [destruct (Reqb_spec 0 0); [reflexivity|lra]|].
  cbn [Nat.add]. rewrite tot_c_nsum in Hk. destruct (nsum_locate _ _ _ Hk) as (i' & c' & Hi' & Hc' & ->). unfold flatc. rewrite cat_at by assumption.
  rewrite Z by (first [exact Hc'|change (dN D) with N in Hi'; lia]). rewrite Rabs_R0. destruct (Reqb_spec 0 0); [reflexivity|lra].
Qed.
Let mbk := copy_arr (tot_c D) (resm Cq (wk_res (i_w (qs_i s)))) (i_mbk (qs_i s)).
Let w := delta_dir OP A Cq kk x (i_mu (qs_i s)) (i_max (qs_i s)) mbk (i_w (qs_i s)).
Let res := wk_res (i_w (qs_i s)).
Lemma tlm1 : ai A t_lam_min <> 1%Z. Proof. rewrite (qu_tlm _ _ _ _ Hs). discriminate. Qed.
Lemma p_N : (1 <= dN (q_dim qp))%nat. Proof. rewrite p_dim. apply (qu_N _ _ _ _ Hs). Qed.
Lemma p_W : QrunProofs.W A qp (kFC A sq qp) x (r_g res) (r_b res) (r_d res) w.
Proof.
  apply (QrunProofs.W_delta_dir OP A C qp p_mask01 p_wf p_Cmk eq_refl (kI qp) (kFC A sq qp)).
  - intros k g b d m sl stp. apply run_H_fs; [exact p_mask01|exact p_wf|exact p_N|exact (l_soft qc qp _ _ (qi_lin _ HI) (qu_soft _ _ _ _ Hs))|exact tlm1|exact (qu_dual _ _ _ _ Hs)|exact p_cx].
  - intros u k g b b0 d m sl stp. apply run_H_sv; [exact p_mask01|exact p_wf|exact p_N|exact (l_soft qc qp _ _ (qi_lin _ HI) (qu_soft _ _ _ _ Hs))|exact tlm1|exact (qu_dual _ _ _ _ Hs)|exact p_cx].
  - exact (qu_lq _ _ _ _ Hs).
  - exact p_point.
  - reflexivity.
  - reflexivity.
  - reflexivity.
  - apply kBA_I, (qi_k _ HI).
Qed.
Let x' := fst (take_step A Cq x (i_bkp (qs_i s)) w).
Let s' := qdelta_body OP A qm C kk s.
(** the update *)
Lemma p_view : let '(p, q) := damped (wk_ap w) (wk_ad w) in
  (forall i k, (i <= N)%nat -> (k < cnv qc i)%nat -> s_ux (view D x') i k = s_ux (view D x) i k + p * s_ux (view D (wk_stp w)) i k) /\
  (forall i k, (i < N)%nat -> (k < dnx (c_dim qc) (S i))%nat -> s_pi (view D x') i k = s_pi (view D x) i k + q * s_pi (view D (wk_stp w)) i k) /\
  (forall i c, (i <= N)%nat -> (c < cnc qc i)%nat -> s_lam (view D x') i c = mask_lower qc i c * (let v := s_lam (view D x) i c + q * s_lam (view D (wk_stp w)) i c in if Rleb v (ar A lam_min) then ar A lam_min else v)) /\
  (forall i c, (i <= N)%nat -> (c < cnc qc i)%nat -> s_t (view D x') i c = let v := s_t (view D x) i c + p * s_t (view D (wk_stp w)) i c in if Rleb v (ar A t_min) then ar A t_min else v).
Proof.
  unfold x', take_step. cbn [Cq set_qp c_qp]. rewrite p_dim. rewrite (qu_tlm _ _ _ _ Hs).
  pose proof (fun k => update_var_spec (tot_v D) (tot_e D) (tot_c D) 2 (ar A lam_min) (ar A t_min) (wk_ap w) (wk_ad w) (wk_stp w) x (i_bkp (qs_i s)) k) as U.
  destruct (update_var _ _ _ _ _ _ _ _ _ _) as [y b']. destruct (damped (wk_ap w) (wk_ad w)) as [p q]. cbn [Z.eqb Pos.eqb] in U. cbv zeta in U. cbn [fst].
  split; [|split; [|split]].
  - intros i k Hi Hk. pose proof (offv i k Hi Hk) as O. destruct (U (nsum i (nvt D) + k)%nat) as (U1 & _). apply Nat.ltb_lt in O. rewrite O in U1. rsimp. exact U1.
  - intros i k Hi Hk. pose proof (offe i k Hi Hk) as O. destruct (U (nsum i (npi D) + k)%nat) as (_ & U1 & _). apply Nat.ltb_lt in O. rewrite O in U1. rsimp. exact U1.
  - intros i k Hi Hk. pose proof (offc i k Hi Hk) as O. destruct (U (nsum i (nct D) + k)%nat) as (_ & _ & U1 & _). apply Nat.ltb_lt in O. rewrite O in U1. apply Nat.ltb_lt in O. rsimp.
    cbn [view s_lam va_lam]. unfold win, domask. change (c_mc Cq) with true. change (c_qp Cq) with qp. change (IpmModel.c_mask Cq) with (IpmModel.c_mask C). rewrite p_dim. cbv iota. unfold VECMUL. rewrite vset0_in by exact O. cbn [Nat.add].
    rewrite U1. unfold C, s0. rewrite (Cmask_at QA lqf smax qc lgm ugm sol ws) by exact O. destruct (off_lt qc i k Hi Hk) as [_ Ek]. fold D in Ek. first [rewrite Ek|change (qcD qc) with D; rewrite Ek]. reflexivity.
  - intros i k Hi Hk. pose proof (offc i k Hi Hk) as O. destruct (U (nsum i (nct D) + k)%nat) as (_ & _ & _ & U1 & _). apply Nat.ltb_lt in O. rewrite O in U1. rsimp. exact U1.
Qed.
Lemma p_alpha : let '(p, q) := damped (wk_ap w) (wk_ad w) in
  0 <= wk_ap w <= 1 /\ 0 <= wk_ad w <= 1 /\ 99 / 100 * wk_ap w <= p <= wk_ap w /\ 99 / 100 * wk_ad w <= q <= wk_ad w /\ (ai A split_step <> 1%Z -> p = q) /\
  (forall i c, (i <= N)%nat -> (c < cnc qc i)%nat -> 0 <= s_t (view D x) i c + p * s_t (view D (wk_stp w)) i c).
Proof.
  pose proof (alpha_delta_dir OP A Cq kk x (i_mu (qs_i s)) (i_max (qs_i s)) mbk (i_w (qs_i s))) as Ha. fold w in Ha. unfold alpha_ok in Ha. cbn [Cq set_qp c_qp c_mzero IpmModel.c_m] in Ha. rewrite p_dim, mz0 in Ha.
  pose proof (alpha_closed (ai A split_step) (tot_c D) (ar A m_safe) (va_lam x) (va_t x) (va_lam (wk_stp w)) (va_t (wk_stp w)) (IpmModel.c_m C)) as B. rewrite <- Ha in B.
  destruct B as (B1 & B2 & B3 & B4).
  { intros k Hk. destruct (qi_in _ HI k Hk) as (P1 & P2 & P3). fold x in P1, P2, P3. split; [|lra]. destruct (Mk_at qc k Hk) as (i & c & Hi & Hc & _ & Ec). fold D in P2, P3. destruct (ml01 qc Hm i c Hi Hc) as [E|E]; rewrite <- Ec in E.
    - rewrite (P3 E). lra.
    - specialize (P2 E). lra. }
  pose proof (damped_bounds (wk_ap w) (wk_ad w) B1 B2) as Dm. pose proof (damped_lo (wk_ap w) (wk_ad w) B1 B2) as Dl.
  assert (De : ai A split_step <> 1%Z -> fst (damped (wk_ap w) (wk_ad w)) = snd (damped (wk_ap w) (wk_ad w))).
  { intros Hss. rewrite <- (B4 Hss). pose proof (damped_eq (wk_ap w)) as H. destruct (damped (wk_ap w) (wk_ap w)). exact H. }
  destruct (damped (wk_ap w) (wk_ad w)) as [p q]. cbn [fst snd] in De. split; [exact B1|]. split; [exact B2|]. split; [lra|]. split; [lra|]. split; [exact De|].
  intros i c Hi Hc. apply shrink_closed with (wk_ap w); try lra.
  - destruct (inside_pos x i c (qi_in _ HI) Hi Hc) as (P & _). lra.
  - apply (B3 (nsum i (nct D) + c)%nat). apply offc; assumption.
Qed.
Lemma p_body : i_x (qs_i s') = x' /\ wk_ap (i_w (qs_i s')) = wk_ap w /\ wk_k (i_w (qs_i s')) = wk_k w /\ lin_at qm (view D (qs_x s')) (qs_a s') /\ qs_a s' = update_qp qm (view D (qs_x s')) (qs_a s) /\
  qs_x s' = (let qx := conv_sol D x' (qs_x s) in mkvars (va_v qx) (va_pi qx) (VECMUL (tot_c D) (IpmModel.c_mask C) 0 (va_lam qx) 0 (va_lam qx) 0) (va_t qx)) /\
  wk_res (i_w (qs_i s')) = wk_res (i_w (qs_i (qcall_res qm (qdelta_step OP A qm C kk s)))) /\ qs_x (qdelta_step OP A qm C kk s) = qs_x s' /\ qs_a (qdelta_step OP A qm C kk s) = qs_a s'.
Proof.
  unfold s', qdelta_body. destruct (qcall_res_same qm (qdelta_step OP A qm C kk s)) as (E1 & E2 & E3 & E4 & E5 & E6 & E7). pose proof (call_res_k (qdelta_step OP A qm C kk s)) as E8.
  set (s1 := qdelta_step OP A qm C kk s) in *. set (s2 := qcall_res qm s1) in *.
  cbn [qput_stat qs_i qs_x qs_a i_x i_bkp i_w put_stat wk_ap wk_ad wk_k wk_res]. rewrite E1, E2, E3, E6, E8. unfold s2. clear E1 E2 E3 E4 E5 E6 E7 E8 s2.
  unfold s1, qdelta_step. change (qcD qm) with D. fold qp. fold Cq. fold mbk. fold x. fold w. unfold x'. destruct (take_step A Cq x (i_bkp (qs_i s)) w) as [y bkp].
  cbn [qs_i i_x i_bkp i_w qs_x qs_a fst]. repeat split; try reflexivity. exists (qs_a s). right. reflexivity.
Qed.
Lemma p_inside : qinside qc x'.
Proof.
  unfold x', Cq, C, s0. pose proof (qstep_inside A QA lqf smax qc lgm ugm sol ws qp x (i_bkp (qs_i s)) w) as H. apply H; [exact p_dim|apply (qu_tlm _ _ _ _ Hs)|apply (qu_lam_min _ _ _ _ Hs)|apply (qu_t_min _ _ _ _ Hs)].
Qed.
Lemma p_same : same (qs_x s') x'.
Proof.
  destruct p_body as (_ & _ & _ & _ & _ & Ex & _). rewrite Ex. cbv zeta. split; [|split; [|split]]; intros k Hk; cbn [va_v va_pi va_lam va_t].
  - apply conv_sol_v. exact Hk.
  - apply conv_sol_e. exact Hk.
  - unfold VECMUL. rewrite vset0_in by exact Hk. cbn [Nat.add]. destruct (conv_sol_at D x' (qs_x s) k Hk) as [-> _]. destruct (p_inside k Hk) as (_ & P2 & P3).
    unfold C, s0. rewrite (Cmask_at QA lqf smax qc lgm ugm sol ws) by exact Hk. destruct (Mk_at qc k Hk) as (i & c & Hi & Hc & _ & Ec). rsimp.
    destruct (ml01 qc Hm i c Hi Hc) as [E|E]; rewrite <- Ec in E.
    + rewrite (P3 E). lra.
    + rewrite E. lra.
  - destruct (conv_sol_at D x' (qs_x s) k Hk) as [_ ->]. reflexivity.
Qed.
Lemma QI_next : QI s'.
Proof.
  destruct p_body as (E1 & E2 & E3 & E4 & E5 & E6 & E7 & E8 & E9). split.
  - rewrite E3. apply kBA_I. eapply kFC_I. apply p_W.
  - rewrite E1. exact p_inside.
  - rewrite E1. exact p_same.
  - rewrite E5. eapply C60_update. apply (qi_lin _ HI).
  - rewrite E7, <- E8. apply res_passed.
    + rewrite E8. eapply same_inside; [exact p_same|exact p_inside].
    + rewrite E8, E9. exact E4.
Qed.
Let X' := view D (qs_x s').
Lemma X'_x i : ((i <= N)%nat -> forall k, (k < cnv qc i)%nat -> s_ux X' i k = s_ux (view D x') i k) /\ ((i < N)%nat -> forall k, (k < dnx (c_dim qc) (S i))%nat -> s_pi X' i k = s_pi (view D x') i k) /\
  ((i <= N)%nat -> forall k, (k < cnc qc i)%nat -> s_lam X' i k = s_lam (view D x') i k) /\ ((i <= N)%nat -> forall k, (k < cnc qc i)%nat -> s_t X' i k = s_t (view D x') i k).
Proof.
  destruct p_same as (S1 & S2 & S3 & S4). split; [|split; [|split]]; intros Hi k Hk.
  - apply S1, offv; assumption.
  - apply S2, offe; assumption.
  - apply S3, offc; assumption.
  - apply S4, offc; assumption.
Qed.
(** the residuals before and after *)
Lemma p_contracts : exists p q, 0 <= p <= 1 /\ 0 <= q <= 1 /\ 99 / 100 * wk_ap (i_w (qs_i s')) <= p <= wk_ap (i_w (qs_i s')) /\ (ai A split_step <> 1%Z -> p = q) /\
  (forall i j, (i < N)%nat -> (j < dnx (c_dim qc) (S i))%nat -> qdyn qc (s_ux X') i j = (1 - p) * qdyn qc (s_ux X) i j) /\
  (forall i c, (i <= N)%nat -> (c < cnc qc i)%nat -> imposed qc i c ->
     0 <= qgap qc X' i c - (1 - p) * qgap qc X i c - curv qc (fun k => s_ux X' i k - s_ux X i k) i c <= ar A t_min) /\
  (ar A reg_prim = 0 -> ai A split_step <> 1%Z -> (forall i c, (i <= N)%nat -> (c < cnc qc i)%nat -> imposed qc i c -> ar A lam_min < s_lam X' i c) ->
   forall i k, (i <= N)%nat -> (k < cnv qc i)%nat ->
   qkkt_g qm (s_ux X') (s_pi X') (s_lam X') i k = (1 - p) * qkkt_g qm (s_ux X) (s_pi X) (s_lam X) i k +
   (if (k <? cnux qc i)%nat then rsum (c_nq qc i) (fun j => (s_lam X' i (uqx qc i j) - s_lam X i (uqx qc i j)) * rsum (cnux qc i) (fun l => Hsym qc i j k l * (s_ux X' i l - s_ux X i l))) else 0)).
Proof.
  pose proof p_view as V. pose proof p_alpha as B. destruct (damped (wk_ap w) (wk_ad w)) as [p q]. destruct V as (V1 & V2 & V3 & V4). destruct B as (B1 & B2 & B3 & B4 & B5 & B6).
  destruct p_body as (_ & Ep & _). rewrite Ep. destruct p_W as ((_ & _) & HD & _). destruct (qi_res _ HI) as (Rg & Rb & Rd & _). fold res in Rg, Rb, Rd. fold X in Rg, Rb, Rd.
  rewrite p_dim in HD.
  assert (W1 : forall i k, (i <= N)%nat -> (k < cnv qc i)%nat -> s_ux X' i k = s_ux X i k + p * s_ux (view D (wk_stp w)) i k).
  { intros i k Hi Hk. rewrite (proj1 (X'_x i) Hi k Hk), (proj1 (X_x i) Hi k Hk). apply V1; assumption. }
  assert (W2 : forall i k, (i < N)%nat -> (k < dnx (c_dim qc) (S i))%nat -> s_pi X' i k = s_pi X i k + q * s_pi (view D (wk_stp w)) i k).
  { intros i k Hi Hk. rewrite (proj1 (proj2 (X'_x i)) Hi k Hk), (proj1 (proj2 (X_x i)) Hi k Hk). apply V2; assumption. }
  assert (W3 : forall i c, (i <= N)%nat -> (c < cnc qc i)%nat -> s_lam X' i c = mask_lower qc i c * (let v := s_lam X i c + q * s_lam (view D (wk_stp w)) i c in if Rleb v (ar A lam_min) then ar A lam_min else v)).
  { intros i k Hi Hk. rewrite (proj1 (proj2 (proj2 (X'_x i))) Hi k Hk), (proj1 (proj2 (proj2 (X_x i))) Hi k Hk). apply V3; assumption. }
  assert (W4 : forall i c, (i <= N)%nat -> (c < cnc qc i)%nat -> s_t X' i c = let v := s_t X i c + p * s_t (view D (wk_stp w)) i c in if Rleb v (ar A t_min) then ar A t_min else v).
  { intros i k Hi Hk. rewrite (proj2 (proj2 (proj2 (X'_x i))) Hi k Hk), (proj2 (proj2 (proj2 (X_x i))) Hi k Hk). apply V4; assumption. }
  exists p, q. split; [lra|]. split; [lra|]. split; [lra|]. split; [exact B5|]. split; [|split].
  - intros i j Hi Hj. exact (after_dyn A qc qp X X' _ _ _ _ p (qi_lin _ HI) Rb HD W1 i j Hi Hj).
  - intros i c Hi Hc Him. assert (B7 : 0 <= s_t X i c + p * s_t (view D (wk_stp w)) i c) by (rewrite (proj2 (proj2 (proj2 (X_x i))) Hi c Hc); apply B6; assumption).
    destruct (after_gap A qc qp X X' _ _ _ _ p Hwf (qi_lin _ HI) p_prep Rd HD W1 W4 i c Hi Hc Him B7) as [H|[H _]]; [exact H|]. pose proof (qu_t_min _ _ _ _ Hs). lra.
  - intros Er Hss Hcl. apply (after_g A qc qp X X' _ _ _ _ p q Hm (qi_lin _ HI) p_prep Rg HD W1 W2 W3 Er (B5 Hss)).
    intros i c Hi Hc Him. specialize (Hcl i c Hi Hc Him). rewrite W3 in Hcl by assumption. rewrite (proj1 (imposed_mask qc i c Hi Hc) Him) in Hcl. cbv zeta in Hcl.
    destruct (Rleb_spec (s_lam X i c + q * s_lam (view D (wk_stp w)) i c) (ar A lam_min)); lra.
Qed.
End Pass.
End P.
