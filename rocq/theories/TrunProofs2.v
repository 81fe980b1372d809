(** TrunProofs2.v -- tree solver: one iteration with exact linear algebra; the direction taken is a Newton direction, whatever the predictor-corrector and refinement branches. *)
From Coq Require Import ZArith Bool Arith List Lia Reals Lra.
From Verif Require Import Base ArithF RSum Blas Blas2 QpDataProofs OcpModel ResSpec ResProofs ResProofs2 ResProps CoreModel CoreProofs ArgModel IpmModel IpmProofs IpmProofs2 IpmProps IpmInit IpmInitProps IpmReal SolveModel RunProofs RunProofs2.
From Verif Require Import TreeModel TreeSpec TreeProofs TreeProps TipmModel TipmProofs TipmProofs2 TrunProofs.
Local Open Scope R_scope.

Section S.
Context {K : Type} (OP : kops (F := R) K) (A : arg R).
Variables (T : ttree) (lq smax : Z) (qp : oqp R).
Notation C := (mk_ctx lq smax qp).
Notation D := (q_dim qp).
Notation N := (dN D).
Hypothesis Hm : mask01 qp.
Hypothesis Hwf : qp_wf qp.
Hypothesis HT : tree_ok (N + 1) T.
Notation r2 := (nat -> nat -> R).
(** the step solves the Newton system; stationarity only without regularisation *)
Definition nsol (sol : osol R) (g b d m : r2) (s : osol R) : Prop :=
  (ar A reg_prim = 0 -> forall i k, (i <= N)%nat -> (k < nvt D i)%nat -> tkkt_g T (q00 qp) (s_ux s) (s_pi s) (s_lam s) i k = - g i k) /\
  (forall i jj j, (i <= N)%nat -> (jj < t_nk T i)%nat -> (j < dnx D (t_kid T i jj))%nat -> tdyn (q00 qp) (s_ux s) i (t_kid T i jj) j = - b (t_kid T i jj - 1)%nat j) /\
  (forall i c, (i <= N)%nat -> (c < nct D i)%nat -> s_t s i c - con qp (s_ux s) i c = - d i c) /\
  (forall i c, (i <= N)%nat -> (c < nct D i)%nat -> s_lam sol i c * s_t s i c + s_lam s i c * s_t sol i c = - m i c).
Variables (I : K -> Prop) (FC : K -> osol R -> r2 -> Prop).
Hypothesis FC_I : forall k s b, FC k s b -> I k.
Hypothesis H_fs : forall k g b d m sol stp, I k -> point qp sol -> mz qp m -> let r := op_fact_solve K OP k (with_rhs qp g b d m) sol stp in nsol sol g b d m (fst r) /\ FC (snd r) sol b.
Hypothesis H_sv : forall u k g b b0 d m sol stp, FC k sol b0 -> point qp sol -> mz qp m -> (u = true -> forall i j, (i < N)%nat -> (j < dnx D (S i))%nat -> b i j = b0 i j) ->
  let r := op_solve K OP u k (with_rhs qp g b d m) sol stp in nsol sol g b d m (fst r) /\ FC (snd r) sol b0.
Hypothesis Hlq : lq = 0%Z \/ lq = 1%Z /\ ar A reg_prim = 0.

Section X.
Variable x : vars R.
Notation X := (view D x).
Hypothesis HX : point qp X.
(** the full step would satisfy the linear equations *)
Definition DIR (s : osol R) : Prop :=
  (forall i jj j, (i <= N)%nat -> (jj < t_nk T i)%nat -> (j < dnx D (t_kid T i jj))%nat -> tdyn (q00 qp) (s_ux s) i (t_kid T i jj) j = - tdyn qp (s_ux X) i (t_kid T i jj) j) /\
  (forall i c, (i <= N)%nat -> (c < nct D i)%nat -> q_mask qp i c = 1 -> s_t s i c - con qp (s_ux s) i c = - (q_d qp i c + s_t X i c - con qp (s_ux X) i c)) /\
  (ar A reg_prim = 0 -> forall i k, (i <= N)%nat -> (k < nvt D i)%nat -> tkkt_g T (q00 qp) (s_ux s) (s_pi s) (s_lam s) i k = - tkkt_g T qp (s_ux X) (s_pi X) (s_lam X) i k).
Definition HOM (s : osol R) : Prop :=
  (forall i jj j, (i <= N)%nat -> (jj < t_nk T i)%nat -> (j < dnx D (t_kid T i jj))%nat -> tdyn (q00 qp) (s_ux s) i (t_kid T i jj) j = 0) /\
  (forall i c, (i <= N)%nat -> (c < nct D i)%nat -> q_mask qp i c = 1 -> s_t s i c - con qp (s_ux s) i c = 0) /\
  (ar A reg_prim = 0 -> forall i k, (i <= N)%nat -> (k < nvt D i)%nat -> tkkt_g T (q00 qp) (s_ux s) (s_pi s) (s_lam s) i k = 0).
(** s' = s + al * e on the entries that matter *)
Definition comb (al : R) (s e s' : osol R) : Prop :=
  (forall i k, (i <= N)%nat -> (k < nvt D i)%nat -> s_ux s' i k = s_ux s i k + al * s_ux e i k) /\
  (forall i k, (i < N)%nat -> (k < dnx D (S i))%nat -> s_pi s' i k = s_pi s i k + al * s_pi e i k) /\
  (forall i c, (i <= N)%nat -> (c < nct D i)%nat -> q_mask qp i c * s_lam s' i c = q_mask qp i c * s_lam s i c + al * (q_mask qp i c * s_lam e i c)) /\
  (forall i c, (i <= N)%nat -> (c < nct D i)%nat -> q_mask qp i c = 1 -> s_t s' i c = s_t s i c + al * s_t e i c).
Lemma DIR_comb al s e s' : comb al s e s' -> DIR s -> HOM e -> DIR s'.
Proof.
  intros (C1 & C2 & C3 & C4) (D1 & D2 & D3) (H1 & H2 & H3). split; [|split].
  - intros i jj j Hi Hjj Hj. rewrite (tdyn_lin T qp HT (s_ux s') (s_ux s) (s_ux e) al i jj j C1 Hi Hjj Hj), D1, H1 by assumption. lra.
  - intros i c Hi Hc E. rewrite (con_lin qp (s_ux s') (s_ux s) (s_ux e) al i c C1 Hi), C4 by assumption. pose proof (D2 i c Hi Hc E). pose proof (H2 i c Hi Hc E). nra.
  - intros Er i k Hi Hk. rewrite (tg_lin T qp HT _ (s_ux s) (s_ux e) _ (s_pi s) (s_pi e) _ (s_lam s) (s_lam e) al i k C1 C2 C3 Hi), D3, H3 by assumption. lra.
Qed.
Lemma comb_refl s s' : comb 0 s s s' -> DIR s -> DIR s'.
Proof.
  intros (C1 & C2 & C3 & C4) (D1 & D2 & D3). split; [|split].
  - intros i jj j Hi Hjj Hj. rewrite (tdyn_lin T qp HT (s_ux s') (s_ux s) (s_ux s) 0 i jj j C1 Hi Hjj Hj), D1 by assumption. lra.
  - intros i c Hi Hc E. rewrite (con_lin qp (s_ux s') (s_ux s) (s_ux s) 0 i c C1 Hi), C4 by assumption. pose proof (D2 i c Hi Hc E). lra.
  - intros Er i k Hi Hk. rewrite (tg_lin T qp HT _ (s_ux s) (s_ux s) _ (s_pi s) (s_pi s) _ (s_lam s) (s_lam s) 0 i k C1 C2 C3 Hi), D3 by assumption. lra.
Qed.
Lemma DIR_mask v : DIR (view D v) -> DIR (view D (mask_lt C v)).
Proof.
  intros H. apply comb_refl with (view D v); [|exact H]. split; [|split; [|split]].
  - intros i k Hi Hk. change (s_ux (view D (mask_lt C v)) i k) with (s_ux (view D v) i k). lra.
  - intros i k Hi Hk. change (s_pi (view D (mask_lt C v)) i k) with (s_pi (view D v) i k). lra.
  - intros i c Hi Hc. rewrite (view_mask_lam lq smax qp Hm) by assumption. rewrite <- Rmult_assoc, (mask_sq qp Hm) by assumption. lra.
  - intros i c Hi Hc E. rewrite (view_mask_t lq smax qp Hm) by assumption. rewrite E. lra.
Qed.
Lemma DIR_flat s : DIR s -> DIR (view D (flat D s)).
Proof.
  intros H. apply comb_refl with s; [|exact H]. split; [|split; [|split]]; intros.
  - rewrite vf_ux by assumption. lra.
  - rewrite vf_pi by assumption. lra.
  - rewrite vf_lam by assumption. lra.
  - rewrite vf_t by assumption. lra.
Qed.
Lemma HOM_flat s : HOM s -> HOM (view D (flat D s)).
Proof.
  intros (H1 & H2 & H3).
  assert (C1 : forall i k, (i <= N)%nat -> (k < nvt D i)%nat -> s_ux (view D (flat D s)) i k = s_ux s i k + 0 * s_ux s i k) by (intros; rewrite vf_ux by assumption; lra).
  assert (C2 : forall i k, (i < N)%nat -> (k < dnx D (S i))%nat -> s_pi (view D (flat D s)) i k = s_pi s i k + 0 * s_pi s i k) by (intros; rewrite vf_pi by assumption; lra).
  assert (C3 : forall i c, (i <= N)%nat -> (c < nct D i)%nat -> q_mask qp i c * s_lam (view D (flat D s)) i c = q_mask qp i c * s_lam s i c + 0 * (q_mask qp i c * s_lam s i c)) by (intros; rewrite vf_lam by assumption; lra).
  split; [|split].
  - intros i jj j Hi Hjj Hj. rewrite (tdyn_lin T qp HT _ (s_ux s) (s_ux s) 0 i jj j C1 Hi Hjj Hj), H1 by assumption. lra.
  - intros i c Hi Hc E. rewrite (con_lin qp _ (s_ux s) (s_ux s) 0 i c C1 Hi), vf_t by assumption. pose proof (H2 i c Hi Hc E). lra.
  - intros Er i k Hi Hk. rewrite (tg_lin T qp HT _ (s_ux s) (s_ux s) _ (s_pi s) (s_pi s) _ (s_lam s) (s_lam s) 0 i k C1 C2 C3 Hi), H3 by assumption. lra.
Qed.
Lemma comb_axpy al a b : comb al (view D b) (view D a) (view D (axpy_sol C al a b)).
Proof.
  split; [|split; [|split]]; intros.
  - apply (va_ux D lq smax qp eq_refl); assumption.
  - apply (va_pi' D lq smax qp eq_refl); assumption.
  - rewrite (va_lam' D lq smax qp eq_refl) by assumption. lra.
  - apply (va_t' D lq smax qp eq_refl); assumption.
Qed.

(** *** delta formulation *)
Variables (g0 b0 d0 : r2).
Hypothesis Rg : forall i k, (i <= N)%nat -> (k < nvt D i)%nat -> g0 i k = tkkt_g T qp (s_ux X) (s_pi X) (s_lam X) i k.
Hypothesis Rb : forall i jj j, (i <= N)%nat -> (jj < t_nk T i)%nat -> (j < dnx D (t_kid T i jj))%nat -> b0 (t_kid T i jj - 1)%nat j = tdyn qp (s_ux X) i (t_kid T i jj) j.
Hypothesis Rd : forall i c, (i <= N)%nat -> (c < nct D i)%nat -> d0 i c = kkt_d qp (s_ux X) (s_t X) i c.
Definition RES (w : @wk R K) : Prop := r_g (wk_res w) = g0 /\ r_b (wk_res w) = b0 /\ r_d (wk_res w) = d0 /\ mz qp (r_m (wk_res w)).
Definition W (w : @wk R K) : Prop := RES w /\ DIR (view D (wk_stp w)) /\ FC (wk_k w) X b0.
Lemma nsol_DIR m s : nsol X g0 b0 d0 m s -> DIR s.
Proof.
  intros (N1 & N2 & N3 & _). split; [|split].
  - intros i jj j Hi Hjj Hj. rewrite N2, Rb by assumption. reflexivity.
  - intros i c Hi Hc E. rewrite N3, Rd by assumption. unfold kkt_d. rewrite E. lra.
  - intros Er i k Hi Hk. rewrite N1, Rg by assumption. reflexivity.
Qed.
Lemma qp_rhs_eq res : qp_rhs C res = with_rhs qp (r_g res) (r_b res) (r_d res) (r_m res).
Proof. reflexivity. Qed.
Lemma RES_rhs w : RES w -> qp_rhs C (wk_res w) = with_rhs qp g0 b0 d0 (r_m (wk_res w)).
Proof. intros (<- & <- & <- & _). reflexivity. Qed.
Lemma W_put f w : W w -> W (put_stat f w).
Proof. intros H. exact H. Qed.
Lemma mz_domask f r : mz qp (r_m (set_resm C r (domask C f))).
Proof. intros i c Hi Hc E. cbn [set_resm r_m]. unfold win. change (q_dim (c_qp C)) with D. rewrite (domask_v lq smax qp Hm) by assumption. rewrite E. lra. Qed.
Lemma RES_resm f w : RES w -> RES (put_resm C f w).
Proof. intros (E1 & E2 & E3 & _). split; [exact E1|]. split; [exact E2|]. split; [exact E3|]. apply mz_domask. Qed.
Lemma W_resm f w : W w -> W (put_resm C f w).
Proof. intros (E & H). split; [apply RES_resm; exact E|exact H]. Qed.

(** linear residuals of the current direction *)
Lemma lin_valid : c_mc C = true \/ masks_one D (q_mask qp).
Proof. exact (ctx_valid_ok lq smax qp Hm). Qed.
Lemma tcall_lin_R w : let '(w', q) := tcall_lin T C x w in let r := wk_rit w' in
  wk_stp w' = wk_stp w /\ wk_itr w' = wk_itr w /\ wk_res w' = wk_res w /\ wk_k w' = wk_k w /\ q = tree_inf_norm D r /\
  (RES w -> let s := view D (wk_stp w) in
   (forall i k, (i <= N)%nat -> (k < nvt D i)%nat -> r_g r i k = tkkt_g T (q00 qp) (s_ux s) (s_pi s) (s_lam s) i k + g0 i k) /\
   (forall i jj j, (i <= N)%nat -> (jj < t_nk T i)%nat -> (j < dnx D (t_kid T i jj))%nat -> r_b r (t_kid T i jj - 1)%nat j = tdyn (q00 qp) (s_ux s) i (t_kid T i jj) j + b0 (t_kid T i jj - 1)%nat j) /\
   (forall i c, (i <= N)%nat -> (c < nct D i)%nat -> r_d r i c = q_mask qp i c * (d0 i c + s_t s i c - con qp (s_ux s) i c)) /\
   (forall i c, (i <= N)%nat -> (c < nct D i)%nat -> r_m r i c = q_mask qp i c * (r_m (wk_res w) i c + s_lam X i c * s_t s i c + s_lam s i c * s_t X i c))).
Proof.
  unfold tcall_lin, tcall_lin0. destruct (treelin_compute (Some (c_mc C)) T (qp_rhs C (wk_res w)) (view (q_dim (c_qp C)) x) (view (q_dim (c_qp C)) (wk_stp w)) (wk_rit w) (wk_rw w)) as [rit rw] eqn:E.
  cbn [wk_stp wk_itr wk_res wk_k wk_rit]. do 4 (split; [reflexivity|]). split; [reflexivity|]. intros HR.
  pose proof (C53_linear_residuals T (qp_rhs C (wk_res w)) X (view D (wk_stp w)) (Some (c_mc C)) (wk_rit w) (wk_rw w) Hwf HT lin_valid) as L. cbv zeta in L.
  change (view (q_dim (c_qp C)) x) with X in E. change (view (q_dim (c_qp C)) (wk_stp w)) with (view D (wk_stp w)) in E. rewrite E in L. cbn [fst] in L.
  rewrite (RES_rhs w HR) in L. destruct L as (L1 & L2 & L3 & L4). cbn [q_dim q_mask q_m with_rhs] in L1, L2, L3, L4.
  split; [|split; [|split]].
  - intros i k Hi Hk. rewrite L1 by assumption. apply tg_rhs.
  - intros i jj j Hi Hjj Hj. rewrite L2 by assumption. apply tdyn_rhs.
  - intros i c Hi Hc. rewrite L3 by assumption. reflexivity.
  - exact L4.
Qed.
Lemma W_lin w : W w -> W (fst (tcall_lin T C x w)).
Proof.
  intros HW. pose proof (tcall_lin_R w) as L. destruct (tcall_lin T C x w) as [w' q]. destruct L as (E1 & _ & E2 & E3 & _). cbn [fst].
  destruct HW as (W1 & W2 & W3). split; [|split].
  - unfold RES. rewrite E2. exact W1.
  - rewrite E1. exact W2.
  - rewrite E3. exact W3.
Qed.
(** what the right-hand side of a refinement looks like *)
Definition RIT (w : @wk R K) : Prop :=
  (ar A reg_prim = 0 -> forall i k, (i <= N)%nat -> (k < nvt D i)%nat -> r_g (wk_rit w) i k = 0) /\
  (forall i jj j, (i <= N)%nat -> (jj < t_nk T i)%nat -> (j < dnx D (t_kid T i jj))%nat -> r_b (wk_rit w) (t_kid T i jj - 1)%nat j = 0) /\
  (forall i c, (i <= N)%nat -> (c < nct D i)%nat -> q_mask qp i c = 1 -> r_d (wk_rit w) i c = 0) /\ mz qp (r_m (wk_rit w)).
Lemma W_RIT w : W w -> RIT (fst (tcall_lin T C x w)).
Proof.
  intros (W1 & (D1 & D2 & D3) & _). pose proof (tcall_lin_R w) as L. destruct (tcall_lin T C x w) as [w' q]. destruct L as (_ & _ & _ & _ & _ & L). cbn [fst].
  destruct (L W1) as (L1 & L2 & L3 & L4). split; [|split; [|split]].
  - intros Er i k Hi Hk. rewrite L1, D3, Rg by assumption. lra.
  - intros i jj j Hi Hjj Hj. rewrite L2, D1, Rb by assumption. lra.
  - intros i c Hi Hc E. rewrite L3, Rd by assumption. unfold kkt_d. rewrite E. pose proof (D2 i c Hi Hc E). lra.
  - intros i c Hi Hc E. rewrite L4, E by assumption. lra.
Qed.

Lemma W_fs w : RES w -> I (wk_k w) -> W (call_fs OP C x w).
Proof.
  intros HR HI. unfold call_fs. rewrite (RES_rhs w HR).
  pose proof (H_fs (wk_k w) g0 b0 d0 (r_m (wk_res w)) X (view D (wk_stp w)) HI HX (proj2 (proj2 (proj2 HR)))) as H. cbv zeta in H.
  change (view (q_dim (c_qp C)) x) with X. change (q_dim (c_qp C)) with D.
  destruct (op_fact_solve K OP _ _ _ _) as [s k]. cbn [fst snd] in H. destruct H as (H1 & H2).
  split; [exact HR|]. split; [|exact H2]. cbn [wk_stp]. apply DIR_mask, DIR_flat. eapply nsol_DIR. exact H1.
Qed.
Lemma W_solve w : W w -> W (call_solve OP C x w).
Proof.
  intros (HR & _ & HF). unfold call_solve. rewrite (RES_rhs w HR).
  pose proof (H_sv true (wk_k w) g0 b0 b0 d0 (r_m (wk_res w)) X (view D (wk_stp w)) HF HX (proj2 (proj2 (proj2 HR))) (fun _ _ _ _ _ => eq_refl)) as H. cbv zeta in H.
  change (view (q_dim (c_qp C)) x) with X. change (q_dim (c_qp C)) with D.
  destruct (op_solve K OP _ _ _ _ _) as [s k]. cbn [fst snd] in H. destruct H as (H1 & H2).
  split; [exact HR|]. split; [|exact H2]. cbn [wk_stp]. apply DIR_mask, DIR_flat. eapply nsol_DIR. exact H1.
Qed.
(** the predictor never falls back to the LQ factorisation *)
Lemma lin_mask_R (w : @wk R K) : let '(w', q) := tcall_lin_mask T C x w in let w0 := fst (tcall_lin T C x w) in
  wk_stp w' = wk_stp w0 /\ wk_res w' = wk_res w0 /\ wk_k w' = wk_k w0 /\ q = tree_inf_norm D (wk_rit w') /\
  r_g (wk_rit w') = r_g (wk_rit w0) /\ r_b (wk_rit w') = r_b (wk_rit w0) /\
  (forall i c, (i <= N)%nat -> (c < nct D i)%nat -> r_d (wk_rit w') i c = q_mask qp i c * r_d (wk_rit w0) i c /\ r_m (wk_rit w') i c = q_mask qp i c * r_m (wk_rit w0) i c).
Proof.
  unfold tcall_lin_mask, tcall_lin. cbn [fst]. set (w0 := tcall_lin0 T C x w). clearbody w0. change (q_dim (c_qp C)) with D. cbn [wk_stp wk_res wk_k wk_rit r_g r_b r_d r_m].
  do 6 (split; [reflexivity|]). intros i c Hi Hc. unfold win. rewrite !(domask_v lq smax qp Hm) by assumption. unfold flatc. rewrite !cat_at by (first [exact Hc|lia]). split; reflexivity.
Qed.
Lemma lq_accurate w : RES w -> I (wk_k w) -> ar A reg_prim = 0 -> let '(w1, q) := tcall_lin_mask T C x (call_fs OP C x w) in inaccurate (wk_rit w1) q = false.
Proof.
  intros HR HI Er. pose proof (W_fs w HR HI) as HW. pose proof (tcall_lin_R (call_fs OP C x w)) as L. pose proof (W_RIT _ HW) as TT. pose proof (lin_mask_R (call_fs OP C x w)) as LM.
  destruct (tcall_lin_mask T C x (call_fs OP C x w)) as [wm qm]. cbv zeta in LM.
  destruct (tcall_lin T C x (call_fs OP C x w)) as [w1 q]. destruct L as (_ & _ & _ & _ & _ & L). destruct (L (proj1 HW)) as (_ & _ & L3 & L4). clear L. destruct TT as (T1 & T2 & T3 & _). cbn [fst] in *.
  destruct LM as (_ & _ & _ & Eq & LM1 & LM2 & LM3).
  assert (M : forall i c, (i <= N)%nat -> (c < nct D i)%nat -> r_m (wk_rit wm) i c = 0).
  { intros i c Hi Hc. rewrite (proj2 (LM3 i c Hi Hc)). rewrite L4 by assumption. destruct (Hm i c Hi Hc) as [E|E]; rewrite E; [lra|]. rewrite Rmult_1_l.
    unfold call_fs. rewrite (RES_rhs w HR). change (view (q_dim (c_qp C)) x) with X. change (q_dim (c_qp C)) with D.
    pose proof (H_fs (wk_k w) g0 b0 d0 (r_m (wk_res w)) X (view D (wk_stp w)) HI HX (proj2 (proj2 (proj2 HR)))) as H. cbv zeta in H.
    destruct (op_fact_solve K OP _ _ _ _) as [s k]. cbn [fst snd] in H. destruct H as ((_ & _ & _ & N4) & _). cbn [wk_stp wk_res].
    rewrite (view_mask_lam lq smax qp Hm), (view_mask_t lq smax qp Hm) by assumption. rewrite vf_lam, vf_t by assumption. rewrite E. pose proof (N4 i c Hi Hc). nra. }
  assert (Dz : forall i c, (i <= N)%nat -> (c < nct D i)%nat -> r_d (wk_rit wm) i c = 0).
  { intros i c Hi Hc. rewrite (proj1 (LM3 i c Hi Hc)). destruct (Hm i c Hi Hc) as [E|E]; [rewrite E; lra|]. rewrite T3 by assumption. lra. }
  assert (Z0 : forall n len v y, max_abs n len v y -> (forall i k, (i < n)%nat -> (k < len i)%nat -> v i k = 0) -> y = 0).
  { intros n len v y (_ & _ & [Y|(i & k & Hi & Hk & Y)]) Hz; [exact Y|]. rewrite Y, Hz by assumption. apply Rabs_R0. }
  pose proof (tree_inf_norm_R D (wk_rit wm)) as Nn. rewrite <- Eq in Nn. destruct qm as [[[a b] c] e]. destruct Nn as (Na & Nb & Nc & Ne). rewrite LM1 in Na. rewrite LM2 in Nb.
  assert (a = 0) by (eapply Z0; [exact Na|intros; apply T1; [exact Er|lia|assumption]]).
  assert (b = 0).
  { eapply Z0; [exact Nb|]. intros k j Hk Hj. destruct (edge_of T qp HT k Hk) as (i & jj & Hi & Hjj & Ek). specialize (T2 i jj j Hi Hjj). rewrite Ek in T2. replace (S k - 1)%nat with k in T2 by lia. apply T2. exact Hj. }
  assert (c = 0) by (eapply Z0; [exact Nc|intros; apply Dz; [lia|assumption]]).
  assert (e = 0) by (eapply Z0; [exact Ne|intros; apply M; [lia|assumption]]). subst.
  unfold inaccurate, isnan, tol5. rsimp. rewrite R_lit01. destruct (Reqb_spec (r_g (wk_rit wm) 0%nat 0%nat) (r_g (wk_rit wm) 0%nat 0%nat)) as [_|Hn]; [|contradiction]. cbn [negb]. rewrite andb_false_r. cbn [orb].
  destruct (Rltb_spec (1 / 100000) 0) as [H|_]; [lra|]. reflexivity.
Qed.
Lemma W_lin_mask w : W w -> W (fst (tcall_lin_mask T C x w)).
Proof.
  intros HW. pose proof (W_lin w HW) as (W1 & W2 & W3). pose proof (lin_mask_R w) as L. destruct (tcall_lin_mask T C x w) as [wm qm]. cbv zeta in L. cbn [fst]. destruct L as (E1 & E2 & E3 & _).
  split; [|split].
  - unfold RES. rewrite E2. exact W1.
  - rewrite E1. exact W2.
  - rewrite E3. exact W3.
Qed.
Lemma W_predictor kk w : RES w -> I (wk_k w) -> W (tpredictor OP T C kk x w).
Proof.
  intros HR HI. unfold tpredictor. change (c_lq C) with lq. destruct Hlq as [El|[El Er]]; destruct (Z.eqb_spec lq 0) as [E0|E0]; [|lia|lia|].
  - apply W_put. apply W_fs; assumption.
  - destruct (Z.eqb_spec lq 1) as [E1|E1]; [|lia]. pose proof (lq_accurate w HR HI Er) as L. pose proof (W_lin_mask _ (W_fs w HR HI)) as HW. destruct (tcall_lin_mask T C x (call_fs OP C x w)) as [w1 q]. cbn [fst] in HW.
    change (wk_rit (tstat_lq C kk f0 w1)) with (wk_rit w1). rewrite L. apply W_put. exact HW.
Qed.
(** refinement *)
Lemma W_refine w : W w -> RIT w -> W (refine OP C x w) /\ HOM (view D (wk_itr (refine OP C x w))).
Proof.
  intros (HR & HD & HF) (T1 & T2 & T3 & T4). unfold refine. rewrite qp_rhs_eq.
  pose proof (H_sv false (wk_k w) (r_g (wk_rit w)) (r_b (wk_rit w)) b0 (r_d (wk_rit w)) (r_m (wk_rit w)) X (view D (wk_itr w)) HF HX T4 ltac:(discriminate)) as H. cbv zeta in H.
  change (view (q_dim (c_qp C)) x) with X. change (q_dim (c_qp C)) with D.
  destruct (op_solve K OP _ _ _ _ _) as [s k]. cbn [fst snd] in H. destruct H as ((N1 & N2 & N3 & _) & H2). cbn [wk_itr].
  assert (HH : HOM (view D (flat D s))).
  { apply HOM_flat. split; [|split].
    - intros i jj j Hi Hjj Hj. rewrite N2, T2 by assumption. lra.
    - intros i c Hi Hc E. rewrite N3, T3 by assumption. lra.
    - intros Er i k' Hi Hk. rewrite N1, T1 by assumption. lra. }
  split; [|exact HH]. split; [exact HR|]. split; [|exact H2]. cbn [wk_stp].
  eapply DIR_comb; [apply comb_axpy|apply DIR_mask; exact HD|exact HH].
Qed.
Lemma W_itref kk rmax sh n : forall it did w q mx, W w -> RIT w -> W (fst (fst (titref_loop OP A T C kk x rmax sh n it did w q mx))).
Proof.
  induction n as [|n IH]; intros it did w q mx HW HTT; cbn [titref_loop]; [exact HW|].
  destruct (accurate A rmax q); [exact HW|].
  destruct (W_refine w HW HTT) as (W1 & H1). pose proof (W_lin _ W1) as W2. pose proof (W_RIT _ W1) as T2.
  pose proof (tcall_lin_R (refine OP C x w)) as L. destruct (tcall_lin T C x (refine OP C x w)) as [w1 q']. cbn [fst] in W2, T2. destruct L as (_ & Ei & _).
  destruct (fleb mx (max4 q')).
  - cbn [fst]. apply W_put. destruct W2 as (V1 & V2 & V3). split; [exact V1|]. split; [|exact V3].
    cbn [unrefine wk_stp put_stat wk_itr]. eapply DIR_comb; [apply comb_axpy|exact V2|]. rewrite Ei. exact H1.
  - apply IH; [exact W2|exact T2].
Qed.
Lemma W_itref_pred kk rmax w : W w -> W (fst (titref_pred OP A T C kk x rmax w)).
Proof.
  intros HW. unfold titref_pred. destruct (Z.eqb (ai A itref_pred_max) 0); [exact HW|].
  pose proof (W_lin w HW) as W2. pose proof (W_RIT w HW) as T2. destruct (tcall_lin T C x w) as [w1 q]. cbn [fst] in *.
  pose proof (W_itref kk rmax true (Z.to_nat (ai A itref_pred_max)) 0 false (put_stat (twstat4 C kk q) w1) q (max4 q) W2 T2) as H.
  destruct (titref_loop _ _ _ _ _ _ _ _ _ _ _ _ _ _) as [[w2 it] did]. exact H.
Qed.
Lemma W_alpha w : W w -> W (call_alpha A C x w).
Proof. intros H. unfold call_alpha. destruct (compute_alpha _ _ _ _ _ _ _ _ _) as [ap ad]. exact H. Qed.
Lemma W_itref_corr kk rmax w : W w -> W (fst (titref_corr OP A T C kk x rmax w)).
Proof.
  intros HW. unfold titref_corr. destruct (Z.ltb 0 (ai A itref_corr_max)); [|exact HW].
  pose proof (W_lin w HW) as W2. pose proof (W_RIT w HW) as T2. destruct (tcall_lin T C x w) as [w1 q]. cbn [fst] in *.
  pose proof (W_itref kk rmax false (Z.to_nat (ai A itref_corr_max)) 0 false (put_stat (twstat4 C kk q) w1) q (max4 q) W2 T2) as H.
  destruct (titref_loop _ _ _ _ _ _ _ _ _ _ _ _ _ _) as [[w2 it] did]. cbn [fst] in *. destruct did; [apply W_put, W_alpha|]; exact H.
Qed.
Lemma W_corrector kk mu mbk w : W w -> W (tcorrector OP A C kk x mu mbk w).
Proof.
  intros HW. unfold tcorrector.
  set (w2 := put_stat (twstat C kk 3 _) (call_sigma mu _)). assert (H2 : W w2) by exact HW. clearbody w2.
  set (w3 := call_solve OP C x (put_resm C _ w2)). assert (H3 : W w3) by (apply W_solve, W_resm; exact H2). clearbody w3.
  set (w4 := tstat_alpha C kk 4 (call_alpha A C x w3)). assert (H4 : W w4) by (apply W_put, W_alpha; exact H3). clearbody w4.
  destruct (Z.eqb (ai A cond_pred_corr) 1); [|exact H4].
  destruct (fltb _ _); [|exact H4]. apply W_put, W_alpha, W_solve, W_resm. exact H4.
Qed.
Lemma W_delta_dir kk mu rmax mbk w : r_g (wk_res w) = g0 -> r_b (wk_res w) = b0 -> r_d (wk_res w) = d0 -> I (wk_k w) -> W (tdelta_dir OP A T C kk x mu rmax mbk w).
Proof.
  intros E1 E2 E3 HI. unfold tdelta_dir.
  set (w0 := put_resm C _ w). assert (R0 : RES w0) by (split; [exact E1|]; split; [exact E2|]; split; [exact E3|]; apply mz_domask). assert (I0 : I (wk_k w0)) by exact HI. clearbody w0.
  set (w1 := tpredictor OP T C kk x w0). assert (H1 : W w1) by (apply W_predictor; assumption). clearbody w1.
  pose proof (W_itref_pred kk rmax w1 H1) as H2. destruct (titref_pred OP A T C kk x rmax w1) as [w2 it0]. cbn [fst] in H2.
  set (w3 := tstat_alpha C kk 0 _). assert (H3 : W w3) by (apply W_put, W_alpha, W_put; exact H2). clearbody w3.
  set (p := if Z.eqb (ai A pred_corr) 1 then _ else _).
  assert (H4 : W (fst p)) by (unfold p; destruct (Z.eqb (ai A pred_corr) 1); [apply W_itref_corr, W_corrector|]; exact H3).
  clearbody p. destruct p as [w4 it1]. cbn [fst] in H4. apply W_put. destruct (Z.eqb (ai A itref_corr_max) 0); exact H4.
Qed.
(** *** absolute formulation *)
Definition WA (w : @wk R K) : Prop := DIR (view D (wk_stp w)) /\ FC (wk_k w) X (q_b qp) /\ mz qp (r_m (wk_res w)).
Lemma nsol_DIR_abs m s : nsol X (q_rqz qp) (q_b qp) (q_d qp) m s -> DIR (view D (mask_lt C (axpy_sol C (- f1) x (flat D s)))).
Proof.
  intros (N1 & N2 & N3 & _). apply DIR_mask.
  assert (Ef : - f1 = -1) by (rsimp; rewrite R_lit11; reflexivity).
  destruct (comb_axpy (- f1) x (flat D s)) as (C1 & C2 & C3 & C4). set (s' := view D (axpy_sol C (- f1) x (flat D s))) in *. clearbody s'.
  change (- f1)%F with (- f1) in *. rewrite Ef in *.
  assert (C1' : forall i k, (i <= N)%nat -> (k < nvt D i)%nat -> s_ux s' i k = s_ux s i k + -1 * s_ux X i k) by (intros; rewrite C1, vf_ux by assumption; reflexivity).
  assert (C2' : forall i k, (i < N)%nat -> (k < dnx D (S i))%nat -> s_pi s' i k = s_pi s i k + -1 * s_pi X i k) by (intros; rewrite C2, vf_pi by assumption; reflexivity).
  assert (C3' : forall i c, (i <= N)%nat -> (c < nct D i)%nat -> q_mask qp i c * s_lam s' i c = q_mask qp i c * s_lam s i c + -1 * (q_mask qp i c * s_lam X i c)) by (intros; rewrite C3, vf_lam by assumption; reflexivity).
  split; [|split].
  - intros i jj j Hi Hjj Hj. rewrite (tdyn_lin T qp HT (s_ux s') (s_ux s) (s_ux X) (-1) i jj j C1' Hi Hjj Hj), N2, (tdyn_qp qp) by assumption. lra.
  - intros i c Hi Hc E. rewrite (con_lin qp (s_ux s') (s_ux s) (s_ux X) (-1) i c C1' Hi), C4, vf_t by assumption. pose proof (N3 i c Hi Hc). lra.
  - intros Er i k Hi Hk. rewrite (tg_lin T qp HT _ (s_ux s) (s_ux X) _ (s_pi s) (s_pi X) _ (s_lam s) (s_lam X) (-1) i k C1' C2' C3' Hi), N1, (tg_qp T qp) by assumption. lra.
Qed.
Lemma qp_abs_eq res : qp_rhs_abs C res = with_rhs qp (q_rqz qp) (q_b qp) (q_d qp) (r_m res).
Proof. reflexivity. Qed.
Lemma WA_fs w : I (wk_k w) -> mz qp (r_m (wk_res w)) -> WA (call_abs (K := K) C x (op_fact_solve K OP) w).
Proof.
  intros HI Hz. unfold call_abs. rewrite qp_abs_eq.
  pose proof (H_fs (wk_k w) (q_rqz qp) (q_b qp) (q_d qp) (r_m (wk_res w)) X (view D (wk_stp w)) HI HX Hz) as H. cbv zeta in H.
  change (view (q_dim (c_qp C)) x) with X. change (q_dim (c_qp C)) with D.
  destruct (op_fact_solve K OP _ _ _ _) as [s k]. cbn [fst snd] in H. destruct H as (H1 & H2). split; [|split; [exact H2|exact Hz]]. cbn [wk_stp]. eapply nsol_DIR_abs. exact H1.
Qed.
Lemma WA_solve f w : WA w -> WA (call_abs (K := K) C x (op_solve K OP true) (put_resm C f w)).
Proof.
  intros (_ & HF & _). unfold call_abs. rewrite qp_abs_eq.
  pose proof (H_sv true (wk_k w) (q_rqz qp) (q_b qp) (q_b qp) (q_d qp) (r_m (wk_res (put_resm C f w))) X (view D (wk_stp w)) HF HX (mz_domask _ _) (fun _ _ _ _ _ => eq_refl)) as H. cbv zeta in H.
  change (view (q_dim (c_qp C)) x) with X. change (q_dim (c_qp C)) with D. change (wk_k (put_resm C f w)) with (wk_k w). change (wk_stp (put_resm C f w)) with (wk_stp w).
  destruct (op_solve K OP _ _ _ _ _) as [s k]. cbn [fst snd] in H. destruct H as (H1 & H2). split; [|split; [exact H2|apply mz_domask]]. cbn [wk_stp]. eapply nsol_DIR_abs. exact H1.
Qed.
Lemma WA_alpha w : WA w -> WA (call_alpha A C x w).
Proof. intros H. unfold call_alpha. destruct (compute_alpha _ _ _ _ _ _ _ _ _) as [ap ad]. exact H. Qed.
Lemma WA_abs_dir kk mu mbk w : I (wk_k w) -> WA (tabs_dir OP A C kk x mu mbk w).
Proof.
  intros HI. unfold tabs_dir.
  set (w1 := call_abs C x (op_fact_solve K OP) _). assert (H1 : WA w1) by (apply WA_fs; [exact HI|apply mz_domask]). clearbody w1.
  set (w2 := tstat_alpha C kk 0 _). assert (H2 : WA w2). { exact (WA_alpha w1 H1). } clearbody w2.
  destruct (Z.eqb (ai A pred_corr) 1); [|exact H2].
  set (w4 := put_stat (twstat C kk 3 _) (call_sigma mu _)). assert (H4 : WA w4) by exact H2. clearbody w4.
  set (w5 := tstat_alpha C kk 4 _). assert (H5 : WA w5).
  { pose proof (WA_alpha _ (WA_solve (fun r => centering_correction (tot_c D) (va_lam (wk_stp w4)) (va_t (wk_stp w4)) r mbk (wk_sig w4) mu (ar A tau_min)) w4 H4)) as H. exact H. } clearbody w5.
  destruct (Z.eqb (ai A cond_pred_corr) 1); [|exact H5]. destruct (fltb _ _); [|exact H5].
  pose proof (WA_alpha _ (WA_solve (fun r => centering (tot_c D) r mbk (wk_sig (call_muaff C x w5)) mu (ar A tau_min)) (call_muaff C x w5) H5)) as H. exact H.
Qed.
End X.
End S.
