(** IpmModel.v -- the interior point solver of the OCP QP: variable initialisation, one iteration, the iteration loop, the status
    (ocp_qp/x_ocp_qp_ipm.c lines 1632-3216).  Generic in the arithmetic and in the linear algebra: the factorisation / solve routines of the
    KKT system (x_ocp_qp_kkt.c) are arbitrary functions [kops] of everything they can read, so that what is proved holds whatever they return;
    KktModel.v / UncModel.v are models of two of them.  They are total here: a factorisation that does not return (C39) is outside this model.
    The stage vectors ux, pi, lam, t, res_g, res_b, res_d, res_m, m, d_mask of the C code are windows into contiguous arrays (C08); the
    dimension-free core (CoreModel.v) works on the whole arrays.  Here the iterates are whole arrays, [view] gives the windows. *)
From Coq Require Import ZArith Bool Arith List.
From Verif Require Import Base ArithF Blas Blas2 OcpModel CoreModel ArgModel.
Local Open Scope Z_scope.

(** enum HPIPM_STATUS, include/hpipm_common.h lines 67-76 *)
Inductive status := SUCCESS | MAX_ITER | MIN_STEP | NAN_SOL | INCONS_EQ.

Section Ipm.
Context {F : Type} {AF : Arith F}.
Local Open Scope F_scope.
Notation vec := (nat -> F).

(** windows *)
Definition win (len : nat -> nat) (x : vec) (i k : nat) : F := x (nsum i len + k)%nat.
Definition npi (D : dims) (i : nat) : nat := dnx D (i + 1).
Definition view (D : dims) (x : vars F) : osol F := mksol (win (nvt D) (va_v x)) (win (npi D) (va_pi x)) (win (nct D) (va_lam x)) (win (nct D) (va_t x)).
Definition flat (D : dims) (s : osol F) : vars F :=
  mkvars (cat (dN D + 1) (nvt D) (s_ux s)) (cat (dN D) (npi D) (s_pi s)) (cat (dN D + 1) (nct D) (s_lam s)) (cat (dN D + 1) (nct D) (s_t s)).
Definition flatc (D : dims) (v : nat -> vec) : vec := cat (dN D + 1) (nct D) v.
(** cws->nv, ne, nc: x_ocp_qp_ipm.c lines 836-846 *)
Definition tot_v (D : dims) : nat := (nsum (dN D) (nvt D) + nvt D (dN D))%nat.
Definition tot_e (D : dims) : nat := nsum (dN D) (npi D).
Definition tot_c (D : dims) : nat := (nsum (dN D) (nct D) + nct D (dN D))%nat.

(** The linear algebra: workspace K, QP (with the right-hand side in rqz, b, d, m), current iterate, step buffer -> step, workspace. *)
Record kops (K : Type) := mkkops {
  op_fact_solve : K -> oqp F -> osol F -> osol F -> osol F * K;      (* OCP_QP_FACT_SOLVE_KKT_STEP *)
  op_solve : bool -> K -> oqp F -> osol F -> osol F -> osol F * K;   (* OCP_QP_SOLVE_KKT_STEP; bool = ws->use_Pb *)
  op_fact_lq : K -> oqp F -> osol F -> osol F -> osol F * K;         (* OCP_QP_FACT_LQ_SOLVE_KKT_STEP *)
  op_fact : K -> oqp F -> osol F -> K;                               (* OCP_QP_FACT_KKT_STEP *)
  op_unc : K -> oqp F -> osol F -> osol F * K;                       (* OCP_QP_FACT_SOLVE_KKT_UNCONSTR *)
  op_last_lq : K -> Z; op_npd : K -> Z }.                            (* ws->last_lq_fact, ws->npd_reg_hess *)
Context {K : Type} (OP : kops K) (A : arg F).

(** data of the solve: QP, flat m and d_mask, ws->lq_fact, ws->stat_max, cws->m_zero, ws->mask_constr, cws->nc_mask_inv *)
Record ctx := mkctx { c_qp : oqp F; c_mask : vec; c_m : vec; c_lq : Z; c_smax : Z; c_mzero : bool; c_mc : bool; c_inv : F }.
Section Step.
Variable C : ctx.
Let qp := c_qp C.
Let D := q_dim qp.
Let nc := tot_c D.
Let mc := c_mc C.
Definition valid_of : option (bool * F) := Some (c_mc C, c_inv C).

(** alias members of qp_step / qp_itref, lines 2822-2846 (abs form: 2982-2995) *)
Definition qp_rhs (res : ores F) : oqp F :=
  mkqp D (q_BAbt qp) (q_RSQ qp) (q_DCt qp) (r_b res) (r_g res) (r_d res) (q_mask qp) (r_m res) (q_Z qp) (q_idxb qp) (q_idxs_rev qp).
Definition qp_rhs_abs (res : ores F) : oqp F :=
  mkqp D (q_BAbt qp) (q_RSQ qp) (q_DCt qp) (q_b qp) (q_rqz qp) (q_d qp) (q_mask qp) (r_m res) (q_Z qp) (q_idxb qp) (q_idxs_rev qp).

(** if(kk+1<ws->stat_max) stat[stat_m*(kk+1)+col] = v;   stat_m = 21 (line 986) *)
Definition wstat (kk : Z) (col : nat) (v : F) (stat : vec) : vec :=
  if Z.ltb (kk + 1) (c_smax C) then upd stat (Z.to_nat (21 * (kk + 1)) + col)%nat v else stat.
Definition wstat4 (kk : Z) (q : F * F * F * F) (stat : vec) : vec :=
  let '(a, b, c, e) := q in wstat kk 19 e (wstat kk 18 c (wstat kk 17 b (wstat kk 16 a stat))).

(** if(ws->mask_constr) VECMUL(nc, d_mask, x, x) *)
Definition domask (x : vec) : vec := if mc then VECMUL nc (c_mask C) 0 x 0 x 0 else x.
Definition mask_lt (x : vars F) : vars F := mkvars (va_v x) (va_pi x) (domask (va_lam x)) (domask (va_t x)).
(** res_m seen as one array, and written back *)
Definition resm (res : ores F) : vec := flatc D (r_m res).
Definition set_resm (res : ores F) (m : vec) : ores F := mkres (r_g res) (r_b res) (r_d res) (win (nct D) m) (r_obj res) (r_gap res) (r_mu res) (r_mu_sum res).

(** What one iteration works on besides the (fixed) iterate x, mu and res_m backup *)
Record wk := mkwk { wk_stp : vars F; wk_itr : vars F; wk_res : ores F; wk_rit : ores F; wk_rw : rws F; wk_ap : F; wk_ad : F; wk_muaff : F; wk_sig : F; wk_stat : vec; wk_k : K }.
Section It.
Variables (kk : Z) (x : vars F) (mu : F) (rmax : F * F * F * F) (mbk : vec).
Let sol := view D x.

(** lines 2270-2363: predictor direction *)
Definition call_fs (w : wk) : wk :=
  let '(s, k) := op_fact_solve K OP (wk_k w) (qp_rhs (wk_res w)) sol (view D (wk_stp w)) in
  mkwk (mask_lt (flat D s)) (wk_itr w) (wk_res w) (wk_rit w) (wk_rw w) (wk_ap w) (wk_ad w) (wk_muaff w) (wk_sig w) (wk_stat w) k.
Definition call_lq (w : wk) : wk :=
  let '(s, k) := op_fact_lq K OP (wk_k w) (qp_rhs (wk_res w)) sol (view D (wk_stp w)) in
  mkwk (mask_lt (flat D s)) (wk_itr w) (wk_res w) (wk_rit w) (wk_rw w) (wk_ap w) (wk_ad w) (wk_muaff w) (wk_sig w) (wk_stat w) k.
Definition put_stat (f : vec -> vec) (w : wk) : wk :=
  mkwk (wk_stp w) (wk_itr w) (wk_res w) (wk_rit w) (wk_rw w) (wk_ap w) (wk_ad w) (wk_muaff w) (wk_sig w) (f (wk_stat w)) (wk_k w).
(** OCP_QP_RES_COMPUTE_LIN(qp_step, qp_sol, sol_step, res_itref) and its norms; valid_nc_mask is 1 during the solve *)
Definition call_lin (w : wk) : wk * (F * F * F * F) :=
  let '(rit, rw) := reslin_compute (Some (c_mc C)) (qp_rhs (wk_res w)) sol (view D (wk_stp w)) (wk_rit w) (wk_rw w) in
  (mkwk (wk_stp w) (wk_itr w) (wk_res w) rit rw (wk_ap w) (wk_ad w) (wk_muaff w) (wk_sig w) (wk_stat w) (wk_k w), res_inf_norm D rit).
Definition tol5 : F := lit 1 100000.
Definition isnan (v : F) : bool := negb (v =? v).
(** lines 2324-2333 *)
Definition inaccurate (rit : ores F) (q : F * F * F * F) : bool :=
  let '(a, b, c, e) := q in
  orb (andb (a =? f0) (isnan (r_g rit 0%nat 0%nat))) (orb (a >? tol5) (orb (b >? tol5) (orb (c >? tol5) (e >? tol5)))).
Definition stat_lq (w : wk) : wk := put_stat (wstat kk 13 (lit (op_last_lq K OP (wk_k w)) 1)) w.
Definition predictor (w : wk) : wk :=
  if Z.eqb (c_lq C) 0 then stat_lq (call_fs w)
  else if Z.eqb (c_lq C) 1 then
    let w := call_fs w in
    let '(w, q) := call_lin w in
    let w := stat_lq w in
    if inaccurate (wk_rit w) q then stat_lq (call_lq w) else w
  else stat_lq (call_lq w).

(** lines 2403-2410 (and 2599-2606): the linear residual is small enough *)
Definition ok1 (n tol r : F) : bool := orb (n <? f1 * tol) (n <? lit 1 1000 * r).
Definition accurate (q : F * F * F * F) : bool :=
  let '(a, b, c, e) := q in let '(ra, rb, rc, re) := rmax in
  andb (andb (ok1 a (ar A res_g_max) ra) (ok1 b (ar A res_b_max) rb)) (andb (ok1 c (ar A res_d_max) rc) (ok1 e (ar A res_m_max) re)).
(** lines 2394-2396 *)
Definition max4 (q : F * F * F * F) : F :=
  let '(a, b, c, e) := q in let m := if a >? b then a else b in let m := if c >? m then c else m in if e >? m then e else m.
(** AXPY of a whole solution object, lines 2423-2430 *)
Definition axpy_sol (al : F) (a b : vars F) : vars F :=
  mkvars (AXPY (tot_v D) al (va_v a) 0 (va_v b) 0 (va_v b) 0) (AXPY (tot_e D) al (va_pi a) 0 (va_pi b) 0 (va_pi b) 0)
    (AXPY nc al (va_lam a) 0 (va_lam b) 0 (va_lam b) 0) (AXPY nc al (va_t a) 0 (va_t b) 0 (va_t b) 0).
(** one refinement: solve with the linear residual as right-hand side, add (lines 2412-2430); the mask is applied to sol_step, not to sol_itref *)
Definition refine (w : wk) : wk :=
  let '(s, k) := op_solve K OP false (wk_k w) (qp_rhs (wk_rit w)) sol (view D (wk_itr w)) in
  let itr := flat D s in
  mkwk (axpy_sol f1 itr (mask_lt (wk_stp w))) itr (wk_res w) (wk_rit w) (wk_rw w) (wk_ap w) (wk_ad w) (wk_muaff w) (wk_sig w) (wk_stat w) k.
Definition unrefine (w : wk) : wk :=
  mkwk (axpy_sol (- f1) (wk_itr w) (wk_stp w)) (wk_itr w) (wk_res w) (wk_rit w) (wk_rw w) (wk_ap w) (wk_ad w) (wk_muaff w) (wk_sig w) (wk_stat w) (wk_k w).
(** The refinement loop, lines 2400-2482 (predictor: [shadow] = true, the maximum norm is re-declared in the loop body, line 2455, so the one
    compared with stays the initial one) and 2596-2675 (corrector: [shadow] = false).  Returns the work, the counter, whether a solve was done. *)
Fixpoint itref_loop (shadow : bool) (n : nat) (it : Z) (did : bool) (w : wk) (q : F * F * F * F) (mx : F) : wk * Z * bool :=
  match n with
  | O => (w, it, did)
  | S n' =>
    if accurate q then (w, it, did)
    else
      let w := refine w in
      let '(w, q') := call_lin w in
      let w := put_stat (wstat4 kk q') w in
      let mx' := max4 q' in
      if mx' >=? mx then (put_stat (wstat4 kk q) (unrefine w), it, true)
      else itref_loop shadow n' (it + 1)%Z true w q' (if shadow then mx else mx')
  end.
(** lines 2366-2484 *)
Definition itref_pred (w : wk) : wk * Z :=
  if Z.eqb (ai A itref_pred_max) 0 then (put_stat (wstat4 kk (f0, f0, f0, f0)) w, 0%Z)
  else
    let '(w, q) := call_lin w in
    let w := put_stat (wstat4 kk q) w in
    let '(w, it, _) := itref_loop true (Z.to_nat (ai A itref_pred_max)) 0 false w q (max4 q) in (w, it).
(** COMPUTE_ALPHA_QP *)
Definition call_alpha (w : wk) : wk :=
  let '(ap, ad) := compute_alpha (ai A split_step) (c_mzero C) nc (ar A m_safe) (va_lam x) (va_t x) (va_lam (wk_stp w)) (va_t (wk_stp w)) (c_m C) in
  mkwk (wk_stp w) (wk_itr w) (wk_res w) (wk_rit w) (wk_rw w) ap ad (wk_muaff w) (wk_sig w) (wk_stat w) (wk_k w).
Definition stat_alpha (c0 : nat) (w : wk) : wk := put_stat (fun s => wstat kk (S c0) (wk_ad w) (wstat kk c0 (wk_ap w) s)) w.
(** COMPUTE_MU_AFF_QP *)
Definition call_muaff (w : wk) : wk :=
  mkwk (wk_stp w) (wk_itr w) (wk_res w) (wk_rit w) (wk_rw w) (wk_ap w) (wk_ad w)
    (compute_mu_aff nc (va_lam x) (va_t x) (va_lam (wk_stp w)) (va_t (wk_stp w)) (c_m C) (wk_ap w) (wk_ad w) (c_inv C)) (wk_sig w) (wk_stat w) (wk_k w).
Definition call_sigma (w : wk) : wk :=
  let tmp := wk_muaff w / mu in
  mkwk (wk_stp w) (wk_itr w) (wk_res w) (wk_rit w) (wk_rw w) (wk_ap w) (wk_ad w) (wk_muaff w) (tmp * tmp * tmp) (wk_stat w) (wk_k w).
Definition put_resm (f : vec -> vec) (w : wk) : wk :=
  mkwk (wk_stp w) (wk_itr w) (set_resm (wk_res w) (domask (f (resm (wk_res w))))) (wk_rit w) (wk_rw w) (wk_ap w) (wk_ad w) (wk_muaff w) (wk_sig w) (wk_stat w) (wk_k w).
(** use_Pb = 1; OCP_QP_SOLVE_KKT_STEP(qp_step, sol_step); mask *)
Definition call_solve (w : wk) : wk :=
  let '(s, k) := op_solve K OP true (wk_k w) (qp_rhs (wk_res w)) sol (view D (wk_stp w)) in
  mkwk (mask_lt (flat D s)) (wk_itr w) (wk_res w) (wk_rit w) (wk_rw w) (wk_ap w) (wk_ad w) (wk_muaff w) (wk_sig w) (wk_stat w) k.
(** lines 2500-2575: Mehrotra's corrector, and the conditional centering *)
Definition corrector (w : wk) : wk :=
  let w := call_muaff w in
  let w := put_stat (wstat kk 2 (wk_muaff w)) w in
  let w := call_sigma w in
  let w := put_stat (wstat kk 3 (wk_sig w)) w in
  let w := put_resm (fun r => centering_correction nc (va_lam (wk_stp w)) (va_t (wk_stp w)) r mbk (wk_sig w) mu (ar A tau_min)) w in
  let w := call_solve w in
  let w := stat_alpha 4 (call_alpha w) in
  if Z.eqb (ai A cond_pred_corr) 1 then
    let mu_aff0 := wk_muaff w in
    let w := call_muaff w in
    if wk_muaff w >? lit 2 1 * mu_aff0 then
      let w := put_resm (fun r => centering nc r mbk (wk_sig w) mu (ar A tau_min)) w in
      stat_alpha 4 (call_alpha (call_solve w))
    else w
  else w.
(** lines 2577-2688 *)
Definition itref_corr (w : wk) : wk * Z :=
  if Z.ltb 0 (ai A itref_corr_max) then
    let '(w, q) := call_lin w in
    let w := put_stat (wstat4 kk q) w in
    let '(w, it, did) := itref_loop false (Z.to_nat (ai A itref_corr_max)) 0 false w q (max4 q) in
    (if did then stat_alpha 4 (call_alpha w) else w, it)
  else (w, 0%Z).
(** the direction and step lengths: lines 2257-2705 (everything of OCP_QP_IPM_DELTA_STEP before UPDATE_VAR_QP) *)
Definition delta_dir (w : wk) : wk :=
  let w := put_resm (fun r => compute_tau_min nc r mbk (ar A tau_min)) w in
  let w := predictor w in
  let '(w, it0) := itref_pred w in
  let w := put_stat (fun s => wstat kk 20 (lit (op_npd K OP (wk_k w)) 1) (wstat kk 14 (lit it0 1) s)) w in
  let w := stat_alpha 0 (call_alpha w) in
  let '(w, it1) := if Z.eqb (ai A pred_corr) 1 then itref_corr (corrector w) else (w, 0%Z) in
  let w := if Z.eqb (ai A itref_corr_max) 0 then put_stat (wstat4 kk (f0, f0, f0, f0)) w else w in
  put_stat (wstat kk 15 (lit it1 1)) w.

(** absolute formulation, OCP_QP_IPM_ABS_STEP lines 2053-2228 *)
Definition call_abs (sv : K -> oqp F -> osol F -> osol F -> osol F * K) (w : wk) : wk :=
  let '(s, k) := sv (wk_k w) (qp_rhs_abs (wk_res w)) sol (view D (wk_stp w)) in
  mkwk (mask_lt (axpy_sol (- f1) x (flat D s))) (wk_itr w) (wk_res w) (wk_rit w) (wk_rw w) (wk_ap w) (wk_ad w) (wk_muaff w) (wk_sig w) (wk_stat w) k.
Definition abs_dir (w : wk) : wk :=
  let w := put_resm (fun r => compute_tau_min nc r mbk (ar A tau_min)) w in
  let w := call_abs (op_fact_solve K OP) w in
  let w := put_stat (wstat kk 20 (lit (op_npd K OP (wk_k w)) 1)) w in
  let w := stat_alpha 0 (call_alpha w) in
  if Z.eqb (ai A pred_corr) 1 then
    let w := call_muaff w in
    let w := put_stat (wstat kk 2 (wk_muaff w)) w in
    let w := call_sigma w in
    let w := put_stat (wstat kk 3 (wk_sig w)) w in
    let w := put_resm (fun r => centering_correction nc (va_lam (wk_stp w)) (va_t (wk_stp w)) r mbk (wk_sig w) mu (ar A tau_min)) w in
    let w := call_abs (op_solve K OP true) w in
    let w := stat_alpha 4 (call_alpha w) in
    if Z.eqb (ai A cond_pred_corr) 1 then
      let mu_aff0 := wk_muaff w in
      let w := call_muaff w in
      if wk_muaff w >? lit 2 1 * mu_aff0 then
        let w := put_resm (fun r => centering nc r mbk (wk_sig w) mu (ar A tau_min)) w in
        stat_alpha 4 (call_alpha (call_abs (op_solve K OP true) w))
      else w
    else w
  else w.
End It.

(** The state of the loop: iterate, backup, work, mu, backup of res_m, res_max *)
Record ist := mkist { i_x : vars F; i_bkp : vars F; i_w : wk; i_mu : F; i_mbk : vec; i_max : F * F * F * F }.
(** UPDATE_VAR_QP, then mask lam: lines 2710-2718.  The damping (aux lines 505-511) is local to UPDATE_VAR_QP: cws->alpha_prim / alpha_dual keep the undamped values. *)
Definition take_step (x bkp : vars F) (w : wk) : vars F * vars F :=
  let '(x', bkp') := update_var (tot_v D) (tot_e D) nc (ai A t_lam_min) (ar A lam_min) (ar A t_min) (wk_ap w) (wk_ad w) (wk_stp w) (x, bkp) in
  (mkvars (va_v x') (va_pi x') (domask (va_lam x')) (va_t x'), bkp').
(** OCP_QP_RES_COMPUTE + norms, lines 3092-3118 and 3138-3170 *)
Definition call_res (x : vars F) (w : wk) : wk * (F * F * F * F) :=
  let '(r, rw) := res_compute valid_of qp (view D x) (wk_res w) (wk_rw w) in
  (mkwk (wk_stp w) (wk_itr w) r (wk_rit w) rw (wk_ap w) (wk_ad w) (wk_muaff w) (wk_sig w) (wk_stat w) (wk_k w), res_inf_norm D r).
Definition wstat_res (row : Z) (q : F * F * F * F) (r : ores F) (stat : vec) : vec :=
  let '(a, b, c, e) := q in
  wstat row 12 (r_obj r) (wstat row 11 (r_gap r) (wstat row 10 e (wstat row 9 c (wstat row 8 b (wstat row 7 a stat))))).
(** one pass of the loop body, delta formulation, lines 3136-3176 *)
Definition delta_body (kk : Z) (s : ist) : ist :=
  let mbk := copy_arr nc (resm (wk_res (i_w s))) (i_mbk s) in (* BACKUP_RES_M *)
  let w := delta_dir kk (i_x s) (i_mu s) (i_max s) mbk (i_w s) in
  let '(x, bkp) := take_step (i_x s) (i_bkp s) w in
  let '(w, q) := call_res x w in
  let w := put_stat (fun st => wstat_res kk q (wk_res w) (wstat kk 6 (r_mu (wk_res w)) st)) w in
  mkist x bkp w (r_mu (wk_res w)) mbk q.
(** lines 3121-3123, 3172-3173: |res_m - tau_min * d_mask| *)
Definition res_m_tau (r : ores F) : F := VECNRM_INF nc (AXPY nc (- ar A tau_min) (c_mask C) 0 (resm r) 0 (fun _ => f0) 0) 0.
(** the loop condition, lines 3126-3134 *)
Definition delta_go (kk : Z) (s : ist) : bool :=
  let '(a, b, c, _) := i_max s in let w := i_w s in
  andb (Z.ltb kk (ai A iter_max)) (andb (wk_ap w >? ar A alpha_min) (andb (wk_ad w >? ar A alpha_min)
    (orb (a >? ar A res_g_max) (orb (b >? ar A res_b_max) (orb (c >? ar A res_d_max)
      (orb (res_m_tau (wk_res w) >? ar A res_m_max) (r_gap (wk_res w) >? ar A dual_gap_max))))))).
(** mu of the absolute form, lines 3008-3016 and 3034-3042 *)
Definition abs_mu (x : vars F) (w : wk) : wk * F :=
  let m := VECMUL nc (va_lam x) 0 (va_t x) 0 (resm (wk_res w)) 0 in
  let m := AXPY nc (- f1) (flatc D (q_m qp)) 0 m 0 m 0 in
  let m := domask m in
  (mkwk (wk_stp w) (wk_itr w) (set_resm (wk_res w) m) (wk_rit w) (wk_rw w) (wk_ap w) (wk_ad w) (wk_muaff w) (wk_sig w) (wk_stat w) (wk_k w), VECNRM_1 nc m 0 * c_inv C).
Definition abs_body (kk : Z) (s : ist) : ist :=
  let w := i_w s in
  let w := mkwk (wk_stp w) (wk_itr w) (set_resm (wk_res w) (AXPBY nc (- f1) (resm (wk_res w)) 0 (- lit 2 1) (flatc D (q_m qp)) 0 (resm (wk_res w)) 0))
             (wk_rit w) (wk_rw w) (wk_ap w) (wk_ad w) (wk_muaff w) (wk_sig w) (wk_stat w) (wk_k w) in (* line 2074 *)
  let mbk := copy_arr nc (resm (wk_res w)) (i_mbk s) in
  let w := abs_dir kk (i_x s) (i_mu s) mbk w in
  let '(x, bkp) := take_step (i_x s) (i_bkp s) w in
  let '(w, mu) := abs_mu x w in
  mkist x bkp (put_stat (wstat kk 6 mu) w) mu mbk (i_max s).
(** lines 3023-3028 *)
Definition abs_go (kk : Z) (s : ist) : bool :=
  andb (Z.ltb kk (ai A iter_max)) (andb (wk_ap (i_w s) >? ar A alpha_min) (andb (wk_ad (i_w s) >? ar A alpha_min)
    (fabs (i_mu s - ar A tau_min) >? ar A res_m_max))).
End Step.

(** for(kk=0; go; kk++) body -- [n] passes at most; [ipm_for_exit] in IpmProofs.v: with n = iter_max the loop condition is false on exit *)
Fixpoint ipm_for (go : Z -> ist -> bool) (body : Z -> ist -> ist) (n : nat) (kk : Z) (s : ist) : Z * ist :=
  match n with O => (kk, s) | S n' => if go kk s then ipm_for go body n' (kk + 1)%Z (body kk s) else (kk, s) end.

(** OCP_QP_INIT_VAR, lines 1632-2049.  thr0 = 1e-1. *)
Definition thr0 : F := lit 1 10.
(** lines 1659-1676 and 1679-1695: clip lam and t of stage ii from below *)
Definition clip_lt (n : nat) (a b : F) (s : vec * vec) : vec * vec :=
  loop n (fun jj '(lam, t) =>
    let lam := if lam jj <? a then upd lam jj a else lam in
    let t := if t jj <? b then upd t jj b else t in (lam, t)) s.
(** lines 1775-1830: a box constraint of the heuristic scheme, state (ux, lam, t) of the stage *)
Definition fit_bound (lb ub : F) (idx : nat) (jl ju : nat) (s : vec * vec) : vec * vec :=
  let '(ux, t) := s in
  if t jl <? thr0 then
    if t ju <? thr0 then (upd ux idx (lit 1 2 * (lb - ub)), upd (upd t jl thr0) ju thr0)
    else (upd ux idx (lb + thr0), upd t jl thr0)
  else if t ju <? thr0 then (upd ux idx (- ub - thr0), upd t ju thr0)
  else (ux, t).
Definition init_box (mu0v : F) (nb ng : nat) (idxb : nat -> nat) (d mask : vec) (s : vec * vec * vec) : vec * vec * vec :=
  loop nb (fun jj '(ux, lam, t) =>
    let ju := (nb + ng + jj)%nat in
    let lb := if mask jj =? f0 then ux (idxb jj) - f1 else d jj in
    let ub := if mask ju =? f0 then - ux (idxb jj) - f1 else d ju in
    let t := upd t jj (- lb + ux (idxb jj)) in
    let t := upd t ju (- ub - ux (idxb jj)) in
    let '(ux, t) := fit_bound lb ub (idxb jj) jj ju (ux, t) in
    let lam := upd lam jj (mu0v / t jj) in
    (ux, upd lam ju (mu0v / t ju), t)) s.
(** lines 1840-1868: general constraints *)
Definition init_gen (mu0v : F) (n nb ng : nat) (Ct : nat -> vec) (d mask ux : vec) (s : vec * vec) : vec * vec :=
  let '(lam, t) := s in
  let t := GEMV_T n ng f1 Ct 0 0 ux 0 f0 t nb t nb in
  loop ng (fun jj '(lam, t) =>
    let jl := (nb + jj)%nat in let ju := (2 * nb + ng + jj)%nat in
    let t := upd t ju (- t jl) in
    let t := if negb (mask jl =? f0) then upd t jl (t jl - d jl) else t in
    let t := if negb (mask ju =? f0) then upd t ju (t ju - d ju) else t in
    let t := upd t jl (if thr0 >? t jl then thr0 else t jl) in
    let t := upd t ju (if thr0 >? t ju then thr0 else t ju) in
    let lam := upd lam jl (mu0v / t jl) in
    (upd lam ju (mu0v / t ju), t)) (lam, t).
(** lines 1874-1925: slacks.  t_us is computed with the sign of s reversed (line 1906) and both are then overwritten by sqrt(mu0) *)
Definition init_soft (mu0v : F) (n nb ng ns : nat) (d mask : vec) (s : vec * vec * vec) : vec * vec * vec :=
  loop ns (fun jj '(ux, lam, t) =>
    let jl := (2 * nb + 2 * ng + jj)%nat in let ju := (2 * nb + 2 * ng + ns + jj)%nat in
    let sl := (n + jj)%nat in let su := (n + ns + jj)%nat in
    let dl := if mask jl =? f0 then ux sl - f1 else d jl in
    let du := if mask ju =? f0 then ux su - f1 else d ju in
    let t := upd t jl (- dl + ux sl) in
    let t := upd t ju (- du - ux su) in
    let '(ux, t) := if t jl <? thr0 then (upd ux sl (dl + thr0), upd t jl thr0) else (ux, t) in
    let '(ux, t) := if t ju <? thr0 then (upd ux su (du + thr0), upd t ju thr0) else (ux, t) in
    let t := upd t jl (fsqrt mu0v) in
    let t := upd t ju (fsqrt mu0v) in
    let lam := upd lam jl (mu0v / t jl) in
    (ux, upd lam ju (mu0v / t ju), t)) s.
(** lines 1931-2040: the alternative scheme, one stage *)
Definition init_alt (mu0v : F) (n nb ng ns : nat) (idxb : nat -> nat) (idxs_rev : nat -> Z) (Ct : nat -> vec) (d : vec) (s : vec * vec * vec) : vec * vec * vec :=
  let '(ux, lam, t) := s in
  let t := AXPY (2 * ns) (- f1) d (2 * nb + 2 * ng) ux n t (2 * nb + 2 * ng) in
  let '(ux, t) := loop (2 * ns) (fun jj '(ux, t) =>
    let j := (2 * nb + 2 * ng + jj)%nat in
    if t j <? thr0 then let t := upd t j thr0 in (upd ux (n + jj)%nat (d j + t j), t) else (ux, t)) (ux, t) in
  let t := VECEX_SP nb f1 idxb ux 0 t 0 in
  let t := VECCPSC nb (- f1) t 0 t (nb + ng) in
  let soft (ux : vec) j0 j1 (t : vec) :=
    let idx := idxs_rev j0 in
    if negb (Z.eqb idx (-1)) then
      let t := upd t j0 (t j0 + ux (n + Z.to_nat idx)%nat) in
      upd t j1 (t j1 + ux (n + ns + Z.to_nat idx)%nat)
    else t in
  let t := loop nb (fun jj t => soft ux jj (nb + ng + jj)%nat t) t in
  let t := AXPY nb (- f1) d 0 t 0 t 0 in
  let t := AXPY nb (- f1) d (nb + ng) t (nb + ng) t (nb + ng) in
  let '(ux1, t) := loop nb (fun jj s => fit_bound (d jj) (d (nb + ng + jj)%nat) (idxb jj) jj (nb + ng + jj) s) (ux, t) in
  let t := GEMV_T n ng f1 Ct 0 0 ux1 0 f0 t nb t nb in
  let t := VECCPSC ng (- f1) t nb t (2 * nb + ng) in
  let t := loop ng (fun jj t => soft ux1 (nb + jj)%nat (2 * nb + ng + jj)%nat t) t in
  let t := AXPY ng (- f1) d nb t nb t nb in
  let t := AXPY ng (- f1) d (2 * nb + ng) t (2 * nb + ng) t (2 * nb + ng) in
  let t := loop ng (fun jj t =>
    let jl := (nb + jj)%nat in let ju := (2 * nb + ng + jj)%nat in
    let t := upd t jl (if thr0 >? t jl then thr0 else t jl) in
    upd t ju (if thr0 >? t ju then thr0 else t ju)) t in
  let lam := loop (2 * nb + 2 * ng + 2 * ns) (fun jj lam => upd lam jj (mu0v / t jj)) lam in
  (ux1, lam, t).
(** one stage (the C code runs separate stage loops for the three kinds of constraints of the heuristic scheme; the stages do not interact) *)
Definition init_stage (qp : oqp F) (ii : nat) (s : vec * vec * vec) : vec * vec * vec :=
  let D := q_dim qp in
  let n := (dnu D ii + dnx D ii)%nat in let nb := dnb D ii in let ng := dng D ii in let ns := dns D ii in
  let '(ux, lam, t) := s in
  if Z.leb 3 (ai A warm_start) then let '(lam, t) := clip_lt (nct D ii) (ar A lam0_min) (ar A t0_min) (lam, t) in (ux, lam, t)
  else if Z.eqb (ai A warm_start) 2 then let '(lam, t) := clip_lt (nct D ii) thr0 thr0 (lam, t) in (ux, lam, t)
  else
    let ux := if Z.eqb (ai A warm_start) 0 then VECSE (nvt D ii) f0 ux 0 else ux in
    if Z.eqb (ai A t0_init) 0 then (ux, VECSE (nct D ii) (fsqrt (ar A mu0)) lam 0, VECSE (nct D ii) (fsqrt (ar A mu0)) t 0)
    else if Z.eqb (ai A t0_init) 1 then (ux, VECSE (nct D ii) (ar A mu0) lam 0, VECSE (nct D ii) f1 t 0)
    else if Z.eqb (ai A var_init_scheme) 0 then
      let '(ux, lam, t) := init_box (ar A mu0) nb ng (q_idxb qp ii) (q_d qp ii) (q_mask qp ii) (ux, lam, t) in
      let '(lam, t) := init_gen (ar A mu0) n nb ng (q_DCt qp ii) (q_d qp ii) (q_mask qp ii) ux (lam, t) in
      init_soft (ar A mu0) n nb ng ns (q_d qp ii) (q_mask qp ii) (ux, lam, t)
    else init_alt (ar A mu0) n nb ng ns (q_idxb qp ii) (q_idxs_rev qp ii) (q_DCt qp ii) (q_d qp ii) (ux, lam, t).
Definition init_var (qp : oqp F) (sol : osol F) : osol F :=
  let D := q_dim qp in
  let st ii := init_stage qp ii (s_ux sol ii, s_lam sol ii, s_t sol ii) in
  let pi ii := if Z.leb 2 (ai A warm_start) then s_pi sol ii else VECSE (dnx D (ii + 1)) f0 (s_pi sol ii) 0 in
  mksol (fun ii => fst (fst (st ii))) pi (fun ii => snd (fst (st ii))) (fun ii => snd (st ii)).

(** OCP_QP_IPM_SOLVE, lines 2777-3216 *)
(** lines 2873-2908: constraints with a non-zero mask *)
Definition count_mask (nc : nat) (mask : vec) : nat := loop nc (fun ii n => if negb (mask ii =? f0) then S n else n) 0%nat.
Definition mk_ctx (lq smax : Z) (qp : oqp F) : ctx :=
  let D := q_dim qp in let nc := tot_c D in
  let mask := flatc D (q_mask qp) in let m := flatc D (q_m qp) in
  let n := count_mask nc mask in
  mkctx qp mask (fun ii => m ii * mask ii) lq smax (VECNRM_INF nc m 0 =? f0) (Nat.ltb n nc) (if Nat.eqb n 0 then f0 else inv_count n).
(** set_status, lines 3196-3222 *)
Definition final_status (kk : Z) (ap ad mu : F) : status :=
  if Z.eqb kk (ai A iter_max) then MAX_ITER
  else if orb (ap <=? ar A alpha_min) (ad <=? ar A alpha_min) then MIN_STEP
  else if isnan mu then NAN_SOL else SUCCESS.
(** The workspace before the solve: work buffers, backups, mu, res_max *)
Record out := mkout { o_x : vars F; o_bkp : vars F; o_iter : Z; o_status : status; o_w : wk; o_mu : F; o_max : F * F * F * F; o_valid : bool }.
(** lines 2910-2953: no (unmasked) constraint *)
Definition solve_unc (C : ctx) (x : vars F) (s : ist) : out :=
  let qp := c_qp C in let D := q_dim qp in let w := i_w s in
  let '(u, k) := op_unc K OP (wk_k w) qp (view D x) in
  let x := flat D u in
  let w := mkwk (wk_stp w) (wk_itr w) (wk_res w) (wk_rit w) (wk_rw w) (wk_ap w) (wk_ad w) (wk_muaff w) (wk_sig w) (wk_stat w) k in
  let '(w, q, mu) :=
    if negb (Z.eqb (ai A comp_res_exit) 0) then
      let '(w, (a, b, c, e)) := call_res C x w in
      let st := wk_stat w in
      let st := if Z.ltb 0 (c_smax C) then upd (upd (upd (upd (upd (upd st 6 a) 7 b) 8 c) 9 e) 10 (r_gap (wk_res w))) 11 (r_obj (wk_res w)) else st in
      (put_stat (fun _ => st) w, (a, b, c, e), r_mu (wk_res w))
    else (w, (f0, f0, f0, f0), i_mu s) in
  mkout x (i_bkp s) 0 (if isnan (s_ux (view D x) 0%nat 0%nat) then NAN_SOL else SUCCESS) w mu q true.
(** the initial iterate, residuals and step lengths (lines 2957-2975, 3092-3118) *)
Definition start (C : ctx) (x : vars F) (s : ist) : ist :=
  let qp := c_qp C in let D := q_dim qp in
  let x := flat D (init_var qp (view D x)) in
  let x := mkvars (va_v x) (va_pi x) (domask C (va_lam x)) (va_t x) in
  let w := i_w s in
  let w := mkwk (wk_stp w) (wk_itr w) (wk_res w) (wk_rit w) (wk_rw w) f1 f1 (wk_muaff w) (wk_sig w) (wk_stat w) (wk_k w) in
  mkist x (i_bkp s) w (i_mu s) (i_mbk s) (f0, f0, f0, f0).
(** lines 3186-3191: fresh factorisation at the returned point if none was computed *)
Definition exit_fact (C : ctx) (kk : Z) (s : ist) : ist :=
  if andb (Z.eqb (ai A update_fact_exit) 1) (Z.eqb kk 0) then
    let w := i_w s in let D := q_dim (c_qp C) in
    let w := mkwk (wk_stp w) (wk_itr w) (wk_res w) (wk_rit w) (wk_rw w) (wk_ap w) (wk_ad w) (wk_muaff w) (wk_sig w) (wk_stat w) (op_fact K OP (wk_k w) (c_qp C) (view D (i_x s))) in
    mkist (i_x s) (backup_var (tot_v D) (tot_e D) (tot_c D) (i_x s) (i_bkp s)) w (i_mu s) (i_mbk s) (i_max s)
  else s.
Definition finish (C : ctx) (r : Z * ist) : out :=
  let '(kk, s) := r in
  let s := exit_fact C kk s in
  mkout (i_x s) (i_bkp s) kk (final_status kk (wk_ap (i_w s)) (wk_ad (i_w s)) (i_mu s)) (i_w s) (i_mu s) (i_max s) false.
Definition solve_delta (C : ctx) (s : ist) : out :=
  let '(w, q) := call_res C (i_x s) (i_w s) in
  let w := put_stat (wstat_res C (-1) q (wk_res w)) w in
  let s := mkist (i_x s) (i_bkp s) w (r_mu (wk_res w)) (i_mbk s) q in
  finish C (ipm_for (delta_go C) (delta_body C) (Z.to_nat (ai A iter_max)) 0 s).
Definition solve_abs (C : ctx) (s : ist) : out :=
  let '(w, mu) := abs_mu C (i_x s) (i_w s) in
  let s := mkist (i_x s) (i_bkp s) w mu (i_mbk s) (i_max s) in
  let '(kk, s) := ipm_for abs_go (abs_body C) (Z.to_nat (ai A iter_max)) 0 s in
  let s :=
    if andb (negb (Z.eqb (ai A comp_res_exit) 0)) (negb (Z.eqb (ai A comp_dual_sol_eq) 0)) then
      let '(w, q) := call_res C (i_x s) (i_w s) in
      let w := put_stat (wstat_res C (kk - 1) q (wk_res w)) w in
      mkist (i_x s) (i_bkp s) w (i_mu s) (i_mbk s) q
    else s in
  finish C (kk, s).
Definition ipm_solve (lq smax : Z) (qp : oqp F) (sol : vars F) (ws : ist) : out :=
  let C := mk_ctx lq smax qp in
  let nc := tot_c (q_dim qp) in
  if orb (Nat.eqb nc 0) (Nat.eqb (count_mask nc (c_mask C)) 0) then solve_unc C sol ws
  else
    let s := start C sol ws in
    if negb (Z.eqb (ai A abs_form) 0) then solve_abs C s else solve_delta C s.
End Ipm.
