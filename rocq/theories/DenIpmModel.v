(** DenIpmModel.v -- the interior point solver of the dense QP: variable initialisation, one iteration, the iteration loop, the status
    (dense_qp/x_dense_qp_ipm.c lines 1374-2700).  Generic in the arithmetic and in the linear algebra: the factorisation / solve routines of the
    KKT system (x_dense_qp_kkt.c) are arbitrary functions [ddkops] of everything they can read, so that what is proved holds whatever they return;
    DenKktModel.v is a model of two of them.  They are total here: a factorisation that does not return (C48) is outside this model.
    The removal of linearly dependent equalities (arg->remove_lin_dep_eq) and the objective (arg->compute_obj) are added in DenSolveModel.v.
    [dipm_solve] has the parameter cne = cws->ne, the number of equalities the core workspace was created with; it differs from the number of
    equalities of the QP when some have been removed. *)
From Coq Require Import ZArith Bool Arith List.
From Verif Require Import Base ArithF Blas Blas2 OcpModel CoreModel ArgModel DenModel.
From Verif Require IpmModel.
Local Open Scope Z_scope.
Notation status := IpmModel.status.
Notation SUCCESS := IpmModel.SUCCESS. Notation MAX_ITER := IpmModel.MAX_ITER. Notation MIN_STEP := IpmModel.MIN_STEP.
Notation NAN_SOL := IpmModel.NAN_SOL. Notation INCONS_EQ := IpmModel.INCONS_EQ.

Section Ipm.
Context {F : Type} {AF : Arith F}.
(** DENSE_QP_IPM_ARG_SET_DEFAULT, lines 67-268, the members shared with the OCP arguments: the same values as for the OCP solver (ArgModel.v) except
    comp_res_pred, 0 in every mode.  square_root_alg, comp_dual_sol_eq and var_init_scheme do not exist in the dense argument structure (they are never read by
    this model).  reg_dual, scale, kkt_fact_alg, remove_lin_dep_eq and compute_obj are the arguments of the KKT routines and of DenSolveModel.v. *)
Definition den_default (m : hmode) : arg F := mkarg (dflt_r m) (fun f => match f with comp_res_pred => 0 | _ => dflt_i m f end).
Local Open Scope F_scope.
Notation vec := (nat -> F).

(** the solution object as the four arrays of the core workspace (lines 2296-2300: aliases) *)
Definition view (x : vars F) : dsol F := mkdsol (va_v x) (va_pi x) (va_lam x) (va_t x).
Definition flat (s : dsol F) : vars F := mkvars (ds_v s) (ds_pi s) (ds_lam s) (ds_t s).
(** cws->nv, nc *)
Definition tot_v (qp : dqp F) : nat := (d_nv qp + 2 * d_ns qp)%nat.

(** The linear algebra: workspace K, QP (with the right-hand side in gz, b, d, m), current iterate, step buffer -> step, workspace. *)
Record dkops (K : Type) := mkdkops {
  op_fact_solve : K -> dqp F -> dsol F -> dsol F -> dsol F * K;      (* FACT_SOLVE_KKT_STEP_DENSE_QP *)
  op_solve : K -> dqp F -> dsol F -> dsol F -> dsol F * K;   (* SOLVE_KKT_STEP_DENSE_QP *)
  op_fact_lq : K -> dqp F -> dsol F -> dsol F -> dsol F * K;         (* FACT_LQ_SOLVE_KKT_STEP_DENSE_QP *)
  op_fact : K -> dqp F -> dsol F -> K;                               (* DENSE_QP_FACT_KKT_STEP *)
  op_unc : K -> dqp F -> dsol F -> dsol F * K;                       (* FACT_SOLVE_KKT_UNCONSTR_DENSE_QP *)
  op_last_lq : K -> Z; op_npd : K -> Z }.                            (* ws->last_lq_fact, ws->npd_reg_hess *)
Context {K : Type} (OP : dkops K) (A : arg F).

(** data of the solve: QP, flat m and d_mask, cws->ne, ws->lq_fact, ws->stat_max, cws->m_zero, ws->mask_constr, cws->nc_mask_inv *)
Record ctx := mkctx { c_qp : dqp F; c_ne : nat; c_mask : vec; c_m : vec; c_lq : Z; c_smax : Z; c_mzero : bool; c_mc : bool; c_inv : F }.
Section Step.
Variable C : ctx.
Let qp := c_qp C.
Let nc := d_nct qp.
Let mc := c_mc C.
Definition valid_of : option (bool * F) := Some (c_mc C, c_inv C).

(** alias members of qp_step / qp_itref, lines 2302-2330 (abs form: 2459-2472) *)
Definition qp_rhs (res : dres F) : dqp F :=
  mkdqp (d_nv qp) (d_ne qp) (d_nb qp) (d_ng qp) (d_ns qp) (d_H qp) (d_A qp) (d_Ct qp) (dr_g res) (dr_b res) (dr_d res) (d_mask qp) (dr_m res) (d_Z qp) (d_idxb qp) (d_idxs_rev qp).
Definition qp_rhs_abs (res : dres F) : dqp F :=
  mkdqp (d_nv qp) (d_ne qp) (d_nb qp) (d_ng qp) (d_ns qp) (d_H qp) (d_A qp) (d_Ct qp) (d_gz qp) (d_b qp) (d_d qp) (d_mask qp) (dr_m res) (d_Z qp) (d_idxb qp) (d_idxs_rev qp).

(** if(kk+1<ws->stat_max) stat[stat_m*(kk+1)+col] = v;   stat_m = 21 *)
Definition wstat (kk : Z) (col : nat) (v : F) (stat : vec) : vec :=
  if Z.ltb (kk + 1) (c_smax C) then upd stat (Z.to_nat (21 * (kk + 1)) + col)%nat v else stat.
Definition wstat4 (kk : Z) (q : F * F * F * F) (stat : vec) : vec :=
  let '(a, b, c, e) := q in wstat kk 19 e (wstat kk 18 c (wstat kk 17 b (wstat kk 16 a stat))).

(** if(ws->mask_constr) VECMUL(nc, d_mask, x, x) *)
Definition domask (x : vec) : vec := if mc then VECMUL nc (c_mask C) 0 x 0 x 0 else x.
Definition mask_lt (x : vars F) : vars F := mkvars (va_v x) (va_pi x) (domask (va_lam x)) (domask (va_t x)).
(** res_m seen as one array, and written back *)
Definition resm (res : dres F) : vec := dr_m res.
Definition set_resm (res : dres F) (m : vec) : dres F := mkdres (dr_g res) (dr_b res) (dr_d res) m (dr_obj res) (dr_gap res) (dr_mu res) (dr_mu_sum res).

(** What one iteration works on besides the (fixed) iterate x, mu and res_m backup *)
Record wk := mkwk { wk_stp : vars F; wk_itr : vars F; wk_res : dres F; wk_rit : dres F; wk_rw : rws F; wk_ap : F; wk_ad : F; wk_muaff : F; wk_sig : F; wk_stat : vec; wk_k : K }.
Section It.
Variables (kk : Z) (x : vars F) (mu : F) (rmax : F * F * F * F) (mbk : vec).
Let sol := view x.

(** lines 1738-1830: predictor direction *)
Definition call_fs (w : wk) : wk :=
  let '(s, k) := op_fact_solve K OP (wk_k w) (qp_rhs (wk_res w)) sol (view (wk_stp w)) in
  mkwk (mask_lt (flat s)) (wk_itr w) (wk_res w) (wk_rit w) (wk_rw w) (wk_ap w) (wk_ad w) (wk_muaff w) (wk_sig w) (wk_stat w) k.
Definition call_lq (w : wk) : wk :=
  let '(s, k) := op_fact_lq K OP (wk_k w) (qp_rhs (wk_res w)) sol (view (wk_stp w)) in
  mkwk (mask_lt (flat s)) (wk_itr w) (wk_res w) (wk_rit w) (wk_rw w) (wk_ap w) (wk_ad w) (wk_muaff w) (wk_sig w) (wk_stat w) k.
Definition put_stat (f : vec -> vec) (w : wk) : wk :=
  mkwk (wk_stp w) (wk_itr w) (wk_res w) (wk_rit w) (wk_rw w) (wk_ap w) (wk_ad w) (wk_muaff w) (wk_sig w) (f (wk_stat w)) (wk_k w).
(** DENSE_QP_RES_COMPUTE_LIN(qp_step, qp_sol, sol_step, res_itref) and its norms; valid_nc_mask is 1 during the solve *)
Definition call_lin (w : wk) : wk * (F * F * F * F) :=
  let '(rit, rw) := den_reslin_compute (Some (c_mc C)) (qp_rhs (wk_res w)) sol (view (wk_stp w)) (wk_rit w) (wk_rw w) in
  (mkwk (wk_stp w) (wk_itr w) (wk_res w) rit rw (wk_ap w) (wk_ad w) (wk_muaff w) (wk_sig w) (wk_stat w) (wk_k w), den_inf_norm qp rit).
Definition tol5 : F := lit 1 100000.
Definition isnan (v : F) : bool := negb (v =? v).
(** lines 1786-1796 *)
Definition inaccurate (rit : dres F) (q : F * F * F * F) : bool :=
  let '(a, b, c, e) := q in
  orb (andb (a =? f0) (isnan (dr_g rit 0%nat))) (orb (a >? tol5) (orb (b >? tol5) (orb (c >? tol5) (e >? tol5)))).
Definition stat_lq (w : wk) : wk := put_stat (wstat kk 13 (lit (op_last_lq K OP (wk_k w)) 1)) w.
Definition predictor (w : wk) : wk :=
  if Z.eqb (c_lq C) 0 then stat_lq (call_fs w)
  else if Z.eqb (c_lq C) 1 then
    let w := call_fs w in
    let '(w, q) := call_lin w in
    let w := stat_lq w in
    if inaccurate (wk_rit w) q then stat_lq (call_lq w) else w
  else stat_lq (call_lq w).

(** lines 1874-1881 (and 2109-2116): the linear residual is small enough *)
Definition ok1 (n tol r : F) : bool := orb (n <? f1 * tol) (n <? lit 1 1000 * r).
Definition accurate (q : F * F * F * F) : bool :=
  let '(a, b, c, e) := q in let '(ra, rb, rc, re) := rmax in
  andb (andb (ok1 a (ar A res_g_max) ra) (ok1 b (ar A res_b_max) rb)) (andb (ok1 c (ar A res_d_max) rc) (ok1 e (ar A res_m_max) re)).
(** lines 1867-1869 *)
Definition max4 (q : F * F * F * F) : F :=
  let '(a, b, c, e) := q in let m := if a >? b then a else b in let m := if c >? m then c else m in if e >? m then e else m.
(** AXPY of a whole solution object, lines 1893-1896 (abs form: 1563-1566) *)
Definition axpy_sol (ne : nat) (al : F) (a b : vars F) : vars F :=
  mkvars (AXPY (tot_v qp) al (va_v a) 0 (va_v b) 0 (va_v b) 0) (AXPY ne al (va_pi a) 0 (va_pi b) 0 (va_pi b) 0)
    (AXPY nc al (va_lam a) 0 (va_lam b) 0 (va_lam b) 0) (AXPY nc al (va_t a) 0 (va_t b) 0 (va_t b) 0).
(** one refinement: solve with the linear residual as right-hand side, add (lines 1883-1896); the mask is applied to sol_itref *)
Definition refine (w : wk) : wk :=
  let '(s, k) := op_solve K OP (wk_k w) (qp_rhs (wk_rit w)) sol (view (wk_itr w)) in
  let itr := mask_lt (flat s) in
  mkwk (axpy_sol (d_ne qp) f1 itr (wk_stp w)) itr (wk_res w) (wk_rit w) (wk_rw w) (wk_ap w) (wk_ad w) (wk_muaff w) (wk_sig w) (wk_stat w) k.
Definition unrefine (w : wk) : wk :=
  mkwk (axpy_sol (d_ne qp) (- f1) (wk_itr w) (wk_stp w)) (wk_itr w) (wk_res w) (wk_rit w) (wk_rw w) (wk_ap w) (wk_ad w) (wk_muaff w) (wk_sig w) (wk_stat w) (wk_k w).
(** The refinement loop, lines 1871-1952 (predictor) and 2106-2186 (corrector).  Returns the work, the counter, whether a solve was done. *)
Fixpoint itref_loop (n : nat) (it : Z) (did : bool) (w : wk) (q : F * F * F * F) (mx : F) : wk * Z * bool :=
  match n with
  | O => (w, it, did)
  | S n' =>
    if accurate q then (w, it, did)
    else
      let w := refine w in
      let '(w, q') := call_lin w in
      let w := put_stat (wstat4 kk q') w in
      let mx' := max4 q' in
      if mx' >=? mx then (put_stat (wstat4 kk q) (unrefine w), it, true)
      else itref_loop n' (it + 1)%Z true w q' mx'
  end.
(** lines 1832-1953 *)
Definition itref_pred (w : wk) : wk * Z :=
  if Z.eqb (ai A itref_pred_max) 0 then (put_stat (wstat4 kk (f0, f0, f0, f0)) w, 0%Z)
  else
    let '(w, q) := call_lin w in
    let w := put_stat (wstat4 kk q) w in
    let '(w, it, _) := itref_loop (Z.to_nat (ai A itref_pred_max)) 0 false w q (max4 q) in (w, it).
(** COMPUTE_ALPHA_QP *)
Definition call_alpha (w : wk) : wk :=
  let '(ap, ad) := compute_alpha (ai A split_step) (c_mzero C) nc (ar A m_safe) (va_lam x) (va_t x) (va_lam (wk_stp w)) (va_t (wk_stp w)) (c_m C) in
  mkwk (wk_stp w) (wk_itr w) (wk_res w) (wk_rit w) (wk_rw w) ap ad (wk_muaff w) (wk_sig w) (wk_stat w) (wk_k w).
Definition stat_alpha (c0 : nat) (w : wk) : wk := put_stat (fun s => wstat kk (S c0) (wk_ad w) (wstat kk c0 (wk_ap w) s)) w.
(** COMPUTE_MU_AFF_QP *)
Definition call_muaff (w : wk) : wk :=
  mkwk (wk_stp w) (wk_itr w) (wk_res w) (wk_rit w) (wk_rw w) (wk_ap w) (wk_ad w)
    (compute_mu_aff nc (va_lam x) (va_t x) (va_lam (wk_stp w)) (va_t (wk_stp w)) (c_m C) (wk_ap w) (wk_ad w) (c_inv C)) (wk_sig w) (wk_stat w) (wk_k w).
Definition call_sigma (w : wk) : wk :=
  let tmp := wk_muaff w / mu in
  mkwk (wk_stp w) (wk_itr w) (wk_res w) (wk_rit w) (wk_rw w) (wk_ap w) (wk_ad w) (wk_muaff w) (tmp * tmp * tmp) (wk_stat w) (wk_k w).
Definition put_resm (f : vec -> vec) (w : wk) : wk :=
  mkwk (wk_stp w) (wk_itr w) (set_resm (wk_res w) (domask (f (resm (wk_res w))))) (wk_rit w) (wk_rw w) (wk_ap w) (wk_ad w) (wk_muaff w) (wk_sig w) (wk_stat w) (wk_k w).
(** SOLVE_KKT_STEP_DENSE_QP(qp_step, sol_step); mask *)
Definition call_solve (w : wk) : wk :=
  let '(s, k) := op_solve K OP (wk_k w) (qp_rhs (wk_res w)) sol (view (wk_stp w)) in
  mkwk (mask_lt (flat s)) (wk_itr w) (wk_res w) (wk_rit w) (wk_rw w) (wk_ap w) (wk_ad w) (wk_muaff w) (wk_sig w) (wk_stat w) k.
(** lines 1991-2075: Mehrotra's corrector, and the conditional centering *)
Definition corrector (w : wk) : wk :=
  let w := call_muaff w in
  let w := put_stat (wstat kk 2 (wk_muaff w)) w in
  let w := call_sigma w in
  let w := put_stat (wstat kk 3 (wk_sig w)) w in
  let w := put_resm (fun r => centering_correction nc (va_lam (wk_stp w)) (va_t (wk_stp w)) r mbk (wk_sig w) mu (ar A tau_min)) w in
  let w := call_solve w in
  let w := stat_alpha 4 (call_alpha w) in
  if Z.eqb (ai A cond_pred_corr) 1 then
    let mu_aff0 := wk_muaff w in
    let w := call_muaff w in
    if wk_muaff w >? lit 2 1 * mu_aff0 then
      let w := put_resm (fun r => centering nc r mbk (wk_sig w) mu (ar A tau_min)) w in
      stat_alpha 4 (call_alpha (call_solve w))
    else w
  else w.
(** lines 2077-2200 *)
Definition itref_corr (w : wk) : wk * Z :=
  if Z.ltb 0 (ai A itref_corr_max) then
    let '(w, q) := call_lin w in
    let w := put_stat (wstat4 kk q) w in
    let '(w, it, did) := itref_loop (Z.to_nat (ai A itref_corr_max)) 0 false w q (max4 q) in
    (if did then stat_alpha 4 (call_alpha w) else w, it)
  else (w, 0%Z).
(** the direction and step lengths: lines 1724-2229 (everything of DENSE_QP_IPM_DELTA_STEP before UPDATE_VAR_QP; DENSE_QP_COMPUTE_STEP_LENGTH, lines 2971-2974, returns at once) *)
Definition delta_dir (w : wk) : wk :=
  let w := put_resm (fun r => compute_tau_min nc r mbk (ar A tau_min)) w in
  let w := predictor w in
  let '(w, it0) := itref_pred w in
  let w := put_stat (fun s => wstat kk 20 (lit (op_npd K OP (wk_k w)) 1) (wstat kk 14 (lit it0 1) s)) w in
  let w := stat_alpha 0 (call_alpha w) in
  let '(w, it1) := if Z.eqb (ai A pred_corr) 1 then itref_corr (corrector w) else (w, 0%Z) in
  let w := if Z.eqb (ai A itref_corr_max) 0 then put_stat (wstat4 kk (f0, f0, f0, f0)) w else w in
  stat_alpha 4 (put_stat (wstat kk 15 (lit it1 1)) w).

(** absolute formulation, DENSE_QP_IPM_ABS_STEP lines 1540-1697 *)
Definition call_abs (sv : K -> dqp F -> dsol F -> dsol F -> dsol F * K) (w : wk) : wk :=
  let '(s, k) := sv (wk_k w) (qp_rhs_abs (wk_res w)) sol (view (wk_stp w)) in
  mkwk (mask_lt (axpy_sol (c_ne C) (- f1) x (flat s))) (wk_itr w) (wk_res w) (wk_rit w) (wk_rw w) (wk_ap w) (wk_ad w) (wk_muaff w) (wk_sig w) (wk_stat w) k.
Definition abs_dir (w : wk) : wk :=
  let w := put_resm (fun r => compute_tau_min nc r mbk (ar A tau_min)) w in
  let w := call_abs (op_fact_solve K OP) w in
  let w := put_stat (wstat kk 20 (lit (op_npd K OP (wk_k w)) 1)) w in
  let w := stat_alpha 0 (call_alpha w) in
  if Z.eqb (ai A pred_corr) 1 then
    let w := call_muaff w in
    let w := put_stat (wstat kk 2 (wk_muaff w)) w in
    let w := call_sigma w in
    let w := put_stat (wstat kk 3 (wk_sig w)) w in
    let w := put_resm (fun r => centering_correction nc (va_lam (wk_stp w)) (va_t (wk_stp w)) r mbk (wk_sig w) mu (ar A tau_min)) w in
    let w := call_abs (op_solve K OP) w in
    let w := stat_alpha 4 (call_alpha w) in
    if Z.eqb (ai A cond_pred_corr) 1 then
      let mu_aff0 := wk_muaff w in
      let w := call_muaff w in
      if wk_muaff w >? lit 2 1 * mu_aff0 then
        let w := put_resm (fun r => centering nc r mbk (wk_sig w) mu (ar A tau_min)) w in
        stat_alpha 4 (call_alpha (call_abs (op_solve K OP) w))
      else w
    else w
  else w.
End It.

(** The state of the loop: iterate, backup, work, mu, backup of res_m, res_max *)
Record ist := mkist { i_x : vars F; i_bkp : vars F; i_w : wk; i_mu : F; i_mbk : vec; i_max : F * F * F * F }.
(** UPDATE_VAR_QP, then mask lam: lines 2232-2237.  The damping (ipm_core/x_core_qp_ipm_aux.c lines 505-511) is local to UPDATE_VAR_QP: cws->alpha_prim / alpha_dual keep the undamped values. *)
Definition take_step (x bkp : vars F) (w : wk) : vars F * vars F :=
  let '(x', bkp') := update_var (tot_v qp) (c_ne C) nc (ai A t_lam_min) (ar A lam_min) (ar A t_min) (wk_ap w) (wk_ad w) (wk_stp w) (x, bkp) in
  (mkvars (va_v x') (va_pi x') (domask (va_lam x')) (va_t x'), bkp').
(** DENSE_QP_RES_COMPUTE + norms, lines 2548-2572 and 2603-2627 *)
Definition call_res (x : vars F) (w : wk) : wk * (F * F * F * F) :=
  let '(r, rw) := den_res_compute valid_of qp (view x) (wk_res w) (wk_rw w) in
  (mkwk (wk_stp w) (wk_itr w) r (wk_rit w) rw (wk_ap w) (wk_ad w) (wk_muaff w) (wk_sig w) (wk_stat w) (wk_k w), den_inf_norm qp r).
Definition wstat_res (row : Z) (q : F * F * F * F) (r : dres F) (stat : vec) : vec :=
  let '(a, b, c, e) := q in
  wstat row 12 (dr_obj r) (wstat row 11 (dr_gap r) (wstat row 10 e (wstat row 9 c (wstat row 8 b (wstat row 7 a stat))))).
(** one pass of the loop body, delta formulation, lines 2593-2631 *)
Definition delta_body (kk : Z) (s : ist) : ist :=
  let mbk := copy_arr nc (resm (wk_res (i_w s))) (i_mbk s) in (* BACKUP_RES_M *)
  let w := delta_dir kk (i_x s) (i_mu s) (i_max s) mbk (i_w s) in
  let '(x, bkp) := take_step (i_x s) (i_bkp s) w in
  let '(w, q) := call_res x w in
  let w := put_stat (fun st => wstat_res kk q (wk_res w) (wstat kk 6 (dr_mu (wk_res w)) st)) w in
  mkist x bkp w (dr_mu (wk_res w)) mbk q.
(** lines 2575-2577, 2629-2630: |res_m - tau_min * d_mask| *)
Definition res_m_tau (r : dres F) : F := VECNRM_INF nc (AXPY nc (- ar A tau_min) (c_mask C) 0 (resm r) 0 (fun _ => f0) 0) 0.
(** the loop condition, lines 2580-2589 *)
Definition delta_go (kk : Z) (s : ist) : bool :=
  let '(a, b, c, _) := i_max s in let w := i_w s in
  andb (Z.ltb kk (ai A iter_max)) (andb (wk_ap w >? ar A alpha_min) (andb (wk_ad w >? ar A alpha_min)
    (orb (a >? ar A res_g_max) (orb (b >? ar A res_b_max) (orb (c >? ar A res_d_max)
      (orb (res_m_tau (wk_res w) >? ar A res_m_max) (dr_gap (wk_res w) >? ar A dual_gap_max))))))).
(** mu of the absolute form, lines 2479-2488 and 2504-2515 *)
Definition abs_mu (x : vars F) (w : wk) : wk * F :=
  let m := VECMUL nc (va_lam x) 0 (va_t x) 0 (resm (wk_res w)) 0 in
  let m := AXPY nc (- f1) (d_m qp) 0 m 0 m 0 in
  let m := domask m in
  (mkwk (wk_stp w) (wk_itr w) (set_resm (wk_res w) m) (wk_rit w) (wk_rw w) (wk_ap w) (wk_ad w) (wk_muaff w) (wk_sig w) (wk_stat w) (wk_k w), VECNRM_1 nc m 0 * c_inv C).
Definition abs_body (kk : Z) (s : ist) : ist :=
  let w := i_w s in
  let w := mkwk (wk_stp w) (wk_itr w) (set_resm (wk_res w) (AXPBY nc (- f1) (resm (wk_res w)) 0 (- lit 2 1) (d_m qp) 0 (resm (wk_res w)) 0))
             (wk_rit w) (wk_rw w) (wk_ap w) (wk_ad w) (wk_muaff w) (wk_sig w) (wk_stat w) (wk_k w) in (* line 1555 *)
  let mbk := copy_arr nc (resm (wk_res w)) (i_mbk s) in
  let w := abs_dir kk (i_x s) (i_mu s) mbk w in
  let '(x, bkp) := take_step (i_x s) (i_bkp s) w in
  let '(w, mu) := abs_mu x w in
  mkist x bkp (put_stat (wstat kk 6 mu) w) mu mbk (i_max s).
(** lines 2491-2496 *)
Definition abs_go (kk : Z) (s : ist) : bool :=
  andb (Z.ltb kk (ai A iter_max)) (andb (wk_ap (i_w s) >? ar A alpha_min) (andb (wk_ad (i_w s) >? ar A alpha_min)
    (fabs (i_mu s - ar A tau_min) >? ar A res_m_max))).
End Step.

(** for(kk=0; go; kk++) body -- [n] passes at most; [ipm_for_exit] in DenIpmProofs.v: with n = iter_max the loop condition is false on exit *)
Fixpoint ipm_for (go : Z -> ist -> bool) (body : Z -> ist -> ist) (n : nat) (kk : Z) (s : ist) : Z * ist :=
  match n with O => (kk, s) | S n' => if go kk s then ipm_for go body n' (kk + 1)%Z (body kk s) else (kk, s) end.

(** DENSE_QP_INIT_VAR, lines 1374-1536.  thr0 = 1e-1. *)
Definition thr0 : F := lit 1 10.
(** lines 1406-1428: clip lam and t from below *)
Definition clip_lt (n : nat) (a b : F) (s : vec * vec) : vec * vec :=
  loop n (fun jj '(lam, t) =>
    let lam := if lam jj <? a then upd lam jj a else lam in
    let t := if t jj <? b then upd t jj b else t in (lam, t)) s.
(** lines 1480-1499: a box constraint of the heuristic; when both sides are too close the variable is set to 0.5*(d_lb0 + d_ub0), although d_ub0 is the
    negated upper bound *)
Definition fit_bound (lb ub : F) (idx : nat) (jl ju : nat) (s : vec * vec) : vec * vec :=
  let '(v, t) := s in
  if t jl <? thr0 then
    if t ju <? thr0 then (upd v idx (lit 1 2 * (lb + ub)), upd (upd t jl thr0) ju thr0)
    else (upd v idx (lb + thr0), upd t jl thr0)
  else if t ju <? thr0 then (upd v idx (- ub - thr0), upd t ju thr0)
  else (v, t).
(** lines 1468-1501 *)
Definition init_box (mu0v : F) (nb ng : nat) (idxb : nat -> nat) (d mask : vec) (s : vec * vec * vec) : vec * vec * vec :=
  loop nb (fun jj '(v, lam, t) =>
    let ju := (nb + ng + jj)%nat in
    let lb := if mask jj =? f0 then v (idxb jj) - f1 else d jj in
    let ub := if mask ju =? f0 then - v (idxb jj) - f1 else d ju in
    let t := upd t jj (- lb + v (idxb jj)) in
    let t := upd t ju (- ub - v (idxb jj)) in
    let '(v, t) := fit_bound lb ub (idxb jj) jj ju (v, t) in
    let lam := upd lam jj (mu0v / t jj) in
    (v, upd lam ju (mu0v / t ju), t)) s.
(** lines 1503-1521: general constraints; the upper one starts from + C v (line 1509) *)
Definition init_gen (mu0v : F) (n nb ng : nat) (Ct : nat -> vec) (d mask v : vec) (s : vec * vec) : vec * vec :=
  let '(lam, t) := s in
  let t := GEMV_T n ng f1 Ct 0 0 v 0 f0 t nb t nb in
  loop ng (fun jj '(lam, t) =>
    let jl := (nb + jj)%nat in let ju := (2 * nb + ng + jj)%nat in
    let t := upd t ju (t jl) in
    let t := if negb (mask jl =? f0) then upd t jl (t jl - d jl) else t in
    let t := if negb (mask ju =? f0) then upd t ju (t ju - d ju) else t in
    let t := upd t jl (if thr0 >? t jl then thr0 else t jl) in
    let t := upd t ju (if thr0 >? t ju then thr0 else t ju) in
    let lam := upd lam jl (mu0v / t jl) in
    (upd lam ju (mu0v / t ju), t)) (lam, t).
(** lines 1523-1530: soft constraints *)
Definition init_soft (mu0v : F) (nb ng ns : nat) (s : vec * vec) : vec * vec :=
  loop ns (fun jj '(lam, t) =>
    let jl := (2 * nb + 2 * ng + jj)%nat in let ju := (2 * nb + 2 * ng + ns + jj)%nat in
    let t := upd t jl f1 in
    let t := upd t ju f1 in
    let lam := upd lam jl (mu0v / t jl) in
    (upd lam ju (mu0v / t ju), t)) s.
Definition init_var (qp : dqp F) (sol : dsol F) : dsol F :=
  let n := d_nv qp in let nb := d_nb qp in let ng := d_ng qp in let ns := d_ns qp in
  let v := ds_v sol in let lam := ds_lam sol in let t := ds_t sol in
  if Z.leb 3 (ai A warm_start) then let '(lam, t) := clip_lt (d_nct qp) (ar A lam0_min) (ar A t0_min) (lam, t) in mkdsol v (ds_pi sol) lam t
  else if Z.eqb (ai A warm_start) 2 then let '(lam, t) := clip_lt (d_nct qp) thr0 thr0 (lam, t) in mkdsol v (ds_pi sol) lam t
  else
    let v := if Z.eqb (ai A warm_start) 0 then VECSE (n + 2 * ns) f0 v 0 else v in
    let pi := VECSE (d_ne qp) f0 (ds_pi sol) 0 in
    if Z.eqb (ai A t0_init) 0 then mkdsol v pi (VECSE (d_nct qp) (fsqrt (ar A mu0)) lam 0) (VECSE (d_nct qp) (fsqrt (ar A mu0)) t 0)
    else if Z.eqb (ai A t0_init) 1 then mkdsol v pi (VECSE (d_nct qp) (ar A mu0) lam 0) (VECSE (d_nct qp) f1 t 0)
    else
      let '(v, lam, t) := init_box (ar A mu0) nb ng (d_idxb qp) (d_d qp) (d_mask qp) (v, lam, t) in
      let '(lam, t) := if Nat.ltb 0 ng then init_gen (ar A mu0) n nb ng (d_Ct qp) (d_d qp) (d_mask qp) v (lam, t) else (lam, t) in
      let '(lam, t) := init_soft (ar A mu0) nb ng ns (lam, t) in
      mkdsol v pi lam t.

(** DENSE_QP_IPM_SOLVE, lines 2246-2676 *)
(** lines 2352-2384: constraints with a non-zero mask *)
Definition count_mask (nc : nat) (mask : vec) : nat := loop nc (fun ii n => if negb (mask ii =? f0) then S n else n) 0%nat.
Definition mk_ctx (cne : nat) (lq smax : Z) (qp : dqp F) : ctx :=
  let nc := d_nct qp in
  let mask := d_mask qp in let m := d_m qp in
  let n := count_mask nc mask in
  mkctx qp cne mask (fun ii => m ii * mask ii) lq smax (VECNRM_INF nc m 0 =? f0) (Nat.ltb n nc) (if Nat.eqb n 0 then f0 else inv_count n).
(** set_status, lines 2648-2676 *)
Definition final_status (kk : Z) (ap ad mu : F) : status :=
  if Z.eqb kk (ai A iter_max) then MAX_ITER
  else if orb (ap <=? ar A alpha_min) (ad <=? ar A alpha_min) then MIN_STEP
  else if isnan mu then NAN_SOL else SUCCESS.
(** The workspace before the solve: work buffers, backups, mu, res_max *)
Record out := mkout { o_x : vars F; o_bkp : vars F; o_iter : Z; o_status : status; o_w : wk; o_mu : F; o_max : F * F * F * F; o_valid : bool }.
(** lines 2386-2430: no (unmasked) constraint *)
Definition solve_unc (C : ctx) (x : vars F) (s : ist) : out :=
  let qp := c_qp C in let w := i_w s in
  let '(u, k) := op_unc K OP (wk_k w) qp (view x) in
  let x := flat u in
  let w := mkwk (wk_stp w) (wk_itr w) (wk_res w) (wk_rit w) (wk_rw w) (wk_ap w) (wk_ad w) (wk_muaff w) (wk_sig w) (wk_stat w) k in
  let '(w, q, mu) :=
    if negb (Z.eqb (ai A comp_res_exit) 0) then
      let '(w, (a, b, c, e)) := call_res C x w in
      let st := wk_stat w in
      let st := if Z.ltb 0 (c_smax C) then upd (upd (upd (upd (upd st 6 a) 7 b) 8 c) 9 e) 10 (dr_obj (wk_res w)) else st in
      (put_stat (fun _ => st) w, (a, b, c, e), dr_mu (wk_res w))
    else (w, (f0, f0, f0, f0), i_mu s) in
  mkout x (i_bkp s) 0 (if isnan (va_v x 0%nat) then NAN_SOL else SUCCESS) w mu q true.
(** the initial iterate, residuals and step lengths (lines 2433-2454) *)
Definition start (C : ctx) (x : vars F) (s : ist) : ist :=
  let qp := c_qp C in
  let x := flat (init_var qp (view x)) in
  let x := mkvars (va_v x) (va_pi x) (domask C (va_lam x)) (va_t x) in
  let w := i_w s in
  let w := mkwk (wk_stp w) (wk_itr w) (wk_res w) (wk_rit w) (wk_rw w) f1 f1 (wk_muaff w) (wk_sig w) (wk_stat w) (wk_k w) in
  mkist x (i_bkp s) w (i_mu s) (i_mbk s) (f0, f0, f0, f0).
(** lines 2635-2641: fresh factorisation at the returned point if none was computed *)
Definition exit_fact (C : ctx) (kk : Z) (s : ist) : ist :=
  if andb (Z.eqb (ai A update_fact_exit) 1) (Z.eqb kk 0) then
    let w := i_w s in
    let w := mkwk (wk_stp w) (wk_itr w) (wk_res w) (wk_rit w) (wk_rw w) (wk_ap w) (wk_ad w) (wk_muaff w) (wk_sig w) (wk_stat w) (op_fact K OP (wk_k w) (c_qp C) (view (i_x s))) in
    mkist (i_x s) (backup_var (tot_v (c_qp C)) (c_ne C) (d_nct (c_qp C)) (i_x s) (i_bkp s)) w (i_mu s) (i_mbk s) (i_max s)
  else s.
Definition finish (C : ctx) (r : Z * ist) : out :=
  let '(kk, s) := r in
  let s := exit_fact C kk s in
  mkout (i_x s) (i_bkp s) kk (final_status kk (wk_ap (i_w s)) (wk_ad (i_w s)) (i_mu s)) (i_w s) (i_mu s) (i_max s) false.
Definition solve_delta (C : ctx) (s : ist) : out :=
  let '(w, q) := call_res C (i_x s) (i_w s) in
  let w := put_stat (wstat_res C (-1) q (wk_res w)) w in
  let s := mkist (i_x s) (i_bkp s) w (dr_mu (wk_res w)) (i_mbk s) q in
  finish C (ipm_for (delta_go C) (delta_body C) (Z.to_nat (ai A iter_max)) 0 s).
Definition solve_abs (C : ctx) (s : ist) : out :=
  let '(w, mu) := abs_mu C (i_x s) (i_w s) in
  let s := mkist (i_x s) (i_bkp s) w mu (i_mbk s) (i_max s) in
  let '(kk, s) := ipm_for abs_go (abs_body C) (Z.to_nat (ai A iter_max)) 0 s in
  let s :=
    if negb (Z.eqb (ai A comp_res_exit) 0) then
      let '(w, q) := call_res C (i_x s) (i_w s) in
      let w := put_stat (wstat_res C (kk - 1) q (wk_res w)) w in
      mkist (i_x s) (i_bkp s) w (i_mu s) (i_mbk s) q
    else s in
  finish C (kk, s).
Definition dipm_solve (cne : nat) (lq smax : Z) (qp : dqp F) (sol : vars F) (ws : ist) : out :=
  let C := mk_ctx cne lq smax qp in
  let nc := d_nct qp in
  if orb (Nat.eqb nc 0) (Nat.eqb (count_mask nc (c_mask C)) 0) then solve_unc C sol ws
  else
    let s := start C sol ws in
    if negb (Z.eqb (ai A abs_form) 0) then solve_abs C s else solve_delta C s.
End Ipm.
