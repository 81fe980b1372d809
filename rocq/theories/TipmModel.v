(** TipmModel.v -- the interior point solver of the tree-structured OCP QP: variable initialisation, one iteration, the loop, the status
    (tree_ocp_qp/x_tree_ocp_qp_ipm.c lines 1130-2494).  Generic in the arithmetic and in the linear algebra (the TREE_OCP_QP_..._KKT_... routines are
    arbitrary functions [kops], which may depend on the tree).  The code is a copy of the OCP QP solver with changes; the functions that are the
    same up to the prefix TREE_ are those of IpmModel.v (call_fs, call_lq, refine, unrefine, call_alpha, call_muaff, call_sigma, put_resm, call_solve,
    call_abs, take_step, abs_mu, the loop conditions, mk_ctx, final_status); what differs is here.  The nodes play the part of the stages, the edge
    into node k has index k-1 (pi, b), as in TreeModel.v.  The struct aliasing of lines 2107-2155 and 2277-2295 is qp_rhs / qp_rhs_abs of IpmModel.v. *)
From Coq Require Import ZArith Bool Arith List.
From Verif Require Import Base ArithF Blas Blas2 OcpModel CoreModel ArgModel IpmModel TreeModel.
Local Open Scope Z_scope.

Section Tipm.
Context {F : Type} {AF : Arith F}.
Local Open Scope F_scope.
Notation vec := (nat -> F).
Context {K : Type} (OP : kops (F := F) K) (A : arg F) (T : ttree).
Notation ist := (@ist F K). Notation wk := (@wk F K). Notation out := (@out F K). Notation ctx := (ctx (F := F)).

Section Step.
Variable C : ctx.
Let qp := c_qp C.
Let D := q_dim qp.
Let nc := tot_c D.
(** stat_m = 20, line 819 *)
Definition twstat (kk : Z) (col : nat) (v : F) (stat : vec) : vec :=
  if Z.ltb (kk + 1) (c_smax C) then upd stat (Z.to_nat (20 * (kk + 1)) + col)%nat v else stat.
Definition twstat4 (kk : Z) (q : F * F * F * F) (stat : vec) : vec :=
  let '(a, b, c, e) := q in twstat kk 19 e (twstat kk 18 c (twstat kk 17 b (twstat kk 16 a stat))).
Section It.
Variables (kk : Z) (x : vars F) (mu : F) (rmax : F * F * F * F) (mbk : vec).
Let sol := view D x.
(** TREE_OCP_QP_RES_COMPUTE_LIN(qp_step, qp_sol, sol_step, res_itref) and its norms *)
Definition tcall_lin0 (w : wk) : wk :=
  let '(rit, rw) := treelin_compute (Some (c_mc C)) T (qp_rhs C (wk_res w)) sol (view D (wk_stp w)) (wk_rit w) (wk_rw w) in
  mkwk (wk_stp w) (wk_itr w) (wk_res w) rit rw (wk_ap w) (wk_ad w) (wk_muaff w) (wk_sig w) (wk_stat w) (wk_k w).
Definition tcall_lin (w : wk) : wk * (F * F * F * F) := let w := tcall_lin0 w in (w, tree_inf_norm D (wk_rit w)).
(** lines 1621-1634: here the masks are applied once more to res_d and res_m of the linear residual *)
Definition tcall_lin_mask (w : wk) : wk * (F * F * F * F) :=
  let w := tcall_lin0 w in let r := wk_rit w in
  let r := mkres (r_g r) (r_b r) (win (nct D) (domask C (flatc D (r_d r)))) (win (nct D) (domask C (flatc D (r_m r)))) (r_obj r) (r_gap r) (r_mu r) (r_mu_sum r) in
  (mkwk (wk_stp w) (wk_itr w) (wk_res w) r (wk_rw w) (wk_ap w) (wk_ad w) (wk_muaff w) (wk_sig w) (wk_stat w) (wk_k w), tree_inf_norm D r).
(** lines 1588-1688: stat column 13 gets the constants 0 / 1; force_lq (line 1570) is always 0 when tested *)
Definition tstat_lq (v : F) (w : wk) : wk := put_stat (twstat kk 13 v) w.
Definition tpredictor (w : wk) : wk :=
  if Z.eqb (c_lq C) 0 then tstat_lq f0 (call_fs OP C x w)
  else if Z.eqb (c_lq C) 1 then
    let w := call_fs OP C x w in
    let '(w, q) := tcall_lin_mask w in
    let w := tstat_lq f0 w in
    if inaccurate (wk_rit w) q then tstat_lq f1 (call_lq OP C x w) else w
  else tstat_lq f1 (call_lq OP C x w).
(** the refinement loops, lines 1723-1815 (predictor: the maximum norm is re-declared in the body, line 1781: [shadow] = true) and 1948-2036 *)
Fixpoint titref_loop (shadow : bool) (n : nat) (it : Z) (did : bool) (w : wk) (q : F * F * F * F) (mx : F) : wk * Z * bool :=
  match n with
  | O => (w, it, did)
  | S n' =>
    if accurate A rmax q then (w, it, did)
    else
      let w := refine OP C x w in
      let '(w, q') := tcall_lin w in
      let w := put_stat (twstat4 kk q') w in
      let mx' := max4 q' in
      if mx' >=? mx then (put_stat (twstat4 kk q) (unrefine C w), it, true)
      else titref_loop shadow n' (it + 1)%Z true w q' (if shadow then mx else mx')
  end.
(** lines 1691-1818 *)
Definition titref_pred (w : wk) : wk * Z :=
  if Z.eqb (ai A itref_pred_max) 0 then (put_stat (twstat4 kk (f0, f0, f0, f0)) w, 0%Z)
  else
    let '(w, q) := tcall_lin w in
    let w := put_stat (twstat4 kk q) w in
    let '(w, it, _) := titref_loop true (Z.to_nat (ai A itref_pred_max)) 0 false w q (max4 q) in (w, it).
Definition tstat_alpha (c0 : nat) (w : wk) : wk := put_stat (fun s => twstat kk (S c0) (wk_ad w) (twstat kk c0 (wk_ap w) s)) w.
(** lines 1832-1912 *)
Definition tcorrector (w : wk) : wk :=
  let w := call_muaff C x w in
  let w := put_stat (twstat kk 2 (wk_muaff w)) w in
  let w := call_sigma mu w in
  let w := put_stat (twstat kk 3 (wk_sig w)) w in
  let w := put_resm C (fun r => centering_correction nc (va_lam (wk_stp w)) (va_t (wk_stp w)) r mbk (wk_sig w) mu (ar A tau_min)) w in
  let w := call_solve OP C x w in
  let w := tstat_alpha 4 (call_alpha A C x w) in
  if Z.eqb (ai A cond_pred_corr) 1 then
    let mu_aff0 := wk_muaff w in
    let w := call_muaff C x w in
    if wk_muaff w >? lit 2 1 * mu_aff0 then
      let w := put_resm C (fun r => centering nc r mbk (wk_sig w) mu (ar A tau_min)) w in
      tstat_alpha 4 (call_alpha A C x (call_solve OP C x w))
    else w
  else w.
(** lines 1914-2051 *)
Definition titref_corr (w : wk) : wk * Z :=
  if Z.ltb 0 (ai A itref_corr_max) then
    let '(w, q) := tcall_lin w in
    let w := put_stat (twstat4 kk q) w in
    let '(w, it, did) := titref_loop false (Z.to_nat (ai A itref_corr_max)) 0 false w q (max4 q) in
    (if did then tstat_alpha 4 (call_alpha A C x w) else w, it)
  else (w, 0%Z).
(** TREE_OCP_QP_IPM_DELTA_STEP up to UPDATE_VAR_QP, lines 1574-2064; no column 20 *)
Definition tdelta_dir (w : wk) : wk :=
  let w := put_resm C (fun r => compute_tau_min nc r mbk (ar A tau_min)) w in
  let w := tpredictor w in
  let '(w, it0) := titref_pred w in
  let w := put_stat (twstat kk 14 (lit it0 1)) w in
  let w := tstat_alpha 0 (call_alpha A C x w) in
  let '(w, it1) := if Z.eqb (ai A pred_corr) 1 then titref_corr (tcorrector w) else (w, 0%Z) in
  let w := if Z.eqb (ai A itref_corr_max) 0 then put_stat (twstat4 kk (f0, f0, f0, f0)) w else w in
  put_stat (twstat kk 15 (lit it1 1)) w.
(** TREE_OCP_QP_IPM_ABS_STEP, lines 1390-1524 (after the update of res_m and its backup) *)
Definition tabs_dir (w : wk) : wk :=
  let w := put_resm C (fun r => compute_tau_min nc r mbk (ar A tau_min)) w in
  let w := call_abs C x (op_fact_solve K OP) w in
  let w := tstat_alpha 0 (call_alpha A C x w) in
  if Z.eqb (ai A pred_corr) 1 then
    let w := call_muaff C x w in
    let w := put_stat (twstat kk 2 (wk_muaff w)) w in
    let w := call_sigma mu w in
    let w := put_stat (twstat kk 3 (wk_sig w)) w in
    let w := put_resm C (fun r => centering_correction nc (va_lam (wk_stp w)) (va_t (wk_stp w)) r mbk (wk_sig w) mu (ar A tau_min)) w in
    let w := call_abs C x (op_solve K OP true) w in
    let w := tstat_alpha 4 (call_alpha A C x w) in
    if Z.eqb (ai A cond_pred_corr) 1 then
      let mu_aff0 := wk_muaff w in
      let w := call_muaff C x w in
      if wk_muaff w >? lit 2 1 * mu_aff0 then
        let w := put_resm C (fun r => centering nc r mbk (wk_sig w) mu (ar A tau_min)) w in
        tstat_alpha 4 (call_alpha A C x (call_abs C x (op_solve K OP true) w))
      else w
    else w
  else w.
End It.

(** TREE_OCP_QP_RES_COMPUTE + norms, lines 2374-2398, 2430-2456; valid_nc_mask is 1 during the solve *)
Definition tcall_res (x : vars F) (w : wk) : wk * (F * F * F * F) :=
  let '(r, rw) := tree_res_compute (valid_of C) T qp (view D x) (wk_res w) (wk_rw w) in
  (mkwk (wk_stp w) (wk_itr w) r (wk_rit w) rw (wk_ap w) (wk_ad w) (wk_muaff w) (wk_sig w) (wk_stat w) (wk_k w), tree_inf_norm D r).
Definition twstat_res (row : Z) (q : F * F * F * F) (r : ores F) (stat : vec) : vec :=
  let '(a, b, c, e) := q in
  twstat row 12 (r_obj r) (twstat row 11 (r_gap r) (twstat row 10 e (twstat row 9 c (twstat row 8 b (twstat row 7 a stat))))).
(** one pass of the loop body, delta formulation, lines 2424-2460 *)
Definition tdelta_body (kk : Z) (s : ist) : ist :=
  let mbk := copy_arr nc (resm C (wk_res (i_w s))) (i_mbk s) in
  let w := tdelta_dir kk (i_x s) (i_mu s) (i_max s) mbk (i_w s) in
  let '(x, bkp) := take_step A C (i_x s) (i_bkp s) w in
  let '(w, q) := tcall_res x w in
  let w := put_stat (fun st => twstat_res kk q (wk_res w) (twstat kk 6 (r_mu (wk_res w)) st)) w in
  mkist x bkp w (r_mu (wk_res w)) mbk q.
(** lines 2320-2342 with line 1388 *)
Definition tabs_body (kk : Z) (s : ist) : ist :=
  let w := i_w s in
  let w := mkwk (wk_stp w) (wk_itr w) (set_resm C (wk_res w) (AXPBY nc (- f1) (resm C (wk_res w)) 0 (- lit 2 1) (flatc D (q_m qp)) 0 (resm C (wk_res w)) 0))
             (wk_rit w) (wk_rw w) (wk_ap w) (wk_ad w) (wk_muaff w) (wk_sig w) (wk_stat w) (wk_k w) in
  let mbk := copy_arr nc (resm C (wk_res w)) (i_mbk s) in
  let w := tabs_dir kk (i_x s) (i_mu s) mbk w in
  let '(x, bkp) := take_step A C (i_x s) (i_bkp s) w in
  let '(w, mu) := abs_mu C x w in
  mkist x bkp (put_stat (twstat kk 6 mu) w) mu mbk (i_max s).
End Step.

(** *** TREE_OCP_QP_INIT_VAR, lines 1130-1361 *)
(** lines 1283-1305.  AS WRITTEN (line 1287): 0.5*(d_lb0 + d_ub0), where d_ub0 is the negated upper bound. *)
Definition tfit_bound (lb ub : F) (idx : nat) (jl ju : nat) (s : vec * vec) : vec * vec :=
  let '(ux, t) := s in
  if t jl <? thr0 then
    if t ju <? thr0 then (upd ux idx (lit 1 2 * (lb + ub)), upd (upd t jl thr0) ju thr0)
    else (upd ux idx (lb + thr0), upd t jl thr0)
  else if t ju <? thr0 then (upd ux idx (- ub - thr0), upd t ju thr0)
  else (ux, t).
(** lines 1255-1309 *)
Definition tinit_box (mu0v : F) (nb ng : nat) (idxb : nat -> nat) (d mask : vec) (s : vec * vec * vec) : vec * vec * vec :=
  loop nb (fun jj '(ux, lam, t) =>
    let ju := (nb + ng + jj)%nat in
    let lb := if mask jj =? f0 then ux (idxb jj) - f1 else d jj in
    let ub := if mask ju =? f0 then - ux (idxb jj) - f1 else d ju in
    let t := upd t jj (- lb + ux (idxb jj)) in
    let t := upd t ju (- ub - ux (idxb jj)) in
    let '(ux, t) := tfit_bound lb ub (idxb jj) jj ju (ux, t) in
    let lam := upd lam jj (mu0v / t jj) in
    (ux, upd lam ju (mu0v / t ju), t)) s.
(** lines 1341-1355: slacks; [o] = 2*nb+2*ng *)
Definition tinit_soft (mu0v : F) (o ns : nat) (s : vec * vec) : vec * vec :=
  loop ns (fun jj '(lam, t) =>
    let t := upd (upd t (o + jj)%nat f1) (o + ns + jj)%nat f1 in
    (upd (upd lam (o + jj)%nat (mu0v / t (o + jj)%nat)) (o + ns + jj)%nat (mu0v / t (o + ns + jj)%nat), t)) s.
(** one node (the separate loops over the nodes do not interact).  The general constraints, lines 1311-1338, are [init_gen] of IpmModel.v. *)
Definition tinit_node (qp : oqp F) (ii : nat) (s : vec * vec * vec) : vec * vec * vec :=
  let D := q_dim qp in
  let n := (dnu D ii + dnx D ii)%nat in let nb := dnb D ii in let ng := dng D ii in let ns := dns D ii in
  let '(ux, lam, t) := s in
  if Z.leb 3 (ai A warm_start) then let '(lam, t) := clip_lt (nct D ii) (ar A lam0_min) (ar A t0_min) (lam, t) in (ux, lam, t)
  else if Z.eqb (ai A warm_start) 2 then let '(lam, t) := clip_lt (nct D ii) thr0 thr0 (lam, t) in (ux, lam, t)
  else
    let ux := if Z.eqb (ai A warm_start) 0 then VECSE (nvt D ii) f0 ux 0 else ux in
    if Z.eqb (ai A t0_init) 0 then (ux, VECSE (nct D ii) (fsqrt (ar A mu0)) lam 0, VECSE (nct D ii) (fsqrt (ar A mu0)) t 0)
    else if Z.eqb (ai A t0_init) 1 then (ux, VECSE (nct D ii) (ar A mu0) lam 0, VECSE (nct D ii) f1 t 0)
    else
      let '(ux, lam, t) := tinit_box (ar A mu0) nb ng (q_idxb qp ii) (q_d qp ii) (q_mask qp ii) (ux, lam, t) in
      let '(lam, t) := init_gen (ar A mu0) n nb ng (q_DCt qp ii) (q_d qp ii) (q_mask qp ii) ux (lam, t) in
      let '(lam, t) := tinit_soft (ar A mu0) (2 * nb + 2 * ng) ns (lam, t) in (ux, lam, t).
(** lines 1218-1227: pi[ii] has nx[ii+1] entries *)
Definition tinit_var (qp : oqp F) (sol : osol F) : osol F :=
  let D := q_dim qp in
  let st ii := tinit_node qp ii (s_ux sol ii, s_lam sol ii, s_t sol ii) in
  let pi ii := if Z.leb 2 (ai A warm_start) then s_pi sol ii else VECSE (dnx D (ii + 1)) f0 (s_pi sol ii) 0 in
  mksol (fun ii => fst (fst (st ii))) pi (fun ii => snd (fst (st ii))) (fun ii => snd (st ii)).

(** *** TREE_OCP_QP_IPM_SOLVE, lines 2079-2494 *)
(** lines 2203-2246: no (unmasked) constraint.  Columns 6-10: the norms, then the objective; not the columns of the other rows *)
Definition tsolve_unc (C : ctx) (x : vars F) (s : ist) : out :=
  let qp := c_qp C in let D := q_dim qp in let w := i_w s in
  let '(u, k) := op_unc K OP (wk_k w) qp (view D x) in
  let x := flat D u in
  let w := mkwk (wk_stp w) (wk_itr w) (wk_res w) (wk_rit w) (wk_rw w) (wk_ap w) (wk_ad w) (wk_muaff w) (wk_sig w) (wk_stat w) k in
  let '(w, q, mu) :=
    if negb (Z.eqb (ai A comp_res_exit) 0) then
      let '(w, (a, b, c, e)) := tcall_res C x w in
      let st := wk_stat w in
      let st := if Z.ltb 0 (c_smax C) then upd (upd (upd (upd (upd st 6 a) 7 b) 8 c) 9 e) 10 (r_obj (wk_res w)) else st in
      (put_stat (fun _ => st) w, (a, b, c, e), r_mu (wk_res w))
    else (w, (f0, f0, f0, f0), i_mu s) in
  mkout x (i_bkp s) 0 (if isnan (s_ux (view D x) 0%nat 0%nat) then NAN_SOL else SUCCESS) w mu q true.
(** lines 2250-2262: the initial iterate, masked, and saved (BACKUP_VAR_QP) *)
Definition tstart (C : ctx) (x : vars F) (s : ist) : ist :=
  let qp := c_qp C in let D := q_dim qp in
  let x := flat D (tinit_var qp (view D x)) in
  let x := mkvars (va_v x) (va_pi x) (domask C (va_lam x)) (va_t x) in
  let w := i_w s in
  let w := mkwk (wk_stp w) (wk_itr w) (wk_res w) (wk_rit w) (wk_rw w) f1 f1 (wk_muaff w) (wk_sig w) (wk_stat w) (wk_k w) in
  mkist x (backup_var (tot_v D) (tot_e D) (tot_c D) x (i_bkp s)) w (i_mu s) (i_mbk s) (f0, f0, f0, f0).
(** set_status, lines 2462-2494 *)
Definition tfinish (r : Z * ist) : out :=
  let '(kk, s) := r in
  mkout (i_x s) (i_bkp s) kk (final_status A kk (wk_ap (i_w s)) (wk_ad (i_w s)) (i_mu s)) (i_w s) (i_mu s) (i_max s) false.
Definition tsolve_delta (C : ctx) (s : ist) : out :=
  let '(w, q) := tcall_res C (i_x s) (i_w s) in
  let w := put_stat (twstat_res C (-1) q (wk_res w)) w in
  let s := mkist (i_x s) (i_bkp s) w (r_mu (wk_res w)) (i_mbk s) q in
  tfinish (ipm_for (delta_go A C) (tdelta_body C) (Z.to_nat (ai A iter_max)) 0 s).
Definition tsolve_abs (C : ctx) (s : ist) : out :=
  let '(w, mu) := abs_mu C (i_x s) (i_w s) in
  let s := mkist (i_x s) (i_bkp s) w mu (i_mbk s) (i_max s) in
  let '(kk, s) := ipm_for (abs_go A) (tabs_body C) (Z.to_nat (ai A iter_max)) 0 s in
  let s :=
    if andb (negb (Z.eqb (ai A comp_res_exit) 0)) (negb (Z.eqb (ai A comp_dual_sol_eq) 0)) then
      let '(w, q) := tcall_res C (i_x s) (i_w s) in
      let w := put_stat (twstat_res C (kk - 1) q (wk_res w)) w in
      mkist (i_x s) (i_bkp s) w (i_mu s) (i_mbk s) q
    else s in
  tfinish (kk, s).
Definition tipm_solve (lq smax : Z) (qp : oqp F) (sol : vars F) (ws : ist) : out :=
  let C := mk_ctx lq smax qp in
  let nc := tot_c (q_dim qp) in
  if orb (Nat.eqb nc 0) (Nat.eqb (count_mask nc (c_mask C)) 0) then tsolve_unc C sol ws
  else
    let s := tstart C sol ws in
    if negb (Z.eqb (ai A abs_form) 0) then tsolve_abs C s else tsolve_delta C s.
End Tipm.
