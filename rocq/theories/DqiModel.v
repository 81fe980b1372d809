(** DqiModel.v -- the interior point solver of the dense QCQP: DENSE_QCQP_INIT_VAR and DENSE_QCQP_IPM_SOLVE (dense_qp/x_dense_qcqp_ipm.c lines 849-1042 and
    1287-1710).  One iteration is DENSE_QP_IPM_DELTA_STEP (or ABS_STEP) of the dense QP solver on the QP that linearises the QCQP (DenIpmModel.v, DqlModel.v),
    with the linear algebra a parameter.
    Simplification: the linear residuals of the refinement use mask_constr = 1; the C code recomputes the flag from the masks at each call, which gives
    the same residuals when the masks are 0 or 1. *)
From Coq Require Import ZArith Bool Arith List.
From Verif Require Import Base ArithF Blas Blas2 OcpModel CoreModel ArgModel DenModel QcqpModel DqcModel DqlModel DenIpmModel.
Local Open Scope Z_scope.

Section Dqi.
Context {F : Type} {AF : Arith F}.
Local Open Scope F_scope.
Notation vec := (nat -> F).
(** [A] = qcqp_arg->qp_arg, [QA] = qcqp_arg itself *)
Context {K : Type} (OP : dkops (F := F) K) (A QA : arg F).

(** the QCQP after lines 1388-1399 *)
Definition dqc_masked (q : dqcqp F) : dqcqp F :=
  mkdqc (dq_nv q) (dq_ne q) (dq_nb q) (dq_ng q) (dq_nq q) (dq_ns q) (dq_H q) (dq_A q) (dq_Ct q) (dq_Hq q) (dq_gz q) (dq_b q) (dq_d q) (dqc_mask_lower q)
    (dq_m q) (dq_Z q) (dq_idxb q) (dq_idxs_rev q).
(** cws->nv, cws->nc *)
Definition dqi_nv (q : dqcqp F) : nat := (dq_nv q + 2 * dq_ns q)%nat.
Definition dqi_nc (q : dqcqp F) : nat := (2 * dq_nb q + 2 * dq_ng q + 2 * dq_nq q + 2 * dq_ns q)%nat.

(** *** DENSE_QCQP_INIT_VAR *)
(** lines 945-978: box constraints.  AS WRITTEN (line 953) the masks of the upper bounds are read at nb+ng, not at nb+ng+nq. *)
Definition dqi_box (mu0v : F) (nb ng nq : nat) (idxb : nat -> nat) (d mask : vec) (s : vec * vec * vec) : vec * vec * vec :=
  loop nb (fun jj '(v, lam, t) =>
    let ju := (nb + ng + nq + jj)%nat in
    let lb := if mask jj =? f0 then v (idxb jj) - f1 else d jj in
    let ub := if mask (nb + ng + jj)%nat =? f0 then - v (idxb jj) - f1 else d ju in
    let t := upd t jj (- lb + v (idxb jj)) in
    let t := upd t ju (- ub - v (idxb jj)) in
    let '(v, t) := fit_bound lb ub (idxb jj) jj ju (v, t) in
    let lam := upd lam jj (mu0v / t jj) in
    (v, upd lam ju (mu0v / t ju), t)) s.
(** lines 980-998: general constraints; the upper one starts from + C v (line 986) *)
Definition dqi_gen (mu0v : F) (n nb ng nq : nat) (Ct : nat -> vec) (d mask v : vec) (s : vec * vec) : vec * vec :=
  let '(lam, t) := s in
  let t := GEMV_T n ng f1 Ct 0 0 v 0 f0 t nb t nb in
  loop ng (fun jj '(lam, t) =>
    let jl := (nb + jj)%nat in let ju := (2 * nb + ng + nq + jj)%nat in
    let t := upd t ju (t jl) in
    let t := if negb (mask jl =? f0) then upd t jl (t jl - d jl) else t in
    let t := if negb (mask ju =? f0) then upd t ju (t ju - d ju) else t in
    let t := upd t jl (if thr0 >? t jl then thr0 else t jl) in
    let t := upd t ju (if thr0 >? t ju then thr0 else t ju) in
    let lam := upd lam jl (mu0v / t jl) in
    (upd lam ju (mu0v / t ju), t)) (lam, t).
(** lines 1000-1007: slacks; [o] = 2*nb+2*ng+2*nq *)
Definition dqi_soft (mu0v : F) (o ns : nat) (s : vec * vec) : vec * vec :=
  loop ns (fun jj '(lam, t) =>
    let jl := (o + jj)%nat in let ju := (o + ns + jj)%nat in
    let t := upd t jl f1 in
    let t := upd t ju f1 in
    let lam := upd lam jl (mu0v / t jl) in
    (upd lam ju (mu0v / t ju), t)) s.
(** lines 1009-1036: quadratic constraints; [o] = nb+ng, [ou] = 2*nb+2*ng+nq *)
Definition dqi_quad (mu0v : F) (o ou nq : nat) (s : vec * vec) : vec * vec :=
  let sq := fsqrt mu0v in
  let sq := if thr0 >? sq then thr0 else sq in
  loop nq (fun jj '(lam, t) =>
    (upd (upd lam (o + jj)%nat f0) (ou + jj)%nat (mu0v / sq), upd (upd t (o + jj)%nat f1) (ou + jj)%nat sq)) s.
(** lines 849-1042 *)
Definition dqi_init (q : dqcqp F) (sol : dsol F) : dsol F :=
  let n := dq_nv q in let nb := dq_nb q in let ng := dq_ng q in let nq := dq_nq q in let ns := dq_ns q in
  let nc := dqi_nc q in
  let v := ds_v sol in let lam := ds_lam sol in let t := ds_t sol in
  if Z.leb 3 (ai QA warm_start) then let '(lam, t) := clip_lt nc (ar QA lam0_min) (ar QA t0_min) (lam, t) in mkdsol v (ds_pi sol) lam t
  else if Z.eqb (ai QA warm_start) 2 then let '(lam, t) := clip_lt nc thr0 thr0 (lam, t) in mkdsol v (ds_pi sol) lam t
  else
    let v := if Z.eqb (ai QA warm_start) 0 then VECSE (n + 2 * ns) f0 v 0 else v in
    let pi := VECSE (dq_ne q) f0 (ds_pi sol) 0 in
    if Z.eqb (ai QA t0_init) 0 then mkdsol v pi (VECSE nc (fsqrt (ar QA mu0)) lam 0) (VECSE nc (fsqrt (ar QA mu0)) t 0)
    else if Z.eqb (ai QA t0_init) 1 then mkdsol v pi (VECSE nc (ar QA mu0) lam 0) (VECSE nc f1 t 0)
    else
      let '(v, lam, t) := dqi_box (ar QA mu0) nb ng nq (dq_idxb q) (dq_d q) (dq_mask q) (v, lam, t) in
      let '(lam, t) := if Nat.ltb 0 ng then dqi_gen (ar QA mu0) n nb ng nq (dq_Ct q) (dq_d q) (dq_mask q) v (lam, t) else (lam, t) in
      let '(lam, t) := dqi_soft (ar QA mu0) (2 * nb + 2 * ng + 2 * nq) ns (lam, t) in
      let '(lam, t) := dqi_quad (ar QA mu0) (nb + ng) (2 * nb + 2 * ng + nq) nq (lam, t) in
      mkdsol v pi lam t.

(** *** conversions *)
(** DENSE_QCQP_SOL_CONV_QP_SOL / DENSE_QP_SOL_CONV_QCQP_SOL, lines 1213-1257 *)
Definition dqi_conv (q : dqcqp F) (src dst : vars F) : vars F := backup_var (dqi_nv q) (dq_ne q) (dqi_nc q) src dst.
(** DENSE_QCQP_RES_CONV_QP_RES, lines 1261-1283: residuals and mu; neither the norms nor the objective and gap *)
Definition dqi_conv_res (q : dqcqp F) (src dst : dres F) : dres F :=
  mkdres (VECCP (dqi_nv q) (dr_g src) 0 (dr_g dst) 0) (VECCP (dq_ne q) (dr_b src) 0 (dr_b dst) 0) (VECCP (dqi_nc q) (dr_d src) 0 (dr_d dst) 0)
    (VECCP (dqi_nc q) (dr_m src) 0 (dr_m dst) 0) (dr_obj dst) (dr_gap dst) (dr_mu src) (dr_mu_sum dst).

(** *** DENSE_QCQP_IPM_SOLVE *)
(** state: that of the QP solver (its res_max is never written: i_max is constant), qcqp_sol, the QP approximation with the cache, qcqp_res, its workspace, qcqp_res_max *)
Record dqst := mkdqst { y_i : @ist F K; y_x : vars F; y_a : daws F; y_r : dres F; y_rw : qrws F; y_max : F * F * F * F }.
Definition dqi_setqp (C : ctx (F := F)) (qp : dqp F) : ctx (F := F) :=
  mkctx qp (c_ne C) (c_mask C) (c_m C) (c_lq C) (c_smax C) (c_mzero C) (c_mc C) (c_inv C).
(** lines 1332-1337 (cws->m, with the masks of the caller), 1409-1433, 1487-1494; mask_constr = 1 always *)
Definition dqi_ctx (lq smax : Z) (q : dqcqp F) (qp : dqp F) : ctx (F := F) :=
  let nc := dqi_nc q in
  let n := count_mask nc (d_mask qp) in
  mkctx qp (dq_ne q) (d_mask qp) (fun ii => dq_m q ii * dq_mask q ii) lq smax (VECNRM_INF nc (d_m qp) 0 =? f0) true (if Nat.eqb n 0 then f0 else inv_count n).

Section Solve.
Variables (q : dqcqp F) (C0 : ctx (F := F)). (* q: already masked *)
Let nc := dqi_nc q.
(** DENSE_QCQP_RES_COMPUTE with the cached values (valid_nc_mask is 0), norms, conversion to the QP's residuals: lines 1580-1593, 1642-1653 *)
Definition dqi_res (s : dqst) : dqst :=
  let '(r, rw) := dqc_res_compute (Some (da_fun (y_a s), da_adj (y_a s))) None q (view (y_x s)) (y_r s) (y_rw s) in
  let i := y_i s in let w := i_w i in
  let w := mkwk (wk_stp w) (wk_itr w) (dqi_conv_res q r (wk_res w)) (wk_rit w) (wk_rw w) (wk_ap w) (wk_ad w) (wk_muaff w) (wk_sig w) (wk_stat w) (wk_k w) in
  mkdqst (mkist (i_x i) (i_bkp i) w (dr_mu r) (i_mbk i) (i_max i)) (y_x s) (y_a s) r rw (dqc_inf_norm q r).
Definition dqi_put (f : vec -> vec) (s : dqst) : dqst :=
  let i := y_i s in mkdqst (mkist (i_x i) (i_bkp i) (put_stat f (i_w i)) (i_mu i) (i_mbk i) (i_max i)) (y_x s) (y_a s) (y_r s) (y_rw s) (y_max s).
(** lines 1623-1639: one iteration of the delta formulation *)
Definition dqi_step (kk : Z) (s : dqst) : dqst :=
  let C := dqi_setqp C0 (da_qp (y_a s)) in let i := y_i s in
  let mbk := copy_arr nc (resm (wk_res (i_w i))) (i_mbk i) in
  let w := delta_dir OP A C kk (i_x i) (i_mu i) (i_max i) mbk (i_w i) in
  let '(x, bkp) := take_step A C (i_x i) (i_bkp i) w in
  let qx := dqi_conv q x (y_x s) in
  let qx := mkvars (va_v qx) (va_pi qx) (VECMUL nc (c_mask C0) 0 (va_lam qx) 0 (va_lam qx) 0) (va_t qx) in
  mkdqst (mkist x bkp w (i_mu i) mbk (i_max i)) qx (dqc_update_qp q (view qx) (y_a s)) (y_r s) (y_rw s) (y_max s).
(** lines 1623-1668 *)
Definition dqi_body (kk : Z) (s : dqst) : dqst :=
  let s := dqi_res (dqi_step kk s) in
  dqi_put (fun st => wstat_res C0 kk (y_max s) (y_r s) (wstat C0 kk 6 (dr_mu (y_r s)) st)) s.
(** lines 1608-1622 *)
Definition dqi_go (kk : Z) (s : dqst) : bool :=
  let '(a, b, c, _) := y_max s in let w := i_w (y_i s) in
  andb (Z.ltb kk (ai QA iter_max)) (andb (wk_ap w >? ar QA alpha_min) (andb (wk_ad w >? ar QA alpha_min)
    (orb (a >? ar QA res_g_max) (orb (b >? ar QA res_b_max) (orb (c >? ar QA res_d_max)
      (orb (VECNRM_INF nc (AXPY nc (- ar A tau_min) (c_mask C0) 0 (dr_m (y_r s)) 0 (fun _ => f0) 0) 0 >? ar QA res_m_max) (dr_gap (y_r s) >? ar QA dual_gap_max))))))).
(** absolute formulation: mu, lines 1520-1523, 1542-1545 (divided by nc, not by the number of unmasked constraints) *)
Definition dqi_absmu (x : vars F) (s : dqst) : dqst :=
  let i := y_i s in let w := i_w i in
  let m := VECMUL nc (va_lam x) 0 (va_t x) 0 (resm (wk_res w)) 0 in
  let w := mkwk (wk_stp w) (wk_itr w) (set_resm (wk_res w) m) (wk_rit w) (wk_rw w) (wk_ap w) (wk_ad w) (wk_muaff w) (wk_sig w) (wk_stat w) (wk_k w) in
  mkdqst (mkist (i_x i) (i_bkp i) w (DOT nc (va_lam x) 0 (va_t x) 0 / lit (Z.of_nat nc) 1) (i_mbk i) (i_max i)) (y_x s) (y_a s) (y_r s) (y_rw s) (y_max s).
(** lines 1533-1549 *)
Definition dqi_absbody (kk : Z) (s : dqst) : dqst :=
  let C := dqi_setqp C0 (da_qp (y_a s)) in let i := y_i s in let w := i_w i in
  let w := mkwk (wk_stp w) (wk_itr w) (set_resm (wk_res w) (AXPBY nc (- f1) (resm (wk_res w)) 0 (- lit 2 1) (d_m (da_qp (y_a s))) 0 (resm (wk_res w)) 0))
             (wk_rit w) (wk_rw w) (wk_ap w) (wk_ad w) (wk_muaff w) (wk_sig w) (wk_stat w) (wk_k w) in
  let mbk := copy_arr nc (resm (wk_res w)) (i_mbk i) in
  let w := abs_dir OP A C kk (i_x i) (i_mu i) mbk w in
  let '(x, bkp) := take_step A C (i_x i) (i_bkp i) w in
  let qx := dqi_conv q x (y_x s) in
  let s := mkdqst (mkist x bkp w (i_mu i) mbk (i_max i)) qx (dqc_update_qp_abs q (view qx) (y_a s)) (y_r s) (y_rw s) (y_max s) in
  let s := dqi_absmu qx s in
  dqi_put (wstat C0 kk 6 (i_mu (y_i s))) s.
(** lines 1525-1532 *)
Definition dqi_absgo (kk : Z) (s : dqst) : bool :=
  andb (Z.ltb kk (ai QA iter_max)) (andb (wk_ap (i_w (y_i s)) >? ar QA alpha_min) (andb (wk_ad (i_w (y_i s)) >? ar QA alpha_min)
    (fabs (i_mu (y_i s) - ar A tau_min) >? ar QA res_m_max))).
End Solve.
(** for(kk=0; go; kk++) body *)
Fixpoint dqi_for (go : Z -> dqst -> bool) (body : Z -> dqst -> dqst) (n : nat) (kk : Z) (s : dqst) : Z * dqst :=
  match n with O => (kk, s) | S n' => if go kk s then dqi_for go body n' (kk + 1)%Z (body kk s) else (kk, s) end.

Record dqout := mkdqout { yo_iter : Z; yo_status : status; yo_s : dqst }.
(** set_status, lines 1671-1708 *)
Definition dqi_finish (r : Z * dqst) : dqout :=
  let '(kk, s) := r in let w := i_w (y_i s) in
  mkdqout kk (final_status QA kk (wk_ap w) (wk_ad w) (i_mu (y_i s))) s.
(** lines 1401-1406, 1483-1485: initial iterate, its conversion, first approximation, step lengths (unlike in the OCP solver, the multipliers of the
    initial iterate are not masked) *)
Definition dqi_start (q : dqcqp F) (sol : vars F) (s : dqst) : dqst :=
  let qm := dqc_masked q in
  let x := flat (dqi_init qm (view sol)) in
  let i := y_i s in let w := i_w i in
  let w := mkwk (wk_stp w) (wk_itr w) (wk_res w) (wk_rit w) (wk_rw w) f1 f1 (wk_muaff w) (wk_sig w) (wk_stat w) (wk_k w) in
  mkdqst (mkist (dqi_conv q x (i_x i)) (i_bkp i) w (i_mu i) (i_mbk i) (i_max i)) x (dqc_approx_qp qm (view x) (y_a s)) (y_r s) (y_rw s) (f0, f0, f0, f0).
(** lines 1436-1480: no constraint.  The residuals use the values cached at the initial point. *)
Definition dqi_unc (q : dqcqp F) (C0 : ctx (F := F)) (s : dqst) : dqout :=
  let i := y_i s in let w := i_w i in
  let '(u, k) := op_unc K OP (wk_k w) (da_qp (y_a s)) (view (i_x i)) in
  let w := mkwk (wk_stp w) (wk_itr w) (wk_res w) (wk_rit w) (wk_rw w) (wk_ap w) (wk_ad w) (wk_muaff w) (wk_sig w) (wk_stat w) k in
  let x := flat u in
  let s := mkdqst (mkist x (i_bkp i) w (i_mu i) (i_mbk i) (i_max i)) (dqi_conv q x (y_x s)) (y_a s) (y_r s) (y_rw s) (y_max s) in
  let s := if negb (Z.eqb (ai A comp_res_exit) 0) then
      let '(r, rw) := dqc_res_compute (Some (da_fun (y_a s), da_adj (y_a s))) None q (view (y_x s)) (y_r s) (y_rw s) in
      let '(a, b, c, e) := dqc_inf_norm q r in
      let f st := if Z.ltb 0 (c_smax C0) then upd (upd (upd (upd (upd st 6 a) 7 b) 8 c) 9 e) 10 (dr_obj r) else st in
      mkdqst (mkist x (i_bkp i) (put_stat f w) (dr_mu r) (i_mbk i) (i_max i)) (y_x s) (y_a s) r rw (a, b, c, e)
    else s in
  mkdqout 0 (if isnan (va_v (y_x s) 0%nat) then NAN_SOL else SUCCESS) s.
(** lines 1580-1669 *)
Definition dqi_delta (q : dqcqp F) (C0 : ctx (F := F)) (s : dqst) : dqout :=
  let s := dqi_res q s in
  let s := dqi_put (wstat_res C0 (-1) (y_max s) (y_r s)) s in
  dqi_finish (dqi_for (dqi_go q C0) (dqi_body q C0) (Z.to_nat (ai QA iter_max)) 0 s).
(** lines 1497-1576 *)
Definition dqi_abs (q : dqcqp F) (C0 : ctx (F := F)) (s : dqst) : dqout :=
  let s := mkdqst (y_i s) (y_x s) (dqc_update_qp_abs q (view (y_x s)) (y_a s)) (y_r s) (y_rw s) (y_max s) in
  let s := dqi_absmu q (i_x (y_i s)) s in
  let '(kk, s) := dqi_for dqi_absgo (dqi_absbody q C0) (Z.to_nat (ai QA iter_max)) 0 s in
  let s := if negb (Z.eqb (ai A comp_res_exit) 0) then
      let '(r, rw) := dqc_res_compute (Some (da_fun (y_a s), da_adj (y_a s))) None q (view (y_x s)) (y_r s) (y_rw s) in
      let n := dqc_inf_norm q r in
      dqi_put (wstat_res C0 (kk - 1) n r) (mkdqst (y_i s) (y_x s) (y_a s) r rw n)
    else s in
  dqi_finish (kk, s).
(** lines 1287-1710 *)
Definition dqi_solve (lq smax : Z) (q : dqcqp F) (sol : vars F) (ws : dqst) : dqout :=
  let qm := dqc_masked q in
  let s := dqi_start q sol ws in
  let C0 := dqi_ctx lq smax q (da_qp (y_a s)) in
  let nc := dqi_nc q in
  if orb (Nat.eqb nc 0) (Nat.eqb (count_mask nc (c_mask C0)) 0) then dqi_unc qm C0 s
  else if negb (Z.eqb (ai A abs_form) 0) then dqi_abs qm C0 s else dqi_delta qm C0 s.
End Dqi.
