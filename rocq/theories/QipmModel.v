(** QipmModel.v -- the interior point solver of the OCP QCQP: OCP_QCQP_INIT_VAR and OCP_QCQP_IPM_SOLVE (ocp_qp/x_ocp_qcqp_ipm.c lines 882-1300 and
    1496-2033).  One iteration is OCP_QP_IPM_DELTA_STEP (or ABS_STEP) of the QP solver on the QP that linearises the QCQP (IpmModel.v), with the
    linear algebra a parameter.  The stage vectors are windows into whole arrays, as in IpmModel.v.
    Simplification: the linear residuals of the refinement use mask_constr = 1; the C code recomputes the flag from the masks at each call, which gives
    the same residuals when the masks are 0 or 1. *)
From Coq Require Import ZArith Bool Arith List.
From Verif Require Import Base ArithF Blas Blas2 OcpModel CoreModel ArgModel IpmModel QcqpModel.
Local Open Scope Z_scope.

Section Qipm.
Context {F : Type} {AF : Arith F}.
Local Open Scope F_scope.
Notation vec := (nat -> F).
(** [A] = qcqp_arg->qp_arg, [QA] = qcqp_arg itself *)
Context {K : Type} (OP : kops (F := F) K) (A QA : arg F).

(** the QCQP after lines 1696-1709 *)
Definition masked_qc (qc : oqcqp F) : oqcqp F :=
  mkqc (c_dim qc) (c_nq qc) (c_BAbt qc) (c_RSQ qc) (c_DCt qc) (c_Hq qc) (c_b qc) (c_rqz qc) (c_d qc) (mask_lower qc) (c_m qc) (c_Z qc) (c_idxb qc) (c_idxs_rev qc).
Definition qcD (qc : oqcqp F) : dims := qp_dims (c_dim qc) (c_nq qc).

(** *** OCP_QCQP_INIT_VAR *)
(** lines 1023-1078: box constraints.  AS WRITTEN (line 1027) the masks of the upper bounds are read at nb+ng, not at nb+ng+nq. *)
Definition qinit_box (mu0v : F) (nb ng nq : nat) (idxb : nat -> nat) (d mask : vec) (s : vec * vec * vec) : vec * vec * vec :=
  loop nb (fun jj '(ux, lam, t) =>
    let ju := (nb + ng + nq + jj)%nat in
    let lb := if mask jj =? f0 then ux (idxb jj) - f1 else d jj in
    let ub := if mask (nb + ng + jj)%nat =? f0 then - ux (idxb jj) - f1 else d ju in
    let t := upd t jj (- lb + ux (idxb jj)) in
    let t := upd t ju (- ub - ux (idxb jj)) in
    let '(ux, t) := fit_bound lb ub (idxb jj) jj ju (ux, t) in
    let lam := upd lam jj (mu0v / t jj) in
    (ux, upd lam ju (mu0v / t ju), t)) s.
(** lines 1079-1104: general constraints.  AS WRITTEN, d_lg_mask and d_ug_mask are uninitialised pointers (undefined behaviour if ng > 0); the model lets
    them point to arbitrary readable memory [lgm], [ugm]. *)
Definition qinit_gen (mu0v : F) (n nb ng nq : nat) (Ct : nat -> vec) (d lgm ugm ux : vec) (s : vec * vec) : vec * vec :=
  let '(lam, t) := s in
  let t := GEMV_T n ng f1 Ct 0 0 ux 0 f0 t nb t nb in
  loop ng (fun jj '(lam, t) =>
    let jl := (nb + jj)%nat in let ju := (2 * nb + ng + nq + jj)%nat in
    let t := upd t ju (- t jl) in
    let t := if negb (lgm jj =? f0) then upd t jl (t jl - d jl) else t in
    let t := if negb (ugm jj =? f0) then upd t ju (t ju - d ju) else t in
    let t := upd t jl (if thr0 >? t jl then thr0 else t jl) in
    let t := upd t ju (if thr0 >? t ju then thr0 else t ju) in
    let lam := upd lam jl (mu0v / t jl) in
    (upd lam ju (mu0v / t ju), t)) (lam, t).
(** lines 1106-1118: slacks; [o] = 2*nb+2*ng+2*nq *)
Definition qinit_soft (mu0v : F) (o ns : nat) (s : vec * vec) : vec * vec :=
  loop (2 * ns) (fun jj '(lam, t) => let t := upd t (o + jj)%nat f1 in (upd lam (o + jj)%nat (mu0v / t (o + jj)%nat), t)) s.
(** lines 1120-1154: quadratic constraints; [o] = nb+ng, [ou] = 2*nb+2*ng+nq *)
Definition qinit_quad (mu0v : F) (o ou nq : nat) (s : vec * vec) : vec * vec :=
  let sq := fsqrt mu0v in
  let sq := if thr0 >? sq then thr0 else sq in
  loop nq (fun jj '(lam, t) =>
    (upd (upd lam (o + jj)%nat f0) (ou + jj)%nat (mu0v / sq), upd (upd t (o + jj)%nat f1) (ou + jj)%nat sq)) s.
(** one stage, lines 911-1157.  AS WRITTEN (lines 997, 1011) t0_init 0 and 1 set only 2*nb+2*ng+2*ns entries of lam and t. *)
Definition qinit_stage (qc : oqcqp F) (lgm ugm : vec) (ii : nat) (s : vec * vec * vec) : vec * vec * vec :=
  let D := c_dim qc in
  let n := (dnu D ii + dnx D ii)%nat in let nb := dnb D ii in let ng := dng D ii in let nq := c_nq qc ii in let ns := dns D ii in
  let nc := (2 * nb + 2 * ng + 2 * nq + 2 * ns)%nat in
  let '(ux, lam, t) := s in
  if Z.leb 3 (ai QA warm_start) then let '(lam, t) := clip_lt nc (ar QA lam0_min) (ar QA t0_min) (lam, t) in (ux, lam, t)
  else if Z.eqb (ai QA warm_start) 2 then let '(lam, t) := clip_lt nc thr0 thr0 (lam, t) in (ux, lam, t)
  else
    let ux := if Z.eqb (ai QA warm_start) 0 then VECSE (n + 2 * ns) f0 ux 0 else ux in
    let n0 := (2 * nb + 2 * ng + 2 * ns)%nat in
    if Z.eqb (ai QA t0_init) 0 then (ux, VECSE n0 (fsqrt (ar QA mu0)) lam 0, VECSE n0 (fsqrt (ar QA mu0)) t 0)
    else if Z.eqb (ai QA t0_init) 1 then (ux, VECSE n0 (ar QA mu0) lam 0, VECSE n0 f1 t 0)
    else
      let '(ux, lam, t) := qinit_box (ar QA mu0) nb ng nq (c_idxb qc ii) (c_d qc ii) (c_mask qc ii) (ux, lam, t) in
      let '(lam, t) := qinit_gen (ar QA mu0) n nb ng nq (c_DCt qc ii) (c_d qc ii) lgm ugm ux (lam, t) in
      let '(lam, t) := qinit_soft (ar QA mu0) (2 * nb + 2 * ng + 2 * nq) ns (lam, t) in
      let '(lam, t) := qinit_quad (ar QA mu0) (nb + ng) (2 * nb + 2 * ng + nq) nq (lam, t) in
      (ux, lam, t).
(** the pointers are function-local: the same for every stage *)
Definition qinit_var (qc : oqcqp F) (lgm ugm : vec) (sol : osol F) : osol F :=
  let st ii := qinit_stage qc lgm ugm ii (s_ux sol ii, s_lam sol ii, s_t sol ii) in
  let pi ii := if Z.leb 2 (ai QA warm_start) then s_pi sol ii else VECSE (dnx (c_dim qc) (ii + 1)) f0 (s_pi sol ii) 0 in
  mksol (fun ii => fst (fst (st ii))) pi (fun ii => snd (fst (st ii))) (fun ii => snd (st ii)).

(** *** conversions *)
(** OCP_QCQP_SOL_CONV_QP_SOL / OCP_QP_SOL_CONV_QCQP_SOL, lines 1496-1556: stage by stage copies, i.e. the whole arrays *)
Definition conv_sol (D : dims) (src dst : vars F) : vars F := backup_var (tot_v D) (tot_e D) (tot_c D) src dst.
(** OCP_QCQP_RES_CONV_QP_RES, lines 1558-1589: residuals and mu; neither the norms nor the objective and gap *)
Definition conv_res (D : dims) (src dst : ores F) : ores F :=
  let cp n len (a b : nat -> vec) := loop n (fun ii v => upd v ii (VECCP (len ii) (a ii) 0 (b ii) 0)) b in
  mkres (cp (dN D + 1)%nat (nvt D) (r_g src) (r_g dst)) (cp (dN D) (npi D) (r_b src) (r_b dst)) (cp (dN D + 1)%nat (nct D) (r_d src) (r_d dst))
    (cp (dN D + 1)%nat (nct D) (r_m src) (r_m dst)) (r_obj dst) (r_gap dst) (r_mu src) (r_mu_sum dst).

(** *** OCP_QCQP_IPM_SOLVE *)
(** state: that of the QP solver (its res_max is never written: i_max is constant), qcqp_sol, the QP approximation with the cache, qcqp_res, its workspace, qcqp_res_max *)
Record qst := mkqst { qs_i : @ist F K; qs_x : vars F; qs_a : aws F; qs_r : ores F; qs_rw : qrws F; qs_max : F * F * F * F }.
Definition set_qp (C : ctx (F := F)) (qp : oqp F) : ctx (F := F) :=
  mkctx qp (IpmModel.c_mask C) (IpmModel.c_m C) (c_lq C) (c_smax C) (c_mzero C) (c_mc C) (c_inv C).
(** lines 1634-1638 (cws->m, with the masks of the caller), 1723-1748, 1791-1798; mask_constr = 1 always *)
Definition qctx (lq smax : Z) (qc : oqcqp F) (qp : oqp F) : ctx (F := F) :=
  let D := qcD qc in let nc := tot_c D in
  let mask := flatc D (q_mask qp) in
  let n := count_mask nc mask in
  mkctx qp mask (fun ii => flatc D (c_m qc) ii * flatc D (c_mask qc) ii) lq smax (VECNRM_INF nc (flatc D (q_m qp)) 0 =? f0) true (if Nat.eqb n 0 then f0 else inv_count n).

Section Solve.
Variables (qc : oqcqp F) (C0 : ctx (F := F)). (* qc: already masked *)
Let D := qcD qc.
Let nc := tot_c D.
(** OCP_QCQP_RES_COMPUTE with the cached values, norms, conversion to the QP's residuals: lines 1887-1900, 1959-1972 *)
Definition qcall_res (s : qst) : qst :=
  let '(r, rw) := qcres_compute (Some (a_fun (qs_a s), a_adj (qs_a s))) None qc (view D (qs_x s)) (qs_r s) (qs_rw s) in
  let i := qs_i s in let w := i_w i in
  let w := mkwk (wk_stp w) (wk_itr w) (conv_res D r (wk_res w)) (wk_rit w) (wk_rw w) (wk_ap w) (wk_ad w) (wk_muaff w) (wk_sig w) (wk_stat w) (wk_k w) in
  mkqst (mkist (i_x i) (i_bkp i) w (r_mu r) (i_mbk i) (i_max i)) (qs_x s) (qs_a s) r rw (qcres_inf_norm (c_dim qc) (c_nq qc) r).
Definition qput_stat (f : vec -> vec) (s : qst) : qst :=
  let i := qs_i s in mkqst (mkist (i_x i) (i_bkp i) (put_stat f (i_w i)) (i_mu i) (i_mbk i) (i_max i)) (qs_x s) (qs_a s) (qs_r s) (qs_rw s) (qs_max s).
(** lines 1938-1982: one iteration of the delta formulation *)
Definition qdelta_step (kk : Z) (s : qst) : qst :=
  let C := set_qp C0 (a_qp (qs_a s)) in let i := qs_i s in
  let mbk := copy_arr nc (resm C (wk_res (i_w i))) (i_mbk i) in
  let w := delta_dir OP A C kk (i_x i) (i_mu i) (i_max i) mbk (i_w i) in
  let '(x, bkp) := take_step A C (i_x i) (i_bkp i) w in
  let qx := conv_sol D x (qs_x s) in
  let qx := mkvars (va_v qx) (va_pi qx) (VECMUL nc (IpmModel.c_mask C0) 0 (va_lam qx) 0 (va_lam qx) 0) (va_t qx) in
  mkqst (mkist x bkp w (i_mu i) mbk (i_max i)) qx (update_qp qc (view D qx) (qs_a s)) (qs_r s) (qs_rw s) (qs_max s).
Definition qdelta_body (kk : Z) (s : qst) : qst :=
  let s := qcall_res (qdelta_step kk s) in
  qput_stat (fun st => wstat_res C0 kk (qs_max s) (qs_r s) (wstat C0 kk 6 (r_mu (qs_r s)) st)) s.
(** lines 1922-1931 *)
Definition qdelta_go (kk : Z) (s : qst) : bool :=
  let '(a, b, c, _) := qs_max s in let w := i_w (qs_i s) in
  andb (Z.ltb kk (ai QA iter_max)) (andb (wk_ap w >? ar QA alpha_min) (andb (wk_ad w >? ar QA alpha_min)
    (orb (a >? ar QA res_g_max) (orb (b >? ar QA res_b_max) (orb (c >? ar QA res_d_max)
      (orb (VECNRM_INF nc (AXPY nc (- ar A tau_min) (IpmModel.c_mask C0) 0 (flatc D (r_m (qs_r s))) 0 (fun _ => f0) 0) 0 >? ar QA res_m_max) (r_gap (qs_r s) >? ar QA dual_gap_max))))))).
(** absolute formulation: mu, lines 1824-1827, 1850-1854 *)
Definition qabs_mu (x : vars F) (s : qst) : qst :=
  let i := qs_i s in let w := i_w i in let C := set_qp C0 (a_qp (qs_a s)) in
  let m := VECMUL nc (va_lam x) 0 (va_t x) 0 (resm C (wk_res w)) 0 in
  let w := mkwk (wk_stp w) (wk_itr w) (set_resm C (wk_res w) m) (wk_rit w) (wk_rw w) (wk_ap w) (wk_ad w) (wk_muaff w) (wk_sig w) (wk_stat w) (wk_k w) in
  mkqst (mkist (i_x i) (i_bkp i) w (DOT nc (va_lam x) 0 (va_t x) 0 / lit (Z.of_nat nc) 1) (i_mbk i) (i_max i)) (qs_x s) (qs_a s) (qs_r s) (qs_rw s) (qs_max s).
(** lines 1838-1857 *)
Definition qabs_body (kk : Z) (s : qst) : qst :=
  let C := set_qp C0 (a_qp (qs_a s)) in let i := qs_i s in let w := i_w i in
  let w := mkwk (wk_stp w) (wk_itr w) (set_resm C (wk_res w) (AXPBY nc (- f1) (resm C (wk_res w)) 0 (- lit 2 1) (flatc D (q_m (a_qp (qs_a s)))) 0 (resm C (wk_res w)) 0))
             (wk_rit w) (wk_rw w) (wk_ap w) (wk_ad w) (wk_muaff w) (wk_sig w) (wk_stat w) (wk_k w) in
  let mbk := copy_arr nc (resm C (wk_res w)) (i_mbk i) in
  let w := abs_dir OP A C kk (i_x i) (i_mu i) mbk w in
  let '(x, bkp) := take_step A C (i_x i) (i_bkp i) w in
  let qx := conv_sol D x (qs_x s) in
  let s := mkqst (mkist x bkp w (i_mu i) mbk (i_max i)) qx (update_qp_abs qc (view D qx) (qs_a s)) (qs_r s) (qs_rw s) (qs_max s) in
  let s := qabs_mu qx s in
  qput_stat (wstat C0 kk 6 (i_mu (qs_i s))) s.
Definition qabs_go (kk : Z) (s : qst) : bool :=
  andb (Z.ltb kk (ai QA iter_max)) (andb (wk_ap (i_w (qs_i s)) >? ar QA alpha_min) (andb (wk_ad (i_w (qs_i s)) >? ar QA alpha_min)
    (fabs (i_mu (qs_i s) - ar A tau_min) >? ar QA res_m_max))).
End Solve.
Fixpoint qfor (go : Z -> qst -> bool) (body : Z -> qst -> qst) (n : nat) (kk : Z) (s : qst) : Z * qst :=
  match n with O => (kk, s) | S n' => if go kk s then qfor go body n' (kk + 1)%Z (body kk s) else (kk, s) end.

Record qout := mkqout { qo_iter : Z; qo_status : status; qo_s : qst }.
(** set_status, lines 1992-2031 *)
Definition qfinish (r : Z * qst) : qout :=
  let '(kk, s) := r in let w := i_w (qs_i s) in
  mkqout kk (final_status QA kk (wk_ap w) (wk_ad w) (i_mu (qs_i s))) s.
(** lines 1712-1717, 1785-1787: initial iterate, its conversion, first approximation, step lengths *)
Definition qstart (qc : oqcqp F) (lgm ugm : vec) (sol : vars F) (s : qst) : qst :=
  let qm := masked_qc qc in let D := qcD qc in let nc := tot_c D in
  let x := flat D (qinit_var qm lgm ugm (view D sol)) in
  let x := mkvars (va_v x) (va_pi x) (VECMUL nc (flatc D (c_mask qm)) 0 (va_lam x) 0 (va_lam x) 0) (va_t x) in
  let i := qs_i s in let w := i_w i in
  let w := mkwk (wk_stp w) (wk_itr w) (wk_res w) (wk_rit w) (wk_rw w) f1 f1 (wk_muaff w) (wk_sig w) (wk_stat w) (wk_k w) in
  mkqst (mkist (conv_sol D x (i_x i)) (i_bkp i) w (i_mu i) (i_mbk i) (i_max i)) x (approx_qp qm (view D x) (qs_a s)) (qs_r s) (qs_rw s) (f0, f0, f0, f0).
(** lines 1751-1787: no constraint *)
Definition qsolve_unc (qc : oqcqp F) (C0 : ctx (F := F)) (s : qst) : qout :=
  let D := qcD qc in let i := qs_i s in let w := i_w i in
  let '(u, k) := op_unc K OP (wk_k w) (a_qp (qs_a s)) (view D (i_x i)) in
  let w := mkwk (wk_stp w) (wk_itr w) (wk_res w) (wk_rit w) (wk_rw w) (wk_ap w) (wk_ad w) (wk_muaff w) (wk_sig w) (wk_stat w) k in
  let x := flat D u in
  let s := mkqst (mkist x (i_bkp i) w (i_mu i) (i_mbk i) (i_max i)) (conv_sol D x (qs_x s)) (qs_a s) (qs_r s) (qs_rw s) (qs_max s) in
  let s := if negb (Z.eqb (ai A comp_res_exit) 0) then
      let '(r, rw) := qcres_compute (Some (a_fun (qs_a s), a_adj (qs_a s))) None qc (view D (qs_x s)) (qs_r s) (qs_rw s) in
      let '(a, b, c, e) := qcres_inf_norm (c_dim qc) (c_nq qc) r in
      let f st := if Z.ltb 0 (c_smax C0) then upd (upd (upd (upd (upd (upd st 6 a) 7 b) 8 c) 9 e) 10 (r_gap r)) 11 (r_obj r) else st in
      mkqst (mkist x (i_bkp i) (put_stat f w) (r_mu r) (i_mbk i) (i_max i)) (qs_x s) (qs_a s) r rw (a, b, c, e)
    else s in
  mkqout 0 (if isnan (s_ux (view D (qs_x s)) 0%nat 0%nat) then NAN_SOL else SUCCESS) s.
Definition qsolve_delta (qc : oqcqp F) (C0 : ctx (F := F)) (s : qst) : qout :=
  let s := qcall_res qc s in
  let s := qput_stat (wstat_res C0 (-1) (qs_max s) (qs_r s)) s in
  qfinish (qfor (qdelta_go qc C0) (qdelta_body qc C0) (Z.to_nat (ai QA iter_max)) 0 s).
Definition qsolve_abs (qc : oqcqp F) (C0 : ctx (F := F)) (s : qst) : qout :=
  let D := qcD qc in
  let s := mkqst (qs_i s) (qs_x s) (update_qp_abs qc (view D (qs_x s)) (qs_a s)) (qs_r s) (qs_rw s) (qs_max s) in
  let s := qabs_mu qc C0 (i_x (qs_i s)) s in
  let '(kk, s) := qfor qabs_go (qabs_body qc C0) (Z.to_nat (ai QA iter_max)) 0 s in
  let s := if andb (negb (Z.eqb (ai A comp_res_exit) 0)) (negb (Z.eqb (ai A comp_dual_sol_eq) 0)) then
      let '(r, rw) := qcres_compute (Some (a_fun (qs_a s), a_adj (qs_a s))) None qc (view D (qs_x s)) (qs_r s) (qs_rw s) in
      let q := qcres_inf_norm (c_dim qc) (c_nq qc) r in
      qput_stat (wstat_res C0 (kk - 1) q r) (mkqst (qs_i s) (qs_x s) (qs_a s) r rw q)
    else s in
  qfinish (kk, s).
Definition qipm_solve (lq smax : Z) (qc : oqcqp F) (lgm ugm : vec) (sol : vars F) (ws : qst) : qout :=
  let qm := masked_qc qc in
  let s := qstart qc lgm ugm sol ws in
  let C0 := qctx lq smax qc (a_qp (qs_a s)) in
  let nc := tot_c (qcD qc) in
  if orb (Nat.eqb nc 0) (Nat.eqb (count_mask nc (IpmModel.c_mask C0)) 0) then qsolve_unc qm C0 s
  else if negb (Z.eqb (ai A abs_form) 0) then qsolve_abs qm C0 s else qsolve_delta qm C0 s.
End Qipm.
