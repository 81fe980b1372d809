(** SolverModel.v -- the OCP QP solver object (interfaces/c/x_ocp_qp_solver.c): arguments, workspace, solve and forward sensitivities, with the
    optional removal of the variables fixed by equality bounds (ocp_qp/x_ocp_qp_red.c). *)
From Coq Require Import ZArith Bool Arith List String.
From Verif Require Import Base ArithF Blas OcpModel CoreModel AuxModel ArgModel IpmModel RedModel KktModel SolveModel SensModel.
Import ListNotations.

Section Solver.
Context {F : Type} {AF : Arith F}.
Notation vec := (nat -> F).

(** ** struct OCP_QP_REDUCE_EQ_DOF_ARG (include/hpipm_d_ocp_qp_red.h), x_ocp_qp_red.c lines 75-165 *)
Record redarg := mkra { ra_lmin : F; ra_tmin : F; ra_alias : Z; ra_prim : Z; ra_deq : Z; ra_dineq : Z }.
(** OCP_QP_REDUCE_EQ_DOF_ARG_SET_DEFAULT, lines 96-108 *)
Definition red_default (a : redarg) : redarg := mkra (lit 1 (10^16)) (lit 1 (10^16)) 0 1 1 1.
(** lines 112-120, 123-131, 134-142, 145-153 *)
Definition red_set_alias (v : Z) (a : redarg) : redarg := mkra (ra_lmin a) (ra_tmin a) v (ra_prim a) (ra_deq a) (ra_dineq a).
Definition red_set_prim (v : Z) (a : redarg) : redarg := mkra (ra_lmin a) (ra_tmin a) (ra_alias a) v (ra_deq a) (ra_dineq a).
Definition red_set_deq (v : Z) (a : redarg) : redarg := mkra (ra_lmin a) (ra_tmin a) (ra_alias a) (ra_prim a) v (ra_dineq a).
Definition red_set_dineq (v : Z) (a : redarg) : redarg := mkra (ra_lmin a) (ra_tmin a) (ra_alias a) (ra_prim a) (ra_deq a) v.
(** OCP_QP_REDUCE_EQ_DOF_ARG_DEEPCOPY, lines 156-166: every member *)
Definition red_deepcopy (s d : redarg) : redarg := mkra (ra_lmin s) (ra_tmin s) (ra_alias s) (ra_prim s) (ra_deq s) (ra_dineq s).

(** ** struct OCP_QP_SOLVER_ARG (include/hpipm_d_ocp_qp_solver.h): ipm_arg, red_arg, red_dim, reduce_eq_dof, valid_red_dim *)
Record sarg := mksa { sa_ipm : arg F; sa_red : redarg; sa_dim : dims; sa_reduce : Z; sa_valid : Z }.
(** OCP_QP_SOLVER_ARG_CREATE, lines 71-112, on zeroed memory: every member 0, red_dim created with N only *)
Definition zero_arg : arg F := mkarg (fun _ => f0) (fun _ => 0%Z).
Definition zero_dim (N : nat) : dims := mkdims N (fun _ => 0%nat) (fun _ => 0%nat) (fun _ => 0%nat) (fun _ => 0%nat) (fun _ => 0%nat).
Definition sarg_create (N : nat) : sarg := mksa zero_arg (mkra f0 f0 0 0 0 0) (zero_dim N) 0 0.
(** OCP_QP_SOLVER_ARG_SET_DEFAULT, lines 116-124 *)
Definition sarg_default (m : hmode) (a : sarg) : sarg :=
  mksa (arg_set_default m (sa_ipm a)) (red_set_alias 1 (red_default (sa_red a))) (sa_dim a) 0 (sa_valid a).
(** OCP_QP_SOLVER_ARG_SET, lines 128-148 *)
Definition sarg_set (field : string) (vr : F) (vi : Z) (a : sarg) : outcome sarg :=
  if hpipm_strcmp field "reduce_eq_dof" then Ok (mksa (sa_ipm a) (sa_red a) (sa_dim a) vi (sa_valid a))
  else match arg_set field vr vi (sa_ipm a) with Ok i => Ok (mksa i (sa_red a) (sa_dim a) (sa_reduce a) (sa_valid a)) | Exit => Exit | UB => UB end.
(** OCP_QP_SOLVER_ARG_DEEPCOPY, lines 152-162 (valid_red_dim is not copied) *)
Definition sarg_deepcopy (s d : sarg) : sarg :=
  mksa (arg_deepcopy (sa_ipm s) (sa_ipm d)) (red_deepcopy (sa_red s) (sa_red d)) (if Z.eqb (sa_valid s) 0 then sa_dim d else sa_dim s) (sa_reduce s) (sa_valid d).
(** OCP_QP_SOLVER_WS_MEMSIZE, lines 187-193: the reduced dimensions are computed on the first call with
    [arg->reduce_eq_dof & arg->valid_red_dim==0] (bitwise "and" of the flag with a comparison) *)
Definition sarg_memsize (D : dims) (e : eqd) (a : sarg) : sarg :=
  if negb (Z.eqb (Z.land (sa_reduce a) (if Z.eqb (sa_valid a) 0 then 1 else 0)) 0) then mksa (sa_ipm a) (sa_red a) (dim_reduce D e) (sa_reduce a) 1 else a.

(** ** struct OCP_QP_SOLVER_WS: its arguments, the cached lq_fact and stat_max of the IPM workspace, the contents of the IPM workspace [K],
    the workspace of the reduction, the reduced QP, its solution *)
Context {K : Type}.
Record sws := mksws { w_arg : sarg; w_lq : Z; w_smax : Z; w_ipm : @ist F K; w_rw : @rwork F; w_rqp : oqp F; w_rsol : vars F }.
Definition zero_qp (D : dims) : oqp F :=
  mkqp D (fun _ _ _ => f0) (fun _ _ _ => f0) (fun _ _ _ => f0) (fun _ _ => f0) (fun _ _ => f0) (fun _ _ => f0) (fun _ _ => f1) (fun _ _ => f0) (fun _ _ => f0) (fun _ _ => 0%nat) (fun _ _ => (-1)%Z).
Definition zero_vars : vars F := mkvars (fun _ => f0) (fun _ => f0) (fun _ => f0) (fun _ => f0).
(** OCP_QP_SOLVER_WS_CREATE, lines 230-324: (arguments after the call, workspace); ist0 = the IPM workspace as its own create leaves it.
    Simplification: without reduce_eq_dof the members red_... are not created; here they hold unused values. *)
Definition solver_create (D : dims) (e : eqd) (ist0 : @ist F K) (a : sarg) : sarg * sws :=
  let a := sarg_memsize D e a in
  (a, mksws (sarg_deepcopy a (sarg_create (dN D))) (ai (sa_ipm a) lq_fact) (ai (sa_ipm a) stat_max) ist0
        (mkrw (fun _ => f0) (fun _ => f0) (fun _ => f0) (fun _ => false) (fun _ => false)) (zero_qp (sa_dim a)) zero_vars).

(** OCP_QP_SOLVER_SET, lines 329-392 and setters 396-496: the names accepted after creation *)
Definition solver_set_name (field : string) : option setter :=
  let is := hpipm_strcmp field in
  if is "iter_max"%string then Some S_iter_max else if is "alpha_min"%string then Some S_alpha_min else if is "mu0"%string then Some S_mu0
  else if is "tol_stat"%string then Some S_tol_stat else if is "tol_eq"%string then Some S_tol_eq else if is "tol_ineq"%string then Some S_tol_ineq
  else if is "tol_comp"%string then Some S_tol_comp else if is "pred_corr"%string then Some S_pred_corr else if is "split_step"%string then Some S_split_step
  else if is "reg_prim"%string then Some S_reg_prim else if is "t0_init"%string then Some S_t0_init else if is "tau_min"%string then Some S_tau_min
  else if is "m_safe"%string then Some S_m_safe else None.
Definition w_setarg (a : sarg) (w : sws) : sws := mksws a (w_lq w) (w_smax w) (w_ipm w) (w_rw w) (w_rqp w) (w_rsol w).
Definition solver_set (field : string) (vr : F) (vi : Z) (w : sws) : outcome sws :=
  match solver_set_name field with
  | Some s => let a := w_arg w in Ok (w_setarg (mksa (arg_setter s vr vi (sa_ipm a)) (sa_red a) (sa_dim a) (sa_reduce a) (sa_valid a)) w)
  | None => Exit end.

(** OCP_QP_IPM_GET, x_ocp_qp_ipm.c lines 1261-1398, and OCP_QP_SOLVER_GET, x_ocp_qp_solver.c lines 500-562: what a name returns *)
Inductive getter := Q_status | Q_iter | Q_res_stat | Q_res_eq | Q_res_ineq | Q_res_comp | Q_gap | Q_obj | Q_tau | Q_stat | Q_stat_m | Q_reduce.
Definition ipm_get_name (field : string) : option getter :=
  let is := hpipm_strcmp field in
  if is "status"%string then Some Q_status else if is "iter"%string then Some Q_iter else if is "max_res_stat"%string then Some Q_res_stat
  else if is "max_res_eq"%string then Some Q_res_eq else if is "max_res_ineq"%string then Some Q_res_ineq else if is "max_res_comp"%string then Some Q_res_comp
  else if is "dual_gap"%string then Some Q_gap else if is "obj"%string then Some Q_obj else if is "tau_iter"%string then Some Q_tau
  else if is "stat"%string then Some Q_stat else if is "stat_m"%string then Some Q_stat_m else None.
Definition solver_get_name (field : string) : option getter :=
  let is := hpipm_strcmp field in
  if is "status"%string then Some Q_status else if is "iter"%string then Some Q_iter else if is "stat_m"%string then Some Q_stat_m
  else if is "stat"%string then Some Q_stat else if is "reduce_eq_dof"%string then Some Q_reduce else ipm_get_name field.
(** include/hpipm_common.h lines 57-64: enum hpipm_status *)
Definition status_z (s : status) : Z := match s with SUCCESS => 0 | MAX_ITER => 1 | MIN_STEP => 2 | NAN_SOL => 3 | INCONS_EQ => 4 end.
(** the value: an int, a REAL or the statistics array; [tau] = cws->tau_iter (not part of the model of the solve) *)
Inductive gval := Vz (v : Z) | Vr (v : F) | Va (v : nat -> F).
Definition solver_get (field : string) (w : sws) (o : @out F K) (tau : F) : outcome gval :=
  let '(a, b, c, d) := o_max o in
  match solver_get_name field with
  | Some Q_status => Ok (Vz (status_z (o_status o))) | Some Q_iter => Ok (Vz (o_iter o))
  | Some Q_res_stat => Ok (Vr a) | Some Q_res_eq => Ok (Vr b) | Some Q_res_ineq => Ok (Vr c) | Some Q_res_comp => Ok (Vr d)
  | Some Q_gap => Ok (Vr (r_gap (wk_res (o_w o)))) | Some Q_obj => Ok (Vr (r_obj (wk_res (o_w o)))) | Some Q_tau => Ok (Vr tau)
  | Some Q_stat => Ok (Va (wk_stat (o_w o))) | Some Q_stat_m => Ok (Vz 21) | Some Q_reduce => Ok (Vz (sa_reduce (w_arg w))) | None => Exit end.

(** ** OCP_QP_SOLVER_SOLVE, lines 566-579.  [sol]: the user's solution struct before the call; result: (solution struct, IPM outcome, workspace).
    [ist']: contents of the IPM workspace after the call (its effect on later calls is covered by quantifying over it). *)
Variable OP : kops (F := F) K.
Definition zb (z : Z) : bool := negb (Z.eqb z 0).
Definition solver_solve (qp : oqp F) (e : eqd) (sol : vars F) (ist' : @ist F K) (w : sws) : vars F * @out F K * sws :=
  let a := w_arg w in let D := q_dim qp in
  if zb (sa_reduce a) then
    let '(r, rw) := reduce_eq_dof (zb (ra_alias (sa_red a))) qp e (w_rqp w, w_rw w) in
    let o := ipm_solve OP (sa_ipm a) (w_lq w) (w_smax w) r (w_rsol w) (w_ipm w) in
    let Dr := q_dim r in
    let '(s, rw) := restore_eq_dof (zb (ra_prim (sa_red a))) (zb (ra_dineq (sa_red a))) (zb (ra_deq (sa_red a))) (ra_lmin (sa_red a)) (ra_tmin (sa_red a)) qp Dr e (view Dr (o_x o)) (view D sol, rw) in
    (flat D s, o, mksws a (w_lq w) (w_smax w) ist' rw r (o_x o))
  else
    let o := ipm_solve OP (sa_ipm a) (w_lq w) (w_smax w) qp sol (w_ipm w) in
    (o_x o, o, mksws a (w_lq w) (w_smax w) ist' (w_rw w) (w_rqp w) (w_rsol w)).

(** ** OCP_QP_REDUCE_EQ_DOF_SEED, x_ocp_qp_red.c lines 735-844: the statements of OCP_QP_REDUCE_EQ_DOF_RHS with the members of qp_seed in place
    of rqz, b, d, m of the QP (the masks are not copied; the matrices are those of the QP) *)
Definition reduce_seed (qp : oqp F) (e : eqd) (Dr : dims) (sd : seed F) (s : seed F * @rwork F) : seed F * @rwork F :=
  let '(sr, w) := s in
  let z := zero_qp Dr in
  let r0 := mkqp Dr (q_BAbt z) (q_RSQ z) (q_DCt z) (sd_b sr) (sd_g sr) (sd_d sr) (q_mask z) (sd_m sr) (q_Z z) (q_idxb z) (q_idxs_rev z) in
  let '(r, w) := reduce_rhs (seed_qp qp sd) e (r0, w) in
  (mkseed (q_rqz r) (q_b r) (q_d r) (q_m r), w).
(** OCP_QP_RESTORE_EQ_DOF_SEED, lines 998-1144: the statements of OCP_QP_RESTORE_EQ_DOF with seed_g, seed_d in place of rqz, d of the QP *)
Definition restore_seed (pr du dq : bool) (lmin tmin : F) (qp : oqp F) (sd : seed F) (Dr : dims) (e : eqd) (r : osol F) (s : osol F * @rwork F) : osol F * @rwork F :=
  restore_eq_dof pr du dq lmin tmin (seed_qp qp sd) Dr e r s.
(** OCP_QP_SOLVER_SENS_FRW with reduce_eq_dof, lines 583-591: [r] = ws->red_qp, [frw] = OCP_QP_IPM_SENS_FRW on the reduced QP *)
Definition solver_sens (ra : redarg) (qp : oqp F) (e : eqd) (r : oqp F) (sd sr : seed F) (frw : seed F -> osol F) (out : osol F) (w : @rwork F) : osol F * @rwork F :=
  let '(sr, w) := reduce_seed qp e (q_dim r) sd (sr, w) in
  restore_seed (zb (ra_prim ra)) (zb (ra_dineq ra)) (zb (ra_deq ra)) (ra_lmin ra) (ra_tmin ra) qp sd (q_dim r) e (frw sr) (out, w).
End Solver.
Arguments redarg F : clear implicits.
Arguments sarg F : clear implicits.
Arguments sws F K : clear implicits.
