(** ArgModel.v -- the solver arguments of the OCP QP interior point method: presets, setters, getters, deep copy
    (ocp_qp/x_ocp_qp_ipm.c lines 69-684; include/hpipm_d_ocp_qp_ipm.h lines 59-98). *)
From Coq Require Import ZArith Bool Arith List String.
From Verif Require Import Base ArithF AuxModel.
Import ListNotations.
Local Open Scope Z_scope.

(** The REAL-valued members of struct OCP_QP_IPM_ARG ... *)
Inductive rarg := mu0 | alpha_min | res_g_max | res_b_max | res_d_max | res_m_max | dual_gap_max | reg_prim | lam_min | t_min | tau_min | lam0_min | t0_min | m_safe.
(** ... and the integer-valued ones (the pointer dim and memsize are not arguments and are not modelled). *)
Inductive iarg := iter_max | stat_max | pred_corr | cond_pred_corr | itref_pred_max | itref_corr_max | warm_start | square_root_alg | lq_fact | abs_form
  | comp_dual_sol_eq | comp_res_exit | comp_res_pred | split_step | var_init_scheme | t_lam_min | t0_init | update_fact_exit | amode.
Definition rarg_eqb (a b : rarg) : bool := match a, b with
  | mu0, mu0 | alpha_min, alpha_min | res_g_max, res_g_max | res_b_max, res_b_max | res_d_max, res_d_max | res_m_max, res_m_max | dual_gap_max, dual_gap_max
  | reg_prim, reg_prim | lam_min, lam_min | t_min, t_min | tau_min, tau_min | lam0_min, lam0_min | t0_min, t0_min | m_safe, m_safe => true | _, _ => false end.
Definition iarg_eqb (a b : iarg) : bool := match a, b with
  | iter_max, iter_max | stat_max, stat_max | pred_corr, pred_corr | cond_pred_corr, cond_pred_corr | itref_pred_max, itref_pred_max | itref_corr_max, itref_corr_max
  | warm_start, warm_start | square_root_alg, square_root_alg | lq_fact, lq_fact | abs_form, abs_form | comp_dual_sol_eq, comp_dual_sol_eq
  | comp_res_exit, comp_res_exit | comp_res_pred, comp_res_pred | split_step, split_step | var_init_scheme, var_init_scheme | t_lam_min, t_lam_min
  | t0_init, t0_init | update_fact_exit, update_fact_exit | amode, amode => true | _, _ => false end.
(** include/hpipm_common.h 55-60: enum HPIPM_MODE *)
Inductive hmode := SPEED_ABS | SPEED | BALANCE | ROBUST.
Definition mode_z (m : hmode) : Z := match m with SPEED_ABS => 0 | SPEED => 1 | BALANCE => 2 | ROBUST => 3 end.

Section Arg.
Context {F : Type} {AF : Arith F}.
Record arg := mkarg { ar : rarg -> F; ai : iarg -> Z }.
Definition wr (f : rarg) (v : F) (a : arg) : arg := mkarg (fun g => if rarg_eqb g f then v else ar a g) (ai a).
Definition wi (f : iarg) (v : Z) (a : arg) : arg := mkarg (ar a) (fun g => if iarg_eqb g f then v else ai a g).

(** The setters of the API (OCP_QP_IPM_ARG_SET_xxx, lines 386-600): the member each one writes. *)
Inductive setter := S_iter_max | S_alpha_min | S_mu0 | S_tol_stat | S_tol_eq | S_tol_ineq | S_tol_comp | S_tol_dual_gap | S_reg_prim | S_warm_start
  | S_pred_corr | S_cond_pred_corr | S_ric_alg | S_comp_dual_sol_eq | S_comp_res_exit | S_comp_res_pred | S_lam_min | S_t_min | S_tau_min | S_lam0_min
  | S_t0_min | S_split_step | S_m_safe | S_var_init_scheme | S_t_lam_min | S_t0_init | S_update_fact_exit.
(** The value pointer is a void pointer in OCP_QP_IPM_ARG_SET: the setter reads it as a REAL or as an int; here the caller supplies both
    readings and the setter uses the one it is declared with. *)
Definition arg_setter (s : setter) (vr : F) (vi : Z) (a : arg) : arg :=
  match s with
  | S_iter_max => wi iter_max vi a (* 386-390 *)
  | S_alpha_min => wr alpha_min vr a (* 394-398 *)
  | S_mu0 => wr mu0 vr a (* 402-406 *)
  | S_tol_stat => wr res_g_max vr a (* 410-414 *)
  | S_tol_eq => wr res_b_max vr a (* 418-422 *)
  | S_tol_ineq => wr res_d_max vr a (* 426-430 *)
  | S_tol_comp => wr res_m_max vr a (* 434-438 *)
  | S_tol_dual_gap => wr dual_gap_max vr a (* 442-446 *)
  | S_reg_prim => wr reg_prim vr a (* 450-454 *)
  | S_warm_start => wi warm_start vi a (* 458-462 *)
  | S_pred_corr => wi pred_corr vi a (* 466-470 *)
  | S_cond_pred_corr => wi cond_pred_corr vi a (* 474-478 *)
  | S_ric_alg => wi square_root_alg vi a (* 482-486 *)
  | S_comp_dual_sol_eq => wi comp_dual_sol_eq vi a (* 490-494 *)
  | S_comp_res_exit => let a := wi comp_res_exit vi a in if negb (vi =? 0)%Z then wi comp_dual_sol_eq 1 a else a (* 498-504 *)
  | S_comp_res_pred => wi comp_res_pred vi a (* 508-512 *)
  | S_lam_min => wr lam_min vr a (* 516-520 *)
  | S_t_min => wr t_min vr a (* 524-528 *)
  | S_tau_min => wr tau_min vr a (* 532-536 *)
  | S_lam0_min => wr lam0_min vr a (* 540-544 *)
  | S_t0_min => wr t0_min vr a (* 548-552 *)
  | S_split_step => wi split_step vi a (* 556-560 *)
  | S_m_safe => wr m_safe vr a (* 564-568 *)
  | S_var_init_scheme => wi var_init_scheme vi a (* 572-576 *)
  | S_t_lam_min => wi t_lam_min vi a (* 580-584 *)
  | S_t0_init => wi t0_init vi a (* 588-592 *)
  | S_update_fact_exit => wi update_fact_exit vi a (* 596-600 *)
  end.

(** The locals chosen by OCP_QP_IPM_ARG_SET_DEFAULT for each mode (lines 75-214). *)
Definition dflt_r (m : hmode) (f : rarg) : F :=
  match f with
  | mu0 => match m with SPEED_ABS | SPEED | BALANCE => lit 10 1 | ROBUST => lit 100 1 end
  | alpha_min => lit 1 (10^12)
  | res_g_max => match m with SPEED_ABS => lit 1 1 | _ => lit 1 (10^6) end
  | res_b_max => match m with SPEED_ABS => lit 1 1 | _ => lit 1 (10^8) end
  | res_d_max => match m with SPEED_ABS => lit 1 1 | _ => lit 1 (10^8) end
  | res_m_max => lit 1 (10^8)
  | dual_gap_max => lit (10^15) 1
  | reg_prim => lit 1 (10^15)
  | lam_min => lit 1 (10^16) | t_min => lit 1 (10^16) | tau_min => lit 1 (10^16)
  | lam0_min => lit 1 (10^9) | t0_min => lit 1 (10^9)
  | m_safe => match m with SPEED_ABS | SPEED => lit 3 10 | BALANCE | ROBUST => lit 1 2 end
  end.
Definition dflt_i (m : hmode) (f : iarg) : Z :=
  match f with
  | iter_max | stat_max => match m with SPEED_ABS | SPEED => 15 | BALANCE => 30 | ROBUST => 100 end
  | pred_corr => 1 | cond_pred_corr => 1 | itref_pred_max => 0
  | itref_corr_max => match m with SPEED_ABS | SPEED => 0 | BALANCE => 2 | ROBUST => 8 end
  | square_root_alg => 1
  | lq_fact => match m with SPEED_ABS | SPEED => 0 | BALANCE => 1 | ROBUST => 2 end
  | warm_start => 0
  | abs_form => match m with SPEED_ABS => 1 | _ => 0 end
  | comp_dual_sol_eq | comp_res_exit | comp_res_pred => match m with SPEED_ABS => 0 | _ => 1 end
  | split_step => match m with SPEED_ABS | SPEED => 1 | BALANCE | ROBUST => 0 end
  | var_init_scheme => 0 | t_lam_min => 2 | t0_init => 2 | update_fact_exit => 1 | amode => mode_z m
  end.
(** Lines 224-256: the calls made, in order (note that COMP_RES_EXIT is called with comp_res_pred, line 249). *)
Definition arg_set_default (m : hmode) (a : arg) : arg :=
  let r s f a := arg_setter s (dflt_r m f) 0 a in
  let i s f a := arg_setter s f0 (dflt_i m f) a in
  let a := r S_mu0 mu0 a in
  let a := r S_alpha_min alpha_min a in
  let a := r S_tol_stat res_g_max a in
  let a := r S_tol_eq res_b_max a in
  let a := r S_tol_ineq res_d_max a in
  let a := r S_tol_comp res_m_max a in
  let a := r S_tol_dual_gap dual_gap_max a in
  let a := i S_iter_max iter_max a in
  let a := wi stat_max (dflt_i m stat_max) a in
  let a := i S_pred_corr pred_corr a in
  let a := i S_cond_pred_corr cond_pred_corr a in
  let a := i S_ric_alg square_root_alg a in
  let a := wi itref_pred_max (dflt_i m itref_pred_max) a in
  let a := wi itref_corr_max (dflt_i m itref_corr_max) a in
  let a := r S_reg_prim reg_prim a in
  let a := wi lq_fact (dflt_i m lq_fact) a in
  let a := r S_lam_min lam_min a in
  let a := r S_t_min t_min a in
  let a := r S_tau_min tau_min a in
  let a := r S_lam0_min lam0_min a in
  let a := r S_t0_min t0_min a in
  let a := i S_warm_start warm_start a in
  let a := wi abs_form (dflt_i m abs_form) a in
  let a := i S_comp_dual_sol_eq comp_dual_sol_eq a in
  let a := i S_comp_res_pred comp_res_pred a in
  let a := i S_comp_res_exit comp_res_pred a in
  let a := i S_split_step split_step a in
  let a := r S_m_safe m_safe a in
  let a := i S_var_init_scheme var_init_scheme a in
  let a := i S_t_lam_min t_lam_min a in
  let a := i S_t0_init t0_init a in
  let a := i S_update_fact_exit update_fact_exit a in
  wi amode (mode_z m) a.

(** OCP_QP_IPM_ARG_SET, lines 264-382: the name dispatch. *)
Definition arg_set_name (field : string) : option setter :=
  let is := hpipm_strcmp field in
  if is "iter_max"%string then Some S_iter_max else if is "alpha_min"%string then Some S_alpha_min else if is "mu0"%string then Some S_mu0
  else if is "tol_stat"%string then Some S_tol_stat else if is "tol_eq"%string then Some S_tol_eq else if is "tol_ineq"%string then Some S_tol_ineq
  else if is "tol_comp"%string then Some S_tol_comp else if is "tol_dual_gap"%string then Some S_tol_dual_gap else if is "reg_prim"%string then Some S_reg_prim
  else if is "warm_start"%string then Some S_warm_start else if is "pred_corr"%string then Some S_pred_corr
  else if is "cond_pred_corr"%string then Some S_cond_pred_corr else if is "ric_alg"%string then Some S_ric_alg
  else if is "comp_dual_sol_eq"%string then Some S_comp_dual_sol_eq else if is "comp_res_exit"%string then Some S_comp_res_exit
  else if is "comp_res_pred"%string then Some S_comp_res_pred else if is "lam_min"%string then Some S_lam_min else if is "t_min"%string then Some S_t_min
  else if is "tau_min"%string then Some S_tau_min else if is "lam0_min"%string then Some S_lam0_min else if is "t0_min"%string then Some S_t0_min
  else if is "split_step"%string then Some S_split_step else if is "m_safe"%string then Some S_m_safe
  else if is "var_init_scheme"%string then Some S_var_init_scheme else if is "t_lam_min"%string then Some S_t_lam_min
  else if is "t0_init"%string then Some S_t0_init else if is "update_fact_exit"%string then Some S_update_fact_exit else None.
Definition arg_set (field : string) (vr : F) (vi : Z) (a : arg) : outcome arg :=
  match arg_set_name field with Some s => Ok (arg_setter s vr vi a) | None => Exit end.

(** OCP_QP_IPM_ARG_GET, lines 604-638 *)
Definition arg_get (field : string) (a : arg) : outcome F :=
  if hpipm_strcmp field "lam0_min" then Ok (ar a lam0_min) else if hpipm_strcmp field "t0_min" then Ok (ar a t0_min) else Exit.

(** OCP_QP_IPM_ARG_DEEPCOPY, lines 642-679: the assignments in order (arg_s to arg_d). *)
Definition dc_r1 : list rarg := [mu0; alpha_min; res_g_max; res_b_max; res_d_max; res_m_max; dual_gap_max; reg_prim; lam_min; t_min; tau_min; lam0_min; t0_min].
Definition dc_i1 : list iarg := [iter_max; stat_max; pred_corr; cond_pred_corr; itref_pred_max; itref_corr_max; warm_start; square_root_alg; lq_fact;
  abs_form; comp_dual_sol_eq; comp_res_exit; comp_res_pred; split_step].
Definition dc_i2 : list iarg := [var_init_scheme; t_lam_min; update_fact_exit; amode].
Definition arg_deepcopy (src dst : arg) : arg :=
  let d := fold_left (fun d f => wr f (ar src f) d) dc_r1 dst in
  let d := fold_left (fun d f => wi f (ai src f) d) dc_i1 d in
  let d := wr m_safe (ar src m_safe) d in
  fold_left (fun d f => wi f (ai src f) d) dc_i2 d.
End Arg.
Arguments arg F : clear implicits.
