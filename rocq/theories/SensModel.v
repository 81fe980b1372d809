(** SensModel.v -- ocp_qp/x_ocp_qp_ipm.c: OCP_QP_IPM_PREDICT, OCP_QP_IPM_SENS_FRW, OCP_QP_IPM_SENS_ADJ; ocp_qp/x_ocp_qp_seed.c.
    The arrays of the core workspace (flat in C, the concatenation of the stage vectors) are written stage by stage. *)
From Coq Require Import ZArith Bool Arith String.
From Verif Require Import Base ArithF Blas CoreModel OcpModel KktModel SolveModel AuxModel QpDataModel.

(** struct OCP_QP_SEED (include/hpipm_d_ocp_qp_seed.h lines 55-63) *)
Record seed (F : Type) := mkseed { sd_g : nat -> nat -> F; sd_b : nat -> nat -> F; sd_d : nat -> nat -> F; sd_m : nat -> nat -> F }.
Arguments mkseed {F}. Arguments sd_g {F}. Arguments sd_b {F}. Arguments sd_d {F}. Arguments sd_m {F}.

Section Sens.
Context {F : Type} {AF : Arith F}.
Local Open Scope F_scope.
Notation vec := (nat -> F).

(** ** the seed object *)
Section Seed.
Variable D : xdim.
Notation nx := (xnx D). Notation nu := (xnu D). Notation nbx := (xnbx D). Notation nbu := (xnbu D). Notation nb := (xnb D). Notation ng := (xng D). Notation ns := (xns D).
Definition sw_g (s : nat) (g : vec -> vec) (p : seed F) : seed F := mkseed (upd (sd_g p) s (g (sd_g p s))) (sd_b p) (sd_d p) (sd_m p).
Definition sw_b (s : nat) (g : vec -> vec) (p : seed F) : seed F := mkseed (sd_g p) (upd (sd_b p) s (g (sd_b p s))) (sd_d p) (sd_m p).
Definition sw_d (s : nat) (g : vec -> vec) (p : seed F) : seed F := mkseed (sd_g p) (sd_b p) (upd (sd_d p) s (g (sd_d p s))) (sd_m p).
(** OCP_QP_SEED_CREATE, lines 90-218: memory zeroed (lines 96-98).  OCP_QP_SEED_SET_ZERO, lines 222-257 *)
Definition seed_create : seed F := mkseed (fun _ _ => f0) (fun _ _ => f0) (fun _ _ => f0) (fun _ _ => f0).
Definition seed_zero (p : seed F) : seed F :=
  mkseed (loop (xN D + 1) (fun ii g => upd g ii (VECSE (nu ii + nx ii + 2 * ns ii) f0 (g ii) 0)) (sd_g p))
         (loop (xN D) (fun ii g => upd g ii (VECSE (nx (ii + 1)) f0 (g ii) 0)) (sd_b p))
         (loop (xN D + 1) (fun ii g => upd g ii (VECSE (2 * nb ii + 2 * ng ii + 2 * ns ii) f0 (g ii) 0)) (sd_d p))
         (loop (xN D + 1) (fun ii g => upd g ii (VECSE (2 * nb ii + 2 * ng ii + 2 * ns ii) f0 (g ii) 0)) (sd_m p)).
(** the setters, lines 335-477; named by the QP field they are the seed of *)
Inductive sfield := Sr | Sq | Szl | Szu | Sb | Slb | Slbu | Slbx | Sub | Subu | Subx | Slg | Sug | Sls | Sus.
Definition seed_set_f (f : sfield) (s : nat) (v : vec) (p : seed F) : seed F :=
  match f with
  | Sr => sw_g s (fun x => PACK_VEC (nu s) v x 0) p (* 335-340 *)
  | Sq => sw_g s (fun x => PACK_VEC (nx s) v x (nu s)) p (* 344-350 *)
  | Szl => sw_g s (fun x => PACK_VEC (ns s) v x (nu s + nx s)) p (* 354-361 *)
  | Szu => sw_g s (fun x => PACK_VEC (ns s) v x (nu s + nx s + ns s)) p (* 365-372 *)
  | Sb => sw_b s (fun x => PACK_VEC (nx (s + 1)) v x 0) p (* 376-380 *)
  | Slb => sw_d s (fun x => PACK_VEC (nb s) v x 0) p (* 384-388 *)
  | Slbu => sw_d s (fun x => PACK_VEC (nbu s) v x 0) p (* 392-396 *)
  | Slbx => sw_d s (fun x => PACK_VEC (nbx s) v x (nbu s)) p (* 400-405 *)
  | Sub => sw_d s (fun x => VECSC (nb s) (- f1) (PACK_VEC (nb s) v x (nb s + ng s)) (nb s + ng s)) p (* 409-415 *)
  | Subu => sw_d s (fun x => VECSC (nbu s) (- f1) (PACK_VEC (nbu s) v x (nb s + ng s)) (nb s + ng s)) p (* 419-426 *)
  | Subx => sw_d s (fun x => VECSC (nbx s) (- f1) (PACK_VEC (nbx s) v x (nb s + ng s + nbu s)) (nb s + ng s + nbu s)) p (* 430-438 *)
  | Slg => sw_d s (fun x => PACK_VEC (ng s) v x (nb s)) p (* 442-447 *)
  | Sug => sw_d s (fun x => VECSC (ng s) (- f1) (PACK_VEC (ng s) v x (2 * nb s + ng s)) (2 * nb s + ng s)) p (* 451-457 *)
  | Sls => sw_d s (fun x => PACK_VEC (ns s) v x (2 * nb s + 2 * ng s)) p (* 461-467 *)
  | Sus => sw_d s (fun x => PACK_VEC (ns s) v x (2 * nb s + 2 * ng s + ns s)) p (* 471-477 *)
  end.
(** OCP_QP_SEED_SET, lines 261-331: the field a name selects (None = exit(1)) *)
Local Open Scope string_scope.
Definition seed_dispatch (n : string) : option sfield :=
  let is s := hpipm_strcmp n s in
  if is "seed_r" then Some Sr else if is "seed_q" then Some Sq else if is "seed_zl" then Some Szl else if is "seed_zu" then Some Szu
  else if is "seed_b" then Some Sb else if is "seed_lb" then Some Slb else if is "seed_lbu" then Some Slbu else if is "seed_lbx" then Some Slbx
  else if is "seed_ub" then Some Sub else if is "seed_ubu" then Some Subu else if is "seed_ubx" then Some Subx else if is "seed_lg" then Some Slg
  else if is "seed_ug" then Some Sug else if is "seed_ls" then Some Sls else if is "seed_us" then Some Sus else None.
Definition seed_set (n : string) (s : nat) (v : vec) (p : seed F) : option (seed F) :=
  match seed_dispatch n with Some f => Some (seed_set_f f s v p) | None => None end.
End Seed.

(** ** loading the backup, lines 3244-3252, 3417-3425, 3489-3497 *)
Definition load (D : dims) (bkp out : osol F) : osol F :=
  mksol (fun ss => VECCP (nvt D ss) (s_ux bkp ss) 0 (s_ux out ss) 0)
        (fun ss => if Nat.ltb ss (dN D) then VECCP (dnx D (ss + 1)) (s_pi bkp ss) 0 (s_pi out ss) 0 else s_pi out ss)
        (fun ss => VECCP (nct D ss) (s_lam bkp ss) 0 (s_lam out ss) 0)
        (fun ss => VECCP (nct D ss) (s_t bkp ss) 0 (s_t out ss) 0).
(** "alias qp vectors into": cws->lam and cws->t are the arrays of the output struct, lines 3238-3242, 3411-3415, 3483-3487 *)
Definition alias_args (a : kargs F) (x : osol F) : kargs F :=
  mkka (a_reg a) (a_dual a) (a_preg_last a) (s_lam x) (s_t x) (a_tlm a) (a_lam_min a) (a_t_min a) (a_t_min_inv a).

(** COMPUTE_LAM_T_QP (ipm_core/x_core_qp_ipm_aux.c lines 164-189) when cws->lam and dlam are the same array *)
Definition compute_lam_t_alias (nc : nat) (t_inv res_d res_m : vec) (s : vec * vec) : vec * vec :=
  loop nc (fun ii '(dlam, dt) =>
    let lam0 := dlam ii in
    let dlam := upd dlam ii (- t_inv ii * (res_m ii + (lam0 * dt ii) - (lam0 * res_d ii))) in
    (dlam, upd dt ii (dt ii - res_d ii))) s.
(** OCP_QP_SOLVE_KKT_STEP writing into the struct x that cws->lam, cws->t alias (x_ocp_qp_kkt.c lines 2301-2653): cws->lam is read by
    COMPUTE_GAMMA_QP (line 2338, before any write) and by COMPUTE_LAM_T_QP (line 2649, element-wise in place); cws->t is not read. *)
Definition solve_kkt_alias (sq : bool) (a : kargs F) (qp : oqp F) (tinv Gam gam0 : nat -> vec) (x : osol F) (w : kws F) : osol F * kws F :=
  let a := alias_args a x in
  let wf := sol_ws sq false a qp tinv Gam gam0 x w in
  let ut ss := sol_ut sq false a qp tinv Gam gam0 x w ss in
  let lt ss := compute_lam_t_alias (nct (q_dim qp) ss) (tinv ss) (q_d qp ss) (q_m qp ss) (s_lam x ss, snd (ut ss)) in
  (mksol (fun ss => fst (ut ss)) (k_pi wf) (fun ss => fst (lt ss)) (fun ss => snd (lt ss)), wf).

(** ** OCP_QP_IPM_SENS_FRW, lines 3383-3450.  [bkp]: v_bkp, pi_bkp, lam_bkp, t_bkp; [out]: the sens struct before the call;
    [tinv], [Gam], [w]: what the last factorisation left; [gam0]: cws->gamma. *)
Definition seed_qp (qp : oqp F) (sd : seed F) : oqp F := with_rhs qp (sd_g sd) (sd_b sd) (sd_d sd) (sd_m sd).
Definition sens_frw (sq : bool) (a : kargs F) (qp : oqp F) (sd : seed F) (bkp : osol F) (tinv Gam gam0 : nat -> vec) (out : osol F) (w : kws F) : osol F * kws F :=
  solve_kkt_alias sq a (seed_qp qp sd) tinv Gam gam0 (load (q_dim qp) bkp out) w.

(** ** OCP_QP_IPM_SENS_ADJ, lines 3455-3544: (sens, workspace, seed, tmp_m) after the call *)
(** "backup and scale m", lines 3499-3506; state (tmp_m, seed_m) of a stage *)
Definition scale_m (nc : nat) (t : vec) (s : vec * vec) : vec * vec :=
  loop nc (fun ii '(tmp, m) => let tmp := upd tmp ii (m ii) in (tmp, upd m ii (m ii * t ii))) s.
(** "scale t", lines 3529-3534 *)
Definition scale_t (nc : nat) (tinv t : vec) : vec := loop nc (fun ii t => upd t ii (t ii * tinv ii)) t.
(** "restore seed_m", lines 3536-3540 *)
Definition restore_m (nc : nat) (tmp m : vec) : vec := loop nc (fun ii m => upd m ii (tmp ii)) m.
Definition sens_adj (sq : bool) (a : kargs F) (qp : oqp F) (sd : seed F) (bkp : osol F) (tinv Gam gam0 : nat -> vec) (tmp_m : nat -> vec) (out : osol F) (w : kws F)
  : osol F * kws F * seed F * (nat -> vec) :=
  let D := q_dim qp in
  let x := load D bkp out in
  let sm ss := scale_m (nct D ss) (s_t x ss) (tmp_m ss, sd_m sd ss) in
  let tmp ss := fst (sm ss) in
  let sd1 := mkseed (sd_g sd) (sd_b sd) (sd_d sd) (fun ss => snd (sm ss)) in
  let '(sens, w) := solve_kkt_alias sq a (seed_qp qp sd1) tinv Gam gam0 x w in
  let sens := mksol (s_ux sens) (s_pi sens) (s_lam sens) (fun ss => scale_t (nct D ss) (tinv ss) (s_t sens ss)) in
  (sens, w, mkseed (sd_g sd1) (sd_b sd1) (sd_d sd1) (fun ss => restore_m (nct D ss) (tmp ss) (sd_m sd1 ss)), tmp).

(** ** OCP_QP_IPM_PREDICT, lines 3219-3378 *)
(** UPDATE_VAR_QP (ipm_core/x_core_qp_ipm_aux.c lines 472-584) on the stage vectors: (iterate, backup) after the call *)
Definition stage_vars (x : osol F) (ss : nat) : vars F := mkvars (s_ux x ss) (s_pi x ss) (s_lam x ss) (s_t x ss).
Definition of_stages (v : nat -> vars F) : osol F := mksol (fun ss => va_v (v ss)) (fun ss => va_pi (v ss)) (fun ss => va_lam (v ss)) (fun ss => va_t (v ss)).
Definition ocp_update (D : dims) (tlm : Z) (lam_min t_min ap ad : F) (step x bkp : osol F) : osol F * osol F :=
  let r ss := update_var (nvt D ss) (if Nat.ltb ss (dN D) then dnx D (ss + 1) else 0)%nat (nct D ss) tlm lam_min t_min ap ad (stage_vars step ss) (stage_vars x ss, stage_vars bkp ss) in
  (of_stages (fun ss => fst (r ss)), of_stages (fun ss => snd (r ss))).
(** relative formulation (abs_form=0), lines 3283-3350: residuals of the new QP at the backup, one solve, UPDATE_VAR_QP with the step lengths
    [ap], [ad] = cws->alpha_prim, cws->alpha_dual found in the workspace (line 3351 assigns only cws->alpha).
    [res0], [rw0], [stp]: ws->res, its workspace and ws->sol_step before the call.  Returns (qp_sol, backup, workspace). *)
Definition predict (sq : bool) (a : kargs F) (qp : oqp F) (ap ad : F) (bkp : osol F) (tinv Gam gam0 : nat -> vec) (res0 : ores F) (rw0 : rws F) (stp out : osol F) (w : kws F)
  : osol F * osol F * kws F :=
  let D := q_dim qp in
  let x := load D bkp out in
  let r := fst (res_compute None qp x res0 rw0) in
  let '(step, w) := solve_kkt sq false (alias_args a x) (with_rhs qp (r_g r) (r_b r) (r_d r) (r_m r)) tinv Gam gam0 stp w in
  let '(x, bkp) := ocp_update D (a_tlm a) (a_lam_min a) (a_t_min a) ap ad step x bkp in
  (x, bkp, w).
(** absolute formulation (abs_form=1), lines 3254-3258 *)
Definition predict_abs (sq : bool) (a : kargs F) (qp : oqp F) (bkp : osol F) (tinv Gam gam0 : nat -> vec) (out : osol F) (w : kws F) : osol F * kws F :=
  solve_kkt_alias sq a qp tinv Gam gam0 (load (q_dim qp) bkp out) w.
End Sens.
