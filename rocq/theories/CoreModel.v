(** CoreModel.v -- ipm_core/x_core_qp_ipm_aux.c: the dimension-free part of the interior point method.
    Arrays are functions nat -> F; each C loop is a [loop].  Generic in the arithmetic. *)
From Coq Require Import ZArith Bool Arith.
From Verif Require Import Base ArithF.
Local Open Scope F_scope.

Section Core.
Context {F : Type} {AF : Arith F}.
Notation vec := (nat -> F).

(** COMPUTE_GAMMA_GAMMA_QP, lines 38-86: returns (t_inv, Gamma, gamma). *)
Definition compute_Gamma_gamma (t_lam_min : Z) (nc : nat) (lam t : vec) (lam_min t_min t_min_inv : F) (res_d res_m : vec)
  (s : vec * vec * vec) : vec * vec * vec :=
  if Z.eqb t_lam_min 1 then
    loop nc (fun ii '(t_inv, Gamma, gamma) =>
      let lam0 := lam ii in let t0 := t ii in
      let t_inv := upd t_inv ii (f1 / t0) in
      let t_inv_tmp := if t0 <? t_min then t_min_inv else t_inv ii in
      let lam_tmp := if lam0 <? lam_min then lam_min else lam0 in
      (t_inv, upd Gamma ii (t_inv_tmp * lam_tmp), upd gamma ii (t_inv ii * (res_m ii - lam0 * res_d ii)))) s
  else
    loop nc (fun ii '(t_inv, Gamma, gamma) =>
      let lam0 := lam ii in let t0 := t ii in
      let t_inv := upd t_inv ii (f1 / t0) in
      (t_inv, upd Gamma ii (t_inv ii * lam0), upd gamma ii (t_inv ii * (res_m ii - lam0 * res_d ii)))) s.

(** COMPUTE_GGAMMA_QP, lines 90-133: returns (t_inv, Gamma). *)
Definition compute_Ggamma (t_lam_min : Z) (nc : nat) (lam t : vec) (lam_min t_min t_min_inv : F) (s : vec * vec) : vec * vec :=
  if Z.eqb t_lam_min 1 then
    loop nc (fun ii '(t_inv, Gamma) =>
      let lam0 := lam ii in let t0 := t ii in
      let t_inv := upd t_inv ii (f1 / t0) in
      let t_inv_tmp := if t0 <? t_min then t_min_inv else t_inv ii in
      let lam_tmp := if lam0 <? lam_min then lam_min else lam0 in
      (t_inv, upd Gamma ii (t_inv_tmp * lam_tmp))) s
  else
    loop nc (fun ii '(t_inv, Gamma) =>
      let lam0 := lam ii in let t0 := t ii in
      let t_inv := upd t_inv ii (f1 / t0) in
      (t_inv, upd Gamma ii (t_inv ii * lam0))) s.

(** COMPUTE_GAMMA_QP, lines 137-162: returns gamma. *)
Definition compute_gamma (nc : nat) (lam t_inv res_d res_m gamma : vec) : vec :=
  loop nc (fun ii gamma => upd gamma ii (t_inv ii * (res_m ii - lam ii * res_d ii))) gamma.

(** COMPUTE_LAM_T_QP, lines 164-189: (dlam, dt) updated in place; on entry dt holds the linear image of the step. *)
Definition compute_lam_t (nc : nat) (lam t_inv res_d res_m : vec) (s : vec * vec) : vec * vec :=
  loop nc (fun ii '(dlam, dt) =>
    let lam0 := lam ii in
    let dlam := upd dlam ii (- t_inv ii * (res_m ii + (lam0 * dt ii) - (lam0 * res_d ii))) in
    (dlam, upd dt ii (dt ii - res_d ii))) s.

(** COMPUTE_ALPHA_QP, lines 193-468.  The four cases (split_step, m_zero) are separate definitions. *)
(** lines 211-213 *)
Definition clip_m_safe (m_safe : F) : F :=
  let m_safe := if m_safe >=? f0 then m_safe else f0 in
  if m_safe <=? f1 then m_safe else f1.
(** the ratio test of one constraint with separate steps: lines 226-237 (and 247-259) *)
Definition ratio_split (lam t dlam dt : vec) (ii : nat) (a : F * F) : F * F :=
  let '(alpha_prim, alpha_dual) := a in
  let lam1 := lam ii + alpha_dual * dlam ii in
  let t1 := t ii + alpha_prim * dt ii in
  let alpha_dual := if lam1 <? f0 then - lam ii / dlam ii else alpha_dual in
  let alpha_prim := if t1 <? f0 then - t ii / dt ii else alpha_prim in
  (alpha_prim, alpha_dual).
(** lines 222-239 *)
Definition alpha_split_mzero (nc : nat) (lam t dlam dt : vec) : F * F :=
  loop nc (ratio_split lam t dlam dt) (f1, f1).
(** the one-sided product test: lines 261-282 (1st pass) and 345-367 (3rd pass) *)
Definition prod_onesided (m_safe : F) (lam t dlam dt m : vec) (ii : nat) (a : F * F) : F * F :=
  let '(alpha_prim, alpha_dual) := a in
  let lam1 := lam ii + alpha_dual * dlam ii in
  let t1 := t ii + alpha_prim * dt ii in
  let m1 := m_safe * m ii in
  if lam1 * t1 - m1 <? - lit 1 1000000000000 then
    if dlam ii <? f0 then
      if dt ii <? f0 then a
      else (alpha_prim, (m1 - lam ii * t1) / (dlam ii * t1))
    else if dt ii <? f0 then ((m1 - t ii * lam1) / (dt ii * lam1), alpha_dual)
    else a
  else a.
(** 2nd pass, lines 290-339 *)
Definition prod_quad (m_safe : F) (lam t dlam dt m : vec) (ii : nat) (al : F * F) : F * F :=
  let '(alpha_prim, alpha_dual) := al in
  if andb (dlam ii <? f0) (dt ii <? f0) then
    let lam1 := lam ii + alpha_dual * dlam ii in
    let t1 := t ii + alpha_prim * dt ii in
    let m1 := m_safe * m ii in
    if lam1 * t1 - m1 <? - lit 1 1000000000000 then
      let c := lam ii * t ii - m1 in
      if c >? f0 then
        let adlam := alpha_dual * dlam ii in
        let adt := alpha_prim * dt ii in
        let a := adlam * adt in
        let b := adlam * t ii + lam ii * adt in
        let d := b * b - lit 4 1 * a * c in
        let sd := fsqrt d in
        let tmp := lit 1 2 / a in
        let r1 := (- b - sd) * tmp in
        let r1 := if r1 >? f0 then r1 else f0 in
        (alpha_prim * r1, alpha_dual * r1)
      else (f0, f0)
    else al
  else al.
(** lines 240-370: the 1st pass recomputes lam1, t1 after the ratio test, as [prod_onesided] does *)
Definition alpha_split_m (nc : nat) (m_safe : F) (lam t dlam dt m : vec) : F * F :=
  let a := loop nc (fun ii a => prod_onesided m_safe lam t dlam dt m ii (ratio_split lam t dlam dt ii a)) (f1, f1) in
  let a := loop nc (prod_quad m_safe lam t dlam dt m) a in
  loop nc (prod_onesided m_safe lam t dlam dt m) a.
(** the ratio test with one common step: lines 382-393 (and 401-414).  Note that t1 is computed before alpha
    is possibly reduced by the dual test. *)
Definition ratio_joint (lam t dlam dt : vec) (ii : nat) (alpha : F) : F * F * F :=
  let lam1 := lam ii + alpha * dlam ii in
  let t1 := t ii + alpha * dt ii in
  let '(alpha, lam1) := if lam1 <? f0 then (let al := - lam ii / dlam ii in (al, lam ii + al * dlam ii)) else (alpha, lam1) in
  let '(alpha, t1) := if t1 <? f0 then (let al := - t ii / dt ii in (al, t ii + al * dt ii)) else (alpha, t1) in
  (alpha, lam1, t1).
(** lines 378-395 *)
Definition alpha_joint_mzero (nc : nat) (lam t dlam dt : vec) : F :=
  loop nc (fun ii alpha => fst (fst (ratio_joint lam t dlam dt ii alpha))) f1.
(** lines 396-448 *)
Definition alpha_joint_m (nc : nat) (m_safe : F) (lam t dlam dt m : vec) : F :=
  loop nc (fun ii alpha =>
    let '(alpha, lam1, t1) := ratio_joint lam t dlam dt ii alpha in
    let m1 := m_safe * m ii in
    if lam1 * t1 - m1 <? - lit 1 1000000000000 then
      let c := lam ii * t ii - m1 in
      if c >? f0 then
        let a := dlam ii * dt ii in
        let b := dlam ii * t ii + lam ii * dt ii in
        let d := b * b - lit 4 1 * a * c in
        let sd := fsqrt d in
        let tmp := lit 1 2 / a in
        (- b - sd) * tmp
      else f0
    else alpha) f1.
(** lines 193-468: returns (alpha_prim, alpha_dual) *)
Definition compute_alpha (split_step : Z) (m_zero : bool) (nc : nat) (m_safe : F) (lam t dlam dt m : vec) : F * F :=
  let m_safe := clip_m_safe m_safe in
  if Z.eqb split_step 1 then
    if m_zero then alpha_split_mzero nc lam t dlam dt else alpha_split_m nc m_safe lam t dlam dt m
  else
    let alpha := if m_zero then alpha_joint_mzero nc lam t dlam dt else alpha_joint_m nc m_safe lam t dlam dt m in
    (alpha, alpha).

(** UPDATE_VAR_QP, lines 472-582.  The damping factor (lines 505-511): *)
Definition damp (a : F) : F := a * ((f1 - a) * lit 99 100 + a * lit 9999999 10000000).
Definition damped (alpha_prim alpha_dual : F) : F * F :=
  let alpha := if alpha_prim <? alpha_dual then alpha_prim else alpha_dual in
  if alpha <? f1 then (damp alpha_prim, damp alpha_dual) else (alpha_prim, alpha_dual).
(** one array: bkp[ii] = x[ii]; x[ii] += a*dx[ii]; and, when clipping, x[ii] = x[ii]<=xmin ? xmin : x[ii] *)
Definition step_arr (n : nat) (a : F) (dx : vec) (s : vec * vec) : vec * vec :=
  loop n (fun ii '(x, bkp) => (upd x ii (x ii + a * dx ii), upd bkp ii (x ii))) s.
Definition step_clip (n : nat) (a xmin : F) (dx : vec) (s : vec * vec) : vec * vec :=
  loop n (fun ii '(x, bkp) =>
    let bkp := upd bkp ii (x ii) in
    let x := upd x ii (x ii + a * dx ii) in
    (upd x ii (if x ii <=? xmin then xmin else x ii), bkp)) s.
Record vars := mkvars { va_v : vec; va_pi : vec; va_lam : vec; va_t : vec }.
Definition update_var (nv ne nc : nat) (t_lam_min : Z) (lam_min t_min alpha_prim alpha_dual : F) (d : vars) (s : vars * vars) : vars * vars :=
  let '(x, bkp) := s in
  let '(ap, ad) := damped alpha_prim alpha_dual in
  let '(v, v_bkp) := step_arr nv ap (va_v d) (va_v x, va_v bkp) in
  let '(pi, pi_bkp) := step_arr ne ad (va_pi d) (va_pi x, va_pi bkp) in
  if Z.eqb t_lam_min 2 then
    let '(lam, lam_bkp) := step_clip nc ad lam_min (va_lam d) (va_lam x, va_lam bkp) in
    let '(t, t_bkp) := step_clip nc ap t_min (va_t d) (va_t x, va_t bkp) in
    (mkvars v pi lam t, mkvars v_bkp pi_bkp lam_bkp t_bkp)
  else
    let '(lam, lam_bkp) := step_arr nc ad (va_lam d) (va_lam x, va_lam bkp) in
    let '(t, t_bkp) := step_arr nc ap (va_t d) (va_t x, va_t bkp) in
    (mkvars v pi lam t, mkvars v_bkp pi_bkp lam_bkp t_bkp).

(** BACKUP_VAR_QP, lines 586-632: returns the new backups. *)
Definition copy_arr (n : nat) (x bkp : vec) : vec := loop n (fun ii b => upd b ii (x ii)) bkp.
Definition backup_var (nv ne nc : nat) (x bkp : vars) : vars :=
  mkvars (copy_arr nv (va_v x) (va_v bkp)) (copy_arr ne (va_pi x) (va_pi bkp)) (copy_arr nc (va_lam x) (va_lam bkp)) (copy_arr nc (va_t x) (va_t bkp)).

(** COMPUTE_MU_AFF_QP, lines 636-668 *)
Definition compute_mu_aff (nc : nat) (lam t dlam dt m : vec) (alpha_prim alpha_dual nc_mask_inv : F) : F :=
  loop nc (fun ii mu => mu + fabs (- m ii + (lam ii + alpha_dual * dlam ii) * (t ii + alpha_prim * dt ii))) f0 * nc_mask_inv.

(** COMPUTE_CENTERING_CORRECTION_QP, lines 695-724; COMPUTE_CENTERING_QP, lines 729-751; COMPUTE_TAU_MIN_QP, lines 756-778 *)
Definition sigma_mu (sigma mu tau_min : F) : F := let s := sigma * mu in if s >? tau_min then s else tau_min.
Definition centering_correction (nc : nat) (dlam dt res_m res_m_bkp : vec) (sigma mu tau_min : F) : vec :=
  loop nc (fun ii r => upd r ii (res_m_bkp ii + dt ii * dlam ii - sigma_mu sigma mu tau_min)) res_m.
Definition centering (nc : nat) (res_m res_m_bkp : vec) (sigma mu tau_min : F) : vec :=
  loop nc (fun ii r => upd r ii (res_m_bkp ii - sigma_mu sigma mu tau_min)) res_m.
Definition compute_tau_min (nc : nat) (res_m res_m_bkp : vec) (tau_min : F) : vec :=
  loop nc (fun ii r => upd r ii (res_m_bkp ii - tau_min)) res_m.
End Core.
Arguments vars F : clear implicits.
