(** ExpModel.v -- expansion of the dense solution to an OCP QP solution (EXPAND_SOL, cond/x_cond_aux.c lines 2164-2473). *)
From Coq Require Import ZArith Bool Arith.
From Verif Require Import Base ArithF Blas Blas2 OcpModel KktModel DenModel CondModel.

Section Exp.
Context {F : Type} {AF : Arith F}.
Local Open Scope F_scope.
Notation vec := (nat -> F).
Notation mat := (nat -> nat -> F).
Variables (qp : oqp F) (M : nat).
Let D := q_dim qp.
Let nb2 := count_nbb qp M.
Let nbg2 := count_nbg qp M.
Let ng2 := (nbg2 + ngg_of qp M)%nat.
Let nu2 := nu2_of qp M.
Let ns2 := ns2_of qp M.
Let nx2 := dnx D 0.

(** primal solution, lines 2255-2298: inputs and initial state; states by simulation; slacks *)
Definition exp_inputs (vc : vec) (ux : nat -> vec) : nat -> vec :=
  let '(ux, nu_tmp) := loop M (fun ii '(ux, nu_tmp) =>
      let i := (M - ii)%nat in (upd ux i (VECCP (dnu D i) vc nu_tmp (ux i) 0), nu_tmp + dnu D i)%nat) (ux, 0%nat) in
  upd ux 0 (VECCP (dnu D 0 + dnx D 0) vc nu_tmp (ux 0%nat) 0).
Definition exp_states (ux : nat -> vec) : nat -> vec :=
  loop M (fun ii ux => upd ux (ii + 1)%nat
    (GEMV_T (dnu D ii + dnx D ii) (dnx D (ii + 1)) f1 (q_BAbt qp ii) 0 0 (ux ii) 0 f1 (q_b qp ii) 0 (ux (ii + 1)%nat) (dnu D (ii + 1)))) ux.
(** copy back of the soft parts (lines 2282-2298 for ux, 2415-2435 for lam and t) *)
Definition soft_back (os : nat -> nat) (o2 : nat) (src : vec) (x : nat -> vec) : nat -> vec :=
  fst (loop (M + 1) (fun ii '(x, is) =>
    let i := (M - ii)%nat in
    (upd x i (loop (dns D i) (fun jj v => upd (upd v (os i + jj)%nat (src (o2 + is + jj)%nat)) (os i + dns D i + jj)%nat (src (o2 + ns2 + is + jj)%nat)) (x i)), is + dns D i)%nat) (x, 0%nat)).
Definition exp_prim (vc : vec) (ux : nat -> vec) : nat -> vec :=
  soft_back (fun i => dnu D i + dnx D i)%nat (nu2 + nx2) vc (exp_states (exp_inputs vc ux)).

(** multipliers (and likewise t) of the inequalities, lines 2331-2435; [src] = dense lam or t.  In the code one traversal copies lam and t
    with common counters; here the traversal is done once for each of the two vectors. *)
Definition back_bound (src : vec) (i : nat) (jj : nat) (s : vec * nat * nat) : vec * nat * nat :=
  let '(v, nbb, nbg) := s in let ju := (dnb D i + dng D i + jj)%nat in
  if Nat.ltb (q_idxb qp i jj) (dnu D i) then (upd (upd v jj (src nbb)) ju (src (nb2 + ng2 + nbb)%nat), S nbb, nbg)
  else (upd (upd v jj (src (nb2 + nbg)%nat)) ju (src (2 * nb2 + ng2 + nbg)%nat), nbb, S nbg).
Definition exp_ineq (src : vec) (x : nat -> vec) : nat -> vec :=
  let '(x, nbb, nbg) := loop M (fun ii '(x, nbb, nbg) =>
      let i := (M - ii)%nat in let '(v, nbb, nbg) := loop (dnb D i) (back_bound src i) (x i, nbb, nbg) in (upd x i v, nbb, nbg)) (x, 0%nat, 0%nat) in
  let x := upd x 0 (VECCP (dnb D 0) src (nb2 + ng2 + nbb) (VECCP (dnb D 0) src nbb (x 0%nat) 0) (dnb D 0 + dng D 0)) in
  let '(x, ngg) := loop M (fun ii '(x, ngg) =>
      let i := (M - ii)%nat in
      let '(v, ngg) := loop (dng D i) (fun jj '(v, ngg) =>
         (upd (upd v (dnb D i + jj)%nat (src (nb2 + nbg + ngg)%nat)) (2 * dnb D i + dng D i + jj)%nat (src (2 * nb2 + ng2 + nbg + ngg)%nat), S ngg)) (x i, ngg) in
      (upd x i v, ngg)) (x, 0%nat) in
  let x := upd x 0 (VECCP (dng D 0) src (2 * nb2 + ng2 + nbg + ngg) (VECCP (dng D 0) src (nb2 + nbg + ngg) (x 0%nat) (dnb D 0)) (2 * dnb D 0 + dng D 0)) in
  soft_back (fun i => 2 * dnb D i + 2 * dng D i)%nat (2 * nb2 + 2 * ng2) src x.

(** multipliers of the dynamics, lines 2437-2470.  [pi_stage i A] computes pi[i-1]; with [mid] the dynamics term is included. *)
Definition exp_pi_stage (mid : bool) (i : nat) (ux lam : nat -> vec) (s : (nat -> vec) * vec * vec) : (nat -> vec) * vec * vec :=
  let '(pi, tnux, tbg) := s in
  let nui := dnu D i in let nxi := dnx D i in let nbi := dnb D i in let ngi := dng D i in
  let tnux := VECCP nxi (q_rqz qp i) nui tnux nui in
  let tbg := AXPY (nbi + ngi) (- f1) (lam i) 0 (lam i) (nbi + ngi) tbg 0 in
  let tnux := VECAD_SP nbi f1 tbg 0 (q_idxb qp i) tnux 0 in
  let tnux := SYMV_L (nui + nxi) f1 (q_RSQ qp i) 0 0 (ux i) 0 f1 tnux 0 tnux 0 in
  let tnux := if mid then GEMV_N nxi (dnx D (i + 1)) f1 (q_BAbt qp i) nui 0 (pi i) 0 f1 tnux nui tnux nui else tnux in
  let tnux := GEMV_N nxi ngi f1 (q_DCt qp i) nui 0 tbg nbi f1 tnux nui tnux nui in
  (upd pi (i - 1)%nat (VECCP nxi tnux nui (pi (i - 1)%nat) 0), tnux, tbg).
(** [Np] = N of the QP; last = cond_last_stage *)
Definition exp_pi (last : bool) (Np : nat) (pic : vec) (ux lam : nat -> vec) (s : (nat -> vec) * vec * vec) : (nat -> vec) * vec * vec :=
  let s := if last then exp_pi_stage false Np ux lam s
    else let '(pi, a, b) := s in (upd pi (Np - 1)%nat (VECCP (dnx D Np) pic 0 (pi (Np - 1)%nat) 0), a, b) in
  loop (Np - 1) (fun ii s => exp_pi_stage true (Np - 1 - ii) ux lam s) s.
End Exp.

(** the whole function; [prim], [dineq], [deq] = cond_arg->comp_prim_sol, comp_dual_sol_ineq, comp_dual_sol_eq *)
Definition expand_sol {F} {AF : Arith F} (last prim dineq deq : bool) (qp : oqp F) (ds : dsol F) (sol : osol F) (w : cws F) : osol F * cws F :=
  let D := q_dim qp in let Np := dN D in let M := last_stage last Np in
  if andb (Nat.eqb M 0) last then
    let nc := (2 * dnb D 0 + 2 * dng D 0 + 2 * dns D 0)%nat in
    (mksol (if prim then upd (s_ux sol) 0%nat (VECCP (dnu D 0 + dnx D 0 + 2 * dns D 0) (ds_v ds) 0 (s_ux sol 0%nat) 0) else s_ux sol) (s_pi sol)
       (if dineq then upd (s_lam sol) 0%nat (VECCP nc (ds_lam ds) 0 (s_lam sol 0%nat) 0) else s_lam sol)
       (if dineq then upd (s_t sol) 0%nat (VECCP nc (ds_t ds) 0 (s_t sol 0%nat) 0) else s_t sol), w)
  else
    let ux := if prim then exp_prim qp M (ds_v ds) (s_ux sol) else s_ux sol in
    let lam := if dineq then exp_ineq qp M (ds_lam ds) (s_lam sol) else s_lam sol in
    let t := if dineq then exp_ineq qp M (ds_t ds) (s_t sol) else s_t sol in
    if deq then
      let '(pi, tnux, tbg) := exp_pi qp last Np (ds_pi ds) ux lam (s_pi sol, cw_nux w, cw_nbg w) in
      (mksol ux pi lam t, mkcws (cw_Gamma w) (cw_Gammab w) (cw_L w) (cw_Lx w) (cw_dA w) (cw_AL w) (cw_GQ w) tnux tbg)
    else (mksol ux (s_pi sol) lam t, w).
