(** CsolModel.v -- condensing of a solution (e.g. to warm start the solver of the condensed QP): COND_SOL (cond/x_cond_aux.c lines 1815-2160),
    COND_QP_COND_SOL (cond/x_cond.c lines 523-530), PART_COND_QP_COND_SOL (cond/x_part_cond.c lines 702-780). *)
From Coq Require Import ZArith Bool Arith.
From Verif Require Import Base ArithF Blas Blas2 OcpModel KktModel DenModel CondModel ExpModel PartModel.

Section Csol.
Context {F : Type} {AF : Arith F}.
Notation vec := (nat -> F).
Section S.
Variables (qp : oqp F) (M : nat).
Let D := q_dim qp.
Let nb2 := count_nbb qp M.
Let nbg2 := count_nbg qp M.
Let ng2 := (nbg2 + ngg_of qp M)%nat.
Let nu2 := nu2_of qp M.
Let ns2 := ns2_of qp M.
Let nx2 := dnx D 0.

(** inputs and initial state, lines 1906-1916 *)
Definition csol_inputs (ux : nat -> vec) (vc : vec) : vec :=
  let '(vc, nu_tmp) := loop M (fun ii '(vc, nu_tmp) => let i := (M - ii)%nat in (VECCP (dnu D i) (ux i) 0 vc nu_tmp, nu_tmp + dnu D i)%nat) (vc, 0%nat) in
  VECCP (dnu D 0 + dnx D 0) (ux 0%nat) 0 vc nu_tmp.
(** one softened constraint, lines 1933-1939 (same 1958-1964; with lam and t 2093-2104, 2122-2133): its two slacks are copied to place [is] *)
Definition soft_put (os : nat -> nat) (o2 : nat) (x : nat -> vec) (i jj : nat) (s : vec * nat) : vec * nat :=
  let '(dst, is) := s in let idx := q_idxs_rev qp i jj in
  if Z.leb 0 idx then (upd (upd dst (o2 + is)%nat (x i (os i + Z.to_nat idx)%nat)) (o2 + ns2 + is)%nat (x i (os i + dns D i + Z.to_nat idx)%nat), S is) else (dst, is).
(** constraints lo..hi-1 of stage i, when it has slacks *)
Definition soft_stage (os : nat -> nat) (o2 : nat) (x : nat -> vec) (i lo hi : nat) (s : vec * nat) : vec * nat :=
  if Nat.ltb 0 (dns D i) then loop (hi - lo) (fun k s => soft_put os o2 x i (lo + k) s) s else s.
(** all bounds of all stages first (lines 1921-1942, 2079-2106), then all general constraints (lines 1943-1967, 2107-2135) *)
Definition soft_fwd (os : nat -> nat) (o2 : nat) (x : nat -> vec) (dst : vec) : vec :=
  let s := loop (M + 1) (fun ii s => let i := (M - ii)%nat in soft_stage os o2 x i 0 (dnb D i) s) (dst, 0%nat) in
  fst (loop (M + 1) (fun ii s => let i := (M - ii)%nat in soft_stage os o2 x i (dnb D i) (dnb D i + dng D i) s) s).
Definition csol_prim (ux : nat -> vec) (vc : vec) : vec :=
  soft_fwd (fun i => dnu D i + dnx D i)%nat (nu2 + nx2) ux (csol_inputs ux vc).

(** multipliers (and likewise t) of the inequalities, lines 2003-2135.  In the code one traversal copies lam and t with common counters;
    here the traversal is done once for each of the two vectors.  Lines 2009-2040: one bound of a later stage *)
Definition fwd_bound (x : nat -> vec) (i : nat) (jj : nat) (s : vec * nat * nat) : vec * nat * nat :=
  let '(v, nbb, nbg) := s in let ju := (dnb D i + dng D i + jj)%nat in
  if Nat.ltb (q_idxb qp i jj) (dnu D i) then (upd (upd v nbb (x i jj)) (nb2 + ng2 + nbb)%nat (x i ju), S nbb, nbg)
  else (upd (upd v (nb2 + nbg)%nat (x i jj)) (2 * nb2 + ng2 + nbg)%nat (x i ju), nbb, S nbg).
Definition csol_ineq (x : nat -> vec) (v : vec) : vec :=
  let '(v, nbb, nbg) := loop M (fun ii s => let i := (M - ii)%nat in loop (dnb D i) (fwd_bound x i) s) (v, 0%nat, 0%nat) in
  let v := VECCP (dnb D 0) (x 0%nat) (dnb D 0 + dng D 0) (VECCP (dnb D 0) (x 0%nat) 0 v nbb) (nb2 + ng2 + nbb) in
  let '(v, ngg) := loop M (fun ii s => let i := (M - ii)%nat in
      loop (dng D i) (fun jj '(v, ngg) =>
        (upd (upd v (nb2 + (nbg + ngg))%nat (x i (dnb D i + jj)%nat)) (2 * nb2 + ng2 + (nbg + ngg))%nat (x i (2 * dnb D i + dng D i + jj)%nat), S ngg)) s) (v, 0%nat) in
  let v := VECCP (dng D 0) (x 0%nat) (2 * dnb D 0 + dng D 0) (VECCP (dng D 0) (x 0%nat) (dnb D 0) v (nb2 + nbg + ngg)) (2 * nb2 + ng2 + nbg + ngg) in
  soft_fwd (fun i => 2 * dnb D i + 2 * dng D i)%nat (2 * nb2 + 2 * ng2) x v.
End S.

(** COND_SOL; [last], [prim], [dineq], [deq] = cond_arg->cond_last_stage, comp_prim_sol, comp_dual_sol_ineq, comp_dual_sol_eq.
    [ds] = the dense solution object before the call *)
Definition cond_sol (last prim dineq deq : bool) (qp : oqp F) (sol : osol F) (ds : dsol F) : dsol F :=
  let D := q_dim qp in let Np := dN D in let M := last_stage last Np in
  if andb (Nat.eqb M 0) last then
    let nc := (2 * dnb D 0 + 2 * dng D 0 + 2 * dns D 0)%nat in
    mkdsol (if prim then VECCP (dnu D 0 + dnx D 0 + 2 * dns D 0) (s_ux sol 0%nat) 0 (ds_v ds) 0 else ds_v ds) (ds_pi ds)
       (if dineq then VECCP nc (s_lam sol 0%nat) 0 (ds_lam ds) 0 else ds_lam ds) (if dineq then VECCP nc (s_t sol 0%nat) 0 (ds_t ds) 0 else ds_t ds)
  else
    mkdsol (if prim then csol_prim qp M (s_ux sol) (ds_v ds) else ds_v ds)
      (if andb deq (negb last) then VECCP (dnx D Np) (s_pi sol (Np - 1)%nat) 0 (ds_pi ds) 0 else ds_pi ds)
      (if dineq then csol_ineq qp M (s_lam sol) (ds_lam ds) else ds_lam ds) (if dineq then csol_ineq qp M (s_t sol) (ds_t ds) else ds_t ds).

(** PART_COND_QP_COND_SOL: block ii of the solution into stage ii of the solution of the second QP *)
Definition put_stage_sol (ps : osol F) (ii : nat) (ds : dsol F) : osol F :=
  mksol (upd (s_ux ps) ii (ds_v ds)) (upd (s_pi ps) ii (ds_pi ds)) (upd (s_lam ps) ii (ds_lam ds)) (upd (s_t ps) ii (ds_t ds)).
Definition part_cond_sol (last prim dineq deq : nat -> bool) (bs : nat -> nat) (N2 : nat) (qp : oqp F) (sol ps : osol F) : osol F :=
  fst (loop (N2 + 1) (fun ii '(ps, o) =>
    (put_stage_sol ps ii (cond_sol (last ii) (prim ii) (dineq ii) (deq ii) (sub_qp qp o (bs ii)) (sub_sol sol o) (stage_sol ps ii)), o + bs ii)%nat) (ps, 0%nat)).
End Csol.
