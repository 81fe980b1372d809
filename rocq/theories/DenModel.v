(** DenModel.v -- dense QP, solution and residual objects, and the dense residual computation (dense_qp/x_dense_qp_res.c). *)
From Coq Require Import ZArith Bool Arith.
From Verif Require Import Base ArithF Blas OcpModel.

(** struct DENSE_QP_DIM / DENSE_QP (include/hpipm_d_dense_qp_dim.h, include/hpipm_d_dense_qp.h).  v = [v; sl; su];
    d, d_mask, m, lam, t = [lb; lg; -ub; -ug; ls; us]; A is ne x nv, Ct is nv x ng, H lower triangular storage of the Hessian. *)
Record dqp (F : Type) := mkdqp { d_nv : nat; d_ne : nat; d_nb : nat; d_ng : nat; d_ns : nat;
  d_H : nat -> nat -> F; d_A : nat -> nat -> F; d_Ct : nat -> nat -> F; d_gz : nat -> F; d_b : nat -> F;
  d_d : nat -> F; d_mask : nat -> F; d_m : nat -> F; d_Z : nat -> F; d_idxb : nat -> nat; d_idxs_rev : nat -> Z }.
(** struct DENSE_QP_SOL, struct DENSE_QP_RES *)
Record dsol (F : Type) := mkdsol { ds_v : nat -> F; ds_pi : nat -> F; ds_lam : nat -> F; ds_t : nat -> F }.
Record dres (F : Type) := mkdres { dr_g : nat -> F; dr_b : nat -> F; dr_d : nat -> F; dr_m : nat -> F; dr_obj : F; dr_gap : F; dr_mu : F; dr_mu_sum : F }.
Arguments mkdqp {F}. Arguments d_nv {F}. Arguments d_ne {F}. Arguments d_nb {F}. Arguments d_ng {F}. Arguments d_ns {F}.
Arguments d_H {F}. Arguments d_A {F}. Arguments d_Ct {F}. Arguments d_gz {F}. Arguments d_b {F}. Arguments d_d {F}. Arguments d_mask {F}. Arguments d_m {F}.
Arguments d_Z {F}. Arguments d_idxb {F}. Arguments d_idxs_rev {F}.
Arguments mkdsol {F}. Arguments ds_v {F}. Arguments ds_pi {F}. Arguments ds_lam {F}. Arguments ds_t {F}.
Arguments mkdres {F}. Arguments dr_g {F}. Arguments dr_b {F}. Arguments dr_d {F}. Arguments dr_m {F}. Arguments dr_obj {F}. Arguments dr_gap {F}. Arguments dr_mu {F}. Arguments dr_mu_sum {F}.
Definition d_nct {F} (q : dqp F) : nat := 2 * d_nb q + 2 * d_ng q + 2 * d_ns q.

Section Den.
Context {F : Type} {AF : Arith F}.
Local Open Scope F_scope.
Notation vec := (nat -> F).

(** lines 297-303: number of constraints with mask 1.0, and whether there is any other *)
Definition den_mask_count (nct : nat) (mask : vec) : nat * bool :=
  loop nct (fun jj '(n, c) => if mask jj =? f1 then (S n, c) else (n, true)) (0%nat, false).

(** DENSE_QP_RES_COMPUTE, lines 243-400.  [valid] = (ws->valid_nc_mask==1) with the cached mask_constr and nc_mask_inv; the blocks
    [ineq_block] and [soft_block] are shared with the OCP code (same text, see OcpModel.v). *)
Definition den_res_compute (valid : option (bool * F)) (qp : dqp F) (sol : dsol F) (res : dres F) (ws : rws F) : dres F * rws F :=
  let nv := d_nv qp in let ne := d_ne qp in let nb := d_nb qp in let ng := d_ng qp in let ns := d_ns qp in
  let nct := (2 * nb + 2 * ng + 2 * ns)%nat in
  let gz := d_gz qp in let d := d_d qp in let mask := d_mask qp in
  let v := ds_v sol in let pi := ds_pi sol in let lam := ds_lam sol in let t := ds_t sol in
  let '(mc, nc_mask_inv) :=
    match valid with
    | Some (mc, inv) => (mc, inv)
    | None => let '(n, mc) := den_mask_count nct mask in (mc, if Nat.ltb 0 n then inv_count n else f0)
    end in
  let obj := f0 in
  let gap := f0 in
  let g := SYMV_L nv f1 (d_H qp) 0 0 v 0 (lit 2 1) gz 0 (dr_g res) 0 in
  let obj := obj + lit 1 2 * DOT nv g 0 v 0 in
  let g := AXPY nv (- f1) gz 0 g 0 g 0 in
  let gap := gap + DOT nv g 0 v 0 in
  let lamk := if mc then VECMUL nct lam 0 mask 0 (w_lam ws) 0 else VECCP nct lam 0 (w_lam ws) 0 in
  let '(g, dd, bg0, bg1) := ineq_block nv nb ng (d_idxb qp) (d_Ct qp) d t v lamk (g, dr_d res, w_bg0 ws, w_bg1 ws) in
  let '(g, dd, obj, gap) :=
    if Nat.ltb 0 ns then
      let g := GEMV_DIAG (2 * ns) f1 (d_Z qp) 0 v nv (lit 2 1) gz nv g nv in
      let obj := obj + lit 1 2 * DOT (2 * ns) g nv v nv in
      let g := AXPY (2 * ns) (- f1) gz nv g nv g nv in
      let gap := gap + DOT (2 * ns) g nv v nv in
      let '(g, dd) := soft_block nv nb ng ns (d_idxs_rev qp) d t v lamk (g, dd) in
      (g, dd, obj, gap)
    else (g, dd, obj, gap) in
  let dd := if mc then VECMUL nct mask 0 dd 0 dd 0 else dd in
  let gap := gap - DOT nct d 0 lamk 0 in
  let '(bb, g, gap) :=
    if Nat.ltb 0 ne then
      let '(bb, g) := GEMV_NT ne nv (- f1) (- f1) (d_A qp) 0 0 v 0 pi 0 f1 f1 (d_b qp) 0 g 0 (dr_b res) 0 g 0 in
      (bb, g, gap - DOT ne (d_b qp) 0 pi 0)
    else (dr_b res, g, gap) in
  let mm := VECMUL nct lamk 0 t 0 (dr_m res) 0 in
  let mm := AXPY nct (- f1) (d_m qp) 0 mm 0 mm 0 in
  let mm := if mc then VECMUL nct mask 0 mm 0 mm 0 else mm in
  let mu := VECNRM_1 nct mm 0 in
  (mkdres g bb dd mm obj gap (mu * nc_mask_inv) mu, mkrws bg0 bg1 lamk).

(** lines 448-456 *)
Definition den_any_mask (nct : nat) (mask : vec) : bool := loop nct (fun jj c => if negb (mask jj =? f1) then true else c) false.
(** DENSE_QP_RES_COMPUTE_LIN, lines 404-532: linearised residual at the step [stp] around [sol]. *)
Definition den_reslin_compute (valid : option bool) (qp : dqp F) (sol stp : dsol F) (res : dres F) (ws : rws F) : dres F * rws F :=
  let nv := d_nv qp in let ne := d_ne qp in let nb := d_nb qp in let ng := d_ng qp in let ns := d_ns qp in
  let nct := (2 * nb + 2 * ng + 2 * ns)%nat in
  let gz := d_gz qp in let d := d_d qp in let mask := d_mask qp in
  let v := ds_v stp in let pi := ds_pi stp in let lam := ds_lam stp in let t := ds_t stp in
  let mc := match valid with Some mc => mc | None => den_any_mask nct mask end in
  let g := SYMV_L nv f1 (d_H qp) 0 0 v 0 f1 gz 0 (dr_g res) 0 in
  let lamk := if mc then VECMUL nct lam 0 mask 0 (w_lam ws) 0 else VECCP nct lam 0 (w_lam ws) 0 in
  let '(g, dd, bg0, bg1) := ineq_block nv nb ng (d_idxb qp) (d_Ct qp) d t v lamk (g, dr_d res, w_bg0 ws, w_bg1 ws) in
  let '(g, dd) :=
    if Nat.ltb 0 ns then
      let g := GEMV_DIAG (2 * ns) f1 (d_Z qp) 0 v nv f1 gz nv g nv in
      let '(g, dd) := soft_block nv nb ng ns (d_idxs_rev qp) d t v lamk (g, dd) in
      (g, dd)
    else (g, dd) in
  let dd := if mc then VECMUL nct mask 0 dd 0 dd 0 else dd in
  let '(bb, g) :=
    if Nat.ltb 0 ne then GEMV_NT ne nv (- f1) (- f1) (d_A qp) 0 0 v 0 pi 0 f1 f1 (d_b qp) 0 g 0 (dr_b res) 0 g 0 else (dr_b res, g) in
  let mm := VECCP nct (d_m qp) 0 (dr_m res) 0 in
  let mm := VECMULACC nct (ds_lam sol) 0 t 0 mm 0 in
  let mm := VECMULACC nct lam 0 (ds_t sol) 0 mm 0 in
  let mm := if mc then VECMUL nct mask 0 mm 0 mm 0 else mm in
  (mkdres g bb dd mm (dr_obj res) (dr_gap res) (dr_mu res) (dr_mu_sum res), mkrws bg0 bg1 lamk).

(** DENSE_QP_RES_COMPUTE_INF_NORM, lines 536-564 *)
Definition den_inf_norm (qp : dqp F) (res : dres F) : F * F * F * F :=
  (VECNRM_INF (d_nv qp + 2 * d_ns qp) (dr_g res) 0, VECNRM_INF (d_ne qp) (dr_b res) 0, VECNRM_INF (d_nct qp) (dr_d res) 0, VECNRM_INF (d_nct qp) (dr_m res) 0).
End Den.
