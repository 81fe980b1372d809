(** RedModel.v -- elimination of the variables fixed by equality bounds and its inverse (ocp_qp/x_ocp_qp_red.c). *)
From Coq Require Import ZArith Bool Arith.
From Verif Require Import Base ArithF Blas OcpModel.

(** The equality part of struct OCP_QP_DIM / OCP_QP (include/hpipm_d_ocp_qp_dim.h, hpipm_d_ocp_qp.h): nbu, nbx (number of bounds on inputs and
    states), nbue, nbxe (number of those marked as equalities) and idxe: positions in the list of bounds (first those of inputs, then of
    states, then general constraints) of the constraints marked as equalities. *)
Record eqd := mkeqd { e_nbu : nat -> nat; e_nbx : nat -> nat; e_nbue : nat -> nat; e_nbxe : nat -> nat; e_idxe : nat -> nat -> nat }.
(** OCP_QP_DIM_REDUCE_EQ_DOF, lines 38-71: reduced dimensions (N is not written by the function: dim_red is created with the same N);
    natural numbers, so a subtraction below zero is cut at zero *)
Definition dim_reduce (D : dims) (e : eqd) : dims :=
  mkdims (dN D) (fun i => dnx D i - (if Nat.eqb i 0 then e_nbxe e i else 0))%nat (fun i => dnu D i - e_nbue e i)%nat
    (fun i => (e_nbu e i - e_nbue e i) + (e_nbx e i - (if Nat.eqb i 0 then e_nbxe e i else 0)))%nat (dng D) (dns D).
(** number of bounds removed at stage i: ne_thr, lines 311-314 *)
Definition ne_thr (e : eqd) (i : nat) : nat := if Nat.eqb i 0 then (e_nbue e i + e_nbxe e i)%nat else e_nbue e i.

(** The loops   idx0=0; for(jj=0; jj<n; jj++) if(mask[jj]==0) { body(jj, idx0); idx0++; } *)
Definition comp {S : Type} (n : nat) (mask : nat -> bool) (body : nat -> nat -> S -> S) (s : S) : S :=
  fst (loop n (fun jj '(s, idx0) => if mask jj then (s, idx0) else (body jj idx0 s, Datatypes.S idx0)) (s, 0%nat)).

Section Red.
Context {F : Type} {AF : Arith F}.
Local Open Scope F_scope.
Notation vec := (nat -> F).
Notation mat := (nat -> nat -> F).
(** struct OCP_QP_REDUCE_EQ_DOF_WS: tmp_nuxM+0, tmp_nuxM+1, tmp_nbgM, e_imask_ux, e_imask_d *)
Record rwork := mkrw { rw_x0 : vec; rw_x1 : vec; rw_bg : vec; rw_mx : nat -> bool; rw_md : nat -> bool }.
(** marks, lines 317-327: tmp_nuxM+0 = fixed values, e_imask_ux, e_imask_d *)
Definition red_marks (nux nb ne : nat) (idxb idxe : nat -> nat) (d : vec) (w : rwork) : rwork :=
  let x0 := VECSE nux f0 (rw_x0 w) 0 in
  let mx := loop nux (fun jj m => upd m jj false) (rw_mx w) in
  let md := loop nb (fun jj m => upd m jj false) (rw_md w) in
  let '(x0, mx, md) := loop ne (fun jj '(x0, mx, md) =>
      (upd x0 (idxb (idxe jj)) (d (idxe jj)), upd mx (idxb (idxe jj)) true, upd md (idxe jj) true)) (x0, mx, md) in
  mkrw x0 (rw_x1 w) (rw_bg w) mx md.
(** rows of BAbt (331-340) and DCt (402-411) of the variables kept *)
Definition red_rows (nux ncol : nat) (mx : nat -> bool) (A B : mat) : mat := comp nux mx (fun jj idx0 B => GECP 1 ncol A jj 0 B idx0 0) B.
(** lower triangle of RSQrq, lines 344-364 *)
Definition red_hess (nux : nat) (mx : nat -> bool) (A B : mat) : mat :=
  comp nux mx (fun jj idx0 B =>
    fst (loop (nux - jj) (fun q '(B, idx1) => let kk := (jj + q)%nat in if mx kk then (B, idx1) else (mset B idx1 idx0 (A kk jj), S idx1)) (B, idx0))) B.
(** rq, lines 365-375 *)
Definition red_vec (nux : nat) (mx : nat -> bool) (x v : vec) : vec := comp nux mx (fun jj idx0 v => upd v idx0 (x jj)) v.
(** bounds: d, d_mask, m (lower entry and upper entry), idxb, idxs_rev, lines 376-392; one traversal in the code, here one for each vector *)
Definition red_bnd (nb ng nbr ngr : nat) (md : nat -> bool) (x v : vec) : vec :=
  comp nb md (fun jj idx0 v => upd (upd v idx0 (x jj)) (nbr + ngr + idx0)%nat (x (nb + ng + jj)%nat)) v.
Definition red_idx {A} (nb : nat) (md : nat -> bool) (x v : nat -> A) : nat -> A := comp nb md (fun jj idx0 v => upd v idx0 (x jj)) v.
(** general constraints and slacks: lines 393-398, for each of d, d_mask, m *)
Definition red_gen (nb ng ns nbr ngr : nat) (x v : vec) : vec := VECCP (ng + 2 * ns) x (2 * nb + ng) (VECCP ng x nb v nbr) (2 * nbr + ngr).

(** OCP_QP_REDUCE_EQ_DOF_RHS, lines 622-731 (identical statements in OCP_QP_REDUCE_EQ_DOF, lines 278-466): one stage.
    [Dr] = dimensions of the reduced QP object *)
Definition red_rhs_stage (qp : oqp F) (e : eqd) (ii : nat) (s : oqp F * rwork) : oqp F * rwork :=
  let '(r, w) := s in let D := q_dim qp in let Dr := q_dim r in
  let nux := (dnu D ii + dnx D ii)%nat in let nb := dnb D ii in let ng := dng D ii in let ns := dns D ii in
  let nbr := dnb Dr ii in let ngr := dng Dr ii in let nx1 := dnx D (ii + 1) in
  if Nat.ltb 0 (ne_thr e ii) then
    let w := red_marks nux (e_nbu e ii + e_nbx e ii) (ne_thr e ii) (q_idxb qp ii) (e_idxe e ii) (q_d qp ii) w in
    let b := if Nat.ltb ii (dN D) then upd (q_b r) ii (GEMV_T nux nx1 f1 (q_BAbt qp ii) 0 0 (rw_x0 w) 0 f1 (q_b qp ii) 0 (q_b r ii) 0) else q_b r in
    let x1 := SYMV_L nux f1 (q_RSQ qp ii) 0 0 (rw_x0 w) 0 f1 (q_rqz qp ii) 0 (rw_x1 w) 0 in
    let g := red_vec nux (rw_mx w) x1 (q_rqz r ii) in
    let cp (x v : vec) := red_gen nb ng ns nbr ngr x (red_bnd nb ng nbr ngr (rw_md w) x v) in
    let bg := GEMV_T nux ng f1 (q_DCt qp ii) 0 0 (rw_x0 w) 0 f0 (rw_bg w) 0 (rw_bg w) 0 in
    let d := cp (q_d qp ii) (q_d r ii) in
    let d := AXPY ng (- f1) bg 0 (q_d qp ii) nb d nbr in
    let d := AXPY ng f1 bg 0 (q_d qp ii) (2 * nb + ng) d (2 * nbr + ngr) in
    let g := VECCP (2 * ns) (q_rqz qp ii) nux g (dnu Dr ii + dnx Dr ii) in
    (mkqp Dr (q_BAbt r) (q_RSQ r) (q_DCt r) b (upd (q_rqz r) ii g) (upd (q_d r) ii d) (upd (q_mask r) ii (cp (q_mask qp ii) (q_mask r ii)))
       (upd (q_m r) ii (cp (q_m qp ii) (q_m r ii))) (q_Z r) (q_idxb r) (q_idxs_rev r), mkrw (rw_x0 w) x1 bg (rw_mx w) (rw_md w))
  else
    let nc := (2 * nb + 2 * ng + 2 * ns)%nat in
    (mkqp Dr (q_BAbt r) (q_RSQ r) (q_DCt r) (if Nat.ltb ii (dN D) then upd (q_b r) ii (VECCP nx1 (q_b qp ii) 0 (q_b r ii) 0) else q_b r)
       (upd (q_rqz r) ii (VECCP (nux + 2 * ns) (q_rqz qp ii) 0 (q_rqz r ii) 0)) (upd (q_d r) ii (VECCP nc (q_d qp ii) 0 (q_d r ii) 0))
       (upd (q_mask r) ii (VECCP nc (q_mask qp ii) 0 (q_mask r ii) 0)) (upd (q_m r) ii (VECCP nc (q_m qp ii) 0 (q_m r ii) 0)) (q_Z r) (q_idxb r) (q_idxs_rev r), w).
(** OCP_QP_REDUCE_EQ_DOF_LHS, lines 470-618 (identical statements in OCP_QP_REDUCE_EQ_DOF): one stage.  [al] = arg->alias_unchanged: the
    matrices of an unchanged stage are then shared (here: equal at the time of the call) instead of copied.  idxe and diag_H_flag are not
    modelled (idxe of a reduced stage is not written, "TODO idxe"). *)
Definition red_lhs_stage (al : bool) (qp : oqp F) (e : eqd) (ii : nat) (s : oqp F * rwork) : oqp F * rwork :=
  let '(r, w) := s in let D := q_dim qp in let Dr := q_dim r in
  let nux := (dnu D ii + dnx D ii)%nat in let nb := dnb D ii in let ng := dng D ii in let ns := dns D ii in
  let nbr := dnb Dr ii in let nx1 := dnx D (ii + 1) in
  if Nat.ltb 0 (ne_thr e ii) then
    let w := red_marks nux (e_nbu e ii + e_nbx e ii) (ne_thr e ii) (q_idxb qp ii) (e_idxe e ii) (q_d qp ii) w in
    (mkqp Dr (if Nat.ltb ii (dN D) then upd (q_BAbt r) ii (red_rows nux nx1 (rw_mx w) (q_BAbt qp ii) (q_BAbt r ii)) else q_BAbt r)
       (upd (q_RSQ r) ii (red_hess nux (rw_mx w) (q_RSQ qp ii) (q_RSQ r ii))) (upd (q_DCt r) ii (red_rows nux ng (rw_mx w) (q_DCt qp ii) (q_DCt r ii)))
       (q_b r) (q_rqz r) (q_d r) (q_mask r) (q_m r) (upd (q_Z r) ii (VECCP (2 * ns) (q_Z qp ii) 0 (q_Z r ii) 0))
       (upd (q_idxb r) ii (red_idx nb (rw_md w) (q_idxb qp ii) (q_idxb r ii)))
       (upd (q_idxs_rev r) ii (loop ng (fun jj v => upd v (nbr + jj)%nat (q_idxs_rev qp ii (nb + jj)%nat)) (red_idx nb (rw_md w) (q_idxs_rev qp ii) (q_idxs_rev r ii)))), w)
  else if al then
    (mkqp Dr (if Nat.ltb ii (dN D) then upd (q_BAbt r) ii (q_BAbt qp ii) else q_BAbt r) (upd (q_RSQ r) ii (q_RSQ qp ii)) (upd (q_DCt r) ii (q_DCt qp ii))
       (q_b r) (q_rqz r) (q_d r) (q_mask r) (q_m r) (upd (q_Z r) ii (q_Z qp ii)) (upd (q_idxb r) ii (q_idxb qp ii)) (upd (q_idxs_rev r) ii (q_idxs_rev qp ii)), w)
  else
    (mkqp Dr (if Nat.ltb ii (dN D) then upd (q_BAbt r) ii (GECP (nux + 1) nx1 (q_BAbt qp ii) 0 0 (q_BAbt r ii) 0 0) else q_BAbt r)
       (upd (q_RSQ r) ii (GECP (nux + 1) nux (q_RSQ qp ii) 0 0 (q_RSQ r ii) 0 0)) (upd (q_DCt r) ii (GECP nux ng (q_DCt qp ii) 0 0 (q_DCt r ii) 0 0))
       (q_b r) (q_rqz r) (q_d r) (q_mask r) (q_m r) (upd (q_Z r) ii (VECCP (2 * ns) (q_Z qp ii) 0 (q_Z r ii) 0))
       (upd (q_idxb r) ii (loop nb (fun jj v => upd v jj (q_idxb qp ii jj)) (q_idxb r ii)))
       (upd (q_idxs_rev r) ii (loop (nb + ng) (fun jj v => upd v jj (q_idxs_rev qp ii jj)) (q_idxs_rev r ii))), w).
Definition reduce_lhs (al : bool) (qp : oqp F) (e : eqd) (s : oqp F * rwork) : oqp F * rwork := loop (dN (q_dim qp) + 1) (red_lhs_stage al qp e) s.
Definition reduce_rhs (qp : oqp F) (e : eqd) (s : oqp F * rwork) : oqp F * rwork := loop (dN (q_dim qp) + 1) (red_rhs_stage qp e) s.
(** OCP_QP_REDUCE_EQ_DOF, lines 278-466: per stage the statements of both (the marks are computed once; the two groups write different
    fields, so their interleaving inside a stage is immaterial) *)
Definition reduce_eq_dof (al : bool) (qp : oqp F) (e : eqd) (s : oqp F * rwork) : oqp F * rwork :=
  loop (dN (q_dim qp) + 1) (fun ii s => red_rhs_stage qp e ii (red_lhs_stage al qp e ii s)) s.

(** OCP_QP_RESTORE_EQ_DOF, lines 848-994.  [pr], [du], [dq] = comp_prim_sol, comp_dual_sol_ineq, comp_dual_sol_eq; lmin, tmin = arg->lam_min, t_min *)
Definition res_bnd (nb ng nbr ngr : nat) (md : nat -> bool) (c : F) (x v : vec) : vec :=
  fst (loop nb (fun jj '(v, idx0) => if md jj then (upd (upd v jj c) (nb + ng + jj)%nat c, idx0)
                                     else (upd (upd v jj (x idx0)) (nb + ng + jj)%nat (x (nbr + ngr + idx0)%nat), S idx0)) (v, 0%nat)).
Definition res_gen (nb ng ns nbr ngr : nat) (x v : vec) : vec := VECCP (ng + 2 * ns) x (2 * nbr + ngr) (VECCP ng x nbr v nb) (2 * nb + ng).
(** gradient of the Lagrangian of stage ii and the multipliers of the removed bounds, lines 948-966 *)
Definition res_mult (qp : oqp F) (ii : nat) (md : nat -> bool) (pir ux : vec) (lam x0 bg : vec) : vec * vec * vec :=
  let D := q_dim qp in let nux := (dnu D ii + dnx D ii)%nat in let nb := dnb D ii in let ng := dng D ii in
  let x0 := VECCP nux (q_rqz qp ii) 0 x0 0 in
  let bg := AXPY (nb + ng) (- f1) lam 0 lam (nb + ng) bg 0 in
  let x0 := VECAD_SP nb f1 bg 0 (q_idxb qp ii) x0 0 in
  let x0 := SYMV_L nux f1 (q_RSQ qp ii) 0 0 ux 0 f1 x0 0 x0 0 in
  let x0 := if Nat.ltb ii (dN D) then GEMV_N nux (dnx D (ii + 1)) f1 (q_BAbt qp ii) 0 0 pir 0 f1 x0 0 x0 0 else x0 in
  let x0 := GEMV_N nux ng f1 (q_DCt qp ii) 0 0 bg nb f1 x0 0 x0 0 in
  (loop nb (fun jj lam => if md jj then let tmp := x0 (q_idxb qp ii jj) in if tmp >=? f0 then upd lam jj tmp else upd lam (nb + ng + jj)%nat (- tmp) else lam) lam, x0, bg).
Definition restore_stage (pr du dq : bool) (lmin tmin : F) (qp : oqp F) (Dr : dims) (e : eqd) (r : osol F) (ii : nat) (s : osol F * rwork) : osol F * rwork :=
  let '(o, w) := s in let D := q_dim qp in
  let nux := (dnu D ii + dnx D ii)%nat in let nb := dnb D ii in let ng := dng D ii in let ns := dns D ii in
  let nbr := dnb Dr ii in let ngr := dng Dr ii in let nc := (2 * nb + 2 * ng + 2 * ns)%nat in
  let pi := if dq then if Nat.ltb ii (dN D) then upd (s_pi o) ii (VECCP (dnx D (ii + 1)) (s_pi r ii) 0 (s_pi o ii) 0) else s_pi o else s_pi o in
  if Nat.ltb 0 (ne_thr e ii) then
    let w1 := red_marks nux nb (ne_thr e ii) (q_idxb qp ii) (e_idxe e ii) (q_d qp ii) w in
    let mx := rw_mx w1 in let md := rw_md w1 in
    let ux := if pr then
        let u := fst (loop nux (fun jj '(u, idx0) => if mx jj then (u, idx0) else (upd u jj (s_ux r ii idx0), S idx0)) (s_ux o ii, 0%nat)) in
        let u := loop (ne_thr e ii) (fun jj u => upd u (q_idxb qp ii (e_idxe e ii jj)) (q_d qp ii (e_idxe e ii jj))) u in
        upd (s_ux o) ii (VECCP (2 * ns) (s_ux r ii) (dnu Dr ii + dnx Dr ii) u nux)
      else s_ux o in
    let x0 := VECSE nux f0 (rw_x0 w) 0 in
    if du then
      let lam := res_gen nb ng ns nbr ngr (s_lam r ii) (res_bnd nb ng nbr ngr md lmin (s_lam r ii) (s_lam o ii)) in
      let t := res_gen nb ng ns nbr ngr (s_t r ii) (res_bnd nb ng nbr ngr md tmin (s_t r ii) (s_t o ii)) in
      let '(lam, x0, bg) := res_mult qp ii md (s_pi r ii) (ux ii) lam x0 (rw_bg w) in
      (mksol ux pi (upd (s_lam o) ii lam) (upd (s_t o) ii t), mkrw x0 (rw_x1 w) bg mx md)
    else (mksol ux pi (s_lam o) (s_t o), mkrw x0 (rw_x1 w) (rw_bg w) mx md)
  else
    (mksol (if pr then upd (s_ux o) ii (VECCP (nux + 2 * ns) (s_ux r ii) 0 (s_ux o ii) 0) else s_ux o) pi
       (if du then upd (s_lam o) ii (VECCP nc (s_lam r ii) 0 (s_lam o ii) 0) else s_lam o)
       (if du then upd (s_t o) ii (VECCP nc (s_t r ii) 0 (s_t o ii) 0) else s_t o), w).
(** the whole function: r = solution of the reduced QP (dimensions Dr) *)
Definition restore_eq_dof (pr du dq : bool) (lmin tmin : F) (qp : oqp F) (Dr : dims) (e : eqd) (r : osol F) (s : osol F * rwork) : osol F * rwork :=
  loop (dN (q_dim qp) + 1) (restore_stage pr du dq lmin tmin qp Dr e r) s.

(** OCP_QP_REDUCE_EQ_DOF_SOL, lines 1148-1264: the reduced image of a solution (e.g. to warm start the solver of the reduced QP) *)
Definition redsol_stage (pr du dq : bool) (qp : oqp F) (Dr : dims) (e : eqd) (o : osol F) (ii : nat) (s : osol F * rwork) : osol F * rwork :=
  let '(r, w) := s in let D := q_dim qp in
  let nux := (dnu D ii + dnx D ii)%nat in let nb := dnb D ii in let ng := dng D ii in let ns := dns D ii in
  let nbr := dnb Dr ii in let ngr := dng Dr ii in let nc := (2 * nb + 2 * ng + 2 * ns)%nat in
  let pi := if dq then if Nat.ltb ii (dN D) then upd (s_pi r) ii (VECCP (dnx D (ii + 1)) (s_pi o ii) 0 (s_pi r ii) 0) else s_pi r else s_pi r in
  if Nat.ltb 0 (ne_thr e ii) then
    let w1 := red_marks nux nb (ne_thr e ii) (q_idxb qp ii) (e_idxe e ii) (q_d qp ii) w in
    let cp (x v : vec) := red_gen nb ng ns nbr ngr x (red_bnd nb ng nbr ngr (rw_md w1) x v) in
    (mksol (if pr then upd (s_ux r) ii (VECCP (2 * ns) (s_ux o ii) nux (red_vec nux (rw_mx w1) (s_ux o ii) (s_ux r ii)) (dnu Dr ii + dnx Dr ii)) else s_ux r) pi
       (if du then upd (s_lam r) ii (cp (s_lam o ii) (s_lam r ii)) else s_lam r) (if du then upd (s_t r) ii (cp (s_t o ii) (s_t r ii)) else s_t r),
     mkrw (VECSE nux f0 (rw_x0 w) 0) (rw_x1 w) (rw_bg w) (rw_mx w1) (rw_md w1))
  else
    (mksol (if pr then upd (s_ux r) ii (VECCP (nux + 2 * ns) (s_ux o ii) 0 (s_ux r ii) 0) else s_ux r) pi
       (if du then upd (s_lam r) ii (VECCP nc (s_lam o ii) 0 (s_lam r ii) 0) else s_lam r)
       (if du then upd (s_t r) ii (VECCP nc (s_t o ii) 0 (s_t r ii) 0) else s_t r), w).
Definition reduce_sol (pr du dq : bool) (qp : oqp F) (Dr : dims) (e : eqd) (o : osol F) (s : osol F * rwork) : osol F * rwork :=
  loop (dN (q_dim qp) + 1) (redsol_stage pr du dq qp Dr e o) s.
End Red.
