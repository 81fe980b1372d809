(** TreeModel.v -- tree_ocp_qp/x_tree_ocp_qp_res.c: residuals of tree-structured OCP QPs. *)
From Coq Require Import ZArith Bool Arith.
From Verif Require Import Base ArithF Blas OcpModel.

(** struct tree (include/hpipm_tree.h lines 48-65) as the tree code reads it: ttree->root[ii].nkids and ttree->root[ii].kids[jj]. *)
Record ttree := mktree { t_nk : nat -> nat; t_kid : nat -> nat -> nat }.
(** struct TREE_OCP_QP (include/hpipm_d_tree_ocp_qp.h lines 50-66), TREE_OCP_QP_SOL, TREE_OCP_QP_RES have the fields of their OCP_QP
    counterparts, indexed by the node instead of the stage: the records oqp, osol, ores are used for them.  Differences: there
    are Nn = dN + 1 nodes, node 0 is the root, and the data of the edge into node k (BAbt, b, pi, res_b) has index k - 1. *)

Section TRes.
Context {F : Type} {AF : Arith F}.
Local Open Scope F_scope.
Notation vec := (nat -> F).

(** the loop over the kids of node ii, lines 565-583 (LIN 734-747): state res_g of the node, res_b of all edges, dual_gap
    (LIN has no dual_gap: the caller drops it) *)
Definition kids_loop (T : ttree) (qp : oqp F) (ux pi : nat -> vec) (ii : nat) (s : vec * (nat -> vec) * F) : vec * (nat -> vec) * F :=
  let D := q_dim qp in let n := (dnu D ii + dnx D ii)%nat in
  loop (t_nk T ii) (fun jj '(g, rb, gap) =>
    let k := t_kid T ii jj in
    let nu1 := dnu D k in let nx1 := dnx D k in
    let bb := AXPY nx1 (- f1) (ux k) nu1 (q_b qp (k - 1)) 0 (rb (k - 1)%nat) 0 in
    let '(g, bb) := GEMV_NT n nx1 f1 f1 (q_BAbt qp (k - 1)) 0 0 (pi (k - 1)%nat) 0 (ux ii) 0 f1 f1 g 0 bb 0 g 0 bb 0 in
    (g, upd rb (k - 1)%nat bb, gap - DOT nx1 (q_b qp (k - 1)) 0 (pi (k - 1)%nat) 0)) s.

(** One node of TREE_OCP_QP_RES_COMPUTE, lines 489-595.  Note line 516: tmp_nbgM+0 is computed from lam, not from the masked
    tmp_lam_mask, and line 563: the dual gap uses lam too. *)
Definition tree_node (mc : bool) (T : ttree) (qp : oqp F) (sol : osol F) (ii : nat) (st : ores F * rws F) : ores F * rws F :=
  let '(res, ws) := st in
  let D := q_dim qp in
  let nx0 := dnx D ii in let nu0 := dnu D ii in let nb0 := dnb D ii in let ng0 := dng D ii in let ns0 := dns D ii in
  let nc0 := (2 * nb0 + 2 * ng0 + 2 * ns0)%nat in
  let ux := s_ux sol ii in let lam := s_lam sol ii in let t := s_t sol ii in
  let rqz := q_rqz qp ii in let d := q_d qp ii in let mask := q_mask qp ii in
  let g := SYMV_L (nu0 + nx0) f1 (q_RSQ qp ii) 0 0 ux 0 (lit 2 1) rqz 0 (r_g res ii) 0 in
  let obj := r_obj res + lit 1 2 * DOT (nu0 + nx0) g 0 ux 0 in
  let g := AXPY (nu0 + nx0) (- f1) rqz 0 g 0 g 0 in
  let gap := r_gap res + DOT (nu0 + nx0) g 0 ux 0 in
  let g := if Nat.ltb 0 ii then AXPY nx0 (- f1) (s_pi sol (ii - 1)) 0 g nu0 g nu0 else g in
  let lamk := if mc then VECMUL nc0 lam 0 mask 0 (w_lam ws) 0 else VECCP nc0 lam 0 (w_lam ws) 0 in
  let '(g, dd, bg0, bg1) :=
    ineq_block (nu0 + nx0) nb0 ng0 (q_idxb qp ii) (q_DCt qp ii) d t ux lam (g, r_d res ii, w_bg0 ws, w_bg1 ws) in
  let '(g, dd, obj, gap) :=
    if Nat.ltb 0 ns0 then
      let g := GEMV_DIAG (2 * ns0) f1 (q_Z qp ii) 0 ux (nu0 + nx0) (lit 2 1) rqz (nu0 + nx0) g (nu0 + nx0) in
      let obj := obj + lit 1 2 * DOT (2 * ns0) g (nu0 + nx0) ux (nu0 + nx0) in
      let g := AXPY (2 * ns0) (- f1) rqz (nu0 + nx0) g (nu0 + nx0) g (nu0 + nx0) in
      let gap := gap + DOT (2 * ns0) g (nu0 + nx0) ux (nu0 + nx0) in
      let '(g, dd) := soft_block (nu0 + nx0) nb0 ng0 ns0 (q_idxs_rev qp ii) d t ux lamk (g, dd) in
      (g, dd, obj, gap)
    else (g, dd, obj, gap) in
  let dd := if mc then VECMUL nc0 mask 0 dd 0 dd 0 else dd in
  let gap := gap - DOT nc0 d 0 lam 0 in
  let '(g, rb, gap) := kids_loop T qp (s_ux sol) (s_pi sol) ii (g, r_b res, gap) in
  let mm := VECMUL nc0 lamk 0 t 0 (r_m res ii) 0 in
  let mm := AXPY nc0 (- f1) (q_m qp ii) 0 mm 0 mm 0 in
  let mm := if mc then VECMUL nc0 mask 0 mm 0 mm 0 else mm in
  let mu := r_mu_sum res + VECNRM_1 nc0 mm 0 in
  (mkres (upd (r_g res) ii g) rb (upd (r_d res) ii dd) (upd (r_m res) ii mm) obj gap (r_mu res) mu, mkrws bg0 bg1 lamk).

(** TREE_OCP_QP_RES_COMPUTE, lines 408-599 *)
Definition tree_res_compute (valid : option (bool * F)) (T : ttree) (qp : oqp F) (sol : osol F) (res : ores F) (ws : rws F) : ores F * rws F :=
  let '(mc, nc_mask_inv) :=
    match valid with
    | Some (mc, inv) => (mc, inv)
    | None => let '(n, mc) := mask_count (q_dim qp) (q_mask qp) in (mc, if Nat.ltb 0 n then inv_count n else f0)
    end in
  let res := mkres (r_g res) (r_b res) (r_d res) (r_m res) f0 f0 (r_mu res) f0 in
  let '(res, ws) := loop (dN (q_dim qp) + 1) (tree_node mc T qp sol) (res, ws) in
  (mkres (r_g res) (r_b res) (r_d res) (r_m res) (r_obj res) (r_gap res) (r_mu_sum res * nc_mask_inv) (r_mu_sum res), ws).

(** One node of TREE_OCP_QP_RES_COMPUTE_LIN, lines 669-757 *)
Definition treelin_node (mc : bool) (T : ttree) (qp : oqp F) (sol stp : osol F) (ii : nat) (st : ores F * rws F) : ores F * rws F :=
  let '(res, ws) := st in
  let D := q_dim qp in
  let nx0 := dnx D ii in let nu0 := dnu D ii in let nb0 := dnb D ii in let ng0 := dng D ii in let ns0 := dns D ii in
  let nc0 := (2 * nb0 + 2 * ng0 + 2 * ns0)%nat in
  let ux := s_ux stp ii in let lam := s_lam stp ii in let t := s_t stp ii in
  let rqz := q_rqz qp ii in let d := q_d qp ii in let mask := q_mask qp ii in
  let g := SYMV_L (nu0 + nx0) f1 (q_RSQ qp ii) 0 0 ux 0 f1 rqz 0 (r_g res ii) 0 in
  let g := if Nat.ltb 0 ii then AXPY nx0 (- f1) (s_pi stp (ii - 1)) 0 g nu0 g nu0 else g in
  let lamk := if mc then VECMUL nc0 lam 0 mask 0 (w_lam ws) 0 else VECCP nc0 lam 0 (w_lam ws) 0 in
  let '(g, dd, bg0, bg1) :=
    ineq_block (nu0 + nx0) nb0 ng0 (q_idxb qp ii) (q_DCt qp ii) d t ux lamk (g, r_d res ii, w_bg0 ws, w_bg1 ws) in
  let '(g, dd) :=
    if Nat.ltb 0 ns0 then
      let g := GEMV_DIAG (2 * ns0) f1 (q_Z qp ii) 0 ux (nu0 + nx0) f1 rqz (nu0 + nx0) g (nu0 + nx0) in
      let '(g, dd) := soft_block (nu0 + nx0) nb0 ng0 ns0 (q_idxs_rev qp ii) d t ux lamk (g, dd) in
      (g, dd)
    else (g, dd) in
  let dd := if mc then VECMUL nc0 mask 0 dd 0 dd 0 else dd in
  let '(g, rb, _) := kids_loop T qp (s_ux stp) (s_pi stp) ii (g, r_b res, f0) in
  let mm := VECCP nc0 (q_m qp ii) 0 (r_m res ii) 0 in
  let mm := VECMULACC nc0 (s_lam sol ii) 0 t 0 mm 0 in
  let mm := VECMULACC nc0 lam 0 (s_t sol ii) 0 mm 0 in
  let mm := if mc then VECMUL nc0 mask 0 mm 0 mm 0 else mm in
  (mkres (upd (r_g res) ii g) rb (upd (r_d res) ii dd) (upd (r_m res) ii mm) (r_obj res) (r_gap res) (r_mu res) (r_mu_sum res), mkrws bg0 bg1 lamk).
(** TREE_OCP_QP_RES_COMPUTE_LIN, lines 603-760 *)
Definition treelin_compute (valid : option bool) (T : ttree) (qp : oqp F) (sol stp : osol F) (res : ores F) (ws : rws F) : ores F * rws F :=
  let mc := match valid with Some mc => mc | None => any_mask (q_dim qp) (q_mask qp) end in
  loop (dN (q_dim qp) + 1) (treelin_node mc T qp sol stp) (res, ws).

(** TREE_OCP_QP_RES_COMPUTE_INF_NORM, lines 764-800: res_g, res_b, res_d, res_m of all nodes (edges) are contiguous, res_b[k-1] has
    size nx[k] *)
Definition tree_inf_norm (D : dims) (res : ores F) : F * F * F * F :=
  let Nn := (dN D + 1)%nat in
  let nv := nsum Nn (nvt D) in
  let ne := nsum (Nn - 1) (fun i => dnx D (i + 1)) in
  let nc := nsum Nn (nct D) in
  (VECNRM_INF nv (cat Nn (nvt D) (r_g res)) 0,
   VECNRM_INF ne (cat (Nn - 1) (fun i => dnx D (i + 1)) (r_b res)) 0,
   VECNRM_INF nc (cat Nn (nct D) (r_d res)) 0,
   VECNRM_INF nc (cat Nn (nct D) (r_m res)) 0).
End TRes.
