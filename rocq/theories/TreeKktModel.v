(** TreeKktModel.v -- tree_ocp_qp/x_tree_ocp_qp_kkt.c: Riccati factorisation and solution of the KKT systems of tree-structured OCP QPs.
    Double precision variants (TRCP_L).  The records kargs, kws, osol are those of KktModel/OcpModel indexed by the node; the tree
    workspace has no BAbt copy, P, AL+1, Ls, l: these fields of kws are carried along unused.  k_AL0 is ws->AL, k_nux is ws->tmp_nxM.
    COND_SLACKS_FACT_SOLVE (lines 158-273), COND_SLACKS_SOLVE (277-365) and EXPAND_SLACKS (369-444) have the text of their OCP_QP
    counterparts: cond_slacks, cond_slacks_solve and expand_slacks are used for them. *)
From Coq Require Import ZArith Bool Arith.
From Verif Require Import Base ArithF Blas Blas2 CoreModel OcpModel KktModel SolveModel TreeModel.

Section TKkt.
Context {F : Type} {AF : Arith F}.
Local Open Scope F_scope.
Notation vec := (nat -> F).
Notation mat := (nat -> nat -> F).

(** ** TREE_OCP_QP_FACT_SOLVE_KKT_STEP, lines 449-625 *)

(** contribution of the kids of node ii to its matrix, lines 517-532: state L of the node, AL, tmp_nxM, Pb.  [LL]: the matrices L of
    all nodes (the kids' are read; a kid is never the node itself). *)
Definition kids_fact (T : ttree) (qp : oqp F) (LL : nat -> mat) (ii : nat) (s : mat * mat * vec * (nat -> vec)) : mat * mat * vec * (nat -> vec) :=
  let D := q_dim qp in let n := (dnu D ii + dnx D ii)%nat in
  loop (t_nk T ii) (fun jj '(L, AL, tx, Pb) =>
    let k := t_kid T ii jj in let nu1 := dnu D k in let nx1 := dnx D k in
    let AL := GECP n nx1 (q_BAbt qp (k - 1)) 0 0 AL 0 0 in
    let AL := ROWIN nx1 f1 (q_b qp (k - 1)) 0 AL n 0 in
    let AL := TRMM_RLNN (n + 1) nx1 f1 (LL k) nu1 nu1 AL 0 0 AL 0 0 in
    let tx := ROWEX nx1 f1 AL n 0 tx 0 in
    let Pb := upd Pb (k - 1)%nat (TRMV_LNN nx1 (LL k) nu1 nu1 tx 0 (Pb (k - 1)%nat) 0) in
    let AL := GEAD 1 nx1 f1 (LL k) (nu1 + nx1) nu1 AL n 0 in
    let L := SYRK_LN_MN (n + 1) n nx1 f1 AL 0 0 AL 0 0 f1 L 0 0 L 0 0 in
    (L, AL, tx, Pb)) s.
(** slacks and bounds of node ii, lines 534-547 *)
Definition node_cons (reg : F) (qp : oqp F) (Gamma gamma : vec) (ii : nat) (L : mat) (s : (nat -> vec) * vec * vec) : mat * ((nat -> vec) * vec * vec) :=
  let D := q_dim qp in
  let n := (dnu D ii + dnx D ii)%nat in let nb := dnb D ii in let ng := dng D ii in let ns := dns D ii in
  let '(tmp, Zs, dux) := s in
  let '(tmp, Zs, dux) :=
    if Nat.ltb 0 ns then cond_slacks n nb ng ns reg (q_idxs_rev qp ii) (q_Z qp ii) (q_rqz qp ii) Gamma gamma (tmp, Zs, dux)
    else if Nat.ltb 0 (nb + ng) then
      let tmp := upd tmp 0%nat (AXPY (nb + ng) f1 Gamma (nb + ng) Gamma 0 (tmp 0%nat) 0) in
      (upd tmp 1%nat (AXPY (nb + ng) (- f1) gamma (nb + ng) gamma 0 (tmp 1%nat) 0), Zs, dux)
    else (tmp, Zs, dux) in
  let L := if Nat.ltb 0 nb then
      ROWAD_SP nb f1 (tmp 1%nat) 0 (q_idxb qp ii) (DIAAD_SP nb f1 (tmp 0%nat) 0 (q_idxb qp ii) L 0 0) n 0 else L in
  (L, (tmp, Zs, dux)).
(** one node of the backward sweep, lines 502-559.  There is no test of the pivots. *)
Definition tfact_node (reg : F) (T : ttree) (qp : oqp F) (Gam gam : nat -> vec) (ii : nat) (w : kws F) : kws F :=
  let D := q_dim qp in
  let n := (dnu D ii + dnx D ii)%nat in let nb := dnb D ii in let ng := dng D ii in
  let L := TRCP_L n (q_RSQ qp ii) 0 0 (k_L w ii) 0 0 in
  let L := DIARE n reg L 0 0 in
  let L := ROWIN n f1 (q_rqz qp ii) 0 L n 0 in
  let '(L, AL, tx, Pb) := kids_fact T qp (k_L w) ii (L, k_AL0 w, k_nux w, k_Pb w) in
  let '(L, (tmp, Zs, dux)) := node_cons reg qp (Gam ii) (gam ii) ii L (k_tmp w, k_Zs w ii, k_ux w ii) in
  let '(L, dA, AL) :=
    if Nat.ltb 0 ng then
      let AL := GEMM_ND n ng f1 (q_DCt qp ii) 0 0 (tmp 0%nat) nb f0 AL 0 0 AL 0 0 in
      let AL := ROWIN ng f1 (tmp 1%nat) nb AL n 0 in
      let '(L, dA) := SYRK_POTRF_LN_MN (n + 1) n ng AL 0 0 (q_DCt qp ii) 0 0 L 0 0 L 0 0 (k_dA w ii) in (L, dA, AL)
    else let '(L, dA) := POTRF_L_MN (n + 1) n L 0 0 L 0 0 (k_dA w ii) in (L, dA, AL) in
  mkkws (k_BAbt w) (upd (k_L w) ii L) (upd (k_dA w) ii dA) (k_P w) AL (k_AL1 w) (k_Ls w) (upd (k_Zs w) ii Zs) tmp tx Pb (k_l w)
     (upd (k_ux w) ii dux) (k_pi w).
(** lines 497-561 *)
Definition tfact (reg : F) (T : ttree) (qp : oqp F) (Gam gam : nat -> vec) (w : kws F) : kws F :=
  let Nn := (dN (q_dim qp) + 1)%nat in loop Nn (fun ss w => tfact_node reg T qp Gam gam (Nn - ss - 1) w) w.

(** number of variables solved for at a node: all at the root, the inputs elsewhere (lines 572-581) *)
Definition nsolve (qp : oqp F) (ii : nat) : nat := if Nat.ltb 0 ii then dnu (q_dim qp) ii else (dnu (q_dim qp) ii + dnx (q_dim qp) ii)%nat.
(** states and multipliers of the kids, lines 583-597: state ux of all nodes, tmp_nxM, pi.  [u] = ux of the node. *)
Definition kids_fwd (dual : bool) (T : ttree) (qp : oqp F) (LL : nat -> mat) (ii : nat) (s : (nat -> vec) * vec * (nat -> vec)) : (nat -> vec) * vec * (nat -> vec) :=
  let D := q_dim qp in let n := (dnu D ii + dnx D ii)%nat in
  loop (t_nk T ii) (fun jj '(ux, tx, pi) =>
    let k := t_kid T ii jj in let nu1 := dnu D k in let nx1 := dnx D k in
    let ux := upd ux k (GEMV_T n nx1 f1 (q_BAbt qp (k - 1)) 0 0 (ux ii) 0 f1 (q_b qp (k - 1)) 0 (ux k) nu1) in
    if dual then
      let tx := ROWEX nx1 f1 (LL k) (nu1 + nx1) nu1 tx 0 in
      let p := TRMV_LTN nx1 (LL k) nu1 nu1 (ux k) nu1 (pi (k - 1)%nat) 0 in
      let p := AXPY nx1 f1 tx 0 p 0 p 0 in
      let p := TRMV_LNN nx1 (LL k) nu1 nu1 p 0 p 0 in
      (ux, tx, upd pi (k - 1)%nat p)
    else (ux, tx, pi)) s.
Definition set_fwd (w : kws F) (ux : nat -> vec) (tx : vec) (pi : nat -> vec) : kws F :=
  mkkws (k_BAbt w) (k_L w) (k_dA w) (k_P w) (k_AL0 w) (k_AL1 w) (k_Ls w) (k_Zs w) (k_tmp w) tx (k_Pb w) (k_l w) ux pi.
(** one node of the forward substitution, lines 569-599 (TRSV_LTN m = TRSV_LTN_MN m m) *)
Definition tfwd_node (dual : bool) (T : ttree) (qp : oqp F) (ii : nat) (w : kws F) : kws F :=
  let D := q_dim qp in let n := (dnu D ii + dnx D ii)%nat in let ns := nsolve qp ii in
  let u := ROWEX ns (- f1) (k_L w ii) n 0 (k_ux w ii) 0 in
  let u := TRSV_LTN_MN n ns (k_L w ii) 0 0 u 0 u 0 in
  let '(ux, tx, pi) := kids_fwd dual T qp (k_L w) ii (upd (k_ux w) ii u, k_nux w, k_pi w) in
  set_fwd w ux tx pi.
Definition tfwd (dual : bool) (T : ttree) (qp : oqp F) (w : kws F) : kws F := loop (dN (q_dim qp) + 1) (tfwd_node dual T qp) w.

(** the whole function; the epilogue, lines 603-621, is that of OCP_QP_FACT_SOLVE_KKT_STEP: kkt_step.  Result: step, workspace. *)
Definition tree_factor (a : kargs F) (T : ttree) (qp : oqp F) (tinv0 Gam0 gam0 : nat -> vec) (w : kws F) : kws F :=
  tfwd (a_dual a) T qp (tfact (a_reg a) T qp (kkt_Gam a qp tinv0 Gam0 gam0) (kkt_gam a qp tinv0 Gam0 gam0) w).
Definition tree_fact_solve (a : kargs F) (T : ttree) (qp : oqp F) (tinv0 Gam0 gam0 : nat -> vec) (stp : osol F) (w : kws F) : osol F * kws F :=
  let w := tree_factor a T qp tinv0 Gam0 gam0 w in (kkt_step a qp tinv0 Gam0 gam0 stp w, w).

(** ** TREE_OCP_QP_SOLVE_KKT_STEP, lines 849-1018 *)

(** contribution of the kids to the gradient, lines 906-923: state dux of the node, tmp_nxM *)
Definition kids_bwd (usePb : bool) (T : ttree) (qp : oqp F) (w : kws F) (ii : nat) (s : vec * vec) : vec * vec :=
  let D := q_dim qp in let n := (dnu D ii + dnx D ii)%nat in
  loop (t_nk T ii) (fun jj '(dux, tx) =>
    let k := t_kid T ii jj in let nu1 := dnu D k in let nx1 := dnx D k in
    let tx :=
      if usePb then AXPY nx1 f1 (k_ux w k) nu1 (k_Pb w (k - 1)%nat) 0 tx 0
      else
        let v := TRMV_LTN nx1 (k_L w k) nu1 nu1 (q_b qp (k - 1)) 0 tx 0 in
        let v := TRMV_LNN nx1 (k_L w k) nu1 nu1 v 0 v 0 in
        AXPY nx1 f1 (k_ux w k) nu1 v 0 v 0 in
    (GEMV_N n nx1 f1 (q_BAbt qp (k - 1)) 0 0 tx 0 f1 dux 0 dux 0, tx)) s.
(** one node of the backward substitution, lines 897-951 (TRSV_LNN m = TRSV_LNN_MN m m) *)
Definition tbwd_node (usePb : bool) (T : ttree) (qp : oqp F) (Gam gam : nat -> vec) (ii : nat) (w : kws F) : kws F :=
  let D := q_dim qp in
  let n := (dnu D ii + dnx D ii)%nat in let nb := dnb D ii in let ng := dng D ii in let ns := dns D ii in
  let Gamma := Gam ii in let gamma := gam ii in let tmp := k_tmp w in
  let dux := VECCP n (q_rqz qp ii) 0 (k_ux w ii) 0 in
  let '(dux, tx) := kids_bwd usePb T qp w ii (dux, k_nux w) in
  let '(tmp, dux) :=
    if Nat.ltb 0 ns then cond_slacks_solve n nb ng ns (q_idxs_rev qp ii) (q_rqz qp ii) Gamma gamma (k_Zs w ii) (tmp, dux)
    else if Nat.ltb 0 (nb + ng) then (upd tmp 1%nat (AXPY (nb + ng) (- f1) gamma (nb + ng) gamma 0 (tmp 1%nat) 0), dux)
    else (tmp, dux) in
  let dux := if Nat.ltb 0 nb then VECAD_SP nb f1 (tmp 1%nat) 0 (q_idxb qp ii) dux 0 else dux in
  let dux := if Nat.ltb 0 ng then GEMV_N n ng f1 (q_DCt qp ii) 0 0 (tmp 1%nat) nb f1 dux 0 dux 0 else dux in
  let dux := TRSV_LNN_MN n (nsolve qp ii) (k_L w ii) 0 0 dux 0 dux 0 in
  set_bwd w ii tmp tx dux.
Definition tbwd (usePb : bool) (T : ttree) (qp : oqp F) (Gam gam : nat -> vec) (w : kws F) : kws F :=
  let Nn := (dN (q_dim qp) + 1)%nat in loop Nn (fun ss w => tbwd_node usePb T qp Gam gam (Nn - ss - 1) w) w.
(** states and multipliers of the kids, lines 974-991 *)
Definition kids_fwds (dual : bool) (T : ttree) (qp : oqp F) (LL : nat -> mat) (ii : nat) (s : (nat -> vec) * vec * (nat -> vec)) : (nat -> vec) * vec * (nat -> vec) :=
  let D := q_dim qp in let n := (dnu D ii + dnx D ii)%nat in
  loop (t_nk T ii) (fun jj '(ux, tx, pi) =>
    let k := t_kid T ii jj in let nu1 := dnu D k in let nx1 := dnx D k in
    let p := if dual then VECCP nx1 (ux k) nu1 (pi (k - 1)%nat) 0 else pi (k - 1)%nat in
    let ux := upd ux k (GEMV_T n nx1 f1 (q_BAbt qp (k - 1)) 0 0 (ux ii) 0 f1 (q_b qp (k - 1)) 0 (ux k) nu1) in
    if dual then
      let tx := VECCP nx1 (ux k) nu1 tx 0 in
      let tx := TRMV_LTN nx1 (LL k) nu1 nu1 tx 0 tx 0 in
      let tx := TRMV_LNN nx1 (LL k) nu1 nu1 tx 0 tx 0 in
      (ux, tx, upd pi (k - 1)%nat (AXPY nx1 f1 tx 0 p 0 p 0))
    else (ux, tx, pi)) s.
(** one node of the forward substitution, lines 959-993 *)
Definition tfwds_node (dual : bool) (T : ttree) (qp : oqp F) (ii : nat) (w : kws F) : kws F :=
  let D := q_dim qp in let n := (dnu D ii + dnx D ii)%nat in let ns := nsolve qp ii in
  let u := VECSC ns (- f1) (k_ux w ii) 0 in
  let u := TRSV_LTN_MN n ns (k_L w ii) 0 0 u 0 u 0 in
  let '(ux, tx, pi) := kids_fwds dual T qp (k_L w) ii (upd (k_ux w) ii u, k_nux w, k_pi w) in
  set_fwd w ux tx pi.
Definition tfwds (dual : bool) (T : ttree) (qp : oqp F) (w : kws F) : kws F := loop (dN (q_dim qp) + 1) (tfwds_node dual T qp) w.
(** the whole function; [tinv], [Gam]: cws->t_inv, cws->Gamma as left by the factorisation; epilogue lines 997-1014 *)
Section S.
Context (usePb : bool) (a : kargs F) (T : ttree) (qp : oqp F) (tinv Gam gam0 : nat -> vec) (stp : osol F) (w : kws F).
Definition tsol_ws : kws F := tfwds (a_dual a) T qp (tbwd usePb T qp Gam (sol_gam a qp tinv gam0) (with_sol w stp)).
Definition tsol_ut (ss : nat) : vec * vec := lin_stage qp (Gam ss) (k_Zs tsol_ws ss) ss (k_ux tsol_ws ss, s_t stp ss).
Definition tsol_lt (ss : nat) : vec * vec :=
  compute_lam_t (nct (q_dim qp) ss) (a_lam a ss) (tinv ss) (q_d qp ss) (q_m qp ss) (s_lam stp ss, snd (tsol_ut ss)).
Definition tree_solve : osol F * kws F :=
  (mksol (fun ss => fst (tsol_ut ss)) (k_pi tsol_ws) (fun ss => fst (tsol_lt ss)) (fun ss => snd (tsol_lt ss)), tsol_ws).
End S.
End TKkt.
