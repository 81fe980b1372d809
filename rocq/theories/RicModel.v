(** RicModel.v -- ocp_qp/x_ocp_qp_ipm.c: the getters of the Riccati factorisation, OCP_QP_IPM_GET_RIC_LR/LS/P/LR_VEC/P_VEC/K/K_VEC
    (lines 1405-1625).  [sq] is ws->square_root_alg. *)
From Coq Require Import ZArith Bool Arith.
From Verif Require Import Base ArithF Blas Blas2 CoreModel OcpModel KktModel SolveModel QpDataModel SensModel.

Section Ric.
Context {F : Type} {AF : Arith F}.
Local Open Scope F_scope.
Notation vec := (nat -> F).
Notation mat := (nat -> nat -> F).

(** TRSM_RLNN (BLASFEO dtrsm_rlnn): D = alpha * B * A^{-1}, A lower triangular n x n, B m x n: every row of D solves A' d = alpha * b *)
Definition TRSM_RLNN (m n : nat) (alpha : F) (A : mat) (ai aj : nat) (B : mat) (bi bj : nat) (D : mat) (di dj : nat) : mat :=
  mblk D di dj m n (fun i j => TRSV_LTN n A ai aj (fun k => alpha * B (bi + i)%nat (bj + k)%nat) 0 (fun _ => f0) 0 j).

(** What the getters read and write: the KKT workspace, the flags ws->valid_ric_vec and ws->valid_ric_p, ws->sol_itref and cws->gamma.
    (The scratch matrices tmp_nuxM_nuxM are written before they are read and not carried.) *)
Record ric := mkric { ri_w : kws F; ri_vec : bool; ri_p : bool; ri_it : osol F; ri_gam : nat -> vec }.

Section G.
Context (sq : bool) (a : kargs F) (qp : oqp F) (bkp : osol F) (tinv Gam : nat -> vec).
Notation D := (q_dim qp).

(** the block "if(ws->valid_ric_vec==0)", lines 1462-1494 (same text 1511-1543, 1588-1620): load the backup into sol_itref, solve the KKT system
    of the QP itself with the stored factorisation (use_Pb = 0; OCP_QP_SOLVE_KKT_STEP sets valid_ric_p = 1, x_ocp_qp_kkt.c lines 2342, 2488) *)
Definition ric_vec (s : ric) : ric :=
  if ri_vec s then s else
  let x := load D bkp (ri_it s) in
  let '(x', w) := solve_kkt_alias sq a qp tinv Gam (ri_gam s) x (ri_w s) in
  mkric w true true x' (sol_gam (alias_args a x) qp tinv (ri_gam s)).

(** OCP_QP_IPM_GET_RIC_LR, lines 1405-1412; OCP_QP_IPM_GET_RIC_LS, lines 1416-1425 *)
Definition get_Lr (i : nat) (s : ric) (out : vec) : vec := CVT_STRMAT2MAT (dnu D i) (dnu D i) (k_L (ri_w s) i) 0 0 out (dnu D i).
Definition get_Ls (i : nat) (s : ric) (out : vec) : vec := CVT_STRMAT2MAT (dnx D i) (dnu D i) (k_L (ri_w s) i) (dnu D i) 0 out (dnx D i).
(** OCP_QP_IPM_GET_RIC_P, lines 1429-1450; [m0], [m1]: tmp_nuxM_nuxM+0, +1 before the call *)
Definition get_P (i : nat) (s : ric) (m0 m1 : mat) (out : vec) : vec :=
  let nx := dnx D i in let nu := dnu D i in
  if orb sq (Nat.eqb i 0) then
    let m0 := GESE nx nx f0 m0 0 0 in
    let m0 := TRCP_L nx (k_L (ri_w s) i) nu nu m0 0 0 in
    let m1 := SYRK_LN_MN nx nx nx f1 m0 0 0 m0 0 0 f0 m1 0 0 m1 0 0 in
    let m1 := TRTR_L nx m1 0 0 m1 0 0 in
    CVT_STRMAT2MAT nx nx m1 0 0 out nx
  else CVT_STRMAT2MAT nx nx (k_P (ri_w s) i) 0 0 out nx.
(** OCP_QP_IPM_GET_RIC_LR_VEC, lines 1454-1498 *)
Definition get_lr (i : nat) (s : ric) (out : vec) : vec * ric :=
  let s := ric_vec s in (UNPACK_VEC (dnu D i) (k_l (ri_w s) i) 0 out, s).
Definition set_nux (s : ric) (v : vec) : ric :=
  let w := ri_w s in
  mkric (mkkws (k_BAbt w) (k_L w) (k_dA w) (k_P w) (k_AL0 w) (k_AL1 w) (k_Ls w) (k_Zs w) (k_tmp w) v (k_Pb w) (k_l w) (k_ux w) (k_pi w))
    (ri_vec s) (ri_p s) (ri_it s) (ri_gam s).
(** OCP_QP_IPM_GET_RIC_P_VEC, lines 1503-1558 *)
Definition get_p (i : nat) (s : ric) (out : vec) : vec * ric :=
  let s := ric_vec s in
  if orb (negb (ri_p s)) (Nat.eqb i 0) then
    let v := TRMV_LNN (dnx D i) (k_L (ri_w s) i) (dnu D i) (dnu D i) (k_l (ri_w s) i) (dnu D i) (k_nux (ri_w s)) 0 in
    (UNPACK_VEC (dnx D i) v 0 out, set_nux s v)
  else (UNPACK_VEC (dnx D i) (k_l (ri_w s) i) (dnu D i) out, s).
(** OCP_QP_IPM_GET_RIC_K, lines 1562-1577 *)
Definition get_K (i : nat) (s : ric) (out : vec) : vec * ric :=
  let w := ri_w s in
  let Ls := TRSM_RLNN (dnx D i) (dnu D i) (- f1) (k_L w i) 0 0 (k_L w i) (dnu D i) 0 (k_Ls w) 0 0 in
  (CVT_TRAN_STRMAT2MAT (dnx D i) (dnu D i) Ls 0 0 out (dnu D i),
   mkric (mkkws (k_BAbt w) (k_L w) (k_dA w) (k_P w) (k_AL0 w) (k_AL1 w) Ls (k_Zs w) (k_tmp w) (k_nux w) (k_Pb w) (k_l w) (k_ux w) (k_pi w))
     (ri_vec s) (ri_p s) (ri_it s) (ri_gam s)).
(** OCP_QP_IPM_GET_RIC_K_VEC, lines 1580-1628 *)
Definition get_k (i : nat) (s : ric) (out : vec) : vec * ric :=
  let s := ric_vec s in
  let v := TRSV_LTN (dnu D i) (k_L (ri_w s) i) 0 0 (k_l (ri_w s) i) 0 (k_nux (ri_w s)) 0 in
  let v := VECSC (dnu D i) (- f1) v 0 in
  (UNPACK_VEC (dnu D i) v 0 out, set_nux s v).
End G.
End Ric.
Arguments mkric {F}. Arguments ri_w {F}. Arguments ri_vec {F}. Arguments ri_p {F}. Arguments ri_it {F}. Arguments ri_gam {F}. Arguments ric F : clear implicits.
