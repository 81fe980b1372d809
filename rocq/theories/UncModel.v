(** UncModel.v -- ocp_qp/x_ocp_qp_kkt.c lines 315-493, OCP_QP_FACT_SOLVE_KKT_UNCONSTR: Riccati recursion for QPs without inequality constraints.
    State: the matrices RSQrq of the QP object (regularised and de-regularised in place, last row overwritten by rqz) and
    the workspace [kws]; its ux, pi are the output qp_sol->ux, qp_sol->pi. *)
From Coq Require Import ZArith Bool Arith.
From Verif Require Import Base ArithF Blas Blas2 CoreModel OcpModel KktModel.

Section Unc.
Context {F : Type} {AF : Arith F}.
Local Open Scope F_scope.
Notation vec := (nat -> F).
Notation mat := (nat -> nat -> F).
Definition ust : Type := (nat -> mat) * kws F.

(** square-root algorithm, last stage, lines 347-350 *)
Definition unc_sqrt_last (reg : F) (qp : oqp F) (s : ust) : ust :=
  let '(RSQ, w) := s in
  let D := q_dim qp in let ss := dN D in let n := (dnu D ss + dnx D ss)%nat in
  let M := ROWIN n f1 (q_rqz qp ss) 0 (RSQ ss) n 0 in
  let M := DIARE n reg M 0 0 in
  let '(L, dA) := POTRF_L_MN (n + 1) n M 0 0 (k_L w ss) 0 0 (k_dA w ss) in
  let M := DIARE n (- reg) M 0 0 in
  (upd RSQ ss M, mkkws (k_BAbt w) (upd (k_L w) ss L) (upd (k_dA w) ss dA) (k_P w) (k_AL0 w) (k_AL1 w) (k_Ls w) (k_Zs w) (k_tmp w) (k_nux w) (k_Pb w) (k_l w) (k_ux w) (k_pi w)).
(** middle stages, lines 355-362; ss = N-ii-1 *)
Definition unc_sqrt_mid (reg : F) (qp : oqp F) (ss : nat) (s : ust) : ust :=
  let '(RSQ, w) := s in
  let D := q_dim qp in let n := (dnu D ss + dnx D ss)%nat in
  let nx1 := dnx D (ss + 1) in let nu1 := dnu D (ss + 1) in let L1 := k_L w (ss + 1)%nat in
  let BA := ROWIN nx1 f1 (q_b qp ss) 0 (k_BAbt w ss) n 0 in
  let AL := TRMM_RLNN (n + 1) nx1 f1 L1 nu1 nu1 BA 0 0 (k_AL0 w) 0 0 in
  let AL := GEAD 1 nx1 f1 L1 (nu1 + nx1) nu1 AL n 0 in
  let M := ROWIN n f1 (q_rqz qp ss) 0 (RSQ ss) n 0 in
  let M := DIARE n reg M 0 0 in
  let '(L, dA) := SYRK_POTRF_LN_MN (n + 1) n nx1 AL 0 0 AL 0 0 M 0 0 (k_L w ss) 0 0 (k_dA w ss) in
  let M := DIARE n (- reg) M 0 0 in
  (upd RSQ ss M, mkkws (upd (k_BAbt w) ss BA) (upd (k_L w) ss L) (upd (k_dA w) ss dA) (k_P w) AL (k_AL1 w) (k_Ls w) (k_Zs w) (k_tmp w) (k_nux w) (k_Pb w) (k_l w) (k_ux w) (k_pi w)).
Definition unc_sqrt (reg : F) (qp : oqp F) (s : ust) : ust :=
  let N := dN (q_dim qp) in loop N (fun ii s => unc_sqrt_mid reg qp (N - ii - 1) s) (unc_sqrt_last reg qp s).

(** classical algorithm, last stage, lines 424-430 *)
Definition unc_cls_last (reg : F) (qp : oqp F) (s : ust) : ust :=
  let '(RSQ, w) := s in
  let D := q_dim qp in let ss := dN D in let nu := dnu D ss in let nx := dnx D ss in let n := (nu + nx)%nat in
  let M := ROWIN n f1 (q_rqz qp ss) 0 (RSQ ss) n 0 in
  let M := DIARE nu reg M 0 0 in
  let '(L, dA) := POTRF_L_MN (n + 1) nu M 0 0 (k_L w ss) 0 0 (k_dA w ss) in
  let M := DIARE nu (- reg) M 0 0 in
  let Ls := GECP (nx + 1) nu L nu 0 (k_Ls w) 0 0 in
  let P := SYRK_LN_MN (nx + 1) nx nu (- f1) Ls 0 0 Ls 0 0 f1 M nu nu (k_P w ss) 0 0 in
  let P := TRTR_L nx P 0 0 P 0 0 in
  (upd RSQ ss M, mkkws (k_BAbt w) (upd (k_L w) ss L) (upd (k_dA w) ss dA) (upd (k_P w) ss P) (k_AL0 w) (k_AL1 w) Ls (k_Zs w) (k_tmp w) (k_nux w) (k_Pb w) (k_l w) (k_ux w) (k_pi w)).
(** middle stages, lines 435-445, and first stage, lines 449-457 ([full]) *)
Definition unc_cls_mid (full : bool) (reg : F) (qp : oqp F) (ss : nat) (s : ust) : ust :=
  let '(RSQ, w) := s in
  let D := q_dim qp in let nu := dnu D ss in let nx := dnx D ss in let n := (nu + nx)%nat in
  let nx1 := dnx D (ss + 1) in let P1 := k_P w (ss + 1)%nat in
  let BA := ROWIN nx1 f1 (q_b qp ss) 0 (k_BAbt w ss) n 0 in
  let AL := GEMM_NT (n + 1) nx1 nx1 f1 BA 0 0 P1 0 0 f0 (k_AL0 w) 0 0 (k_AL0 w) 0 0 in
  let AL := GEAD 1 nx1 f1 P1 nx1 0 AL n 0 in
  let M := ROWIN n f1 (q_rqz qp ss) 0 (RSQ ss) n 0 in
  let M := DIARE nu reg M 0 0 in
  if full then
    let '(L, dA) := SYRK_POTRF_LN_MN (n + 1) n nx1 AL 0 0 BA 0 0 M 0 0 (k_L w ss) 0 0 (k_dA w ss) in
    let M := DIARE nu (- reg) M 0 0 in
    (upd RSQ ss M, mkkws (upd (k_BAbt w) ss BA) (upd (k_L w) ss L) (upd (k_dA w) ss dA) (k_P w) AL (k_AL1 w) (k_Ls w) (k_Zs w) (k_tmp w) (k_nux w) (k_Pb w) (k_l w) (k_ux w) (k_pi w))
  else
    let L := SYRK_LN_MN (n + 1) n nx1 f1 AL 0 0 BA 0 0 f1 M 0 0 (k_L w ss) 0 0 in
    let M := DIARE nu (- reg) M 0 0 in
    let '(L, dA) := POTRF_L_MN (n + 1) nu L 0 0 L 0 0 (k_dA w ss) in
    let '(Ls, P) := P_of_L nu nx L (k_Ls w) (k_P w ss) in
    (upd RSQ ss M, mkkws (upd (k_BAbt w) ss BA) (upd (k_L w) ss L) (upd (k_dA w) ss dA) (upd (k_P w) ss P) AL (k_AL1 w) Ls (k_Zs w) (k_tmp w) (k_nux w) (k_Pb w) (k_l w) (k_ux w) (k_pi w)).
Definition unc_cls (reg : F) (qp : oqp F) (s : ust) : ust :=
  let N := dN (q_dim qp) in
  let s := loop (N - 1) (fun ii s => unc_cls_mid false reg qp (N - ii - 1) s) (unc_cls_last reg qp s) in
  if Nat.ltb 0 N then unc_cls_mid true reg qp 0 s else s.

(** the whole function, lines 315-493; the forward substitutions, lines 366-407 and 461-490, are the text of [forward (fwd_sqrt _)] and
    [forward (fwd_cls _)] (KktModel.v).  Written for N >= 1. *)
Definition unc_solve (square_root : bool) (reg : F) (dual : bool) (qp : oqp F) (s : ust) : ust :=
  if square_root then let '(RSQ, w) := unc_sqrt reg qp s in (RSQ, forward (fwd_sqrt dual qp) qp w)
  else let '(RSQ, w) := unc_cls reg qp s in (RSQ, forward (fwd_cls dual qp) qp w).
End Unc.
