(** KktModel.v -- ocp_qp/x_ocp_qp_kkt.c: Riccati factorisation and solution of the (interior-point) KKT systems.
    [qp] is the QP whose rqz, b, d, m hold the right-hand side (for the IPM: ws->qp_step, i.e. the residuals). *)
From Coq Require Import ZArith Bool Arith.
From Verif Require Import Base ArithF Blas Blas2 CoreModel OcpModel.

(** arguments and core workspace data read by these functions: arg->reg_prim, arg->comp_dual_sol_eq, ws->preg_last,
    cws->lam, cws->t (per stage), cws->t_lam_min, lam_min, t_min, t_min_inv *)
Record kargs (F : Type) := mkka { a_reg : F; a_dual : bool; a_preg_last : F; a_lam : nat -> nat -> F; a_t : nat -> nat -> F;
  a_tlm : Z; a_lam_min : F; a_t_min : F; a_t_min_inv : F }.
Arguments mkka {F}. Arguments a_reg {F}. Arguments a_dual {F}. Arguments a_preg_last {F}. Arguments a_lam {F}. Arguments a_t {F}.
Arguments a_tlm {F}. Arguments a_lam_min {F}. Arguments a_t_min {F}. Arguments a_t_min_inv {F}.

(** the memory these functions write: BAbt (its last row), L with its inverse diagonals dA, P, AL+0, AL+1, Ls, Zs_inv, tmp_nbgM+0..3,
    tmp_nuxM, Pb, l and the solution parts ux, pi *)
Record kws (F : Type) := mkkws { k_BAbt : nat -> nat -> nat -> F; k_L : nat -> nat -> nat -> F; k_dA : nat -> nat -> F; k_P : nat -> nat -> nat -> F;
  k_AL0 : nat -> nat -> F; k_AL1 : nat -> nat -> F; k_Ls : nat -> nat -> F; k_Zs : nat -> nat -> F; k_tmp : nat -> nat -> F; k_nux : nat -> F;
  k_Pb : nat -> nat -> F; k_l : nat -> nat -> F; k_ux : nat -> nat -> F; k_pi : nat -> nat -> F }.
Arguments mkkws {F}. Arguments k_BAbt {F}. Arguments k_L {F}. Arguments k_dA {F}. Arguments k_P {F}. Arguments k_AL0 {F}. Arguments k_AL1 {F}.
Arguments k_Ls {F}. Arguments k_Zs {F}. Arguments k_tmp {F}. Arguments k_nux {F}. Arguments k_Pb {F}. Arguments k_l {F}. Arguments k_ux {F}. Arguments k_pi {F}.

Section Kkt.
Context {F : Type} {AF : Arith F}.
Local Open Scope F_scope.
Notation vec := (nat -> F).
Notation mat := (nat -> nat -> F).

(** COND_SLACKS_FACT_SOLVE, lines 497-615 (active #if branch 536-580): state tmp_nbgM, Zs_inv of the stage, dux of the stage. *)
Definition cond_slacks (n nb ng ns : nat) (reg : F) (sf : nat -> Z) (Z g Gamma gamma : vec) (s : (nat -> vec) * vec * vec) : (nat -> vec) * vec * vec :=
  let '(tmp, Zs, dux) := s in
  let '(Zs, dux) := loop ns (fun idx '(Zs, dux) =>
      let Zs := upd Zs idx (Z idx + reg + Gamma (2 * nb + 2 * ng + idx)%nat) in
      let Zs := upd Zs (ns + idx)%nat (Z (ns + idx)%nat + reg + Gamma (2 * nb + 2 * ng + ns + idx)%nat) in
      let dux := upd dux (n + idx)%nat (g (n + idx)%nat + gamma (2 * nb + 2 * ng + idx)%nat) in
      let dux := upd dux (n + ns + idx)%nat (g (n + ns + idx)%nat + gamma (2 * nb + 2 * ng + ns + idx)%nat) in
      (Zs, dux)) (Zs, dux) in
  let '(Zs, dux) := loop (nb + ng) (fun ii '(Zs, dux) =>
      if Z.eqb (sf ii) (-1) then (Zs, dux) else
      let idx := Z.to_nat (sf ii) in
      let Zs := upd Zs idx (Zs idx + Gamma ii) in
      let Zs := upd Zs (ns + idx)%nat (Zs (ns + idx)%nat + Gamma (nb + ng + ii)%nat) in
      let dux := upd dux (n + idx)%nat (dux (n + idx)%nat + gamma ii) in
      let dux := upd dux (n + ns + idx)%nat (dux (n + ns + idx)%nat + gamma (nb + ng + ii)%nat) in
      (Zs, dux)) (Zs, dux) in
  let Zs := loop ns (fun idx Zs => let Zs := upd Zs idx (f1 / Zs idx) in upd Zs (ns + idx)%nat (f1 / Zs (ns + idx)%nat)) Zs in
  let tmp := loop (nb + ng) (fun ii tmp =>
      let G0 := Gamma ii in let G1 := Gamma (nb + ng + ii)%nat in let g0 := gamma ii in let g1 := gamma (nb + ng + ii)%nat in
      if Z.eqb (sf ii) (-1) then
        upd (upd (upd (upd tmp 0%nat (upd (tmp 0%nat) ii G0)) 1%nat (upd (tmp 1%nat) ii G1)) 2%nat (upd (tmp 2%nat) ii g0)) 3%nat (upd (tmp 3%nat) ii g1)
      else
        let idx := Z.to_nat (sf ii) in
        upd (upd (upd (upd tmp 0%nat (upd (tmp 0%nat) ii (G0 - G0 * Zs idx * G0)))
                       1%nat (upd (tmp 1%nat) ii (G1 - G1 * Zs (ns + idx)%nat * G1)))
                       2%nat (upd (tmp 2%nat) ii (g0 - G0 * Zs idx * dux (n + idx)%nat)))
                       3%nat (upd (tmp 3%nat) ii (g1 - G1 * Zs (ns + idx)%nat * dux (n + ns + idx)%nat))) tmp in
  let tmp := upd tmp 0%nat (AXPY (nb + ng) f1 (tmp 1%nat) 0 (tmp 0%nat) 0 (tmp 0%nat) 0) in
  let tmp := upd tmp 1%nat (AXPY (nb + ng) (- f1) (tmp 3%nat) 0 (tmp 2%nat) 0 (tmp 1%nat) 0) in
  (tmp, Zs, dux).

(** The part of a stage before its factorisation: copy of the Hessian, regularisation, gradient row, slack
    elimination and bounds (lines 1206-1232, 1286-1308, 1467-1494, 1533-1559, 1669-1694 of OCP_QP_FACT_SOLVE_KKT_STEP, the same text up to
    the regularisation [rg]).  Double precision variant (TRCP_L). *)
Definition stage_build (rg : mat -> mat) (reg : F) (qp : oqp F) (Gamma gamma : vec) (ss : nat) (L : mat) (s : (nat -> vec) * vec * vec) : mat * ((nat -> vec) * vec * vec) :=
  let D := q_dim qp in
  let n := (dnu D ss + dnx D ss)%nat in let nb := dnb D ss in let ng := dng D ss in let ns := dns D ss in
  let L := TRCP_L n (q_RSQ qp ss) 0 0 L 0 0 in
  let L := rg L in
  let L := ROWIN n f1 (q_rqz qp ss) 0 L n 0 in
  let '(tmp, Zs, dux) := s in
  let '(tmp, Zs, dux) :=
    if Nat.ltb 0 ns then cond_slacks n nb ng ns reg (q_idxs_rev qp ss) (q_Z qp ss) (q_rqz qp ss) Gamma gamma (tmp, Zs, dux)
    else if Nat.ltb 0 (nb + ng) then
      let tmp := upd tmp 0%nat (AXPY (nb + ng) f1 Gamma (nb + ng) Gamma 0 (tmp 0%nat) 0) in
      (upd tmp 1%nat (AXPY (nb + ng) (- f1) gamma (nb + ng) gamma 0 (tmp 1%nat) 0), Zs, dux)
    else (tmp, Zs, dux) in
  let L := if Nat.ltb 0 nb then
      ROWAD_SP nb f1 (tmp 1%nat) 0 (q_idxb qp ss) (DIAAD_SP nb f1 (tmp 0%nat) 0 (q_idxb qp ss) L 0 0) n 0 else L in
  (L, (tmp, Zs, dux)).

(** the test "dA[ii]==0.0 for some ii<n", lines 1247-1254 and its five copies *)
Definition singular (n : nat) (dA : vec) : bool := loop n (fun ii s => orb s (dA ii =? f0)) false.

(** Square-root algorithm, last stage, lines 1204-1262.  Returns the workspace and the singular flag. *)
Definition fact_sqrt_last (reg preg : F) (qp : oqp F) (Gam gam : nat -> vec) (w : kws F) : kws F * bool :=
  let D := q_dim qp in let ss := dN D in
  let n := (dnu D ss + dnx D ss)%nat in let nb := dnb D ss in let ng := dng D ss in
  let '(L, (tmp, Zs, dux)) := stage_build (fun L => DIARE n preg L 0 0) reg qp (Gam ss) (gam ss) ss (k_L w ss) (k_tmp w, k_Zs w ss, k_ux w ss) in
  let '(L, dA, AL0) :=
    if Nat.ltb 0 ng then
      let AL0 := GEMM_ND n ng f1 (q_DCt qp ss) 0 0 (tmp 0%nat) nb f0 (k_AL0 w) 0 0 (k_AL0 w) 0 0 in
      let AL0 := ROWIN ng f1 (tmp 1%nat) nb AL0 n 0 in
      let '(L, dA) := SYRK_POTRF_LN_MN (n + 1) n ng AL0 0 0 (q_DCt qp ss) 0 0 L 0 0 L 0 0 (k_dA w ss) in (L, dA, AL0)
    else let '(L, dA) := POTRF_L_MN (n + 1) n L 0 0 L 0 0 (k_dA w ss) in (L, dA, k_AL0 w) in
  (mkkws (k_BAbt w) (upd (k_L w) ss L) (upd (k_dA w) ss dA) (k_P w) AL0 (k_AL1 w) (k_Ls w) (upd (k_Zs w) ss Zs) tmp (k_nux w) (k_Pb w) (k_l w)
     (upd (k_ux w) ss dux) (k_pi w), singular n dA).
(** middle and first stages, lines 1265-1341 *)
Definition fact_sqrt_mid (reg preg : F) (qp : oqp F) (Gam gam : nat -> vec) (ss : nat) (w : kws F) : kws F * bool :=
  let D := q_dim qp in
  let n := (dnu D ss + dnx D ss)%nat in let nb := dnb D ss in let ng := dng D ss in
  let nx1 := dnx D (ss + 1) in let nu1 := dnu D (ss + 1) in
  let L1 := k_L w (ss + 1)%nat in
  let BA := ROWIN nx1 f1 (q_b qp ss) 0 (k_BAbt w ss) n 0 in
  let AL0 := TRMM_RLNN (n + 1) nx1 f1 L1 nu1 nu1 BA 0 0 (k_AL0 w) 0 0 in
  let nux := ROWEX nx1 f1 AL0 n 0 (k_nux w) 0 in
  let Pb := TRMV_LNN nx1 L1 nu1 nu1 nux 0 (k_Pb w ss) 0 in
  let AL0 := GEAD 1 nx1 f1 L1 (nu1 + nx1) nu1 AL0 n 0 in
  let '(L, (tmp, Zs, dux)) := stage_build (fun L => DIARE n preg L 0 0) reg qp (Gam ss) (gam ss) ss (k_L w ss) (k_tmp w, k_Zs w ss, k_ux w ss) in
  let '(L, dA, AL0, AL1) :=
    if Nat.ltb 0 ng then
      let AL0 := GEMM_ND n ng f1 (q_DCt qp ss) 0 0 (tmp 0%nat) nb f0 AL0 0 nx1 AL0 0 nx1 in
      let AL0 := ROWIN ng f1 (tmp 1%nat) nb AL0 n nx1 in
      let AL1 := GECP n nx1 AL0 0 0 (k_AL1 w) 0 0 in
      let AL1 := GECP n ng (q_DCt qp ss) 0 0 AL1 0 nx1 in
      let '(L, dA) := SYRK_POTRF_LN_MN (n + 1) n (nx1 + ng) AL0 0 0 AL1 0 0 L 0 0 L 0 0 (k_dA w ss) in (L, dA, AL0, AL1)
    else let '(L, dA) := SYRK_POTRF_LN_MN (n + 1) n nx1 AL0 0 0 AL0 0 0 L 0 0 L 0 0 (k_dA w ss) in (L, dA, AL0, k_AL1 w) in
  (mkkws (upd (k_BAbt w) ss BA) (upd (k_L w) ss L) (upd (k_dA w) ss dA) (k_P w) AL0 AL1 (k_Ls w) (upd (k_Zs w) ss Zs) tmp nux (upd (k_Pb w) ss Pb) (k_l w)
     (upd (k_ux w) ss dux) (k_pi w), singular n dA).
(** backward sweep; a singular stage leaves the sweep (goto compute_preg) *)
Definition fact_sqrt (reg preg : F) (qp : oqp F) (Gam gam : nat -> vec) (w : kws F) : kws F * bool :=
  let N := dN (q_dim qp) in
  loop N (fun nn '(w, sg) => if (sg : bool) then (w, sg) else fact_sqrt_mid reg preg qp Gam gam (N - nn - 1) w) (fact_sqrt_last reg preg qp Gam gam w).
(** one step of the forward substitution: first stage, lines 1424-1437, and middle stages, 1440-1454 ([nsol] = number of variables solved
    for: nu+nx at the first stage, nu after) *)
Definition fwd_sqrt (dual : bool) (qp : oqp F) (nsol : nat) (ss : nat) (w : kws F) : kws F :=
  let D := q_dim qp in let n := (dnu D ss + dnx D ss)%nat in let nx1 := dnx D (ss + 1) in let nu1 := dnu D (ss + 1) in
  let L := k_L w ss in let L1 := k_L w (ss + 1)%nat in
  let ux := ROWEX nsol (- f1) L n 0 (k_ux w ss) 0 in
  let l := VECCPSC nsol (- f1) ux 0 (k_l w ss) 0 in
  let nux := ROWEX nx1 f1 L1 (nu1 + nx1) nu1 (k_nux w) 0 in
  let l1 := VECCP nx1 nux 0 (k_l w (ss + 1)%nat) nu1 in
  let ux := TRSV_LTN_MN n nsol L 0 0 ux 0 ux 0 in
  let ux1 := GEMV_T n nx1 f1 (k_BAbt w ss) 0 0 ux 0 f1 (q_b qp ss) 0 (k_ux w (ss + 1)%nat) nu1 in
  let pi := if dual then
      let p := TRMV_LTN nx1 L1 nu1 nu1 ux1 nu1 (k_pi w ss) 0 in
      let p := AXPY nx1 f1 nux 0 p 0 p 0 in
      TRMV_LNN nx1 L1 nu1 nu1 p 0 p 0
    else k_pi w ss in
  mkkws (k_BAbt w) (k_L w) (k_dA w) (k_P w) (k_AL0 w) (k_AL1 w) (k_Ls w) (k_Zs w) (k_tmp w) nux (k_Pb w) (upd (upd (k_l w) ss l) (ss + 1)%nat l1)
    (upd (upd (k_ux w) ss ux) (ss + 1)%nat ux1) (upd (k_pi w) ss pi).
(** last stage, lines 1456-1459 (same text 1859-1862) *)
Definition fwd_last (qp : oqp F) (w : kws F) : kws F :=
  let D := q_dim qp in let ss := dN D in let n := (dnu D ss + dnx D ss)%nat in let nu := dnu D ss in
  let L := k_L w ss in
  let ux := ROWEX nu (- f1) L n 0 (k_ux w ss) 0 in
  let l := VECCPSC nu (- f1) ux 0 (k_l w ss) 0 in
  let ux := TRSV_LTN_MN n nu L 0 0 ux 0 ux 0 in
  mkkws (k_BAbt w) (k_L w) (k_dA w) (k_P w) (k_AL0 w) (k_AL1 w) (k_Ls w) (k_Zs w) (k_tmp w) (k_nux w) (k_Pb w) (upd (k_l w) ss l) (upd (k_ux w) ss ux) (k_pi w).
(** forward substitution, lines 1421-1459; written for N >= 1 (the C code reads stage 1 unconditionally: for N = 0 it is out of bounds) *)
Definition forward (fwd : nat -> nat -> kws F -> kws F) (qp : oqp F) (w : kws F) : kws F :=
  let D := q_dim qp in
  let w := fwd (dnu D 0 + dnx D 0)%nat 0%nat w in
  let w := loop (dN D - 1) (fun k w => fwd (dnu D (k + 1)) (k + 1)%nat w) w in
  fwd_last qp w.

(** Classical algorithm, last stage, lines 1466-1521 *)
Definition P_of_L (nu nx : nat) (L : mat) (Ls P : mat) : mat * mat :=
  let Ls := GECP (nx + 1) nu L nu 0 Ls 0 0 in
  let P := SYRK_LN_MN (nx + 1) nx nu (- f1) Ls 0 0 Ls 0 0 f1 L nu nu P 0 0 in
  (Ls, TRTR_L nx P 0 0 P 0 0).
Definition fact_cls_last (reg preg : F) (qp : oqp F) (Gam gam : nat -> vec) (w : kws F) : kws F * bool :=
  let D := q_dim qp in let ss := dN D in
  let nu := dnu D ss in let nx := dnx D ss in let n := (nu + nx)%nat in let nb := dnb D ss in let ng := dng D ss in
  let '(L, (tmp, Zs, dux)) := stage_build (fun L => DIARE nx reg (DIARE nu preg L 0 0) nu nu) reg qp (Gam ss) (gam ss) ss (k_L w ss) (k_tmp w, k_Zs w ss, k_ux w ss) in
  let '(L, AL0) :=
    if Nat.ltb 0 ng then
      let AL0 := GEMM_ND n ng f1 (q_DCt qp ss) 0 0 (tmp 0%nat) nb f0 (k_AL0 w) 0 0 (k_AL0 w) 0 0 in
      let AL0 := ROWIN ng f1 (tmp 1%nat) nb AL0 n 0 in
      (SYRK_LN_MN (n + 1) n ng f1 AL0 0 0 (q_DCt qp ss) 0 0 f1 L 0 0 L 0 0, AL0)
    else (L, k_AL0 w) in
  let '(L, dA) := POTRF_L_MN (n + 1) nu L 0 0 L 0 0 (k_dA w ss) in
  let '(Ls, P) := P_of_L nu nx L (k_Ls w) (k_P w ss) in
  (mkkws (k_BAbt w) (upd (k_L w) ss L) (upd (k_dA w) ss dA) (upd (k_P w) ss P) AL0 (k_AL1 w) Ls (upd (k_Zs w) ss Zs) tmp (k_nux w) (k_Pb w) (k_l w)
     (upd (k_ux w) ss dux) (k_pi w), singular nu dA).
(** middle stages, lines 1524-1660, and first stage, lines 1662-1721: [full] selects the first stage (all of L factorised, P not computed).
    tmp_nuxM_nuxM (a copy of L never read afterwards) is omitted. *)
Definition fact_cls_mid (full : bool) (reg preg : F) (qp : oqp F) (Gam gam : nat -> vec) (ss : nat) (w : kws F) : kws F * bool :=
  let D := q_dim qp in
  let nu := dnu D ss in let nx := dnx D ss in let n := (nu + nx)%nat in let nb := dnb D ss in let ng := dng D ss in
  let nx1 := dnx D (ss + 1) in
  let P1 := k_P w (ss + 1)%nat in
  let BA := ROWIN nx1 f1 (q_b qp ss) 0 (k_BAbt w ss) n 0 in
  let AL0 := GEMM_NT (n + 1) nx1 nx1 f1 BA 0 0 P1 0 0 f0 (k_AL0 w) 0 0 (k_AL0 w) 0 0 in
  let Pb := ROWEX nx1 f1 AL0 n 0 (k_Pb w ss) 0 in
  let AL0 := GEAD 1 nx1 f1 P1 nx1 0 AL0 n 0 in
  let rg L := if full then DIARE n preg L 0 0 else DIARE nx reg (DIARE nu preg L 0 0) nu nu in
  let '(L, (tmp, Zs, dux)) := stage_build rg reg qp (Gam ss) (gam ss) ss (k_L w ss) (k_tmp w, k_Zs w ss, k_ux w ss) in
  let '(L, AL0) :=
    if Nat.ltb 0 ng then
      let AL0 := GEMM_ND n ng f1 (q_DCt qp ss) 0 0 (tmp 0%nat) nb f0 AL0 0 nx1 AL0 0 nx1 in
      let AL0 := ROWIN ng f1 (tmp 1%nat) nb AL0 n nx1 in
      (SYRK_LN_MN (n + 1) n ng f1 AL0 0 nx1 (q_DCt qp ss) 0 0 f1 L 0 0 L 0 0, AL0)
    else (L, AL0) in
  if full then
    let '(L, dA) := SYRK_POTRF_LN_MN (n + 1) n nx1 AL0 0 0 BA 0 0 L 0 0 L 0 0 (k_dA w ss) in
    (mkkws (upd (k_BAbt w) ss BA) (upd (k_L w) ss L) (upd (k_dA w) ss dA) (k_P w) AL0 (k_AL1 w) (k_Ls w) (upd (k_Zs w) ss Zs) tmp (k_nux w) (upd (k_Pb w) ss Pb) (k_l w)
       (upd (k_ux w) ss dux) (k_pi w), singular n dA)
  else
    let L := SYRK_LN_MN (n + 1) n nx1 f1 AL0 0 0 BA 0 0 f1 L 0 0 L 0 0 in
    let '(L, dA) := POTRF_L_MN (n + 1) nu L 0 0 L 0 0 (k_dA w ss) in
    let sg := singular nu dA in
    let '(Ls, P) := if sg then (k_Ls w, k_P w ss) else P_of_L nu nx L (k_Ls w) (k_P w ss) in
    (mkkws (upd (k_BAbt w) ss BA) (upd (k_L w) ss L) (upd (k_dA w) ss dA) (upd (k_P w) ss P) AL0 (k_AL1 w) Ls (upd (k_Zs w) ss Zs) tmp (k_nux w) (upd (k_Pb w) ss Pb) (k_l w)
       (upd (k_ux w) ss dux) (k_pi w), sg).
Definition fact_cls (reg preg : F) (qp : oqp F) (Gam gam : nat -> vec) (w : kws F) : kws F * bool :=
  let N := dN (q_dim qp) in
  let s := loop (N - 1) (fun nn '(w, sg) => if (sg : bool) then (w, sg) else fact_cls_mid false reg preg qp Gam gam (N - nn - 1) w) (fact_cls_last reg preg qp Gam gam w) in
  let '(w, sg) := s in
  if sg then (w, sg) else if Nat.ltb 0 N then fact_cls_mid true reg preg qp Gam gam 0 w else (w, sg).
(** forward step, lines 1823-1838 and 1841-1855 *)
Definition fwd_cls (dual : bool) (qp : oqp F) (nsol : nat) (ss : nat) (w : kws F) : kws F :=
  let D := q_dim qp in let n := (dnu D ss + dnx D ss)%nat in let nx1 := dnx D (ss + 1) in let nu1 := dnu D (ss + 1) in
  let L := k_L w ss in let P1 := k_P w (ss + 1)%nat in
  let ux := ROWEX nsol (- f1) L n 0 (k_ux w ss) 0 in
  let l := VECCPSC nsol (- f1) ux 0 (k_l w ss) 0 in
  let nux := ROWEX nx1 f1 P1 nx1 0 (k_nux w) 0 in
  let l1 := VECCP nx1 nux 0 (k_l w (ss + 1)%nat) nu1 in
  let ux := TRSV_LTN_MN n nsol L 0 0 ux 0 ux 0 in
  let ux1 := GEMV_T n nx1 f1 (k_BAbt w ss) 0 0 ux 0 f1 (q_b qp ss) 0 (k_ux w (ss + 1)%nat) nu1 in
  let pi := if dual then GEMV_N nx1 nx1 f1 P1 0 0 ux1 nu1 f1 nux 0 (k_pi w ss) 0 else k_pi w ss in
  mkkws (k_BAbt w) (k_L w) (k_dA w) (k_P w) (k_AL0 w) (k_AL1 w) (k_Ls w) (k_Zs w) (k_tmp w) nux (k_Pb w) (upd (upd (k_l w) ss l) (ss + 1)%nat l1)
    (upd (upd (k_ux w) ss ux) (ss + 1)%nat ux1) (upd (k_pi w) ss pi).

(** The regularisation retry, lines 1158-1197 and the gotos: preg_init, preg_first, preg.  [None]: fuel exhausted (the C loop has no bound). *)
Definition next_preg (reg last : F) (init : bool) (preg : F) : F :=
  if init then (if last =? reg then preg * lit 100 1 else preg * lit 8 1)
  else (if last =? reg then last + lit 1 10000 else last / lit 3 1).
Fixpoint retry (fuel : nat) (reg last : F) (qp : oqp F) (Gam gam : nat -> vec) (init : bool) (preg : F) (w : kws F) : option (kws F * F) :=
  match fuel with
  | O => None
  | S fuel' =>
      let preg := next_preg reg last init preg in
      let '(w, sg) := fact_cls reg preg qp Gam gam w in
      if (sg : bool) then retry fuel' reg last qp Gam gam true preg w else Some (w, preg)
  end.

(** EXPAND_SLACKS, lines 800-873: (dux, dt) of the stage *)
Definition expand_slacks (n nb ng ns : nat) (sf : nat -> Z) (Gamma Zs : vec) (s : vec * vec) : vec * vec :=
  let '(dux, dt) := s in
  let dux := loop (nb + ng) (fun ii dux =>
      if Z.eqb (sf ii) (-1) then dux else
      let idx := Z.to_nat (sf ii) in
      let dux := upd dux (n + idx)%nat (dux (n + idx)%nat + Gamma ii * dt ii) in
      upd dux (n + ns + idx)%nat (dux (n + ns + idx)%nat + Gamma (nb + ng + ii)%nat * dt (nb + ng + ii)%nat)) dux in
  let '(dux, dt) := loop ns (fun idx '(dux, dt) =>
      let dux := upd dux (n + idx)%nat (- Zs idx * dux (n + idx)%nat) in
      let dux := upd dux (n + ns + idx)%nat (- Zs (ns + idx)%nat * dux (n + ns + idx)%nat) in
      let dt := upd dt (2 * nb + 2 * ng + idx)%nat (dux (n + idx)%nat) in
      (dux, upd dt (2 * nb + 2 * ng + ns + idx)%nat (dux (n + ns + idx)%nat))) (dux, dt) in
  let dt := loop (nb + ng) (fun ii dt =>
      if Z.eqb (sf ii) (-1) then dt else
      let idx := Z.to_nat (sf ii) in
      let dt := upd dt ii (dt ii + dux (n + idx)%nat) in
      upd dt (nb + ng + ii)%nat (dt (nb + ng + ii)%nat + dux (n + ns + idx)%nat)) dt in
  (dux, dt).

(** Epilogue of a stage, lines 1864-1884: linear image of the step in the constraints; the five C loops over the stages do
    independent work per stage and are merged. *)
Definition lin_stage (qp : oqp F) (Gamma Zs : vec) (ss : nat) (s : vec * vec) : vec * vec :=
  let D := q_dim qp in let n := (dnu D ss + dnx D ss)%nat in let nb := dnb D ss in let ng := dng D ss in let ns := dns D ss in
  let '(ux, t) := s in
  let t := VECEX_SP nb f1 (q_idxb qp ss) ux 0 t 0 in
  let t := GEMV_T n ng f1 (q_DCt qp ss) 0 0 ux 0 f0 t nb t nb in
  let t := VECCP (nb + ng) t 0 t (nb + ng) in
  let t := VECSC (nb + ng) (- f1) t (nb + ng) in
  if Nat.ltb 0 ns then expand_slacks n nb ng ns (q_idxs_rev qp ss) Gamma Zs (ux, t) else (ux, t).

(** OCP_QP_FACT_SOLVE_KKT_STEP, lines 1113-1895.  The arrays Gamma, gamma, t_inv, dlam, dt are contiguous over the stages (C08) and
    COMPUTE_GAMMA_GAMMA_QP, COMPUTE_LAM_T_QP work entry by entry: applied stage by stage here. Result: step, preg used, workspace. *)
Definition Gamgam (a : kargs F) (qp : oqp F) (ss : nat) (s : vec * vec * vec) : vec * vec * vec :=
  compute_Gamma_gamma (a_tlm a) (nct (q_dim qp) ss) (a_lam a ss) (a_t a ss) (a_lam_min a) (a_t_min a) (a_t_min_inv a) (q_d qp ss) (q_m qp ss) s.
Section Fs.
Context (a : kargs F) (qp : oqp F) (tinv0 Gam0 gam0 : nat -> vec).
(** t_inv, Gamma, gamma of stage ss, lines 1205-1208 *)
Definition kkt_Gg (ss : nat) : vec * vec * vec := Gamgam a qp ss (tinv0 ss, Gam0 ss, gam0 ss).
Definition kkt_tinv (ss : nat) : vec := fst (fst (kkt_Gg ss)).
Definition kkt_Gam (ss : nat) : vec := snd (fst (kkt_Gg ss)).
Definition kkt_gam (ss : nat) : vec := snd (kkt_Gg ss).
(** (ux, t) and (lam, t) of stage ss after lines 1864-1893, from the workspace w left by the forward sweep *)
Definition kkt_ut (stp : osol F) (w : kws F) (ss : nat) : vec * vec := lin_stage qp (kkt_Gam ss) (k_Zs w ss) ss (k_ux w ss, s_t stp ss).
Definition kkt_lt (stp : osol F) (w : kws F) (ss : nat) : vec * vec :=
  compute_lam_t (nct (q_dim qp) ss) (a_lam a ss) (kkt_tinv ss) (q_d qp ss) (q_m qp ss) (s_lam stp ss, snd (kkt_ut stp w ss)).
Definition kkt_step (stp : osol F) (w : kws F) : osol F :=
  mksol (fun ss => fst (kkt_ut stp w ss)) (k_pi w) (fun ss => fst (kkt_lt stp w ss)) (fun ss => snd (kkt_lt stp w ss)).
(** factorisation with its retries, then the forward sweep: the workspace and the regularisation used *)
Definition kkt_factor (fuel : nat) (square_root : bool) (w : kws F) : option (kws F * F) :=
  let '(w1, sg) := if square_root then fact_sqrt (a_reg a) (a_reg a) qp kkt_Gam kkt_gam w else fact_cls (a_reg a) (a_reg a) qp kkt_Gam kkt_gam w in
  if (sg : bool) then
    match retry fuel (a_reg a) (a_preg_last a) qp kkt_Gam kkt_gam false (a_reg a) w1 with
    | None => None
    | Some (w2, preg) => Some (forward (fwd_cls (a_dual a) qp) qp w2, preg)
    end
  else Some (forward (if square_root then fwd_sqrt (a_dual a) qp else fwd_cls (a_dual a) qp) qp w1, a_reg a).
End Fs.
Definition fact_solve_kkt (fuel : nat) (square_root : bool) (a : kargs F) (qp : oqp F) (tinv0 Gam0 gam0 : nat -> vec) (stp : osol F) (w : kws F) : option (osol F * F * kws F) :=
  match kkt_factor a qp tinv0 Gam0 gam0 fuel square_root w with
  | None => None
  | Some (w, preg) => Some (kkt_step a qp tinv0 Gam0 gam0 stp w, preg, w)
  end.
End Kkt.
