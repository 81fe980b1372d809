(** DenKktModel.v -- dense_qp/x_dense_qp_kkt.c: factorisation and solution of the (interior-point) KKT systems of the dense QP.
    [q] is the QP whose gz, b, d, m hold the right-hand side (for the IPM: ws->qp_step, i.e. the residuals). *)
From Coq Require Import ZArith Bool Arith.
From Verif Require Import Base ArithF Blas Blas2 CoreModel DenModel KktModel.

(** arguments and core workspace data read here: arg->reg_prim, reg_dual, kkt_fact_alg, scale; cws->lam, t, t_lam_min, lam_min, t_min, t_min_inv *)
Record dka (F : Type) := mkdka { da_reg : F; da_dreg : F; da_alg : Z; da_scale : bool; da_lam : nat -> F; da_t : nat -> F;
  da_tlm : Z; da_lam_min : F; da_t_min : F; da_t_min_inv : F }.
Arguments mkdka {F}. Arguments da_reg {F}. Arguments da_dreg {F}. Arguments da_alg {F}. Arguments da_scale {F}. Arguments da_lam {F}. Arguments da_t {F}.
Arguments da_tlm {F}. Arguments da_lam_min {F}. Arguments da_t_min {F}. Arguments da_t_min_inv {F}.

(** the factorisation part of struct DENSE_QP_IPM_WS: Lv (with dA), Ctx, AL, Le (with dA), sv, se, Zs_inv, tmp_nbg+0..3, and for the null-space
    method A_LQ, A_Q, Zt, ZtH, ZtHZ (with dA); flags scale, use_A_fact; preg_last, dreg_last, npd_reg_hess *)
Record dkw (F : Type) := mkdkw { w_Lv : nat -> nat -> F; w_dLv : nat -> F; w_Ctx : nat -> nat -> F; w_AL : nat -> nat -> F; w_Le : nat -> nat -> F; w_dLe : nat -> F;
  w_sv : nat -> F; w_se : nat -> F; w_Zs : nat -> F; w_tmp : nat -> nat -> F;
  w_LQ : nat -> nat -> F; w_Q : nat -> nat -> F; w_Zt : nat -> nat -> F; w_ZtH : nat -> nat -> F; w_ZtHZ : nat -> nat -> F; w_dZ : nat -> F;
  w_scale : bool; w_useA : bool; w_preg : F; w_dreg : F; w_npd : bool }.
Arguments mkdkw {F}. Arguments w_Lv {F}. Arguments w_dLv {F}. Arguments w_Ctx {F}. Arguments w_AL {F}. Arguments w_Le {F}. Arguments w_dLe {F}. Arguments w_sv {F}. Arguments w_se {F}.
Arguments w_Zs {F}. Arguments w_tmp {F}. Arguments w_LQ {F}. Arguments w_Q {F}. Arguments w_Zt {F}. Arguments w_ZtH {F}. Arguments w_ZtHZ {F}. Arguments w_dZ {F}.
Arguments w_scale {F}. Arguments w_useA {F}. Arguments w_preg {F}. Arguments w_dreg {F}. Arguments w_npd {F}.

(** outcome of a factorisation attempt: done, goto compute_preg, goto compute_dreg *)
Inductive fstat := Fok | Fpreg | Fdreg.

Section DenKkt.
Context {F : Type} {AF : Arith F}.
Local Open Scope F_scope.
Notation vec := (nat -> F).
Notation mat := (nat -> nat -> F).

(** BLASFEO routines used here only: D = alpha*B*A^-T (A lower triangular n x n, column by column), D = beta*C + alpha*diag(a)*B, extraction of
    the diagonal *)
Definition TRSM_RLTN (m n : nat) (alpha : F) (A : mat) (ai aj : nat) (B : mat) (bi bj : nat) (D : mat) (di dj : nat) : mat :=
  loop n (fun j D => mupd D di (dj + j) m 1 (fun _ _ => true) (fun i _ =>
    (alpha * B (bi + i)%nat (bj + j)%nat - fsum j (fun k => D (di + i)%nat (dj + k)%nat * A (ai + j)%nat (aj + k)%nat)) * (f1 / A (ai + j)%nat (aj + j)%nat))) D.
Definition GEMM_L_DIAG (m n : nat) (alpha : F) (a : vec) (ai : nat) (B : mat) (bi bj : nat) (beta : F) (C : mat) (ci cj : nat) (D : mat) (di dj : nat) : mat :=
  mblk D di dj m n (fun i j => beta * C (ci + i)%nat (cj + j)%nat + alpha * a (ai + i)%nat * B (bi + i)%nat (bj + j)%nat).
Definition DIAEX (k : nat) (alpha : F) (A : mat) (ai aj : nat) (x : vec) (xi : nat) : vec := vset x xi k (fun i => alpha * A (ai + i)%nat (aj + i)%nat).

(** COND_SLACKS_FACT, lines 622-705 *)
Definition den_slacks_fact (nb ng ns : nat) (reg : F) (sf : nat -> Z) (Z Gamma : vec) (s : (nat -> vec) * vec) : (nat -> vec) * vec :=
  let '(tmp, Zs) := s in
  let tmp := upd tmp 0%nat (VECCP (nb + ng) Gamma 0 (tmp 0%nat) 0) in
  let tmp := upd tmp 1%nat (VECCP (nb + ng) Gamma (nb + ng) (tmp 1%nat) 0) in
  let Zs := loop ns (fun idx Zs =>
      let Zs := upd Zs idx (Z idx + reg + Gamma (2 * nb + 2 * ng + idx)%nat) in
      upd Zs (ns + idx)%nat (Z (ns + idx)%nat + reg + Gamma (2 * nb + 2 * ng + ns + idx)%nat)) Zs in
  let Zs := loop (nb + ng) (fun ii Zs =>
      if Z.eqb (sf ii) (-1) then Zs else
      let idx := Z.to_nat (sf ii) in
      let Zs := upd Zs idx (Zs idx + Gamma ii) in
      upd Zs (ns + idx)%nat (Zs (ns + idx)%nat + Gamma (nb + ng + ii)%nat)) Zs in
  let Zs := loop ns (fun idx Zs => let Zs := upd Zs idx (f1 / Zs idx) in upd Zs (ns + idx)%nat (f1 / Zs (ns + idx)%nat)) Zs in
  let tmp := loop (nb + ng) (fun ii tmp =>
      if Z.eqb (sf ii) (-1) then tmp else
      let idx := Z.to_nat (sf ii) in
      let tmp := upd tmp 0%nat (upd (tmp 0%nat) ii (tmp 0%nat ii - tmp 0%nat ii * Zs idx * tmp 0%nat ii)) in
      upd tmp 1%nat (upd (tmp 1%nat) ii (tmp 1%nat ii - tmp 1%nat ii * Zs (ns + idx)%nat * tmp 1%nat ii))) tmp in
  (upd tmp 0%nat (AXPY (nb + ng) f1 (tmp 1%nat) 0 (tmp 0%nat) 0 (tmp 0%nat) 0), Zs).
(** COND_SLACKS_SOLVE, lines 709-795 *)
Definition den_slacks_solve (nv nb ng ns : nat) (sf : nat -> Z) (g Gamma gamma Zs : vec) (s : (nat -> vec) * vec) : (nat -> vec) * vec :=
  let '(tmp, dv) := s in
  let tmp := upd tmp 2%nat (VECCP (nb + ng) gamma 0 (tmp 2%nat) 0) in
  let tmp := upd tmp 3%nat (VECCP (nb + ng) gamma (nb + ng) (tmp 3%nat) 0) in
  let dv := loop ns (fun idx dv =>
      let dv := upd dv (nv + idx)%nat (g (nv + idx)%nat + gamma (2 * nb + 2 * ng + idx)%nat) in
      upd dv (nv + ns + idx)%nat (g (nv + ns + idx)%nat + gamma (2 * nb + 2 * ng + ns + idx)%nat)) dv in
  let dv := loop (nb + ng) (fun ii dv =>
      if Z.eqb (sf ii) (-1) then dv else
      let idx := Z.to_nat (sf ii) in
      let dv := upd dv (nv + idx)%nat (dv (nv + idx)%nat + gamma ii) in
      upd dv (nv + ns + idx)%nat (dv (nv + ns + idx)%nat + gamma (nb + ng + ii)%nat)) dv in
  let tmp := loop (nb + ng) (fun ii tmp =>
      if Z.eqb (sf ii) (-1) then tmp else
      let idx := Z.to_nat (sf ii) in
      let tmp0 := dv (nv + idx)%nat * Zs idx in
      let tmp1 := dv (nv + ns + idx)%nat * Zs (ns + idx)%nat in
      let tmp := upd tmp 2%nat (upd (tmp 2%nat) ii (tmp 2%nat ii - Gamma ii * tmp0)) in
      upd tmp 3%nat (upd (tmp 3%nat) ii (tmp 3%nat ii - Gamma (nb + ng + ii)%nat * tmp1))) tmp in
  (upd tmp 1%nat (AXPY (nb + ng) (- f1) (tmp 3%nat) 0 (tmp 2%nat) 0 (tmp 1%nat) 0), dv).
(** EXPAND_SLACKS, lines 799-868 *)
Definition den_expand (nv nb ng ns : nat) (sf : nat -> Z) (Gamma Zs : vec) (s : vec * vec) : vec * vec :=
  let '(dv, dt) := s in
  let dv := loop (nb + ng) (fun ii dv =>
      if Z.eqb (sf ii) (-1) then dv else
      let idx := Z.to_nat (sf ii) in
      let dv := upd dv (nv + idx)%nat (dv (nv + idx)%nat + dt ii * Gamma ii) in
      upd dv (nv + ns + idx)%nat (dv (nv + ns + idx)%nat + dt (nb + ng + ii)%nat * Gamma (nb + ng + ii)%nat)) dv in
  let '(dv, dt) := loop ns (fun idx '(dv, dt) =>
      let dv := upd dv (nv + idx)%nat (- Zs idx * dv (nv + idx)%nat) in
      let dv := upd dv (nv + ns + idx)%nat (- Zs (ns + idx)%nat * dv (nv + ns + idx)%nat) in
      let dt := upd dt (2 * nb + 2 * ng + idx)%nat (dv (nv + idx)%nat) in
      (dv, upd dt (2 * nb + 2 * ng + ns + idx)%nat (dv (nv + ns + idx)%nat))) (dv, dt) in
  let dt := loop (nb + ng) (fun ii dt =>
      if Z.eqb (sf ii) (-1) then dt else
      let idx := Z.to_nat (sf ii) in
      let dt := upd dt ii (dt ii + dv (nv + idx)%nat) in
      upd dt (nb + ng + ii)%nat (dt (nb + ng + ii)%nat + dv (nv + ns + idx)%nat)) dt in
  (dv, dt).

Section Qp.
Context (a : dka F) (q : dqp F).
Let nv := d_nv q. Let ne := d_ne q. Let nb := d_nb q. Let ng := d_ng q. Let ns := d_ns q.

(** elimination of the inequality constraints in the matrix: tmp_nbg+0 and Zs_inv, lines 1364-1372 (Gamma part), 954-961 *)
Definition den_tmp0 (Gamma : vec) (s : (nat -> vec) * vec) : (nat -> vec) * vec :=
  let '(tmp, Zs) := s in
  if Nat.ltb 0 ns then den_slacks_fact nb ng ns (da_reg a) (d_idxs_rev q) (d_Z q) Gamma (tmp, Zs)
  else if Nat.ltb 0 (nb + ng) then (upd tmp 0%nat (AXPY (nb + ng) f1 Gamma (nb + ng) Gamma 0 (tmp 0%nat) 0), Zs)
  else (tmp, Zs).
(** the same in the right-hand side: tmp_nbg+1 and the slack part of dv, lines 1364-1372 (gamma part), 2754-2761 *)
Definition den_tmp1 (Gamma gamma Zs : vec) (s : (nat -> vec) * vec) : (nat -> vec) * vec :=
  let '(tmp, dv) := s in
  if Nat.ltb 0 ns then den_slacks_solve nv nb ng ns (d_idxs_rev q) (d_gz q) Gamma gamma Zs (tmp, dv)
  else if Nat.ltb 0 (nb + ng) then (upd tmp 1%nat (AXPY (nb + ng) (- f1) gamma (nb + ng) gamma 0 (tmp 1%nat) 0), dv)
  else (tmp, dv).
(** the reduced gradient lv, lines 1362, 1376, 1380 and 2752, 2762-2769 *)
Definition den_lv (tmp : nat -> vec) (lv : vec) : vec :=
  let lv := VECCP nv (d_gz q) 0 lv 0 in
  let lv := if Nat.ltb 0 nb then VECAD_SP nb f1 (tmp 1%nat) 0 (d_idxb q) lv 0 else lv in
  if Nat.ltb 0 ng then GEMV_N nv ng f1 (d_Ct q) 0 0 (tmp 1%nat) nb f1 lv 0 lv 0 else lv.
(** bounds on the diagonal, lines 1375 (and copies); general constraints, 1381-1382: Ctx, then Lv += Ctx Ct' *)
Definition den_diag (tmp : nat -> vec) (Lv : mat) : mat := if Nat.ltb 0 nb then DIAAD_SP nb f1 (tmp 0%nat) 0 (d_idxb q) Lv 0 0 else Lv.
Definition den_ctx (tmp : nat -> vec) (Ctx : mat) : mat := GEMM_ND nv ng f1 (d_Ct q) 0 0 (tmp 0%nat) nb f0 Ctx 0 0 Ctx 0 0.
Definition den_syrk (tmp : nat -> vec) (Lv Ctx : mat) : mat * mat :=
  if Nat.ltb 0 ng then let Ctx := den_ctx tmp Ctx in (SYRK_LN_MN nv nv ng f1 Ctx 0 0 (d_Ct q) 0 0 f1 Lv 0 0 Lv 0 0, Ctx) else (Lv, Ctx).
(** scaling vector 1/sqrt(diagonal), lines 1462-1470, 1509-1517, 1680-1688 *)
Definition den_scaling (n : nat) (L : mat) (s : vec) : vec :=
  let s := DIAEX n f1 L 0 0 s 0 in
  loop n (fun ii s => let tmp := fsqrt (s ii) in upd s ii (if tmp =? f0 then f1 else f1 / tmp)) s.
(** L := diag(s) L diag(s), lines 1472-1473, 1519-1520, 1690-1691 *)
Definition den_scale_mat (n : nat) (s : vec) (L : mat) : mat :=
  let L := GEMM_L_DIAG n n f1 s 0 L 0 0 f0 L 0 0 L 0 0 in
  GEMM_ND n n f1 L 0 0 s 0 f0 L 0 0 L 0 0.

(** ** null-space method.  [lq ne nv A (LQ, Q)] stands for GELQF followed by ORGLQ (lines 1323-1328): BLASFEO, not in this repository. *)
Definition den_lq (lq : nat -> nat -> mat -> mat * mat -> mat * mat) (w : dkw F) : mat * mat * mat :=
  if w_useA w then (w_LQ w, w_Q w, w_Zt w)
  else let '(LQ, Q) := lq ne nv (d_A q) (w_LQ w, w_Q w) in (LQ, Q, GECP (nv - ne) nv Q ne 0 (w_Zt w) 0 0).
(** factorisation, lines 1321-1410 (the statements on the right-hand side are in [den_solve_null]); FACT_KKT_STEP 933-980 *)
Definition den_fact_null (lq : nat -> nat -> mat -> mat * mat -> mat * mat) (Gamma : vec) (preg : F) (w : dkw F) : dkw F * fstat :=
  let '(LQ, Q, Zt) := den_lq lq w in
  let Lv := TRCP_L nv (d_H q) 0 0 (w_Lv w) 0 0 in
  let '(tmp, Zs) := den_tmp0 Gamma (w_tmp w, w_Zs w) in
  let Lv := den_diag tmp Lv in
  let '(Lv, Ctx) := den_syrk tmp Lv (w_Ctx w) in
  let Lv := TRTR_L nv Lv 0 0 Lv 0 0 in
  let ZtH := GEMM_NT (nv - ne) nv nv f1 Zt 0 0 Lv 0 0 f0 (w_ZtH w) 0 0 (w_ZtH w) 0 0 in
  let ZtHZ := SYRK_LN_MN (nv - ne) (nv - ne) nv f1 ZtH 0 0 Zt 0 0 f0 (w_ZtHZ w) 0 0 (w_ZtHZ w) 0 0 in
  let ZtHZ := DIARE (nv - ne) preg ZtHZ 0 0 in
  let '(ZtHZ, dZ) := POTRF_L_MN (nv - ne) (nv - ne) ZtHZ 0 0 ZtHZ 0 0 (w_dZ w) in
  let sg := singular (nv - ne) dZ in
  (mkdkw Lv (w_dLv w) Ctx (w_AL w) (w_Le w) (w_dLe w) (w_sv w) (w_se w) Zs tmp LQ Q Zt ZtH ZtHZ dZ (w_scale w) true (w_preg w) (w_dreg w) (w_npd w),
   if sg then Fpreg else Fok).
(** solution, lines 1412-1428 and 2776-2791: (dv, dpi) *)
Definition den_solve_null (lv : vec) (w : dkw F) (xy0 Yxy0 xz0 tmp0 : vec) (s : vec * vec) : vec * vec :=
  let '(dv, dpi) := s in
  let xy := TRSV_LNN ne (w_LQ w) 0 0 (d_b q) 0 xy0 0 in
  let Yxy := GEMV_T ne nv f1 (w_Q w) 0 0 xy 0 f0 Yxy0 0 Yxy0 0 in
  let xz := GEMV_N (nv - ne) nv (- f1) (w_ZtH w) 0 0 Yxy 0 f0 xz0 0 xz0 0 in
  let xz := GEMV_N (nv - ne) nv (- f1) (w_Zt w) 0 0 lv 0 f1 xz 0 xz 0 in
  let xz := TRSV_LNN (nv - ne) (w_ZtHZ w) 0 0 xz 0 xz 0 in
  let xz := TRSV_LTN (nv - ne) (w_ZtHZ w) 0 0 xz 0 xz 0 in
  let dv := GEMV_T (nv - ne) nv f1 (w_Zt w) 0 0 xz 0 f1 Yxy 0 dv 0 in
  let tmp := SYMV_L nv f1 (w_Lv w) 0 0 dv 0 f1 lv 0 tmp0 0 in
  let dpi := GEMV_N ne nv f1 (w_Q w) 0 0 tmp 0 f0 dpi 0 dpi 0 in
  (dv, TRSV_LTN ne (w_LQ w) 0 0 dpi 0 dpi 0).

(** ** Schur-complement method with scaling, factorisation: lines 1439-1535 (right-hand side statements in [den_solve_schur_sc]); FACT_KKT_STEP 989-1051 *)
Definition den_fact_schur_sc (Gamma : vec) (preg dreg : F) (w : dkw F) : dkw F * fstat :=
  let Lv := GECP nv nv (d_H q) 0 0 (w_Lv w) 0 0 in
  let '(tmp, Zs) := den_tmp0 Gamma (w_tmp w, w_Zs w) in
  let Lv := den_diag tmp Lv in
  let '(Lv, Ctx) := den_syrk tmp Lv (w_Ctx w) in
  let sv := den_scaling nv Lv (w_sv w) in
  let Lv := den_scale_mat nv sv Lv in
  let Lv := DIARE nv preg Lv 0 0 in
  let '(Lv, dLv) := POTRF_L_MN nv nv Lv 0 0 Lv 0 0 (w_dLv w) in
  if singular nv dLv then
    (mkdkw Lv dLv Ctx (w_AL w) (w_Le w) (w_dLe w) sv (w_se w) Zs tmp (w_LQ w) (w_Q w) (w_Zt w) (w_ZtH w) (w_ZtHZ w) (w_dZ w) (w_scale w) (w_useA w) (w_preg w) (w_dreg w) (w_npd w), Fpreg)
  else
    let AL := GECP ne nv (d_A q) 0 0 (w_AL w) 0 0 in
    let AL := GEMM_ND ne nv f1 AL 0 0 sv 0 f0 AL 0 0 AL 0 0 in
    let AL := TRSM_RLTN ne nv f1 Lv 0 0 AL 0 0 AL 0 0 in
    let Le := GESE ne ne f0 (w_Le w) 0 0 in
    let Le := SYRK_LN_MN ne ne nv f1 AL 0 0 AL 0 0 f1 Le 0 0 Le 0 0 in
    let se := den_scaling ne Le (w_se w) in
    let Le := den_scale_mat ne se Le in
    let Le := DIARE ne dreg Le 0 0 in
    let '(Le, dLe) := POTRF_L_MN ne ne Le 0 0 Le 0 0 (w_dLe w) in
    (mkdkw Lv dLv Ctx AL Le dLe sv se Zs tmp (w_LQ w) (w_Q w) (w_Zt w) (w_ZtH w) (w_ZtHZ w) (w_dZ w) (w_scale w) (w_useA w) (w_preg w) (w_dreg w) (w_npd w),
     if singular ne dLe then Fdreg else Fok).
(** solution, lines 1494-1495, 1501, 1537-1549 and 2808-2829 *)
Definition den_solve_schur_sc (lv : vec) (w : dkw F) (s : vec * vec) : vec * vec :=
  let '(dv, dpi) := s in
  let lv := GEMV_DIAG nv f1 (w_sv w) 0 lv 0 f0 lv 0 lv 0 in
  let dv := VECCP nv lv 0 dv 0 in
  let lv := TRSV_LNN nv (w_Lv w) 0 0 lv 0 lv 0 in
  let dpi := GEMV_N ne nv f1 (w_AL w) 0 0 lv 0 f1 (d_b q) 0 dpi 0 in
  let dpi := GEMV_DIAG ne f1 (w_se w) 0 dpi 0 f0 dpi 0 dpi 0 in
  let dpi := TRSV_LNN ne (w_Le w) 0 0 dpi 0 dpi 0 in
  let dpi := TRSV_LTN ne (w_Le w) 0 0 dpi 0 dpi 0 in
  let dpi := GEMV_DIAG ne f1 (w_se w) 0 dpi 0 f0 dpi 0 dpi 0 in
  let lv := GEMV_T ne nv f1 (d_A q) 0 0 dpi 0 f0 lv 0 lv 0 in
  let dv := GEMV_DIAG nv f1 (w_sv w) 0 lv 0 (- f1) dv 0 dv 0 in
  let dv := TRSV_LNN nv (w_Lv w) 0 0 dv 0 dv 0 in
  let dv := TRSV_LTN nv (w_Lv w) 0 0 dv 0 dv 0 in
  (GEMV_DIAG nv f1 (w_sv w) 0 dv 0 f0 dv 0 dv 0, dpi).

(** ** Schur-complement method without scaling, factorisation: lines 1556-1630 (note: the regularisation added is arg->reg_prim, line 1558, whatever
    preg has become); FACT_KKT_STEP 1056-1093 *)
Definition den_fact_schur (Gamma : vec) (preg dreg : F) (w : dkw F) : dkw F * fstat :=
  let Lv := GECP nv nv (d_H q) 0 0 (w_Lv w) 0 0 in
  let Lv := DIARE nv (da_reg a) Lv 0 0 in
  let '(tmp, Zs) := den_tmp0 Gamma (w_tmp w, w_Zs w) in
  let Lv := den_diag tmp Lv in
  let '(Lv, Ctx, dLv) :=
    if Nat.ltb 0 ng then
      let Ctx := den_ctx tmp (w_Ctx w) in
      let '(Lv, dLv) := SYRK_POTRF_LN_MN nv nv ng Ctx 0 0 (d_Ct q) 0 0 Lv 0 0 Lv 0 0 (w_dLv w) in (Lv, Ctx, dLv)
    else let '(Lv, dLv) := POTRF_L_MN nv nv Lv 0 0 Lv 0 0 (w_dLv w) in (Lv, w_Ctx w, dLv) in
  if singular nv dLv then
    (mkdkw Lv dLv Ctx (w_AL w) (w_Le w) (w_dLe w) (w_sv w) (w_se w) Zs tmp (w_LQ w) (w_Q w) (w_Zt w) (w_ZtH w) (w_ZtHZ w) (w_dZ w) (w_scale w) (w_useA w) (w_preg w) (w_dreg w) (w_npd w), Fpreg)
  else
    let AL := TRSM_RLTN ne nv f1 Lv 0 0 (d_A q) 0 0 (w_AL w) 0 0 in
    let Le := GESE ne ne f0 (w_Le w) 0 0 in
    let Le := DIARE ne dreg Le 0 0 in
    let '(Le, dLe) := SYRK_POTRF_LN_MN ne ne nv AL 0 0 AL 0 0 Le 0 0 Le 0 0 (w_dLe w) in
    (mkdkw Lv dLv Ctx AL Le dLe (w_sv w) (w_se w) Zs tmp (w_LQ w) (w_Q w) (w_Zt w) (w_ZtH w) (w_ZtHZ w) (w_dZ w) (w_scale w) (w_useA w) (w_preg w) (w_dreg w) (w_npd w),
     if singular ne dLe then Fdreg else Fok).
(** solution, lines 1604, 1608-1610, 1633-1640 and 2832-2848 *)
Definition den_solve_schur (lv : vec) (w : dkw F) (s : vec * vec) : vec * vec :=
  let '(dv, dpi) := s in
  let dv := VECCP nv lv 0 dv 0 in
  let lv := TRSV_LNN nv (w_Lv w) 0 0 lv 0 lv 0 in
  let dpi := GEMV_N ne nv f1 (w_AL w) 0 0 lv 0 f1 (d_b q) 0 dpi 0 in
  let dpi := TRSV_LNN ne (w_Le w) 0 0 dpi 0 dpi 0 in
  let dpi := TRSV_LTN ne (w_Le w) 0 0 dpi 0 dpi 0 in
  let dv := GEMV_T ne nv f1 (d_A q) 0 0 dpi 0 (- f1) dv 0 dv 0 in
  let dv := TRSV_LNN nv (w_Lv w) 0 0 dv 0 dv 0 in
  (TRSV_LTN nv (w_Lv w) 0 0 dv 0 dv 0, dpi).

(** ** no equality constraints, scaling: lines 1653-1711; FACT_KKT_STEP 1102-1137 *)
Definition den_fact_sc (Gamma : vec) (preg : F) (w : dkw F) : dkw F * fstat :=
  let Lv := TRCP_L nv (d_H q) 0 0 (w_Lv w) 0 0 in
  let '(tmp, Zs) := den_tmp0 Gamma (w_tmp w, w_Zs w) in
  let Lv := den_diag tmp Lv in
  let '(Lv, Ctx) := den_syrk tmp Lv (w_Ctx w) in
  let sv := den_scaling nv Lv (w_sv w) in
  let Lv := den_scale_mat nv sv Lv in
  let Lv := DIARE nv preg Lv 0 0 in
  let '(Lv, dLv) := POTRF_L_MN nv nv Lv 0 0 Lv 0 0 (w_dLv w) in
  (mkdkw Lv dLv Ctx (w_AL w) (w_Le w) (w_dLe w) sv (w_se w) Zs tmp (w_LQ w) (w_Q w) (w_Zt w) (w_ZtH w) (w_ZtHZ w) (w_dZ w) (w_scale w) (w_useA w) (w_preg w) (w_dreg w) (w_npd w),
   if singular nv dLv then Fpreg else Fok).
(** solution, lines 1713-1719 and 2856-2864 *)
Definition den_solve_sc (lv : vec) (w : dkw F) (dv : vec) : vec :=
  let dv := VECCP nv lv 0 dv 0 in
  let dv := VECSC nv (- f1) dv 0 in
  let dv := GEMV_DIAG nv f1 (w_sv w) 0 dv 0 f0 dv 0 dv 0 in
  let dv := TRSV_LNN nv (w_Lv w) 0 0 dv 0 dv 0 in
  let dv := TRSV_LTN nv (w_Lv w) 0 0 dv 0 dv 0 in
  GEMV_DIAG nv f1 (w_sv w) 0 dv 0 f0 dv 0 dv 0.

(** ** no equality constraints, no scaling: lines 1726-1768 and 1948-1949.  The gradient is row nv of the matrix being factorised. *)
Definition den_fact_plain (Gamma gamma : vec) (preg : F) (w : dkw F) (dv : vec) : dkw F * vec * fstat :=
  let Lv := GECP nv nv (d_H q) 0 0 (w_Lv w) 0 0 in
  let Lv := ROWIN nv f1 (d_gz q) 0 Lv nv 0 in
  let Lv := DIARE nv preg Lv 0 0 in
  let '(tmp, Zs) := den_tmp0 Gamma (w_tmp w, w_Zs w) in
  let '(tmp, dv) := den_tmp1 Gamma gamma Zs (tmp, dv) in
  let Lv := if Nat.ltb 0 nb then ROWAD_SP nb f1 (tmp 1%nat) 0 (d_idxb q) (DIAAD_SP nb f1 (tmp 0%nat) 0 (d_idxb q) Lv 0 0) nv 0 else Lv in
  let '(Lv, Ctx, dLv) :=
    if Nat.ltb 0 ng then
      let Ctx := den_ctx tmp (w_Ctx w) in
      let Ctx := ROWIN ng f1 (tmp 1%nat) nb Ctx nv 0 in
      let '(Lv, dLv) := SYRK_POTRF_LN_MN (nv + 1) nv ng Ctx 0 0 (d_Ct q) 0 0 Lv 0 0 Lv 0 0 (w_dLv w) in (Lv, Ctx, dLv)
    else let '(Lv, dLv) := POTRF_L_MN (nv + 1) nv Lv 0 0 Lv 0 0 (w_dLv w) in (Lv, w_Ctx w, dLv) in
  (mkdkw Lv dLv Ctx (w_AL w) (w_Le w) (w_dLe w) (w_sv w) (w_se w) Zs tmp (w_LQ w) (w_Q w) (w_Zt w) (w_ZtH w) (w_ZtHZ w) (w_dZ w) (w_scale w) (w_useA w) (w_preg w) (w_dreg w) (w_npd w),
   dv, if singular nv dLv then Fpreg else Fok).
Definition den_back_plain (w : dkw F) (dv : vec) : vec :=
  let dv := ROWEX nv (- f1) (w_Lv w) nv 0 dv 0 in
  TRSV_LTN nv (w_Lv w) 0 0 dv 0 dv 0.
(** FACT_KKT_STEP for this case, lines 1141-1166 *)
Definition den_fact_plain0 (Gamma : vec) (w : dkw F) : dkw F :=
  let Lv := GECP nv nv (d_H q) 0 0 (w_Lv w) 0 0 in
  let Lv := DIARE nv (da_reg a) Lv 0 0 in
  let '(tmp, Zs) := den_tmp0 Gamma (w_tmp w, w_Zs w) in
  let Lv := den_diag tmp Lv in
  let '(Lv, Ctx, dLv) :=
    if Nat.ltb 0 ng then
      let Ctx := den_ctx tmp (w_Ctx w) in
      let '(Lv, dLv) := SYRK_POTRF_LN_MN nv nv ng Ctx 0 0 (d_Ct q) 0 0 Lv 0 0 Lv 0 0 (w_dLv w) in (Lv, Ctx, dLv)
    else let '(Lv, dLv) := POTRF_L_MN nv nv Lv 0 0 Lv 0 0 (w_dLv w) in (Lv, w_Ctx w, dLv) in
  mkdkw Lv dLv Ctx (w_AL w) (w_Le w) (w_dLe w) (w_sv w) (w_se w) Zs tmp (w_LQ w) (w_Q w) (w_Zt w) (w_ZtH w) (w_ZtHZ w) (w_dZ w) (w_scale w) (w_useA w) (w_preg w) (w_dreg w) (w_npd w).
(** SOLVE_KKT_STEP for this case, lines 2868-2874 *)
Definition den_solve_plain (lv : vec) (w : dkw F) (dv : vec) : vec :=
  let dv := VECCP nv lv 0 dv 0 in
  let dv := VECSC nv (- f1) dv 0 in
  let dv := TRSV_LNN nv (w_Lv w) 0 0 dv 0 dv 0 in
  TRSV_LTN nv (w_Lv w) 0 0 dv 0 dv 0.

Definition set_npd (w : dkw F) : dkw F :=
  mkdkw (w_Lv w) (w_dLv w) (w_Ctx w) (w_AL w) (w_Le w) (w_dLe w) (w_sv w) (w_se w) (w_Zs w) (w_tmp w) (w_LQ w) (w_Q w) (w_Zt w) (w_ZtH w) (w_ZtHZ w) (w_dZ w) (w_scale w) (w_useA w) (w_preg w) (w_dreg w) true.
Definition set_tmp (tmp : nat -> vec) (w : dkw F) : dkw F :=
  mkdkw (w_Lv w) (w_dLv w) (w_Ctx w) (w_AL w) (w_Le w) (w_dLe w) (w_sv w) (w_se w) (w_Zs w) tmp (w_LQ w) (w_Q w) (w_Zt w) (w_ZtH w) (w_ZtHZ w) (w_dZ w) (w_scale w) (w_useA w) (w_preg w) (w_dreg w) (w_npd w).
Definition set_last (pi di : bool) (preg dreg : F) (w : dkw F) : dkw F :=
  mkdkw (w_Lv w) (w_dLv w) (w_Ctx w) (w_AL w) (w_Le w) (w_dLe w) (w_sv w) (w_se w) (w_Zs w) (w_tmp w) (w_LQ w) (w_Q w) (w_Zt w) (w_ZtH w) (w_ZtHZ w) (w_dZ w) (w_scale w) (w_useA w)
    (if pi then preg else w_preg w) (if di then dreg else w_dreg w) (w_npd w).

(** scratch vectors lv, xy, Yxy, xz, tmp_nv (their contents on entry are never read) *)
Context (lq : nat -> nat -> mat -> mat * mat -> mat * mat) (scr : nat -> vec).
(** SOLVE part, lines 2752-2878; [sc] is ws->scale there, arg->scale in FACT_SOLVE_KKT_STEP *)
Definition den_solve_ne (sc : bool) (lv : vec) (w : dkw F) (s : vec * vec) : vec * vec :=
  if Z.eqb (da_alg a) 0 then den_solve_null lv w (scr 1%nat) (scr 2%nat) (scr 3%nat) (scr 4%nat) s
  else if sc then den_solve_schur_sc lv w s else den_solve_schur lv w s.
Definition den_fact_ne (Gamma : vec) (preg dreg : F) (w : dkw F) : dkw F * fstat :=
  if Z.eqb (da_alg a) 0 then den_fact_null lq Gamma preg w
  else if da_scale a then den_fact_schur_sc Gamma preg dreg w else den_fact_schur Gamma preg dreg w.

(** one pass of main_loop, lines 1313-1951: workspace, (dv, dpi), outcome.  In the C code the right-hand-side statements are
    interleaved with the factorisation; they write other memory. *)
Definition den_attempt (Gamma gamma : vec) (preg dreg : F) (w : dkw F) (s : vec * vec) : dkw F * (vec * vec) * fstat :=
  let '(dv, dpi) := s in
  if Nat.ltb 0 ne then
    let '(w, st) := den_fact_ne Gamma preg dreg w in
    match st with
    | Fok => let '(tmp, dv) := den_tmp1 Gamma gamma (w_Zs w) (w_tmp w, dv) in
             (set_tmp tmp w, den_solve_ne (da_scale a) (den_lv tmp (scr 0%nat)) w (dv, dpi), Fok)
    | st => (w, (dv, dpi), st)
    end
  else if da_scale a then
    let '(w, st) := den_fact_sc Gamma preg w in
    match st with
    | Fok => let '(tmp, dv) := den_tmp1 Gamma gamma (w_Zs w) (w_tmp w, dv) in
             (set_tmp tmp w, (den_solve_sc (den_lv tmp (scr 0%nat)) w dv, dpi), Fok)
    | st => (w, (dv, dpi), st)
    end
  else
    let '(w, dv, st) := den_fact_plain Gamma gamma preg w dv in
    match st with
    | Fok => (w, (den_back_plain w dv, dpi), Fok)
    | st => (w, (dv, dpi), st)
    end.
(** the retry loop, lines 1226-1311 and the gotos.  [None]: fuel exhausted (the C loop has no bound).  compute_dreg compares dreg_last with
    arg->reg_prim (lines 1288, 1299), as does compute_preg.  Result: workspace, (dv, dpi), preg_init, preg, dreg_init, dreg. *)
Fixpoint den_loop (fuel : nat) (Gamma gamma : vec) (pi : bool) (preg : F) (di : bool) (dreg : F) (w : dkw F) (s : vec * vec)
  : option (dkw F * (vec * vec) * (bool * F) * (bool * F)) :=
  match fuel with
  | O => None
  | S fuel' =>
      let '(w, s, st) := den_attempt Gamma gamma preg dreg w s in
      match st with
      | Fok => Some (w, s, (pi, preg), (di, dreg))
      | Fpreg => den_loop fuel' Gamma gamma true (next_preg (da_reg a) (w_preg w) pi preg) di dreg (set_npd w) s
      | Fdreg => den_loop fuel' Gamma gamma pi preg true (next_preg (da_reg a) (w_dreg w) di dreg) (set_npd w) s
      end
  end.
(** epilogue, lines 1953-1968 and 2880-2895: constraint part of the step, (dv, dlam, dt) *)
Definition den_lin (Gamma Zs : vec) (s : vec * vec) : vec * vec :=
  let '(dv, dt) := s in
  let dt := if Nat.ltb 0 nb then VECEX_SP nb f1 (d_idxb q) dv 0 dt 0 else dt in
  let dt := if Nat.ltb 0 ng then GEMV_T nv ng f1 (d_Ct q) 0 0 dv 0 f0 dt nb dt nb else dt in
  let dt := VECCP (nb + ng) dt 0 dt (nb + ng) in
  let dt := VECSC (nb + ng) (- f1) dt (nb + ng) in
  if Nat.ltb 0 ns then den_expand nv nb ng ns (d_idxs_rev q) Gamma Zs (dv, dt) else (dv, dt).
Definition den_epilogue (tinv Gamma Zs : vec) (dv dlam dt : vec) : vec * vec * vec :=
  if Nat.ltb 0 (nb + ng + ns) then
    let '(dv, dt) := den_lin Gamma Zs (dv, dt) in
    let '(dlam, dt) := compute_lam_t (d_nct q) (da_lam a) tinv (d_d q) (d_m q) (dlam, dt) in
    (dv, dlam, dt)
  else (dv, dlam, dt).
(** COMPUTE_GAMMA_GAMMA_QP, lines 1220-1223: t_inv, Gamma, gamma *)
Definition den_Gg (g3 : vec * vec * vec) : vec * vec * vec :=
  if Nat.ltb 0 (nb + ng + ns) then
    compute_Gamma_gamma (da_tlm a) (d_nct q) (da_lam a) (da_t a) (da_lam_min a) (da_t_min a) (da_t_min_inv a) (d_d q) (d_m q) g3
  else g3.
Definition clear_npd (w : dkw F) : dkw F :=
  mkdkw (w_Lv w) (w_dLv w) (w_Ctx w) (w_AL w) (w_Le w) (w_dLe w) (w_sv w) (w_se w) (w_Zs w) (w_tmp w) (w_LQ w) (w_Q w) (w_Zt w) (w_ZtH w) (w_ZtHZ w) (w_dZ w) (w_scale w) (w_useA w) (w_preg w) (w_dreg w) false.
(** DENSE_QP_FACT_SOLVE_KKT_STEP, lines 1167-1985: step, final preg and dreg, t_inv/Gamma/gamma, workspace *)
Definition den_fact_solve (fuel : nat) (g3 : vec * vec * vec) (stp : dsol F) (w : dkw F) : option (dsol F * (F * F) * (vec * vec * vec) * dkw F) :=
  let '(tinv, Gamma, gamma) := den_Gg g3 in
  match den_loop fuel Gamma gamma false (da_reg a) false (da_dreg a) (clear_npd w) (ds_v stp, ds_pi stp) with
  | None => None
  | Some (w, (dv, dpi), (pi, preg), (di, dreg)) =>
      let '(dv, dlam, dt) := den_epilogue tinv Gamma (w_Zs w) dv (ds_lam stp) (ds_t stp) in
      Some (mkdsol dv dpi dlam dt, (preg, dreg), (tinv, Gamma, gamma), set_last pi di preg dreg w)
  end.
(** DENSE_QP_FACT_KKT_STEP, lines 872-1163: COMPUTE_GGAMMA_QP (t_inv and Gamma) and a factorisation without any test of the pivots *)
Definition den_fact_kkt (g2 : vec * vec) (w : dkw F) : (vec * vec) * dkw F :=
  let g2 := if Nat.ltb 0 (nb + ng + ns) then compute_Ggamma (da_tlm a) (d_nct q) (da_lam a) (da_t a) (da_lam_min a) (da_t_min a) (da_t_min_inv a) g2 else g2 in
  let Gamma := snd g2 in
  (g2, if Nat.ltb 0 ne then fst (den_fact_ne Gamma (da_reg a) (da_dreg a) w)
       else if da_scale a then fst (den_fact_sc Gamma (da_reg a) w) else den_fact_plain0 Gamma w).
(** DENSE_QP_SOLVE_KKT_STEP, lines 2715-2900: COMPUTE_GAMMA_QP, then the solution with the factors at hand *)
Definition den_solve_kkt (tinv Gamma gamma0 : vec) (stp : dsol F) (w : dkw F) : dsol F * vec * dkw F :=
  let gamma := if Nat.ltb 0 (nb + ng + ns) then compute_gamma (d_nct q) (da_lam a) tinv (d_d q) (d_m q) gamma0 else gamma0 in
  let '(tmp, dv) := den_tmp1 Gamma gamma (w_Zs w) (w_tmp w, ds_v stp) in
  let lv := den_lv tmp (scr 0%nat) in
  let '(dv, dpi) := if Nat.ltb 0 ne then den_solve_ne (w_scale w) lv w (dv, ds_pi stp)
    else if w_scale w then (den_solve_sc lv w dv, ds_pi stp) else (den_solve_plain lv w dv, ds_pi stp) in
  let '(dv, dlam, dt) := den_epilogue tinv Gamma (w_Zs w) dv (ds_lam stp) (ds_t stp) in
  (mkdsol dv dpi dlam dt, gamma, set_tmp tmp w).
End Qp.
End DenKkt.
