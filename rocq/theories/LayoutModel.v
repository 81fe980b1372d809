(** LayoutModel.v -- memory layouts: *_MEMSIZE functions and the pointer arithmetic of the *_CREATE functions. *)
From Coq Require Import ZArith Lia List Bool Arith String.
From Verif Require Import Base.
Import ListNotations.
Open Scope string_scope.

(** What the layouts depend on: sizeof of the C types, the BLASFEO size functions and the LQ work size.
    [SMAT m n] / [SVEC n] are SIZE_STRMAT / SIZE_STRVEC; the memsize member set by CREATE_STRMAT/CREATE_STRVEC
    is taken to be the same number (trusted BLASFEO contract). *)
Record abi := mkabi {
  zint : nat; zptr : nat; zmat : nat; zvec : nat; zreal : nat;
  zcore : nat; zres : nat; zresws : nat; zsol : nat; zqp : nat;
  SMAT : nat -> nat -> nat; SVEC : nat -> nat; GELQF : nat -> nat -> nat }.

(** The only assumption on BLASFEO used: a vector of n reals needs at least n reals. *)
Definition abi_ok (A : abi) : Prop := forall n, n * zreal A <= SVEC A n.

(** One step of a create function.
    AReg t s b   : object t of stage s gets b bytes at the cursor; the cursor advances by b.
    AAlign a     : cursor = (cursor+a-1)/a*a.
    APart t T ps : tmp_ptr = c_ptr; c_ptr += T; the stages (s,b) of ps get consecutive b bytes from tmp_ptr. *)
Inductive aop := AReg (t : string) (s : nat) (b : nat) | AAlign (a : nat) | APart (t : string) (T : nat) (ps : list (nat * nat)).
Record region := mkreg { r_tag : string; r_stage : nat; r_start : nat; r_len : nat }.

Fixpoint parts (t : string) (c : nat) (ps : list (nat * nat)) : list region :=
  match ps with
  | [] => []
  | (s, b) :: r => mkreg t s c b :: parts t (c + b) r
  end.
Fixpoint run (c : nat) (ops : list aop) : list region * nat :=
  match ops with
  | [] => ([], c)
  | AReg t s b :: r => let '(l, e) := run (c + b) r in (mkreg t s c b :: l, e)
  | AAlign a :: r => run ((c + (a - 1)) / a * a) r
  | APart t T ps :: r => let '(l, e) := run (c + T) r in ((parts t c ps ++ l)%list, e)
  end.

(** for(ii=0; ii<n; ii++) ... *)
Definition stages (n : nat) (f : nat -> list aop) : list aop := flat_map f (seq 0 n).
Definition spart (n : nat) (f : nat -> nat) : list (nat * nat) := map (fun i => (i, f i)) (seq 0 n).
(** size = (size+63)/64*64 *)
Definition round64 (n : nat) : nat := (n + 63) / 64 * 64.
(** max over 0..n-1, starting from 0: xM = x[ii]>xM ? x[ii] : xM. *)
Fixpoint nmax (n : nat) (f : nat -> nat) : nat :=
  match n with O => 0 | S k => if Nat.ltb (nmax k f) (f k) then f k else nmax k f end.

(** ** Core IPM workspace: ipm_core/x_core_qp_ipm.c, MEMSIZE lines 38-59, CREATE lines 63-172 *)
Definition core_memsize (A : abi) (nv ne nc : nat) : nat :=
  round64 (3 * nv * zreal A + 3 * ne * zreal A + 11 * nc * zreal A).
Definition core_create (A : abi) (nv ne nc : nat) : list aop :=
  let r n := n * zreal A in
  [AReg "t_inv" 0 (r nc); AReg "v_bkp" 0 (r nv); AReg "pi_bkp" 0 (r ne); AReg "lam_bkp" 0 (r nc);
   AReg "t_bkp" 0 (r nc); AReg "dv" 0 (r nv); AReg "dpi" 0 (r ne); AReg "dlam" 0 (r nc); AReg "dt" 0 (r nc);
   AReg "res_g" 0 (r nv); AReg "res_b" 0 (r ne); AReg "res_d" 0 (r nc); AReg "res_m" 0 (r nc);
   AReg "res_m_bkp" 0 (r nc); AReg "Gamma" 0 (r nc); AReg "gamma" 0 (r nc); AReg "m" 0 (r nc)].

(** ** OCP dimensions used by the layouts *)
Record odim := mkod { oN : nat; onx : nat -> nat; onu : nat -> nat; onb : nat -> nat; ong : nat -> nat; ons : nat -> nat;
                      onbue : nat -> nat; onbxe : nat -> nat; onge : nat -> nat }.
(** nvt, net, nct of the memsize/create functions (loop to N-1 plus the tail for stage N). *)
Definition snv (d : odim) i := onu d i + onx d i + 2 * ons d i.
Definition snc (d : odim) i := 2 * onb d i + 2 * ong d i + 2 * ons d i.
Definition nvt (d : odim) := nsum (S (oN d)) (snv d).
Definition net (d : odim) := nsum (oN d) (fun i => onx d (S i)).
Definition nct (d : odim) := nsum (S (oN d)) (snc d).

(** *** OCP_QP: ocp_qp/x_ocp_qp.c, MEMSIZE lines 45-113, CREATE lines 117-376 *)
Definition ocp_qp_memsize (A : abi) (d : odim) : nat :=
  let N := oN d in
  round64 (
    5 * (N + 1) * zint A + 3 * (N + 1) * zptr A + 2 * (N + 1) * zmat A + 1 * N * zmat A + 5 * (N + 1) * zvec A + 1 * N * zvec A
    + nsum N (fun i => onb d i * zint A + (onb d i + ong d i) * zint A + (onbue d i + onbxe d i + onge d i) * zint A
        + SMAT A (onu d i + onx d i + 1) (onx d (S i)) + SMAT A (onu d i + onx d i + 1) (onu d i + onx d i)
        + SMAT A (onu d i + onx d i) (ong d i) + SVEC A (2 * ons d i))
    + (onb d N * zint A + (onb d N + ong d N) * zint A + (onbue d N + onbxe d N + onge d N) * zint A
        + SMAT A (onu d N + onx d N + 1) (onu d N + onx d N) + SMAT A (onu d N + onx d N) (ong d N) + SVEC A (2 * ons d N))
    + 1 * SVEC A (nvt d) + 1 * SVEC A (net d) + 3 * SVEC A (nct d)
    + (N + 1) * zint A) + 64.
Definition ocp_qp_create (A : abi) (d : odim) : list aop :=
  let N := oN d in
  [AReg "idxb_ptr" 0 ((N + 1) * zptr A); AReg "idxs_rev_ptr" 0 ((N + 1) * zptr A); AReg "idxe_ptr" 0 ((N + 1) * zptr A);
   AReg "BAbt_hdr" 0 (N * zmat A); AReg "RSQrq_hdr" 0 ((N + 1) * zmat A); AReg "DCt_hdr" 0 ((N + 1) * zmat A);
   AReg "b_hdr" 0 (N * zvec A); AReg "rqz_hdr" 0 ((N + 1) * zvec A); AReg "d_hdr" 0 ((N + 1) * zvec A);
   AReg "d_mask_hdr" 0 ((N + 1) * zvec A); AReg "m_hdr" 0 ((N + 1) * zvec A); AReg "Z_hdr" 0 ((N + 1) * zvec A)]
  ++ stages (N + 1) (fun i => [AReg "idxb" i (onb d i * zint A)])
  ++ stages (N + 1) (fun i => [AReg "idxs_rev" i ((onb d i + ong d i) * zint A)])
  ++ stages (N + 1) (fun i => [AReg "idxe" i ((onbue d i + onbxe d i + onge d i) * zint A)])
  ++ [AReg "diag_H_flag" 0 ((N + 1) * zint A); AAlign 64]
  ++ stages N (fun i => [AReg "BAbt" i (SMAT A (onu d i + onx d i + 1) (onx d (S i)))])
  ++ stages (N + 1) (fun i => [AReg "RSQrq" i (SMAT A (onu d i + onx d i + 1) (onu d i + onx d i))])
  ++ stages (N + 1) (fun i => [AReg "DCt" i (SMAT A (onu d i + onx d i) (ong d i))])
  ++ stages (N + 1) (fun i => [AReg "Z" i (SVEC A (2 * ons d i))])
  ++ [APart "rqz" (SVEC A (nvt d)) (spart (N + 1) (fun i => onu d i * zreal A + onx d i * zreal A + ons d i * zreal A + ons d i * zreal A));
      APart "b" (SVEC A (net d)) (spart N (fun i => onx d (S i) * zreal A));
      APart "d" (SVEC A (nct d)) (spart (N + 1) (fun i => onb d i * zreal A + ong d i * zreal A + onb d i * zreal A + ong d i * zreal A + ons d i * zreal A + ons d i * zreal A));
      APart "d_mask" (SVEC A (nct d)) (spart (N + 1) (fun i => onb d i * zreal A + ong d i * zreal A + onb d i * zreal A + ong d i * zreal A + ons d i * zreal A + ons d i * zreal A));
      APart "m" (SVEC A (nct d)) (spart (N + 1) (fun i => onb d i * zreal A + ong d i * zreal A + onb d i * zreal A + ong d i * zreal A + ons d i * zreal A + ons d i * zreal A))]%list.

(** *** OCP_QP_SOL: ocp_qp/x_ocp_qp_sol.c, MEMSIZE lines 45-85, CREATE lines 89-212 *)
Definition ocp_sol_memsize (A : abi) (d : odim) : nat :=
  let N := oN d in
  round64 (3 * (N + 1) * zvec A + 1 * N * zvec A + 1 * SVEC A (nvt d) + 1 * SVEC A (net d) + 2 * SVEC A (nct d)) + 64.
Definition ocp_sol_create (A : abi) (d : odim) : list aop :=
  let N := oN d in
  let pc := spart (N + 1) (fun i => onb d i * zreal A + ong d i * zreal A + onb d i * zreal A + ong d i * zreal A + ons d i * zreal A + ons d i * zreal A) in
  [AReg "ux_hdr" 0 ((N + 1) * zvec A); AReg "pi_hdr" 0 (N * zvec A); AReg "lam_hdr" 0 ((N + 1) * zvec A); AReg "t_hdr" 0 ((N + 1) * zvec A);
   AAlign 64;
   APart "ux" (SVEC A (nvt d)) (spart (N + 1) (fun i => onu d i * zreal A + onx d i * zreal A + ons d i * zreal A + ons d i * zreal A));
   APart "pi" (SVEC A (net d)) (spart N (fun i => onx d (S i) * zreal A));
   APart "lam" (SVEC A (nct d)) pc; APart "t" (SVEC A (nct d)) pc].

(** *** OCP_QP_RES: ocp_qp/x_ocp_qp_res.c, MEMSIZE lines 38-79, CREATE lines 83-211 *)
Definition ocp_res_memsize (A : abi) (d : odim) : nat :=
  let N := oN d in
  round64 (3 * (N + 1) * zvec A + 1 * N * zvec A + 1 * SVEC A (nvt d) + 1 * SVEC A (net d) + 2 * SVEC A (nct d)) + 64.
Definition ocp_res_create (A : abi) (d : odim) : list aop :=
  let N := oN d in
  let pc := spart (N + 1) (fun i => onb d i * zreal A + ong d i * zreal A + onb d i * zreal A + ong d i * zreal A + ons d i * zreal A + ons d i * zreal A) in
  [AReg "res_g_hdr" 0 ((N + 1) * zvec A); AReg "res_b_hdr" 0 (N * zvec A); AReg "res_d_hdr" 0 ((N + 1) * zvec A); AReg "res_m_hdr" 0 ((N + 1) * zvec A);
   AAlign 64;
   APart "res_g" (SVEC A (nvt d)) (spart (N + 1) (fun i => onu d i * zreal A + onx d i * zreal A + ons d i * zreal A + ons d i * zreal A));
   APart "res_b" (SVEC A (net d)) (spart N (fun i => onx d (S i) * zreal A));
   APart "res_d" (SVEC A (nct d)) pc; APart "res_m" (SVEC A (nct d)) pc].

(** *** OCP_QP_RES_WS: ocp_qp/x_ocp_qp_res.c, MEMSIZE lines 215-254, CREATE lines 258-341 *)
Definition ocp_res_ws_memsize (A : abi) (d : odim) : nat :=
  let M f := nmax (oN d + 1) (f d) in
  round64 (4 * zvec A + 2 * SVEC A (M onb + M ong) + 1 * SVEC A (M ons) + 1 * SVEC A (2 * M onb + 2 * M ong + 2 * M ons)) + 64.
Definition ocp_res_ws_create (A : abi) (d : odim) : list aop :=
  let M f := nmax (oN d + 1) (f d) in
  [AReg "tmp_nbgM_hdr" 0 (2 * zvec A); AReg "tmp_nsM_hdr" 0 (1 * zvec A); AReg "tmp_lam_mask_hdr" 0 (1 * zvec A);
   AAlign 64;
   AReg "tmp_nbgM" 0 (SVEC A (M onb + M ong)); AReg "tmp_nbgM" 1 (SVEC A (M onb + M ong));
   AReg "tmp_nsM" 0 (SVEC A (M ons)); AReg "tmp_lam_mask" 0 (SVEC A (2 * M onb + 2 * M ong + 2 * M ons))].

(** *** OCP_QP_IPM_WS: ocp_qp/x_ocp_qp_ipm.c, MEMSIZE lines 689-817, CREATE lines 821-1258.
    Nested objects (sol_itref, res_itref, res_workspace, core) are regions of their own memsize.  The stage
    vectors aliased into the core arrays (lines 1116-1220) are modelled by [ipm_alias] below. *)
Definition ipm_ws_memsize (A : abi) (d : odim) (lq_fact stat_max : nat) : nat :=
  let N := oN d in let M f := nmax (N + 1) (f d) in
  let nuM := M onu in let nxM := M onx in let nbM := M onb in let ngM := M ong in
  round64 (
    1 * zcore A + 1 * core_memsize A (nvt d) (net d) (nct d) + 1 * zresws A + 1 * ocp_res_ws_memsize A d
    + 2 * zqp A + 2 * zsol A + 1 * ocp_sol_memsize A d + 2 * zres A + 1 * ocp_res_memsize A d
    + 10 * (N + 1) * zvec A + 3 * N * zvec A + 5 * zvec A + 1 * (N + 1) * zvec A
    + 1 * (N + 1) * zmat A + 1 * (N + 1) * zmat A + 3 * zmat A
    + (if Nat.ltb 0 lq_fact then 1 * (N + 1) * zmat A else 0) + 2 * zmat A + (if Nat.ltb 0 lq_fact then 1 * zmat A else 0)
    + 1 * SVEC A (nuM + nxM) + 4 * SVEC A (nbM + ngM)
    + nsum N (fun i => 1 * SVEC A (onx d (S i))) + nsum (N + 1) (fun i => 1 * SVEC A (2 * ons d i))
    + nsum (N + 1) (fun i => 1 * SVEC A (onu d i + onx d i))
    + nsum (N + 1) (fun i => 1 * SMAT A (onu d i + onx d i + 1) (onu d i + onx d i))
    + nsum (N + 1) (fun i => 1 * SMAT A (onx d i + 1) (onx d i))
    + 2 * SMAT A (nuM + nxM) (nuM + nxM) + 1 * SMAT A (nxM + 1) nuM
    + (if Nat.ltb 0 lq_fact then nsum (N + 1) (fun i => 1 * SMAT A (onu d i + onx d i + 1) (onu d i + onx d i)) else 0)
    + 2 * SMAT A (nuM + nxM + 1) (nxM + ngM)
    + (if Nat.ltb 0 lq_fact then 1 * SMAT A (nuM + nxM) (2 * nuM + 3 * nxM + ngM) else 0)
    + 1 * SVEC A (nct d)
    + (if Nat.ltb 0 lq_fact then 1 * GELQF A (nuM + nxM) (2 * nuM + 3 * nxM + ngM) else 0)
    + 21 * (1 + stat_max) * zreal A + (N + 1) * zint A + 1 * 64 + 1 * 8).
Definition ipm_ws_create (A : abi) (d : odim) (lq_fact stat_max : nat) : list aop :=
  let N := oN d in let M f := nmax (N + 1) (f d) in
  let nuM := M onu in let nxM := M onx in let nbM := M onb in let ngM := M ong in
  [AReg "core_workspace" 0 (1 * zcore A); AReg "res" 0 (zres A); AReg "res_itref" 0 (zres A); AReg "res_workspace" 0 (zresws A);
   AReg "sol_step" 0 (zsol A); AReg "sol_itref" 0 (zsol A); AReg "qp_step" 0 (zqp A); AReg "qp_itref" 0 (zqp A);
   AReg "L_hdr" 0 ((N + 1) * zmat A); AReg "P_hdr" 0 ((N + 1) * zmat A); AReg "tmp_nuxM_nuxM_hdr" 0 (2 * zmat A); AReg "Ls_hdr" 0 (1 * zmat A)]
  ++ (if Nat.ltb 0 lq_fact then [AReg "Lh_hdr" 0 ((N + 1) * zmat A)] else [])
  ++ [AReg "AL_hdr" 0 (2 * zmat A)] ++ (if Nat.ltb 0 lq_fact then [AReg "lq0_hdr" 0 (1 * zmat A)] else [])
  ++ [AReg "l_hdr" 0 ((N + 1) * zvec A); AReg "sol_step_ux_hdr" 0 ((N + 1) * zvec A); AReg "sol_step_pi_hdr" 0 (N * zvec A);
      AReg "sol_step_lam_hdr" 0 ((N + 1) * zvec A); AReg "sol_step_t_hdr" 0 ((N + 1) * zvec A);
      AReg "res_g_hdr" 0 ((N + 1) * zvec A); AReg "res_b_hdr" 0 (N * zvec A); AReg "res_d_hdr" 0 ((N + 1) * zvec A); AReg "res_m_hdr" 0 ((N + 1) * zvec A);
      AReg "Gamma_hdr" 0 ((N + 1) * zvec A); AReg "gamma_hdr" 0 ((N + 1) * zvec A); AReg "Pb_hdr" 0 (N * zvec A); AReg "Zs_inv_hdr" 0 ((N + 1) * zvec A);
      AReg "tmp_nuxM_hdr" 0 (1 * zvec A); AReg "tmp_nbgM_hdr" 0 (4 * zvec A); AReg "tmp_m_hdr" 0 ((N + 1) * zvec A);
      AAlign 8; AReg "stat" 0 (21 * (1 + stat_max) * zreal A); AReg "use_hess_fact" 0 ((N + 1) * zint A); AAlign 64;
      AReg "sol_itref_mem" 0 (ocp_sol_memsize A d); AReg "res_itref_mem" 0 (ocp_res_memsize A d); AReg "res_ws_mem" 0 (ocp_res_ws_memsize A d)]
  ++ stages (N + 1) (fun i => [AReg "L" i (SMAT A (onu d i + onx d i + 1) (onu d i + onx d i))])
  ++ stages (N + 1) (fun i => [AReg "P" i (SMAT A (onx d i + 1) (onx d i))])
  ++ [AReg "tmp_nuxM_nuxM" 0 (SMAT A (nuM + nxM) (nuM + nxM)); AReg "tmp_nuxM_nuxM" 1 (SMAT A (nuM + nxM) (nuM + nxM)); AReg "Ls" 0 (SMAT A (nxM + 1) nuM)]
  ++ (if Nat.ltb 0 lq_fact then stages (N + 1) (fun i => [AReg "Lh" i (SMAT A (onu d i + onx d i + 1) (onu d i + onx d i))]) else [])
  ++ [AReg "AL" 0 (SMAT A (nuM + nxM + 1) (nxM + ngM)); AReg "AL" 1 (SMAT A (nuM + nxM + 1) (nxM + ngM))]
  ++ (if Nat.ltb 0 lq_fact then [AReg "lq0" 0 (SMAT A (nuM + nxM) (2 * nuM + 3 * nxM + ngM))] else [])
  ++ stages (N + 1) (fun i => [AReg "l" i (SVEC A (onu d i + onx d i))])
  ++ stages N (fun i => [AReg "Pb" i (SVEC A (onx d (S i)))])
  ++ stages (N + 1) (fun i => [AReg "Zs_inv" i (SVEC A (2 * ons d i))])
  ++ [AReg "tmp_nuxM" 0 (SVEC A (nuM + nxM)); AReg "tmp_nbgM" 0 (SVEC A (nbM + ngM)); AReg "tmp_nbgM" 1 (SVEC A (nbM + ngM));
      AReg "tmp_nbgM" 2 (SVEC A (nbM + ngM)); AReg "tmp_nbgM" 3 (SVEC A (nbM + ngM))]
  ++ stages (N + 1) (fun i => [AReg "tmp_m" i ((2 * onb d i + 2 * ong d i + 2 * ons d i) * zreal A)])
  ++ [AReg "core_mem" 0 (core_memsize A (nvt d) (net d) (nct d))]
  ++ (if Nat.ltb 0 lq_fact then [AReg "lq_work0" 0 (GELQF A (nuM + nxM) (2 * nuM + 3 * nxM + ngM))] else [])%list.

(** Aliases of stage vectors into the core arrays: lines 1116-1220, array -> consecutive stage lengths in reals. *)
Definition ipm_alias (A : abi) (d : odim) (arr : string) : list (nat * nat) :=
  let N := oN d in
  if orb (String.eqb arr "dv") (String.eqb arr "res_g") then spart (N + 1) (fun i => (onu d i + onx d i) * zreal A + ons d i * zreal A + ons d i * zreal A)
  else if orb (String.eqb arr "dpi") (String.eqb arr "res_b") then spart N (fun i => onx d (S i) * zreal A)
  else spart (N + 1) (fun i => onb d i * zreal A + ong d i * zreal A + onb d i * zreal A + ong d i * zreal A + ons d i * zreal A + ons d i * zreal A).

(** *** OCP_QP_REDUCE_EQ_DOF_WS: ocp_qp/x_ocp_qp_red.c, MEMSIZE lines 169-204, CREATE lines 208-274.
    nuxM starts from stage 0 and maximises over 1..N: the same as the maximum over 0..N. *)
Definition red_ws_memsize (A : abi) (d : odim) : nat :=
  let nuxM := nmax (oN d + 1) (fun i => onu d i + onx d i) in let nbgM := nmax (oN d + 1) (fun i => onb d i + ong d i) in
  round64 (nuxM * zint A + nbgM * zint A + 3 * zvec A + 2 * SVEC A nuxM + 1 * SVEC A nbgM) + 64.
Definition red_ws_create (A : abi) (d : odim) : list aop :=
  let nuxM := nmax (oN d + 1) (fun i => onu d i + onx d i) in let nbgM := nmax (oN d + 1) (fun i => onb d i + ong d i) in
  [AReg "tmp_nuxM_hdr" 0 (2 * zvec A); AReg "tmp_nbgM_hdr" 0 (1 * zvec A); AReg "e_imask_ux" 0 (nuxM * zint A); AReg "e_imask_d" 0 (nbgM * zint A);
   AAlign 64; AReg "tmp_nuxM" 0 (SVEC A nuxM); AReg "tmp_nuxM" 1 (SVEC A nuxM); AReg "tmp_nbgM" 0 (SVEC A nbgM)].

(** *** COND_QP_WS: cond/x_cond.c, MEMSIZE lines 185-278, CREATE lines 282-441 *)
Definition cond_ws_memsize (A : abi) (d : odim) (cond_alg : nat) : nat :=
  let N := oN d in let M f := nmax (N + 1) (f d) in
  let nuM := M onu in let nxM := M onx in let nbM := M onb in let ngM := M ong in
  round64 (
    1 * N * zmat A + 1 * N * zvec A + 2 * zvec A
    + (if Nat.eqb cond_alg 0 then 1 * (N + 1) * zmat A + 2 * zmat A + 1 * (N + 1) * zvec A else 1 * zmat A)
    + nsum N (fun i => SMAT A (nsum (S i) (onu d) + onx d 0 + 1) (onx d (S i)))
    + (if Nat.eqb cond_alg 0
       then nsum (N + 1) (fun i => SMAT A (onu d i + onx d i + 1) (onu d i + onx d i)) + SMAT A (nxM + 1) nxM + SMAT A (nuM + nxM + 1) nxM
            + nsum (N + 1) (fun i => SVEC A (onu d i + onx d i))
       else SMAT A (nsum N (onu d) + nxM + 1) nxM)
    + nsum N (fun i => 1 * SVEC A (onx d (S i))) + 1 * SVEC A (nbM + ngM) + 1 * SVEC A (nuM + nxM) + 1 * 64 + 1 * 8).
Definition cond_ws_create (A : abi) (d : odim) (cond_alg : nat) : list aop :=
  let N := oN d in let M f := nmax (N + 1) (f d) in
  let nuM := M onu in let nxM := M onx in let nbM := M onb in let ngM := M ong in
  [AAlign 8; AReg "Gamma_hdr" 0 (N * zmat A)]
  ++ (if Nat.eqb cond_alg 0 then [AReg "L_hdr" 0 ((N + 1) * zmat A); AReg "Lx_hdr" 0 (1 * zmat A); AReg "AL_hdr" 0 (1 * zmat A)]
      else [AReg "GammaQ_hdr" 0 (1 * zmat A)])
  ++ [AReg "Gammab_hdr" 0 (N * zvec A); AReg "tmp_nbgM_hdr" 0 (1 * zvec A); AReg "tmp_nuxM_hdr" 0 (1 * zvec A)]
  ++ (if Nat.eqb cond_alg 0 then [AReg "l_hdr" 0 ((N + 1) * zvec A)] else [])
  ++ [AAlign 64]
  ++ stages N (fun i => [AReg "Gamma" i (SMAT A (nsum (S i) (onu d) + onx d 0 + 1) (onx d (S i)))])
  ++ (if Nat.eqb cond_alg 0
      then stages (N + 1) (fun i => [AReg "L" i (SMAT A (onu d i + onx d i + 1) (onu d i + onx d i))])
           ++ [AReg "Lx" 0 (SMAT A (nxM + 1) nxM); AReg "AL" 0 (SMAT A (nuM + nxM + 1) nxM)]
           ++ stages (N + 1) (fun i => [AReg "l" i (SVEC A (onu d i + onx d i))])
      else [AReg "GammaQ" 0 (SMAT A (nsum N (onu d) + nxM + 1) nxM)])
  ++ stages N (fun i => [AReg "Gammab" i (SVEC A (onx d (S i)))])
  ++ [AReg "tmp_nbgM" 0 (SVEC A (nbM + ngM)); AReg "tmp_nuxM" 0 (SVEC A (nuM + nxM))]%list.

(** ** Dense objects; nv ne nb ng ns as in struct DENSE_QP_DIM *)
Record dnd := mkdnd { xnv : nat; xne : nat; xnb : nat; xng : nat; xns : nat }.
Definition xnc d := 2 * xnb d + 2 * xng d + 2 * xns d.
(** *** DENSE_QP: dense_qp/x_dense_qp.c, MEMSIZE lines 43-73, CREATE lines 77-203 *)
Definition dense_qp_memsize (A : abi) (d : dnd) : nat :=
  round64 (6 * zvec A + 3 * zmat A + 1 * SVEC A (xnv d + 2 * xns d) + 1 * SVEC A (xne d) + 3 * SVEC A (xnc d) + 1 * SVEC A (2 * xns d)
    + 1 * xnb d * zint A + 1 * (xnb d + xng d) * zint A + 1 * SMAT A (xnv d + 1) (xnv d) + 1 * SMAT A (xne d) (xnv d) + 1 * SMAT A (xnv d) (xng d)) + 64.
Definition dense_qp_create (A : abi) (d : dnd) : list aop :=
  [AReg "Hv_hdr" 0 (zmat A); AReg "A_hdr" 0 (zmat A); AReg "Ct_hdr" 0 (zmat A);
   AReg "gz_hdr" 0 (zvec A); AReg "b_hdr" 0 (zvec A); AReg "d_hdr" 0 (zvec A); AReg "d_mask_hdr" 0 (zvec A); AReg "m_hdr" 0 (zvec A); AReg "Z_hdr" 0 (zvec A);
   AReg "idxb" 0 (xnb d * zint A); AReg "idxs_rev" 0 ((xnb d + xng d) * zint A); AAlign 64;
   AReg "Hv" 0 (SMAT A (xnv d + 1) (xnv d)); AReg "A" 0 (SMAT A (xne d) (xnv d)); AReg "Ct" 0 (SMAT A (xnv d) (xng d));
   AReg "gz" 0 (SVEC A (xnv d + 2 * xns d)); AReg "b" 0 (SVEC A (xne d)); AReg "d" 0 (SVEC A (xnc d));
   AReg "d_mask" 0 (SVEC A (xnc d)); AReg "m" 0 (SVEC A (xnc d)); AReg "Z" 0 (SVEC A (2 * xns d))].
(** *** DENSE_QP_SOL: dense_qp/x_dense_qp_sol.c, MEMSIZE lines 43-65, CREATE lines 69-144 *)
Definition dense_sol_memsize (A : abi) (d : dnd) : nat :=
  round64 (4 * zvec A + 1 * SVEC A (xnv d + 2 * xns d) + 1 * SVEC A (xne d) + 2 * SVEC A (xnc d)) + 64.
Definition dense_sol_create (A : abi) (d : dnd) : list aop :=
  [AReg "v_hdr" 0 (zvec A); AReg "pi_hdr" 0 (zvec A); AReg "lam_hdr" 0 (zvec A); AReg "t_hdr" 0 (zvec A); AAlign 64;
   AReg "v" 0 (SVEC A (xnv d + 2 * xns d)); AReg "pi" 0 (SVEC A (xne d)); AReg "lam" 0 (SVEC A (xnc d)); AReg "t" 0 (SVEC A (xnc d))].
(** *** DENSE_QP_RES: dense_qp/x_dense_qp_res.c, MEMSIZE lines 38-64, CREATE lines 68-137 *)
Definition dense_res_memsize (A : abi) (d : dnd) : nat :=
  round64 (4 * zvec A + 1 * SVEC A (xnv d + 2 * xns d) + 1 * SVEC A (xne d) + 2 * SVEC A (xnc d)) + 64.
Definition dense_res_create (A : abi) (d : dnd) : list aop :=
  [AReg "res_g_hdr" 0 (zvec A); AReg "res_b_hdr" 0 (zvec A); AReg "res_d_hdr" 0 (zvec A); AReg "res_m_hdr" 0 (zvec A); AAlign 64;
   AReg "res_g" 0 (SVEC A (xnv d + 2 * xns d)); AReg "res_b" 0 (SVEC A (xne d)); AReg "res_d" 0 (SVEC A (xnc d)); AReg "res_m" 0 (SVEC A (xnc d))].
(** *** DENSE_QP_RES_WS: dense_qp/x_dense_qp_res.c, MEMSIZE lines 141-167, CREATE lines 171-239 *)
Definition dense_res_ws_memsize (A : abi) (d : dnd) : nat :=
  round64 (4 * zvec A + 2 * SVEC A (xnb d + xng d) + 1 * SVEC A (xns d) + 1 * SVEC A (xnc d)) + 64.
Definition dense_res_ws_create (A : abi) (d : dnd) : list aop :=
  [AReg "tmp_nbg_hdr" 0 (2 * zvec A); AReg "tmp_ns_hdr" 0 (1 * zvec A); AReg "tmp_lam_mask_hdr" 0 (1 * zvec A); AAlign 64;
   AReg "tmp_nbg" 0 (SVEC A (xnb d + xng d)); AReg "tmp_nbg" 1 (SVEC A (xnb d + xng d)); AReg "tmp_ns" 0 (SVEC A (xns d)); AReg "tmp_lam_mask" 0 (SVEC A (xnc d))].
(** *** OCP_QP_DIM: ocp_qp/x_ocp_qp_dim.c, MEMSIZE lines 45-56, CREATE lines 60-113 *)
Definition ocp_dim_memsize (A : abi) (N : nat) : nat := (10 * (N + 1) * zint A + 7) / 8 * 8.
Definition ocp_dim_create (A : abi) (N : nat) : list aop :=
  map (fun t => AReg t 0 ((N + 1) * zint A)) ["nx"; "nu"; "nb"; "nbx"; "nbu"; "ng"; "ns"; "nbxe"; "nbue"; "nge"].
