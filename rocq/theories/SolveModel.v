(** SolveModel.v -- ocp_qp/x_ocp_qp_kkt.c: factorisation without right-hand side (OCP_QP_FACT_KKT_STEP) and solution of the KKT system for a
    right-hand side with the stored factorisation (OCP_QP_SOLVE_KKT_STEP).  Double precision variants (TRCP_L). *)
From Coq Require Import ZArith Bool Arith.
From Verif Require Import Base ArithF Blas Blas2 CoreModel OcpModel KktModel.

Section Solve.
Context {F : Type} {AF : Arith F}.
Local Open Scope F_scope.
Notation vec := (nat -> F).
Notation mat := (nat -> nat -> F).

(** the QP with another right-hand side: gradients, dynamics offsets, constraint and complementarity vectors (in the C code: the vectors rqz, b,
    d, m of the QP struct passed to the solve, e.g. ws->qp_step and ws->qp_itref, which share their matrices, x_ocp_qp_ipm.c lines 2826-2856) *)
Definition with_rhs (qp : oqp F) (g b d m : nat -> vec) : oqp F :=
  mkqp (q_dim qp) (q_BAbt qp) (q_RSQ qp) (q_DCt qp) b g d (q_mask qp) m (q_Z qp) (q_idxb qp) (q_idxs_rev qp).

(** ** OCP_QP_SOLVE_KKT_STEP, lines 2301-2653 *)

(** COND_SLACKS_SOLVE, lines 708-797 (active #if branch 743-774): state tmp_nbgM, dux of the stage *)
Definition cond_slacks_solve (n nb ng ns : nat) (sf : nat -> Z) (g Gamma gamma Zs : vec) (s : (nat -> vec) * vec) : (nat -> vec) * vec :=
  let '(tmp, dux) := s in
  let dux := loop ns (fun idx dux =>
      let dux := upd dux (n + idx)%nat (g (n + idx)%nat + gamma (2 * nb + 2 * ng + idx)%nat) in
      upd dux (n + ns + idx)%nat (g (n + ns + idx)%nat + gamma (2 * nb + 2 * ng + ns + idx)%nat)) dux in
  let dux := loop (nb + ng) (fun ii dux =>
      if Z.eqb (sf ii) (-1) then dux else
      let idx := Z.to_nat (sf ii) in
      let dux := upd dux (n + idx)%nat (dux (n + idx)%nat + gamma ii) in
      upd dux (n + ns + idx)%nat (dux (n + ns + idx)%nat + gamma (nb + ng + ii)%nat)) dux in
  let tmp := loop (nb + ng) (fun ii tmp =>
      let G0 := Gamma ii in let G1 := Gamma (nb + ng + ii)%nat in let g0 := gamma ii in let g1 := gamma (nb + ng + ii)%nat in
      if Z.eqb (sf ii) (-1) then upd (upd tmp 2%nat (upd (tmp 2%nat) ii g0)) 3%nat (upd (tmp 3%nat) ii g1)
      else
        let idx := Z.to_nat (sf ii) in
        upd (upd tmp 2%nat (upd (tmp 2%nat) ii (g0 - G0 * Zs idx * dux (n + idx)%nat)))
                 3%nat (upd (tmp 3%nat) ii (g1 - G1 * Zs (ns + idx)%nat * dux (n + ns + idx)%nat))) tmp in
  (upd tmp 1%nat (AXPY (nb + ng) (- f1) (tmp 3%nat) 0 (tmp 2%nat) 0 (tmp 1%nat) 0), dux).

(** right-hand side of a stage before the triangular solve, constraints eliminated: lines 2349-2369, 2376-2392, 2408-2426 and the same text in the
    classical algorithm, 2494-2511, 2524-2541, 2560-2577 *)
Definition solve_rhs (qp : oqp F) (Gamma gamma Zs : vec) (ss : nat) (s : (nat -> vec) * vec) : (nat -> vec) * vec :=
  let D := q_dim qp in
  let n := (dnu D ss + dnx D ss)%nat in let nb := dnb D ss in let ng := dng D ss in let ns := dns D ss in
  let '(tmp, dux) := s in
  let dux := VECCP n (q_rqz qp ss) 0 dux 0 in
  let '(tmp, dux) :=
    if Nat.ltb 0 ns then cond_slacks_solve n nb ng ns (q_idxs_rev qp ss) (q_rqz qp ss) Gamma gamma Zs (tmp, dux)
    else if Nat.ltb 0 (nb + ng) then (upd tmp 1%nat (AXPY (nb + ng) (- f1) gamma (nb + ng) gamma 0 (tmp 1%nat) 0), dux)
    else (tmp, dux) in
  let dux := if Nat.ltb 0 nb then VECAD_SP nb f1 (tmp 1%nat) 0 (q_idxb qp ss) dux 0 else dux in
  let dux := if Nat.ltb 0 ng then GEMV_N n ng f1 (q_DCt qp ss) 0 0 (tmp 1%nat) nb f1 dux 0 dux 0 else dux in
  (tmp, dux).

Definition set_bwd (w : kws F) (ss : nat) (tmp : nat -> vec) (nux dux : vec) : kws F :=
  mkkws (k_BAbt w) (k_L w) (k_dA w) (k_P w) (k_AL0 w) (k_AL1 w) (k_Ls w) (k_Zs w) tmp nux (k_Pb w) (k_l w) (upd (k_ux w) ss dux) (k_pi w).

(** backward substitution, last stage, lines 2348-2371 and 2493-2518 *)
Definition bwd_last (qp : oqp F) (Gam gam : nat -> vec) (w : kws F) : kws F :=
  let D := q_dim qp in let ss := dN D in let n := (dnu D ss + dnx D ss)%nat in
  let '(tmp, dux) := solve_rhs qp (Gam ss) (gam ss) (k_Zs w ss) ss (k_tmp w, k_ux w ss) in
  let dux := TRSV_LNN_MN n (dnu D ss) (k_L w ss) 0 0 dux 0 dux 0 in
  set_bwd w ss tmp (k_nux w) dux.
(** the vector P*b + p of the next stage in tmp_nuxM: lines 2393-2402 (square-root algorithm, P = L L'), 2542-2549 (classical algorithm) *)
Definition Pb_p (sq usePb : bool) (qp : oqp F) (ss : nat) (w : kws F) : vec :=
  let D := q_dim qp in let nx1 := dnx D (ss + 1) in let nu1 := dnu D (ss + 1) in
  let ux1 := k_ux w (ss + 1)%nat in
  if usePb then AXPY nx1 f1 ux1 nu1 (k_Pb w ss) 0 (k_nux w) 0
  else if sq then
    let L1 := k_L w (ss + 1)%nat in
    let v := TRMV_LTN nx1 L1 nu1 nu1 (q_b qp ss) 0 (k_nux w) 0 in
    let v := TRMV_LNN nx1 L1 nu1 nu1 v 0 v 0 in
    AXPY nx1 f1 ux1 nu1 v 0 v 0
  else GEMV_N nx1 nx1 f1 (k_P w (ss + 1)%nat) 0 0 (q_b qp ss) 0 f1 ux1 nu1 (k_nux w) 0.
(** middle stages, lines 2374-2405 and 2521-2556 ([nsol] = nu), first stage, lines 2407-2438 and 2558-2587 ([nsol] = nu+nx) *)
Definition bwd_mid (sq usePb : bool) (qp : oqp F) (Gam gam : nat -> vec) (nsol ss : nat) (w : kws F) : kws F :=
  let D := q_dim qp in let n := (dnu D ss + dnx D ss)%nat in let nx1 := dnx D (ss + 1) in
  let '(tmp, dux) := solve_rhs qp (Gam ss) (gam ss) (k_Zs w ss) ss (k_tmp w, k_ux w ss) in
  let v := Pb_p sq usePb qp ss w in
  let dux := GEMV_N n nx1 f1 (k_BAbt w ss) 0 0 v 0 f1 dux 0 dux 0 in
  let dux := TRSV_LNN_MN n nsol (k_L w ss) 0 0 dux 0 dux 0 in
  set_bwd w ss tmp v dux.
(** written for N >= 1 (the C code treats stage 0 as a middle stage unconditionally) *)
Definition backward (sq usePb : bool) (qp : oqp F) (Gam gam : nat -> vec) (w : kws F) : kws F :=
  let D := q_dim qp in let N := dN D in
  let w := bwd_last qp Gam gam w in
  let w := loop (N - 1) (fun nn w => bwd_mid sq usePb qp Gam gam (dnu D (N - nn - 1)) (N - nn - 1) w) w in
  bwd_mid sq usePb qp Gam gam (dnu D 0 + dnx D 0) 0 w.

(** forward substitution, first stage lines 2442-2459 and 2591-2605, middle stages lines 2462-2478 and 2608-2622 *)
Definition fwd_mid (sq dual : bool) (qp : oqp F) (nsol ss : nat) (w : kws F) : kws F :=
  let D := q_dim qp in let n := (dnu D ss + dnx D ss)%nat in let nx1 := dnx D (ss + 1) in let nu1 := dnu D (ss + 1) in
  let L := k_L w ss in
  let pi := if dual then VECCP nx1 (k_ux w (ss + 1)%nat) nu1 (k_pi w ss) 0 else k_pi w ss in
  let l := VECCP nsol (k_ux w ss) 0 (k_l w ss) 0 in
  let l1 := VECCP nx1 (k_ux w (ss + 1)%nat) nu1 (k_l w (ss + 1)%nat) nu1 in
  let ux := VECSC nsol (- f1) (k_ux w ss) 0 in
  let ux := TRSV_LTN_MN n nsol L 0 0 ux 0 ux 0 in
  let ux1 := GEMV_T n nx1 f1 (k_BAbt w ss) 0 0 ux 0 f1 (q_b qp ss) 0 (k_ux w (ss + 1)%nat) nu1 in
  let '(pi, nux) :=
    if dual then
      if sq then
        let L1 := k_L w (ss + 1)%nat in
        let v := TRMV_LTN nx1 L1 nu1 nu1 ux1 nu1 (k_nux w) 0 in
        let v := TRMV_LNN nx1 L1 nu1 nu1 v 0 v 0 in
        (AXPY nx1 f1 v 0 pi 0 pi 0, v)
      else (GEMV_N nx1 nx1 f1 (k_P w (ss + 1)%nat) 0 0 ux1 nu1 f1 pi 0 pi 0, k_nux w)
    else (pi, k_nux w) in
  mkkws (k_BAbt w) (k_L w) (k_dA w) (k_P w) (k_AL0 w) (k_AL1 w) (k_Ls w) (k_Zs w) (k_tmp w) nux (k_Pb w) (upd (upd (k_l w) ss l) (ss + 1)%nat l1)
    (upd (upd (k_ux w) ss ux) (ss + 1)%nat ux1) (upd (k_pi w) ss pi).
(** last stage, lines 2480-2483 and 2624-2627 *)
Definition fwd_end (qp : oqp F) (w : kws F) : kws F :=
  let D := q_dim qp in let ss := dN D in let n := (dnu D ss + dnx D ss)%nat in let nu := dnu D ss in
  let l := VECCP nu (k_ux w ss) 0 (k_l w ss) 0 in
  let ux := VECSC nu (- f1) (k_ux w ss) 0 in
  let ux := TRSV_LTN_MN n nu (k_L w ss) 0 0 ux 0 ux 0 in
  mkkws (k_BAbt w) (k_L w) (k_dA w) (k_P w) (k_AL0 w) (k_AL1 w) (k_Ls w) (k_Zs w) (k_tmp w) (k_nux w) (k_Pb w) (upd (k_l w) ss l) (upd (k_ux w) ss ux) (k_pi w).
Definition fwd_solve (sq dual : bool) (qp : oqp F) (w : kws F) : kws F :=
  let D := q_dim qp in
  let w := fwd_mid sq dual qp (dnu D 0 + dnx D 0) 0 w in
  let w := loop (dN D - 1) (fun k w => fwd_mid sq dual qp (dnu D (k + 1)) (k + 1) w) w in
  fwd_end qp w.

(** the solution struct passed to the call replaces the one used by the factorisation *)
Definition with_sol (w : kws F) (stp : osol F) : kws F :=
  mkkws (k_BAbt w) (k_L w) (k_dA w) (k_P w) (k_AL0 w) (k_AL1 w) (k_Ls w) (k_Zs w) (k_tmp w) (k_nux w) (k_Pb w) (k_l w) (s_ux stp) (s_pi stp).
(** the whole function.  [tinv], [Gam], [gam0]: cws->t_inv, cws->Gamma as left by the factorisation, cws->gamma (overwritten, line 2338).
    Epilogue lines 2632-2649 as in fact_solve_kkt. *)
Section S.
Context (sq usePb : bool) (a : kargs F) (qp : oqp F) (tinv Gam gam0 : nat -> vec) (stp : osol F) (w : kws F).
Definition sol_gam (ss : nat) : vec := compute_gamma (nct (q_dim qp) ss) (a_lam a ss) (tinv ss) (q_d qp ss) (q_m qp ss) (gam0 ss).
Definition sol_ws : kws F := fwd_solve sq (a_dual a) qp (backward sq usePb qp Gam sol_gam (with_sol w stp)).
Definition sol_ut (ss : nat) : vec * vec := lin_stage qp (Gam ss) (k_Zs sol_ws ss) ss (k_ux sol_ws ss, s_t stp ss).
Definition sol_lt (ss : nat) : vec * vec :=
  compute_lam_t (nct (q_dim qp) ss) (a_lam a ss) (tinv ss) (q_d qp ss) (q_m qp ss) (s_lam stp ss, snd (sol_ut ss)).
Definition solve_kkt : osol F * kws F :=
  (mksol (fun ss => fst (sol_ut ss)) (k_pi sol_ws) (fun ss => fst (sol_lt ss)) (fun ss => snd (sol_lt ss)), sol_ws).
End S.

(** ** OCP_QP_FACT_KKT_STEP, lines 879-1110 *)

(** COND_SLACKS_FACT, lines 616-704 (active #if branch 645-679): state tmp_nbgM, Zs_inv of the stage *)
Definition cond_slacks_fact (nb ng ns : nat) (reg : F) (sf : nat -> Z) (Z Gamma : vec) (s : (nat -> vec) * vec) : (nat -> vec) * vec :=
  let '(tmp, Zs) := s in
  let Zs := loop ns (fun idx Zs =>
      let Zs := upd Zs idx (Z idx + reg + Gamma (2 * nb + 2 * ng + idx)%nat) in
      upd Zs (ns + idx)%nat (Z (ns + idx)%nat + reg + Gamma (2 * nb + 2 * ng + ns + idx)%nat)) Zs in
  let Zs := loop (nb + ng) (fun ii Zs =>
      if Z.eqb (sf ii) (-1) then Zs else
      let idx := Z.to_nat (sf ii) in
      let Zs := upd Zs idx (Zs idx + Gamma ii) in
      upd Zs (ns + idx)%nat (Zs (ns + idx)%nat + Gamma (nb + ng + ii)%nat)) Zs in
  let Zs := loop ns (fun idx Zs => let Zs := upd Zs idx (f1 / Zs idx) in upd Zs (ns + idx)%nat (f1 / Zs (ns + idx)%nat)) Zs in
  let tmp := loop (nb + ng) (fun ii tmp =>
      let G0 := Gamma ii in let G1 := Gamma (nb + ng + ii)%nat in
      if Z.eqb (sf ii) (-1) then upd (upd tmp 0%nat (upd (tmp 0%nat) ii G0)) 1%nat (upd (tmp 1%nat) ii G1)
      else
        let idx := Z.to_nat (sf ii) in
        upd (upd tmp 0%nat (upd (tmp 0%nat) ii (G0 - G0 * Zs idx * G0)))
                 1%nat (upd (tmp 1%nat) ii (G1 - G1 * Zs (ns + idx)%nat * G1))) tmp in
  (upd tmp 0%nat (AXPY (nb + ng) f1 (tmp 1%nat) 0 (tmp 0%nat) 0 (tmp 0%nat) 0), Zs).
(** Hessian of a stage with bounds and slacks, lines 926-945, 965-986 (square-root), 1008-1027, 1043-1060, 1076-1093 (classical) *)
Definition stage_fact (qp : oqp F) (reg : F) (Gamma : vec) (ss : nat) (L : mat) (s : (nat -> vec) * vec) : mat * ((nat -> vec) * vec) :=
  let D := q_dim qp in
  let n := (dnu D ss + dnx D ss)%nat in let nb := dnb D ss in let ng := dng D ss in let ns := dns D ss in
  let L := TRCP_L n (q_RSQ qp ss) 0 0 L 0 0 in
  let L := DIARE n reg L 0 0 in
  let '(tmp, Zs) := s in
  let '(tmp, Zs) :=
    if Nat.ltb 0 ns then cond_slacks_fact nb ng ns reg (q_idxs_rev qp ss) (q_Z qp ss) Gamma (tmp, Zs)
    else if Nat.ltb 0 (nb + ng) then (upd tmp 0%nat (AXPY (nb + ng) f1 Gamma (nb + ng) Gamma 0 (tmp 0%nat) 0), Zs)
    else (tmp, Zs) in
  let L := if Nat.ltb 0 nb then DIAAD_SP nb f1 (tmp 0%nat) 0 (q_idxb qp ss) L 0 0 else L in
  (L, (tmp, Zs)).
Definition set_fact (w : kws F) (ss : nat) (L : mat) (dA : vec) (P AL0 AL1 Ls : mat) (Zs : vec) (tmp : nat -> vec) : kws F :=
  mkkws (k_BAbt w) (upd (k_L w) ss L) (upd (k_dA w) ss dA) (upd (k_P w) ss P) AL0 AL1 Ls (upd (k_Zs w) ss Zs) tmp (k_nux w) (k_Pb w) (k_l w) (k_ux w) (k_pi w).
(** square-root algorithm, last stage, lines 925-954 *)
Definition kf_sqrt_last (qp : oqp F) (reg : F) (Gam : nat -> vec) (w : kws F) : kws F :=
  let D := q_dim qp in let ss := dN D in let n := (dnu D ss + dnx D ss)%nat in let nb := dnb D ss in let ng := dng D ss in
  let '(L, (tmp, Zs)) := stage_fact qp reg (Gam ss) ss (k_L w ss) (k_tmp w, k_Zs w ss) in
  let '(L, dA, AL0) :=
    if Nat.ltb 0 ng then
      let AL0 := GEMM_ND n ng f1 (q_DCt qp ss) 0 0 (tmp 0%nat) nb f0 (k_AL0 w) 0 0 (k_AL0 w) 0 0 in
      let '(L, dA) := SYRK_POTRF_LN_MN n n ng AL0 0 0 (q_DCt qp ss) 0 0 L 0 0 L 0 0 (k_dA w ss) in (L, dA, AL0)
    else let '(L, dA) := POTRF_L_MN n n L 0 0 L 0 0 (k_dA w ss) in (L, dA, k_AL0 w) in
  set_fact w ss L dA (k_P w ss) AL0 (k_AL1 w) (k_Ls w) Zs tmp.
(** middle and first stages, lines 957-995 *)
Definition kf_sqrt_mid (qp : oqp F) (reg : F) (Gam : nat -> vec) (ss : nat) (w : kws F) : kws F :=
  let D := q_dim qp in let n := (dnu D ss + dnx D ss)%nat in let nb := dnb D ss in let ng := dng D ss in
  let nx1 := dnx D (ss + 1) in let nu1 := dnu D (ss + 1) in
  let AL0 := TRMM_RLNN n nx1 f1 (k_L w (ss + 1)%nat) nu1 nu1 (k_BAbt w ss) 0 0 (k_AL0 w) 0 0 in
  let '(L, (tmp, Zs)) := stage_fact qp reg (Gam ss) ss (k_L w ss) (k_tmp w, k_Zs w ss) in
  let '(L, dA, AL0, AL1) :=
    if Nat.ltb 0 ng then
      let AL0 := GEMM_ND n ng f1 (q_DCt qp ss) 0 0 (tmp 0%nat) nb f0 AL0 0 nx1 AL0 0 nx1 in
      let AL1 := GECP n nx1 AL0 0 0 (k_AL1 w) 0 0 in
      let AL1 := GECP n ng (q_DCt qp ss) 0 0 AL1 0 nx1 in
      let '(L, dA) := SYRK_POTRF_LN_MN n n (nx1 + ng) AL0 0 0 AL1 0 0 L 0 0 L 0 0 (k_dA w ss) in (L, dA, AL0, AL1)
    else let '(L, dA) := SYRK_POTRF_LN_MN n n nx1 AL0 0 0 AL0 0 0 L 0 0 L 0 0 (k_dA w ss) in (L, dA, AL0, k_AL1 w) in
  set_fact w ss L dA (k_P w ss) AL0 AL1 (k_Ls w) Zs tmp.
Definition kf_sqrt (qp : oqp F) (reg : F) (Gam : nat -> vec) (w : kws F) : kws F :=
  let N := dN (q_dim qp) in loop N (fun nn w => kf_sqrt_mid qp reg Gam (N - nn - 1) w) (kf_sqrt_last qp reg Gam w).
(** P = L_xx - L_xu L_xu', lines 1034-1036, 1065-1067 *)
Definition kf_P_of_L (nu nx : nat) (L Ls P : mat) : mat * mat :=
  let Ls := GECP nx nu L nu 0 Ls 0 0 in
  let P := SYRK_LN_MN nx nx nu (- f1) Ls 0 0 Ls 0 0 f1 L nu nu P 0 0 in
  (Ls, TRTR_L nx P 0 0 P 0 0).
(** classical algorithm, last stage, lines 1007-1036 *)
Definition kf_cls_last (qp : oqp F) (reg : F) (Gam : nat -> vec) (w : kws F) : kws F :=
  let D := q_dim qp in let ss := dN D in let nu := dnu D ss in let nx := dnx D ss in let n := (nu + nx)%nat in let nb := dnb D ss in let ng := dng D ss in
  let '(L, (tmp, Zs)) := stage_fact qp reg (Gam ss) ss (k_L w ss) (k_tmp w, k_Zs w ss) in
  let '(L, AL0) :=
    if Nat.ltb 0 ng then
      let AL0 := GEMM_ND n ng f1 (q_DCt qp ss) 0 0 (tmp 0%nat) nb f0 (k_AL0 w) 0 0 (k_AL0 w) 0 0 in
      (SYRK_LN_MN n n ng f1 AL0 0 0 (q_DCt qp ss) 0 0 f1 L 0 0 L 0 0, AL0)
    else (L, k_AL0 w) in
  let '(L, dA) := POTRF_L_MN n nu L 0 0 L 0 0 (k_dA w ss) in
  let '(Ls, P) := kf_P_of_L nu nx L (k_Ls w) (k_P w ss) in
  set_fact w ss L dA P AL0 (k_AL1 w) Ls Zs tmp.
(** middle stages, lines 1039-1068, and first stage, lines 1071-1099 ([full]: all of L factorised, P not computed) *)
Definition kf_cls_mid (full : bool) (qp : oqp F) (reg : F) (Gam : nat -> vec) (ss : nat) (w : kws F) : kws F :=
  let D := q_dim qp in let nu := dnu D ss in let nx := dnx D ss in let n := (nu + nx)%nat in let nb := dnb D ss in let ng := dng D ss in
  let nx1 := dnx D (ss + 1) in
  let AL0 := GEMM_NT n nx1 nx1 f1 (k_BAbt w ss) 0 0 (k_P w (ss + 1)%nat) 0 0 f0 (k_AL0 w) 0 0 (k_AL0 w) 0 0 in
  let '(L, (tmp, Zs)) := stage_fact qp reg (Gam ss) ss (k_L w ss) (k_tmp w, k_Zs w ss) in
  let '(L, AL0) :=
    if Nat.ltb 0 ng then
      let AL0 := GEMM_ND n ng f1 (q_DCt qp ss) 0 0 (tmp 0%nat) nb f0 AL0 0 nx1 AL0 0 nx1 in
      (SYRK_LN_MN n n ng f1 AL0 0 nx1 (q_DCt qp ss) 0 0 f1 L 0 0 L 0 0, AL0)
    else (L, AL0) in
  if full then
    let '(L, dA) := SYRK_POTRF_LN_MN n n nx1 AL0 0 0 (k_BAbt w ss) 0 0 L 0 0 L 0 0 (k_dA w ss) in
    set_fact w ss L dA (k_P w ss) AL0 (k_AL1 w) (k_Ls w) Zs tmp
  else
    let L := SYRK_LN_MN n n nx1 f1 AL0 0 0 (k_BAbt w ss) 0 0 f1 L 0 0 L 0 0 in
    let '(L, dA) := POTRF_L_MN n nu L 0 0 L 0 0 (k_dA w ss) in
    let '(Ls, P) := kf_P_of_L nu nx L (k_Ls w) (k_P w ss) in
    set_fact w ss L dA P AL0 (k_AL1 w) Ls Zs tmp.
Definition kf_cls (qp : oqp F) (reg : F) (Gam : nat -> vec) (w : kws F) : kws F :=
  let N := dN (q_dim qp) in
  let w := loop (N - 1) (fun nn w => kf_cls_mid false qp reg Gam (N - nn - 1) w) (kf_cls_last qp reg Gam w) in
  if Nat.ltb 0 N then kf_cls_mid true qp reg Gam 0 w else w.
(** the whole function: t_inv and Gamma (COMPUTE_GGAMMA_QP, line 916; per stage as in fact_solve_kkt), then the workspace *)
Section K.
Context (sq : bool) (a : kargs F) (qp : oqp F) (tinv0 Gam0 : nat -> vec).
Definition kf_tG (ss : nat) : vec * vec := compute_Ggamma (a_tlm a) (nct (q_dim qp) ss) (a_lam a ss) (a_t a ss) (a_lam_min a) (a_t_min a) (a_t_min_inv a) (tinv0 ss, Gam0 ss).
Definition kf_tinv (ss : nat) : vec := fst (kf_tG ss).
Definition kf_Gam (ss : nat) : vec := snd (kf_tG ss).
Definition fact_kkt (w : kws F) : kws F := if sq then kf_sqrt qp (a_reg a) kf_Gam w else kf_cls qp (a_reg a) kf_Gam w.
End K.
End Solve.
