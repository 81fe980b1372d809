(** DenSolveModel.v -- removal of linearly dependent equality constraints, their restoration, the objective, and the solve call around them
    (dense_qp/x_dense_qp_kkt.c lines 2904-3115, dense_qp/x_dense_qp_ipm.c lines 2246-2276 and 2680-2700).  Generic in the arithmetic. *)
From Coq Require Import ZArith Bool Arith List.
From Verif Require Import Base ArithF Blas Blas2 OcpModel CoreModel ArgModel DenModel DenIpmModel.

Section Rem.
Context {F : Type} {AF : Arith F}.
Local Open Scope F_scope.
Notation vec := (nat -> F). Notation mat := (nat -> nat -> F).

(** GETRF_RP (BLASFEO): LU factorisation with row pivoting of the m x n matrix M, in place; L (unit diagonal) below the diagonal.  Right-looking
    (BLASFEO's blocking only changes the order of the roundings); a zero column is left alone. *)
Definition col_max (m k : nat) (M : mat) : nat :=
  loop (m - k) (fun i p => if fabs (M p k) <? fabs (M (k + i)%nat k) then (k + i)%nat else p) k.
Definition swap_rows (c0 : nat) (i j : nat) (M : mat) : mat := fun r c => if Nat.leb c0 c then (if Nat.eqb r i then M j c else if Nat.eqb r j then M i c else M r c) else M r c.
Definition swap_idx (i j : nat) (e : nat -> nat) : nat -> nat := upd (upd e i (e j)) j (e i).
Definition lu_step (m n k : nat) (M : mat) (ipiv : nat -> nat) : mat * (nat -> nat) :=
  let p := col_max m k M in
  if f0 <? fabs (M p k) then
    let M := swap_rows 0 k p M in
    let inv := f1 / M k k in
    (fun r c => if andb (Nat.ltb k r) (Nat.ltb r m) then
       (if Nat.eqb c k then M r k * inv else if andb (Nat.ltb k c) (Nat.ltb c n) then M r c - (M r k * inv) * M k c else M r c) else M r c, upd ipiv k p)
  else (M, upd ipiv k k).
Definition getrf_rp (m n : nat) (M : mat) (ipiv : nat -> nat) : mat * (nat -> nat) :=
  loop (Nat.min m n) (fun k '(M, ipiv) => lu_step m n k M ipiv) (M, ipiv).

(** lines 2943-2957 *)
Definition augment (ne nv : nat) (A : mat) (b : vec) (M : mat) : mat :=
  fun r c => if Nat.ltb r ne then (if Nat.ltb c nv then A r c else if Nat.eqb c nv then b r else M r c) else M r c.
Definition abs_pivots (ne : nat) (ipiv : nat -> nat) : nat -> nat :=
  loop ne (fun ll e => swap_idx ll (ipiv ll) e) (fun ll => ll).

(** ws members used: A_li, b_li, Ab_LU, ipiv_e, and the backups *)
Record ldws := mkldws { l_A : mat; l_b : vec; l_M : mat; l_piv : nat -> nat; l_ne : nat; l_Abkp : mat; l_bbkp : vec }.

Section Loop.
Variables (thr : F) (nv ne : nat) (A : mat) (b : vec).
(** the loop state: Ab_LU, ipiv_e1, A_li, b_li, ne_li, jj0 *)
Record lst := mklst { s_M : mat; s_e : nat -> nat; s_Al : mat; s_bl : vec; s_nl : nat; s_j0 : nat }.
(** lines 2969-2987: first column from jj on with an entry above thr in rows ii .. min(ne-1,jj), and the row of its largest entry; [n] = nv - jj *)
Definition col_search (M : mat) (ii jj : nat) : F * option nat :=
  loop (Nat.min ne (jj + 1) - ii) (fun i '(mx, r) => let t := fabs (M (ii + i)%nat jj) in if mx <? t then (t, Some (ii + i)%nat) else (mx, r)) (thr, None).
Fixpoint search (M : mat) (ii jj n : nat) : option (nat * nat) :=
  match n with
  | O => None
  | S n' => match snd (col_search M ii jj) with Some r => Some (r, jj) | None => search M ii (S jj) n' end
  end.
(** lines 2999-3002 and 3028-3031: keep equality ipiv_e1[ii] *)
Definition keep (ii : nat) (s : lst) : lst :=
  let r := s_e s ii in
  mklst (s_M s) (s_e s) (fun i j => if andb (Nat.eqb i (s_nl s)) (Nat.ltb j nv) then A r j else s_Al s i j) (upd (s_bl s) (s_nl s) (b r)) (S (s_nl s)) (s_j0 s).
(** lines 3004-3015: clear below the pivot; the multiplier is -fabs(entry)/pivot *)
Definition clear_below (ii i1 : nat) (M : mat) : mat :=
  let pivot := M ii i1 in
  loop (Nat.min ne (i1 + 1) - (ii + 1)) (fun i M =>
    let ll := (ii + 1 + i)%nat in
    let t := fabs (M ll i1) in
    if negb (t =? f0) then (let t := (- t) / pivot in fun r c => if andb (Nat.eqb r ll) (andb (Nat.leb i1 c) (Nat.leb c nv)) then M ll c + t * M ii c else M r c) else M) M.
Definition bad_b (M : mat) (ii : nat) : bool := loop (ne - ii) (fun i x => orb x (thr <? fabs (M (ii + i)%nat nv))) false.
(** lines 2959-3033 from ii on; [n] = ne - ii *)
Fixpoint ld_loop (n ii : nat) (s : lst) : bool * lst :=
  match n with
  | O => (true, s)
  | S n' =>
    if fabs (s_M s ii ii) <=? thr then
      match search (s_M s) ii (Nat.max (ii + 1) (s_j0 s)) (nv - Nat.max (ii + 1) (s_j0 s)) with
      | Some (i0, i1) =>
        let s := mklst (s_M s) (s_e s) (s_Al s) (s_bl s) (s_nl s) i1 in
        let s := if Nat.eqb i0 ii then s else mklst (swap_rows i1 ii i0 (s_M s)) (swap_idx ii i0 (s_e s)) (s_Al s) (s_bl s) (s_nl s) (s_j0 s) in
        let s := keep ii s in
        ld_loop n' (S ii) (mklst (clear_below ii i1 (s_M s)) (s_e s) (s_Al s) (s_bl s) (s_nl s) (s_j0 s))
      | None => (negb (bad_b (s_M s) ii), s)
      end
    else ld_loop n' (S ii) (keep ii s)
  end.
End Loop.

Definition set_eq (qp : dqp F) (ne : nat) (A : mat) (b : vec) : dqp F :=
  mkdqp (d_nv qp) ne (d_nb qp) (d_ng qp) (d_ns qp) (d_H qp) A (d_Ct qp) (d_gz qp) b (d_d qp) (d_mask qp) (d_m qp) (d_Z qp) (d_idxb qp) (d_idxs_rev qp).
(** DENSE_QP_REMOVE_LIN_DEP_EQ, lines 2904-3056.  Result: QP, workspace, false = INCONS_EQ.  thr = 1e-14 in the code. *)
Definition remove_eq (thr : F) (qp : dqp F) (w : ldws) : dqp F * ldws * bool :=
  let nv := d_nv qp in let ne := d_ne qp in
  if Nat.ltb 0 ne then
    let '(M, piv) := getrf_rp ne (nv + 1) (augment ne nv (d_A qp) (d_b qp) (l_M w)) (l_piv w) in
    let '(ok, s) := ld_loop thr nv ne (d_A qp) (d_b qp) ne 0 (mklst M (abs_pivots ne piv) (l_A w) (l_b w) 0 0) in
    let w := mkldws (s_Al s) (s_bl s) (s_M s) piv (l_ne w) (l_Abkp w) (l_bbkp w) in
    if ok then
      if Nat.ltb (s_nl s) ne then (set_eq qp (s_nl s) (s_Al s) (s_bl s), mkldws (l_A w) (l_b w) (l_M w) (l_piv w) ne (d_A qp) (d_b qp), true)
      else (qp, w, true)
    else (qp, w, false)
  else (qp, w, true).
Definition ld_thr : F := lit 1 (10 ^ 14).
(** DENSE_QP_RESTORE_LIN_DEP_EQ, lines 3060-3096 *)
Definition restore_eq (qp : dqp F) (w : ldws) : dqp F :=
  if Nat.ltb 0 (d_ne qp) then (if Nat.ltb (d_ne qp) (l_ne w) then set_eq qp (l_ne w) (l_Abkp w) (l_bbkp w) else qp) else qp.
(** DENSE_QP_COMPUTE_OBJ, lines 3100-3129 *)
Definition den_obj (qp : dqp F) (v : vec) (tmp_nv tmp_2ns : vec) : F :=
  let nv := d_nv qp in let ns := d_ns qp in
  DOT nv (SYMV_L nv (lit 1 2) (d_H qp) 0 0 v 0 f1 (d_gz qp) 0 tmp_nv 0) 0 v 0 +
  DOT (2 * ns) (GEMV_DIAG (2 * ns) (lit 1 2) (d_Z qp) 0 v nv f1 (d_gz qp) nv tmp_2ns 0) 0 v nv.

(** DENSE_QP_IPM_SOLVE with its options remove_lin_dep_eq and compute_obj: result QP, equality workspace, and either the output of the interior point
    method or nothing (INCONS_EQ: iter = 0, the solution object untouched); the objective if computed *)
Definition den_solve {K} (OP : dkops K) (Ar : arg F) (rem obj : bool) (cne : nat) (lq smax : Z) (qp : dqp F) (sol : vars F) (ws : ist (K := K)) (w : ldws) (tmp_nv tmp_2ns : vec) :
  dqp F * ldws * option (out (K := K)) * option F :=
  let '(qp1, w, ok) := if rem then remove_eq ld_thr qp w else (qp, w, true) in
  let r := if ok then Some (dipm_solve OP Ar cne lq smax qp1 sol ws) else None in
  let qp2 := if rem then restore_eq qp1 w else qp1 in
  let v := va_v (match r with Some o => o_x o | None => sol end) in
  (qp2, w, r, if obj then Some (den_obj qp2 v tmp_nv tmp_2ns) else None).
End Rem.
Arguments lst F : clear implicits. Arguments ldws F : clear implicits.
