(** PartModel.v -- partial condensing of an OCP QP into a shorter OCP QP, and expansion of its solution (cond/x_part_cond.c).
    Block ii of the horizon (bs stages, N_tmp = its first stage) is condensed into stage ii of the second QP by the functions of
    CondModel.v, called on aliases of the QP object: the same arrays, starting at stage N_tmp. *)
From Coq Require Import ZArith Bool Arith.
From Verif Require Import Base ArithF Blas Blas2 OcpModel KktModel DenModel CondModel ExpModel.

(** an array seen from element o on; and what the array is after the part from o on has been changed through the alias *)
Definition from {A} (o : nat) (f : nat -> A) : nat -> A := fun i => f (o + i)%nat.
Definition merge {A} (o : nat) (new old : nat -> A) : nat -> A := fun i => if (o <=? i)%nat then new (i - o)%nat else old i.

Section Part.
Context {F : Type} {AF : Arith F}.
Notation vec := (nat -> F).
Notation mat := (nat -> nat -> F).

(** the alias tmp_ocp_qp of n+1 stages from stage o on: x_part_cond.c lines 505-530 *)
Definition sub_dims (D : dims) (o n : nat) : dims := mkdims n (from o (dnx D)) (from o (dnu D)) (from o (dnb D)) (from o (dng D)) (from o (dns D)).
Definition sub_qp (qp : oqp F) (o n : nat) : oqp F :=
  mkqp (sub_dims (q_dim qp) o n) (from o (q_BAbt qp)) (from o (q_RSQ qp)) (from o (q_DCt qp)) (from o (q_b qp)) (from o (q_rqz qp))
    (from o (q_d qp)) (from o (q_mask qp)) (from o (q_m qp)) (from o (q_Z qp)) (from o (q_idxb qp)) (from o (q_idxs_rev qp)).
(** stage ii of the second QP: the arguments RSQrq+ii, rqz+ii, idxb[ii], DCt+ii, d+ii, ... of the calls of lines 532-536 *)
Definition stage_q (p : oqp F) (ii : nat) : dqp F :=
  let D := q_dim p in
  mkdqp (dnu D ii + dnx D ii) 0 (dnb D ii) (dng D ii) (dns D ii) (q_RSQ p ii) (fun _ _ => f0) (q_DCt p ii) (q_rqz p ii) (fun _ => f0)
    (q_d p ii) (q_mask p ii) (q_m p ii) (q_Z p ii) (q_idxb p ii) (q_idxs_rev p ii).
Definition put_stage (p : oqp F) (ii : nat) (q : dqp F) (BA : mat) (b : vec) : oqp F :=
  mkqp (q_dim p) (upd (q_BAbt p) ii BA) (upd (q_RSQ p) ii (d_H q)) (upd (q_DCt p) ii (d_Ct q)) (upd (q_b p) ii b) (upd (q_rqz p) ii (d_gz q))
    (upd (q_d p) ii (d_d q)) (upd (q_mask p) ii (d_mask q)) (upd (q_m p) ii (d_m q)) (upd (q_Z p) ii (d_Z q)) (upd (q_idxb p) ii (d_idxb q)) (upd (q_idxs_rev p) ii (d_idxs_rev q)).
(** the QP object with other BAbt, RSQrq (the only data COND_RSQRQ changes in it) *)
Definition with_mats (qp : oqp F) (BA RSQ : nat -> mat) : oqp F :=
  mkqp (q_dim qp) BA RSQ (q_DCt qp) (q_b qp) (q_rqz qp) (q_d qp) (q_mask qp) (q_m qp) (q_Z qp) (q_idxb qp) (q_idxs_rev qp).

(** COND_BABT, COND_RSQRQ, COND_DCTD in sequence (lines 532-536; for last = true the same calls as COND_QP_COND): results, workspace,
    and BAbt, RSQrq of the (alias of the) QP object *)
Definition cond_block (last alg0 sq : bool) (diag : nat -> bool) (qp : oqp F) (q2 : dqp F) (BA2 : mat) (b2 : vec) (w : cws F) : dqp F * mat * vec * cws F * (nat -> mat) * (nat -> mat) :=
  let '(w, BA2, b2) := cond_babt last qp w BA2 b2 in
  let '(BA, RSQ, w, H, g) := cond_rsqrq alg0 sq diag last qp w (d_H q2) (d_gz q2) in
  let q2 := mkdqp (d_nv q2) (d_ne q2) (d_nb q2) (d_ng q2) (d_ns q2) H (d_A q2) (d_Ct q2) g (d_b q2) (d_d q2) (d_mask q2) (d_m q2) (d_Z q2) (d_idxb q2) (d_idxs_rev q2) in
  let '(q2, tbg) := cond_dctd last (with_mats qp BA RSQ) w q2 in
  (q2, BA2, b2, mkcws (cw_Gamma w) (cw_Gammab w) (cw_L w) (cw_Lx w) (cw_dA w) (cw_AL w) (cw_GQ w) (cw_nux w) tbg, BA, RSQ).

(** PART_COND_QP_COND, lines 487-541.  State: the QP object, the second QP, the block workspaces, N_tmp.
    [bs ii] = cond_workspace[ii].bs; [last ii], [alg0 ii], [sq ii] = the options of cond_arg[ii]; [diag i] = (diag_H_flag[i] != 0). *)
Record pst := mkpst { p_qp : oqp F; p_q2 : oqp F; p_ws : nat -> cws F; p_o : nat }.
Definition part_step (last alg0 sq : nat -> bool) (diag : nat -> bool) (bs : nat -> nat) (ii : nat) (s : pst) : pst :=
  let o := p_o s in let qp := p_qp s in let p := p_q2 s in
  let '(q, BA2, b2, w, BA, RSQ) := cond_block (last ii) (alg0 ii) (sq ii) (from o diag) (sub_qp qp o (bs ii)) (stage_q p ii) (q_BAbt p ii) (q_b p ii) (p_ws s ii) in
  mkpst (with_mats qp (merge o BA (q_BAbt qp)) (merge o RSQ (q_RSQ qp))) (put_stage p ii q BA2 b2) (upd (p_ws s) ii w) (o + bs ii).
Definition part_cond (last alg0 sq : nat -> bool) (diag : nat -> bool) (bs : nat -> nat) (qp p : oqp F) (ws : nat -> cws F) : pst :=
  loop (dN (q_dim p) + 1) (part_step last alg0 sq diag bs) (mkpst qp p ws 0).
(** the default of PART_COND_QP_ARG_SET_DEFAULT, lines 207-230: cond_last_stage = 1 only for the last block *)
Definition last_default (N2 : nat) : nat -> bool := fun ii => Nat.eqb ii N2.

(** PART_COND_QP_EXPAND_SOL, lines 784-863: [ps] = the solution of the second QP, [sol] the solution object filled.  EXPAND_SOL only
    reads the QP and changes the scratch vectors of the workspace. *)
Record est := mkest { e_sol : osol F; e_ws : nat -> cws F; e_o : nat }.
Definition sub_sol (s : osol F) (o : nat) : osol F := mksol (from o (s_ux s)) (from o (s_pi s)) (from o (s_lam s)) (from o (s_t s)).
Definition merge_sol (o : nat) (new old : osol F) : osol F :=
  mksol (merge o (s_ux new) (s_ux old)) (merge o (s_pi new) (s_pi old)) (merge o (s_lam new) (s_lam old)) (merge o (s_t new) (s_t old)).
Definition stage_sol (ps : osol F) (ii : nat) : dsol F := mkdsol (s_ux ps ii) (s_pi ps ii) (s_lam ps ii) (s_t ps ii).
Definition part_exp_step (last prim dineq deq : nat -> bool) (bs : nat -> nat) (qp : oqp F) (ps : osol F) (ii : nat) (s : est) : est :=
  let o := e_o s in
  let '(sol, w) := expand_sol (last ii) (prim ii) (dineq ii) (deq ii) (sub_qp qp o (bs ii)) (stage_sol ps ii) (sub_sol (e_sol s) o) (e_ws s ii) in
  mkest (merge_sol o sol (e_sol s)) (upd (e_ws s) ii w) (o + bs ii).
Definition part_expand (last prim dineq deq : nat -> bool) (bs : nat -> nat) (N2 : nat) (qp : oqp F) (ps sol : osol F) (ws : nat -> cws F) : est :=
  loop (N2 + 1) (part_exp_step last prim dineq deq bs qp ps) (mkest sol ws 0).
End Part.
Arguments pst F : clear implicits.
Arguments est F : clear implicits.
