(** PcsplitModel.v -- partial condensing in two calls: the matrices (PART_COND_QP_COND_LHS) and the vectors (PART_COND_QP_COND_RHS), and the
    condensing of sensitivity seeds (PART_COND_QP_COND_SEED), cond/x_part_cond.c.  The functions called are those of CsplitModel.v, on
    aliases of the QP object as in PartModel.v. *)
From Coq Require Import ZArith Bool Arith.
From Verif Require Import Base ArithF Blas Blas2 OcpModel KktModel DenModel CondModel SensModel CsplitModel ExpModel PartModel.

Section Pcsplit.
Context {F : Type} {AF : Arith F}.
Notation vec := (nat -> F).
Notation mat := (nat -> nat -> F).

(** COND_BAT, COND_RSQ, COND_DCT in sequence (x_part_cond.c lines 453-457): stage ii of the second QP, its BAbt, the workspace, RSQrq of the
    (alias of the) QP object *)
Definition lhs_block (last alg0 sq : bool) (diag : nat -> bool) (qp : oqp F) (q2 : dqp F) (BA2 : mat) (w : sws2 F) : dqp F * mat * sws2 F * (nat -> mat) :=
  let c := sw_c w in
  let '(G, BA2) := cond_bat last qp (cw_Gamma c) BA2 in
  let '(RSQ, c, H) := cond_rsq alg0 sq diag last qp (mkcws G (cw_Gammab c) (cw_L c) (cw_Lx c) (cw_dA c) (cw_AL c) (cw_GQ c) (cw_nux c) (cw_nbg c)) (d_H q2) in
  let s := cond_dct last qp G (mkmst (d_idxb q2) (d_idxs_rev q2) (d_Ct q2) (d_Z q2) 0 0 0) in
  (mkdqp (d_nv q2) (d_ne q2) (d_nb q2) (d_ng q2) (d_ns q2) H (d_A q2) (y_Ct s) (d_gz q2) (d_b q2) (d_d q2) (d_mask q2) (d_m q2) (y_Z s) (y_idxb s) (y_idxs s), BA2, mksw c (sw_l w), RSQ).
(** COND_B, COND_RQ, COND_D in sequence (lines 607-612, with the mask; lines 687-691, d_mask2 = NULL, without): b, rqz, d, d_mask of stage ii of
    the second QP and the workspace.  m is not condensed ("TODO cond m", lines 611 and 685). *)
Definition vecs_block (domask last alg0 : bool) (diag : nat -> bool) (qp : oqp F) (b g d mask : vec) (w : sws2 F) : vec * vec * vec * vec * sws2 F :=
  let c := sw_c w in
  let '(Gb, b) := cond_b last qp (cw_Gammab c) b in
  let '(w, g) := cond_rq alg0 diag last qp (mksw (mkcws (cw_Gamma c) Gb (cw_L c) (cw_Lx c) (cw_dA c) (cw_AL c) (cw_GQ c) (cw_nux c) (cw_nbg c)) (sw_l w)) g in
  let c := sw_c w in
  let s := cond_d domask last qp Gb (mkdst d mask g (cw_nbg c) 0 0 0) in
  (b, t_gz s, t_d s, t_mask s, mksw (mkcws (cw_Gamma c) (cw_Gammab c) (cw_L c) (cw_Lx c) (cw_dA c) (cw_AL c) (cw_GQ c) (cw_nux c) (t_tbg s)) (sw_l w)).

(** PART_COND_QP_COND_LHS, lines 410-483.  State and arguments as in PartModel.part_cond; of the QP object only RSQrq may change. *)
Record lpst := mklpst { lp_qp : oqp F; lp_q2 : oqp F; lp_ws : nat -> sws2 F; lp_o : nat }.
Definition part_lhs_step (last alg0 sq : nat -> bool) (diag : nat -> bool) (bs : nat -> nat) (ii : nat) (s : lpst) : lpst :=
  let o := lp_o s in let qp := lp_qp s in let p := lp_q2 s in
  let '(q, BA2, w, RSQ) := lhs_block (last ii) (alg0 ii) (sq ii) (from o diag) (sub_qp qp o (bs ii)) (stage_q p ii) (q_BAbt p ii) (lp_ws s ii) in
  mklpst (with_mats qp (q_BAbt qp) (merge o RSQ (q_RSQ qp))) (put_stage p ii q BA2 (q_b p ii)) (upd (lp_ws s) ii w) (o + bs ii).
Definition part_lhs (last alg0 sq : nat -> bool) (diag : nat -> bool) (bs : nat -> nat) (qp p : oqp F) (ws : nat -> sws2 F) : lpst :=
  loop (dN (q_dim p) + 1) (part_lhs_step last alg0 sq diag bs) (mklpst qp p ws 0).

(** PART_COND_QP_COND_RHS, lines 564-633.  The QP object is only read. *)
Definition put_vecs (p : oqp F) (ii : nat) (b g d mask : vec) : oqp F :=
  mkqp (q_dim p) (q_BAbt p) (q_RSQ p) (q_DCt p) (upd (q_b p) ii b) (upd (q_rqz p) ii g) (upd (q_d p) ii d) (upd (q_mask p) ii mask) (q_m p) (q_Z p) (q_idxb p) (q_idxs_rev p).
Record rpst := mkrpst { rp_q2 : oqp F; rp_ws : nat -> sws2 F; rp_o : nat }.
Definition part_rhs_step (last alg0 : nat -> bool) (diag : nat -> bool) (bs : nat -> nat) (qp : oqp F) (ii : nat) (s : rpst) : rpst :=
  let o := rp_o s in let p := rp_q2 s in
  let '(b, g, d, mask, w) := vecs_block true (last ii) (alg0 ii) (from o diag) (sub_qp qp o (bs ii)) (q_b p ii) (q_rqz p ii) (q_d p ii) (q_mask p ii) (rp_ws s ii) in
  mkrpst (put_vecs p ii b g d mask) (upd (rp_ws s) ii w) (o + bs ii).
Definition part_rhs (last alg0 : nat -> bool) (diag : nat -> bool) (bs : nat -> nat) (qp p : oqp F) (ws : nat -> sws2 F) : rpst :=
  loop (dN (q_dim p) + 1) (part_rhs_step last alg0 diag bs qp) (mkrpst p ws 0).

(** PART_COND_QP_COND_SEED, lines 637-700: the alias takes b, rqz, d, m from the seed; the second seed object gets seed_b, seed_g, seed_d *)
Record spst := mkspst { sp_s2 : seed F; sp_ws : nat -> sws2 F; sp_o : nat }.
Definition part_seed_step (last alg0 : nat -> bool) (diag : nat -> bool) (bs : nat -> nat) (qp : oqp F) (sd : seed F) (ii : nat) (s : spst) : spst :=
  let o := sp_o s in let p := sp_s2 s in
  let '(b, g, d, _, w) := vecs_block false (last ii) (alg0 ii) (from o diag) (sub_qp (seed_qp qp sd) o (bs ii)) (sd_b p ii) (sd_g p ii) (sd_d p ii) (fun _ => f0) (sp_ws s ii) in
  mkspst (mkseed (upd (sd_g p) ii g) (upd (sd_b p) ii b) (upd (sd_d p) ii d) (sd_m p)) (upd (sp_ws s) ii w) (o + bs ii).
Definition part_seed (last alg0 : nat -> bool) (diag : nat -> bool) (bs : nat -> nat) (N2 : nat) (qp : oqp F) (sd p : seed F) (ws : nat -> sws2 F) : spst :=
  loop (N2 + 1) (part_seed_step last alg0 diag bs qp sd) (mkspst p ws 0).
End Pcsplit.
Arguments lpst F : clear implicits.
Arguments rpst F : clear implicits.
Arguments spst F : clear implicits.
