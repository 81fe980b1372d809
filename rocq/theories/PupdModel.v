(** PupdModel.v -- updating a partially condensed QP after some stages of the OCP QP changed (cond/x_part_cond.c lines 948-1024, PART_COND_QP_UPDATE).
    [idxc i] = (idxc[i] != 0): the caller says that stage i changed. *)
From Coq Require Import ZArith Bool Arith.
From Verif Require Import Base ArithF Blas Blas2 OcpModel KktModel DenModel CondModel ExpModel PartModel CupdModel.

Section Pupd.
Context {F : Type} {AF : Arith F}.
Notation vec := (nat -> F).
Notation mat := (nat -> nat -> F).
(** UPDATE_COND_BABT, UPDATE_COND_RSQRQ_N2NX3, UPDATE_COND_DCTD in sequence on one block (lines 996-1000): results, workspace, and BAbt, RSQrq of the alias of the QP object *)
Definition update_block (idxc : nat -> bool) (last : bool) (qp : oqp F) (q2 : dqp F) (BA2 : mat) (b2 : vec) (w : cws F) : dqp F * mat * vec * cws F * (nat -> mat) * (nat -> mat) :=
  let '(w, BA2, b2) := update_babt idxc last qp w BA2 b2 in
  let '(BA, RSQ, w, H, g) := update_rsqrq idxc last qp w (d_H q2) (d_gz q2) in
  let q2 := mkdqp (d_nv q2) (d_ne q2) (d_nb q2) (d_ng q2) (d_ns q2) H (d_A q2) (d_Ct q2) g (d_b q2) (d_d q2) (d_mask q2) (d_m q2) (d_Z q2) (d_idxb q2) (d_idxs_rev q2) in
  let '(q2, tbg) := update_dctd idxc last (with_mats qp BA RSQ) w q2 in
  (q2, BA2, b2, mkcws (cw_Gamma w) (cw_Gammab w) (cw_L w) (cw_Lx w) (cw_dA w) (cw_AL w) (cw_GQ w) (cw_nux w) tbg, BA, RSQ).
(** one pass of the loop, lines 963-1004 *)
Definition part_upd_step (idxc : nat -> bool) (last : nat -> bool) (bs : nat -> nat) (ii : nat) (s : pst F) : pst F :=
  let o := p_o s in let qp := p_qp s in let p := p_q2 s in
  let '(q, BA2, b2, w, BA, RSQ) := update_block (from o idxc) (last ii) (sub_qp qp o (bs ii)) (stage_q p ii) (q_BAbt p ii) (q_b p ii) (p_ws s ii) in
  mkpst (with_mats qp (merge o BA (q_BAbt qp)) (merge o RSQ (q_RSQ qp))) (put_stage p ii q BA2 b2) (upd (p_ws s) ii w) (o + bs ii).
(** lines 948-1024 *)
Definition part_update (idxc : nat -> bool) (last : nat -> bool) (bs : nat -> nat) (qp p : oqp F) (ws : nat -> cws F) : pst F :=
  loop (dN (q_dim p) + 1) (part_upd_step idxc last bs) (mkpst qp p ws 0).
End Pupd.
