(** CupdModel.v -- updating a condensed QP after some stages of the OCP QP changed (cond/x_cond_aux.c lines 2482-3080, cond/x_cond.c
    lines 577-589, COND_QP_UPDATE).  [idxc i] = (idxc[i] != 0): the caller says that stage i changed.  [last] = cond_arg->cond_last_stage. *)
From Coq Require Import ZArith Bool Arith.
From Verif Require Import Base ArithF Blas Blas2 OcpModel KktModel DenModel CondModel.

(** "index after first changed dynamic": one more than the largest marked index below n, 0 if there is none (x_cond_aux.c lines 2494-2502,
    2593-2601, 2754-2762).  The code searches downwards and stops at the first hit; here the last hit of an upward search is kept. *)
Definition idx_of (idxc : nat -> bool) (n : nat) : nat := loop n (fun ii s => if idxc ii then S ii else s) 0%nat.

Section Upd.
Context {F : Type} {AF : Arith F}.
Local Open Scope F_scope.
Notation vec := (nat -> F).
Notation mat := (nat -> nat -> F).

(** UPDATE_COND_BABT, lines 2545-2562: a stage at or after the index; only the rows of the inputs of changed stages, of the initial state
    and of the constant term are recomputed.  State: Gamma, Gammab, nu_tmp, nu_tmp1 *)
Definition ubabt_tail (qp : oqp F) (nu_tmp0 : nat) (ii : nat) (s : (nat -> mat) * (nat -> vec) * nat * nat) : (nat -> mat) * (nat -> vec) * nat * nat :=
  let D := q_dim qp in let '(G, Gb, nu_tmp, nu_tmp1) := s in
  let nx1 := dnx D (ii + 1) in let nui := dnu D ii in
  let M := GEMM_NN (nu_tmp0 + dnx D 0 + 1) nx1 (dnx D ii) f1 (G (ii - 1)%nat) nu_tmp1 0 (q_BAbt qp ii) nui 0 f0 (G ii) (nu_tmp1 + nui) 0 (G ii) (nu_tmp1 + nui) 0 in
  let nu_tmp1 := (nu_tmp1 + nui)%nat in let nu_tmp := (nu_tmp + nui)%nat in
  let M := ROWAD nx1 f1 (q_b qp ii) 0 M (nu_tmp + dnx D 0) 0 in
  (upd G ii M, upd Gb ii (ROWEX nx1 f1 M (nu_tmp + dnx D 0) 0 (Gb ii) 0), nu_tmp, nu_tmp1).
(** lines 2482-2575; the stages before the index are treated as in COND_BABT (lines 2517-2543 repeat lines 54-82) *)
Definition update_babt (idxc : nat -> bool) (last : bool) (qp : oqp F) (w : cws F) (BAbt2 : mat) (b2 : vec) : cws F * mat * vec :=
  let D := q_dim qp in let N := dN D in let idx := idx_of idxc N in
  if Nat.eqb idx 0 then (w, BAbt2, b2)
  else
    let '(G, Gb) := babt_first qp (cw_Gamma w) (cw_Gammab w) in
    let '(G, Gb, nu_tmp0) := loop (idx - 1) (fun k s => babt_mid qp (k + 1) s) (G, Gb, dnu D 0) in
    let '(G, Gb, nu_tmp, _) := loop (N - idx) (fun k s => ubabt_tail qp nu_tmp0 (idx + k) s) (G, Gb, nu_tmp0, 0%nat) in
    let w := mkcws G Gb (cw_L w) (cw_Lx w) (cw_dA w) (cw_AL w) (cw_GQ w) (cw_nux w) (cw_nbg w) in
    if last then (w, BAbt2, b2)
    else (w, GECP (nu_tmp + dnx D 0) (dnx D N) (G (N - 1)%nat) 0 0 BAbt2 0 0, ROWEX (dnx D N) f1 (G (N - 1)%nat) (nu_tmp + dnx D 0) 0 b2 0).

(** UPDATE_COND_RSQRQ_N2NX3.  One propagation step, lines 2674-2687 and 2704-2718: as in COND_RSQRQ, but without the test for a
    singular factor and without the classical fallback (compare CondModel.rsq_prop) *)
Definition ursq_prop (qp : oqp F) (n : nat) (s : rst (F := F)) : rst :=
  let D := q_dim qp in
  let '(Lx, dA) := POTRF_L_MN (dnx D n + 1) (dnx D n) (rs_L s n) (dnu D n) (dnu D n) (rs_Lx s) 0 0 (rs_dA s) in rsq_prop_sqrt qp n Lx dA s.
(** an "unchanged" stage m, lines 2656-2667: the stage matrix L[m] of the previous call is kept; of its columns of the Hessian only the
    last nuc+nx0+1 rows are recomputed *)
Definition ursq_keep (qp : oqp F) (G : nat -> mat) (nu2 nuc : nat) (m : nat) (s : rst (F := F)) : rst :=
  let D := q_dim qp in let num := dnu D m in let nxm := dnx D m in let L := rs_L s m in let nuf := rs_nuf s in
  let nub := (rs_nub s - num)%nat in
  let H := GEMM_NN (nuc + dnx D 0 + 1) num nxm f1 (G (m - 1)%nat) (nub - nuc) 0 L num 0 f0 (rs_H s) (nuf + num + nub - nuc) nuf (rs_H s) (nuf + num + nub - nuc) nuf in
  let H := GEAD 1 num f1 L (num + nxm) 0 H (nu2 + dnx D 0) nuf in
  mkrst (rs_BA s) (rs_RSQ s) (rs_L s) (rs_Lx s) (rs_dA s) (rs_AL s) H nub (nuf + num).
(** the number of unchanged middle stages: the condition of the loop of line 2656 is M-nn-1 >= idx and nn < M-1 *)
Definition n_keep (M idx : nat) : nat := Nat.min (M - idx) (M - 1).
(** the last stage, lines 2636-2647 *)
Definition ursq_last (qp : oqp F) (G : nat -> mat) (M nu2 : nat) (s : rst (F := F)) : rst :=
  let D := q_dim qp in let nM := (dnu D M + dnx D M)%nat in
  let L := GECP nM nM (rs_RSQ s M) 0 0 (rs_L s M) 0 0 in
  let L := ROWIN nM f1 (q_rqz qp M) 0 L nM 0 in
  rsq_emit qp G nu2 M (mkrst (rs_BA s) (rs_RSQ s) (upd (rs_L s) M L) (rs_Lx s) (rs_dA s) (rs_AL s) (rs_H s) nu2 0).
(** lines 2636-2725 for M >= 1 *)
Definition ursq_main (qp : oqp F) (G : nat -> mat) (M nu2 idx : nat) (s : rst (F := F)) : rst :=
  let nuc := nsum idx (dnu (q_dim qp)) in let c := n_keep M idx in
  let s := ursq_last qp G M nu2 s in
  let s := loop c (fun nn s => ursq_keep qp G nu2 nuc (M - nn - 1) s) s in
  let s := loop (M - 1 - c) (fun k s => let nn := (c + k)%nat in rsq_emit qp G nu2 (M - nn - 1) (ursq_prop qp (M - nn) s)) s in
  rsq_emit0 qp (ursq_prop qp 1 s).
(** lines 2580-2727 *)
Definition update_rsqrq (idxc : nat -> bool) (last : bool) (qp : oqp F) (w : cws F) (H2 : mat) (g2 : vec) : (nat -> mat) * (nat -> mat) * cws F * mat * vec :=
  let D := q_dim qp in let M := last_stage last (dN D) in let n0 := (dnu D 0 + dnx D 0)%nat in let idx := idx_of idxc M in
  if andb (Nat.eqb idx 0) (negb (idxc M)) then (q_BAbt qp, q_RSQ qp, w, H2, g2)
  else if Nat.eqb M 0 then (q_BAbt qp, q_RSQ qp, w, GECP n0 n0 (q_RSQ qp 0%nat) 0 0 H2 0 0, VECCP n0 (q_rqz qp 0%nat) 0 g2 0)
  else
    let nu2 := nsum (M + 1) (dnu D) in
    let s := ursq_main qp (cw_Gamma w) M nu2 idx (mkrst (q_BAbt qp) (q_RSQ qp) (cw_L w) (cw_Lx w) (cw_dA w) (cw_AL w) H2 nu2 0) in
    (rs_BA s, rs_RSQ s, mkcws (cw_Gamma w) (cw_Gammab w) (rs_L s) (rs_Lx s) (rs_dA s) (rs_AL s) (cw_GQ w) (cw_nux w) (cw_nbg w),
     rs_H s, ROWEX (nu2 + dnx D 0) f1 (rs_H s) (nu2 + dnx D 0) 0 g2 0).

(** UPDATE_COND_DCTD, lines 2741-3080.  Unlike COND_DCTD it leaves d_mask and m of the dense QP alone and numbers the slacks of the dense
    QP one by one in the order in which it meets the softened constraints (counter [is]), copying Z, z and the slack bounds on the way. *)
Record ust := mkust { u_d : vec; u_idxb : nat -> nat; u_idxs : nat -> Z; u_Ct : mat; u_Z : vec; u_gz : vec; u_ib : nat; u_ig : nat; u_is : nat }.
Section Udctd.
Variables (qp : oqp F) (M : nat) (G : nat -> mat) (Gb : nat -> vec).
Let D := q_dim qp.
Let nb2 := count_nbb qp M.
Let nbg := count_nbg qp M.
Let ng2 := (nbg + ngg_of qp M)%nat.
Let nu2 := nu2_of qp M.
Let ns2 := ns2_of qp M.
Let nx2 := dnx D 0.
(** lines 2868-2879 (and its repetitions): constraint j of stage i is soft; p = its position in the dense QP *)
Definition u_soft (i j p : nat) (s : ust) : ust :=
  let k := q_idxs_rev qp i j in
  if Z.leb 0 k then
    let l := Z.to_nat k in let nsi := dns D i in let is := u_is s in
    let oz := (dnu D i + dnx D i)%nat in let od := (2 * dnb D i + 2 * dng D i)%nat in let oz2 := (nu2 + nx2)%nat in let od2 := (2 * nb2 + 2 * ng2)%nat in
    mkust (upd (upd (u_d s) (od2 + is)%nat (q_d qp i (od + l)%nat)) (od2 + ns2 + is)%nat (q_d qp i (od + nsi + l)%nat))
      (u_idxb s) (upd (u_idxs s) p (Z.of_nat is)) (u_Ct s)
      (upd (upd (u_Z s) is (q_Z qp i l)) (ns2 + is)%nat (q_Z qp i (nsi + l)%nat))
      (upd (upd (u_gz s) (oz2 + is)%nat (q_rqz qp i (oz + l)%nat)) (oz2 + ns2 + is)%nat (q_rqz qp i (oz + nsi + l)%nat))
      (u_ib s) (u_ig s) (S is)
  else s.
Definition u_put (i j pl pu : nat) (tl tu : F -> F) (s : ust) : ust :=
  mkust (upd (upd (u_d s) pl (tl (q_d qp i j))) pu (tu (q_d qp i (dnb D i + dng D i + j)%nat))) (u_idxb s) (u_idxs s) (u_Ct s) (u_Z s) (u_gz s) (u_ib s) (u_ig s) (u_is s).
(** one bound of a middle stage, lines 2860-2907 *)
Definition u_bound (i nu_tmp idx_gammab : nat) (jj : nat) (s : ust) : ust :=
  let idxb0 := q_idxb qp i jj in
  if Nat.ltb idxb0 (dnu D i) then
    let ib := u_ib s in
    let s := u_put i jj ib (nb2 + ng2 + ib) (fun v => v) (fun v => v) s in
    let s := mkust (u_d s) (upd (u_idxb s) ib (nu_tmp - dnu D i + idxb0)%nat) (u_idxs s) (u_Ct s) (u_Z s) (u_gz s) ib (u_ig s) (u_is s) in
    let s := u_soft i jj ib s in
    mkust (u_d s) (u_idxb s) (u_idxs s) (u_Ct s) (u_Z s) (u_gz s) (S ib) (u_ig s) (u_is s)
  else
    let ig := u_ig s in let idx_g := (idxb0 - dnu D i)%nat in
    let tmp := Gb (i - 1)%nat idx_g in
    let s := u_put i jj (nb2 + ig) (2 * nb2 + ng2 + ig) (fun v => v - tmp) (fun v => v + tmp) s in
    let s := mkust (u_d s) (u_idxb s) (u_idxs s) (GECP idx_gammab 1 (G (i - 1)%nat) 0 idx_g (u_Ct s) nu_tmp ig) (u_Z s) (u_gz s) (u_ib s) ig (u_is s) in
    let s := u_soft i jj (nb2 + ig) s in
    mkust (u_d s) (u_idxb s) (u_idxs s) (u_Ct s) (u_Z s) (u_gz s) (u_ib s) (S ig) (u_is s).
(** a bound of the initial stage, lines 2926-2945 *)
Definition u_bound0 (nu_tmp : nat) (jj : nat) (s : ust) : ust :=
  let ib := u_ib s in
  let s := u_put 0 jj ib (nb2 + ng2 + ib) (fun v => v) (fun v => v) s in
  let s := mkust (u_d s) (upd (u_idxb s) ib (nu_tmp - dnu D 0 + q_idxb qp 0%nat jj)%nat) (u_idxs s) (u_Ct s) (u_Z s) (u_gz s) ib (u_ig s) (u_is s) in
  let s := u_soft 0 jj ib s in
  mkust (u_d s) (u_idxb s) (u_idxs s) (u_Ct s) (u_Z s) (u_gz s) (S ib) (u_ig s) (u_is s).
(** lines 2840-2946 *)
Definition u_bounds (s : ust) : ust :=
  let '(s, nu_tmp, _) := loop M (fun ii '(s, nu_tmp, idx_gammab) =>
      let i := (M - ii)%nat in let nu_tmp := (nu_tmp + dnu D i)%nat in
      let s := loop (dnb D i) (u_bound i nu_tmp idx_gammab) s in
      (s, nu_tmp, idx_gammab - dnu D (M - 1 - ii))%nat) (s, 0, dnx D 0 + nsum M (dnu D))%nat in
  loop (dnb D 0) (u_bound0 (nu_tmp + dnu D 0)%nat) s.
(** the soft indices and the bounds of the general constraints of one stage, lines 2976-3002 and 3053-3075 *)
Definition u_gen_copy (i ng_tmp : nat) (s : ust) : ust :=
  let nb0 := dnb D i in let ng0 := dng D i in let o := (nb2 + nbg + ng_tmp)%nat in let ou := (2 * nb2 + ng2 + nbg + ng_tmp)%nat in
  let s := loop ng0 (fun ig s => u_soft i (nb0 + ig)%nat (o + ig)%nat s) s in
  mkust (VECCP ng0 (q_d qp i) (2 * nb0 + ng0) (VECCP ng0 (q_d qp i) nb0 (u_d s) o) ou) (u_idxb s) (u_idxs s) (u_Ct s) (u_Z s) (u_gz s) (u_ib s) (u_ig s) (u_is s).
(** lines 2974-3018 *)
Definition u_gen_mid (i nu_tmp ng_tmp : nat) (st : ust * vec) : ust * vec :=
  let '(s, tbg) := st in
  let nu0 := dnu D i in let ng0 := dng D i in let o := (nb2 + nbg + ng_tmp)%nat in let ou := (2 * nb2 + ng2 + nbg + ng_tmp)%nat in
  if Nat.ltb 0 ng0 then
    let s := u_gen_copy i ng_tmp s in
    let Ct := GECP nu0 ng0 (q_DCt qp i) 0 0 (u_Ct s) nu_tmp (nbg + ng_tmp) in
    let nu_tmp := (nu_tmp + nu0)%nat in
    let Ct := GEMM_NN (nu2 + dnx D 0 - nu_tmp) ng0 (dnx D i) f1 (G (i - 1)%nat) 0 0 (q_DCt qp i) nu0 0 f0 Ct nu_tmp (nbg + ng_tmp) Ct nu_tmp (nbg + ng_tmp) in
    let tbg := GEMV_T (dnx D i) ng0 f1 (q_DCt qp i) nu0 0 (Gb (i - 1)%nat) 0 f0 tbg 0 tbg 0 in
    let d := AXPY ng0 (- f1) tbg 0 (u_d s) o (u_d s) o in
    let d := AXPY ng0 f1 tbg 0 d ou d ou in
    (mkust d (u_idxb s) (u_idxs s) Ct (u_Z s) (u_gz s) (u_ib s) (u_ig s) (u_is s), tbg)
  else (s, tbg).
(** lines 2955-3076 *)
Definition u_gens (st : ust * vec) : ust * vec :=
  let '(st, nu_tmp, ng_tmp) := loop M (fun ii '(st, nu_tmp, ng_tmp) =>
      let i := (M - ii)%nat in (u_gen_mid i nu_tmp ng_tmp st, nu_tmp + dnu D i, ng_tmp + dng D i)%nat) (st, 0, 0)%nat in
  let '(s, tbg) := st in
  if Nat.ltb 0 (dng D 0) then
    let s := u_gen_copy 0 ng_tmp s in
    (mkust (u_d s) (u_idxb s) (u_idxs s) (GECP (dnu D 0 + dnx D 0) (dng D 0) (q_DCt qp 0%nat) 0 0 (u_Ct s) nu_tmp (nbg + ng_tmp)) (u_Z s) (u_gz s) (u_ib s) (u_ig s) (u_is s), tbg)
  else (s, tbg).
(** lines 2829-3080 *)
Definition u_dctd_main (q2 : dqp F) (tbg : vec) : dqp F * vec :=
  let s := mkust (d_d q2) (d_idxb q2) (d_idxs_rev q2) (GESE (nu2 + nx2) ng2 f0 (d_Ct q2) 0 0) (d_Z q2) (d_gz q2) 0 0 0 in
  let s := u_bounds s in
  let '(s, tbg) := u_gens (s, tbg) in
  (mkdqp (d_nv q2) (d_ne q2) (d_nb q2) (d_ng q2) (d_ns q2) (d_H q2) (d_A q2) (u_Ct s) (u_gz s) (d_b q2) (u_d s) (d_mask q2) (d_m q2) (u_Z s) (u_idxb s) (u_idxs s), tbg).
(** early return, lines 2783-2792: N = 0 and cond_last_stage = 1 *)
Definition u_dctd_one (q2 : dqp F) : dqp F :=
  let nc := (2 * dnb D 0 + 2 * dng D 0 + 2 * dns D 0)%nat in let n0 := (dnu D 0 + dnx D 0)%nat in
  mkdqp (d_nv q2) (d_ne q2) (d_nb q2) (d_ng q2) (d_ns q2) (d_H q2) (d_A q2) (GECP n0 (dng D 0) (q_DCt qp 0%nat) 0 0 (d_Ct q2) 0 0)
    (VECCP (2 * dns D 0) (q_rqz qp 0%nat) n0 (d_gz q2) n0) (d_b q2) (VECCP nc (q_d qp 0%nat) 0 (d_d q2) 0) (d_mask q2) (d_m q2)
    (VECCP (2 * dns D 0) (q_Z qp 0%nat) 0 (d_Z q2) 0)
    (loop (dnb D 0) (fun ii x => upd x ii (q_idxb qp 0%nat ii)) (d_idxb q2)) (loop (dnb D 0 + dng D 0) (fun ii x => upd x ii (q_idxs_rev qp 0%nat ii)) (d_idxs_rev q2)).
End Udctd.
Definition update_dctd (idxc : nat -> bool) (last : bool) (qp : oqp F) (w : cws F) (q2 : dqp F) : dqp F * vec :=
  let M := last_stage last (dN (q_dim qp)) in
  if andb (Nat.eqb (idx_of idxc M) 0) (negb (idxc M)) then (q2, cw_nbg w)
  else if andb (Nat.eqb M 0) last then (u_dctd_one qp q2, cw_nbg w)
  else u_dctd_main qp M (cw_Gamma w) (cw_Gammab w) q2 (cw_nbg w).

(** COND_QP_UPDATE, x_cond.c lines 577-589, with cond_last_stage = 1: the dense QP, the workspace, and BAbt, RSQrq of the QP object *)
Definition update_qp (idxc : nat -> bool) (qp : oqp F) (q2 : dqp F) (w : cws F) : dqp F * cws F * (nat -> mat) * (nat -> mat) :=
  let '(w, _, _) := update_babt idxc true qp w (fun _ _ => f0) (fun _ => f0) in
  let '(BA, RSQ, w, H, g) := update_rsqrq idxc true qp w (d_H q2) (d_gz q2) in
  let q2 := mkdqp (d_nv q2) (d_ne q2) (d_nb q2) (d_ng q2) (d_ns q2) H (d_A q2) (d_Ct q2) g (d_b q2) (d_d q2) (d_mask q2) (d_m q2) (d_Z q2) (d_idxb q2) (d_idxs_rev q2) in
  let qp := mkqp (q_dim qp) BA RSQ (q_DCt qp) (q_b qp) (q_rqz qp) (q_d qp) (q_mask qp) (q_m qp) (q_Z qp) (q_idxb qp) (q_idxs_rev qp) in
  let '(q2, tbg) := update_dctd idxc true qp w q2 in
  (q2, mkcws (cw_Gamma w) (cw_Gammab w) (cw_L w) (cw_Lx w) (cw_dA w) (cw_AL w) (cw_GQ w) (cw_nux w) tbg, BA, RSQ).
End Upd.
