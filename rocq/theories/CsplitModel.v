(** CsplitModel.v -- condensing in two calls: the matrices (COND_QP_COND_LHS) and the vectors (COND_QP_COND_RHS), so that a problem
    with the same matrices is condensed again by the second call alone; and the condensing of sensitivity seeds (cond/x_cond_aux.c,
    cond/x_cond.c).  [last] as in CondModel.v. *)
From Coq Require Import ZArith Bool Arith.
From Verif Require Import Base ArithF Blas Blas2 OcpModel KktModel DenModel CondModel SensModel.

Section Csplit.
Context {F : Type} {AF : Arith F}.
Local Open Scope F_scope.
Notation vec := (nat -> F).
Notation mat := (nat -> nat -> F).

(** The condensing workspace: CondModel.cws plus the vectors l (struct COND_QP_WS, include/hpipm_d_cond.h), which only COND_RQ uses *)
Record sws2 := mksw { sw_c : cws F; sw_l : nat -> vec }.

(** COND_BAT, x_cond_aux.c lines 103-157 *)
Definition bat_mid (qp : oqp F) (ii : nat) (s : (nat -> mat) * nat) : (nat -> mat) * nat :=
  let D := q_dim qp in let '(G, nu_tmp) := s in let nx1 := dnx D (ii + 1) in
  let M := GEMM_NN (nu_tmp + dnx D 0) nx1 (dnx D ii) f1 (G (ii - 1)%nat) 0 0 (q_BAbt qp ii) (dnu D ii) 0 f0 (G ii) (dnu D ii) 0 (G ii) (dnu D ii) 0 in
  let M := GECP (dnu D ii) nx1 (q_BAbt qp ii) 0 0 M 0 0 in
  (upd G ii M, nu_tmp + dnu D ii)%nat.
Definition cond_bat (last : bool) (qp : oqp F) (G : nat -> mat) (BAbt2 : mat) : (nat -> mat) * mat :=
  let D := q_dim qp in let N := dN D in
  if andb (Nat.eqb N 0) last then (G, BAbt2)
  else
    let G := upd G 0 (GECP (dnu D 0 + dnx D 0) (dnx D 1) (q_BAbt qp 0%nat) 0 0 (G 0%nat) 0 0) in
    let '(G, nu_tmp) := loop (N - 1) (fun k s => bat_mid qp (k + 1) s) (G, dnu D 0) in
    (G, if last then BAbt2 else GECP (nu_tmp + dnx D 0) (dnx D N) (G (N - 1)%nat) 0 0 BAbt2 0 0).
(** COND_B, lines 159-204 *)
Definition cond_b (last : bool) (qp : oqp F) (Gb : nat -> vec) (b2 : vec) : (nat -> vec) * vec :=
  let D := q_dim qp in let N := dN D in
  if andb (Nat.eqb N 0) last then (Gb, b2)
  else
    let Gb := upd Gb 0 (VECCP (dnx D 1) (q_b qp 0%nat) 0 (Gb 0%nat) 0) in
    let Gb := loop (N - 1) (fun k Gb => let ii := (k + 1)%nat in
      upd Gb ii (GEMV_T (dnx D ii) (dnx D (ii + 1)) f1 (q_BAbt qp ii) (dnu D ii) 0 (Gb (ii - 1)%nat) 0 f1 (q_b qp ii) 0 (Gb ii) 0)) Gb in
    (Gb, if last then b2 else VECCP (dnx D N) (Gb (N - 1)%nat) 0 b2 0).

(** COND_RSQ, lines 431-648.  State of cond_alg 0: L, Lx with its inverse diagonal, AL, RSQrq2, nub, nuf. *)
Record qst := mkqst { qs_L : nat -> mat; qs_Lx : mat; qs_dA : vec; qs_AL : mat; qs_H : mat; qs_nub : nat; qs_nuf : nat }.
(** D and M blocks of stage n: lines 489-494 and 547-552 (n = N), 518-523, 571-576 (middle stages; with square_root_alg one row more) *)
Definition lhs_emit (ext : nat) (qp : oqp F) (G : nat -> mat) (n : nat) (s : qst) : qst :=
  let D := q_dim qp in let nun := dnu D n in let L := qs_L s n in let nuf := qs_nuf s in
  let nub := (qs_nub s - nun)%nat in
  let H := TRCP_L nun L 0 0 (qs_H s) nuf nuf in
  let H := GEMM_NN (nub + dnx D 0 + ext) nun (dnx D n) f1 (G (n - 1)%nat) 0 0 L nun 0 f0 H (nuf + nun) nuf H (nuf + nun) nuf in
  mkqst (qs_L s) (qs_Lx s) (qs_dA s) (qs_AL s) H nub (nuf + nun).
(** propagation from stage n to n-1: square_root_alg = 1 (lines 507-516, 532-541; no check of the factorisation; one row more in the
    first stage) and = 0 (lines 564-569, 583-588) *)
Definition lhs_prop (sq : bool) (qp : oqp F) (n : nat) (s : qst) : qst :=
  let D := q_dim qp in let p := (n - 1)%nat in let np := (dnu D p + dnx D p)%nat in let nxn := dnx D n in let nun := dnu D n in
  if sq then
    let '(Lx, dA) := POTRF_L_MN nxn nxn (qs_L s n) nun nun (qs_Lx s) 0 0 (qs_dA s) in
    let AL := TRMM_RLNN (np + (if Nat.eqb n 1 then 1 else 0)) nxn f1 Lx 0 0 (q_BAbt qp p) 0 0 (qs_AL s) 0 0 in
    let Lp := SYRK_LN_MN np np nxn f1 AL 0 0 AL 0 0 f1 (q_RSQ qp p) 0 0 (qs_L s p) 0 0 in
    mkqst (upd (qs_L s) p Lp) Lx dA AL (qs_H s) (qs_nub s) (qs_nuf s)
  else
    let Lx := TRCP_L nxn (qs_L s n) nun nun (qs_Lx s) 0 0 in
    let Lx := TRTR_L nxn Lx 0 0 Lx 0 0 in
    let AL := GEMM_NT np nxn nxn f1 (q_BAbt qp p) 0 0 Lx 0 0 f0 (qs_AL s) 0 0 (qs_AL s) 0 0 in
    let Lp := SYRK_LN_MN np np nxn f1 AL 0 0 (q_BAbt qp p) 0 0 f1 (q_RSQ qp p) 0 0 (qs_L s p) 0 0 in
    mkqst (upd (qs_L s) p Lp) Lx (qs_dA s) AL (qs_H s) (qs_nub s) (qs_nuf s).
(** first stage, lines 543-544, 590-591 *)
Definition lhs_emit0 (qp : oqp F) (s : qst) : qst :=
  let n0 := (dnu (q_dim qp) 0 + dnx (q_dim qp) 0)%nat in
  mkqst (qs_L s) (qs_Lx s) (qs_dA s) (qs_AL s) (TRCP_L n0 (qs_L s 0%nat) 0 0 (qs_H s) (qs_nuf s) (qs_nuf s)) (qs_nub s) (qs_nuf s).
Definition lhs_alg0 (sq : bool) (qp : oqp F) (G : nat -> mat) (M : nat) (s : qst) : qst :=
  let D := q_dim qp in let nM := (dnu D M + dnx D M)%nat in let ext := if sq then 1%nat else 0%nat in
  let L := GECP nM nM (q_RSQ qp M) 0 0 (qs_L s M) 0 0 in
  let s := lhs_emit 0 qp G M (mkqst (upd (qs_L s) M L) (qs_Lx s) (qs_dA s) (qs_AL s) (qs_H s) (qs_nub s) (qs_nuf s)) in
  loop M (fun nn s =>
    let s := lhs_prop sq qp (M - nn) s in
    if Nat.eqb nn (M - 1) then lhs_emit0 qp s else lhs_emit ext qp G (M - nn - 1) s) s.
(** cond_alg 1, lines 594-643.  State: RSQrq (its upper triangles are filled), RSQrq2, GammaQ, tmp_nuxM, nub, nuf *)
Record qst1 := mkqst1 { q1_RSQ : nat -> mat; q1_H : mat; q1_GQ : mat; q1_tmp : vec; q1_nub : nat; q1_nuf : nat }.
Definition lhs1_stage (diag : nat -> bool) (qp : oqp F) (G : nat -> mat) (nn : nat) (s : qst1) : qst1 :=
  let D := q_dim qp in let nun := dnu D nn in let nxn := dnx D nn in let nx0 := dnx D 0 in
  let nub := (q1_nub s - nun)%nat in let nuf := q1_nuf s in
  if Nat.eqb nn 0 then mkqst1 (q1_RSQ s) (TRCP_L (nun + nxn) (q1_RSQ s 0%nat) 0 0 (q1_H s) nub nub) (q1_GQ s) (q1_tmp s) nub (nuf + nun)
  else
    let '(RSQ, tmp, GQ) :=
      if diag nn then
        let tmp := DIAEX nxn f1 (q1_RSQ s nn) nun nun (q1_tmp s) 0 in
        (q1_RSQ s, tmp, GEMM_ND (nuf + nx0) nxn f1 (G (nn - 1)%nat) 0 0 tmp 0 f0 (q1_GQ s) 0 0 (q1_GQ s) 0 0)
      else
        let Rn := TRTR_L (nun + nxn) (q1_RSQ s nn) 0 0 (q1_RSQ s nn) 0 0 in
        (upd (q1_RSQ s) nn Rn, q1_tmp s, GEMM_NN (nuf + nx0) nxn nxn f1 (G (nn - 1)%nat) 0 0 Rn nun nun f0 (q1_GQ s) 0 0 (q1_GQ s) 0 0) in
    let H := SYRK_LN_MN (nuf + nx0) (nuf + nx0) nxn f1 GQ 0 0 (G (nn - 1)%nat) 0 0 f1 (q1_H s) (nub + nun) (nub + nun) (q1_H s) (nub + nun) (nub + nun) in
    let H := GEAD nun nun f1 (RSQ nn) 0 0 H nub nub in
    let H := if diag nn then H else GEMM_NN (nuf + nx0) nun nxn f1 (G (nn - 1)%nat) 0 0 (RSQ nn) nun 0 f1 H (nub + nun) nub H (nub + nun) nub in
    mkqst1 RSQ H GQ tmp nub (nuf + nun).
Definition lhs_alg1 (diag : nat -> bool) (qp : oqp F) (G : nat -> mat) (M nu2 : nat) (s : qst1) : qst1 :=
  let H := GESE (nu2 + dnx (q_dim qp) 0) (nu2 + dnx (q_dim qp) 0) f0 (q1_H s) 0 0 in
  loop (M + 1) (lhs1_stage diag qp G) (mkqst1 (q1_RSQ s) H (q1_GQ s) (q1_tmp s) (q1_nub s) (q1_nuf s)).
(** the whole function: RSQrq of the QP object, workspace, RSQrq2 *)
Definition cond_rsq (alg0 sq : bool) (diag : nat -> bool) (last : bool) (qp : oqp F) (w : cws F) (H2 : mat) : (nat -> mat) * cws F * mat :=
  let D := q_dim qp in let M := last_stage last (dN D) in let n0 := (dnu D 0 + dnx D 0)%nat in
  if Nat.eqb M 0 then (q_RSQ qp, w, GECP n0 n0 (q_RSQ qp 0%nat) 0 0 H2 0 0)
  else
    let nu2 := nsum (M + 1) (dnu D) in
    if alg0 then
      let s := lhs_alg0 sq qp (cw_Gamma w) M (mkqst (cw_L w) (cw_Lx w) (cw_dA w) (cw_AL w) H2 nu2 0) in
      (q_RSQ qp, mkcws (cw_Gamma w) (cw_Gammab w) (qs_L s) (qs_Lx s) (qs_dA s) (qs_AL s) (cw_GQ w) (cw_nux w) (cw_nbg w), qs_H s)
    else
      let s := lhs_alg1 diag qp (cw_Gamma w) M nu2 (mkqst1 (q_RSQ qp) H2 (cw_GQ w) (cw_nux w) nu2 0) in
      (q1_RSQ s, mkcws (cw_Gamma w) (cw_Gammab w) (cw_L w) (cw_Lx w) (cw_dA w) (cw_AL w) (q1_GQ s) (q1_tmp s) (cw_nbg w), q1_H s).

(** COND_RQ, lines 650-795.  State of cond_alg 0: L (its upper triangles are filled), l, tmp_nuxM, rqz2, nuf *)
Record gst := mkgst { gs_L : nat -> mat; gs_l : nat -> vec; gs_tmp : vec; gs_g : vec; gs_nuf : nat }.
(** gradient of the inputs of stage n, lines 706-708, 725-727 *)
Definition rq_emit (qp : oqp F) (Gb : nat -> vec) (n : nat) (s : gst) : gst :=
  let D := q_dim qp in let nun := dnu D n in
  mkgst (gs_L s) (gs_l s) (gs_tmp s) (GEMV_T (dnx D n) nun f1 (gs_L s n) nun 0 (Gb (n - 1)%nat) 0 f1 (gs_l s n) 0 (gs_g s) (gs_nuf s)) (gs_nuf s + nun).
(** lines 719-723, 737-741 *)
Definition rq_prop (qp : oqp F) (n : nat) (s : gst) : gst :=
  let D := q_dim qp in let p := (n - 1)%nat in let nun := dnu D n in let nxn := dnx D n in
  let Ln := TRTR_L (nxn + nun) (gs_L s n) 0 0 (gs_L s n) 0 0 in
  let tmp := GEMV_N nxn nxn f1 Ln nun nun (q_b qp p) 0 f1 (gs_l s n) nun (gs_tmp s) 0 in
  let lp := GEMV_N (dnu D p + dnx D p) nxn f1 (q_BAbt qp p) 0 0 tmp 0 f1 (q_rqz qp p) 0 (gs_l s p) 0 in
  mkgst (upd (gs_L s) n Ln) (upd (gs_l s) p lp) tmp (gs_g s) (gs_nuf s).
Definition rq_emit0 (qp : oqp F) (s : gst) : gst :=
  mkgst (gs_L s) (gs_l s) (gs_tmp s) (VECCP (dnu (q_dim qp) 0 + dnx (q_dim qp) 0) (gs_l s 0%nat) 0 (gs_g s) (gs_nuf s)) (gs_nuf s).
Definition rq_alg0 (qp : oqp F) (Gb : nat -> vec) (M : nat) (s : gst) : gst :=
  let D := q_dim qp in
  let l := upd (gs_l s) M (VECCP (dnu D M + dnx D M) (q_rqz qp M) 0 (gs_l s M) 0) in
  let s := rq_emit qp Gb M (mkgst (gs_L s) l (gs_tmp s) (gs_g s) (gs_nuf s)) in
  loop M (fun nn s =>
    let s := rq_prop qp (M - nn) s in
    if Nat.eqb nn (M - 1) then rq_emit0 qp s else rq_emit qp Gb (M - nn - 1) s) s.
(** cond_alg 1, lines 746-790.  State: tmp_nuxM, rqz2, nub, nuf *)
Definition rq1_stage (diag : nat -> bool) (qp : oqp F) (G : nat -> mat) (Gb : nat -> vec) (nn : nat) (s : vec * vec * nat * nat) : vec * vec * nat * nat :=
  let D := q_dim qp in let nun := dnu D nn in let nxn := dnx D nn in let '(tmp, g, nub, nuf) := s in let nub := (nub - nun)%nat in
  if Nat.eqb nn 0 then (tmp, VECCP (nun + nxn) (q_rqz qp 0%nat) 0 g nub, nub, nuf + nun)%nat
  else
    let tmp :=
      if diag nn then let tmp := DIAEX nxn f1 (q_RSQ qp nn) nun nun tmp 0 in GEMV_DIAG nxn f1 tmp 0 (Gb (nn - 1)%nat) 0 f1 (q_rqz qp nn) nun tmp 0
      else SYMV_L nxn f1 (q_RSQ qp nn) nun nun (Gb (nn - 1)%nat) 0 f1 (q_rqz qp nn) nun tmp 0 in
    let g := GEMV_N (nuf + dnx D 0) nxn f1 (G (nn - 1)%nat) 0 0 tmp 0 f1 g (nub + nun) g (nub + nun) in
    let g := if diag nn then AXPY nun f1 (q_rqz qp nn) 0 g nub g nub else GEMV_T nxn nun f1 (q_RSQ qp nn) nun 0 (Gb (nn - 1)%nat) 0 f1 (q_rqz qp nn) 0 g nub in
    (tmp, g, nub, nuf + nun)%nat.
Definition rq_alg1 (diag : nat -> bool) (qp : oqp F) (G : nat -> mat) (Gb : nat -> vec) (M nu2 : nat) (tmp g : vec) : vec * vec :=
  let '(tmp, g, _, _) := loop (M + 1) (rq1_stage diag qp G Gb) (tmp, VECSE (nu2 + dnx (q_dim qp) 0) f0 g 0, nu2, 0%nat) in (tmp, g).
Definition cond_rq (alg0 : bool) (diag : nat -> bool) (last : bool) (qp : oqp F) (w : sws2) (g2 : vec) : sws2 * vec :=
  let D := q_dim qp in let M := last_stage last (dN D) in let c := sw_c w in
  if Nat.eqb M 0 then (w, VECCP (dnu D 0 + dnx D 0) (q_rqz qp 0%nat) 0 g2 0)
  else
    let nu2 := nsum (M + 1) (dnu D) in
    if alg0 then
      let s := rq_alg0 qp (cw_Gammab c) M (mkgst (cw_L c) (sw_l w) (cw_nux c) g2 0) in
      (mksw (mkcws (cw_Gamma c) (cw_Gammab c) (gs_L s) (cw_Lx c) (cw_dA c) (cw_AL c) (cw_GQ c) (gs_tmp s) (cw_nbg c)) (gs_l s), gs_g s)
    else
      let '(tmp, g) := rq_alg1 diag qp (cw_Gamma c) (cw_Gammab c) M nu2 (cw_nux c) g2 in
      (mksw (mkcws (cw_Gamma c) (cw_Gammab c) (cw_L c) (cw_Lx c) (cw_dA c) (cw_AL c) (cw_GQ c) tmp (cw_nbg c)) (sw_l w), g).

(** COND_DCT (lines 1157-1421) and COND_D (lines 1424-1811) *)
Record mst := mkmst { y_idxb : nat -> nat; y_idxs : nat -> Z; y_Ct : mat; y_Z : vec; y_ib : nat; y_ig : nat; y_is : nat }.
Record dst := mkdst { t_d : vec; t_mask : vec; t_gz : vec; t_tbg : vec; t_ib : nat; t_ig : nat; t_is : nat }.
Section Con.
Variables (qp : oqp F) (M : nat) (G : nat -> mat) (Gb : nat -> vec) (domask : bool).
Let D := q_dim qp.
Let nb2 := count_nbb qp M.
Let nbg := count_nbg qp M.
Let ng2 := (nbg + ngg_of qp M)%nat.
Let nu2 := nu2_of qp M.
Let ns2 := ns2_of qp M.
Let nx2 := dnx D 0.
(** a soft constraint takes the next slack: [is] counts the soft constraints in the order in which they are met (lines 1256-1263,
    1271-1278, 1302-1309, 1338-1345, 1387-1394); p = its position, j = its number in stage i *)
Definition dct_soft (i j p : nat) (s : mst) : mst :=
  let idx := q_idxs_rev qp i j in
  if Z.leb 0 idx then
    let is := y_is s in let k := Z.to_nat idx in
    mkmst (y_idxb s) (upd (y_idxs s) p (Z.of_nat is)) (y_Ct s) (upd (upd (y_Z s) is (q_Z qp i k)) (ns2 + is)%nat (q_Z qp i (dns D i + k)%nat)) (y_ib s) (y_ig s) (S is)
  else s.
(** lines 1250-1281 *)
Definition dct_bound (i nu_tmp idx_gammab : nat) (jj : nat) (s : mst) : mst :=
  let idxb0 := q_idxb qp i jj in
  if Nat.ltb idxb0 (dnu D i) then
    let ib := y_ib s in
    let s := dct_soft i jj ib (mkmst (upd (y_idxb s) ib (nu_tmp - dnu D i + idxb0)%nat) (y_idxs s) (y_Ct s) (y_Z s) ib (y_ig s) (y_is s)) in
    mkmst (y_idxb s) (y_idxs s) (y_Ct s) (y_Z s) (S ib) (y_ig s) (y_is s)
  else
    let ig := y_ig s in
    let s := dct_soft i jj (nb2 + ig) (mkmst (y_idxb s) (y_idxs s) (GECP idx_gammab 1 (G (i - 1)%nat) 0 (idxb0 - dnu D i) (y_Ct s) nu_tmp ig) (y_Z s) (y_ib s) ig (y_is s)) in
    mkmst (y_idxb s) (y_idxs s) (y_Ct s) (y_Z s) (y_ib s) (S ig) (y_is s).
(** lines 1236-1313 *)
Definition dct_bounds (s : mst) : mst :=
  let '(s, nu_tmp, _) := loop M (fun ii '(s, nu_tmp, idx_gammab) =>
      let i := (M - ii)%nat in let nu_tmp := (nu_tmp + dnu D i)%nat in
      (loop (dnb D i) (dct_bound i nu_tmp idx_gammab) s, nu_tmp, idx_gammab - dnu D (M - 1 - ii))%nat) (s, 0, dnx D 0 + nsum M (dnu D))%nat in
  let nu_tmp := (nu_tmp + dnu D 0)%nat in
  loop (dnb D 0) (fun jj s =>
    let ib := y_ib s in
    let s := dct_soft 0 jj ib (mkmst (upd (y_idxb s) ib (nu_tmp - dnu D 0 + q_idxb qp 0%nat jj)%nat) (y_idxs s) (y_Ct s) (y_Z s) ib (y_ig s) (y_is s)) in
    mkmst (y_idxb s) (y_idxs s) (y_Ct s) (y_Z s) (S ib) (y_ig s) (y_is s)) s.
(** lines 1322-1414; the counter ig is reused as loop index and not needed afterwards *)
Definition dct_gsoft (i ng_tmp : nat) (s : mst) : mst := loop (dng D i) (fun ig s => dct_soft i (dnb D i + ig) (nb2 + nbg + ng_tmp + ig) s) s.
Definition dct_gen_mid (i nu_tmp ng_tmp : nat) (s : mst) : mst :=
  let nu0 := dnu D i in let ng0 := dng D i in
  if Nat.ltb 0 ng0 then
    let s := dct_gsoft i ng_tmp s in
    let Ct := GECP nu0 ng0 (q_DCt qp i) 0 0 (y_Ct s) nu_tmp (nbg + ng_tmp) in
    let nu_tmp := (nu_tmp + nu0)%nat in
    let Ct := GEMM_NN (nu2 + dnx D 0 - nu_tmp) ng0 (dnx D i) f1 (G (i - 1)%nat) 0 0 (q_DCt qp i) nu0 0 f0 Ct nu_tmp (nbg + ng_tmp) Ct nu_tmp (nbg + ng_tmp) in
    mkmst (y_idxb s) (y_idxs s) Ct (y_Z s) (y_ib s) (y_ig s) (y_is s)
  else s.
Definition dct_gens (s : mst) : mst :=
  let '(s, nu_tmp, ng_tmp) := loop M (fun ii '(s, nu_tmp, ng_tmp) =>
      let i := (M - ii)%nat in (dct_gen_mid i nu_tmp ng_tmp s, nu_tmp + dnu D i, ng_tmp + dng D i)%nat) (s, 0, 0)%nat in
  if Nat.ltb 0 (dng D 0) then
    let s := dct_gsoft 0 ng_tmp s in
    mkmst (y_idxb s) (y_idxs s) (GECP (dnu D 0 + dnx D 0) (dng D 0) (q_DCt qp 0%nat) 0 0 (y_Ct s) nu_tmp (nbg + ng_tmp)) (y_Z s) (y_ib s) (y_ig s) (y_is s)
  else s.
Definition dct_main (s : mst) : mst :=
  dct_gens (dct_bounds (mkmst (y_idxb s) (y_idxs s) (GESE (nu2 + nx2) ng2 f0 (y_Ct s) 0 0) (y_Z s) 0 0 0)).

(** COND_D: the two entries of constraint j of stage i (lines 1566-1572, 1594-1602, 1647-1653) *)
Definition d_put (i j pl pu : nat) (tl tu : F -> F) (s : dst) : dst :=
  let ju := (dnb D i + dng D i + j)%nat in
  mkdst (upd (upd (t_d s) pl (tl (q_d qp i j))) pu (tu (q_d qp i ju)))
    (if domask then upd (upd (t_mask s) pl (q_mask qp i j)) pu (q_mask qp i ju) else t_mask s) (t_gz s) (t_tbg s) (t_ib s) (t_ig s) (t_is s).
(** lines 1574-1586, 1604-1616, 1655-1667, 1706-1718, 1771-1783 *)
Definition d_soft (i j : nat) (s : dst) : dst :=
  let idx := q_idxs_rev qp i j in
  if Z.leb 0 idx then
    let is := t_is s in let k := Z.to_nat idx in let o := (2 * nb2 + 2 * ng2)%nat in let oc := (2 * dnb D i + 2 * dng D i)%nat in let on := (dnu D i + dnx D i)%nat in
    mkdst (upd (upd (t_d s) (o + is)%nat (q_d qp i (oc + k)%nat)) (o + ns2 + is)%nat (q_d qp i (oc + dns D i + k)%nat))
      (if domask then upd (upd (t_mask s) (o + is)%nat (q_mask qp i (oc + k)%nat)) (o + ns2 + is)%nat (q_mask qp i (oc + dns D i + k)%nat) else t_mask s)
      (upd (upd (t_gz s) (nu2 + nx2 + is)%nat (q_rqz qp i (on + k)%nat)) (nu2 + nx2 + ns2 + is)%nat (q_rqz qp i (on + dns D i + k)%nat))
      (t_tbg s) (t_ib s) (t_ig s) (S is)
  else s.
(** lines 1561-1620 *)
Definition d_bound (i : nat) (jj : nat) (s : dst) : dst :=
  let idxb0 := q_idxb qp i jj in
  if Nat.ltb idxb0 (dnu D i) then
    let ib := t_ib s in
    let s := d_soft i jj (d_put i jj ib (nb2 + ng2 + ib) (fun v => v) (fun v => v) s) in
    mkdst (t_d s) (t_mask s) (t_gz s) (t_tbg s) (S ib) (t_ig s) (t_is s)
  else
    let ig := t_ig s in let tmp := Gb (i - 1)%nat (idxb0 - dnu D i)%nat in
    let s := d_soft i jj (d_put i jj (nb2 + ig) (2 * nb2 + ng2 + ig) (fun v => v - tmp) (fun v => v + tmp) s) in
    mkdst (t_d s) (t_mask s) (t_gz s) (t_tbg s) (t_ib s) (S ig) (t_is s).
(** lines 1536-1671 *)
Definition d_bounds (s : dst) : dst :=
  let s := loop M (fun ii s => let i := (M - ii)%nat in loop (dnb D i) (d_bound i) s) s in
  loop (dnb D 0) (fun jj s =>
    let ib := t_ib s in
    let s := d_soft 0 jj (d_put 0 jj ib (nb2 + ng2 + ib) (fun v => v) (fun v => v) s) in
    mkdst (t_d s) (t_mask s) (t_gz s) (t_tbg s) (S ib) (t_ig s) (t_is s)) s.
(** lines 1700-1731, 1765-1792 *)
Definition d_gen_copy (i ng_tmp : nat) (s : dst) : dst :=
  let nb0 := dnb D i in let ng0 := dng D i in let o := (nb2 + nbg + ng_tmp)%nat in let ou := (2 * nb2 + ng2 + nbg + ng_tmp)%nat in
  let s := loop ng0 (fun ig s => d_soft i (nb0 + ig) s) s in
  let cp (src : nat -> nat -> F) (dst : vec) := VECCP ng0 (src i) (2 * nb0 + ng0) (VECCP ng0 (src i) nb0 dst o) ou in
  mkdst (cp (q_d qp) (t_d s)) (if domask then cp (q_mask qp) (t_mask s) else t_mask s) (t_gz s) (t_tbg s) (t_ib s) (t_ig s) (t_is s).
Definition d_gen_mid (i ng_tmp : nat) (s : dst) : dst :=
  let ng0 := dng D i in let o := (nb2 + nbg + ng_tmp)%nat in let ou := (2 * nb2 + ng2 + nbg + ng_tmp)%nat in
  if Nat.ltb 0 ng0 then
    let s := d_gen_copy i ng_tmp s in
    let tbg := GEMV_T (dnx D i) ng0 f1 (q_DCt qp i) (dnu D i) 0 (Gb (i - 1)%nat) 0 f0 (t_tbg s) 0 (t_tbg s) 0 in
    let d := AXPY ng0 (- f1) tbg 0 (t_d s) o (t_d s) o in
    let d := AXPY ng0 f1 tbg 0 d ou d ou in
    mkdst d (t_mask s) (t_gz s) tbg (t_ib s) (t_ig s) (t_is s)
  else s.
Definition d_gens (s : dst) : dst :=
  let '(s, ng_tmp) := loop M (fun ii '(s, ng_tmp) => let i := (M - ii)%nat in (d_gen_mid i ng_tmp s, ng_tmp + dng D i)%nat) (s, 0%nat) in
  if Nat.ltb 0 (dng D 0) then d_gen_copy 0 ng_tmp s else s.
Definition d_main (s : dst) : dst := d_gens (d_bounds (mkdst (t_d s) (t_mask s) (t_gz s) (t_tbg s) 0 0 0)).
End Con.
(** early return, lines 1182-1189: N = 0 and cond_last_stage = 1 *)
Definition dct_one (qp : oqp F) (s : mst) : mst :=
  let D := q_dim qp in
  mkmst (loop (dnb D 0) (fun ii x => upd x ii (q_idxb qp 0%nat ii)) (y_idxb s)) (loop (dnb D 0 + dng D 0) (fun ii x => upd x ii (q_idxs_rev qp 0%nat ii)) (y_idxs s))
    (GECP (dnu D 0 + dnx D 0) (dng D 0) (q_DCt qp 0%nat) 0 0 (y_Ct s) 0 0) (VECCP (2 * dns D 0) (q_Z qp 0%nat) 0 (y_Z s) 0) (y_ib s) (y_ig s) (y_is s).
Definition cond_dct (last : bool) (qp : oqp F) (G : nat -> mat) (s : mst) : mst :=
  let M := last_stage last (dN (q_dim qp)) in
  if andb (Nat.eqb M 0) last then dct_one qp s else dct_main qp M G s.
(** early return, lines 1453-1461 *)
Definition d_one (domask : bool) (qp : oqp F) (s : dst) : dst :=
  let D := q_dim qp in let nc := (2 * dnb D 0 + 2 * dng D 0 + 2 * dns D 0)%nat in let n0 := (dnu D 0 + dnx D 0)%nat in
  mkdst (VECCP nc (q_d qp 0%nat) 0 (t_d s) 0) (if domask then VECCP nc (q_mask qp 0%nat) 0 (t_mask s) 0 else t_mask s) (VECCP (2 * dns D 0) (q_rqz qp 0%nat) n0 (t_gz s) n0)
    (t_tbg s) (t_ib s) (t_ig s) (t_is s).
Definition cond_d (domask last : bool) (qp : oqp F) (Gb : nat -> vec) (s : dst) : dst :=
  let M := last_stage last (dN (q_dim qp)) in
  if andb (Nat.eqb M 0) last then d_one domask qp s else d_main qp M Gb domask s.

(** COND_QP_COND_LHS, x_cond.c lines 460-471: RSQrq of the QP object, the workspace, the dense QP *)
Definition cond_lhs (alg0 sq : bool) (diag : nat -> bool) (qp : oqp F) (q2 : dqp F) (w : sws2) : dqp F * sws2 * (nat -> mat) :=
  let c := sw_c w in
  let '(G, _) := cond_bat true qp (cw_Gamma c) (fun _ _ => f0) in
  let '(RSQ, c, H) := cond_rsq alg0 sq diag true qp (mkcws G (cw_Gammab c) (cw_L c) (cw_Lx c) (cw_dA c) (cw_AL c) (cw_GQ c) (cw_nux c) (cw_nbg c)) (d_H q2) in
  let s := cond_dct true qp G (mkmst (d_idxb q2) (d_idxs_rev q2) (d_Ct q2) (d_Z q2) 0 0 0) in
  (mkdqp (d_nv q2) (d_ne q2) (d_nb q2) (d_ng q2) (d_ns q2) H (d_A q2) (y_Ct s) (d_gz q2) (d_b q2) (d_d q2) (d_mask q2) (d_m q2) (y_Z s) (y_idxb s) (y_idxs s), mksw c (sw_l w), RSQ).
(** the vectors: COND_B, COND_RQ, COND_D as called by COND_QP_COND_RHS (x_cond.c lines 475-487, with the mask) and by
    COND_QP_COND_SEED (lines 491-519, without) *)
Definition cond_vecs (domask alg0 : bool) (diag : nat -> bool) (qp : oqp F) (g d mask : vec) (w : sws2) : vec * vec * vec * sws2 :=
  let c := sw_c w in
  let '(Gb, _) := cond_b true qp (cw_Gammab c) (fun _ => f0) in
  let '(w, g) := cond_rq alg0 diag true qp (mksw (mkcws (cw_Gamma c) Gb (cw_L c) (cw_Lx c) (cw_dA c) (cw_AL c) (cw_GQ c) (cw_nux c) (cw_nbg c)) (sw_l w)) g in
  let c := sw_c w in
  let s := cond_d domask true qp Gb (mkdst d mask g (cw_nbg c) 0 0 0) in
  (t_gz s, t_d s, t_mask s, mksw (mkcws (cw_Gamma c) (cw_Gammab c) (cw_L c) (cw_Lx c) (cw_dA c) (cw_AL c) (cw_GQ c) (cw_nux c) (t_tbg s)) (sw_l w)).
Definition cond_rhs (alg0 : bool) (diag : nat -> bool) (qp : oqp F) (q2 : dqp F) (w : sws2) : dqp F * sws2 :=
  let '(g, d, mask, w) := cond_vecs true alg0 diag qp (d_gz q2) (d_d q2) (d_mask q2) w in
  (mkdqp (d_nv q2) (d_ne q2) (d_nb q2) (d_ng q2) (d_ns q2) (d_H q2) (d_A q2) (d_Ct q2) g (d_b q2) d mask (d_m q2) (d_Z q2) (d_idxb q2) (d_idxs_rev q2), w).
(** the dense seed is the triple seed_g, seed_d (seed_b is empty, seed_m is not written) *)
Definition cond_seed (alg0 : bool) (diag : nat -> bool) (qp : oqp F) (sd : seed F) (g d : vec) (w : sws2) : vec * vec * sws2 :=
  let '(g, d, _, w) := cond_vecs false alg0 diag (seed_qp qp sd) g d (fun _ => f0) w in (g, d, w).
End Csplit.
Arguments sws2 F : clear implicits.
