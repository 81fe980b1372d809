(** CondModel.v -- full condensing of an OCP QP into a dense QP, and expansion of the dense solution (cond/x_cond_aux.c, cond/x_cond.c).
    [last] = cond_arg->cond_last_stage: true for full condensing and for the last block of partial condensing; with false the cost and
    constraints of stage N are left out and the condensed dynamics of the block are returned. *)
From Coq Require Import ZArith Bool Arith.
From Verif Require Import Base ArithF Blas Blas2 OcpModel KktModel DenModel.

Section Cond.
Context {F : Type} {AF : Arith F}.
Local Open Scope F_scope.
Notation vec := (nat -> F).
Notation mat := (nat -> nat -> F).

(** A(ai, aj..) += alpha*x ; x = alpha * diagonal (BLASFEO ROWAD, DIAEX) *)
Definition ROWAD (k : nat) (alpha : F) (x : vec) (xi : nat) (A : mat) (ai aj : nat) : mat :=
  mblk A ai aj 1 k (fun _ j => A ai (aj + j)%nat + alpha * x (xi + j)%nat).
Definition DIAEX (k : nat) (alpha : F) (A : mat) (ai aj : nat) (x : vec) (xi : nat) : vec := vset x xi k (fun i => alpha * A (ai + i)%nat (aj + i)%nat).

(** The condensing workspace (struct COND_QP_WS, include/hpipm_d_cond.h) *)
Record cws := mkcws { cw_Gamma : nat -> mat; cw_Gammab : nat -> vec; cw_L : nat -> mat; cw_Lx : mat; cw_dA : vec; cw_AL : mat; cw_GQ : mat; cw_nux : vec; cw_nbg : vec }.

(** COND_BABT, x_cond_aux.c lines 36-99, for N>=1: Gamma and Gammab; lines 54-63 and the loop 65-82 *)
Definition babt_first (qp : oqp F) (G : nat -> mat) (Gb : nat -> vec) : (nat -> mat) * (nat -> vec) :=
  let D := q_dim qp in
  let G0 := GECP (dnu D 0 + dnx D 0) (dnx D 1) (q_BAbt qp 0%nat) 0 0 (G 0%nat) 0 0 in
  let G0 := ROWIN (dnx D 1) f1 (q_b qp 0%nat) 0 G0 (dnu D 0 + dnx D 0) 0 in
  (upd G 0 G0, upd Gb 0 (VECCP (dnx D 1) (q_b qp 0%nat) 0 (Gb 0%nat) 0)).
Definition babt_mid (qp : oqp F) (ii : nat) (s : (nat -> mat) * (nat -> vec) * nat) : (nat -> mat) * (nat -> vec) * nat :=
  let D := q_dim qp in let '(G, Gb, nu_tmp) := s in
  let nx1 := dnx D (ii + 1) in
  let M := GEMM_NN (nu_tmp + dnx D 0 + 1) nx1 (dnx D ii) f1 (G (ii - 1)%nat) 0 0 (q_BAbt qp ii) (dnu D ii) 0 f0 (G ii) (dnu D ii) 0 (G ii) (dnu D ii) 0 in
  let M := GECP (dnu D ii) nx1 (q_BAbt qp ii) 0 0 M 0 0 in
  let nu_tmp := (nu_tmp + dnu D ii)%nat in
  let M := ROWAD nx1 f1 (q_b qp ii) 0 M (nu_tmp + dnx D 0) 0 in
  (upd G ii M, upd Gb ii (ROWEX nx1 f1 M (nu_tmp + dnx D 0) 0 (Gb ii) 0), nu_tmp).
Definition babt_loop (qp : oqp F) (w : cws) : (nat -> mat) * (nat -> vec) * nat :=
  let D := q_dim qp in
  let '(G, Gb) := babt_first qp (cw_Gamma w) (cw_Gammab w) in
  loop (dN D - 1) (fun k s => babt_mid qp (k + 1) s) (G, Gb, dnu D 0).
Definition cond_babt (last : bool) (qp : oqp F) (w : cws) (BAbt2 : mat) (b2 : vec) : cws * mat * vec :=
  let D := q_dim qp in let N := dN D in
  if andb (Nat.eqb N 0) last then (w, BAbt2, b2)
  else
    let '(G, Gb, nu_tmp) := babt_loop qp w in
    let w := mkcws G Gb (cw_L w) (cw_Lx w) (cw_dA w) (cw_AL w) (cw_GQ w) (cw_nux w) (cw_nbg w) in
    if last then (w, BAbt2, b2)
    else (w, GECP (nu_tmp + dnx D 0) (dnx D N) (G (N - 1)%nat) 0 0 BAbt2 0 0, ROWEX (dnx D N) f1 (G (N - 1)%nat) (nu_tmp + dnx D 0) 0 b2 0).

(** COND_RSQRQ, lines 208-420.  The state of the classical N^2 nx^3 algorithm (cond_alg 0): BAbt and RSQrq of the QP object (their last
    rows are overwritten), L, Lx with its inverse diagonal dA, AL, RSQrq2, rqz2, the partial sums nub and nuf. *)
Record rst := mkrst { rs_BA : nat -> mat; rs_RSQ : nat -> mat; rs_L : nat -> mat; rs_Lx : mat; rs_dA : vec; rs_AL : mat; rs_H : mat; rs_nub : nat; rs_nuf : nat }.
(** D, M, m blocks of stage n (lines 265-276 for n = N, 344-353 for the middle stages) *)
Definition rsq_emit (qp : oqp F) (G : nat -> mat) (nu2 : nat) (n : nat) (s : rst) : rst :=
  let D := q_dim qp in let nun := dnu D n in let nxn := dnx D n in let L := rs_L s n in let nuf := rs_nuf s in
  let nub := (rs_nub s - nun)%nat in
  let H := TRCP_L nun L 0 0 (rs_H s) nuf nuf in
  let H := GEMM_NN (nub + dnx D 0 + 1) nun nxn f1 (G (n - 1)%nat) 0 0 L nun 0 f0 H (nuf + nun) nuf H (nuf + nun) nuf in
  let H := GEAD 1 nun f1 L (nun + nxn) 0 H (nu2 + dnx D 0) nuf in
  mkrst (rs_BA s) (rs_RSQ s) (rs_L s) (rs_Lx s) (rs_dA s) (rs_AL s) H nub (nuf + nun).
(** propagation of the cost from stage n to stage n-1, lines 281-328; n = N-nn *)
Definition rsq_prop_sqrt (qp : oqp F) (n : nat) (Lx : mat) (dA : vec) (s : rst) : rst :=
  let D := q_dim qp in let p := (n - 1)%nat in let np := (dnu D p + dnx D p)%nat in let nxn := dnx D n in
  let BA := ROWIN nxn f1 (q_b qp p) 0 (rs_BA s p) np 0 in
  let AL := TRMM_RLNN (np + 1) nxn f1 Lx 0 0 BA 0 0 (rs_AL s) 0 0 in
  let AL := GEAD 1 nxn f1 Lx nxn 0 AL np 0 in
  let M := ROWIN np f1 (q_rqz qp p) 0 (rs_RSQ s p) np 0 in
  let Lp := SYRK_LN_MN (np + 1) np nxn f1 AL 0 0 AL 0 0 f1 M 0 0 (rs_L s p) 0 0 in
  mkrst (upd (rs_BA s) p BA) (upd (rs_RSQ s) p M) (upd (rs_L s) p Lp) Lx dA AL (rs_H s) (rs_nub s) (rs_nuf s).
Definition rsq_prop_cls (qp : oqp F) (n : nat) (s : rst) : rst :=
  let D := q_dim qp in let p := (n - 1)%nat in let np := (dnu D p + dnx D p)%nat in let nxn := dnx D n in let nun := dnu D n in
  let Lx := TRCP_L nxn (rs_L s n) nun nun (rs_Lx s) 0 0 in
  let Lx := TRTR_L nxn Lx 0 0 Lx 0 0 in
  let BA := ROWIN nxn f1 (q_b qp p) 0 (rs_BA s p) np 0 in
  let AL := GEMM_NT (np + 1) nxn nxn f1 BA 0 0 Lx 0 0 f0 (rs_AL s) 0 0 (rs_AL s) 0 0 in
  let AL := GEAD 1 nxn f1 (rs_L s n) (nun + nxn) nun AL np 0 in
  let M := ROWIN np f1 (q_rqz qp p) 0 (rs_RSQ s p) np 0 in
  let Lp := SYRK_LN_MN (np + 1) np nxn f1 AL 0 0 BA 0 0 f1 M 0 0 (rs_L s p) 0 0 in
  mkrst (upd (rs_BA s) p BA) (upd (rs_RSQ s) p M) (upd (rs_L s) p Lp) Lx (rs_dA s) AL (rs_H s) (rs_nub s) (rs_nuf s).
Definition rsq_prop (sq : bool) (qp : oqp F) (n : nat) (s : rst) : rst :=
  let D := q_dim qp in
  if sq then
    let '(Lx, dA) := POTRF_L_MN (dnx D n + 1) (dnx D n) (rs_L s n) (dnu D n) (dnu D n) (rs_Lx s) 0 0 (rs_dA s) in
    if singular (dnx D n) dA then rsq_prop_cls qp n (mkrst (rs_BA s) (rs_RSQ s) (rs_L s) Lx dA (rs_AL s) (rs_H s) (rs_nub s) (rs_nuf s))
    else rsq_prop_sqrt qp n Lx dA s
  else rsq_prop_cls qp n s.
(** first stage, lines 331-340 (without the last extraction) *)
Definition rsq_emit0 (qp : oqp F) (s : rst) : rst :=
  let n0 := (dnu (q_dim qp) 0 + dnx (q_dim qp) 0)%nat in let nuf := rs_nuf s in
  let H := TRCP_L n0 (rs_L s 0%nat) 0 0 (rs_H s) nuf nuf in
  let H := GECP 1 n0 (rs_L s 0%nat) n0 0 H (nuf + n0) nuf in
  mkrst (rs_BA s) (rs_RSQ s) (rs_L s) (rs_Lx s) (rs_dA s) (rs_AL s) H (rs_nub s) nuf.
(** cond_alg 0, M = index of the last stage with cost, M >= 1; lines 256-356 *)
Definition rsq_alg0 (sq : bool) (qp : oqp F) (G : nat -> mat) (M nu2 : nat) (s : rst) : rst :=
  let D := q_dim qp in let nM := (dnu D M + dnx D M)%nat in
  let L := GECP nM nM (rs_RSQ s M) 0 0 (rs_L s M) 0 0 in
  let L := ROWIN nM f1 (q_rqz qp M) 0 L nM 0 in
  let s := mkrst (rs_BA s) (rs_RSQ s) (upd (rs_L s) M L) (rs_Lx s) (rs_dA s) (rs_AL s) (rs_H s) nu2 0 in
  let s := rsq_emit qp G nu2 M s in
  loop M (fun nn s =>
    let s := rsq_prop sq qp (M - nn) s in
    if Nat.eqb nn (M - 1) then rsq_emit0 qp s else rsq_emit qp G nu2 (M - nn - 1) s) s.
(** cond_alg 1 (N^3 nx^2), lines 358-415; [diag n] = (diag_H_flag[n] != 0).  State: RSQrq, RSQrq2, rqz2, GammaQ, tmp_nuxM, nub, nuf *)
Record rst1 := mkrst1 { r1_RSQ : nat -> mat; r1_H : mat; r1_g : vec; r1_GQ : mat; r1_tmp : vec; r1_nub : nat; r1_nuf : nat }.
Definition rsq1_stage (diag : nat -> bool) (qp : oqp F) (G : nat -> mat) (nu2 : nat) (nn : nat) (s : rst1) : rst1 :=
  let D := q_dim qp in let nun := dnu D nn in let nxn := dnx D nn in let nx0 := dnx D 0 in
  let nub := (r1_nub s - nun)%nat in let nuf := r1_nuf s in
  if Nat.eqb nn 0 then
    let H := TRCP_L (nun + nxn) (r1_RSQ s 0%nat) 0 0 (r1_H s) nub nub in
    let H := ROWAD (nun + nxn) f1 (q_rqz qp 0%nat) 0 H (nu2 + nx0) nub in
    mkrst1 (r1_RSQ s) H (r1_g s) (r1_GQ s) (r1_tmp s) nub (nuf + nun)
  else
    let '(RSQ, tmp, GQ) :=
      if diag nn then
        let tmp := DIAEX nxn f1 (r1_RSQ s nn) nun nun (r1_tmp s) 0 in
        (r1_RSQ s, tmp, GEMM_ND (nuf + nx0 + 1) nxn f1 (G (nn - 1)%nat) 0 0 tmp 0 f0 (r1_GQ s) 0 0 (r1_GQ s) 0 0)
      else
        let Rn := TRTR_L (nun + nxn) (r1_RSQ s nn) 0 0 (r1_RSQ s nn) 0 0 in
        (upd (r1_RSQ s) nn Rn, r1_tmp s, GEMM_NN (nuf + nx0 + 1) nxn nxn f1 (G (nn - 1)%nat) 0 0 Rn nun nun f0 (r1_GQ s) 0 0 (r1_GQ s) 0 0) in
    let GQ := ROWAD nxn f1 (q_rqz qp nn) nun GQ (nuf + nx0) 0 in
    let H := SYRK_LN_MN (nuf + nx0 + 1) (nuf + nx0) nxn f1 GQ 0 0 (G (nn - 1)%nat) 0 0 f1 (r1_H s) (nub + nun) (nub + nun) (r1_H s) (nub + nun) (nub + nun) in
    let H := GEAD nun nun f1 (RSQ nn) 0 0 H nub nub in
    let H := if diag nn then H else GEMM_NN (nuf + nx0 + 1) nun nxn f1 (G (nn - 1)%nat) 0 0 (RSQ nn) nun 0 f1 H (nub + nun) nub H (nub + nun) nub in
    let H := ROWAD nun f1 (q_rqz qp nn) 0 H (nu2 + nx0) nub in
    let g := ROWEX (nuf + nx0) f1 H (nu2 + nx0) (nub + nun) (r1_g s) 0 in
    mkrst1 RSQ H g GQ tmp nub (nuf + nun).
Definition rsq_alg1 (diag : nat -> bool) (qp : oqp F) (G : nat -> mat) (M nu2 : nat) (s : rst1) : rst1 :=
  let H := GESE (nu2 + dnx (q_dim qp) 0 + 1) (nu2 + dnx (q_dim qp) 0) f0 (r1_H s) 0 0 in
  loop (M + 1) (rsq1_stage diag qp G nu2) (mkrst1 (r1_RSQ s) H (r1_g s) (r1_GQ s) (r1_tmp s) nu2 0).
(** number of the last stage whose cost and constraints are condensed, lines 211-213 *)
Definition last_stage (last : bool) (N : nat) : nat := if last then N else (N - 1)%nat.
(** The data of the QP object changed by the call: BAbt, RSQrq (last rows; upper triangles in cond_alg 1). *)
Definition cond_rsqrq (alg0 sq : bool) (diag : nat -> bool) (last : bool) (qp : oqp F) (w : cws) (H2 : mat) (g2 : vec) : (nat -> mat) * (nat -> mat) * cws * mat * vec :=
  let D := q_dim qp in let M := last_stage last (dN D) in let n0 := (dnu D 0 + dnx D 0)%nat in
  if Nat.eqb M 0 then (q_BAbt qp, q_RSQ qp, w, GECP n0 n0 (q_RSQ qp 0%nat) 0 0 H2 0 0, VECCP n0 (q_rqz qp 0%nat) 0 g2 0)
  else
    let nu2 := nsum (M + 1) (dnu D) in
    if alg0 then
      let s := rsq_alg0 sq qp (cw_Gamma w) M nu2 (mkrst (q_BAbt qp) (q_RSQ qp) (cw_L w) (cw_Lx w) (cw_dA w) (cw_AL w) H2 nu2 0) in
      (rs_BA s, rs_RSQ s, mkcws (cw_Gamma w) (cw_Gammab w) (rs_L s) (rs_Lx s) (rs_dA s) (rs_AL s) (cw_GQ w) (cw_nux w) (cw_nbg w),
       rs_H s, ROWEX (nu2 + dnx D 0) f1 (rs_H s) (nu2 + dnx D 0) 0 g2 0)
    else
      let s := rsq_alg1 diag qp (cw_Gamma w) M nu2 (mkrst1 (q_RSQ qp) H2 g2 (cw_GQ w) (cw_nux w) nu2 0) in
      (q_BAbt qp, r1_RSQ s, mkcws (cw_Gamma w) (cw_Gammab w) (cw_L w) (cw_Lx w) (cw_dA w) (cw_AL w) (r1_GQ s) (r1_tmp s) (cw_nbg w), r1_H s, r1_g s).

(** COND_DCTD, lines 798-1153.  Constraint data of the dense QP being filled and the counters ib, ig. *)
Record dcs := mkdcs { x_d : vec; x_mask : vec; x_m : vec; x_idxb : nat -> nat; x_idxs : nat -> Z; x_Ct : mat; x_ib : nat; x_ig : nat }.
Section Dctd.
Variables (qp : oqp F) (M : nat) (G : nat -> mat) (Gb : nat -> vec).
Let D := q_dim qp.
(** problem size, lines 868-890 *)
Definition is_input (i j : nat) : bool := Nat.ltb (q_idxb qp i j) (dnu D i).
Definition count_nbb : nat := loop M (fun k s => loop (dnb D (k + 1)) (fun jj s => if is_input (k + 1) jj then S s else s) s) (dnb D 0).
Definition count_nbg : nat := loop M (fun k s => loop (dnb D (k + 1)) (fun jj s => if is_input (k + 1) jj then s else S s) s) 0%nat.
Definition nu2_of : nat := nsum (M + 1) (dnu D).
Definition ns2_of : nat := nsum (M + 1) (dns D).
Definition ngg_of : nat := nsum (M + 1) (dng D).
Let nb2 := count_nbb.
Let nbg := count_nbg.
Let ng2 := (nbg + ngg_of)%nat.
Let nu2 := nu2_of.
Let ns2 := ns2_of.
Let nx2 := dnx D 0.
(** write the lower and upper entries of constraint j of stage i at positions pl, pu of d, d_mask, m; [tmp] shifts the bounds *)
Definition put_con (i j pl pu : nat) (tl tu : F -> F) (s : dcs) : dcs :=
  let ju := (dnb D i + dng D i + j)%nat in
  mkdcs (upd (upd (x_d s) pl (tl (q_d qp i j))) pu (tu (q_d qp i ju)))
    (upd (upd (x_mask s) pl (q_mask qp i j)) pu (q_mask qp i ju)) (upd (upd (x_m s) pl (q_m qp i j)) pu (q_m qp i ju))
    (x_idxb s) (x_idxs s) (x_Ct s) (x_ib s) (x_ig s).
Definition put_idxs (p is : nat) (idx : Z) (s : dcs) : dcs :=
  if Z.leb 0 idx then mkdcs (x_d s) (x_mask s) (x_m s) (x_idxb s) (upd (x_idxs s) p (Z.of_nat is + idx)%Z) (x_Ct s) (x_ib s) (x_ig s) else s.
(** one bound, lines 955-996; the stage's nu_tmp (after the increment), is, idx_gammab *)
Definition dctd_bound (i nu_tmp is idx_gammab : nat) (jj : nat) (s : dcs) : dcs :=
  let idxb0 := q_idxb qp i jj in
  if Nat.ltb idxb0 (dnu D i) then
    let ib := x_ib s in
    let s := put_con i jj ib (nb2 + ng2 + ib) (fun v => v) (fun v => v) s in
    let s := mkdcs (x_d s) (x_mask s) (x_m s) (upd (x_idxb s) ib (nu_tmp - dnu D i + idxb0)%nat) (x_idxs s) (x_Ct s) ib (x_ig s) in
    let s := put_idxs ib is (q_idxs_rev qp i jj) s in
    mkdcs (x_d s) (x_mask s) (x_m s) (x_idxb s) (x_idxs s) (x_Ct s) (S ib) (x_ig s)
  else
    let ig := x_ig s in let idx_g := (idxb0 - dnu D i)%nat in
    let tmp := Gb (i - 1)%nat idx_g in
    let s := put_con i jj (nb2 + ig) (2 * nb2 + ng2 + ig) (fun v => v - tmp) (fun v => v + tmp) s in
    let s := mkdcs (x_d s) (x_mask s) (x_m s) (x_idxb s) (x_idxs s) (GECP idx_gammab 1 (G (i - 1)%nat) 0 idx_g (x_Ct s) nu_tmp ig) (x_ib s) ig in
    let s := put_idxs (nb2 + ig) is (q_idxs_rev qp i jj) s in
    mkdcs (x_d s) (x_mask s) (x_m s) (x_idxb s) (x_idxs s) (x_Ct s) (x_ib s) (S ig).
(** the middle stages, lines 939-999, and the initial stage, lines 1001-1031 *)
Definition dctd_bounds (s : dcs) : dcs :=
  let '(s, nu_tmp, is, _) := loop M (fun ii '(s, nu_tmp, is, idx_gammab) =>
      let i := (M - ii)%nat in let nu_tmp := (nu_tmp + dnu D i)%nat in
      let s := loop (dnb D i) (dctd_bound i nu_tmp is idx_gammab) s in
      (s, nu_tmp, is + dns D i, idx_gammab - dnu D (M - 1 - ii))%nat) (s, 0, 0, dnx D 0 + nsum M (dnu D))%nat in
  let nu_tmp := (nu_tmp + dnu D 0)%nat in
  loop (dnb D 0) (fun jj s =>
    let ib := x_ib s in
    let s := put_con 0 jj ib (nb2 + ng2 + ib) (fun v => v) (fun v => v) s in
    let s := mkdcs (x_d s) (x_mask s) (x_m s) (upd (x_idxb s) ib (nu_tmp - dnu D 0 + q_idxb qp 0%nat jj)%nat) (x_idxs s) (x_Ct s) ib (x_ig s) in
    let s := put_idxs ib is (q_idxs_rev qp 0%nat jj) s in
    mkdcs (x_d s) (x_mask s) (x_m s) (x_idxb s) (x_idxs s) (x_Ct s) (S ib) (x_ig s)) s.
(** general constraints of one stage: soft indices, then the copies of d, d_mask, m (lines 1055-1076, 1105-1122) *)
Definition dctd_gen_copy (i ng_tmp is : nat) (s : dcs) : dcs :=
  let nb0 := dnb D i in let ng0 := dng D i in let o := (nb2 + nbg + ng_tmp)%nat in let ou := (2 * nb2 + ng2 + nbg + ng_tmp)%nat in
  let s := loop ng0 (fun ig s => put_idxs (o + ig) is (q_idxs_rev qp i (nb0 + ig)%nat) s) s in
  let cp (src : nat -> nat -> F) (dst : vec) := VECCP ng0 (src i) (2 * nb0 + ng0) (VECCP ng0 (src i) nb0 dst o) ou in
  mkdcs (cp (q_d qp) (x_d s)) (cp (q_mask qp) (x_mask s)) (cp (q_m qp) (x_m s)) (x_idxb s) (x_idxs s) (x_Ct s) (x_ib s) (x_ig s).
(** lines 1039-1094 *)
Definition dctd_gen_mid (i nu_tmp ng_tmp is : nat) (st : dcs * vec) : dcs * vec :=
  let '(s, tbg) := st in
  let nu0 := dnu D i in let ng0 := dng D i in let o := (nb2 + nbg + ng_tmp)%nat in let ou := (2 * nb2 + ng2 + nbg + ng_tmp)%nat in
  if Nat.ltb 0 ng0 then
    let s := dctd_gen_copy i ng_tmp is s in
    let Ct := GECP nu0 ng0 (q_DCt qp i) 0 0 (x_Ct s) nu_tmp (nbg + ng_tmp) in
    let nu_tmp := (nu_tmp + nu0)%nat in
    let Ct := GEMM_NN (nu2 + dnx D 0 - nu_tmp) ng0 (dnx D i) f1 (G (i - 1)%nat) 0 0 (q_DCt qp i) nu0 0 f0 Ct nu_tmp (nbg + ng_tmp) Ct nu_tmp (nbg + ng_tmp) in
    let tbg := GEMV_T (dnx D i) ng0 f1 (q_DCt qp i) nu0 0 (Gb (i - 1)%nat) 0 f0 tbg 0 tbg 0 in
    let d := AXPY ng0 (- f1) tbg 0 (x_d s) o (x_d s) o in
    let d := AXPY ng0 f1 tbg 0 d ou d ou in
    (mkdcs d (x_mask s) (x_m s) (x_idxb s) (x_idxs s) Ct (x_ib s) (x_ig s), tbg)
  else (s, tbg).
Definition dctd_gens (st : dcs * vec) : dcs * vec :=
  let '(st, nu_tmp, ng_tmp, is) := loop M (fun ii '(st, nu_tmp, ng_tmp, is) =>
      let i := (M - ii)%nat in
      (dctd_gen_mid i nu_tmp ng_tmp is st, nu_tmp + dnu D i, ng_tmp + dng D i, is + dns D i)%nat) (st, 0, 0, 0)%nat in
  let '(s, tbg) := st in
  if Nat.ltb 0 (dng D 0) then
    let s := dctd_gen_copy 0 ng_tmp is s in
    (mkdcs (x_d s) (x_mask s) (x_m s) (x_idxb s) (x_idxs s) (GECP (dnu D 0 + dnx D 0) (dng D 0) (q_DCt qp 0%nat) 0 0 (x_Ct s) nu_tmp (nbg + ng_tmp)) (x_ib s) (x_ig s), tbg)
  else (s, tbg).
(** soft constraints, lines 1128-1154: Z2, gz, d, d_mask, m *)
Definition soft_copy (i is : nat) (o2 : nat) (os : nat) (src dst : vec) : vec :=
  loop (dns D i) (fun jj v => upd (upd v (o2 + is + jj)%nat (src (os + jj)%nat)) (o2 + ns2 + is + jj)%nat (src (os + dns D i + jj)%nat)) dst.
Definition dctd_soft (st : dcs * vec * vec) : dcs * vec * vec :=
  fst (loop (M + 1) (fun ii '(s, Z2, gz, is) =>
      let i := (M - ii)%nat in let oc := (2 * dnb D i + 2 * dng D i)%nat in let oc2 := (2 * nb2 + 2 * ng2)%nat in
      (mkdcs (soft_copy i is oc2 oc (q_d qp i) (x_d s)) (soft_copy i is oc2 oc (q_mask qp i) (x_mask s)) (soft_copy i is oc2 oc (q_m qp i) (x_m s))
         (x_idxb s) (x_idxs s) (x_Ct s) (x_ib s) (x_ig s),
       soft_copy i is 0 0 (q_Z qp i) Z2, soft_copy i is (nu2 + nx2) (dnu D i + dnx D i) (q_rqz qp i) gz, is + dns D i)%nat) (st, 0%nat)).
(** the whole function for M >= 1 (M = 0 with cond_last_stage = 0 included, the loops over the later stages being empty) *)
Definition dctd_main (q2 : dqp F) (tbg : vec) : dqp F * vec :=
  let s := mkdcs (d_d q2) (d_mask q2) (d_m q2) (d_idxb q2) (d_idxs_rev q2) (GESE (nu2 + nx2) ng2 f0 (d_Ct q2) 0 0) 0 0 in
  let s := dctd_bounds s in
  let '(s, tbg) := dctd_gens (s, tbg) in
  let '(s, Z2, gz) := dctd_soft (s, d_Z q2, d_gz q2) in
  (mkdqp (d_nv q2) (d_ne q2) (d_nb q2) (d_ng q2) (d_ns q2) (d_H q2) (d_A q2) (x_Ct s) gz (d_b q2) (x_d s) (x_mask s) (x_m s) Z2 (x_idxb s) (x_idxs s), tbg).
(** early return, lines 826-838: N = 0 and cond_last_stage = 1 *)
Definition dctd_one (q2 : dqp F) : dqp F :=
  let nc := (2 * dnb D 0 + 2 * dng D 0 + 2 * dns D 0)%nat in let n0 := (dnu D 0 + dnx D 0)%nat in
  mkdqp (d_nv q2) (d_ne q2) (d_nb q2) (d_ng q2) (d_ns q2) (d_H q2) (d_A q2) (GECP n0 (dng D 0) (q_DCt qp 0%nat) 0 0 (d_Ct q2) 0 0)
    (VECCP (2 * dns D 0) (q_rqz qp 0%nat) n0 (d_gz q2) n0) (d_b q2) (VECCP nc (q_d qp 0%nat) 0 (d_d q2) 0) (VECCP nc (q_mask qp 0%nat) 0 (d_mask q2) 0)
    (VECCP nc (q_m qp 0%nat) 0 (d_m q2) 0) (VECCP (2 * dns D 0) (q_Z qp 0%nat) 0 (d_Z q2) 0)
    (loop (dnb D 0) (fun ii x => upd x ii (q_idxb qp 0%nat ii)) (d_idxb q2)) (loop (dnb D 0 + dng D 0) (fun ii x => upd x ii (q_idxs_rev qp 0%nat ii)) (d_idxs_rev q2)).
End Dctd.
Definition cond_dctd (last : bool) (qp : oqp F) (w : cws) (q2 : dqp F) : dqp F * vec :=
  let N := dN (q_dim qp) in
  if andb (Nat.eqb (last_stage last N) 0) last then (dctd_one qp q2, cw_nbg w)
  else dctd_main qp (last_stage last N) (cw_Gamma w) (cw_Gammab w) q2 (cw_nbg w).

(** COND_QP_COND, x_cond.c lines 445-456: the dense QP, the workspace, and BAbt, RSQrq of the QP object *)
Definition cond_qp (alg0 sq : bool) (diag : nat -> bool) (qp : oqp F) (q2 : dqp F) (w : cws) : dqp F * cws * (nat -> mat) * (nat -> mat) :=
  let '(w, _, _) := cond_babt true qp w (fun _ _ => f0) (fun _ => f0) in
  let '(BA, RSQ, w, H, g) := cond_rsqrq alg0 sq diag true qp w (d_H q2) (d_gz q2) in
  let q2 := mkdqp (d_nv q2) (d_ne q2) (d_nb q2) (d_ng q2) (d_ns q2) H (d_A q2) (d_Ct q2) g (d_b q2) (d_d q2) (d_mask q2) (d_m q2) (d_Z q2) (d_idxb q2) (d_idxs_rev q2) in
  let qp := mkqp (q_dim qp) BA RSQ (q_DCt qp) (q_b qp) (q_rqz qp) (q_d qp) (q_mask qp) (q_m qp) (q_Z qp) (q_idxb qp) (q_idxs_rev qp) in
  let '(q2, tbg) := cond_dctd true qp w q2 in
  (q2, mkcws (cw_Gamma w) (cw_Gammab w) (cw_L w) (cw_Lx w) (cw_dA w) (cw_AL w) (cw_GQ w) (cw_nux w) tbg, BA, RSQ).
End Cond.
Arguments cws F : clear implicits.
