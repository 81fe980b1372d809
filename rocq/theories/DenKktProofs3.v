(** DenKktProofs3.v -- dense KKT solver over the reals: solution with the factors, one lemma per method. *)
From Coq Require Import ZArith Bool Arith Lia Reals Lra.
From Verif Require Import Base ArithF RSum Blas Blas2 CoreModel CoreProofs OcpModel ResSpec ResProofs CholProofs CholPD KktModel KktSpec KktProofs KktProofs2 KktProofs7 SolveProofs DenModel DenSpec DenProofs DenKktModel DenKktSpec DenKktProofs DenKktAlg DenKktProofs2.
Local Open Scope R_scope.

Section Den.
Variables (a : dka R) (q : dqp R) (Gamma gamma : rvec).
Notation nv := (d_nv q). Notation ne := (d_ne q). Notation nb := (d_nb q). Notation ng := (d_ng q). Notation ns := (d_ns q).
Notation reg := (da_reg a).
Notation oq := (one_stage q).
Hypothesis Hwf : den_wf q.
Notation dM := (dM a q Gamma). Notation dh := (dh a q Gamma gamma). Notation Zok := (Zok a q Gamma). Notation Lok := (Lok a q Gamma). Notation Sok := (Sok q).
Notation T0d := (T0q oq 0 reg Gamma). Notation T1d := (T1q oq 0 reg Gamma gamma). Notation Zd := (Zq oq 0 reg Gamma). Notation Rd := (Rq oq 0 gamma).

(** reduced stationarity with weights s and relative regularisation rho, and equality constraints with e and del *)
Definition red_stat (s : rvec) (rho : R) (dv dpi : rvec) : Prop :=
  forall i, (i < nv)%nat -> rsum nv (fun j => dM i j * dv j) + rho / (s i * s i) * dv i + dh i - rsum ne (fun j => d_A q j i * dpi j) = 0.
Definition red_eq (e : rvec) (del : R) (dv dpi : rvec) : Prop :=
  forall j, (j < ne)%nat -> d_b q j - rsum nv (fun k => d_A q j k * dv k) = del / (e j * e j) * dpi j.

Lemma gdiag n (s x y z : rvec) i : (i < n)%nat -> GEMV_DIAG n f1 s 0 x 0 f0 y 0 z 0 i = s i * x i.
Proof. intros Hi. unfold GEMV_DIAG. rewrite vset0 by exact Hi. cbn [Nat.add]. rsimp. rewrite R_lit01, R_lit11. ring. Qed.

Lemma den_solve_schur_sc_R lv w dv dpi rho del : Lok (w_sv w) rho w -> Sok (w_sv w) (w_se w) del w -> (forall i, (i < nv)%nat -> lv i = dh i) ->
  let '(dv', dpi') := den_solve_schur_sc q lv w (dv, dpi) in
  red_stat (w_sv w) rho dv' dpi' /\ red_eq (w_se w) del dv' dpi' /\ (forall k, (nv <= k)%nat -> dv' k = dv k).
Proof.
  intros (P1 & P2 & P3) (P4 & P5 & P6 & P7) Hlv. unfold den_solve_schur_sc.
  assert (Ld : forall i, (i < nv)%nat -> w_Lv w i i <> 0) by (intros i Hi; specialize (P2 i Hi); lra).
  assert (Led : forall i, (i < ne)%nat -> w_Le w i i <> 0) by (intros i Hi; specialize (P5 i Hi); lra).
  set (s := w_sv w) in *. set (e := w_se w) in *. set (L := w_Lv w) in *. set (AL := w_AL w) in *. set (Le := w_Le w) in *.
  set (lv1 := GEMV_DIAG nv f1 s 0 lv 0 f0 lv 0 lv 0). assert (E1 : forall i, (i < nv)%nat -> lv1 i = s i * dh i) by (intros i Hi; unfold lv1; rewrite gdiag by exact Hi; rewrite Hlv by exact Hi; reflexivity). clearbody lv1.
  set (dv1 := VECCP nv lv1 0 dv 0). assert (E2 : forall i, (i < nv)%nat -> dv1 i = lv1 i) by (intros i Hi; unfold dv1, VECCP; rewrite vset0 by exact Hi; reflexivity).
  assert (K1 : forall k, (nv <= k)%nat -> dv1 k = dv k) by (intros k Hk; unfold dv1, VECCP; apply vset_out; lia). clearbody dv1.
  set (l := TRSV_LNN nv L 0 0 lv1 0 lv1 0). destruct (lnn_eq nv L lv1 lv1 Ld) as (Hl & _). fold l in Hl. clearbody l.
  set (p1 := GEMV_N ne nv f1 AL 0 0 l 0 f1 (d_b q) 0 dpi 0). assert (E3 : forall j, (j < ne)%nat -> p1 j = d_b q j + rsum nv (fun k => AL j k * l k)).
  { intros j Hj. unfold p1, GEMV_N. rewrite vset0 by exact Hj. cbn [Nat.add]. rewrite fsum_R. rsimp. rewrite R_lit11. lra. } clearbody p1.
  set (p2 := GEMV_DIAG ne f1 e 0 p1 0 f0 p1 0 p1 0). assert (E4 : forall j, (j < ne)%nat -> p2 j = e j * (d_b q j + rsum nv (fun k => AL j k * l k))) by (intros j Hj; unfold p2; rewrite gdiag by exact Hj; rewrite E3 by exact Hj; reflexivity). clearbody p2.
  set (p4 := TRSV_LTN ne Le 0 0 (TRSV_LNN ne Le 0 0 p2 0 p2 0) 0 (TRSV_LNN ne Le 0 0 p2 0 p2 0) 0).
  pose proof (chol_both ne Le (fun i j => e i * rsum nv (fun k => AL i k * AL j k) * e j + (if (i =? j)%nat then del else 0)) p2 p2 (TRSV_LNN ne Le 0 0 p2 0 p2 0) Led P7) as E5. fold p4 in E5. cbv beta zeta in E5. clearbody p4.
  set (pi := GEMV_DIAG ne f1 e 0 p4 0 f0 p4 0 p4 0). assert (E6 : forall j, (j < ne)%nat -> pi j = e j * p4 j) by (intros j Hj; unfold pi; apply gdiag; exact Hj). clearbody pi.
  set (lv2 := GEMV_T ne nv f1 (d_A q) 0 0 pi 0 f0 l 0 l 0). assert (E7 : forall i, (i < nv)%nat -> lv2 i = rsum ne (fun j => d_A q j i * pi j)).
  { intros i Hi. unfold lv2, GEMV_T. rewrite vset0 by exact Hi. cbn [Nat.add]. rewrite fsum_R. rsimp. rewrite R_lit01, R_lit11. lra. } clearbody lv2.
  set (dv2 := GEMV_DIAG nv f1 s 0 lv2 0 (- f1)%F dv1 0 dv1 0). assert (E8 : forall i, (i < nv)%nat -> dv2 i = s i * (rsum ne (fun j => d_A q j i * pi j) - dh i)).
  { intros i Hi. unfold dv2, GEMV_DIAG. rewrite vset0 by exact Hi. cbn [Nat.add]. rewrite E7, E2, E1 by exact Hi. rsimp. rewrite R_lit11. ring. }
  assert (K2 : forall k, (nv <= k)%nat -> dv2 k = dv k) by (intros k Hk; unfold dv2, GEMV_DIAG; rewrite vset_out by lia; apply K1; exact Hk). clearbody dv2.
  set (y := TRSV_LTN nv L 0 0 (TRSV_LNN nv L 0 0 dv2 0 dv2 0) 0 (TRSV_LNN nv L 0 0 dv2 0 dv2 0) 0).
  pose proof (chol_both nv L (fun i j => s i * dM i j * s j + (if (i =? j)%nat then rho else 0)) dv2 dv2 (TRSV_LNN nv L 0 0 dv2 0 dv2 0) Ld P3) as E9. fold y in E9. cbv beta zeta in E9.
  assert (K3 : forall k, (nv <= k)%nat -> y k = dv k).
  { intros k Hk. unfold y. rewrite (proj2 (ltn_eq nv L _ _ Ld)) by exact Hk. rewrite (proj2 (lnn_eq nv L _ _ Ld)) by exact Hk. apply K2. exact Hk. } clearbody y.
  set (dvf := GEMV_DIAG nv f1 s 0 y 0 f0 y 0 y 0). assert (E10 : forall i, (i < nv)%nat -> dvf i = s i * y i) by (intros i Hi; unfold dvf; apply gdiag; exact Hi).
  assert (K4 : forall k, (nv <= k)%nat -> dvf k = dv k) by (intros k Hk; unfold dvf, GEMV_DIAG; rewrite vset_out by lia; apply K3; exact Hk). clearbody dvf.
  assert (Hs : forall i, (i < nv)%nat -> s i <> 0) by (intros i Hi; specialize (P1 i Hi); lra). assert (He : forall i, (i < ne)%nat -> e i <> 0) by (intros i Hi; specialize (P4 i Hi); lra).
  split; [|split; [|exact K4]].
  - intros i Hi. apply (schur_stat nv ne dM (d_A q) s dh rho y pi dvf Hs); [|exact E10|exact Hi]. intros i' Hi'. rewrite E9 by exact Hi'. apply E8. exact Hi'.
  - intros j Hj. apply (schur_eq nv ne dM (d_A q) (d_b q) s e dh rho del L AL l p4 y pi dvf He Ld P3 P6); try assumption.
    + intros i Hi. rewrite Hl by exact Hi. apply E1. exact Hi.
    + intros i Hi. rewrite E5 by exact Hi. apply E4. exact Hi.
    + intros i Hi. rewrite E9 by exact Hi. apply E8. exact Hi.
Qed.
Lemma den_solve_schur_R lv w dv dpi rho del : Lok (fun _ => 1) rho w -> Sok (fun _ => 1) (fun _ => 1) del w -> (forall i, (i < nv)%nat -> lv i = dh i) ->
  let '(dv', dpi') := den_solve_schur q lv w (dv, dpi) in
  red_stat (fun _ => 1) rho dv' dpi' /\ red_eq (fun _ => 1) del dv' dpi' /\ (forall k, (nv <= k)%nat -> dv' k = dv k).
Proof.
  intros (P1 & P2 & P3) (P4 & P5 & P6 & P7) Hlv. unfold den_solve_schur.
  assert (Ld : forall i, (i < nv)%nat -> w_Lv w i i <> 0) by (intros i Hi; specialize (P2 i Hi); lra).
  assert (Led : forall i, (i < ne)%nat -> w_Le w i i <> 0) by (intros i Hi; specialize (P5 i Hi); lra).
  set (L := w_Lv w) in *. set (AL := w_AL w) in *. set (Le := w_Le w) in *.
  set (dv1 := VECCP nv lv 0 dv 0). assert (E2 : forall i, (i < nv)%nat -> dv1 i = lv i) by (intros i Hi; unfold dv1, VECCP; rewrite vset0 by exact Hi; reflexivity).
  assert (K1 : forall k, (nv <= k)%nat -> dv1 k = dv k) by (intros k Hk; unfold dv1, VECCP; apply vset_out; lia). clearbody dv1.
  set (l := TRSV_LNN nv L 0 0 lv 0 lv 0). destruct (lnn_eq nv L lv lv Ld) as (Hl & _). fold l in Hl. clearbody l.
  set (p2 := GEMV_N ne nv f1 AL 0 0 l 0 f1 (d_b q) 0 dpi 0). assert (E4 : forall j, (j < ne)%nat -> p2 j = d_b q j + rsum nv (fun k => AL j k * l k)).
  { intros j Hj. unfold p2, GEMV_N. rewrite vset0 by exact Hj. cbn [Nat.add]. rewrite fsum_R. rsimp. rewrite R_lit11. lra. } clearbody p2.
  set (pi := TRSV_LTN ne Le 0 0 (TRSV_LNN ne Le 0 0 p2 0 p2 0) 0 (TRSV_LNN ne Le 0 0 p2 0 p2 0) 0).
  pose proof (chol_both ne Le (fun i j => 1 * rsum nv (fun k => AL i k * AL j k) * 1 + (if (i =? j)%nat then del else 0)) p2 p2 (TRSV_LNN ne Le 0 0 p2 0 p2 0) Led P7) as E5. fold pi in E5. cbv beta zeta in E5. clearbody pi.
  set (dv2 := GEMV_T ne nv f1 (d_A q) 0 0 pi 0 (- f1)%F dv1 0 dv1 0). assert (E8 : forall i, (i < nv)%nat -> dv2 i = 1 * (rsum ne (fun j => d_A q j i * pi j) - dh i)).
  { intros i Hi. unfold dv2, GEMV_T. rewrite vset0 by exact Hi. cbn [Nat.add]. rewrite fsum_R. rewrite E2, Hlv by exact Hi. rsimp. rewrite R_lit11. lra. }
  assert (K2 : forall k, (nv <= k)%nat -> dv2 k = dv k) by (intros k Hk; unfold dv2, GEMV_T; rewrite vset_out by lia; apply K1; exact Hk). clearbody dv2.
  set (y := TRSV_LTN nv L 0 0 (TRSV_LNN nv L 0 0 dv2 0 dv2 0) 0 (TRSV_LNN nv L 0 0 dv2 0 dv2 0) 0).
  pose proof (chol_both nv L (fun i j => 1 * dM i j * 1 + (if (i =? j)%nat then rho else 0)) dv2 dv2 (TRSV_LNN nv L 0 0 dv2 0 dv2 0) Ld P3) as E9. fold y in E9. cbv beta zeta in E9.
  assert (K3 : forall k, (nv <= k)%nat -> y k = dv k).
  { intros k Hk. unfold y. rewrite (proj2 (ltn_eq nv L _ _ Ld)) by exact Hk. rewrite (proj2 (lnn_eq nv L _ _ Ld)) by exact Hk. apply K2. exact Hk. } clearbody y.
  assert (Hs : forall i, (i < nv)%nat -> 1 <> 0) by (intros; lra). assert (He : forall i, (i < ne)%nat -> 1 <> 0) by (intros; lra).
  split; [|split; [|exact K3]].
  - intros i Hi. apply (schur_stat nv ne dM (d_A q) (fun _ => 1) dh rho y pi y Hs); [|intros; lra|exact Hi]. intros i' Hi'. rewrite E9 by exact Hi'. apply E8. exact Hi'.
  - intros j Hj. apply (schur_eq nv ne dM (d_A q) (d_b q) (fun _ => 1) (fun _ => 1) dh rho del L AL l pi y pi y He Ld P3 P6); try assumption.
    + intros i Hi. rewrite Hl by exact Hi. rewrite Hlv by exact Hi. lra.
    + intros i Hi. rewrite E5 by exact Hi. rewrite E4 by exact Hi. lra.
    + intros; lra.
    + intros i Hi. rewrite E9 by exact Hi. apply E8. exact Hi.
    + intros; lra.
Qed.

(** no equality constraints *)
Definition red_stat0 (s : rvec) (rho : R) (dv : rvec) : Prop :=
  forall i, (i < nv)%nat -> rsum nv (fun j => dM i j * dv j) + rho / (s i * s i) * dv i + dh i = 0.
Lemma den_solve_sc_R lv w dv rho : Lok (w_sv w) rho w -> (forall i, (i < nv)%nat -> lv i = dh i) ->
  red_stat0 (w_sv w) rho (den_solve_sc q lv w dv) /\ (forall k, (nv <= k)%nat -> den_solve_sc q lv w dv k = dv k).
Proof.
  intros (P1 & P2 & P3) Hlv. unfold den_solve_sc. assert (Ld : forall i, (i < nv)%nat -> w_Lv w i i <> 0) by (intros i Hi; specialize (P2 i Hi); lra).
  set (s := w_sv w) in *. set (L := w_Lv w) in *. set (dv1 := VECSC nv _ _ _). set (dv2 := GEMV_DIAG nv f1 s 0 dv1 0 f0 dv1 0 dv1 0).
  assert (E1 : forall i, (i < nv)%nat -> dv1 i = - dh i). { intros i Hi. unfold dv1, VECSC. rewrite vset0 by exact Hi. unfold VECCP. rewrite vset0 by lia. cbn [Nat.add]. rewrite Hlv by exact Hi. rsimp. rewrite R_lit11. lra. }
  assert (K1 : forall k, (nv <= k)%nat -> dv1 k = dv k) by (intros k Hk; unfold dv1, VECSC, VECCP; rewrite !vset_out by lia; reflexivity). clearbody dv1.
  assert (E2 : forall i, (i < nv)%nat -> dv2 i = s i * - dh i) by (intros i Hi; unfold dv2; rewrite gdiag by exact Hi; rewrite E1 by exact Hi; reflexivity).
  assert (K2 : forall k, (nv <= k)%nat -> dv2 k = dv k) by (intros k Hk; unfold dv2, GEMV_DIAG; rewrite vset_out by lia; apply K1; exact Hk). clearbody dv2.
  set (y := TRSV_LTN nv L 0 0 (TRSV_LNN nv L 0 0 dv2 0 dv2 0) 0 (TRSV_LNN nv L 0 0 dv2 0 dv2 0) 0).
  pose proof (chol_both nv L (fun i j => s i * dM i j * s j + (if (i =? j)%nat then rho else 0)) dv2 dv2 (TRSV_LNN nv L 0 0 dv2 0 dv2 0) Ld P3) as E9. fold y in E9. cbv beta zeta in E9.
  assert (K3 : forall k, (nv <= k)%nat -> y k = dv k).
  { intros k Hk. unfold y. rewrite (proj2 (ltn_eq nv L _ _ Ld)) by exact Hk. rewrite (proj2 (lnn_eq nv L _ _ Ld)) by exact Hk. apply K2. exact Hk. } clearbody y.
  assert (Hs : forall i, (i < nv)%nat -> s i <> 0) by (intros i Hi; specialize (P1 i Hi); lra). split.
  - intros i Hi. pose proof (schur_stat nv 0 dM (fun _ _ => 0) s dh rho y (fun _ => 0) (GEMV_DIAG nv f1 s 0 y 0 f0 y 0 y 0) Hs) as X. cbn [rsum] in X.
    specialize (X ltac:(intros i' Hi'; rewrite E9, E2 by exact Hi'; ring) ltac:(intros i' Hi'; apply gdiag; exact Hi') i Hi). lra.
  - intros k Hk. unfold GEMV_DIAG. rewrite vset_out by lia. apply K3. exact Hk.
Qed.
Lemma den_solve_plain_R lv w dv rho : Lok (fun _ => 1) rho w -> (forall i, (i < nv)%nat -> lv i = dh i) ->
  red_stat0 (fun _ => 1) rho (den_solve_plain q lv w dv) /\ (forall k, (nv <= k)%nat -> den_solve_plain q lv w dv k = dv k).
Proof.
  intros (P1 & P2 & P3) Hlv. unfold den_solve_plain. assert (Ld : forall i, (i < nv)%nat -> w_Lv w i i <> 0) by (intros i Hi; specialize (P2 i Hi); lra).
  set (L := w_Lv w) in *. set (dv1 := VECSC nv _ _ _).
  assert (E1 : forall i, (i < nv)%nat -> dv1 i = - dh i). { intros i Hi. unfold dv1, VECSC. rewrite vset0 by exact Hi. unfold VECCP. rewrite vset0 by lia. cbn [Nat.add]. rewrite Hlv by exact Hi. rsimp. rewrite R_lit11. lra. }
  assert (K1 : forall k, (nv <= k)%nat -> dv1 k = dv k) by (intros k Hk; unfold dv1, VECSC, VECCP; rewrite !vset_out by lia; reflexivity). clearbody dv1.
  set (y := TRSV_LTN nv L 0 0 (TRSV_LNN nv L 0 0 dv1 0 dv1 0) 0 (TRSV_LNN nv L 0 0 dv1 0 dv1 0) 0).
  pose proof (chol_both nv L (fun i j => 1 * dM i j * 1 + (if (i =? j)%nat then rho else 0)) dv1 dv1 (TRSV_LNN nv L 0 0 dv1 0 dv1 0) Ld P3) as E9. fold y in E9. cbv beta zeta in E9.
  assert (K3 : forall k, (nv <= k)%nat -> y k = dv k).
  { intros k Hk. unfold y. rewrite (proj2 (ltn_eq nv L _ _ Ld)) by exact Hk. rewrite (proj2 (lnn_eq nv L _ _ Ld)) by exact Hk. apply K1. exact Hk. } clearbody y.
  split; [|exact K3].
  intros i Hi. pose proof (schur_stat nv 0 dM (fun _ _ => 0) (fun _ => 1) dh rho y (fun _ => 0) y ltac:(intros; lra)) as X. cbn [rsum] in X.
  specialize (X ltac:(intros i' Hi'; rewrite E9, E1 by exact Hi'; ring) ltac:(intros; lra) i Hi). lra.
Qed.
(** FACT_SOLVE_KKT_STEP in this case factorises the matrix bordered by the gradient *)
Lemma den_plain_R preg w dv w' dv' st : den_fact_plain a q Gamma gamma preg w dv = (w', dv', st) -> (Mpd a q Gamma preg -> st = Fok) /\ (st = Fok ->
  Zok w' /\ Lok (fun _ => 1) preg w' /\ red_stat0 (fun _ => 1) preg (den_back_plain q w' dv') /\
  (forall k, (k < 2 * ns)%nat -> den_back_plain q w' dv' (nv + k)%nat = Rd k)).
Proof.
  unfold den_fact_plain. pose proof (den_tmp0_R a q Gamma Hwf (w_tmp w) (w_Zs w)) as HT. destruct (den_tmp0 _ _ _ _) as [tmp0 Zs]. destruct HT as (HT0 & HZ).
  pose proof (den_tmp1_R a q Gamma gamma Hwf tmp0 dv Zs HZ) as HT1. destruct (den_tmp1 _ _ _ _ _) as [tmp dv1]. destruct HT1 as (HT1 & HR & HT00).
  assert (HT : forall c, (c < nb + ng)%nat -> tmp 0%nat c = T0d c) by (intros c Hc; rewrite HT00; apply HT0; exact Hc). clear HT0 HT00.
  set (L0 := DIARE _ _ _ _ _).
  assert (E0 : forall i j, (j <= i < nv)%nat -> L0 i j = d_H q i j + if (i =? j)%nat then preg else 0).
  { intros i j Hij. unfold L0. rewrite DIARE_at by exact Hij. unfold ROWIN. rewrite mblk_o by lia. rewrite GECP_at by lia. reflexivity. }
  assert (E0n : forall j, (j < nv)%nat -> L0 nv j = d_gz q j).
  { intros j Hj. unfold L0. rewrite DIARE_R. destruct (Nat.eqb_spec nv j); [lia|]. cbn [andb]. unfold ROWIN. rewrite mblk_i by lia. cbn [Nat.add]. rewrite Nat.sub_0_r. rsimp. rewrite R_lit11. lra. }
  clearbody L0. set (L1 := if (0 <? nb)%nat then _ else _).
  assert (E1 : forall i j, (j <= i < nv)%nat -> L1 i j = d_H q i j + (if (i =? j)%nat then preg else 0) + rsum nb (fun c => rowq oq 0 c i * T0d c * rowq oq 0 c j)).
  { intros i j Hij. unfold L1. destruct (Nat.ltb_spec 0 nb) as [H|H].
    - rewrite ROWAD_SP_R, DIAAD_SP_R. destruct (Nat.eqb_spec i nv); [lia|]. rewrite E0 by exact Hij. rewrite Rplus_0_r. f_equal. destruct (Nat.eqb_spec i j) as [->|Hne].
      + apply rsum_ext. intros c Hc. rewrite !rowq_b by exact Hc. cbn [q_idxb one_stage Nat.add]. rewrite HT by lia. rsimp. rewrite R_lit11. destruct (Nat.eqb _ _); lra.
      + symmetry. apply rsum_0. intros c Hc. rewrite !rowq_b by exact Hc. cbn [q_idxb one_stage]. destruct (Nat.eqb_spec (d_idxb q c) i), (Nat.eqb_spec (d_idxb q c) j); try lra. lia.
    - rewrite E0 by exact Hij. replace (d_nb q) with 0%nat by lia. cbn [rsum]. lra. }
  assert (E1n : forall j, (j < nv)%nat -> L1 nv j = d_gz q j + rsum nb (fun c => rowq oq 0 c j * T1d c)).
  { intros j Hj. unfold L1. destruct (Nat.ltb_spec 0 nb) as [H|H].
    - rewrite ROWAD_SP_R, DIAAD_SP_R. rewrite Nat.eqb_refl. destruct (Nat.eqb_spec nv j); [lia|]. rewrite E0n by exact Hj. rewrite Rplus_0_r. f_equal.
      apply rsum_ext. intros c Hc. rewrite !rowq_b by exact Hc. cbn [q_idxb one_stage Nat.add]. rewrite HT1 by lia. rsimp. rewrite R_lit11. destruct (Nat.eqb _ _); lra.
    - rewrite E0n by exact Hj. replace (d_nb q) with 0%nat by lia. cbn [rsum]. lra. }
  clearbody L1. set (r := if (0 <? ng)%nat then _ else _).
  assert (HC : exists C, POTRF_L_MN (nv + 1) nv C 0 0 L1 0 0 (w_dLv w) = (fst (fst r), snd r) /\
    (forall i j, (j <= i < nv)%nat -> C i j = dM i j + if (i =? j)%nat then preg else 0) /\ (forall j, (j < nv)%nat -> C nv j = dh j)).
  { unfold r. destruct (Nat.ltb_spec 0 ng) as [H|H].
    - unfold SYRK_POTRF_LN_MN. set (Ctx := ROWIN ng f1 _ _ _ _ _). set (C := SYRK_LN_MN _ _ _ _ _ _ _ _ _ _ _ _ _ _ _ _ _). exists C. split; [destruct (POTRF_L_MN _ _ _ _ _ _ _ _ _); reflexivity|]. split.
      + intros i j Hij. unfold C, DenKktProofs2.dM. rewrite SYRK_R by lia. rewrite stH_split by lia. cbn [Nat.add q_RSQ one_stage q_dim dnb]. unfold gpart. cbn [q_dim one_stage dng dnb q_DCt]. rewrite E1 by exact Hij. rsimp. rewrite R_lit11.
        rewrite (rsum_ext ng _ (fun l => d_Ct q i l * T0d (nb + l)%nat * d_Ct q j l)); [destruct (i =? j)%nat; lra|].
        intros l Hl. unfold Ctx, ROWIN. rewrite mblk_o by lia. unfold den_ctx, GEMM_ND. rewrite mblk_i by lia. cbn [Nat.add]. rewrite !Nat.sub_0_r. rsimp. rewrite R_lit01, R_lit11. rewrite HT by lia. ring.
      + intros j Hj. unfold C, DenKktProofs2.dh. rewrite SYRK_R by lia. rewrite sth_split. cbn [Nat.add q_rqz one_stage q_dim dnb]. unfold gpart1. cbn [q_dim one_stage dng dnb q_DCt]. rewrite E1n by exact Hj. rsimp. rewrite R_lit11.
        rewrite (rsum_ext ng _ (fun l => T1d (nb + l)%nat * d_Ct q j l)); [lra|].
        intros l Hl. unfold Ctx, ROWIN. rewrite mblk_i by lia. cbn [Nat.add]. rewrite !Nat.sub_0_r. rsimp. rewrite R_lit11. rewrite HT1 by lia. ring.
    - exists L1. split; [destruct (POTRF_L_MN _ _ _ _ _ _ _ _ _); reflexivity|]. split.
      + intros i j Hij. unfold DenKktProofs2.dM. rewrite stH_split by lia. unfold gpart. cbn [q_dim one_stage dng dnb q_DCt q_RSQ]. rewrite E1 by exact Hij. replace (d_ng q) with 0%nat by lia. cbn [rsum]. destruct (i =? j)%nat; lra.
      + intros j Hj. unfold DenKktProofs2.dh. rewrite sth_split. unfold gpart1. cbn [q_dim one_stage dng dnb q_DCt q_rqz]. rewrite E1n by exact Hj. replace (d_ng q) with 0%nat by lia. cbn [rsum]. lra. }
  destruct r as [[Lv Ctx] dLv]. cbn [fst snd] in HC. destruct HC as (C & EP & HC1 & HC2).
  assert (HS : forall i j, (i < nv)%nat -> (j < nv)%nat -> symL C i j = dM i j + if (i =? j)%nat then preg else 0).
  { apply (sym_ext nv C (fun i j => dM i j + (if (i =? j)%nat then preg else 0))); [exact HC1|]. intros i j. rewrite (dM_sym a q Gamma i j), (delta_sym preg i j). reflexivity. }
  destruct (singular nv dLv) eqn:ES.
  { intros E. injection E as _ _ <-. split; [|discriminate]. intros HPD. rewrite (potrf_pd (nv + 1) nv C L1 _ Lv dLv ltac:(lia) (PD_sym nv C _ HS (Mpd_1 a q Gamma preg HPD)) EP) in ES. discriminate. }
  intros E. pose proof (f_equal snd E) as Es. apply (f_equal fst) in E. cbn [fst snd] in E, Es. pose proof (f_equal fst E) as Ew. pose proof (f_equal snd E) as Ed. cbn [fst snd] in Ew, Ed. clear E. subst w' dv' st.
  split; [reflexivity|]. intros _.
  pose proof (potrf_FR nv nv C L1 (w_dLv w) (le_n _)) as HP. rewrite EP in HP. destruct (HP ES) as (F1 & F2 & F3 & _).
  split; [exact HZ|]. split.
  { split; [intros; lra|]. split; [exact F3|]. intros i j Hi Hj. rewrite Rmult_1_l, Rmult_1_r. rewrite <- HS by assumption. apply F1; auto. }
  unfold den_back_plain. cbn [w_Lv]. set (dv2 := ROWEX _ _ _ _ _ _ _).
  assert (Ld : forall i, (i < nv)%nat -> Lv i i <> 0) by (intros i Hi; specialize (F3 i Hi); lra).
  destruct (ltn_eq nv Lv dv2 dv2 Ld) as (G1 & G2). set (y := TRSV_LTN nv Lv 0 0 dv2 0 dv2 0) in *. clearbody y. split.
  - intros i Hi. pose proof (ric_stage nv nv C Lv (fun _ _ => 0) (fun _ => 0) y (le_n _)) as X.
    specialize (X ltac:(intros i' j' Hi' Hj'; rewrite F1 by auto; lra) ltac:(intros i' Hi'; rewrite F2 by exact Hi'; lra)).
    specialize (X ltac:(intros k Hk; rewrite G1 by exact Hk; unfold dv2, ROWEX; rewrite vset0 by exact Hk; cbn [Nat.add]; rsimp; rewrite R_lit11; lra) i Hi).
    cbv beta in X. rewrite (rsum_0 nv (fun j => 0 * y j)) in X by (intros; lra). rewrite HC2 in X by exact Hi.
    rewrite (rsum_ext nv _ (fun j => dM i j * y j + (if (i =? j)%nat then preg else 0) * y j)) in X by (intros j Hj; rewrite HS by assumption; ring).
    rewrite rsum_add, rsum_delta in X by exact Hi. replace (preg / (1 * 1)) with preg by field. lra.
  - intros k Hk. rewrite G2 by lia. unfold dv2, ROWEX. rewrite vset_out by lia. apply HR. exact Hk.
Qed.

(** null-space method *)
Definition Nok (rho : R) (w : dkw R) : Prop :=
  lq_ok ne nv (d_A q) (w_LQ w) (w_Q w) /\ (forall i k, (i < nv - ne)%nat -> (k < nv)%nat -> w_Zt w i k = w_Q w (ne + i)%nat k) /\
  (forall i k, (i < nv)%nat -> (k < nv)%nat -> w_Lv w i k = dM i k) /\
  (forall i k, (i < nv - ne)%nat -> (k < nv)%nat -> w_ZtH w i k = rsum nv (fun l => w_Zt w i l * dM l k)) /\
  (forall i, (i < nv - ne)%nat -> 0 < w_ZtHZ w i i) /\
  (forall i j, (i < nv - ne)%nat -> (j < nv - ne)%nat -> rsum nv (fun k => w_ZtH w i k * w_Zt w j k) + (if (i =? j)%nat then rho else 0) = rsum (nv - ne) (fun k => lt (w_ZtHZ w) i k * lt (w_ZtHZ w) j k)).
(** positive definiteness on the null space of A *)
Definition Npd (rho : R) : Prop := forall p : rvec, (forall j, (j < ne)%nat -> rsum nv (fun k => d_A q j k * p k) = 0) -> (exists k, (k < nv)%nat /\ p k <> 0) -> 0 < quadf nv dM p + rho * rsum nv (fun k => p k * p k).
Lemma null_pd (LQ Q : rmat) rho : (ne <= nv)%nat -> lq_ok ne nv (d_A q) LQ Q -> Npd rho ->
  PD (nv - ne) (fun i j => rsum nv (fun l => rsum nv (fun m => Q (ne + i)%nat l * dM l m * Q (ne + j)%nat m)) + (if (i =? j)%nat then rho else 0)).
Proof.
  intros Hle (Ld & HA & HQ & HQ') HN x (i0 & Hi0 & Ex). rewrite quadf_add, quadf_delta. rewrite (quadf_congr (nv - ne) nv (fun i l => Q (ne + i)%nat l) dM x).
  set (p := fun l => rsum (nv - ne) (fun i => x i * Q (ne + i)%nat l)).
  assert (EQ : forall l, (l < nv)%nat -> rsum nv (fun k => Q l k * p k) = if (l <? ne)%nat then 0 else x (l - ne)%nat).
  { intros l Hl. pose proof (Q_nullp nv ne Q x Hle HQ l) as X. unfold nullp in X. rewrite <- (X Hl). apply rsum_ext. intros k Hk. f_equal. apply rsum_ext. intros; ring. }
  assert (HA' : forall j, (j < ne)%nat -> rsum nv (fun k => d_A q j k * p k) = 0).
  { intros j Hj. rewrite (rsum_ext nv _ (fun k => rsum (S j) (fun l => LQ j l * (Q l k * p k)))) by (intros k Hk; rewrite HA by assumption; rewrite <- rsum_scal_r; apply rsum_ext; intros; ring).
    rewrite rsum_swap. apply rsum_0. intros l Hl. rewrite rsum_scal, EQ by lia. destruct (Nat.ltb_spec l ne); [lra|lia]. }
  assert (E2 : rsum nv (fun k => p k * p k) = rsum (nv - ne) (fun i => x i * x i)).
  { unfold p at 1. rewrite (rsum_ext nv _ (fun k => rsum (nv - ne) (fun i => x i * (Q (ne + i)%nat k * p k)))) by (intros k Hk; rewrite <- rsum_scal_r; apply rsum_ext; intros; ring).
    rewrite rsum_swap. apply rsum_ext. intros i Hi. rewrite rsum_scal, EQ by lia. destruct (Nat.ltb_spec (ne + i) ne); [lia|]. replace (ne + i - ne)%nat with i by lia. reflexivity. }
  rewrite <- E2. apply HN; [exact HA'|].
  assert (Dec : (exists k, (k < nv)%nat /\ p k <> 0) \/ forall k, (k < nv)%nat -> p k = 0).
  { clear EQ HA' E2. clearbody p. clear. generalize nv. induction n as [|n IH]; [right; intros; lia|]. destruct IH as [(l & Hl & E)|E]; [left; exists l; split; [lia|exact E]|].
    destruct (Req_EM_T (p n) 0) as [E'|E']; [right; intros l Hl; destruct (Nat.eq_dec l n) as [->|]; [exact E'|apply E; lia]|left; exists n; split; [lia|exact E']]. }
  destruct Dec as [D|D]; [exact D|exfalso]. pose proof (sq_pos (nv - ne) x i0 Hi0 Ex) as P. rewrite <- E2 in P. rewrite rsum_0 in P; [lra|]. intros k Hk. rewrite D by exact Hk. lra.
Qed.
Lemma den_fact_null_R lq preg w w' st : (ne <= nv)%nat -> lq_given q lq w -> den_fact_null a q lq Gamma preg w = (w', st) -> (Npd preg -> st = Fok) /\ Zok w' /\ (st = Fok -> Nok preg w') /\ lq_given q lq w'.
Proof.
  intros Hle HLQ. unfold den_fact_null.
  assert (HD : let '(LQ, Q, Zt) := den_lq q lq w in lq_ok ne nv (d_A q) LQ Q /\ (forall i k, (i < nv - ne)%nat -> (k < nv)%nat -> Zt i k = Q (ne + i)%nat k)).
  { unfold den_lq. unfold lq_given in HLQ. destruct (w_useA w); [exact HLQ|]. destruct (lq ne nv (d_A q) (w_LQ w, w_Q w)) as [LQ Q]. cbn [fst snd] in HLQ. split; [exact HLQ|].
    intros i k Hi Hk. unfold GECP. rewrite mblk_i by lia. cbn [Nat.add]. rewrite !Nat.sub_0_r. reflexivity. }
  destruct (den_lq q lq w) as [[LQ Q] Zt]. destruct HD as (HQ & HZt). clear HLQ.
  pose proof (den_tmp0_R a q Gamma Hwf (w_tmp w) (w_Zs w)) as HT. destruct (den_tmp0 _ _ _ _) as [tmp Zs]. destruct HT as (HT & HZ).
  pose proof (den_mat_R a q Gamma 0 tmp (TRCP_L nv (d_H q) 0 0 (w_Lv w) 0 0) (w_Ctx w) HT) as HM.
  specialize (HM ltac:(intros i j Hij; rewrite TRCP_at by lia; destruct (i =? j)%nat; lra)).
  destruct (den_syrk _ _ _ _) as [L1 Ctx]. cbn [fst] in HM.
  assert (HM' : forall i j, (j <= i < nv)%nat -> L1 i j = dM i j) by (intros i j Hij; rewrite HM by exact Hij; destruct (i =? j)%nat; lra). clear HM.
  set (Lv := TRTR_L nv L1 0 0 L1 0 0).
  assert (HL : forall i k, (i < nv)%nat -> (k < nv)%nat -> Lv i k = dM i k).
  { intros i k Hi Hk. unfold Lv, TRTR_L. rewrite mupd_at. destruct (Nat.leb_spec 0 i); [|lia]. destruct (Nat.ltb_spec i (0 + nv)); [|lia]. destruct (Nat.leb_spec 0 k); [|lia]. destruct (Nat.ltb_spec k (0 + nv)); [|lia].
    cbn [andb Nat.add]. rewrite !Nat.sub_0_r. destruct (Nat.leb_spec i k); [rewrite dM_sym|]; apply HM'; lia. }
  clearbody Lv. set (ZtH := GEMM_NT _ _ _ _ _ _ _ _ _ _ _ _ _ _ _ _ _).
  assert (HZH : forall i k, (i < nv - ne)%nat -> (k < nv)%nat -> ZtH i k = rsum nv (fun l => Zt i l * dM l k)).
  { intros i k Hi Hk. unfold ZtH, GEMM_NT. rewrite mblk_i by lia. cbn [Nat.add]. rewrite !Nat.sub_0_r. rewrite fsum_R. rsimp. rewrite R_lit01, R_lit11. rewrite Rmult_0_l, Rplus_0_l, Rmult_1_l. apply rsum_ext. intros l Hl. rewrite HL by assumption. rewrite dM_sym. reflexivity. }
  clearbody ZtH. set (Z2 := DIARE _ _ _ _ _).
  assert (HZ2 : forall i j, (j <= i < nv - ne)%nat -> Z2 i j = rsum nv (fun k => ZtH i k * Zt j k) + if (i =? j)%nat then preg else 0).
  { intros i j Hij. unfold Z2. rewrite DIARE_at by exact Hij. rewrite SYRK_R by lia. cbn [Nat.add]. rsimp. rewrite R_lit01, R_lit11. f_equal. lra. }
  clearbody Z2. destruct (POTRF_L_MN (nv - ne) (nv - ne) Z2 0 0 Z2 0 0 (w_dZ w)) as [ZtHZ dZ] eqn:EP. intros E. pose proof (f_equal fst E) as Ew. pose proof (f_equal snd E) as Es. cbn [fst snd] in Ew, Es. clear E.
  subst w'.
  assert (K : forall i j, (i < nv - ne)%nat -> (j < nv - ne)%nat -> rsum nv (fun k => ZtH i k * Zt j k) = rsum nv (fun k => ZtH j k * Zt i k)).
  { intros i j Hi Hj.
    rewrite (rsum_ext nv _ (fun k => rsum nv (fun l => Zt i l * dM l k * Zt j k))) by (intros k Hk; rewrite HZH by assumption; rewrite rsum_scal_r; reflexivity).
    rewrite rsum_swap. apply rsum_ext. intros l Hl. rewrite HZH by assumption. rewrite <- rsum_scal_r. apply rsum_ext. intros k Hk. rewrite (dM_sym a q Gamma l k). ring. }
  assert (S2 : forall i j, (i < nv - ne)%nat -> (j < nv - ne)%nat -> symL Z2 i j = rsum nv (fun k => ZtH i k * Zt j k) + (if (i =? j)%nat then preg else 0)).
  { intros i j Hi Hj. unfold symL. destruct (Nat.leb_spec j i); [apply HZ2; lia|]. rewrite HZ2 by lia. rewrite K by assumption. rewrite (delta_sym preg). reflexivity. }
  split.
  { intros HN. subst st. rewrite (potrf_pd (nv - ne) (nv - ne) Z2 Z2 (w_dZ w) ZtHZ dZ (le_n _)); [reflexivity| |exact EP]. eapply PD_sym; [|apply (null_pd LQ Q preg Hle HQ HN)].
    intros i j Hi Hj. rewrite S2 by assumption. f_equal. rewrite (rsum_ext nv _ (fun k => rsum nv (fun l => Q (ne + i)%nat l * dM l k * Q (ne + j)%nat k))); [apply rsum_swap|].
    intros k Hk. rewrite HZH by assumption. rewrite <- rsum_scal_r. apply rsum_ext. intros l Hl. rewrite !HZt by assumption. reflexivity. }
  split; [exact HZ|]. split.
  2:{ unfold lq_given. cbn [w_useA w_LQ w_Q w_Zt]. split; assumption. }
  intros ->. destruct (singular (nv - ne) dZ) eqn:ES; [discriminate|]. destruct (chol_sq _ Z2 Z2 _ ZtHZ dZ EP ES) as (C1 & C2).
  unfold Nok. cbn [w_LQ w_Q w_Zt w_Lv w_ZtH w_ZtHZ]. split; [exact HQ|]. split; [exact HZt|]. split; [exact HL|]. split; [exact HZH|]. split; [exact C2|].
  intros i j Hi Hj. rewrite <- C1 by assumption. symmetry. apply S2; assumption.
Qed.
Lemma den_solve_null_R lv w xy0 Yxy0 xz0 tmp0 dv dpi rho : (ne <= nv)%nat -> Nok rho w -> (forall i, (i < nv)%nat -> lv i = dh i) ->
  let '(dv', dpi') := den_solve_null q lv w xy0 Yxy0 xz0 tmp0 (dv, dpi) in
  (exists p y : rvec, (forall k, (k < nv)%nat -> dv' k = p k + rsum ne (fun j => d_A q j k * y j)) /\ (forall j, (j < ne)%nat -> rsum nv (fun k => d_A q j k * p k) = 0) /\
    forall i, (i < nv)%nat -> rsum nv (fun j => dM i j * dv' j) + rho * p i + dh i - rsum ne (fun j => d_A q j i * dpi' j) = 0) /\
  (forall j, (j < ne)%nat -> d_b q j - rsum nv (fun k => d_A q j k * dv' k) = 0) /\ (forall k, (nv <= k)%nat -> dv' k = dv k).
Proof.
  intros Hne ((Ld & HA & HQ & HQ') & HZt & HLv & HZH & HP & HC) Hlv. unfold den_solve_null.
  set (L := w_LQ w) in *. set (Q := w_Q w) in *. set (Zt := w_Zt w) in *. set (ZtH := w_ZtH w) in *. set (LZ := w_ZtHZ w) in *.
  assert (HA' : forall i k, (i < ne)%nat -> (k < nv)%nat -> d_A q i k = rsum ne (fun l => lt L i l * Q l k)).
  { intros i k Hi Hk. rewrite HA by assumption. symmetry. rewrite (rsum_ext ne _ (fun l => if (l <=? i)%nat then L i l * Q l k else 0)) by (intros l _; unfold lt; destruct (l <=? i)%nat; lra). apply (rsum_low ne i (fun l => L i l * Q l k)). exact Hi. }
  set (xy := TRSV_LNN ne L 0 0 (d_b q) 0 xy0 0). destruct (lnn_eq ne L (d_b q) xy0 Ld) as (Hxy & _). fold xy in Hxy. clearbody xy.
  set (Y := GEMV_T ne nv f1 Q 0 0 xy 0 f0 Yxy0 0 Yxy0 0). assert (HY : forall k, (k < nv)%nat -> Y k = rsum ne (fun l => Q l k * xy l)).
  { intros k Hk. unfold Y, GEMV_T. rewrite vset0 by exact Hk. cbn [Nat.add]. rewrite fsum_R. rsimp. rewrite R_lit01, R_lit11. lra. } clearbody Y.
  set (x1 := GEMV_N (nv - ne) nv (- f1)%F ZtH 0 0 Y 0 f0 xz0 0 xz0 0). assert (E1 : forall i, (i < nv - ne)%nat -> x1 i = - rsum nv (fun k => ZtH i k * Y k)).
  { intros i Hi. unfold x1, GEMV_N. rewrite vset0 by exact Hi. cbn [Nat.add]. rewrite fsum_R. rsimp. rewrite R_lit01, R_lit11. lra. } clearbody x1.
  set (x2 := GEMV_N (nv - ne) nv (- f1)%F Zt 0 0 lv 0 f1 x1 0 x1 0). assert (E2 : forall i, (i < nv - ne)%nat -> x2 i = - rsum nv (fun k => ZtH i k * Y k) - rsum nv (fun k => Zt i k * dh k)).
  { intros i Hi. unfold x2, GEMV_N. rewrite vset0 by exact Hi. cbn [Nat.add]. rewrite fsum_R. rewrite E1 by exact Hi. rsimp. rewrite (rsum_ext nv (fun j => Zt i j * lv j) (fun j => Zt i j * dh j)) by (intros k Hk; rewrite Hlv by exact Hk; reflexivity). rsimp. rewrite R_lit11. lra. } clearbody x2.
  assert (LZd : forall i, (i < nv - ne)%nat -> LZ i i <> 0) by (intros i Hi; specialize (HP i Hi); lra).
  set (xz := TRSV_LTN (nv - ne) LZ 0 0 (TRSV_LNN (nv - ne) LZ 0 0 x2 0 x2 0) 0 (TRSV_LNN (nv - ne) LZ 0 0 x2 0 x2 0) 0).
  pose proof (chol_both (nv - ne) LZ (fun i j => rsum nv (fun k => ZtH i k * Zt j k) + (if (i =? j)%nat then rho else 0)) x2 x2 (TRSV_LNN (nv - ne) LZ 0 0 x2 0 x2 0) LZd HC) as E3. fold xz in E3. cbv beta zeta in E3. clearbody xz.
  set (dvf := GEMV_T (nv - ne) nv f1 Zt 0 0 xz 0 f1 Y 0 dv 0). assert (E4 : forall k, (k < nv)%nat -> dvf k = Y k + rsum (nv - ne) (fun i => Q (ne + i)%nat k * xz i)).
  { intros k Hk. unfold dvf, GEMV_T. rewrite vset0 by exact Hk. cbn [Nat.add]. rewrite fsum_R. rsimp. rewrite R_lit11. rewrite !Rmult_1_l. f_equal. apply rsum_ext. intros i Hi. rewrite HZt by assumption. reflexivity. }
  assert (K : forall k, (nv <= k)%nat -> dvf k = dv k) by (intros k Hk; unfold dvf, GEMV_T; apply vset_out; lia). clearbody dvf.
  set (tm := SYMV_L nv f1 (w_Lv w) 0 0 dvf 0 f1 lv 0 tmp0 0). assert (E5 : forall i, (i < nv)%nat -> tm i = dh i + rsum nv (fun j => dM i j * dvf j)).
  { intros i Hi. unfold tm, SYMV_L. rewrite vset0 by exact Hi. cbn [Nat.add]. rewrite fsum_R. rewrite Hlv by exact Hi. rsimp. rewrite R_lit11. rewrite !Rmult_1_l. f_equal. apply rsum_ext. intros j Hj. f_equal.
    unfold symL. destruct (Nat.leb_spec j i); rewrite HLv by assumption; [reflexivity|apply dM_sym]. } clearbody tm.
  set (p1 := GEMV_N ne nv f1 Q 0 0 tm 0 f0 dpi 0 dpi 0). assert (E6 : forall l, (l < ne)%nat -> p1 l = rsum nv (fun k => Q l k * (dh k + rsum nv (fun j => dM k j * dvf j)))).
  { intros l Hl. unfold p1, GEMV_N. rewrite vset0 by exact Hl. cbn [Nat.add]. rewrite fsum_R. rsimp. rewrite R_lit01, R_lit11. rewrite Rmult_0_l, Rplus_0_l, Rmult_1_l. apply rsum_ext. intros k Hk. rewrite E5 by exact Hk. reflexivity. } clearbody p1.
  destruct (ltn_eq ne L p1 p1 Ld) as (E7 & _). set (pi := TRSV_LTN ne L 0 0 p1 0 p1 0) in *. clearbody pi.
  assert (HXZ : forall i, (i < nv - ne)%nat -> rsum (nv - ne) (fun j => (rsum nv (fun k => rsum nv (fun l => Q (ne + i)%nat l * dM l k) * Q (ne + j)%nat k) + (if (i =? j)%nat then rho else 0)) * xz j) =
    - rsum nv (fun k => rsum nv (fun l => Q (ne + i)%nat l * dM l k) * Y k) - rsum nv (fun k => Q (ne + i)%nat k * dh k)).
  { intros i Hi. assert (EZ : forall k, (k < nv)%nat -> ZtH i k = rsum nv (fun l => Q (ne + i)%nat l * dM l k)) by (intros k Hk; rewrite HZH by assumption; apply rsum_ext; intros l Hl; rewrite HZt by assumption; reflexivity).
    rewrite (rsum_ext nv _ (fun k => ZtH i k * Y k)) by (intros k Hk; rewrite EZ by exact Hk; reflexivity). rewrite (rsum_ext nv (fun k => Q (ne + i)%nat k * dh k) (fun k => Zt i k * dh k)) by (intros k Hk; rewrite HZt by assumption; reflexivity).
    rewrite <- E2 by exact Hi. rewrite <- E3 by exact Hi. apply rsum_ext. intros j Hj. f_equal. f_equal. apply rsum_ext. intros k Hk. rewrite EZ by exact Hk. rewrite HZt by assumption. reflexivity. }
  split; [|split; [|exact K]].
  - exists (nullp nv ne Q xz). destruct (null_row nv ne (d_A q) L Q xy Y xz dvf Ld HA' HY E4) as (y & Hy). exists y. split; [|split].
    + intros k Hk. rewrite <- Hy by exact Hk. ring.
    + intros j Hj. apply (null_p nv ne (d_A q) L Q xz Hne HA' HQ j Hj).
    + apply (null_stat nv ne dM (d_A q) dh rho L Q Y xz pi dvf Hne HA' HQ HQ'); [exact HXZ|exact E4|].
      intros l Hl. rewrite E7 by exact Hl. apply E6. exact Hl.
  - intros j Hj. rewrite (null_eq nv ne (d_A q) (d_b q) L Q xy Y xz dvf Hne HA' HQ Hxy HY E4 j Hj). lra.
Qed.
End Den.
