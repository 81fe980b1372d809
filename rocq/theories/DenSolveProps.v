(** DenSolveProps.v -- C57: removal of linearly dependent equality constraints by the dense solver; C58: the objective it reports. *)
From Coq Require Import ZArith Bool Arith List Reals Lra Lia.
From Coq Require Import Floats.SpecFloat.
From Verif Require Import Base RSum ArithF Blas Blas2 ResSpec OcpModel CoreModel ArgModel DenModel DenSpec DenIpmModel DenSolveModel DenSolveProofs DenSolveProofs2 DenSolveProofs3.
Import ListNotations.

(** ---- any arithmetic: the reduced QP consists of distinct equalities of the given one, and everything else of it ---- *)
Theorem C57_kept_equalities {F} {AF : Arith F} (thr : F) (qp : dqp F) (w : ldws F) : d_ne qp <= d_nv qp + 1 ->
  let qp1 := fst (fst (remove_eq thr qp w)) in
  d_ne qp1 <= d_ne qp /\
  (exists e, (forall i, i < d_ne qp1 -> e i < d_ne qp) /\ (forall i j, i < d_ne qp1 -> j < d_ne qp1 -> e i = e j -> i = j) /\
    forall i, i < d_ne qp1 -> (forall j, j < d_nv qp -> d_A qp1 i j = d_A qp (e i) j) /\ d_b qp1 i = d_b qp (e i)) /\
  d_nv qp1 = d_nv qp /\ d_nb qp1 = d_nb qp /\ d_ng qp1 = d_ng qp /\ d_ns qp1 = d_ns qp /\ d_H qp1 = d_H qp /\ d_Ct qp1 = d_Ct qp /\ d_gz qp1 = d_gz qp /\
  d_d qp1 = d_d qp /\ d_mask qp1 = d_mask qp /\ d_m qp1 = d_m qp /\ d_Z qp1 = d_Z qp /\ d_idxb qp1 = d_idxb qp /\ d_idxs_rev qp1 = d_idxs_rev qp.
Proof.
  intros H. cbv zeta. destruct (remove_rows thr qp w H) as (H1 & H2). split; [exact H1|]. split; [exact H2|]. apply remove_rest.
Qed.
Theorem C57_nothing_removed {F} {AF : Arith F} (thr : F) (qp : dqp F) (w : ldws F) :
  d_ne (fst (fst (remove_eq thr qp w))) = d_ne qp \/ snd (remove_eq thr qp w) = false -> fst (fst (remove_eq thr qp w)) = qp.
Proof. intros [H|H]; [apply remove_keep_all; exact H|apply remove_false; exact H]. Qed.
(** after the solve call the QP is again the given one (unless every equality was removed, see C57_all_removed_refuted, or the workspace holds the
    backup of a larger QP, see C57_stale_backup_refuted); the interior point method ran on the reduced QP, or not at all *)
Theorem C57_solve_call {F} {AF : Arith F} {K} (OP : dkops K) (Ar : arg F) obj cne lq smax (qp : dqp F) sol (ws : ist (K := K)) (w : ldws F) tmp_nv tmp_2ns :
  l_ne w <= d_ne qp -> 0 < d_ne (fst (fst (remove_eq ld_thr qp w))) \/ d_ne qp = 0 ->
  let '(qp2, _, r, _) := den_solve OP Ar true obj cne lq smax qp sol ws w tmp_nv tmp_2ns in
  qp2 = qp /\ r = if snd (remove_eq ld_thr qp w) then Some (dipm_solve OP Ar cne lq smax (fst (fst (remove_eq ld_thr qp w))) sol ws) else None.
Proof.
  intros H1 H2. pose proof (restore_remove ld_thr qp w H1 H2) as R. unfold den_solve. destruct (remove_eq ld_thr qp w) as [[qp1 w1] ok]. cbn [fst snd].
  split; [exact R|]. destruct ok; reflexivity.
Qed.

Local Open Scope R_scope.
(** ---- exact arithmetic ---- *)
(** the reduced QP is a relaxation with the same objective *)
Theorem C57_relaxation (thr : R) (qp : dqp R) (w : ldws R) z : (d_ne qp <= d_nv qp + 1)%nat ->
  let qp1 := fst (fst (remove_eq thr qp w)) in (den_feasible qp z -> den_feasible qp1 z) /\ den_cost qp1 z = den_cost qp z.
Proof.
  intros H. cbv zeta. destruct (C57_kept_equalities thr qp w H) as (H1 & (e & E1 & _ & E3) & E4). set (qp1 := fst (fst (remove_eq thr qp w))) in *.
  destruct E4 as (R1 & R2 & R3 & R4 & R5 & R6 & R7 & R8 & R9 & R10 & R11 & R12 & R13). split.
  - intros (F1 & F2). split.
    + intros j Hj. rewrite <- (F1 (e j) (E1 j Hj)). unfold den_eq. destruct (E3 j Hj) as (EA & Eb). rewrite Eb, R1. f_equal. apply rsum_ext. intros k Hk. rewrite EA by exact Hk. reflexivity.
    + unfold den_con, den_G, d_nct, dnv in *. rewrite R1, R2, R3, R4, R6, R8, R9, R12, R13. exact F2.
  - unfold den_cost, den_Hess, dnv. rewrite R1, R4, R5, R7, R11. reflexivity.
Qed.

(** INCONS_EQ: a combination of the equalities has a right-hand side above the threshold and coefficients within 2^ne of it ... *)
Theorem C57_inconsistent (thr : R) (qp : dqp R) (w : ldws R) : 0 <= thr -> (d_ne qp <= d_nv qp)%nat -> snd (remove_eq thr qp w) = false ->
  exists y, (forall c, (c < d_nv qp)%nat -> Rabs (rsum (d_ne qp) (fun k => y k * d_A qp k c)) <= 2 ^ d_ne qp * thr) /\
            thr < Rabs (rsum (d_ne qp) (fun k => y k * d_b qp k)).
Proof. apply remove_incons. Qed.
(** ... so that a solution, if there is one, is large when the threshold is positive, and there is none for threshold 0 *)
Theorem C57_inconsistent_solutions (thr : R) (qp : dqp R) (w : ldws R) z : 0 <= thr -> (d_ne qp <= d_nv qp)%nat -> snd (remove_eq thr qp w) = false ->
  (forall j, (j < d_ne qp)%nat -> den_eq qp z j = 0) -> 0 < thr /\ 1 < 2 ^ d_ne qp * rsum (d_nv qp) (fun k => Rabs (z k)).
Proof.
  intros Ht Hn Hf Hz. destruct (remove_incons thr qp w Ht Hn Hf) as (y & H1 & H2).
  assert (E : rsum (d_ne qp) (fun k => y k * d_b qp k) = rsum (d_nv qp) (fun c => rsum (d_ne qp) (fun k => y k * d_A qp k c) * z c)).
  { rewrite (rsum_ext (d_ne qp) _ (fun k => rsum (d_nv qp) (fun c => y k * d_A qp k c * z c))).
    2:{ intros k Hk. specialize (Hz k Hk). unfold den_eq in Hz. replace (d_b qp k) with (rsum (d_nv qp) (fun c => d_A qp k c * z c)) by lra.
        rewrite <- rsum_scal. apply rsum_ext. intros c _. lra. }
    rewrite rsum_swap. apply rsum_ext. intros c _. rewrite rsum_scal_r. reflexivity. }
  rewrite E in H2.
  assert (B : Rabs (rsum (d_nv qp) (fun c => rsum (d_ne qp) (fun k => y k * d_A qp k c) * z c)) <= 2 ^ d_ne qp * thr * rsum (d_nv qp) (fun k => Rabs (z k))).
  { eapply Rle_trans; [apply rsum_abs_le|]. rewrite <- rsum_scal. apply rsum_le. intros c Hc. rewrite Rabs_mult. apply Rmult_le_compat_r; [apply Rabs_pos|apply H1, Hc]. }
  assert (L : thr * 1 < thr * (2 ^ d_ne qp * rsum (d_nv qp) (fun k => Rabs (z k)))) by lra.
  destruct Ht as [Ht|<-]; [|lra]. split; [exact Ht|]. apply Rmult_lt_reg_l with thr; assumption.
Qed.

(** when the leading columns of A carry its rank, and with threshold 0, the removal does exactly what it is for *)
Theorem C57_leading_rank (qp : dqp R) (w : ldws R) r : (d_ne qp <= d_nv qp)%nat ->
  (* the first r columns of A are linearly independent and span the other columns *)
  (r <= d_ne qp)%nat /\ (r <= d_nv qp)%nat /\
  (forall z, (forall i, (i < d_ne qp)%nat -> rsum r (fun k => d_A qp i k * z k) = 0) -> forall k, (k < r)%nat -> z k = 0) /\
  (forall c, (c < d_nv qp)%nat -> exists z, forall i, (i < d_ne qp)%nat -> d_A qp i c = rsum r (fun k => d_A qp i k * z k)) ->
  let '(qp1, _, ok) := remove_eq 0 qp w in
  (* INCONS_EQ exactly when the equalities have no solution *)
  (ok = true <-> exists z, forall j, (j < d_ne qp)%nat -> den_eq qp z j = 0) /\
  (* otherwise r equalities are kept, they are linearly independent, and have the same solutions *)
  (ok = true -> d_ne qp1 = r /\
    (forall z, (forall j, (j < d_ne qp1)%nat -> den_eq qp1 z j = 0) <-> (forall j, (j < d_ne qp)%nat -> den_eq qp z j = 0)) /\
    (forall y, (forall c, (c < d_nv qp)%nat -> rsum r (fun i => y i * d_A qp1 i c) = 0) -> forall i, (i < r)%nat -> y i = 0)).
Proof.
  intros Hn Hl. pose proof (remove_lead qp w r Hn Hl) as H. destruct (remove_eq 0 qp w) as [[qp1 w1] ok].
  assert (E : forall (q : dqp R) z, eq_hold q z <-> forall j, (j < d_ne q)%nat -> den_eq q z j = 0).
  { intros q z. unfold eq_hold, den_eq. split; intros G j Hj; specialize (G j Hj); lra. }
  destruct H as (H1 & H2). split.
  - rewrite H1. split; intros (z & Hz); exists z; apply E; exact Hz.
  - intros Eo. destruct (H2 Eo) as (G1 & G2 & G3). split; [exact G1|]. split; [|exact G3]. intros z. rewrite <- !E. apply G2.
Qed.

(** ---- hypotheses met: x1 + x3 = 1, x2 + x3 = 2, x1 + x2 + 2 x3 = 3 (the sum), and the same with right-hand side 4 ---- *)
Definition exA (i k : nat) : R := match i, k with 0, 0 | 1, 1 | 2, 0 | 2, 1 | 0, 2 | 1, 2 => 1%R | 2, 2 => 2%R | _, _ => 0%R end%nat.
Definition exq (b2 : R) : dqp R := mkdqp 3 3 0 0 0 (fun _ _ => 0) exA (fun _ _ => 0) (fun _ => 0) (fun j => match j with 0 => 1%R | 1 => 2%R | _ => b2 end%nat)
  (fun _ => 0) (fun _ => 0) (fun _ => 0) (fun _ => 0) (fun _ => 0%nat) (fun _ => (-1)%Z).
Lemma exq_lead b2 : let qp := exq b2 in (2 <= d_ne qp)%nat /\ (2 <= d_nv qp)%nat /\
  (forall z, (forall i, (i < d_ne qp)%nat -> rsum 2 (fun k => d_A qp i k * z k) = 0) -> forall k, (k < 2)%nat -> z k = 0) /\
  (forall c, (c < d_nv qp)%nat -> exists z, forall i, (i < d_ne qp)%nat -> d_A qp i c = rsum 2 (fun k => d_A qp i k * z k)).
Proof.
  cbv zeta. cbn [exq d_ne d_nv d_A]. split; [lia|]. split; [lia|]. split.
  - intros z H k Hk. pose proof (H 0%nat ltac:(lia)) as H0. pose proof (H 1%nat ltac:(lia)) as H1. cbn [rsum exA] in H0, H1. destruct k as [|[|k]]; [lra|lra|lia].
  - intros c Hc. exists (fun k => match c with 2 => 1%R | _ => if Nat.eqb k c then 1%R else 0%R end%nat). intros i Hi.
    destruct i as [|[|[|i]]]; [| | |lia]; destruct c as [|[|[|c]]]; try lia; cbn; lra.
Qed.
Example C57_hypotheses_met (w : ldws R) :
  (d_ne (exq 3) <= d_nv (exq 3))%nat /\ snd (remove_eq 0 (exq 3) w) = true /\ d_ne (fst (fst (remove_eq 0 (exq 3) w))) = 2%nat /\
  snd (remove_eq 0 (exq 4) w) = false.
Proof.
  pose proof (C57_leading_rank (exq 3) w 2 (le_n _) (exq_lead 3)) as H. pose proof (C57_leading_rank (exq 4) w 2 (le_n _) (exq_lead 4)) as H'.
  destruct (remove_eq 0 (exq 3) w) as [[q1 w1] ok]. destruct (remove_eq 0 (exq 4) w) as [[q2 w2] ok2]. cbn [fst snd]. destruct H as (H1 & H2). destruct H' as (H3 & _).
  assert (O : ok = true).
  { apply H1. exists (fun k => match k with 0 => 1%R | 1 => 2%R | _ => 0%R end%nat). intros j Hj. cbn in Hj. unfold den_eq. destruct j as [|[|[|j]]]; [| | |lia]; cbn; lra. }
  split; [exact (le_n 3)|]. split; [exact O|]. split; [apply H2; exact O|].
  destruct ok2; [|reflexivity]. exfalso. destruct (proj1 H3 eq_refl) as (z & Hz).
  pose proof (Hz 0%nat ltac:(cbn; lia)) as Z0. pose proof (Hz 1%nat ltac:(cbn; lia)) as Z1. pose proof (Hz 2%nat ltac:(cbn; lia)) as Z2.
  unfold den_eq in *. cbn in Z0, Z1, Z2. lra.
Qed.

(** ---- C58 ---- *)
Theorem C58_objective (qp : dqp R) (v t1 t2 : nat -> R) : den_obj qp v t1 t2 = den_cost qp v.
Proof.
  unfold den_obj, den_cost, DOT, dnv. rewrite !fsum_R. set (n := d_nv qp). set (s := (2 * d_ns qp)%nat). cbn [Nat.add]. rsimp.
  assert (Hh : forall k l, (k < n)%nat -> (l < n)%nat -> den_Hess qp k l = symL (d_H qp) k l).
  { intros k l Hk Hl. unfold den_Hess, H_co, symL. fold n. destruct (Nat.ltb_spec k n); [|lia]. destruct (Nat.ltb_spec l n); [reflexivity|lia]. }
  assert (Hc : forall k l, (k < n)%nat -> (n <= l)%nat -> den_Hess qp k l = 0).
  { intros k l Hk Hl. unfold den_Hess, H_co. fold n. destruct (Nat.ltb_spec k n); [|lia]. destruct (Nat.ltb_spec l n); [lia|reflexivity]. }
  assert (Hd : forall k l, (n <= k)%nat -> den_Hess qp k l = if Nat.eqb k l then d_Z qp (k - n)%nat else 0).
  { intros k l Hk. unfold den_Hess, H_co. fold n. destruct (Nat.ltb_spec k n); [lia|reflexivity]. }
  rewrite !(rsum_split n s).
  rewrite (rsum_ext n (fun i => SYMV_L n _ _ 0 0 v 0 _ _ 0 t1 0 i * v i) (fun k => 1 / 2 * rsum (n + s) (fun l => v k * den_Hess qp k l * v l) + d_gz qp k * v k)).
  2:{ intros k Hk. rewrite rsum_split, (rsum_0 s), Rplus_0_r by (intros l Hl; rewrite Hc by lia; lra).
      unfold SYMV_L. change k with (0 + k)%nat at 1. rewrite vset_in by exact Hk. rewrite fsum_R. cbn [Nat.add]. rsimp.
      rewrite (rsum_ext n (fun l => v k * den_Hess qp k l * v l) (fun l => v k * (symL (fun r c => d_H qp r c) k l * v l))).
      2:{ intros l Hl. rewrite Hh by lia. change (symL (fun r c => d_H qp r c) k l) with (symL (d_H qp) k l). lra. }
      rewrite rsum_scal. lra. }
  rewrite (rsum_ext s (fun i => GEMV_DIAG s _ _ 0 v n _ _ n t2 0 i * v (n + i)%nat) (fun i => 1 / 2 * rsum (n + s) (fun l => v (n + i)%nat * den_Hess qp (n + i) l * v l) + d_gz qp (n + i)%nat * v (n + i)%nat)).
  2:{ intros i Hi. unfold GEMV_DIAG. change i with (0 + i)%nat at 1. rewrite vset_in by exact Hi. cbn [Nat.add]. rsimp.
      rewrite (rsum_ext (n + s) _ (fun l => if Nat.eqb (n + i) l then v (n + i)%nat * d_Z qp i * v l else 0)).
      2:{ intros l _. rewrite Hd by lia. destruct (Nat.eqb (n + i) l); [|lra]. replace (n + i - n)%nat with i by lia. reflexivity. }
      rewrite (rsum_one' (n + s) (n + i) (fun l => v (n + i)%nat * d_Z qp i * v l)) by lia. lra. }
  rewrite !rsum_add, !rsum_scal. lra.
Qed.
(** the value reported by the solve call is the objective of the given QP at the returned point, also when equalities were removed for the solve *)
Theorem C58_reported {K} (OP : dkops K) (Ar : arg R) rem cne lq smax (qp : dqp R) sol (ws : ist (K := K)) (w : ldws R) tmp_nv tmp_2ns :
  (rem = true -> l_ne w <= d_ne qp /\ (0 < d_ne (fst (fst (remove_eq ld_thr qp w))) \/ d_ne qp = 0))%nat ->
  let '(_, _, r, ob) := den_solve OP Ar rem true cne lq smax qp sol ws w tmp_nv tmp_2ns in
  ob = Some (den_cost qp (va_v (match r with Some o => o_x o | None => sol end))).
Proof.
  intros H. destruct rem.
  - destruct (H eq_refl) as (H1 & H2). pose proof (C57_solve_call OP Ar true cne lq smax qp sol ws w tmp_nv tmp_2ns H1 H2) as S. unfold den_solve in *.
    destruct (remove_eq ld_thr qp w) as [[qp1 w1] ok]. destruct S as (S & _). rewrite S. rewrite C58_objective. reflexivity.
  - unfold den_solve. rewrite C58_objective. reflexivity.
Qed.
Example C58_value : den_obj (mkdqp 2 0 1 0 1 (fun i j => match i, j with 0, 0 => 2%R | 1, 0 => 1%R | 1, 1 => 4%R | _, _ => 77%R end%nat) (fun _ _ => 0) (fun _ _ => 0)
   (fun k => match k with 0 => 1%R | 1 => 0%R | 2 => 3%R | _ => 0%R end%nat) (fun _ => 0) (fun _ => 0) (fun _ => 1) (fun _ => 0) (fun k => match k with 0 => 8%R | _ => 2%R end%nat) (fun _ => 0%nat) (fun _ => 0%Z))
   (fun k => match k with 0 => 1%R | 1 => 2%R | 2 => 1%R | _ => 0%R end%nat) (fun _ => 0) (fun _ => 0) = 19.
Proof. rewrite C58_objective. unfold den_cost, den_Hess, H_co. cbn. lra. Qed.

(** ---- what the removal does not do (IEEE double precision, threshold of the code) ---- *)
Section Wit.
Local Open Scope nat_scope.
Let zz (z : Z) : spec_float := sf_of_Z z.
Let MM (l : list (list Z)) : nat -> nat -> spec_float := fun i j => zz (nth j (nth i l []) 0%Z).
Let VV (l : list Z) : nat -> spec_float := fun i => zz (nth i l 0%Z).
Let Q (ne nv : nat) (A : nat -> nat -> spec_float) (b : nat -> spec_float) : dqp spec_float :=
  mkdqp nv ne 0 0 0 (fun _ _ => zz 0) A (fun _ _ => zz 0) (fun _ => zz 0) b (fun _ => zz 0) (fun _ => zz 0) (fun _ => zz 0) (fun _ => zz 0) (fun _ => 0) (fun _ => (-1)%Z).
Let w0 : ldws spec_float := mkldws (fun _ _ => zz 0) (fun _ => zz 0) (fun _ _ => zz 0) (fun _ => 0) 0 (fun _ _ => zz 0) (fun _ => zz 0).
(** the equality holds at v, evaluated exactly here: all numbers below are small integers or powers of two *)
Let holds (q : dqp spec_float) (v : nat -> spec_float) (j : nat) : bool := feqb (DOT (d_nv q) (d_A q j) 0 v 0) (d_b q j).
Let hold (q : dqp spec_float) (v : nat -> spec_float) : bool := forallb (holds q v) (seq 0 (d_ne q)).

(** an equality independent of the others is removed (after a column without pivot, the entry on the diagonal is no longer the one to test) *)
Let A4 := [[0; -1; 0; 0]; [0; 1; 1; 2]; [0; 1; -1; 4]; [0; -1; -1; 4]]%Z.
Theorem C57_independent_equality_removed_refuted : let qp := Q 4 4 (MM A4) (VV [1; 0; 4; 6]%Z) in
  let '(qp1, _, ok) := remove_eq ld_thr qp w0 in
  ok = true /\ d_ne qp1 = 3 /\ (exists v, hold qp v = true) /\ exists v, hold qp1 v = true /\ hold qp v = false.
Proof.
  cbv zeta. destruct (remove_eq ld_thr (Q 4 4 (MM A4) (VV [1; 0; 4; 6]%Z)) w0) as [[qp1 w1] ok] eqn:E.
  assert (H : ok = true /\ d_ne qp1 = 3 /\ hold qp1 (VV [0; -1; -5; 0]%Z) = true).
  { assert (X : (snd (remove_eq ld_thr (Q 4 4 (MM A4) (VV [1; 0; 4; 6]%Z)) w0), d_ne (fst (fst (remove_eq ld_thr (Q 4 4 (MM A4) (VV [1; 0; 4; 6]%Z)) w0))),
       hold (fst (fst (remove_eq ld_thr (Q 4 4 (MM A4) (VV [1; 0; 4; 6]%Z)) w0))) (VV [0; -1; -5; 0]%Z)) = (true, 3, true)) by (vm_compute; reflexivity).
    rewrite E in X. cbn [fst snd] in X. injection X as X1 X2 X3. auto. }
  destruct H as (H1 & H2 & H3). split; [exact H1|]. split; [exact H2|]. split.
  - exists (VV [0; -1; -1; 1]%Z). vm_compute. reflexivity.
  - exists (VV [0; -1; -5; 0]%Z). split; [exact H3|]. vm_compute. reflexivity.
Qed.
(** elimination uses the absolute value of the entry: x2 = 1, -x2 = -1 are both kept, and x2 = 1, -x2 = 1 is not reported *)
Theorem C57_sign_of_multiplier_refuted :
  let q1 := Q 2 2 (MM [[0; 1]; [0; -1]]%Z) (VV [1; -1]%Z) in let q2 := Q 2 2 (MM [[0; 1]; [0; -1]]%Z) (VV [1; 1]%Z) in
  (snd (remove_eq ld_thr q1 w0) = true /\ d_ne (fst (fst (remove_eq ld_thr q1 w0))) = 2) /\ snd (remove_eq ld_thr q2 w0) = true.
Proof. vm_compute. repeat split. Qed.
(** more equalities than variables: x = 0, x = 1 is accepted and both are kept *)
Theorem C57_more_equalities_than_variables_refuted : let qp := Q 2 1 (MM [[1]; [1]]%Z) (VV [0; 1]%Z) in
  snd (remove_eq ld_thr qp w0) = true /\ d_ne (fst (fst (remove_eq ld_thr qp w0))) = 2.
Proof. vm_compute. repeat split. Qed.
(** the threshold is absolute: 2^-50 x = 2^-46 is reported inconsistent, although x = 16 *)
Theorem C57_absolute_threshold_refuted : let qp := Q 1 1 (fun _ _ => lit 1 (2 ^ 50)) (fun _ => lit 1 (2 ^ 46)) in
  hold qp (VV [16]%Z) = true /\ snd (remove_eq ld_thr qp w0) = false.
Proof. vm_compute. split; reflexivity. Qed.
(** all equalities removed (0 x = 0): the number of equalities is not restored *)
Theorem C57_all_removed_refuted : let qp := Q 1 1 (MM [[0]]%Z) (VV [0]%Z) in
  let '(qp1, w1, ok) := remove_eq ld_thr qp w0 in ok = true /\ d_ne (restore_eq qp1 w1) = 0 /\ d_ne qp = 1.
Proof. vm_compute. repeat split. Qed.
(** the backup in the workspace is not tied to the call: after (or with memory as if after) a QP with more equalities, or one that lost some, a QP with
    independent equalities comes back with the backed-up ones *)
Theorem C57_stale_backup_refuted : let qpa := Q 2 2 (MM [[1; 0]; [2; 0]]%Z) (VV [1; 2]%Z) in let qpb := Q 1 2 (MM [[0; 1]]%Z) (VV [3]%Z) in
  let '(_, w1, _) := remove_eq ld_thr qpa w0 in let '(q1, w2, ok) := remove_eq ld_thr qpb w1 in
  ok = true /\ d_ne q1 = 1 /\ d_ne (restore_eq q1 w2) = 2 /\ feqb (d_b (restore_eq q1 w2) 0) (d_b qpb 0) = false.
Proof. vm_compute. repeat split. Qed.
End Wit.

Print Assumptions C57_kept_equalities.
Print Assumptions C57_solve_call.
Print Assumptions C57_relaxation.
Print Assumptions C57_inconsistent_solutions.
Print Assumptions C57_leading_rank.
Print Assumptions C58_objective.
Print Assumptions C58_reported.
Print Assumptions C57_independent_equality_removed_refuted.
