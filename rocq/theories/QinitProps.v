(** QinitProps.v -- C62: the initial iterate of the OCP QCQP interior point solver (exact arithmetic; counterexamples in IEEE doubles). *)
From Coq Require Import ZArith Bool Arith List Lia Reals Lra.
From Coq Require Import Floats.SpecFloat.
From Verif Require Import Base ArithF Blas Blas2 QpDataProofs OcpModel CoreModel ArgModel IpmModel IpmInit QcqpModel QcqpSpec QipmModel Qinit.
Local Open Scope R_scope.

Section P.
Variables (QA : arg R) (qc : oqcqp R) (lgm ugm : nat -> R) (sol : osol R).
Let D := c_dim qc.
Let s' := qinit_var QA qc lgm ugm sol.

(** C62: with the default choice of initial multipliers (t0_init neither 0 nor 1), cold start or warm start of the primal variables: every slack of the
    initial iterate is strictly positive and its multiplier puts the product exactly at mu0, except on the lower sides of the quadratic constraints, which
    QCQP has not got: there the multiplier is 0 and the slack is 1.  Warm start of all the variables: the given values, raised to the thresholds.
    [lgm], [ugm] are whatever memory the code happens to read for the masks of the general constraints. *)
Theorem C62_interior i c : (c < cnc qc i)%nat ->
  ((ai QA warm_start <= 1)%Z -> ai QA t0_init <> 0%Z -> ai QA t0_init <> 1%Z -> 0 < ar QA mu0 ->
     0 < s_t s' i c /\ (lowerq qc i c = false -> 0 < s_lam s' i c /\ s_lam s' i c * s_t s' i c = ar QA mu0) /\ (lowerq qc i c = true -> s_lam s' i c = 0 /\ s_t s' i c = 1)) /\
  (ai QA warm_start = 2%Z -> Rmax (s_lam sol i c) (1 / 10) = s_lam s' i c /\ Rmax (s_t sol i c) (1 / 10) = s_t s' i c) /\
  ((3 <= ai QA warm_start)%Z -> Rmax (s_lam sol i c) (ar QA lam0_min) = s_lam s' i c /\ Rmax (s_t sol i c) (ar QA t0_min) = s_t s' i c).
Proof.
  intros Hc. unfold s', qinit_var. cbn [s_lam s_t]. unfold qinit_stage. unfold lowerq. unfold cnc, cn2 in Hc |- *. fold D in Hc |- *.
  set (nb := dnb D i) in *. set (ng := dng D i) in *. set (nq := c_nq qc i) in *. set (ns := dns D i) in *.
  set (nc := (2 * nb + 2 * ng + 2 * nq + 2 * ns)%nat). assert (Hn : (c < nc)%nat) by (unfold nc; lia).
  assert (CL : forall a b, let '(l, t) := clip_lt nc a b (s_lam sol i, s_t sol i) in Rmax (s_lam sol i c) a = l c /\ Rmax (s_t sol i c) b = t c).
  { intros a b. pose proof (clip_lt_val nc a b (s_lam sol i) (s_t sol i)) as V.
    destruct (clip_lt _ _ _ _) as [l t]. destruct (V c Hn) as [V1 V2]. rewrite V1, V2. split; unfold Rmax; [destruct (Rltb_spec (s_lam sol i c) a), (Rle_dec (s_lam sol i c) a)|destruct (Rltb_spec (s_t sol i c) b), (Rle_dec (s_t sol i c) b)]; lra. }
  clearbody nc. split; [|split].
  - intros Hw T0 T1 Hmu. destruct (Z.leb_spec 3 (ai QA warm_start)) as [Hx|_]; [lia|]. destruct (Z.eqb_spec (ai QA warm_start) 2) as [Hx|_]; [lia|].
    set (ux := if Z.eqb (ai QA warm_start) 0 then _ else _). clearbody ux.
    destruct (Z.eqb_spec (ai QA t0_init) 0) as [Hx|_]; [contradiction|]. destruct (Z.eqb_spec (ai QA t0_init) 1) as [Hx|_]; [contradiction|].
    assert (Cn : forall l t : rv, centred (ar QA mu0) l t c -> 0 < l c /\ 0 < t c /\ l c * t c = ar QA mu0).
    { intros l t [C1 C2]. split; [|split; assumption]. apply Rmult_lt_reg_r with (t c); [exact C1|]. rewrite Rmult_0_l, C2. exact Hmu. }
    rewrite qinit_box_eq. pose proof (init_box_R (ar QA mu0) nb (ng + nq) (c_idxb qc i) (c_d qc i) (fun k => if (k <? nb)%nat then c_mask qc i k else c_mask qc i (k - nq)%nat) ux (s_lam sol i) (s_t sol i)) as B.
    destruct (init_box _ _ _ _ _ _ _) as [[u1 l1] t1]. destruct B as (B1 & _).
    pose proof (qinit_gen_R (ar QA mu0) (dnu D i + dnx D i) nb ng nq (c_DCt qc i) (c_d qc i) lgm ugm u1 l1 t1) as G.
    destruct (qinit_gen _ _ _ _ _ _ _ _ _ _ _) as [l2 t2]. destruct G as (G1 & G2).
    pose proof (qinit_soft_R (ar QA mu0) (2 * nb + 2 * ng + 2 * nq) ns l2 t2) as S.
    destruct (qinit_soft _ _ _ _) as [l3 t3]. destruct S as (S1 & S2).
    pose proof (qinit_quad_R (ar QA mu0) (nb + ng) (2 * nb + 2 * ng + nq) nq l3 t3 ltac:(lia)) as Q.
    destruct (qinit_quad _ _ _ _ _) as [l4 t4]. destruct Q as (Q1 & Q2). cbn [fst snd].
    destruct ((nb + ng <=? c) && (c <? nb + ng + nq))%nat eqn:El.
    + apply andb_prop in El. destruct El as [E1 E2]. apply Nat.leb_le in E1. apply Nat.ltb_lt in E2.
      destruct (Q1 (c - (nb + ng))%nat ltac:(lia)) as [[Q3 Q4] _]. replace (nb + ng + (c - (nb + ng)))%nat with c in Q3, Q4 by lia.
      rewrite Q4. split; [lra|]. split; [discriminate|]. intros _. split; [exact Q3|reflexivity].
    + assert (El' : (c < nb + ng \/ nb + ng + nq <= c)%nat).
      { apply andb_false_iff in El. destruct El as [E|E]; [apply Nat.leb_gt in E|apply Nat.ltb_ge in E]; lia. }
      assert (Cc : centred (ar QA mu0) l4 t4 c).
      { unfold centred. destruct (Nat.lt_ge_cases c (2 * nb + 2 * ng + nq)) as [A1|A1].
        - destruct (Q2 c ltac:(lia)) as [-> ->]. destruct (S2 c ltac:(lia)) as [-> ->].
          destruct (Nat.lt_ge_cases c nb) as [A2|A2]; [destruct (G2 c ltac:(lia)) as [-> ->]; apply B1; exact A2|].
          destruct (Nat.lt_ge_cases c (nb + ng)) as [A3|A3]; [replace c with (nb + (c - nb))%nat by lia; apply G1; lia|].
          destruct (Nat.lt_ge_cases c (2 * nb + ng + nq)) as [A4|A4].
          + destruct (G2 c ltac:(lia)) as [-> ->]. replace c with (nb + (ng + nq) + (c - nb - ng - nq))%nat by lia. apply B1; lia.
          + replace c with (2 * nb + ng + nq + (c - 2 * nb - ng - nq))%nat by lia. apply G1; lia.
        - destruct (Nat.lt_ge_cases c (2 * nb + 2 * ng + 2 * nq)) as [A2|A2].
          + replace c with (2 * nb + 2 * ng + nq + (c - 2 * nb - 2 * ng - nq))%nat by lia. apply Q1. lia.
          + destruct (Q2 c ltac:(lia)) as [-> ->]. replace c with (2 * nb + 2 * ng + 2 * nq + (c - 2 * nb - 2 * ng - 2 * nq))%nat by lia. apply S1. lia. }
      destruct (Cn _ _ Cc) as (C1 & C2 & C3). split; [exact C2|]. split; [intros _; split; assumption|discriminate].
  - intros Hw. rewrite Hw. cbn [Z.leb Z.compare Pos.compare Pos.compare_cont Z.eqb Pos.eqb]. specialize (CL thr0 thr0). change (1 / 10) with (thr0 (F := R)).
    destruct (clip_lt _ _ _ _) as [l t]. exact CL.
  - intros Hw. destruct (Z.leb_spec 3 (ai QA warm_start)) as [_|Hx]; [|lia]. specialize (CL (ar QA lam0_min) (ar QA t0_min)).
    destruct (clip_lt _ _ _ _) as [l t]. exact CL.
Qed.

(** C62: the bounded variables, cold or primal warm start, default t0_init, every bounded variable named once in idxb, at a stage where the entry read for the
    mask of each upper bound has the value of that mask (always when the stage has no quadratic constraint).  As C31_bounds. *)
Theorem C62_bounds i : (ai QA warm_start <= 1)%Z -> ai QA t0_init = 2%Z -> 0 < ar QA mu0 ->
  let nb := dnb D i in let ng := dng D i in let nq := c_nq qc i in let idxb := c_idxb qc i in let mask := c_mask qc i in let d := c_d qc i in
  (forall j, (j < nb)%nat -> (idxb j < dnu D i + dnx D i)%nat) ->
  (forall j k, (j < nb)%nat -> (k < nb)%nat -> idxb j = idxb k -> j = k) ->
  (forall j, (j < nb)%nat -> mask (nb + ng + j)%nat = mask (nb + ng + nq + j)%nat) ->
  (forall j, (j < nb)%nat -> let lb := d j in let ub := - d (nb + ng + nq + j)%nat in let x := s_ux s' i (idxb j) in
     (mask j <> 0 -> mask (nb + ng + nq + j)%nat <> 0 -> 1 / 10 <= ub - lb -> lb <= x <= ub /\ (2 / 10 <= ub - lb -> lb + 1 / 10 <= x <= ub - 1 / 10)) /\
     (mask j <> 0 -> mask (nb + ng + nq + j)%nat = 0 -> lb + 1 / 10 <= x) /\ (mask j = 0 -> mask (nb + ng + nq + j)%nat <> 0 -> x <= ub - 1 / 10)) /\
  (forall k, (k < dnu D i + dnx D i)%nat -> (forall j, (j < nb)%nat -> idxb j <> k) -> s_ux s' i k = if Z.eqb (ai QA warm_start) 0 then 0 else s_ux sol i k).
Proof.
  intros Hw Ht Hmu. cbv zeta. intros Hr Hinj Hm. unfold s', qinit_var. cbn [s_ux]. unfold qinit_stage. fold D. rewrite Ht.
  destruct (Z.leb_spec 3 (ai QA warm_start)) as [Hx|_]; [lia|]. destruct (Z.eqb_spec (ai QA warm_start) 2) as [Hx|_]; [lia|]. cbn [Z.eqb].
  set (nb := dnb D i) in *. set (ng := dng D i) in *. set (nq := c_nq qc i) in *.
  set (ux := if Z.eqb (ai QA warm_start) 0 then _ else _).
  assert (Eu : forall k, (k < dnu D i + dnx D i)%nat -> ux k = if Z.eqb (ai QA warm_start) 0 then 0 else s_ux sol i k).
  { intros k Hk. unfold ux. destruct (Z.eqb (ai QA warm_start) 0); [|reflexivity]. unfold VECSE. rewrite vset0_in by lia. rsimp. apply R_lit01. }
  clearbody ux. rewrite qinit_box_eq.
  pose proof (init_box_R (ar QA mu0) nb (ng + nq) (c_idxb qc i) (c_d qc i) (fun k => if (k <? nb)%nat then c_mask qc i k else c_mask qc i (k - nq)%nat) ux (s_lam sol i) (s_t sol i)) as B.
  destruct (init_box _ _ _ _ _ _ _) as [[u1 l1] t1]. destruct B as (_ & B2 & B3).
  destruct (qinit_gen _ _ _ _ _ _ _ _ _ _ _) as [l2 t2]. destruct (qinit_soft _ _ _ _) as [l3 t3]. destruct (qinit_quad _ _ _ _ _) as [l4 t4]. cbn [fst snd]. split.
  - intros j Hj. specialize (B3 Hinj j Hj). cbv zeta in B3. revert B3. destruct (Nat.ltb_spec j nb) as [_|Hx]; [|lia].
    replace (nb + (ng + nq) + j)%nat with (nb + ng + nq + j)%nat by lia. destruct (Nat.ltb_spec (nb + ng + nq + j) nb) as [Hx|_]; [lia|].
    replace (nb + ng + nq + j - nq)%nat with (nb + ng + j)%nat by lia. rewrite (Hm j Hj). exact (fun H => H).
  - intros k Hk Hn. rewrite B2 by exact Hn. apply Eu. exact Hk.
Qed.
End P.
Print Assumptions C62_interior.
Print Assumptions C62_bounds.

(** a concrete case: -3 <= u <= 2, u^2/2 <= 8 (nb = nq = 1), cold start of the SPEED preset, the masks of the solver (lower side of the quadratic constraint off) *)
Definition xi_D : dims := mkdims 0 (fun _ => 0%nat) (fun _ => 1%nat) (fun _ => 1%nat) (fun _ => 0%nat) (fun _ => 0%nat).
Definition xi_qc {F} {AF : Arith F} (lb ub : Z) : oqcqp F := mkqc xi_D (fun _ => 1%nat) (fun _ _ _ => f0) (fun _ _ _ => f1) (fun _ _ _ => f0) (fun _ _ _ _ => f1) (fun _ _ => f0) (fun _ _ => f0)
  (fun _ c => match c with 0%nat => lit lb 1 | 2%nat => lit (- ub) 1 | 3%nat => lit (-8) 1 | _ => f0 end) (fun _ _ => f1) (fun _ _ => f0) (fun _ _ => f0) (fun _ _ => 0%nat) (fun _ _ => (-1)%Z).
Definition xi_s0 {F} {AF : Arith F} (v : F) : osol F := mksol (fun _ _ => f0) (fun _ _ => f0) (fun _ _ => v) (fun _ _ => v).
Example C62_hypotheses_met (a : arg R) : let QA := arg_set_default SPEED a in
  (ai QA warm_start <= 1)%Z /\ ai QA t0_init = 2%Z /\ 0 < ar QA mu0 /\ cnc (xi_qc (-3) 2) 0%nat = 4%nat /\ lowerq (xi_qc (-3) 2) 0%nat 1%nat = true /\ lowerq (xi_qc (-3) 2) 0%nat 3%nat = false /\
  (forall j, (j < 1)%nat -> c_mask (F := R) (xi_qc (-3) 2) 0%nat (1 + 0 + j)%nat = c_mask (F := R) (xi_qc (-3) 2) 0%nat (1 + 0 + 1 + j)%nat).
Proof. cbn. repeat split; try lia; try lra. Qed.

Local Open Scope Z_scope.
Section Wit.
Let A0 : arg spec_float := mkarg (fun _ => lit 0 1) (fun _ => 0).
Let speed : arg spec_float := arg_set_default SPEED A0.
Definition with_t0 (v : Z) (A : arg spec_float) : arg spec_float := mkarg (ar A) (fun k => match k with t0_init => v | _ => ai A k end).
Let z : nat -> spec_float := fun _ => f0.

(** The mask of the upper bounds (IEEE doubles): -3 <= u <= -2 and u^2/2 <= 8, all the masks of the user 1.  After the solver has masked the lower side of the
    quadratic constraint, the initialisation reads that 0 as the mask of the upper bound and starts at u = 0, above it (without the quadratic constraint it
    starts inside, by C31_bounds). *)
Theorem C62_upper_bound_mask_refuted :
  let qc := masked_qc (xi_qc (-3) (-2)) in let s := qinit_var speed qc z z (xi_s0 f1) in
  feqb (c_mask qc 0%nat 2%nat) f1 = true /\ SFltb (fopp (c_d qc 0%nat 2%nat)) (s_ux s 0%nat 0%nat) = true.
Proof. split; vm_compute; reflexivity. Qed.
(** t0_init = 0 or 1: the multipliers and slacks of the last 2*nq constraints (here the upper side of the bound and of the quadratic constraint) keep their
    previous values, whatever they were (here -1), although the start is cold. *)
Theorem C62_t0_init_refuted : forall v, v = 0 \/ v = 1 ->
  let s := qinit_var (with_t0 v speed) (xi_qc (-3) 2) z z (xi_s0 (fopp f1)) in
  SFltb (s_t s 0%nat 3%nat) f0 = true /\ SFltb (s_lam s 0%nat 3%nat) f0 = true.
Proof. intros v [->| ->]; split; vm_compute; reflexivity. Qed.
(** The masks of the general constraints: d_lg_mask and d_ug_mask are read before they are set; the initial iterate depends on what they point to. *)
Definition xg_qc : oqcqp spec_float := mkqc (mkdims 0 (fun _ => 0%nat) (fun _ => 1%nat) (fun _ => 0%nat) (fun _ => 1%nat) (fun _ => 0%nat)) (fun _ => 0%nat)
  (fun _ _ _ => f0) (fun _ _ _ => f1) (fun _ _ _ => f1) (fun _ _ _ _ => f0) (fun _ _ => f0) (fun _ _ => f0) (fun _ _ => fopp (lit 5 1)) (fun _ _ => f1) (fun _ _ => f0) (fun _ _ => f0) (fun _ _ => 0%nat) (fun _ _ => (-1)%Z).
Theorem C62_general_masks_uninitialised_refuted :
  let st g := s_t (qinit_var speed xg_qc g g (xi_s0 f1)) 0%nat 0%nat in feqb (st z) (st (fun _ => f1)) = false.
Proof. vm_compute. reflexivity. Qed.
End Wit.
Print Assumptions C62_upper_bound_mask_refuted.
Print Assumptions C62_t0_init_refuted.
Print Assumptions C62_general_masks_uninitialised_refuted.
