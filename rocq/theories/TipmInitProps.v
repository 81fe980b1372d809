(** TipmInitProps.v -- C69: the initial iterate of the tree interior point method (exact arithmetic; the counterexample in IEEE doubles). *)
From Coq Require Import ZArith Bool Arith List Lia Reals Lra.
From Coq Require Import Floats.SpecFloat.
From Verif Require Import Base ArithF Blas Blas2 QpDataProofs OcpModel CoreModel ArgModel IpmModel IpmInit TipmModel TipmInit.
Local Open Scope R_scope.

Section P.
Variables (A : arg R) (qp : oqp R) (sol : osol R).
Let D := q_dim qp.
Let s' := tinit_var A qp sol.

(** C69: every multiplier and every slack of the initial iterate is strictly positive.  Cold start and warm start of the primal variables: all the
    complementarity products are exactly mu0.  Warm start of all variables: the given values, raised to the thresholds. *)
Theorem C69_interior i c : (c < nct D i)%nat ->
  ((ai A warm_start <= 1)%Z -> 0 < ar A mu0 -> 0 < s_lam s' i c /\ 0 < s_t s' i c /\ s_lam s' i c * s_t s' i c = ar A mu0) /\
  (ai A warm_start = 2%Z -> Rmax (s_lam sol i c) (1 / 10) = s_lam s' i c /\ Rmax (s_t sol i c) (1 / 10) = s_t s' i c) /\
  ((3 <= ai A warm_start)%Z -> Rmax (s_lam sol i c) (ar A lam0_min) = s_lam s' i c /\ Rmax (s_t sol i c) (ar A t0_min) = s_t s' i c).
Proof.
  intros Hc. unfold s', tinit_var. cbn [s_lam s_t]. unfold tinit_node. fold D.
  assert (CL : forall a b, let '(l, t) := clip_lt (nct D i) a b (s_lam sol i, s_t sol i) in Rmax (s_lam sol i c) a = l c /\ Rmax (s_t sol i c) b = t c).
  { intros a b. pose proof (clip_lt_val (nct D i) a b (s_lam sol i) (s_t sol i)) as V.
    destruct (clip_lt _ _ _ _) as [l t]. destruct (V c Hc) as [V1 V2]. rewrite V1, V2. split; unfold Rmax; [destruct (Rltb_spec (s_lam sol i c) a), (Rle_dec (s_lam sol i c) a)|destruct (Rltb_spec (s_t sol i c) b), (Rle_dec (s_t sol i c) b)]; lra. }
  split; [|split].
  - intros Hw Hmu. destruct (Z.leb_spec 3 (ai A warm_start)) as [Hx|_]; [lia|]. destruct (Z.eqb_spec (ai A warm_start) 2) as [Hx|_]; [lia|].
    set (ux := if Z.eqb (ai A warm_start) 0 then _ else _). clearbody ux.
    assert (Cn : forall l t : rv, centred (ar A mu0) l t c -> 0 < l c /\ 0 < t c /\ l c * t c = ar A mu0).
    { intros l t [C1 C2]. split; [|split; assumption]. apply Rmult_lt_reg_r with (t c); [exact C1|]. rewrite Rmult_0_l, C2. exact Hmu. }
    destruct (Z.eqb (ai A t0_init) 0).
    { cbn [fst snd]. unfold VECSE. rewrite !vset0_in by exact Hc. rsimp. pose proof (sqrt_lt_R0 _ Hmu). repeat split; try assumption. apply sqrt_sqrt; lra. }
    destruct (Z.eqb (ai A t0_init) 1).
    { cbn [fst snd]. unfold VECSE. rewrite !vset0_in by exact Hc. rsimp. rewrite R_lit11. repeat split; lra. }
    unfold nct in Hc.
    pose proof (tinit_box_R (ar A mu0) (dnb D i) (dng D i) (q_idxb qp i) (q_d qp i) (q_mask qp i) ux (s_lam sol i) (s_t sol i)) as B.
    destruct (tinit_box _ _ _ _ _ _ _) as [[u1 l1] t1]. destruct B as (B1 & _).
    pose proof (init_gen_R (ar A mu0) (dnu D i + dnx D i) (dnb D i) (dng D i) (q_DCt qp i) (q_d qp i) (q_mask qp i) u1 l1 t1) as G.
    destruct (init_gen _ _ _ _ _ _ _ _ _) as [l2 t2]. destruct G as (G1 & G2).
    pose proof (tinit_soft_R (ar A mu0) (2 * dnb D i + 2 * dng D i) (dns D i) l2 t2) as S.
    destruct (tinit_soft _ _ _ _) as [l3 t3]. destruct S as (S1 & S2). cbn [fst snd]. apply Cn.
    set (nb := dnb D i) in *. set (ng := dng D i) in *. unfold centred.
    destruct (Nat.lt_ge_cases c (2 * nb + 2 * ng)) as [A1|A1].
    + destruct (S2 c A1) as [-> ->].
      destruct (Nat.lt_ge_cases c nb) as [A2|A2]; [destruct (G2 c ltac:(lia)) as [-> ->]; apply B1; exact A2|].
      destruct (Nat.lt_ge_cases c (nb + ng)) as [A3|A3]; [replace c with (nb + (c - nb))%nat by lia; apply G1; lia|].
      destruct (Nat.lt_ge_cases c (2 * nb + ng)) as [A4|A4]; [destruct (G2 c ltac:(lia)) as [-> ->]; replace c with (nb + ng + (c - nb - ng))%nat by lia; apply B1; lia|].
      replace c with (2 * nb + ng + (c - 2 * nb - ng))%nat by lia. apply G1; lia.
    + replace c with (2 * nb + 2 * ng + (c - 2 * nb - 2 * ng))%nat by lia. apply S1; lia.
  - intros Hw. rewrite Hw. cbn [Z.leb Z.compare Pos.compare Pos.compare_cont Z.eqb Pos.eqb]. specialize (CL thr0 thr0). change (1 / 10) with (thr0 (F := R)).
    destruct (clip_lt _ _ _ _) as [l t]. exact CL.
  - intros Hw. destruct (Z.leb_spec 3 (ai A warm_start)) as [_|Hx]; [|lia]. specialize (CL (ar A lam0_min) (ar A t0_min)).
    destruct (clip_lt _ _ _ _) as [l t]. exact CL.
Qed.

(** C69: bounded variables, default scheme (t0_init = 2), cold or primal warm start, every bounded variable named once in idxb.
    A variable with two active bounds at least 0.2 apart starts at least 0.1 inside both; with one active bound it starts at least 0.1 inside it.
    Variables without bounds keep their warm start value (0 for a cold start), and the slack variables too. *)
Theorem C69_bounds i : (ai A warm_start <= 1)%Z -> ai A t0_init = 2%Z ->
  let nb := dnb D i in let ng := dng D i in let idxb := q_idxb qp i in let mask := q_mask qp i in let d := q_d qp i in
  (forall j, (j < nb)%nat -> (idxb j < dnu D i + dnx D i)%nat) ->
  (forall j k, (j < nb)%nat -> (k < nb)%nat -> idxb j = idxb k -> j = k) ->
  (forall j, (j < nb)%nat -> let lb := d j in let ub := - d (nb + ng + j)%nat in let x := s_ux s' i (idxb j) in
     (mask j <> 0 -> mask (nb + ng + j)%nat <> 0 -> 2 / 10 <= ub - lb -> lb + 1 / 10 <= x <= ub - 1 / 10) /\
     (mask j <> 0 -> mask (nb + ng + j)%nat = 0 -> lb + 1 / 10 <= x) /\ (mask j = 0 -> mask (nb + ng + j)%nat <> 0 -> x <= ub - 1 / 10)) /\
  (forall k, (k < nvt D i)%nat -> (forall j, (j < nb)%nat -> idxb j <> k) -> s_ux s' i k = if Z.eqb (ai A warm_start) 0 then 0 else s_ux sol i k).
Proof.
  intros Hw Ht. cbv zeta. intros Hr Hinj. unfold s', tinit_var. cbn [s_ux]. unfold tinit_node. fold D. rewrite Ht.
  destruct (Z.leb_spec 3 (ai A warm_start)) as [Hx|_]; [lia|]. destruct (Z.eqb_spec (ai A warm_start) 2) as [Hx|_]; [lia|]. cbn [Z.eqb].
  set (ux := if Z.eqb (ai A warm_start) 0 then _ else _).
  assert (Eu : forall k, (k < nvt D i)%nat -> ux k = if Z.eqb (ai A warm_start) 0 then 0 else s_ux sol i k).
  { intros k Hk. unfold ux. destruct (Z.eqb (ai A warm_start) 0); [|reflexivity]. unfold VECSE. rewrite vset0_in by exact Hk. rsimp. apply R_lit01. }
  clearbody ux.
  pose proof (tinit_box_R (ar A mu0) (dnb D i) (dng D i) (q_idxb qp i) (q_d qp i) (q_mask qp i) ux (s_lam sol i) (s_t sol i)) as B.
  destruct (tinit_box _ _ _ _ _ _ _) as [[u1 l1] t1]. destruct B as (_ & B2 & B3).
  destruct (init_gen _ _ _ _ _ _ _ _ _) as [l2 t2].
  destruct (tinit_soft _ _ _ _) as [l3 t3]. cbn [fst snd]. split.
  - intros j Hj. apply (B3 Hinj j Hj).
  - intros k Hk Hn. rewrite B2 by exact Hn. apply Eu. exact Hk.
Qed.
(** C69: the equality multipliers start from zero unless all variables are warm started. *)
Theorem C69_pi k j : (j < dnx D (k + 1))%nat -> s_pi s' k j = if Z.leb 2 (ai A warm_start) then s_pi sol k j else 0.
Proof. intros Hj. unfold s', tinit_var. cbn [s_pi]. fold D. destruct (Z.leb 2 (ai A warm_start)); [reflexivity|]. unfold VECSE. rewrite vset0_in by exact Hj. rsimp. apply R_lit01. Qed.
End P.
Print Assumptions C69_interior.
Print Assumptions C69_bounds.
Print Assumptions C69_pi.

(** a concrete case: root with one input 0 <= u <= 1, two kids with one state each; cold start with mu0 = 10 *)
Definition exit_dim : dims := mkdims 2 (fun i => match i with 0%nat => 0%nat | _ => 1%nat end) (fun i => match i with 0%nat => 1%nat | _ => 0%nat end)
  (fun i => match i with 0%nat => 1%nat | _ => 0%nat end) (fun _ => 0%nat) (fun _ => 0%nat).
Definition exit_qp : oqp R := mkqp exit_dim (fun _ _ _ => 1) (fun _ _ _ => 1) (fun _ _ _ => 0) (fun _ _ => 0) (fun _ _ => 0)
  (fun _ c => match c with 0%nat => 0 | _ => -1 end) (fun _ _ => 1) (fun _ _ => 0) (fun _ _ => 0) (fun _ _ => 0%nat) (fun _ _ => (-1)%Z).
Example C69_hypotheses_met (a : arg R) : let A := arg_set_default SPEED a in
  (ai A warm_start <= 1)%Z /\ ai A t0_init = 2%Z /\ 0 < ar A mu0 /\ (0 < nct (q_dim exit_qp) 0)%nat /\
  (forall j, (j < 1)%nat -> (q_idxb exit_qp 0 j < 1)%nat) /\ 2 / 10 <= - q_d exit_qp 0 1 - q_d exit_qp 0 0.
Proof. cbn. repeat split; try lia; try lra. Qed.

Local Open Scope Z_scope.
(** Bounds less than 0.2 apart (IEEE doubles): line 1287 takes the midpoint of the lower bound and of MINUS the upper bound (d_ub is stored negated;
    the OCP QP code has lb - ub there).  Warm start of the primal variables at u = 1.06 with 1 <= u <= 1.12: the tree code starts from a u < 0; the OCP QP code, on
    the same one-node problem, starts between the bounds. *)
Theorem C69_narrow_bounds_refuted : let lit := @lit spec_float FArith in
  let qp := mkqp (mkdims 0 (fun _ => 0%nat) (fun _ => 1%nat) (fun _ => 1%nat) (fun _ => 0%nat) (fun _ => 0%nat))
    (fun _ _ _ => lit 0 1) (fun _ _ _ => lit 1 1) (fun _ _ _ => lit 0 1) (fun _ _ => lit 0 1) (fun _ _ => lit 0 1)
    (fun _ c => match c with 0%nat => lit 1 1 | _ => fopp (lit 112 100) end) (fun _ _ => lit 1 1) (fun _ _ => lit 0 1) (fun _ _ => lit 0 1) (fun _ _ => 0%nat) (fun _ _ => (-1)%Z) in
  let A := wi warm_start 1 (arg_set_default SPEED (mkarg (fun _ => lit 0 1) (fun _ => 0%Z))) in
  let s0 := mksol (fun _ _ => lit 106 100) (fun _ _ => lit 0 1) (fun _ _ => lit 0 1) (fun _ _ => lit 0 1) in
  SFltb (s_ux (tinit_var A qp s0) 0%nat 0%nat) (lit 0 1) = true /\
  SFleb (lit 1 1) (s_ux (init_var A qp s0) 0%nat 0%nat) = true /\ SFleb (s_ux (init_var A qp s0) 0%nat 0%nat) (lit 112 100) = true.
Proof. vm_compute. repeat split; reflexivity. Qed.
Print Assumptions C69_narrow_bounds_refuted.
