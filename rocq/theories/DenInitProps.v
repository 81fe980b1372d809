(** DenInitProps.v -- C56: the initial iterate of the dense interior point method (exact arithmetic; the counterexamples in IEEE doubles). *)
From Coq Require Import ZArith Bool Arith List Lia Reals Lra.
From Coq Require Import Floats.SpecFloat.
From Verif Require Import Base ArithF Blas Blas2 QpDataProofs OcpModel CoreModel ArgModel RSum DenModel DenSpec DenIpmModel DenIpmInit.
Local Open Scope R_scope.

Section P.
Variables (A : arg R) (qp : dqp R) (sol : dsol R).
Let s' := init_var A qp sol.

(** C56: every multiplier and every slack of the initial iterate is strictly positive.  Cold start and warm start of the primal variables: all the
    complementarity products are exactly mu0.  Warm start of all variables: the given values, raised to the thresholds. *)
Theorem C56_interior c : (c < d_nct qp)%nat ->
  ((ai A warm_start <= 1)%Z -> 0 < ar A mu0 -> 0 < ds_lam s' c /\ 0 < ds_t s' c /\ ds_lam s' c * ds_t s' c = ar A mu0) /\
  (ai A warm_start = 2%Z -> Rmax (ds_lam sol c) (1 / 10) = ds_lam s' c /\ Rmax (ds_t sol c) (1 / 10) = ds_t s' c) /\
  ((3 <= ai A warm_start)%Z -> Rmax (ds_lam sol c) (ar A lam0_min) = ds_lam s' c /\ Rmax (ds_t sol c) (ar A t0_min) = ds_t s' c).
Proof.
  intros Hc. unfold s', init_var.
  assert (CL : forall a b, let '(l, t) := clip_lt (d_nct qp) a b (ds_lam sol, ds_t sol) in Rmax (ds_lam sol c) a = l c /\ Rmax (ds_t sol c) b = t c).
  { intros a b. pose proof (clip_lt_val (d_nct qp) a b (ds_lam sol) (ds_t sol)) as V.
    destruct (clip_lt _ _ _ _) as [l t]. destruct (V c Hc) as [V1 V2]. rewrite V1, V2. split; unfold Rmax; [destruct (Rltb_spec (ds_lam sol c) a), (Rle_dec (ds_lam sol c) a)|destruct (Rltb_spec (ds_t sol c) b), (Rle_dec (ds_t sol c) b)]; lra. }
  split; [|split].
  - intros Hw Hmu. destruct (Z.leb_spec 3 (ai A warm_start)) as [Hx|_]; [lia|]. destruct (Z.eqb_spec (ai A warm_start) 2) as [Hx|_]; [lia|].
    set (ux := if Z.eqb (ai A warm_start) 0 then _ else _). clearbody ux.
    assert (Cn : forall l t : rv, centred (ar A mu0) l t c -> 0 < l c /\ 0 < t c /\ l c * t c = ar A mu0).
    { intros l t [C1 C2]. split; [|split; assumption]. apply Rmult_lt_reg_r with (t c); [exact C1|]. rewrite Rmult_0_l, C2. exact Hmu. }
    destruct (Z.eqb (ai A t0_init) 0).
    { cbn [ds_lam ds_t]. unfold VECSE. rewrite !vset0_in by exact Hc. rsimp. pose proof (sqrt_lt_R0 _ Hmu). repeat split; try assumption. apply sqrt_sqrt; lra. }
    destruct (Z.eqb (ai A t0_init) 1).
    { cbn [ds_lam ds_t]. unfold VECSE. rewrite !vset0_in by exact Hc. rsimp. rewrite R_lit11. repeat split; lra. }
    unfold d_nct in Hc.
    pose proof (init_box_R (ar A mu0) (d_nb qp) (d_ng qp) (d_idxb qp) (d_d qp) (d_mask qp) ux (ds_lam sol) (ds_t sol)) as B.
    destruct (init_box _ _ _ _ _ _ _) as [[u1 l1] t1]. destruct B as (B1 & _).
    set (p := if Nat.ltb 0 (d_ng qp) then _ else _).
    assert (G : (forall j, (j < d_ng qp)%nat -> centred (ar A mu0) (fst p) (snd p) (d_nb qp + j)%nat /\ centred (ar A mu0) (fst p) (snd p) (2 * d_nb qp + d_ng qp + j)%nat) /\
      (forall k, (k < d_nb qp \/ d_nb qp + d_ng qp <= k < 2 * d_nb qp + d_ng qp \/ 2 * d_nb qp + 2 * d_ng qp <= k)%nat -> fst p k = l1 k /\ snd p k = t1 k)).
    { unfold p. destruct (Nat.ltb_spec 0 (d_ng qp)) as [Hg|Hg]; [|split; [intros; lia|intros; split; reflexivity]].
      pose proof (init_gen_R (ar A mu0) (d_nv qp) (d_nb qp) (d_ng qp) (d_Ct qp) (d_d qp) (d_mask qp) u1 l1 t1) as G. destruct (init_gen _ _ _ _ _ _ _ _ _) as [l2 t2]. exact G. }
    clearbody p. destruct p as [l2 t2]. cbn [fst snd] in G. destruct G as (G1 & G2).
    pose proof (init_soft_R (ar A mu0) (d_nb qp) (d_ng qp) (d_ns qp) l2 t2) as S.
    destruct (init_soft _ _ _ _ _) as [l3 t3]. destruct S as (S1 & S2). cbn [ds_lam ds_t]. apply Cn.
    set (nb := d_nb qp) in *. set (ng := d_ng qp) in *. unfold IpmInit.centred.
    destruct (Nat.lt_ge_cases c (2 * nb + 2 * ng)) as [A1|A1].
    * destruct (S2 c A1) as [-> ->].
      destruct (Nat.lt_ge_cases c nb) as [A2|A2]; [destruct (G2 c ltac:(lia)) as [-> ->]; apply B1; exact A2|].
      destruct (Nat.lt_ge_cases c (nb + ng)) as [A3|A3]; [replace c with (nb + (c - nb))%nat by lia; apply G1; lia|].
      destruct (Nat.lt_ge_cases c (2 * nb + ng)) as [A4|A4]; [destruct (G2 c ltac:(lia)) as [-> ->]; replace c with (nb + ng + (c - nb - ng))%nat by lia; apply B1; lia|].
      replace c with (2 * nb + ng + (c - 2 * nb - ng))%nat by lia. apply G1; lia.
    * replace c with (2 * nb + 2 * ng + (c - 2 * nb - 2 * ng))%nat by lia. apply S1; lia.
  - intros Hw. rewrite Hw. cbn [Z.leb Z.compare Pos.compare Pos.compare_cont Z.eqb Pos.eqb]. specialize (CL thr0 thr0). change (1 / 10) with (thr0 (F := R)).
    destruct (clip_lt _ _ _ _) as [l t]. exact CL.
  - intros Hw. destruct (Z.leb_spec 3 (ai A warm_start)) as [_|Hx]; [|lia]. specialize (CL (ar A lam0_min) (ar A t0_min)).
    destruct (clip_lt _ _ _ _) as [l t]. exact CL.
Qed.

(** C56: bounded variables, default scheme (t0_init = 2), cold or primal warm start, every bounded variable named once in idxb.  A variable with two
    active bounds at least 0.2 apart starts at least 0.1 inside both; with one active bound it starts at least 0.1 inside it.  Variables without bounds keep
    their warm start value (0 for a cold start), so do the slack variables; the equality multipliers start from 0. *)
Theorem C56_bounds : (ai A warm_start <= 1)%Z -> ai A t0_init = 2%Z ->
  let nb := d_nb qp in let ng := d_ng qp in let idxb := d_idxb qp in let mask := d_mask qp in let d := d_d qp in
  (forall j, (j < nb)%nat -> (idxb j < d_nv qp)%nat) ->
  (forall j k, (j < nb)%nat -> (k < nb)%nat -> idxb j = idxb k -> j = k) ->
  (forall j, (j < nb)%nat -> let lb := d j in let ub := - d (nb + ng + j)%nat in let x := ds_v s' (idxb j) in
     (mask j <> 0 -> mask (nb + ng + j)%nat <> 0 -> 2 / 10 <= ub - lb -> lb + 1 / 10 <= x <= ub - 1 / 10) /\
     (mask j <> 0 -> mask (nb + ng + j)%nat = 0 -> lb + 1 / 10 <= x) /\ (mask j = 0 -> mask (nb + ng + j)%nat <> 0 -> x <= ub - 1 / 10)) /\
  (forall k, (k < dnv qp)%nat -> (forall j, (j < nb)%nat -> idxb j <> k) -> ds_v s' k = if Z.eqb (ai A warm_start) 0 then 0 else ds_v sol k) /\
  (forall j, (j < d_ne qp)%nat -> ds_pi s' j = 0).
Proof.
  intros Hw Ht. cbv zeta. intros Hr Hinj. unfold s', init_var. rewrite Ht.
  destruct (Z.leb_spec 3 (ai A warm_start)) as [Hx|_]; [lia|]. destruct (Z.eqb_spec (ai A warm_start) 2) as [Hx|_]; [lia|]. change (Z.eqb 2 0) with false. change (Z.eqb 2 1) with false. cbv iota.
  set (ux := if Z.eqb (ai A warm_start) 0 then _ else _).
  assert (Eu : forall k, (k < dnv qp)%nat -> ux k = if Z.eqb (ai A warm_start) 0 then 0 else ds_v sol k).
  { intros k Hk. unfold ux. destruct (Z.eqb (ai A warm_start) 0); [|reflexivity]. unfold VECSE. rewrite vset0_in by (unfold dnv in Hk; lia). rsimp. apply R_lit01. }
  clearbody ux.
  pose proof (init_box_R (ar A mu0) (d_nb qp) (d_ng qp) (d_idxb qp) (d_d qp) (d_mask qp) ux (ds_lam sol) (ds_t sol)) as B.
  destruct (init_box _ _ _ _ _ _ _) as [[u1 l1] t1]. destruct B as (_ & B2 & B3).
  set (p := if Nat.ltb 0 (d_ng qp) then _ else _). destruct p as [l2 t2].
  destruct (init_soft _ _ _ _ _) as [l3 t3]. cbn [ds_v ds_pi]. split; [|split].
  - intros j Hj. apply (B3 Hinj j Hj).
  - intros k Hk Hn. rewrite B2 by exact Hn. apply Eu. exact Hk.
  - intros j Hj. unfold VECSE. rewrite vset0_in by exact Hj. rsimp. apply R_lit01.
Qed.
End P.
Print Assumptions C56_interior.
Print Assumptions C56_bounds.

(** a concrete case: min v^2/2, 0 <= v <= 1, cold start of the SPEED preset *)
Definition exi_den : dqp R := mkdqp 1 0 1 0 0 (fun _ _ => 1) (fun _ _ => 0) (fun _ _ => 0) (fun _ => 0) (fun _ => 0)
  (fun c => match c with 0%nat => 0 | _ => -1 end) (fun _ => 1) (fun _ => 0) (fun _ => 0) (fun _ => 0%nat) (fun _ => (-1)%Z).
Example C56_hypotheses_met : let A := den_default (F := R) SPEED in
  (ai A warm_start <= 1)%Z /\ ai A t0_init = 2%Z /\ 0 < ar A mu0 /\ (0 < d_nct exi_den)%nat /\
  (forall j, (j < d_nb exi_den)%nat -> (d_idxb exi_den j < d_nv exi_den)%nat) /\
  (forall j k, (j < d_nb exi_den)%nat -> (k < d_nb exi_den)%nat -> d_idxb exi_den j = d_idxb exi_den k -> j = k) /\
  d_mask exi_den 0 <> 0 /\ 2 / 10 <= - d_d exi_den 1 - d_d exi_den 0.
Proof. cbn. repeat split; try lia; try lra. Qed.

Local Open Scope Z_scope.
(** The distance 0.2 is needed (IEEE doubles): warm start at v = 5.0625, strictly between the bounds 5 <= v <= 5.125; the solver starts from v = -0.0625
    (the code takes half the sum of d_lb and d_ub, but d_ub is the negated upper bound), although the slacks it starts with say 0.1 and 0.1. *)
Theorem C56_midpoint_refuted : let lit := @lit spec_float FArith in
  let qp := mkdqp 1 0 1 0 0 (fun _ _ => lit 1 1) (fun _ _ => lit 0 1) (fun _ _ => lit 0 1) (fun _ => lit 0 1) (fun _ => lit 0 1)
    (fun c => match c with 0%nat => lit 5 1 | _ => fopp (lit 41 8) end) (fun _ => lit 1 1) (fun _ => lit 0 1) (fun _ => lit 0 1) (fun _ => 0%nat) (fun _ => (-1)%Z) in
  let A := wi warm_start 1 (den_default SPEED) in
  let sol := mkdsol (fun _ => lit 81 16) (fun _ => lit 0 1) (fun _ => lit 0 1) (fun _ => lit 0 1) in
  let s := init_var A qp sol in
  SFltb (lit 5 1) (ds_v sol 0%nat) = true /\ SFltb (ds_v sol 0%nat) (lit 41 8) = true /\ ds_v s 0%nat = fopp (lit 1 16) /\ ds_t s 0%nat = lit 1 10 /\ ds_t s 1%nat = lit 1 10.
Proof. vm_compute. repeat split; reflexivity. Qed.
Print Assumptions C56_midpoint_refuted.

(** General constraints (IEEE doubles): 0 <= v <= 10 as a general constraint, warm start v = 9.5.  The slack of the upper side should start at max(0.1, 10 - 9.5) = 0.5;
    it starts at 19.5 (line 1509 copies + C v where the constraint reads - C v >= - 10). *)
Theorem C56_general_upper_refuted : let lit := @lit spec_float FArith in
  let qp := mkdqp 1 0 0 1 0 (fun _ _ => lit 1 1) (fun _ _ => lit 0 1) (fun _ _ => lit 1 1) (fun _ => lit 0 1) (fun _ => lit 0 1)
    (fun c => match c with 0%nat => lit 0 1 | _ => fopp (lit 10 1) end) (fun _ => lit 1 1) (fun _ => lit 0 1) (fun _ => lit 0 1) (fun _ => 0%nat) (fun _ => (-1)%Z) in
  let A := wi warm_start 1 (den_default SPEED) in
  let s := init_var A qp (mkdsol (fun _ => lit 19 2) (fun _ => lit 0 1) (fun _ => lit 0 1) (fun _ => lit 0 1)) in
  ds_v s 0%nat = lit 19 2 /\ ds_t s 0%nat = lit 19 2 /\ ds_t s 1%nat = lit 39 2.
Proof. vm_compute. repeat split; reflexivity. Qed.
Print Assumptions C56_general_upper_refuted.
