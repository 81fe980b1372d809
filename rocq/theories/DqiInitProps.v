(** DqiInitProps.v -- C76: the initial iterate of the dense QCQP interior point solver (exact arithmetic; counterexamples in IEEE doubles). *)
From Coq Require Import ZArith Bool Arith List Lia Reals Lra.
From Coq Require Import Floats.SpecFloat.
From Verif Require Import Base ArithF Blas Blas2 QpDataProofs OcpModel CoreModel ArgModel RSum DenModel DqcModel DqcSpec QcqpModel DqlModel DqlSpec DenIpmModel DenIpmInit DqiModel DqiInit.
Local Open Scope R_scope.

Lemma dqi_gen_R' mu n nb ng nq (Ct : nat -> rv) (d mask v lam t : rv) :
  let '(lam', t') := if Nat.ltb 0 ng then dqi_gen mu n nb ng nq Ct d mask v (lam, t) else (lam, t) in
  (forall j, (j < ng)%nat -> centred mu lam' t' (nb + j)%nat /\ centred mu lam' t' (2 * nb + ng + nq + j)%nat) /\
  (forall k, (k < nb \/ nb + ng <= k < 2 * nb + ng + nq \/ 2 * nb + 2 * ng + nq <= k)%nat -> lam' k = lam k /\ t' k = t k).
Proof.
  destruct (Nat.ltb_spec 0 ng) as [_|Hg]; [apply dqi_gen_R|]. split; [intros; lia|intros; split; reflexivity].
Qed.

Section P.
Variables (QA : arg R) (q : dqcqp R) (sol : dsol R).
Let s' := dqi_init QA q sol.

(** C76: cold start or warm start of the primal variables, with every choice of the initial multipliers: every slack of the initial iterate is strictly
    positive and its multiplier puts the product exactly at mu0, except (default choice, t0_init neither 0 nor 1) on the lower sides of the quadratic
    constraints, which a QCQP has not got: there the multiplier is 0 and the slack is 1.  Warm start of all the variables: the given values, raised to the thresholds. *)
Theorem C76_interior c : (c < dqnc q)%nat ->
  ((ai QA warm_start <= 1)%Z -> 0 < ar QA mu0 ->
     0 < ds_t s' c /\ ((dq_lower q c = false \/ ai QA t0_init = 0%Z \/ ai QA t0_init = 1%Z) -> 0 < ds_lam s' c /\ ds_lam s' c * ds_t s' c = ar QA mu0) /\
     (dq_lower q c = true -> ai QA t0_init <> 0%Z -> ai QA t0_init <> 1%Z -> ds_lam s' c = 0 /\ ds_t s' c = 1)) /\
  (ai QA warm_start = 2%Z -> Rmax (ds_lam sol c) (1 / 10) = ds_lam s' c /\ Rmax (ds_t sol c) (1 / 10) = ds_t s' c) /\
  ((3 <= ai QA warm_start)%Z -> Rmax (ds_lam sol c) (ar QA lam0_min) = ds_lam s' c /\ Rmax (ds_t sol c) (ar QA t0_min) = ds_t s' c).
Proof.
  intros Hc. unfold s', dqi_init. unfold dq_lower. unfold dqnc, dqn2 in Hc |- *.
  set (nb := dq_nb q) in *. set (ng := dq_ng q) in *. set (nq := dq_nq q) in *. set (ns := dq_ns q) in *.
  set (nc := dqi_nc q). assert (Hn : (c < nc)%nat) by (unfold nc, dqi_nc; fold nb ng nq ns; lia).
  assert (CL : forall a b, let '(l, t) := clip_lt nc a b (ds_lam sol, ds_t sol) in Rmax (ds_lam sol c) a = l c /\ Rmax (ds_t sol c) b = t c).
  { intros a b. pose proof (clip_lt_val nc a b (ds_lam sol) (ds_t sol)) as V.
    destruct (clip_lt _ _ _ _) as [l t]. destruct (V c Hn) as [V1 V2]. rewrite V1, V2. split; unfold Rmax; [destruct (Rltb_spec (ds_lam sol c) a), (Rle_dec (ds_lam sol c) a)|destruct (Rltb_spec (ds_t sol c) b), (Rle_dec (ds_t sol c) b)]; lra. }
  clearbody nc. split; [|split].
  - intros Hw Hmu. destruct (Z.leb_spec 3 (ai QA warm_start)) as [Hx|_]; [lia|]. destruct (Z.eqb_spec (ai QA warm_start) 2) as [Hx|_]; [lia|].
    set (ux := if Z.eqb (ai QA warm_start) 0 then _ else _). clearbody ux.
    destruct (Z.eqb_spec (ai QA t0_init) 0) as [T0|T0].
    { cbn [ds_lam ds_t]. unfold VECSE. rewrite !vset0_in by exact Hn. pose proof (sqrt_lt_R0 _ Hmu) as Hs. rsimp. split; [exact Hs|]. split.
      - intros _. split; [exact Hs|]. apply sqrt_sqrt. lra.
      - intros _ Hx. contradiction. }
    destruct (Z.eqb_spec (ai QA t0_init) 1) as [T1|T1].
    { cbn [ds_lam ds_t]. unfold VECSE. rewrite !vset0_in by exact Hn. rsimp. rewrite R_lit11. split; [lra|]. split.
      - intros _. split; [exact Hmu|]. lra.
      - intros _ _ Hx. contradiction. }
    assert (Cn : forall l t : rv, centred (ar QA mu0) l t c -> 0 < l c /\ 0 < t c /\ l c * t c = ar QA mu0).
    { intros l t [C1 C2]. split; [|split; assumption]. apply Rmult_lt_reg_r with (t c); [exact C1|]. rewrite Rmult_0_l, C2. exact Hmu. }
    rewrite dqi_box_eq. pose proof (init_box_R (ar QA mu0) nb (ng + nq) (dq_idxb q) (dq_d q) (fun k => if (k <? nb)%nat then dq_mask q k else dq_mask q (k - nq)%nat) ux (ds_lam sol) (ds_t sol)) as B.
    destruct (init_box _ _ _ _ _ _ _) as [[u1 l1] t1]. destruct B as (B1 & _).
    pose proof (dqi_gen_R' (ar QA mu0) (dq_nv q) nb ng nq (dq_Ct q) (dq_d q) (dq_mask q) u1 l1 t1) as G.
    destruct (if Nat.ltb 0 ng then _ else _) as [l2 t2]. destruct G as (G1 & G2).
    pose proof (dqi_soft_R (ar QA mu0) (2 * nb + 2 * ng + 2 * nq) ns l2 t2) as S.
    destruct (dqi_soft _ _ _ _) as [l3 t3]. destruct S as (S1 & S2).
    pose proof (dqi_quad_R (ar QA mu0) (nb + ng) (2 * nb + 2 * ng + nq) nq l3 t3 ltac:(lia)) as Q.
    destruct (dqi_quad _ _ _ _ _) as [l4 t4]. destruct Q as (Q1 & Q2). cbn [ds_lam ds_t].
    destruct ((nb + ng <=? c) && (c <? nb + ng + nq))%nat eqn:El.
    + apply andb_prop in El. destruct El as [E1 E2]. apply Nat.leb_le in E1. apply Nat.ltb_lt in E2.
      destruct (Q1 (c - (nb + ng))%nat ltac:(lia)) as [[Q3 Q4] _]. replace (nb + ng + (c - (nb + ng)))%nat with c in Q3, Q4 by lia.
      rewrite Q4. split; [lra|]. split; [intros [Hx|[Hx|Hx]]; [discriminate|contradiction|contradiction]|]. intros _ _ _. split; [exact Q3|reflexivity].
    + assert (El' : (c < nb + ng \/ nb + ng + nq <= c)%nat).
      { apply andb_false_iff in El. destruct El as [E|E]; [apply Nat.leb_gt in E|apply Nat.ltb_ge in E]; lia. }
      assert (Cc : centred (ar QA mu0) l4 t4 c).
      { unfold centred. destruct (Nat.lt_ge_cases c (2 * nb + 2 * ng + nq)) as [A1|A1].
        - destruct (Q2 c ltac:(lia)) as [-> ->]. destruct (S2 c ltac:(lia)) as [-> ->].
          destruct (Nat.lt_ge_cases c nb) as [A2|A2]; [destruct (G2 c ltac:(lia)) as [-> ->]; apply B1; exact A2|].
          destruct (Nat.lt_ge_cases c (nb + ng)) as [A3|A3]; [replace c with (nb + (c - nb))%nat by lia; apply G1; lia|].
          destruct (Nat.lt_ge_cases c (2 * nb + ng + nq)) as [A4|A4].
          + destruct (G2 c ltac:(lia)) as [-> ->]. replace c with (nb + (ng + nq) + (c - nb - ng - nq))%nat by lia. apply B1; lia.
          + replace c with (2 * nb + ng + nq + (c - 2 * nb - ng - nq))%nat by lia. apply G1; lia.
        - destruct (Nat.lt_ge_cases c (2 * nb + 2 * ng + 2 * nq)) as [A2|A2].
          + replace c with (2 * nb + 2 * ng + nq + (c - 2 * nb - 2 * ng - nq))%nat by lia. apply Q1. lia.
          + destruct (Q2 c ltac:(lia)) as [-> ->]. replace c with (2 * nb + 2 * ng + 2 * nq + (c - 2 * nb - 2 * ng - 2 * nq))%nat by lia. apply S1. lia. }
      destruct (Cn _ _ Cc) as (C1 & C2 & C3). split; [exact C2|]. split; [intros _; split; assumption|discriminate].
  - intros Hw. rewrite Hw. cbn [Z.leb Z.compare Pos.compare Pos.compare_cont Z.eqb Pos.eqb]. specialize (CL thr0 thr0). change (1 / 10) with (thr0 (F := R)).
    destruct (clip_lt _ _ _ _) as [l t]. exact CL.
  - intros Hw. destruct (Z.leb_spec 3 (ai QA warm_start)) as [_|Hx]; [|lia]. specialize (CL (ar QA lam0_min) (ar QA t0_min)).
    destruct (clip_lt _ _ _ _) as [l t]. exact CL.
Qed.

(** C76: the bounded variables, cold or primal warm start, default t0_init, every bounded variable named once in idxb, when the entry read for the mask of
    each upper bound has the value of that mask (always without quadratic constraints): a variable with two imposed bounds at least 0.2 apart starts at least
    0.1 inside both, one with a single bound at least 0.1 inside it; the other variables and the slacks start at 0 (cold) or where they were (warm); the
    multipliers of the equalities start at 0. *)
Theorem C76_bounds : (ai QA warm_start <= 1)%Z -> ai QA t0_init = 2%Z ->
  let nb := dq_nb q in let ng := dq_ng q in let nq := dq_nq q in let idxb := dq_idxb q in let mask := dq_mask q in let d := dq_d q in
  (forall j, (j < nb)%nat -> (idxb j < dq_nv q)%nat) ->
  (forall j k, (j < nb)%nat -> (k < nb)%nat -> idxb j = idxb k -> j = k) ->
  (forall j, (j < nb)%nat -> mask (nb + ng + j)%nat = mask (nb + ng + nq + j)%nat) ->
  (forall j, (j < nb)%nat -> let lb := d j in let ub := - d (nb + ng + nq + j)%nat in let x := ds_v s' (idxb j) in
     (mask j <> 0 -> mask (nb + ng + nq + j)%nat <> 0 -> 2 / 10 <= ub - lb -> lb + 1 / 10 <= x <= ub - 1 / 10) /\
     (mask j <> 0 -> mask (nb + ng + nq + j)%nat = 0 -> lb + 1 / 10 <= x) /\ (mask j = 0 -> mask (nb + ng + nq + j)%nat <> 0 -> x <= ub - 1 / 10)) /\
  (forall k, (k < dqnv q)%nat -> (forall j, (j < nb)%nat -> idxb j <> k) -> ds_v s' k = if Z.eqb (ai QA warm_start) 0 then 0 else ds_v sol k) /\
  (forall j, (j < dq_ne q)%nat -> ds_pi s' j = 0).
Proof.
  intros Hw Ht. cbv zeta. intros Hr Hinj Hm. unfold s', dqi_init. rewrite Ht.
  destruct (Z.leb_spec 3 (ai QA warm_start)) as [Hx|_]; [lia|]. destruct (Z.eqb_spec (ai QA warm_start) 2) as [Hx|_]; [lia|]. change (Z.eqb 2 0) with false. change (Z.eqb 2 1) with false. cbv iota.
  set (nb := dq_nb q) in *. set (ng := dq_ng q) in *. set (nq := dq_nq q) in *.
  set (ux := if Z.eqb (ai QA warm_start) 0 then _ else _).
  assert (Eu : forall k, (k < dqnv q)%nat -> ux k = if Z.eqb (ai QA warm_start) 0 then 0 else ds_v sol k).
  { intros k Hk. unfold ux. destruct (Z.eqb (ai QA warm_start) 0); [|reflexivity]. unfold VECSE. rewrite vset0_in by exact Hk. rsimp. apply R_lit01. }
  clearbody ux. rewrite dqi_box_eq.
  pose proof (init_box_R (ar QA mu0) nb (ng + nq) (dq_idxb q) (dq_d q) (fun k => if (k <? nb)%nat then dq_mask q k else dq_mask q (k - nq)%nat) ux (ds_lam sol) (ds_t sol)) as B.
  destruct (init_box _ _ _ _ _ _ _) as [[u1 l1] t1]. destruct B as (_ & B2 & B3).
  destruct (if Nat.ltb 0 ng then _ else _) as [l2 t2]. destruct (dqi_soft _ _ _ _) as [l3 t3]. destruct (dqi_quad _ _ _ _ _) as [l4 t4]. cbn [ds_v ds_pi]. split; [|split].
  - intros j Hj. specialize (B3 Hinj j Hj). cbv zeta in B3. revert B3. destruct (Nat.ltb_spec j nb) as [_|Hx]; [|lia].
    replace (nb + (ng + nq) + j)%nat with (nb + ng + nq + j)%nat by lia. destruct (Nat.ltb_spec (nb + ng + nq + j) nb) as [Hx|_]; [lia|].
    replace (nb + ng + nq + j - nq)%nat with (nb + ng + j)%nat by lia. rewrite (Hm j Hj). exact (fun H => H).
  - intros k Hk Hn. rewrite B2 by exact Hn. apply Eu. exact Hk.
  - intros j Hj. unfold VECSE. rewrite vset0_in by exact Hj. rsimp. apply R_lit01.
Qed.
End P.
Print Assumptions C76_interior.
Print Assumptions C76_bounds.

(** a concrete case: -3 <= v <= 2, v^2/2 <= 8 (nb = nq = 1), cold start, default choice of the multipliers *)
Definition xdi_q {F} {AF : Arith F} (lb ub : Z) : dqcqp F := mkdqc 1 0 1 0 1 0 (fun _ _ => f1) (fun _ _ => f0) (fun _ _ => f0) (fun _ _ _ => f1) (fun _ => f0) (fun _ => f0)
  (fun c => match c with 0%nat => lit lb 1 | 2%nat => lit (- ub) 1 | 3%nat => lit (-8) 1 | _ => f0 end) (fun _ => f1) (fun _ => f0) (fun _ => f0) (fun _ => 0%nat) (fun _ => (-1)%Z).
Example C76_hypotheses_met : let QA := den_default (F := R) SPEED in
  (ai QA warm_start <= 1)%Z /\ ai QA t0_init = 2%Z /\ 0 < ar QA mu0 /\ dqnc (xdi_q (-3) 2) = 4%nat /\ dq_lower (xdi_q (-3) 2) 1%nat = true /\ dq_lower (xdi_q (-3) 2) 3%nat = false /\
  (forall j, (j < 1)%nat -> dq_mask (F := R) (xdi_q (-3) 2) (1 + 0 + j)%nat = dq_mask (F := R) (xdi_q (-3) 2) (1 + 0 + 1 + j)%nat).
Proof. cbn. repeat split; try lia; try lra. Qed.

Section Wit.
Local Open Scope Z_scope.
Let z : nat -> spec_float := fun _ => f0.
Let one : nat -> spec_float := fun _ => f1.

(** The mask of the upper bounds (IEEE doubles): -3 <= v <= -2 and v^2/2 <= 8, all the masks of the user 1.  After the solver has masked the lower side of the
    quadratic constraint, the initialisation reads that 0 as the mask of the upper bound and starts at v = 0, above it; without the quadratic constraint
    (nq = 0) it starts inside, by C76_bounds. *)
Theorem C76_upper_bound_mask_refuted :
  let q := dqc_masked (xdi_q (-3) (-2)) in let s := dqi_init (den_default SPEED) q (mkdsol z z one one) in
  feqb (dq_mask q 2%nat) f1 = true /\ SFltb (fopp (dq_d q 2%nat)) (ds_v s 0%nat) = true.
Proof. split; vm_compute; reflexivity. Qed.
(** Bounds less than 0.2 apart (IEEE doubles): 5 <= v <= 41/8 with the mask entries all read as 1, warm start at v = 81/16, inside.  The solver moves the variable to
    - 1/16, outside (line 961 adds d_lb and d_ub, but d_ub is stored with the opposite sign). *)
Theorem C76_midpoint_refuted :
  let q := mkdqc 1 0 1 0 0 0 (fun _ _ => f1) (fun _ _ => f0) (fun _ _ => f0) (fun _ _ _ => f0) z z (fun c => match c with 0%nat => lit 5 1 | _ => fopp (lit 41 8) end) one z z (fun _ => 0%nat) (fun _ => (-1)%Z) in
  let s := dqi_init (wi warm_start 1 (den_default SPEED)) (dqc_masked q) (mkdsol (fun _ => lit 81 16) z one one) in
  ds_v s 0%nat = fopp (lit 1 16).
Proof. vm_compute. reflexivity. Qed.
(** General constraints (IEEE doubles): 0 <= v <= 10 as a general constraint, warm start v = 9.5: the slack of the upper side should start at 0.5; it starts at
    19.5 (line 986 copies + C v where the constraint reads - C v >= - 10). *)
Theorem C76_general_upper_refuted :
  let q := mkdqc 1 0 0 1 0 0 (fun _ _ => f1) (fun _ _ => f0) (fun _ _ => f1) (fun _ _ _ => f0) z z (fun c => match c with 0%nat => lit 0 1 | _ => fopp (lit 10 1) end) one z z (fun _ => 0%nat) (fun _ => (-1)%Z) in
  let s := dqi_init (wi warm_start 1 (den_default SPEED)) (dqc_masked q) (mkdsol (fun _ => lit 19 2) z one one) in
  ds_v s 0%nat = lit 19 2 /\ ds_t s 1%nat = lit 39 2.
Proof. vm_compute. split; reflexivity. Qed.
End Wit.
Print Assumptions C76_upper_bound_mask_refuted.
Print Assumptions C76_midpoint_refuted.
Print Assumptions C76_general_upper_refuted.
