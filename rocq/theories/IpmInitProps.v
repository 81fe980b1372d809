(** IpmInitProps.v -- C31: the initial iterate of the interior point method (exact arithmetic; the counterexample in IEEE doubles). *)
From Coq Require Import ZArith Bool Arith List Lia Reals Lra.
From Coq Require Import Floats.SpecFloat.
From Verif Require Import Base ArithF Blas Blas2 QpDataProofs OcpModel CoreModel ArgModel IpmModel IpmInit.
Local Open Scope R_scope.

Section P.
Variables (A : arg R) (qp : oqp R) (sol : osol R).
Let D := q_dim qp.
Let s' := init_var A qp sol.

(** C31: every multiplier and every slack of the initial iterate is strictly positive.  Cold start and warm start of the primal variables: all the
    complementarity products are exactly mu0.  Warm start of all variables: the given values, raised to the thresholds. *)
Theorem C31_interior i c : (c < nct D i)%nat ->
  ((ai A warm_start <= 1)%Z -> 0 < ar A mu0 -> 0 < s_lam s' i c /\ 0 < s_t s' i c /\ s_lam s' i c * s_t s' i c = ar A mu0) /\
  (ai A warm_start = 2%Z -> Rmax (s_lam sol i c) (1 / 10) = s_lam s' i c /\ Rmax (s_t sol i c) (1 / 10) = s_t s' i c) /\
  ((3 <= ai A warm_start)%Z -> Rmax (s_lam sol i c) (ar A lam0_min) = s_lam s' i c /\ Rmax (s_t sol i c) (ar A t0_min) = s_t s' i c).
Proof.
  intros Hc. unfold s', init_var. cbn [s_lam s_t]. unfold init_stage. fold D.
  assert (CL : forall a b, let '(l, t) := clip_lt (nct D i) a b (s_lam sol i, s_t sol i) in Rmax (s_lam sol i c) a = l c /\ Rmax (s_t sol i c) b = t c).
  { intros a b. pose proof (clip_lt_R (nct D i) a b (s_lam sol i) (s_t sol i)) as H. pose proof (clip_lt_val (nct D i) a b (s_lam sol i) (s_t sol i)) as V.
    destruct (clip_lt _ _ _ _) as [l t]. destruct (V c Hc) as [V1 V2]. rewrite V1, V2. split; unfold Rmax; [destruct (Rltb_spec (s_lam sol i c) a), (Rle_dec (s_lam sol i c) a)|destruct (Rltb_spec (s_t sol i c) b), (Rle_dec (s_t sol i c) b)]; lra. }
  split; [|split].
  - intros Hw Hmu. destruct (Z.leb_spec 3 (ai A warm_start)) as [Hx|_]; [lia|]. destruct (Z.eqb_spec (ai A warm_start) 2) as [Hx|_]; [lia|].
    set (ux := if Z.eqb (ai A warm_start) 0 then _ else _). clearbody ux.
    assert (Cn : forall l t : rv, centred (ar A mu0) l t c -> 0 < l c /\ 0 < t c /\ l c * t c = ar A mu0).
    { intros l t [C1 C2]. split; [|split; assumption]. apply Rmult_lt_reg_r with (t c); [exact C1|]. rewrite Rmult_0_l, C2. exact Hmu. }
    destruct (Z.eqb (ai A t0_init) 0).
    { cbn [fst snd]. unfold VECSE. rewrite !vset0_in by exact Hc. rsimp. pose proof (sqrt_lt_R0 _ Hmu). repeat split; try assumption. apply sqrt_sqrt; lra. }
    destruct (Z.eqb (ai A t0_init) 1).
    { cbn [fst snd]. unfold VECSE. rewrite !vset0_in by exact Hc. rsimp. rewrite R_lit11. repeat split; lra. }
    unfold nct in Hc. destruct (Z.eqb (ai A var_init_scheme) 0).
    + pose proof (init_box_R (ar A mu0) (dnb D i) (dng D i) (q_idxb qp i) (q_d qp i) (q_mask qp i) ux (s_lam sol i) (s_t sol i)) as B.
      destruct (init_box _ _ _ _ _ _ _) as [[u1 l1] t1]. destruct B as (B1 & _).
      pose proof (init_gen_R (ar A mu0) (dnu D i + dnx D i) (dnb D i) (dng D i) (q_DCt qp i) (q_d qp i) (q_mask qp i) u1 l1 t1) as G.
      destruct (init_gen _ _ _ _ _ _ _ _ _) as [l2 t2]. destruct G as (G1 & G2).
      pose proof (init_soft_R (ar A mu0) (dnu D i + dnx D i) (dnb D i) (dng D i) (dns D i) (q_d qp i) (q_mask qp i) u1 l2 t2 Hmu) as S.
      destruct (init_soft _ _ _ _ _ _ _ _) as [[u3 l3] t3]. destruct S as (S1 & S2 & _). cbn [fst snd]. apply Cn.
      set (nb := dnb D i) in *. set (ng := dng D i) in *. unfold centred.
      destruct (Nat.lt_ge_cases c (2 * nb + 2 * ng)) as [A1|A1].
      * destruct (S2 c A1) as [-> ->].
        destruct (Nat.lt_ge_cases c nb) as [A2|A2]; [destruct (G2 c ltac:(lia)) as [-> ->]; apply B1; exact A2|].
        destruct (Nat.lt_ge_cases c (nb + ng)) as [A3|A3]; [replace c with (nb + (c - nb))%nat by lia; apply G1; lia|].
        destruct (Nat.lt_ge_cases c (2 * nb + ng)) as [A4|A4]; [destruct (G2 c ltac:(lia)) as [-> ->]; replace c with (nb + ng + (c - nb - ng))%nat by lia; apply B1; lia|].
        replace c with (2 * nb + ng + (c - 2 * nb - ng))%nat by lia. apply G1; lia.
      * replace c with (2 * nb + 2 * ng + (c - 2 * nb - 2 * ng))%nat by lia. apply S1; lia.
    + pose proof (init_alt_R (ar A mu0) (dnu D i + dnx D i) (dnb D i) (dng D i) (dns D i) (q_idxb qp i) (q_idxs_rev qp i) (q_DCt qp i) (q_d qp i) ux (s_lam sol i) (s_t sol i)) as B.
      destruct (init_alt _ _ _ _ _ _ _ _ _ _) as [[u1 l1] t1]. cbn [fst snd]. apply Cn, B, Hc.
  - intros Hw. rewrite Hw. cbn [Z.leb Z.compare Pos.compare Pos.compare_cont Z.eqb Pos.eqb]. specialize (CL thr0 thr0). change (1 / 10) with (thr0 (F := R)).
    destruct (clip_lt _ _ _ _) as [l t]. exact CL.
  - intros Hw. destruct (Z.leb_spec 3 (ai A warm_start)) as [_|Hx]; [|lia]. specialize (CL (ar A lam0_min) (ar A t0_min)).
    destruct (clip_lt _ _ _ _) as [l t]. exact CL.
Qed.

(** C31: bounded variables, default scheme (var_init_scheme = 0, t0_init = 2), cold or primal warm start, every bounded variable named once in idxb.
    A variable with two active bounds at least 0.1 apart starts between them, and at least 0.1 inside if they are 0.2 apart; with one active bound it
    starts at least 0.1 inside it.  Variables without bounds keep their warm start value (0 for a cold start). *)
Theorem C31_bounds i : (ai A warm_start <= 1)%Z -> ai A t0_init = 2%Z -> ai A var_init_scheme = 0%Z -> 0 < ar A mu0 ->
  let nb := dnb D i in let ng := dng D i in let idxb := q_idxb qp i in let mask := q_mask qp i in let d := q_d qp i in
  (forall j, (j < nb)%nat -> (idxb j < dnu D i + dnx D i)%nat) ->
  (forall j k, (j < nb)%nat -> (k < nb)%nat -> idxb j = idxb k -> j = k) ->
  (forall j, (j < nb)%nat -> let lb := d j in let ub := - d (nb + ng + j)%nat in let x := s_ux s' i (idxb j) in
     (mask j <> 0 -> mask (nb + ng + j)%nat <> 0 -> 1 / 10 <= ub - lb -> lb <= x <= ub /\ (2 / 10 <= ub - lb -> lb + 1 / 10 <= x <= ub - 1 / 10)) /\
     (mask j <> 0 -> mask (nb + ng + j)%nat = 0 -> lb + 1 / 10 <= x) /\ (mask j = 0 -> mask (nb + ng + j)%nat <> 0 -> x <= ub - 1 / 10)) /\
  (forall k, (k < dnu D i + dnx D i)%nat -> (forall j, (j < nb)%nat -> idxb j <> k) -> s_ux s' i k = if Z.eqb (ai A warm_start) 0 then 0 else s_ux sol i k).
Proof.
  intros Hw Ht Hv Hmu. cbv zeta. intros Hr Hinj. unfold s', init_var. cbn [s_ux]. unfold init_stage. fold D. rewrite Ht, Hv.
  destruct (Z.leb_spec 3 (ai A warm_start)) as [Hx|_]; [lia|]. destruct (Z.eqb_spec (ai A warm_start) 2) as [Hx|_]; [lia|]. cbn [Z.eqb].
  set (ux := if Z.eqb (ai A warm_start) 0 then _ else _).
  assert (Eu : forall k, (k < dnu D i + dnx D i)%nat -> ux k = if Z.eqb (ai A warm_start) 0 then 0 else s_ux sol i k).
  { intros k Hk. unfold ux. destruct (Z.eqb (ai A warm_start) 0); [|reflexivity]. unfold VECSE. rewrite vset0_in by (unfold nvt; lia). rsimp. apply R_lit01. }
  clearbody ux.
  pose proof (init_box_R (ar A mu0) (dnb D i) (dng D i) (q_idxb qp i) (q_d qp i) (q_mask qp i) ux (s_lam sol i) (s_t sol i)) as B.
  destruct (init_box _ _ _ _ _ _ _) as [[u1 l1] t1]. destruct B as (_ & B2 & B3).
  destruct (init_gen _ _ _ _ _ _ _ _ _) as [l2 t2].
  pose proof (init_soft_R (ar A mu0) (dnu D i + dnx D i) (dnb D i) (dng D i) (dns D i) (q_d qp i) (q_mask qp i) u1 l2 t2 Hmu) as S.
  destruct (init_soft _ _ _ _ _ _ _ _) as [[u3 l3] t3]. destruct S as (_ & _ & S3). cbn [fst snd]. split.
  - intros j Hj. rewrite S3 by (apply Hr; exact Hj). apply (B3 Hinj j Hj).
  - intros k Hk Hn. rewrite S3 by exact Hk. rewrite B2 by exact Hn. apply Eu. exact Hk.
Qed.
End P.
Print Assumptions C31_interior.
Print Assumptions C31_bounds.

(** a concrete case: 0 <= u <= 1, cold start of the SPEED preset *)
Definition exi_qp : oqp R := mkqp (mkdims 0 (fun _ => 0%nat) (fun _ => 1%nat) (fun _ => 1%nat) (fun _ => 0%nat) (fun _ => 0%nat))
  (fun _ _ _ => 0) (fun _ _ _ => 1) (fun _ _ _ => 0) (fun _ _ => 0) (fun _ _ => 0) (fun _ c => match c with 0%nat => 0 | _ => -1 end) (fun _ _ => 1) (fun _ _ => 0) (fun _ _ => 0) (fun _ _ => 0%nat) (fun _ _ => (-1)%Z).
Example C31_hypotheses_met (a : arg R) : let A := arg_set_default SPEED a in
  (ai A warm_start <= 1)%Z /\ ai A t0_init = 2%Z /\ ai A var_init_scheme = 0%Z /\ 0 < ar A mu0 /\ (0 < nct (q_dim exi_qp) 0)%nat /\
  (forall j, (j < 1)%nat -> (q_idxb exi_qp 0 j < 1)%nat) /\ 2 / 10 <= - q_d exi_qp 0 1 - q_d exi_qp 0 0.
Proof. cbn. repeat split; try lia; try lra. Qed.

Local Open Scope Z_scope.
(** Bounds less than 0.1 apart (IEEE doubles): cold start, 1 <= u <= 1.05 gives u = 1.1, above the upper bound. *)
Theorem C31_narrow_bounds_refuted : let lit := @lit spec_float FArith in
  let qp := mkqp (mkdims 0 (fun _ => 0%nat) (fun _ => 1%nat) (fun _ => 1%nat) (fun _ => 0%nat) (fun _ => 0%nat))
    (fun _ _ _ => lit 0 1) (fun _ _ _ => lit 1 1) (fun _ _ _ => lit 0 1) (fun _ _ => lit 0 1) (fun _ _ => lit 0 1)
    (fun _ c => match c with 0%nat => lit 1 1 | _ => fopp (lit 105 100) end) (fun _ _ => lit 1 1) (fun _ _ => lit 0 1) (fun _ _ => lit 0 1) (fun _ _ => 0%nat) (fun _ _ => (-1)%Z) in
  let A := arg_set_default SPEED (mkarg (fun _ => lit 0 1) (fun _ => 0%Z)) in
  let s := init_var A qp (mksol (fun _ _ => lit 0 1) (fun _ _ => lit 0 1) (fun _ _ => lit 0 1) (fun _ _ => lit 0 1)) in
  SFltb (lit 105 100) (s_ux s 0%nat 0%nat) = true.
Proof. vm_compute. reflexivity. Qed.
Print Assumptions C31_narrow_bounds_refuted.
