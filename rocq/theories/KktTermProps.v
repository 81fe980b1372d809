(** KktTermProps.v -- C39: in exact arithmetic the factorise-and-solve of the interior-point system returns for every QP, convex or not.
    Specification: ResSpec.v, KktSpec.v. *)
From Coq Require Import ZArith Bool Arith Lia Reals Lra.
From Verif Require Import Base ArithF RSum Blas Blas2 CoreModel CoreProofs OcpModel ResSpec KktSpec ResProofs CholProofs CholPD KktModel KktProofs KktProofs2 KktProofs3 KktProofs4 KktProofs5 KktProofs6 KktProofs7 DenKktProofs6 KktTerm KktProps.
Local Open Scope R_scope.

(** C39: whatever the Hessians, the constraints, the point (lam, t), the workspace and the algorithm, after finitely many retries a step is
    returned, provided the regularisation of the previous call was reg_prim itself (as the solver sets it on entry) or positive; the
    regularisation it reports then satisfies the same condition, so the next call returns too. *)
Theorem C39_retry_terminates (a : kargs R) (qp : oqp R) sq tinv0 Gam0 gam0 stp w :
  qp_wf qp -> (1 <= dN (q_dim qp))%nat -> BAok qp w -> 0 <= a_reg a -> (a_preg_last a = a_reg a \/ 0 < a_preg_last a) ->
  exists fuel step preg w', fact_solve_kkt fuel sq a qp tinv0 Gam0 gam0 stp w = Some (step, preg, w') /\ (preg = a_reg a \/ 0 < preg).
Proof.
  intros Hwf HN HB Hr Hl. set (Gam := kkt_Gam a qp tinv0 Gam0 gam0). set (gam := kkt_gam a qp tinv0 Gam0 gam0).
  destruct (cls_large qp (a_reg a) Gam gam Hwf HN) as (K & HK).
  assert (HR : forall w1, BAok qp w1 -> exists fuel w' preg', retry fuel (a_reg a) (a_preg_last a) qp Gam gam false (a_reg a) w1 = Some (w', preg') /\ 0 < preg').
  { intros w1 B1. pose proof (next_first (a_reg a) (a_preg_last a) (a_reg a) Hr Hl) as G. destruct (big_pow K _ G) as (n & Hn).
    apply (retry_ends qp (a_reg a) Gam gam (a_preg_last a) K Hr Hl HK n false (a_reg a) w1 B1); [discriminate|exact Hn]. }
  unfold fact_solve_kkt, kkt_factor. fold Gam gam. destruct sq.
  - destruct (fact_sqrt (a_reg a) (a_reg a) qp Gam gam w) as [w1 sg] eqn:E. destruct sg; [|exists 0%nat; do 3 eexists; split; [reflexivity|left; reflexivity]].
    destruct (HR w1 (fact_sqrt_BA _ _ _ _ _ _ _ _ HB E)) as (f & w2 & p & Ef & Hp). exists f. rewrite Ef. do 3 eexists. split; [reflexivity|right; exact Hp].
  - destruct (fact_cls (a_reg a) (a_reg a) qp Gam gam w) as [w1 sg] eqn:E. destruct sg; [|exists 0%nat; do 3 eexists; split; [reflexivity|left; reflexivity]].
    destruct (HR w1 (fact_cls_BA _ _ _ _ _ _ _ _ HB E)) as (f & w2 & p & Ef & Hp). exists f. rewrite Ef. do 3 eexists. split; [reflexivity|right; exact Hp].
Qed.
(** the number of retries allowed does not matter once it is large enough: the model's fuel does not choose the result *)
Theorem C39_fuel_irrelevant (a : kargs R) (qp : oqp R) sq tinv0 Gam0 gam0 stp w fuel fuel' r :
  fact_solve_kkt fuel sq a qp tinv0 Gam0 gam0 stp w = Some r -> (fuel <= fuel')%nat -> fact_solve_kkt fuel' sq a qp tinv0 Gam0 gam0 stp w = Some r.
Proof.
  assert (G : forall f f' reg last Gam gam init preg w1 r1, (f <= f')%nat -> retry f reg last qp Gam gam init preg w1 = Some r1 -> retry f' reg last qp Gam gam init preg w1 = Some r1).
  { induction f as [|f IH]; intros f' reg last Gam gam init preg w1 r1 Hf H; [discriminate|]. destruct f' as [|f']; [lia|]. cbn [retry] in *. destruct (fact_cls _ _ _ _ _ _) as [w2 sg]. destruct sg; [|exact H]. apply IH; [lia|exact H]. }
  intros H Hf. unfold fact_solve_kkt, kkt_factor in *. destruct (if sq then _ else _) as [w1 sg]. destruct sg; [|exact H].
  destruct (retry fuel _ _ _ _ _ _ _ _) as [[w2 p]|] eqn:E; [|discriminate]. rewrite (G _ _ _ _ _ _ _ _ _ _ Hf E). exact H.
Qed.

(** A non-convex case: x1 = u0, weight -1 on u0, no constraints: the first attempt breaks down (no step without a retry), a later one returns. *)
Definition ntD : dims := mkdims 1 (fun i => match i with 1%nat => 1%nat | _ => 0%nat end) (fun i => match i with 0%nat => 1%nat | _ => 0%nat end) (fun _ => 0%nat) (fun _ => 0%nat) (fun _ => 0%nat).
Definition ntqp : oqp R := mkqp ntD (fun _ _ _ => 1) (fun i _ _ => match i with 0%nat => -1 | _ => 0 end) (fun _ _ _ => 0) (fun _ _ => 0) (fun _ _ => 1) (fun _ _ => 0) (fun _ _ => 1) (fun _ _ => 0) (fun _ _ => 0) (fun _ _ => 0%nat) (fun _ _ => (-1)%Z).
Definition nta : kargs R := mkka (1 / 2) true (1 / 2) (fun _ _ => 1) (fun _ _ => 1) 0 0 0 0.
Definition ntw : kws R := mkkws (fun _ _ _ => 1) (fun _ _ _ => 0) (fun _ _ => 0) (fun _ _ _ => 0) (fun _ _ => 0) (fun _ _ => 0) (fun _ _ => 0) (fun _ _ => 0) (fun _ _ => 0) (fun _ => 0) (fun _ _ => 0) (fun _ _ => 0) (fun _ _ => 0) (fun _ _ => 0).
Lemma nt_wf : qp_wf ntqp.
Proof. intros i _. split; intros; cbn in *; lia. Qed.
Theorem C39_nonconvex_case : (forall tinv0 Gam0 gam0 stp, fact_solve_kkt 0 false nta ntqp tinv0 Gam0 gam0 stp ntw = None) /\
  forall tinv0 Gam0 gam0 stp, exists fuel step preg w', fact_solve_kkt fuel false nta ntqp tinv0 Gam0 gam0 stp ntw = Some (step, preg, w').
Proof.
  assert (HB : BAok ntqp ntw) by (intros ss i j _ _ _; reflexivity). split.
  - intros tinv0 Gam0 gam0 stp. unfold fact_solve_kkt, kkt_factor. set (Gam := kkt_Gam _ _ _ _ _). set (gam := kkt_gam _ _ _ _ _). clearbody Gam gam.
    destruct (fact_cls _ _ _ _ _ _) as [w1 sg] eqn:E. destruct sg; [reflexivity|exfalso].
    destruct (fact_cls_R ntqp (a_reg nta) Gam gam nt_wf (a_reg nta) ntw w1 (le_n 1) HB E) as (_ & S1 & (F1 & _ & F3) & _).
    destruct (S1 1%nat (conj (le_n 1) (le_n 1))) as ((G1 & _) & _).
    specialize (F1 0%nat 0%nat (le_n 1) (le_n 1)). specialize (F3 0%nat (le_n 1)). specialize (G1 0%nat 0%nat (le_n 1) (le_n 1)).
    set (P := k_P w1 1%nat) in *. set (L := k_L w1 0%nat) in *. 
    cbv -[Rplus Rmult Rminus Ropp IZR Rinv Rdiv P L] in F1, F3, G1. nra.
  - intros tinv0 Gam0 gam0 stp. destruct (C39_retry_terminates nta ntqp false tinv0 Gam0 gam0 stp ntw nt_wf (le_n 1) HB) as (f & s & p & w' & E & _).
    + unfold nta. cbn. lra.
    + left. reflexivity.
    + exists f, s, p, w'. exact E.
Qed.

(** The condition on the previous regularisation is needed: a freshly created workspace holds 0 there (the solver overwrites it on entry, a
    direct call of the KKT function does not); with reg_prim > 0 the retries then divide and multiply 0 and never end on a non-convex QP. *)
Definition nta0 : kargs R := mkka (1 / 2) true 0 (fun _ _ => 1) (fun _ _ => 1) 0 0 0 0.
Theorem C39_fresh_workspace_never_returns_refuted fuel tinv0 Gam0 gam0 stp : fact_solve_kkt fuel false nta0 ntqp tinv0 Gam0 gam0 stp ntw = None.
Proof.
  assert (HB : BAok ntqp ntw) by (intros ss i j _ _ _; reflexivity). unfold fact_solve_kkt, kkt_factor. set (Gam := kkt_Gam _ _ _ _ _). set (gam := kkt_gam _ _ _ _ _). clearbody Gam gam.
  assert (Hs : forall preg w w1 sg, preg <= 1 / 2 -> BAok ntqp w -> fact_cls (a_reg nta0) preg ntqp Gam gam w = (w1, sg) -> sg = true /\ BAok ntqp w1).
  { intros preg w w1 sg Hp B0 E. split; [|eapply fact_cls_BA; [exact B0|exact E]]. destruct sg; [reflexivity|exfalso].
    destruct (fact_cls_R ntqp (a_reg nta0) Gam gam nt_wf preg w w1 (le_n 1) B0 E) as (_ & S1 & (F1 & _ & F3) & _).
    destruct (S1 1%nat (conj (le_n 1) (le_n 1))) as ((G1 & _) & _).
    specialize (F1 0%nat 0%nat (le_n 1) (le_n 1)). specialize (F3 0%nat (le_n 1)). specialize (G1 0%nat 0%nat (le_n 1) (le_n 1)).
    set (P := k_P w1 1%nat) in *. set (L := k_L w1 0%nat) in *.
    cbv -[Rplus Rmult Rminus Ropp IZR Rinv Rdiv P L] in F1, F3, G1. nra. }
  assert (Hz : forall f init w, BAok ntqp w -> retry f (a_reg nta0) (a_preg_last nta0) ntqp Gam gam init (if init then 0 else 1 / 2) w = None).
  { induction f as [|f IH]; intros init w B0; [reflexivity|]. cbn [retry].
    assert (E0 : next_preg (a_reg nta0) (a_preg_last nta0) init (if init then 0 else 1 / 2) = 0).
    { unfold next_preg, nta0. cbn [a_reg a_preg_last]. rsimp. destruct (Reqb_spec 0 (1 / 2)); [lra|]. destruct init; lra. }
    rewrite E0. destruct (fact_cls _ _ _ _ _ _) as [w1 sg] eqn:E. destruct (Hs 0 w w1 sg ltac:(lra) B0 E) as (-> & B1). exact (IH true w1 B1). }
  destruct (fact_cls _ _ _ _ _ _) as [w1 sg] eqn:E. destruct (Hs (a_reg nta0) ntw w1 sg (Rle_refl _) HB E) as (-> & B1). pose proof (Hz fuel false w1 B1) as H0. cbn [nta0 a_reg a_preg_last] in *. rewrite H0. reflexivity.
Qed.

Print Assumptions C39_retry_terminates.
Print Assumptions C39_fuel_irrelevant.
Print Assumptions C39_nonconvex_case.
Print Assumptions C39_fresh_workspace_never_returns_refuted.
