(** TipmInit.v -- the initial iterate of the tree solver (TREE_OCP_QP_INIT_VAR), exact arithmetic. *)
From Coq Require Import ZArith Bool Arith List Lia Reals Lra.
From Verif Require Import Base ArithF Blas Blas2 QpDataProofs OcpModel CoreModel ArgModel IpmModel IpmInit TipmModel.
Local Open Scope R_scope.

(** one bound.  When both distances are below 0.1 the code (line 1287) computes 0.5*(lb+ub) from ub = minus the upper bound: no claim then. *)
Lemma tfit_bound_R lb ub idx jl ju (ux t : rv) : jl <> ju -> let '(ux', t') := tfit_bound lb ub idx jl ju (ux, t) in
  1 / 10 <= t' jl /\ 1 / 10 <= t' ju /\ (forall k, k <> jl -> k <> ju -> t' k = t k) /\ (forall k, k <> idx -> ux' k = ux k) /\
  (t jl = ux idx - lb -> t ju = - ub - ux idx -> 2 / 10 <= - ub - lb -> lb + 1 / 10 <= ux' idx <= - ub - 1 / 10) /\
  (t jl = ux idx - lb -> 1 / 10 <= t ju -> lb + 1 / 10 <= ux' idx) /\ (t ju = - ub - ux idx -> 1 / 10 <= t jl -> ux' idx <= - ub - 1 / 10).
Proof.
  intros Hn. unfold tfit_bound. rsimp. rewrite thr0_R. destruct (Rltb_spec (t jl) (1 / 10)) as [H1|H1]; destruct (Rltb_spec (t ju) (1 / 10)) as [H2|H2].
  - repeat split; [updc; lra|updc; lra|intros k K1 K2; updc; reflexivity|intros k K; updc; reflexivity|..]; rewrite upd_same; lra.
  - repeat split; [updc; lra|updc; lra|intros k K1 K2; updc; reflexivity|intros k K; updc; reflexivity|..]; rewrite upd_same; lra.
  - repeat split; [updc; lra|updc; lra|intros k K1 K2; updc; reflexivity|intros k K; updc; reflexivity|..]; rewrite upd_same; lra.
  - repeat split; try lra; reflexivity.
Qed.

(** the box constraints of a node *)
Lemma tinit_box_R mu nb ng (idxb : nat -> nat) (d mask ux lam t : rv) : let '(ux', lam', t') := tinit_box mu nb ng idxb d mask (ux, lam, t) in
  (forall j, (j < nb)%nat -> centred mu lam' t' j /\ centred mu lam' t' (nb + ng + j)%nat) /\
  (forall k, (forall j, (j < nb)%nat -> idxb j <> k) -> ux' k = ux k) /\
  ((forall i j, (i < nb)%nat -> (j < nb)%nat -> idxb i = idxb j -> i = j) -> forall j, (j < nb)%nat ->
     let lb := d j in let ub := - d (nb + ng + j)%nat in let x := ux' (idxb j) in
     (mask j <> 0 -> mask (nb + ng + j)%nat <> 0 -> 2 / 10 <= ub - lb -> lb + 1 / 10 <= x <= ub - 1 / 10) /\
     (mask j <> 0 -> mask (nb + ng + j)%nat = 0 -> lb + 1 / 10 <= x) /\ (mask j = 0 -> mask (nb + ng + j)%nat <> 0 -> x <= ub - 1 / 10)).
Proof.
  unfold tinit_box. match goal with |- context [loop nb ?g _] => set (f := g) end.
  assert (H : let '(ux', lam', t') := loop nb f (ux, lam, t) in
    (forall j, (j < nb)%nat -> centred mu lam' t' j /\ centred mu lam' t' (nb + ng + j)%nat) /\
    (forall k, (forall j, (j < nb)%nat -> idxb j <> k) -> ux' k = ux k) /\
    ((forall i j, (i < nb)%nat -> (j < nb)%nat -> idxb i = idxb j -> i = j) -> forall j, (j < nb)%nat ->
     let lb := d j in let ub := - d (nb + ng + j)%nat in let x := ux' (idxb j) in
     (mask j <> 0 -> mask (nb + ng + j)%nat <> 0 -> 2 / 10 <= ub - lb -> lb + 1 / 10 <= x <= ub - 1 / 10) /\
     (mask j <> 0 -> mask (nb + ng + j)%nat = 0 -> lb + 1 / 10 <= x) /\ (mask j = 0 -> mask (nb + ng + j)%nat <> 0 -> x <= ub - 1 / 10))).
  2:{ destruct (loop nb f (ux, lam, t)) as [[ux' lam'] t']. exact H. }
  apply (loop_ind (fun k st => let '(ux', lam', t') := st in
    (forall j, (j < k)%nat -> centred mu lam' t' j /\ centred mu lam' t' (nb + ng + j)%nat) /\
    (forall k', (forall j, (j < k)%nat -> idxb j <> k') -> ux' k' = ux k') /\
    ((forall i j, (i < nb)%nat -> (j < nb)%nat -> idxb i = idxb j -> i = j) -> forall j, (j < k)%nat ->
     let lb := d j in let ub := - d (nb + ng + j)%nat in let x := ux' (idxb j) in
     (mask j <> 0 -> mask (nb + ng + j)%nat <> 0 -> 2 / 10 <= ub - lb -> lb + 1 / 10 <= x <= ub - 1 / 10) /\
     (mask j <> 0 -> mask (nb + ng + j)%nat = 0 -> lb + 1 / 10 <= x) /\ (mask j = 0 -> mask (nb + ng + j)%nat <> 0 -> x <= ub - 1 / 10)))).
  - split; [intros; lia|]. split; [intros; reflexivity|intros; lia].
  - intros k [[u l] tt] Hk (I1 & I2 & I3). unfold f. cbv zeta. rsimp. rewrite R_lit01, R_lit11.
    set (lb := if Reqb (mask k) 0 then u (idxb k) - 1 else d k). set (ub := if Reqb (mask (nb + ng + k)%nat) 0 then - u (idxb k) - 1 else d (nb + ng + k)%nat).
    set (t1 := upd (upd tt k (- lb + u (idxb k))) (nb + ng + k)%nat (- ub - u (idxb k))).
    assert (T1 : t1 k = u (idxb k) - lb) by (unfold t1; updc; lra).
    assert (T2 : t1 (nb + ng + k)%nat = - ub - u (idxb k)) by (unfold t1; updc; lra).
    pose proof (tfit_bound_R lb ub (idxb k) k (nb + ng + k) u t1 ltac:(lia)) as B.
    destruct (tfit_bound lb ub (idxb k) k (nb + ng + k) (u, t1)) as [u' t'].
    destruct B as (B1 & B2 & B3 & B4 & B5 & B6 & B7).
    specialize (B5 T1 T2). specialize (B6 T1). specialize (B7 T2).
    assert (Tf : forall j, j <> k -> j <> (nb + ng + k)%nat -> t' j = tt j) by (intros j J1 J2; rewrite B3 by assumption; unfold t1; updc; reflexivity).
    clearbody t1. split; [|split].
    + intros j Hj. destruct (Nat.eq_dec j k) as [->|Hn].
      * split; apply centred_div; try lra; updc; reflexivity.
      * destruct (I1 j ltac:(lia)) as [[C1 C2] [C3 C4]]. unfold centred. rewrite (Tf j), (Tf (nb + ng + j)%nat) by lia. rewrite !upd_other by lia. repeat split; assumption.
    + intros k' Hk'. rewrite B4 by (intros E; apply (Hk' k); [lia|congruence]). apply I2. intros j Hj. apply Hk'. lia.
    + intros Hinj j Hj. cbv zeta. destruct (Nat.eq_dec j k) as [->|Hn].
      * subst lb ub. split; [|split].
        -- intros M1 M2. destruct (Reqb_spec (mask k) 0); [contradiction|]. destruct (Reqb_spec (mask (nb + ng + k)%nat) 0); [contradiction|]. intros Hr. specialize (B5 ltac:(lra)). lra.
        -- intros M1 M2. destruct (Reqb_spec (mask k) 0); [contradiction|]. destruct (Reqb_spec (mask (nb + ng + k)%nat) 0); [|contradiction]. specialize (B6 ltac:(rewrite T2; lra)). lra.
        -- intros M1 M2. destruct (Reqb_spec (mask k) 0); [|contradiction]. destruct (Reqb_spec (mask (nb + ng + k)%nat) 0); [contradiction|]. specialize (B7 ltac:(rewrite T1; lra)). lra.
      * rewrite B4 by (intros E; apply Hn; apply Hinj; [lia|lia|exact E]). apply (I3 Hinj j). lia.
Qed.

(** slacks *)
Lemma tinit_soft_R mu o ns (lam t : rv) : let '(lam', t') := tinit_soft mu o ns (lam, t) in
  (forall j, (j < 2 * ns)%nat -> t' (o + j)%nat = 1 /\ centred mu lam' t' (o + j)%nat) /\ (forall k, (k < o)%nat -> lam' k = lam k /\ t' k = t k).
Proof.
  unfold tinit_soft. match goal with |- context [loop ns ?g _] => set (f := g) end.
  assert (H : let '(lam', t') := loop ns f (lam, t) in
    (forall j, (j < ns)%nat -> (t' (o + j)%nat = 1 /\ centred mu lam' t' (o + j)%nat) /\ (t' (o + ns + j)%nat = 1 /\ centred mu lam' t' (o + ns + j)%nat)) /\
    (forall k, (k < o)%nat -> lam' k = lam k /\ t' k = t k)).
  2:{ destruct (loop ns f (lam, t)) as [l tt]. destruct H as (H1 & H2). split; [|assumption].
      intros j Hj. destruct (Nat.lt_ge_cases j ns) as [Hl|Hl]; [apply H1; exact Hl|].
      replace (o + j)%nat with (o + ns + (j - ns))%nat by lia. apply H1. lia. }
  apply (loop_ind (fun k st => let '(lam', t') := st in
    (forall j, (j < k)%nat -> (t' (o + j)%nat = 1 /\ centred mu lam' t' (o + j)%nat) /\ (t' (o + ns + j)%nat = 1 /\ centred mu lam' t' (o + ns + j)%nat)) /\
    (forall k, (k < o)%nat -> lam' k = lam k /\ t' k = t k))).
  - split; [intros; lia|]. intros; split; reflexivity.
  - intros k [l tt] Hk (I1 & I2). unfold f. cbv zeta. rsimp. rewrite R_lit11.
    set (t3 := upd (upd tt (o + k)%nat 1) (o + ns + k)%nat 1).
    assert (T1 : t3 (o + k)%nat = 1) by (unfold t3; updc; reflexivity).
    assert (T2 : t3 (o + ns + k)%nat = 1) by (unfold t3; updc; reflexivity).
    assert (T3 : forall j, j <> (o + k)%nat -> j <> (o + ns + k)%nat -> t3 j = tt j) by (intros j J1 J2; unfold t3; rewrite !upd_other by assumption; reflexivity).
    clearbody t3. split.
    + intros j Hj. destruct (Nat.eq_dec j k) as [->|Hn].
      * split; (split; [assumption|]); apply centred_div; try lra; updc; reflexivity.
      * destruct (I1 j ltac:(lia)) as [[C0 [C1 C2]] [C3 [C4 C5]]]. unfold centred. rewrite (T3 (o + j)%nat), (T3 (o + ns + j)%nat) by lia. rewrite !upd_other by lia. repeat split; assumption.
    + intros j Hj. destruct (I2 j Hj) as [J1 J2]. rewrite (T3 j) by lia. rewrite !upd_other by lia. split; assumption.
Qed.
