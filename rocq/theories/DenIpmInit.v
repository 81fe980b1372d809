(** DenIpmInit.v -- the initial iterate of the dense solver (DENSE_QP_INIT_VAR), exact arithmetic. *)
From Coq Require Import ZArith Bool Arith List Lia Reals Lra.
From Verif Require Import Base ArithF Blas Blas2 QpDataProofs OcpModel CoreModel ArgModel DenModel DenIpmModel.
From Verif Require IpmInit.
Local Open Scope R_scope.
Notation rv := (nat -> R).
Notation centred := IpmInit.centred. Notation centred_div := IpmInit.centred_div.
Ltac updc := repeat (rewrite IpmInit.upd_eq; match goal with |- context [Nat.eqb ?a ?b] => destruct (Nat.eqb_spec a b); [try (exfalso; lia)|try (exfalso; lia)] end).
Lemma thr0_R : thr0 (F := R) = 1 / 10. Proof. reflexivity. Qed.

(** clipping from below (warm starts 2 and 3): same code as in the OCP solver *)
Lemma clip_lt_val n a b (lam t : rv) : let '(lam', t') := clip_lt n a b (lam, t) in
  forall j, (j < n)%nat -> lam' j = (if Rltb (lam j) a then a else lam j) /\ t' j = (if Rltb (t j) b then b else t j).
Proof. exact (IpmInit.clip_lt_val n a b lam t). Qed.

(** one bound *)
Lemma fit_bound_R lb ub idx jl ju (ux t : rv) : jl <> ju -> let '(ux', t') := fit_bound lb ub idx jl ju (ux, t) in
  1 / 10 <= t' jl /\ 1 / 10 <= t' ju /\ (forall k, k <> jl -> k <> ju -> t' k = t k) /\ (forall k, k <> idx -> ux' k = ux k) /\
  (t jl = ux idx - lb -> t ju = - ub - ux idx -> 2 / 10 <= - ub - lb -> lb + 1 / 10 <= ux' idx <= - ub - 1 / 10) /\
  (t jl = ux idx - lb -> 1 / 10 <= t ju -> lb + 1 / 10 <= ux' idx) /\ (t ju = - ub - ux idx -> 1 / 10 <= t jl -> ux' idx <= - ub - 1 / 10).
Proof.
  intros Hn. unfold fit_bound. rsimp. rewrite thr0_R. destruct (Rltb_spec (t jl) (1 / 10)) as [H1|H1]; destruct (Rltb_spec (t ju) (1 / 10)) as [H2|H2].
  - repeat split; [updc; lra|updc; lra|intros k K1 K2; updc; reflexivity|intros k K; updc; reflexivity|..]; rewrite upd_same; lra.
  - repeat split; [updc; lra|updc; lra|intros k K1 K2; updc; reflexivity|intros k K; updc; reflexivity|..]; rewrite upd_same; lra.
  - repeat split; [updc; lra|updc; lra|intros k K1 K2; updc; reflexivity|intros k K; updc; reflexivity|..]; rewrite upd_same; lra.
  - repeat split; try lra; reflexivity.
Qed.

(** the box constraints of a stage *)
Lemma init_box_R mu nb ng (idxb : nat -> nat) (d mask ux lam t : rv) : let '(ux', lam', t') := init_box mu nb ng idxb d mask (ux, lam, t) in
  (forall j, (j < nb)%nat -> centred mu lam' t' j /\ centred mu lam' t' (nb + ng + j)%nat) /\
  (forall k, (forall j, (j < nb)%nat -> idxb j <> k) -> ux' k = ux k) /\
  ((forall i j, (i < nb)%nat -> (j < nb)%nat -> idxb i = idxb j -> i = j) -> forall j, (j < nb)%nat ->
     let lb := d j in let ub := - d (nb + ng + j)%nat in let x := ux' (idxb j) in
     (mask j <> 0 -> mask (nb + ng + j)%nat <> 0 -> 2 / 10 <= ub - lb -> lb + 1 / 10 <= x <= ub - 1 / 10) /\
     (mask j <> 0 -> mask (nb + ng + j)%nat = 0 -> lb + 1 / 10 <= x) /\ (mask j = 0 -> mask (nb + ng + j)%nat <> 0 -> x <= ub - 1 / 10)).
Proof.
  unfold init_box. match goal with |- context [loop nb ?g _] => set (f := g) end.
  assert (H : let '(ux', lam', t') := loop nb f (ux, lam, t) in
    (forall j, (j < nb)%nat -> centred mu lam' t' j /\ centred mu lam' t' (nb + ng + j)%nat) /\
    (forall k, (forall j, (j < nb)%nat -> idxb j <> k) -> ux' k = ux k) /\
    ((forall i j, (i < nb)%nat -> (j < nb)%nat -> idxb i = idxb j -> i = j) -> forall j, (j < nb)%nat ->
     let lb := d j in let ub := - d (nb + ng + j)%nat in let x := ux' (idxb j) in
     (mask j <> 0 -> mask (nb + ng + j)%nat <> 0 -> 2 / 10 <= ub - lb -> lb + 1 / 10 <= x <= ub - 1 / 10) /\
     (mask j <> 0 -> mask (nb + ng + j)%nat = 0 -> lb + 1 / 10 <= x) /\ (mask j = 0 -> mask (nb + ng + j)%nat <> 0 -> x <= ub - 1 / 10))).
  2:{ destruct (loop nb f (ux, lam, t)) as [[ux' lam'] t']. exact H. }
  apply (loop_ind (fun k st => let '(ux', lam', t') := st in
    (forall j, (j < k)%nat -> centred mu lam' t' j /\ centred mu lam' t' (nb + ng + j)%nat) /\
    (forall k', (forall j, (j < k)%nat -> idxb j <> k') -> ux' k' = ux k') /\
    ((forall i j, (i < nb)%nat -> (j < nb)%nat -> idxb i = idxb j -> i = j) -> forall j, (j < k)%nat ->
     let lb := d j in let ub := - d (nb + ng + j)%nat in let x := ux' (idxb j) in
     (mask j <> 0 -> mask (nb + ng + j)%nat <> 0 -> 2 / 10 <= ub - lb -> lb + 1 / 10 <= x <= ub - 1 / 10) /\
     (mask j <> 0 -> mask (nb + ng + j)%nat = 0 -> lb + 1 / 10 <= x) /\ (mask j = 0 -> mask (nb + ng + j)%nat <> 0 -> x <= ub - 1 / 10)))).
  - split; [intros; lia|]. split; [intros; reflexivity|intros; lia].
  - intros k [[u l] tt] Hk (I1 & I2 & I3). unfold f. cbv zeta. rsimp. rewrite R_lit01, R_lit11.
    set (lb := if Reqb (mask k) 0 then u (idxb k) - 1 else d k). set (ub := if Reqb (mask (nb + ng + k)%nat) 0 then - u (idxb k) - 1 else d (nb + ng + k)%nat).
    set (t1 := upd (upd tt k (- lb + u (idxb k))) (nb + ng + k)%nat (- ub - u (idxb k))).
    assert (T1 : t1 k = u (idxb k) - lb) by (unfold t1; updc; lra).
    assert (T2 : t1 (nb + ng + k)%nat = - ub - u (idxb k)) by (unfold t1; updc; lra).
    pose proof (fit_bound_R lb ub (idxb k) k (nb + ng + k) u t1 ltac:(lia)) as B.
    destruct (fit_bound lb ub (idxb k) k (nb + ng + k) (u, t1)) as [u' t'].
    destruct B as (B1 & B2 & B3 & B4 & B5 & B6 & B7).
    specialize (B5 T1 T2). specialize (B6 T1). specialize (B7 T2).
    assert (Tf : forall j, j <> k -> j <> (nb + ng + k)%nat -> t' j = tt j) by (intros j J1 J2; rewrite B3 by assumption; unfold t1; updc; reflexivity).
    clearbody t1. split; [|split].
    + intros j Hj. destruct (Nat.eq_dec j k) as [->|Hn].
      * split; apply centred_div; try lra; updc; reflexivity.
      * destruct (I1 j ltac:(lia)) as [[C1 C2] [C3 C4]]. unfold centred. rewrite (Tf j), (Tf (nb + ng + j)%nat) by lia. rewrite !upd_other by lia. repeat split; assumption.
    + intros k' Hk'. rewrite B4 by (intros E; apply (Hk' k); [lia|congruence]). apply I2. intros j Hj. apply Hk'. lia.
    + intros Hinj j Hj. cbv zeta. destruct (Nat.eq_dec j k) as [->|Hn].
      * subst lb ub. split; [|split].
        -- intros M1 M2. destruct (Reqb_spec (mask k) 0); [contradiction|]. destruct (Reqb_spec (mask (nb + ng + k)%nat) 0); [contradiction|]. intros Hr. specialize (B5 ltac:(lra)). lra.
        -- intros M1 M2. destruct (Reqb_spec (mask k) 0); [contradiction|]. destruct (Reqb_spec (mask (nb + ng + k)%nat) 0); [|contradiction]. specialize (B6 ltac:(rewrite T2; lra)). lra.
        -- intros M1 M2. destruct (Reqb_spec (mask k) 0); [|contradiction]. destruct (Reqb_spec (mask (nb + ng + k)%nat) 0); [contradiction|]. specialize (B7 ltac:(rewrite T1; lra)). lra.
      * rewrite B4 by (intros E; apply Hn; apply Hinj; [lia|lia|exact E]). apply (I3 Hinj j). lia.
Qed.

(** general constraints *)
Lemma init_gen_R mu n nb ng (Ct : nat -> rv) (d mask ux lam t : rv) : let '(lam', t') := init_gen mu n nb ng Ct d mask ux (lam, t) in
  (forall j, (j < ng)%nat -> centred mu lam' t' (nb + j)%nat /\ centred mu lam' t' (2 * nb + ng + j)%nat) /\
  (forall k, (k < nb \/ nb + ng <= k < 2 * nb + ng \/ 2 * nb + 2 * ng <= k)%nat -> lam' k = lam k /\ t' k = t k).
Proof.
  unfold init_gen. set (t1 := GEMV_T _ _ _ _ _ _ _ _ _ _ _ _ _).
  assert (F1 : forall k, (k < nb \/ nb + ng <= k)%nat -> t1 k = t k) by (intros k Hk; unfold t1, GEMV_T; apply vset_out; lia). clearbody t1.
  match goal with |- context [loop ng ?g _] => set (f := g) end.
  assert (H : let '(lam', t') := loop ng f (lam, t1) in
    (forall j, (j < ng)%nat -> centred mu lam' t' (nb + j)%nat /\ centred mu lam' t' (2 * nb + ng + j)%nat) /\
    (forall k, (k < nb \/ nb + ng <= k < 2 * nb + ng \/ 2 * nb + 2 * ng <= k)%nat -> lam' k = lam k /\ t' k = t k)).
  2:{ destruct (loop ng f (lam, t1)) as [l' t']. exact H. }
  apply (loop_ind (fun k st => let '(lam', t') := st in
    (forall j, (j < k)%nat -> centred mu lam' t' (nb + j)%nat /\ centred mu lam' t' (2 * nb + ng + j)%nat) /\
    (forall k, (k < nb \/ nb + ng <= k < 2 * nb + ng \/ 2 * nb + 2 * ng <= k)%nat -> lam' k = lam k /\ t' k = t k))).
  - split; [intros; lia|]. intros k Hk. split; [reflexivity|apply F1; lia].
  - intros k [l tt] Hk (I1 & I2). unfold f. cbv zeta. rsimp. rewrite R_lit01.
    set (ta := upd tt (2 * nb + ng + k)%nat (tt (nb + k)%nat)).
    set (tb := if negb (Reqb (mask (nb + k)%nat) 0) then upd ta (nb + k)%nat (ta (nb + k)%nat - d (nb + k)%nat) else ta).
    set (tc := if negb (Reqb (mask (2 * nb + ng + k)%nat) 0) then upd tb (2 * nb + ng + k)%nat (tb (2 * nb + ng + k)%nat - d (2 * nb + ng + k)%nat) else tb).
    assert (Ft : forall j, j <> (nb + k)%nat -> j <> (2 * nb + ng + k)%nat -> tc j = tt j).
    { intros j J1 J2. unfold tc, tb, ta. destruct (negb _), (negb _); rewrite ?upd_other by assumption; reflexivity. }
    clearbody tc. clear ta tb.
    set (td := upd tc (nb + k)%nat (if Rltb (tc (nb + k)%nat) thr0 then thr0 else tc (nb + k)%nat)).
    set (te := upd td (2 * nb + ng + k)%nat (if Rltb (td (2 * nb + ng + k)%nat) thr0 then thr0 else td (2 * nb + ng + k)%nat)).
    assert (Fe : forall j, j <> (nb + k)%nat -> j <> (2 * nb + ng + k)%nat -> te j = tt j).
    { intros j J1 J2. unfold te, td. rewrite !upd_other by assumption. apply Ft; assumption. }
    assert (P1 : 1 / 10 <= te (nb + k)%nat).
    { unfold te. rewrite upd_other by lia. unfold td. rewrite upd_same. rewrite thr0_R. destruct (Rltb_spec (tc (nb + k)%nat) (1 / 10)); lra. }
    assert (P2 : 1 / 10 <= te (2 * nb + ng + k)%nat).
    { unfold te. rewrite upd_same. rewrite thr0_R. destruct (Rltb_spec (td (2 * nb + ng + k)%nat) (1 / 10)); lra. }
    clearbody te. clear td Ft. split.
    + intros j Hj. destruct (Nat.eq_dec j k) as [->|Hn].
      * split; apply centred_div; try lra; updc; reflexivity.
      * destruct (I1 j ltac:(lia)) as [[C1 C2] [C3 C4]]. unfold centred. rewrite (Fe (nb + j)%nat), (Fe (2 * nb + ng + j)%nat) by lia. rewrite !upd_other by lia. repeat split; assumption.
    + intros j Hj. destruct (I2 j Hj) as [J1 J2]. rewrite (Fe j) by lia. rewrite !upd_other by lia. split; assumption.
Qed.

(** slacks *)
Lemma init_soft_R mu nb ng ns (lam t : rv) : let '(lam', t') := init_soft mu nb ng ns (lam, t) in
  (forall j, (j < 2 * ns)%nat -> centred mu lam' t' (2 * nb + 2 * ng + j)%nat) /\
  (forall k, (k < 2 * nb + 2 * ng)%nat -> lam' k = lam k /\ t' k = t k).
Proof.
  unfold init_soft. match goal with |- context [loop ns ?g _] => set (f := g) end.
  assert (H : let '(lam', t') := loop ns f (lam, t) in
    (forall j, (j < ns)%nat -> centred mu lam' t' (2 * nb + 2 * ng + j)%nat /\ centred mu lam' t' (2 * nb + 2 * ng + ns + j)%nat) /\
    (forall k, (k < 2 * nb + 2 * ng)%nat -> lam' k = lam k /\ t' k = t k)).
  2:{ destruct (loop ns f (lam, t)) as [l tt]. destruct H as (H1 & H2). split; [|assumption].
      intros j Hj. destruct (Nat.lt_ge_cases j ns) as [Hl|Hl]; [apply H1; exact Hl|].
      replace (2 * nb + 2 * ng + j)%nat with (2 * nb + 2 * ng + ns + (j - ns))%nat by lia. apply H1. lia. }
  apply (loop_ind (fun k st => let '(lam', t') := st in
    (forall j, (j < k)%nat -> centred mu lam' t' (2 * nb + 2 * ng + j)%nat /\ centred mu lam' t' (2 * nb + 2 * ng + ns + j)%nat) /\
    (forall k, (k < 2 * nb + 2 * ng)%nat -> lam' k = lam k /\ t' k = t k))).
  - split; [intros; lia|]. intros; split; reflexivity.
  - intros k [l tt] Hk (I1 & I2). unfold f. cbv zeta. rsimp. rewrite R_lit11. split.
    + intros j Hj. destruct (Nat.eq_dec j k) as [->|Hn].
      * split; apply centred_div; updc; try lra; reflexivity.
      * destruct (I1 j ltac:(lia)) as [[C1 C2] [C3 C4]]. unfold centred. rewrite !upd_other by lia. repeat split; assumption.
    + intros j Hj. rewrite !upd_other by lia. apply I2. exact Hj.
Qed.
