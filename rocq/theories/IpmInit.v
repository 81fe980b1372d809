(** IpmInit.v -- the initial iterate (OCP_QP_INIT_VAR), exact arithmetic. *)
From Coq Require Import ZArith Bool Arith List Lia Reals Lra.
From Verif Require Import Base ArithF Blas Blas2 QpDataProofs OcpModel CoreModel ArgModel IpmModel.
Local Open Scope R_scope.
Notation rv := (nat -> R).

Lemma thr0_R : thr0 (F := R) = 1 / 10. Proof. reflexivity. Qed.
Lemma upd_eq (a : rv) i v k : upd a i v k = if Nat.eqb k i then v else a k. Proof. reflexivity. Qed.
(** case analysis on every [upd] of the goal *)
Ltac updc := repeat (rewrite upd_eq; match goal with |- context [Nat.eqb ?a ?b] => destruct (Nat.eqb_spec a b); [try (exfalso; lia)|try (exfalso; lia)] end).

Definition centred (mu : R) (lam t : rv) (j : nat) : Prop := 0 < t j /\ lam j * t j = mu.
Lemma centred_div mu (lam t : rv) j : 0 < t j -> lam j = mu / t j -> centred mu lam t j.
Proof. intros Ht E. split; [exact Ht|]. rewrite E. field. lra. Qed.

(** clipping from below (warm starts 2 and 3) *)
Lemma clip_lt_R n a b (lam t : rv) : let '(lam', t') := clip_lt n a b (lam, t) in
  forall j, (j < n)%nat -> a <= lam' j /\ b <= t' j /\ lam j <= lam' j /\ t j <= t' j.
Proof.
  unfold clip_lt. match goal with |- context [loop n ?g _] => set (f := g) end.
  assert (H : let '(lam', t') := loop n f (lam, t) in (forall j, (j < n)%nat -> a <= lam' j /\ b <= t' j /\ lam j <= lam' j /\ t j <= t' j) /\ (forall j, (n <= j)%nat -> lam' j = lam j /\ t' j = t j)).
  { apply (loop_ind (fun k st => let '(lam', t') := st in (forall j, (j < k)%nat -> a <= lam' j /\ b <= t' j /\ lam j <= lam' j /\ t j <= t' j) /\ (forall j, (k <= j)%nat -> lam' j = lam j /\ t' j = t j))).
    - split; [intros; lia|intros; split; reflexivity].
    - intros k [l tt] Hk [H1 H2]. unfold f. cbn zeta. rsimp. destruct (H2 k ltac:(lia)) as [E1 E2]. rewrite E1, E2. split.
      + intros j Hj. destruct (Nat.eq_dec j k) as [->|Hn].
        * destruct (Rltb_spec (lam k) a), (Rltb_spec (t k) b); rewrite ?upd_same, ?E1, ?E2; lra.
        * destruct (H1 j ltac:(lia)) as (A1 & A2 & A3 & A4). destruct (Rltb (lam k) a), (Rltb (t k) b); rewrite ?upd_other by assumption; repeat split; assumption.
      + intros j Hj. destruct (H2 j ltac:(lia)) as [B1 B2]. destruct (Rltb (lam k) a), (Rltb (t k) b); rewrite ?upd_other by lia; split; assumption. }
  destruct (loop n f (lam, t)) as [lam' t']. apply H.
Qed.

Lemma clip_lt_val n a b (lam t : rv) : let '(lam', t') := clip_lt n a b (lam, t) in
  forall j, (j < n)%nat -> lam' j = (if Rltb (lam j) a then a else lam j) /\ t' j = (if Rltb (t j) b then b else t j).
Proof.
  unfold clip_lt. match goal with |- context [loop n ?g _] => set (f := g) end.
  assert (H : let '(lam', t') := loop n f (lam, t) in forall j, lam' j = (if Nat.ltb j n then (if Rltb (lam j) a then a else lam j) else lam j) /\ t' j = (if Nat.ltb j n then (if Rltb (t j) b then b else t j) else t j)).
  { apply (loop_ind (fun k st => let '(lam', t') := st in forall j, lam' j = (if Nat.ltb j k then (if Rltb (lam j) a then a else lam j) else lam j) /\ t' j = (if Nat.ltb j k then (if Rltb (t j) b then b else t j) else t j))).
    - intros j. split; reflexivity.
    - intros k [l tt] Hk IH. unfold f. cbv zeta. rsimp. destruct (IH k) as [E1 E2]. rewrite Nat.ltb_irrefl in E1, E2. rewrite E1, E2. intros j. destruct (IH j) as [J1 J2].
      destruct (Nat.ltb_spec j (S k)) as [H|H].
      + destruct (Nat.eq_dec j k) as [->|Hn].
        * split; [destruct (Rltb (lam k) a)|destruct (Rltb (t k) b)]; rewrite ?upd_same; try reflexivity; assumption.
        * destruct (Nat.ltb_spec j k) as [_|Hx]; [|lia]. split; [destruct (Rltb (lam k) a)|destruct (Rltb (t k) b)]; rewrite ?upd_other by assumption; assumption.
      + destruct (Nat.ltb_spec j k) as [Hx|_]; [lia|]. split; [destruct (Rltb (lam k) a)|destruct (Rltb (t k) b)]; rewrite ?upd_other by lia; assumption. }
  destruct (loop n f (lam, t)) as [l' t']. intros j Hj. destruct (H j) as [H1 H2]. destruct (Nat.ltb_spec j n); [|lia]. split; assumption.
Qed.

(** one bound *)
Lemma fit_bound_R lb ub idx jl ju (ux t : rv) : jl <> ju -> let '(ux', t') := fit_bound lb ub idx jl ju (ux, t) in
  1 / 10 <= t' jl /\ 1 / 10 <= t' ju /\ (forall k, k <> jl -> k <> ju -> t' k = t k) /\ (forall k, k <> idx -> ux' k = ux k) /\
  (t jl = ux idx - lb -> t ju = - ub - ux idx -> 1 / 10 <= - ub - lb -> lb <= ux' idx <= - ub /\ (2 / 10 <= - ub - lb -> lb + 1 / 10 <= ux' idx <= - ub - 1 / 10)) /\
  (t jl = ux idx - lb -> 1 / 10 <= t ju -> lb + 1 / 10 <= ux' idx) /\ (t ju = - ub - ux idx -> 1 / 10 <= t jl -> ux' idx <= - ub - 1 / 10).
Proof.
  intros Hn. unfold fit_bound. rsimp. rewrite thr0_R. destruct (Rltb_spec (t jl) (1 / 10)) as [H1|H1]; destruct (Rltb_spec (t ju) (1 / 10)) as [H2|H2].
  - repeat split; [updc; lra|updc; lra|intros k K1 K2; updc; reflexivity|intros k K; updc; reflexivity|..]; rewrite upd_same; lra.
  - repeat split; [updc; lra|updc; lra|intros k K1 K2; updc; reflexivity|intros k K; updc; reflexivity|..]; rewrite upd_same; lra.
  - repeat split; [updc; lra|updc; lra|intros k K1 K2; updc; reflexivity|intros k K; updc; reflexivity|..]; rewrite upd_same; lra.
  - repeat split; try lra; reflexivity.
Qed.

(** the box constraints of a stage *)
Lemma init_box_R mu nb ng (idxb : nat -> nat) (d mask ux lam t : rv) : let '(ux', lam', t') := init_box mu nb ng idxb d mask (ux, lam, t) in
  (forall j, (j < nb)%nat -> centred mu lam' t' j /\ centred mu lam' t' (nb + ng + j)%nat) /\
  (forall k, (forall j, (j < nb)%nat -> idxb j <> k) -> ux' k = ux k) /\
  ((forall i j, (i < nb)%nat -> (j < nb)%nat -> idxb i = idxb j -> i = j) -> forall j, (j < nb)%nat ->
     let lb := d j in let ub := - d (nb + ng + j)%nat in let x := ux' (idxb j) in
     (mask j <> 0 -> mask (nb + ng + j)%nat <> 0 -> 1 / 10 <= ub - lb -> lb <= x <= ub /\ (2 / 10 <= ub - lb -> lb + 1 / 10 <= x <= ub - 1 / 10)) /\
     (mask j <> 0 -> mask (nb + ng + j)%nat = 0 -> lb + 1 / 10 <= x) /\ (mask j = 0 -> mask (nb + ng + j)%nat <> 0 -> x <= ub - 1 / 10)).
Proof.
  unfold init_box. match goal with |- context [loop nb ?g _] => set (f := g) end.
  assert (H : let '(ux', lam', t') := loop nb f (ux, lam, t) in
    (forall j, (j < nb)%nat -> centred mu lam' t' j /\ centred mu lam' t' (nb + ng + j)%nat) /\
    (forall k, (forall j, (j < nb)%nat -> idxb j <> k) -> ux' k = ux k) /\
    ((forall i j, (i < nb)%nat -> (j < nb)%nat -> idxb i = idxb j -> i = j) -> forall j, (j < nb)%nat ->
     let lb := d j in let ub := - d (nb + ng + j)%nat in let x := ux' (idxb j) in
     (mask j <> 0 -> mask (nb + ng + j)%nat <> 0 -> 1 / 10 <= ub - lb -> lb <= x <= ub /\ (2 / 10 <= ub - lb -> lb + 1 / 10 <= x <= ub - 1 / 10)) /\
     (mask j <> 0 -> mask (nb + ng + j)%nat = 0 -> lb + 1 / 10 <= x) /\ (mask j = 0 -> mask (nb + ng + j)%nat <> 0 -> x <= ub - 1 / 10))).
  2:{ destruct (loop nb f (ux, lam, t)) as [[ux' lam'] t']. exact H. }
  apply (loop_ind (fun k st => let '(ux', lam', t') := st in
    (forall j, (j < k)%nat -> centred mu lam' t' j /\ centred mu lam' t' (nb + ng + j)%nat) /\
    (forall k', (forall j, (j < k)%nat -> idxb j <> k') -> ux' k' = ux k') /\
    ((forall i j, (i < nb)%nat -> (j < nb)%nat -> idxb i = idxb j -> i = j) -> forall j, (j < k)%nat ->
     let lb := d j in let ub := - d (nb + ng + j)%nat in let x := ux' (idxb j) in
     (mask j <> 0 -> mask (nb + ng + j)%nat <> 0 -> 1 / 10 <= ub - lb -> lb <= x <= ub /\ (2 / 10 <= ub - lb -> lb + 1 / 10 <= x <= ub - 1 / 10)) /\
     (mask j <> 0 -> mask (nb + ng + j)%nat = 0 -> lb + 1 / 10 <= x) /\ (mask j = 0 -> mask (nb + ng + j)%nat <> 0 -> x <= ub - 1 / 10)))).
  - split; [intros; lia|]. split; [intros; reflexivity|intros; lia].
  - intros k [[u l] tt] Hk (I1 & I2 & I3). unfold f. cbv zeta. rsimp. rewrite R_lit01, R_lit11.
    set (lb := if Reqb (mask k) 0 then u (idxb k) - 1 else d k). set (ub := if Reqb (mask (nb + ng + k)%nat) 0 then - u (idxb k) - 1 else d (nb + ng + k)%nat).
    set (t1 := upd (upd tt k (- lb + u (idxb k))) (nb + ng + k)%nat (- ub - u (idxb k))).
    assert (T1 : t1 k = u (idxb k) - lb) by (unfold t1; updc; lra).
    assert (T2 : t1 (nb + ng + k)%nat = - ub - u (idxb k)) by (unfold t1; updc; lra).
    pose proof (fit_bound_R lb ub (idxb k) k (nb + ng + k) u t1 ltac:(lia)) as B.
    destruct (fit_bound lb ub (idxb k) k (nb + ng + k) (u, t1)) as [u' t'].
    destruct B as (B1 & B2 & B3 & B4 & B5 & B6 & B7).
    specialize (B5 T1 T2). specialize (B6 T1). specialize (B7 T2).
    assert (Tf : forall j, j <> k -> j <> (nb + ng + k)%nat -> t' j = tt j) by (intros j J1 J2; rewrite B3 by assumption; unfold t1; updc; reflexivity).
    clearbody t1. split; [|split].
    + intros j Hj. destruct (Nat.eq_dec j k) as [->|Hn].
      * split; apply centred_div; try lra; updc; reflexivity.
      * destruct (I1 j ltac:(lia)) as [[C1 C2] [C3 C4]]. unfold centred. rewrite (Tf j), (Tf (nb + ng + j)%nat) by lia. rewrite !upd_other by lia. repeat split; assumption.
    + intros k' Hk'. rewrite B4 by (intros E; apply (Hk' k); [lia|congruence]). apply I2. intros j Hj. apply Hk'. lia.
    + intros Hinj j Hj. cbv zeta. destruct (Nat.eq_dec j k) as [->|Hn].
      * subst lb ub. split; [|split].
        -- intros M1 M2. destruct (Reqb_spec (mask k) 0); [contradiction|]. destruct (Reqb_spec (mask (nb + ng + k)%nat) 0); [contradiction|]. intros Hr. destruct (B5 ltac:(lra)) as [B51 B52]. split; [lra|]. intros Hr2. specialize (B52 ltac:(lra)). lra.
        -- intros M1 M2. destruct (Reqb_spec (mask k) 0); [contradiction|]. destruct (Reqb_spec (mask (nb + ng + k)%nat) 0); [|contradiction]. specialize (B6 ltac:(rewrite T2; lra)). lra.
        -- intros M1 M2. destruct (Reqb_spec (mask k) 0); [|contradiction]. destruct (Reqb_spec (mask (nb + ng + k)%nat) 0); [contradiction|]. specialize (B7 ltac:(rewrite T1; lra)). lra.
      * rewrite B4 by (intros E; apply Hn; apply Hinj; [lia|lia|exact E]). apply (I3 Hinj j). lia.
Qed.

(** general constraints *)
Lemma init_gen_R mu n nb ng (Ct : nat -> rv) (d mask ux lam t : rv) : let '(lam', t') := init_gen mu n nb ng Ct d mask ux (lam, t) in
  (forall j, (j < ng)%nat -> centred mu lam' t' (nb + j)%nat /\ centred mu lam' t' (2 * nb + ng + j)%nat) /\
  (forall k, (k < nb \/ nb + ng <= k < 2 * nb + ng \/ 2 * nb + 2 * ng <= k)%nat -> lam' k = lam k /\ t' k = t k).
Proof.
  unfold init_gen. set (t1 := GEMV_T _ _ _ _ _ _ _ _ _ _ _ _ _).
  assert (F1 : forall k, (k < nb \/ nb + ng <= k)%nat -> t1 k = t k) by (intros k Hk; unfold t1, GEMV_T; apply vset_out; lia). clearbody t1.
  match goal with |- context [loop ng ?g _] => set (f := g) end.
  assert (H : let '(lam', t') := loop ng f (lam, t1) in
    (forall j, (j < ng)%nat -> centred mu lam' t' (nb + j)%nat /\ centred mu lam' t' (2 * nb + ng + j)%nat) /\
    (forall k, (k < nb \/ nb + ng <= k < 2 * nb + ng \/ 2 * nb + 2 * ng <= k)%nat -> lam' k = lam k /\ t' k = t k)).
  2:{ destruct (loop ng f (lam, t1)) as [l' t']. exact H. }
  apply (loop_ind (fun k st => let '(lam', t') := st in
    (forall j, (j < k)%nat -> centred mu lam' t' (nb + j)%nat /\ centred mu lam' t' (2 * nb + ng + j)%nat) /\
    (forall k, (k < nb \/ nb + ng <= k < 2 * nb + ng \/ 2 * nb + 2 * ng <= k)%nat -> lam' k = lam k /\ t' k = t k))).
  - split; [intros; lia|]. intros k Hk. split; [reflexivity|apply F1; lia].
  - intros k [l tt] Hk (I1 & I2). unfold f. cbv zeta. rsimp. rewrite R_lit01.
    set (ta := upd tt (2 * nb + ng + k)%nat (- tt (nb + k)%nat)).
    set (tb := if negb (Reqb (mask (nb + k)%nat) 0) then upd ta (nb + k)%nat (ta (nb + k)%nat - d (nb + k)%nat) else ta).
    set (tc := if negb (Reqb (mask (2 * nb + ng + k)%nat) 0) then upd tb (2 * nb + ng + k)%nat (tb (2 * nb + ng + k)%nat - d (2 * nb + ng + k)%nat) else tb).
    assert (Ft : forall j, j <> (nb + k)%nat -> j <> (2 * nb + ng + k)%nat -> tc j = tt j).
    { intros j J1 J2. unfold tc, tb, ta. destruct (negb _), (negb _); rewrite ?upd_other by assumption; reflexivity. }
    clearbody tc. clear ta tb.
    set (td := upd tc (nb + k)%nat (if Rltb (tc (nb + k)%nat) thr0 then thr0 else tc (nb + k)%nat)).
    set (te := upd td (2 * nb + ng + k)%nat (if Rltb (td (2 * nb + ng + k)%nat) thr0 then thr0 else td (2 * nb + ng + k)%nat)).
    assert (Fe : forall j, j <> (nb + k)%nat -> j <> (2 * nb + ng + k)%nat -> te j = tt j).
    { intros j J1 J2. unfold te, td. rewrite !upd_other by assumption. apply Ft; assumption. }
    assert (P1 : 1 / 10 <= te (nb + k)%nat).
    { unfold te. rewrite upd_other by lia. unfold td. rewrite upd_same. rewrite thr0_R. destruct (Rltb_spec (tc (nb + k)%nat) (1 / 10)); lra. }
    assert (P2 : 1 / 10 <= te (2 * nb + ng + k)%nat).
    { unfold te. rewrite upd_same. rewrite thr0_R. destruct (Rltb_spec (td (2 * nb + ng + k)%nat) (1 / 10)); lra. }
    clearbody te. clear td Ft. split.
    + intros j Hj. destruct (Nat.eq_dec j k) as [->|Hn].
      * split; apply centred_div; try lra; updc; reflexivity.
      * destruct (I1 j ltac:(lia)) as [[C1 C2] [C3 C4]]. unfold centred. rewrite (Fe (nb + j)%nat), (Fe (2 * nb + ng + j)%nat) by lia. rewrite !upd_other by lia. repeat split; assumption.
    + intros j Hj. destruct (I2 j Hj) as [J1 J2]. rewrite (Fe j) by lia. rewrite !upd_other by lia. split; assumption.
Qed.

(** slacks *)
Lemma init_soft_R mu n nb ng ns (d mask ux lam t : rv) : 0 < mu -> let '(ux', lam', t') := init_soft mu n nb ng ns d mask (ux, lam, t) in
  (forall j, (j < 2 * ns)%nat -> centred mu lam' t' (2 * nb + 2 * ng + j)%nat) /\
  (forall k, (k < 2 * nb + 2 * ng)%nat -> lam' k = lam k /\ t' k = t k) /\ (forall k, (k < n)%nat -> ux' k = ux k).
Proof.
  intros Hmu. unfold init_soft. match goal with |- context [loop ns ?g _] => set (f := g) end.
  assert (H : let '(ux', lam', t') := loop ns f (ux, lam, t) in
    (forall j, (j < ns)%nat -> centred mu lam' t' (2 * nb + 2 * ng + j)%nat /\ centred mu lam' t' (2 * nb + 2 * ng + ns + j)%nat) /\
    (forall k, (k < 2 * nb + 2 * ng)%nat -> lam' k = lam k /\ t' k = t k) /\ (forall k, (k < n)%nat -> ux' k = ux k)).
  2:{ destruct (loop ns f (ux, lam, t)) as [[u l] tt]. destruct H as (H1 & H2 & H3). split; [|split; assumption].
      intros j Hj. destruct (Nat.lt_ge_cases j ns) as [Hl|Hl]; [apply H1; exact Hl|].
      replace (2 * nb + 2 * ng + j)%nat with (2 * nb + 2 * ng + ns + (j - ns))%nat by lia. apply H1. lia. }
  apply (loop_ind (fun k st => let '(ux', lam', t') := st in
    (forall j, (j < k)%nat -> centred mu lam' t' (2 * nb + 2 * ng + j)%nat /\ centred mu lam' t' (2 * nb + 2 * ng + ns + j)%nat) /\
    (forall k, (k < 2 * nb + 2 * ng)%nat -> lam' k = lam k /\ t' k = t k) /\ (forall k, (k < n)%nat -> ux' k = ux k))).
  - split; [intros; lia|]. split; intros; [split|]; reflexivity.
  - intros k [[u l] tt] Hk (I1 & I2 & I3). unfold f. cbv zeta.
    match goal with |- context [if fltb ?x thr0 then ?a else ?b] => set (p1 := if fltb x thr0 then a else b) end.
    assert (P1 : (forall j, j <> (2 * nb + 2 * ng + k)%nat -> j <> (2 * nb + 2 * ng + ns + k)%nat -> snd p1 j = tt j) /\ (forall j, (j < n)%nat -> fst p1 j = u j)).
    { unfold p1. destruct (fltb _ thr0); cbn [fst snd]; split; intros; rewrite ?upd_other by lia; reflexivity. }
    destruct p1 as [u1 t1]. cbn [fst snd] in P1. destruct P1 as [P1 P1'].
    match goal with |- context [if fltb ?x thr0 then ?a else ?b] => set (p2 := if fltb x thr0 then a else b) end.
    assert (P2 : (forall j, j <> (2 * nb + 2 * ng + k)%nat -> j <> (2 * nb + 2 * ng + ns + k)%nat -> snd p2 j = tt j) /\ (forall j, (j < n)%nat -> fst p2 j = u j)).
    { unfold p2. destruct (fltb _ thr0); cbn [fst snd]; split; intros; rewrite ?upd_other by lia; first [apply P1; assumption|apply P1'; assumption]. }
    destruct p2 as [u2 t2]. cbn [fst snd] in P2. destruct P2 as [P2 P2']. rsimp.
    assert (Hs : 0 < sqrt mu) by (apply sqrt_lt_R0; exact Hmu).
    set (t3 := upd (upd t2 (2 * nb + 2 * ng + k)%nat (sqrt mu)) (2 * nb + 2 * ng + ns + k)%nat (sqrt mu)).
    assert (T1 : t3 (2 * nb + 2 * ng + k)%nat = sqrt mu) by (unfold t3; updc; reflexivity).
    assert (T2 : t3 (2 * nb + 2 * ng + ns + k)%nat = sqrt mu) by (unfold t3; updc; reflexivity).
    assert (T3 : forall j, j <> (2 * nb + 2 * ng + k)%nat -> j <> (2 * nb + 2 * ng + ns + k)%nat -> t3 j = tt j) by (intros j J1 J2; unfold t3; rewrite !upd_other by assumption; apply P2; assumption).
    clearbody t3. split; [|split].
    + intros j Hj. destruct (Nat.eq_dec j k) as [->|Hn].
      * split; apply centred_div; try lra; updc; reflexivity.
      * destruct (I1 j ltac:(lia)) as [[C1 C2] [C3 C4]]. unfold centred. rewrite (T3 (2 * nb + 2 * ng + j)%nat), (T3 (2 * nb + 2 * ng + ns + j)%nat) by lia. rewrite !upd_other by lia. repeat split; assumption.
    + intros j Hj. destruct (I2 j Hj) as [J1 J2]. rewrite (T3 j) by lia. rewrite !upd_other by lia. split; assumption.
    + intros j Hj. rewrite P2' by exact Hj. apply I3. exact Hj.
Qed.

(** the alternative scheme *)
Lemma init_alt_R mu n nb ng ns (idxb : nat -> nat) (idxs_rev : nat -> Z) (Ct : nat -> rv) (d ux lam t : rv) :
  let '(ux', lam', t') := init_alt mu n nb ng ns idxb idxs_rev Ct d (ux, lam, t) in
  forall j, (j < 2 * nb + 2 * ng + 2 * ns)%nat -> centred mu lam' t' j.
Proof.
  unfold init_alt. set (t1 := AXPY _ _ _ _ _ _ _ _). clearbody t1. cbv zeta.
  (* slacks: t >= 0.1 on [2nb+2ng, 2nb+2ng+2ns) *)
  match goal with |- context [loop (2 * ns) ?g _] => set (f1 := g) end.
  assert (H1 : let '(_, t2) := loop (2 * ns) f1 (ux, t1) in forall j, (j < 2 * ns)%nat -> 1 / 10 <= t2 (2 * nb + 2 * ng + j)%nat).
  { apply (loop_ind (fun k st => let '(_, t2) := st in forall j, (j < k)%nat -> 1 / 10 <= t2 (2 * nb + 2 * ng + j)%nat)); [intros; lia|].
    intros k [u tt] Hk IH. unfold f1. cbv zeta. rsimp. rewrite thr0_R. destruct (Rltb_spec (tt (2 * nb + 2 * ng + k)%nat) (1 / 10)) as [E|E]; intros j Hj.
    - updc; [lra|apply IH; lia].
    - destruct (Nat.eq_dec j k) as [->|Hn]; [lra|apply IH; lia]. }
  destruct (loop (2 * ns) f1 (ux, t1)) as [u2 t2]. clear f1.
  set (Sl := fun (x y : rv) => forall j, (2 * nb + 2 * ng <= j)%nat -> x j = y j).
  set (Bx := fun (x y : rv) => Sl x y /\ forall j, (j < nb \/ nb + ng <= j < 2 * nb + ng)%nat -> x j = y j).
  set (t3 := VECEX_SP nb _ idxb u2 0 t2 0). assert (S3 : Sl t3 t2) by (intros j Hj; unfold t3, VECEX_SP; apply vset_out; lia). clearbody t3.
  set (t4 := VECCPSC nb _ t3 0 t3 (nb + ng)). assert (S4 : Sl t4 t2) by (intros j Hj; unfold t4, VECCPSC; rewrite vset_out by lia; apply S3; exact Hj). clearbody t4.
  match goal with |- context [loop nb ?g t4] => set (t5 := loop nb g t4) end.
  assert (S5 : Sl t5 t2).
  { unfold t5. apply (loop_ind (fun _ x => Sl x t2)); [exact S4|]. intros k x Hk IH j Hj. cbv beta. destruct (negb (Z.eqb (idxs_rev k) (-1))); [|apply IH; exact Hj].
    rewrite !upd_other by lia. apply IH; exact Hj. }
  clearbody t5. set (t6 := AXPY nb _ d 0 t5 0 t5 0). assert (S6 : Sl t6 t2) by (intros j Hj; unfold t6, AXPY; rewrite vset_out by lia; apply S5; exact Hj). clearbody t6.
  set (t7 := AXPY nb _ d (nb + ng) t6 (nb + ng) t6 (nb + ng)). assert (S7 : Sl t7 t2) by (intros j Hj; unfold t7, AXPY; rewrite vset_out by lia; apply S6; exact Hj). clearbody t7.
  match goal with |- context [loop nb ?g (u2, t7)] => set (f2 := g) end.
  assert (H2 : let '(_, t8) := loop nb f2 (u2, t7) in Sl t8 t2 /\ forall j, (j < nb)%nat -> 1 / 10 <= t8 j /\ 1 / 10 <= t8 (nb + ng + j)%nat).
  { apply (loop_ind (fun k st => let '(_, t8) := st in Sl t8 t2 /\ forall j, (j < k)%nat -> 1 / 10 <= t8 j /\ 1 / 10 <= t8 (nb + ng + j)%nat)).
    - split; [exact S7|intros; lia].
    - intros k [u tt] Hk [J1 J2]. unfold f2. pose proof (fit_bound_R (d k) (d (nb + ng + k)%nat) (idxb k) k (nb + ng + k) u tt ltac:(lia)) as B.
      destruct (fit_bound (d k) (d (nb + ng + k)%nat) (idxb k) k (nb + ng + k) (u, tt)) as [u' t']. destruct B as (B1 & B2 & B3 & _). split.
      + intros j Hj. rewrite B3 by lia. apply J1; exact Hj.
      + intros j Hj. destruct (Nat.eq_dec j k) as [->|Hn]; [split; assumption|]. rewrite !B3 by lia. apply J2. lia. }
  destruct (loop nb f2 (u2, t7)) as [u8 t8]. destruct H2 as [S8 H2]. clear f2 S3 S4 S5 S6 S7 t3 t4 t5 t6 t7.
  set (t9 := GEMV_T n ng _ Ct 0 0 u8 0 _ t8 nb t8 nb). assert (B9 : forall j, (j < nb \/ nb + ng <= j)%nat -> t9 j = t8 j) by (intros j Hj; unfold t9, GEMV_T; apply vset_out; lia). clearbody t9.
  set (Ok := fun x : rv => forall j, (j < nb \/ nb + ng <= j < 2 * nb + ng \/ 2 * nb + 2 * ng <= j)%nat -> x j = t8 j).
  set (t10 := VECCPSC ng _ t9 nb t9 (2 * nb + ng)). assert (B10 : Ok t10) by (intros j Hj; unfold t10, VECCPSC; rewrite vset_out by lia; apply B9; lia). clearbody t10.
  match goal with |- context [loop ng ?g t10] => set (t11 := loop ng g t10) end.
  assert (B11 : Ok t11).
  { unfold t11. apply (loop_ind (fun _ x => Ok x)); [exact B10|]. intros k x Hk IH j Hj. cbv beta. destruct (negb (Z.eqb (idxs_rev (nb + k)%nat) (-1))); [|apply IH; exact Hj].
    rewrite !upd_other by lia. apply IH; exact Hj. }
  clearbody t11. set (t12 := AXPY ng _ d nb t11 nb t11 nb). assert (B12 : Ok t12) by (intros j Hj; unfold t12, AXPY; rewrite vset_out by lia; apply B11; lia). clearbody t12.
  set (t13 := AXPY ng _ d (2 * nb + ng) t12 (2 * nb + ng) t12 (2 * nb + ng)). assert (B13 : Ok t13) by (intros j Hj; unfold t13, AXPY; rewrite vset_out by lia; apply B12; lia). clearbody t13.
  match goal with |- context [loop ng ?g t13] => set (t14 := loop ng g t13) end.
  assert (H14 : Ok t14 /\ forall j, (j < ng)%nat -> 1 / 10 <= t14 (nb + j)%nat /\ 1 / 10 <= t14 (2 * nb + ng + j)%nat).
  { unfold t14. apply (loop_ind (fun k x => Ok x /\ forall j, (j < k)%nat -> 1 / 10 <= x (nb + j)%nat /\ 1 / 10 <= x (2 * nb + ng + j)%nat)).
    - split; [exact B13|intros; lia].
    - intros k x Hk [J1 J2]. cbv beta zeta. rsimp. rewrite thr0_R. split.
      + intros j Hj. rewrite !upd_other by lia. apply J1; exact Hj.
      + intros j Hj. destruct (Nat.eq_dec j k) as [->|Hn].
        * split; [rewrite upd_other by lia; rewrite upd_same; destruct (Rltb_spec (x (nb + k)%nat) (1 / 10)); lra|].
          rewrite upd_same. destruct (Rltb_spec (upd x (nb + k)%nat (if Rltb (x (nb + k)%nat) (1 / 10) then 1 / 10 else x (nb + k)%nat) (2 * nb + ng + k)%nat) (1 / 10)); lra.
        * rewrite !upd_other by lia. apply J2. lia. }
  destruct H14 as [B14 H14]. clearbody t14.
  assert (T : forall j, (j < 2 * nb + 2 * ng + 2 * ns)%nat -> 1 / 10 <= t14 j).
  { intros j Hj. destruct (Nat.lt_ge_cases j nb) as [A1|A1]; [rewrite B14 by lia; apply H2; exact A1|].
    destruct (Nat.lt_ge_cases j (nb + ng)) as [A2|A2]; [replace j with (nb + (j - nb))%nat by lia; apply H14; lia|].
    destruct (Nat.lt_ge_cases j (2 * nb + ng)) as [A3|A3]; [rewrite B14 by lia; replace j with (nb + ng + (j - nb - ng))%nat by lia; apply H2; lia|].
    destruct (Nat.lt_ge_cases j (2 * nb + 2 * ng)) as [A4|A4]; [replace j with (2 * nb + ng + (j - 2 * nb - ng))%nat by lia; apply H14; lia|].
    rewrite B14 by lia. rewrite S8 by lia. replace j with (2 * nb + 2 * ng + (j - 2 * nb - 2 * ng))%nat by lia. apply H1. lia. }
  intros j Hj. specialize (T j Hj). apply centred_div; [lra|].
  pose proof (loop_upd_vset lam 0 (2 * nb + 2 * ng + 2 * ns) (fun jj => mu / t14 jj) j) as E. cbn [Nat.add] in E. rewrite vset0_in in E by exact Hj. exact E.
Qed.
