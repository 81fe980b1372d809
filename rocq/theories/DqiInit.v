(** DqiInit.v -- the initial iterate of the dense QCQP solver (DENSE_QCQP_INIT_VAR), exact arithmetic. *)
From Coq Require Import ZArith Bool Arith List Lia Reals Lra.
From Verif Require Import Base ArithF Blas Blas2 QpDataProofs OcpModel CoreModel ArgModel DenModel QcqpModel DqcModel DqlModel DenIpmModel DenIpmInit DqiModel.
Local Open Scope R_scope.

(** box constraints: those of the QP solver, with the masks of the upper bounds read nq entries too early *)
Lemma dqi_box_eq mu nb ng nq (idxb : nat -> nat) (d mask : rv) s : dqi_box mu nb ng nq idxb d mask s =
  init_box mu nb (ng + nq) idxb d (fun k => if (k <? nb)%nat then mask k else mask (k - nq)%nat) s.
Proof.
  unfold dqi_box, init_box. apply loop_ext. intros jj [[v lam] t] Hj.
  destruct (Nat.ltb_spec jj nb) as [_|Hx]; [|lia]. replace (nb + (ng + nq) + jj)%nat with (nb + ng + nq + jj)%nat by lia.
  destruct (Nat.ltb_spec (nb + ng + nq + jj) nb) as [Hx|_]; [lia|]. replace (nb + ng + nq + jj - nq)%nat with (nb + ng + jj)%nat by lia. reflexivity.
Qed.

(** general constraints *)
Lemma dqi_gen_R mu n nb ng nq (Ct : nat -> rv) (d mask ux lam t : rv) : let '(lam', t') := dqi_gen mu n nb ng nq Ct d mask ux (lam, t) in
  (forall j, (j < ng)%nat -> centred mu lam' t' (nb + j)%nat /\ centred mu lam' t' (2 * nb + ng + nq + j)%nat) /\
  (forall k, (k < nb \/ nb + ng <= k < 2 * nb + ng + nq \/ 2 * nb + 2 * ng + nq <= k)%nat -> lam' k = lam k /\ t' k = t k).
Proof.
  unfold dqi_gen. set (t1 := GEMV_T _ _ _ _ _ _ _ _ _ _ _ _ _).
  assert (F1 : forall k, (k < nb \/ nb + ng <= k)%nat -> t1 k = t k) by (intros k Hk; unfold t1, GEMV_T; apply vset_out; lia). clearbody t1.
  match goal with |- context [loop ng ?g _] => set (f := g) end.
  assert (H : let '(lam', t') := loop ng f (lam, t1) in
    (forall j, (j < ng)%nat -> centred mu lam' t' (nb + j)%nat /\ centred mu lam' t' (2 * nb + ng + nq + j)%nat) /\
    (forall k, (k < nb \/ nb + ng <= k < 2 * nb + ng + nq \/ 2 * nb + 2 * ng + nq <= k)%nat -> lam' k = lam k /\ t' k = t k)).
  2:{ destruct (loop ng f (lam, t1)) as [l' t']. exact H. }
  apply (loop_ind (fun k st => let '(lam', t') := st in
    (forall j, (j < k)%nat -> centred mu lam' t' (nb + j)%nat /\ centred mu lam' t' (2 * nb + ng + nq + j)%nat) /\
    (forall k, (k < nb \/ nb + ng <= k < 2 * nb + ng + nq \/ 2 * nb + 2 * ng + nq <= k)%nat -> lam' k = lam k /\ t' k = t k))).
  - split; [intros; lia|]. intros k Hk. split; [reflexivity|apply F1; lia].
  - intros k [l tt] Hk (I1 & I2). unfold f. cbv zeta. rsimp. rewrite R_lit01.
    set (ta := upd tt (2 * nb + ng + nq + k)%nat (tt (nb + k)%nat)).
    set (tb := if negb (Reqb (mask (nb + k)%nat) 0) then upd ta (nb + k)%nat (ta (nb + k)%nat - d (nb + k)%nat) else ta).
    set (tc := if negb (Reqb (mask (2 * nb + ng + nq + k)%nat) 0) then upd tb (2 * nb + ng + nq + k)%nat (tb (2 * nb + ng + nq + k)%nat - d (2 * nb + ng + nq + k)%nat) else tb).
    assert (Ft : forall j, j <> (nb + k)%nat -> j <> (2 * nb + ng + nq + k)%nat -> tc j = tt j).
    { intros j J1 J2. unfold tc, tb, ta. destruct (negb _), (negb _); rewrite ?upd_other by assumption; reflexivity. }
    clearbody tc. clear ta tb.
    set (td := upd tc (nb + k)%nat (if Rltb (tc (nb + k)%nat) thr0 then thr0 else tc (nb + k)%nat)).
    set (te := upd td (2 * nb + ng + nq + k)%nat (if Rltb (td (2 * nb + ng + nq + k)%nat) thr0 then thr0 else td (2 * nb + ng + nq + k)%nat)).
    assert (Fe : forall j, j <> (nb + k)%nat -> j <> (2 * nb + ng + nq + k)%nat -> te j = tt j).
    { intros j J1 J2. unfold te, td. rewrite !upd_other by assumption. apply Ft; assumption. }
    assert (P1 : 1 / 10 <= te (nb + k)%nat).
    { unfold te. rewrite upd_other by lia. unfold td. rewrite upd_same. rewrite thr0_R. destruct (Rltb_spec (tc (nb + k)%nat) (1 / 10)); lra. }
    assert (P2 : 1 / 10 <= te (2 * nb + ng + nq + k)%nat).
    { unfold te. rewrite upd_same. rewrite thr0_R. destruct (Rltb_spec (td (2 * nb + ng + nq + k)%nat) (1 / 10)); lra. }
    clearbody te. clear td Ft. split.
    + intros j Hj. destruct (Nat.eq_dec j k) as [->|Hn].
      * split; apply centred_div; try lra; updc; reflexivity.
      * destruct (I1 j ltac:(lia)) as [[C1 C2] [C3 C4]]. unfold centred. rewrite (Fe (nb + j)%nat), (Fe (2 * nb + ng + nq + j)%nat) by lia. rewrite !upd_other by lia. repeat split; assumption.
    + intros j Hj. destruct (I2 j Hj) as [J1 J2]. rewrite (Fe j) by lia. rewrite !upd_other by lia. split; assumption.
Qed.

(** slacks *)
Lemma dqi_soft_R mu o ns (lam t : rv) : let '(lam', t') := dqi_soft mu o ns (lam, t) in
  (forall j, (j < 2 * ns)%nat -> centred mu lam' t' (o + j)%nat) /\
  (forall k, (k < o)%nat -> lam' k = lam k /\ t' k = t k).
Proof.
  unfold dqi_soft. match goal with |- context [loop ns ?g _] => set (f := g) end.
  assert (H : let '(lam', t') := loop ns f (lam, t) in
    (forall j, (j < ns)%nat -> centred mu lam' t' (o + j)%nat /\ centred mu lam' t' (o + ns + j)%nat) /\
    (forall k, (k < o)%nat -> lam' k = lam k /\ t' k = t k)).
  2:{ destruct (loop ns f (lam, t)) as [l tt]. destruct H as (H1 & H2). split; [|assumption].
      intros j Hj. destruct (Nat.lt_ge_cases j ns) as [Hl|Hl]; [apply H1; exact Hl|].
      replace (o + j)%nat with (o + ns + (j - ns))%nat by lia. apply H1. lia. }
  apply (loop_ind (fun k st => let '(lam', t') := st in
    (forall j, (j < k)%nat -> centred mu lam' t' (o + j)%nat /\ centred mu lam' t' (o + ns + j)%nat) /\
    (forall k, (k < o)%nat -> lam' k = lam k /\ t' k = t k))).
  - split; [intros; lia|]. intros; split; reflexivity.
  - intros k [l tt] Hk (I1 & I2). unfold f. cbv zeta. rsimp. rewrite R_lit11. split.
    + intros j Hj. destruct (Nat.eq_dec j k) as [->|Hn].
      * split; apply centred_div; updc; try lra; reflexivity.
      * destruct (I1 j ltac:(lia)) as [[C1 C2] [C3 C4]]. unfold centred. rewrite !upd_other by lia. repeat split; assumption.
    + intros j Hj. rewrite !upd_other by lia. apply I2. exact Hj.
Qed.

(** quadratic constraints *)
Lemma dqi_quad_R mu o ou nq (lam t : rv) : (o + nq <= ou)%nat -> let '(lam', t') := dqi_quad mu o ou nq (lam, t) in
  (forall j, (j < nq)%nat -> (lam' (o + j)%nat = 0 /\ t' (o + j)%nat = 1) /\ centred mu lam' t' (ou + j)%nat) /\
  (forall k, (k < o \/ o + nq <= k < ou \/ ou + nq <= k)%nat -> lam' k = lam k /\ t' k = t k).
Proof.
  intros Ho. unfold dqi_quad. set (sq := if fltb _ thr0 then _ else _).
  assert (Hs : 1 / 10 <= sq) by (unfold sq; rsimp; rewrite thr0_R; destruct (Rltb_spec (sqrt mu) (1 / 10)); lra). clearbody sq.
  match goal with |- context [loop nq ?g _] => set (f := g) end.
  assert (H : let '(lam', t') := loop nq f (lam, t) in (forall j, (j < nq)%nat -> (lam' (o + j)%nat = 0 /\ t' (o + j)%nat = 1) /\ centred mu lam' t' (ou + j)%nat) /\
    (forall k, (k < o \/ o + nq <= k < ou \/ ou + nq <= k)%nat -> lam' k = lam k /\ t' k = t k)).
  2:{ destruct (loop nq f (lam, t)) as [l' t']. exact H. }
  apply (loop_ind (fun k st => let '(lam', t') := st in (forall j, (j < k)%nat -> (lam' (o + j)%nat = 0 /\ t' (o + j)%nat = 1) /\ centred mu lam' t' (ou + j)%nat) /\
    (forall k, (k < o \/ o + nq <= k < ou \/ ou + nq <= k)%nat -> lam' k = lam k /\ t' k = t k))).
  - split; [intros; lia|intros; split; reflexivity].
  - intros k [l tt] Hk (I1 & I2). unfold f. cbv zeta. rsimp. rewrite R_lit01, R_lit11. split.
    + intros j Hj. destruct (Nat.eq_dec j k) as [->|Hn].
      * split; [split; updc; reflexivity|]. apply centred_div; updc; try lra; reflexivity.
      * destruct (I1 j ltac:(lia)) as [[C1 C2] [C3 C4]]. unfold centred. rewrite !upd_other by lia. repeat split; assumption.
    + intros j Hj. rewrite !upd_other by lia. apply I2. exact Hj.
Qed.
