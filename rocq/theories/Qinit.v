(** Qinit.v -- the initial iterate of the QCQP solver (OCP_QCQP_INIT_VAR), exact arithmetic. *)
From Coq Require Import ZArith Bool Arith List Lia Reals Lra.
From Verif Require Import Base ArithF Blas Blas2 QpDataProofs OcpModel CoreModel ArgModel IpmModel IpmInit QcqpModel QipmModel.
Local Open Scope R_scope.

(** box constraints: those of the QP solver, with the masks of the upper bounds read nq entries too early *)
Lemma qinit_box_eq mu nb ng nq (idxb : nat -> nat) (d mask : rv) s : qinit_box mu nb ng nq idxb d mask s =
  init_box mu nb (ng + nq) idxb d (fun k => if (k <? nb)%nat then mask k else mask (k - nq)%nat) s.
Proof.
  unfold qinit_box, init_box. apply loop_ext. intros jj [[ux lam] t] Hj.
  destruct (Nat.ltb_spec jj nb) as [_|Hx]; [|lia]. replace (nb + (ng + nq) + jj)%nat with (nb + ng + nq + jj)%nat by lia.
  destruct (Nat.ltb_spec (nb + ng + nq + jj) nb) as [Hx|_]; [lia|]. replace (nb + ng + nq + jj - nq)%nat with (nb + ng + jj)%nat by lia. reflexivity.
Qed.
Lemma qinit_box_frame mu nb ng nq (idxb : nat -> nat) (d mask ux lam t : rv) : let '(_, lam', t') := qinit_box mu nb ng nq idxb d mask (ux, lam, t) in
  forall k, (nb <= k < nb + ng + nq \/ 2 * nb + ng + nq <= k)%nat -> lam' k = lam k /\ t' k = t k.
Proof.
  unfold qinit_box. match goal with |- context [loop nb ?g _] => set (f := g) end.
  assert (H : let '(_, lam', t') := loop nb f (ux, lam, t) in forall k, (nb <= k < nb + ng + nq \/ 2 * nb + ng + nq <= k)%nat -> lam' k = lam k /\ t' k = t k).
  2:{ destruct (loop nb f (ux, lam, t)) as [[u l] tt]. exact H. }
  apply (loop_ind (fun _ st => let '(_, lam', t') := st in forall k, (nb <= k < nb + ng + nq \/ 2 * nb + ng + nq <= k)%nat -> lam' k = lam k /\ t' k = t k)).
  - intros; split; reflexivity.
  - intros k [[u l] tt] Hk I. unfold f. cbv zeta.
    match goal with |- context [fit_bound ?lb ?ub ?i ?a ?b (?uu, ?t1)] => assert (Hn : a <> b) by lia; pose proof (fit_bound_R lb ub i a b uu t1 Hn) as B; destruct (fit_bound lb ub i a b (uu, t1)) as [u' t'] end.
    destruct B as (_ & _ & B3 & _). intros j Hj. rewrite (B3 j) by lia. rewrite !upd_other by lia. apply I. exact Hj.
Qed.

(** general constraints *)
Lemma qinit_gen_R mu n nb ng nq (Ct : nat -> rv) (d lgm ugm ux lam t : rv) : let '(lam', t') := qinit_gen mu n nb ng nq Ct d lgm ugm ux (lam, t) in
  (forall j, (j < ng)%nat -> centred mu lam' t' (nb + j)%nat /\ centred mu lam' t' (2 * nb + ng + nq + j)%nat) /\
  (forall k, (k < nb \/ nb + ng <= k < 2 * nb + ng + nq \/ 2 * nb + 2 * ng + nq <= k)%nat -> lam' k = lam k /\ t' k = t k).
Proof.
  unfold qinit_gen. set (t1 := GEMV_T _ _ _ _ _ _ _ _ _ _ _ _ _).
  assert (F1 : forall k, (k < nb \/ nb + ng <= k)%nat -> t1 k = t k) by (intros k Hk; unfold t1, GEMV_T; apply vset_out; lia). clearbody t1.
  match goal with |- context [loop ng ?g _] => set (f := g) end.
  assert (H : let '(lam', t') := loop ng f (lam, t1) in
    (forall j, (j < ng)%nat -> centred mu lam' t' (nb + j)%nat /\ centred mu lam' t' (2 * nb + ng + nq + j)%nat) /\
    (forall k, (k < nb \/ nb + ng <= k < 2 * nb + ng + nq \/ 2 * nb + 2 * ng + nq <= k)%nat -> lam' k = lam k /\ t' k = t k)).
  2:{ destruct (loop ng f (lam, t1)) as [l' t']. exact H. }
  apply (loop_ind (fun k st => let '(lam', t') := st in
    (forall j, (j < k)%nat -> centred mu lam' t' (nb + j)%nat /\ centred mu lam' t' (2 * nb + ng + nq + j)%nat) /\
    (forall k, (k < nb \/ nb + ng <= k < 2 * nb + ng + nq \/ 2 * nb + 2 * ng + nq <= k)%nat -> lam' k = lam k /\ t' k = t k))).
  - split; [intros; lia|]. intros k Hk. split; [reflexivity|apply F1; lia].
  - intros k [l tt] Hk (I1 & I2). unfold f. cbv zeta. rsimp. rewrite R_lit01.
    set (ju := (2 * nb + ng + nq + k)%nat). assert (Eju : ju = (2 * nb + ng + nq + k)%nat) by reflexivity. clearbody ju.
    set (ta := upd tt ju (- tt (nb + k)%nat)).
    set (tb := if negb (Reqb (lgm k) 0) then upd ta (nb + k)%nat (ta (nb + k)%nat - d (nb + k)%nat) else ta).
    set (tc := if negb (Reqb (ugm k) 0) then upd tb ju (tb ju - d ju) else tb).
    assert (Ft : forall j, j <> (nb + k)%nat -> j <> ju -> tc j = tt j).
    { intros j J1 J2. unfold tc, tb, ta. destruct (negb _), (negb _); rewrite ?upd_other by assumption; reflexivity. }
    clearbody tc. clear ta tb.
    set (td := upd tc (nb + k)%nat (if Rltb (tc (nb + k)%nat) thr0 then thr0 else tc (nb + k)%nat)).
    set (te := upd td ju (if Rltb (td ju) thr0 then thr0 else td ju)).
    assert (Fe : forall j, j <> (nb + k)%nat -> j <> ju -> te j = tt j).
    { intros j J1 J2. unfold te, td. rewrite !upd_other by assumption. apply Ft; assumption. }
    assert (P1 : 1 / 10 <= te (nb + k)%nat).
    { unfold te. rewrite upd_other by lia. unfold td. rewrite upd_same. rewrite thr0_R. destruct (Rltb_spec (tc (nb + k)%nat) (1 / 10)); lra. }
    assert (P2 : 1 / 10 <= te ju).
    { unfold te. rewrite upd_same. rewrite thr0_R. destruct (Rltb_spec (td ju) (1 / 10)); lra. }
    clearbody te. clear td Ft. split.
    + intros j Hj. destruct (Nat.eq_dec j k) as [->|Hn].
      * rewrite <- Eju. split; apply centred_div; try lra; updc; reflexivity.
      * destruct (I1 j ltac:(lia)) as [[C1 C2] [C3 C4]]. unfold centred. rewrite (Fe (nb + j)%nat), (Fe (2 * nb + ng + nq + j)%nat) by lia. rewrite !upd_other by lia. repeat split; assumption.
    + intros j Hj. destruct (I2 j Hj) as [J1 J2]. rewrite (Fe j) by lia. rewrite !upd_other by lia. split; assumption.
Qed.

(** slacks *)
Lemma qinit_soft_R mu o ns (lam t : rv) : let '(lam', t') := qinit_soft mu o ns (lam, t) in
  (forall j, (j < 2 * ns)%nat -> centred mu lam' t' (o + j)%nat) /\ (forall k, (k < o)%nat -> lam' k = lam k /\ t' k = t k).
Proof.
  unfold qinit_soft. match goal with |- context [loop (2 * ns) ?g _] => set (f := g) end.
  assert (H : let '(lam', t') := loop (2 * ns) f (lam, t) in (forall j, (j < 2 * ns)%nat -> centred mu lam' t' (o + j)%nat) /\ (forall k, (k < o)%nat -> lam' k = lam k /\ t' k = t k)).
  2:{ destruct (loop (2 * ns) f (lam, t)) as [l' t']. exact H. }
  apply (loop_ind (fun k st => let '(lam', t') := st in (forall j, (j < k)%nat -> centred mu lam' t' (o + j)%nat) /\ (forall k, (k < o)%nat -> lam' k = lam k /\ t' k = t k))).
  - split; [intros; lia|intros; split; reflexivity].
  - intros k [l tt] Hk (I1 & I2). unfold f. cbv zeta. rsimp. rewrite R_lit11. split.
    + intros j Hj. destruct (Nat.eq_dec j k) as [->|Hn].
      * apply centred_div; rewrite ?upd_same; [lra|reflexivity].
      * unfold centred. rewrite !upd_other by lia. apply I1; lia.
    + intros j Hj. rewrite !upd_other by lia. apply I2. exact Hj.
Qed.

(** quadratic constraints *)
Lemma qinit_quad_R mu o ou nq (lam t : rv) : (o + nq <= ou)%nat -> let '(lam', t') := qinit_quad mu o ou nq (lam, t) in
  (forall j, (j < nq)%nat -> (lam' (o + j)%nat = 0 /\ t' (o + j)%nat = 1) /\ centred mu lam' t' (ou + j)%nat) /\
  (forall k, (k < o \/ o + nq <= k < ou \/ ou + nq <= k)%nat -> lam' k = lam k /\ t' k = t k).
Proof.
  intros Ho. unfold qinit_quad. set (sq := if fltb _ thr0 then _ else _).
  assert (Hs : 1 / 10 <= sq) by (unfold sq; rsimp; rewrite thr0_R; destruct (Rltb_spec (sqrt mu) (1 / 10)); lra). clearbody sq.
  match goal with |- context [loop nq ?g _] => set (f := g) end.
  assert (H : let '(lam', t') := loop nq f (lam, t) in (forall j, (j < nq)%nat -> (lam' (o + j)%nat = 0 /\ t' (o + j)%nat = 1) /\ centred mu lam' t' (ou + j)%nat) /\
    (forall k, (k < o \/ o + nq <= k < ou \/ ou + nq <= k)%nat -> lam' k = lam k /\ t' k = t k)).
  2:{ destruct (loop nq f (lam, t)) as [l' t']. exact H. }
  apply (loop_ind (fun k st => let '(lam', t') := st in (forall j, (j < k)%nat -> (lam' (o + j)%nat = 0 /\ t' (o + j)%nat = 1) /\ centred mu lam' t' (ou + j)%nat) /\
    (forall k, (k < o \/ o + nq <= k < ou \/ ou + nq <= k)%nat -> lam' k = lam k /\ t' k = t k))).
  - split; [intros; lia|intros; split; reflexivity].
  - intros k [l tt] Hk (I1 & I2). unfold f. cbv zeta. rsimp. rewrite R_lit01, R_lit11. split.
    + intros j Hj. destruct (Nat.eq_dec j k) as [->|Hn].
      * split; [split; updc; reflexivity|]. apply centred_div; updc; try lra; reflexivity.
      * destruct (I1 j ltac:(lia)) as [[C1 C2] [C3 C4]]. unfold centred. rewrite !upd_other by lia. repeat split; assumption.
    + intros j Hj. rewrite !upd_other by lia. apply I2. exact Hj.
Qed.
