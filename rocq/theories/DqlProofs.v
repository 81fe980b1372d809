(** DqlProofs.v -- proofs about the dense QCQP linearisation (DqlModel.v). *)
From Coq Require Import ZArith Bool Arith Lia Reals Lra.
From Verif Require Import Base ArithF RSum Blas Blas2 OcpModel ResSpec ResProofs ResProofs2 SolveModel QpDataProofs DenModel DenSpec DenProofs
  QcqpModel QcqpSpec QcqpProofs QcqpProofs2 QcqpProofs3 QcqpLinSpec QcqpLin QcqpNewton QcqpMask DqcModel DqcSpec DqcProofs DqlModel DqlSpec.
Local Open Scope R_scope.

(** what either loop leaves; [w]: the values folded into d and cached *)
Definition loop_post (n ng nq o ou : nat) Ct Hq (ux lam w : nat -> R) (H0 C0 : nat -> nat -> R) (d0 adj0 : nat -> R) (s : (nat -> nat -> R) * (nat -> nat -> R) * (nat -> R) * (nat -> R) * (nat -> R) * (nat -> R) * (nat -> R)) : Prop :=
  let '(H, C, d, adj, fn, _, _) := s in
  (forall k l, (k < n)%nat -> (l < n)%nat -> H k l = H0 k l + rsum nq (fun j => (lam (ou + j)%nat - lam (o + j)%nat) * Hq j k l)) /\
  (forall k j, (k < n)%nat -> (j < nq)%nat -> C k (ng + j)%nat = b_grad n ng Ct Hq ux j k) /\
  (forall k l, (l < ng)%nat \/ (ng + nq <= l)%nat -> C k l = C0 k l) /\
  (forall j, (j < nq)%nat -> d (o + j)%nat = d0 (o + j)%nat - w j /\ d (ou + j)%nat = d0 (ou + j)%nat + w j /\ fn j = w j) /\
  (forall c, ~ ((o <= c < o + nq)%nat) -> ~ ((ou <= c < ou + nq)%nat) -> d c = d0 c) /\
  (forall k, (k < n)%nat -> adj k = adj0 k + rsum nq (fun j => (lam (ou + j)%nat - lam (o + j)%nat) * b_grad n ng Ct Hq ux j k)).
Lemma dqc_abs_loop_R n ng nq o ou Ct Hq ux lam H0 C0 d0 adj0 fn0 x0 x1 : (o + nq <= ou)%nat ->
  loop_post n ng nq o ou Ct Hq ux lam (fun j => - b_h n Hq ux j) H0 C0 d0 adj0 (dqc_abs_loop n ng nq o ou Ct Hq ux lam (H0, C0, d0, adj0, fn0, x0, x1)).
Proof.
  intros Ho. unfold dqc_abs_loop.
  match goal with |- context [loop nq ?f ?s] => set (body := f) end.
  enough (Hm : forall m, (m <= nq)%nat -> loop_post n ng m o ou Ct Hq ux lam (fun j => - b_h n Hq ux j) H0 C0 d0 adj0 (loop m body (H0, C0, d0, adj0, fn0, x0, x1))) by (apply Hm; lia).
  induction m as [|m IH]; intros Hm.
  - unfold loop_post. cbn [loop rsum]. repeat split; intros; try lia; try lra; reflexivity.
  - rewrite loop_S. specialize (IH ltac:(lia)). destruct (loop m body _) as [[[[[[H C] d] adj] fn] y0] y1].
    destruct IH as (I1 & I2 & I3 & I4 & I5 & I6). unfold body, loop_post. clear body. cbv zeta.
    set (X0 := SYMV_L _ _ _ _ _ _ _ _ _ _ _ _).
    assert (HX0 : forall k, (k < n)%nat -> X0 k = rsum n (fun l => symL (Hq m) k l * ux l)).
    { intros k Hk. unfold X0, SYMV_L. vn. rewrite fsum_R. rsimp. rewrite R_lit11, R_lit01. cbn [Nat.add]. change (symL (fun r c => Hq m r c)) with (symL (Hq m)). lra. }
    set (X1 := COLEX _ _ _ _ y1 _).
    assert (HX1 : forall k, (k < n)%nat -> X1 k = Ct k (ng + m)%nat).
    { intros k Hk. unfold X1, COLEX. vn. reflexivity. }
    set (X2 := AXPY n f1 X0 0 X1 0 X1 0).
    assert (HX2 : forall k, (k < n)%nat -> X2 k = b_grad n ng Ct Hq ux m k).
    { intros k Hk. unfold X2, AXPY. vn. rewrite HX0, HX1 by assumption. unfold b_grad. rsimp. rewrite R_lit11. lra. }
    set (X3 := AXPBY _ _ _ _ _ _ _ _ _).
    assert (HX3 : forall k, (k < n)%nat -> X3 k = - b_grad n ng Ct Hq ux m k + 1 / 2 * X0 k).
    { intros k Hk. unfold X3, AXPBY. vn. rewrite HX2 by assumption. rsimp. lra. }
    set (X4 := COLEX _ _ _ _ X0 _).
    assert (HX4 : forall k, (k < n)%nat -> X4 k = Ct k (ng + m)%nat).
    { intros k Hk. unfold X4, COLEX. vn. reflexivity. }
    clearbody X4 X3. set (v := DOT _ _ _ _ _).
    assert (Hv : v = - b_h n Hq ux m).
    { unfold v, DOT. rewrite fsum_R. unfold b_h. rewrite <- rsum_scal, <- rsum_opp. apply rsum_ext. intros k Hk. unfold AXPY. vn. rewrite HX3, HX4, HX0 by assumption. unfold b_grad. rsimp. rewrite R_lit11. lra. }
    clearbody v X0 X1 X2. subst v.
    split; [|split; [|split; [|split; [|split]]]].
    + intros k l Hk Hl. unfold GEAD. rewrite mblk_in' by lia. rewrite !Nat.sub_0_r. cbn [Nat.add].
      rewrite I1 by assumption. cbn [rsum]. rsimp. lra.
    + intros k j Hk Hj. unfold COLIN. destruct (Nat.eq_dec j m) as [->|Hn].
      * rewrite mblk_in' by lia. rewrite !Nat.sub_0_r. cbn [Nat.add]. apply HX2. assumption.
      * rewrite mblk_out by lia. apply I2; [assumption|lia].
    + intros k l Hl. unfold COLIN. rewrite mblk_out by lia. apply I3. lia.
    + intros j Hj. destruct (Nat.eq_dec j m) as [->|Hn].
      * rewrite upd_same. rewrite upd_other by lia. rewrite upd_same. rewrite upd_same. rewrite upd_other by lia. rewrite !I5 by lia. rsimp. split; [lra|split; [lra|reflexivity]].
      * rewrite !upd_other by lia. apply I4. lia.
    + intros c Hc1 Hc2. rewrite !upd_other by lia. apply I5; lia.
    + intros k Hk. unfold AXPY at 1. vn. rewrite HX2, I6 by assumption. cbn [rsum]. rsimp. lra.
Qed.

Section D.
Variables (q : dqcqp R) (sol : dsol R).
Notation z := (ds_v sol). Notation lam := (ds_lam sol).
Notation nv := (dq_nv q). Notation nb := (dq_nb q). Notation ng := (dq_ng q). Notation nq := (dq_nq q). Notation ns := (dq_ns q).
Definition dcache_of (w : nat -> R) (fn adj : nat -> R) : Prop :=
  (forall j, (j < nq)%nat -> fn j = w j) /\ (forall k, (k < nv)%nat -> adj k = rsum nq (fun j => (lam (duq q j) - lam (dlq q j)) * dq_grad q z j k)).
(** the parts of the QP the update routines do not write *)
Definition dsame_const (p p' : dqp R) : Prop :=
  (d_nv p' = d_nv p /\ d_ne p' = d_ne p /\ d_nb p' = d_nb p /\ d_ng p' = d_ng p /\ d_ns p' = d_ns p) /\
  d_A p' = d_A p /\ d_gz p' = d_gz p /\ d_b p' = d_b p /\ d_mask p' = d_mask p /\ d_Z p' = d_Z p /\ d_idxb p' = d_idxb p /\ d_idxs_rev p' = d_idxs_rev p /\
  (forall k j, (j < ng)%nat -> d_Ct p' k j = d_Ct p k j).
Lemma dqfun_b j : b_val nv ng (dq_Ct q) (dq_Hq q) z j = dq_fun q z j.
Proof. exact (qfun_b (one_qc q) (oneq_sol sol) 0 j). Qed.
Lemma loop_lin w s H C d adj fn y0 y1 (qp' : dqp R) :
  loop_post nv ng nq (nb + ng) (2 * nb + 2 * ng + nq) (dq_Ct q) (dq_Hq q) z lam w (GECP nv nv (dq_H q) 0 0 (d_H (da_qp s)) 0 0) (d_Ct (da_qp s))
    (VECCP (2 * nb + 2 * ng + 2 * nq + 2 * ns) (dq_d q) 0 (d_d (da_qp s)) 0) (VECSE nv f0 (da_adj s) 0) (H, C, d, adj, fn, y0, y1) ->
  d_H qp' = H -> d_Ct qp' = C -> d_d qp' = d -> d_m qp' = VECCP (2 * nb + 2 * ng + 2 * nq + 2 * ns) (dq_m q) 0 (d_m (da_qp s)) 0 ->
  dlin_var q w z lam qp' /\ dcache_of w fn adj.
Proof.
  intros (A1 & A2 & A3 & A4 & A5 & A6) E1 E2 E3 E4.
  assert (Ec : dqnc q = (2 * nb + 2 * ng + 2 * nq + 2 * ns)%nat) by (unfold dqnc, dqn2; lia).
  assert (El : forall j, dlq q j = (nb + ng + j)%nat) by reflexivity.
  assert (Eu : forall j, duq q j = (2 * nb + 2 * ng + nq + j)%nat) by (intros j; unfold duq, dqn2; lia).
  set (d0 := VECCP _ (dq_d q) _ _ _) in *.
  split.
  - unfold dlin_var. rewrite E1, E2, E3, E4. split; [|split].
    + intros k l Hl Hk. rewrite A1 by lia. unfold GECP. rewrite mblk_in' by lia. rewrite !Nat.sub_0_r. cbn [Nat.add]. f_equal. apply rsum_ext. intros j _. rewrite El, Eu. reflexivity.
    + intros k j Hk Hj. rewrite A2 by assumption. reflexivity.
    + intros c Hc. split.
      * unfold dlin_d, dq_lower. rewrite El, Eu. unfold dqn2. rewrite !Nat.add_0_r.
        assert (Hd0 : d0 c = dq_d q c) by (unfold d0, VECCP; vn; reflexivity).
        destruct (Nat.leb_spec (nb + ng) c), (Nat.ltb_spec c (nb + ng + nq)); cbn [andb].
        -- pose proof (A4 (c - (nb + ng))%nat ltac:(lia)) as (B1 & _). replace (nb + ng + (c - (nb + ng)))%nat with c in B1 by lia. rewrite B1, Hd0. reflexivity.
        -- destruct (Nat.leb_spec (2 * nb + 2 * ng + nq) c), (Nat.ltb_spec c (2 * (nb + ng + nq))); cbn [andb].
           ++ pose proof (A4 (c - (2 * nb + 2 * ng + nq))%nat ltac:(lia)) as (_ & B1 & _). replace (2 * nb + 2 * ng + nq + (c - (2 * nb + 2 * ng + nq)))%nat with c in B1 by lia. rewrite B1, Hd0. reflexivity.
           ++ rewrite A5 by lia. exact Hd0.
           ++ rewrite A5 by lia. exact Hd0.
           ++ rewrite A5 by lia. exact Hd0.
        -- destruct (Nat.leb_spec (2 * nb + 2 * ng + nq) c); [lia|]. cbn [andb]. rewrite A5 by lia. exact Hd0.
        -- lia.
      * unfold VECCP. vn. reflexivity.
  - split.
    + intros j Hj. destruct (A4 j Hj) as (_ & _ & ->). reflexivity.
    + intros k Hk. rewrite A6 by assumption. unfold VECSE. vn. rsimp. rewrite R_lit01, Rplus_0_l. apply rsum_ext. intros j _. rewrite El, Eu. reflexivity.
Qed.
Lemma dlin_var_ext w w' qp : (forall j, (j < nq)%nat -> w j = w' j) -> dlin_var q w z lam qp -> dlin_var q w' z lam qp.
Proof.
  intros E (A & B & C). split; [exact A|]. split; [exact B|]. intros c Hc. destruct (C c Hc) as [C1 C2]. split; [|exact C2]. rewrite C1. unfold dlin_d, dq_lower, duq, dlq, dqn2 in *.
  destruct (Nat.leb_spec (nb + ng) c), (Nat.ltb_spec c (nb + ng + nq)); cbn [andb]; [rewrite E by lia; reflexivity| | |];
    destruct (Nat.leb_spec (nb + ng + nq + (nb + ng) + 0) c), (Nat.ltb_spec c (2 * (nb + ng + nq))); cbn [andb]; try reflexivity; rewrite E by lia; reflexivity.
Qed.
Lemma dupdate_R s : let s' := dqc_update_qp q sol s in
  dlin_var q (dq_fun q z) z lam (da_qp s') /\ dcache_of (dq_fun q z) (da_fun s') (da_adj s') /\ dsame_const (da_qp s) (da_qp s').
Proof.
  cbv zeta. unfold dqc_update_qp. cbv zeta.
  match goal with |- context [approx_loop ?a ?b ?c ?d ?e ?f ?g ?h ?i (?j1, ?j2, ?j3, ?j4, ?j5, ?j6, ?j7)] =>
    pose proof (approx_loop_R a b c d e f g h i j1 j2 j3 j4 j5 j6 j7 ltac:(lia)) as A; destruct (approx_loop a b c d e f g h i (j1, j2, j3, j4, j5, j6, j7)) as [[[[[[H C] d'] adj] fn] y0] y1] end.
  assert (A' : loop_post nv ng nq (nb + ng) (2 * nb + 2 * ng + nq) (dq_Ct q) (dq_Hq q) z lam (dq_fun q z) (GECP nv nv (dq_H q) 0 0 (d_H (da_qp s)) 0 0) (d_Ct (da_qp s))
    (VECCP (2 * nb + 2 * ng + 2 * nq + 2 * ns) (dq_d q) 0 (d_d (da_qp s)) 0) (VECSE nv f0 (da_adj s) 0) (H, C, d', adj, fn, y0, y1)).
  { destruct A as (A1 & A2 & A3 & A4 & A5 & A6). unfold loop_post. split; [exact A1|]. split; [exact A2|]. split; [exact A3|]. split; [|split; [exact A5|exact A6]].
    intros j Hj. rewrite <- dqfun_b. apply A4. exact Hj. }
  cbn [da_qp da_fun da_adj].
  match goal with |- dlin_var _ _ _ _ ?p /\ _ => destruct (loop_lin (dq_fun q z) s H C d' adj fn y0 y1 p A' eq_refl eq_refl eq_refl eq_refl) as [L1 L2] end.
  split; [exact L1|split; [exact L2|]].
  unfold dsame_const. cbn [d_nv d_ne d_nb d_ng d_ns d_A d_gz d_b d_mask d_Z d_idxb d_idxs_rev d_Ct]. repeat (split; [repeat split; reflexivity|]). intros k j Hj. apply A'. left; exact Hj.
Qed.
Lemma dtan0_h j : dtan0 q z j = - b_h nv (dq_Hq q) z j.
Proof.
  unfold dtan0. rewrite <- dqfun_b. unfold b_val, dq_grad.
  rewrite (rsum_ext _ (fun k => (dq_Ct q k (ng + j)%nat + rsum nv (fun l => dq_Hsym q j k l * z l)) * z k) (fun k => dq_Ct q k (ng + j)%nat * z k + rsum nv (fun l => dq_Hsym q j k l * z l) * z k)) by (intros; lra).
  rewrite rsum_add. unfold b_h. change (symL (dq_Hq q j)) with (dq_Hsym q j). lra.
Qed.
Lemma dabs_R s : let s' := dqc_update_qp_abs q sol s in
  dlin_var q (dtan0 q z) z lam (da_qp s') /\ dcache_of (dtan0 q z) (da_fun s') (da_adj s') /\ dsame_const (da_qp s) (da_qp s').
Proof.
  cbv zeta. unfold dqc_update_qp_abs. cbv zeta.
  match goal with |- context [dqc_abs_loop ?a ?b ?c ?d ?e ?f ?g ?h ?i (?j1, ?j2, ?j3, ?j4, ?j5, ?j6, ?j7)] =>
    pose proof (dqc_abs_loop_R a b c d e f g h i j1 j2 j3 j4 j5 j6 j7 ltac:(lia)) as A; destruct (dqc_abs_loop a b c d e f g h i (j1, j2, j3, j4, j5, j6, j7)) as [[[[[[H C] d'] adj] fn] y0] y1] end.
  cbn [da_qp da_fun da_adj].
  assert (A' : loop_post nv ng nq (nb + ng) (2 * nb + 2 * ng + nq) (dq_Ct q) (dq_Hq q) z lam (dtan0 q z) (GECP nv nv (dq_H q) 0 0 (d_H (da_qp s)) 0 0) (d_Ct (da_qp s))
    (VECCP (2 * nb + 2 * ng + 2 * nq + 2 * ns) (dq_d q) 0 (d_d (da_qp s)) 0) (VECSE nv f0 (da_adj s) 0) (H, C, d', adj, fn, y0, y1)).
  { destruct A as (A1 & A2 & A3 & A4 & A5 & A6). unfold loop_post. split; [exact A1|]. split; [exact A2|]. split; [exact A3|]. split; [|split; [exact A5|exact A6]].
    intros j Hj. rewrite dtan0_h. apply A4. exact Hj. }
  match goal with |- dlin_var _ _ _ _ ?p /\ _ => destruct (loop_lin (dtan0 q z) s H C d' adj fn y0 y1 p A' eq_refl eq_refl eq_refl eq_refl) as [L1 L2] end.
  split; [exact L1|split; [exact L2|]].
  unfold dsame_const. cbn [d_nv d_ne d_nb d_ng d_ns d_A d_gz d_b d_mask d_Z d_idxb d_idxs_rev d_Ct]. repeat (split; [repeat split; reflexivity|]). intros k j Hj. apply A'. left; exact Hj.
Qed.
Lemma dsame_lin p p' : dsame_const p p' -> dlin_const q p -> dlin_const q p'.
Proof.
  intros ((S1 & S2 & S3 & S4 & S5) & S6 & S7 & S8 & S9 & S10 & S11 & S12 & S13) ((L1 & L2 & L3 & L4 & L5) & L6 & L7 & L8 & L9 & L10 & L11 & L12 & L13).
  unfold dlin_const. rewrite S1, S2, S3, S4, S5, S6, S7, S8, S9, S10, S11, S12.
  split; [repeat split; assumption|]. split; [assumption|]. split; [intros k j Hk Hj; rewrite S13 by exact Hj; apply L7; assumption|]. repeat (split; [assumption|]). assumption.
Qed.
Lemma dapprox_R s : d_nv (da_qp s) = nv -> d_ne (da_qp s) = dq_ne q -> d_nb (da_qp s) = nb -> d_ng (da_qp s) = (ng + nq)%nat -> d_ns (da_qp s) = ns ->
  let s' := dqc_approx_qp q sol s in dlin_of q z lam (da_qp s') /\ dcache_of (dq_fun q z) (da_fun s') (da_adj s').
Proof.
  intros E1 E2 E3 E4 E5. cbv zeta. destruct (dupdate_R s) as (L & K & ((S1 & S2 & S3 & S4 & S5) & _)). cbv zeta in *.
  unfold dqc_approx_qp. cbv zeta. set (u := dqc_update_qp q sol s) in *. clearbody u. cbn [da_qp da_fun da_adj].
  assert (Ec : dqnc q = (2 * nb + 2 * ng + 2 * nq + 2 * ns)%nat) by (unfold dqnc, dqn2; lia).
  split; [split|exact K].
  - unfold dlin_const. cbn [d_nv d_ne d_nb d_ng d_ns d_A d_Ct d_gz d_b d_mask d_Z d_idxb d_idxs_rev]. split; [repeat split; congruence|].
    split; [intros j k Hj Hk; unfold GECP; rewrite mblk_in' by lia; rewrite !Nat.sub_0_r; reflexivity|].
    split; [intros k j Hk Hj; unfold GECP; rewrite mblk_in' by lia; rewrite !Nat.sub_0_r; reflexivity|].
    split; [intros k Hk; unfold dqnv in Hk; unfold VECCP; vn; reflexivity|]. split; [intros j Hj; unfold VECCP; vn; reflexivity|].
    split; [intros c Hc; rewrite Ec in Hc; unfold VECCP; vn; reflexivity|]. split; [intros k Hk; unfold VECCP; vn; reflexivity|].
    split; [apply copy_loop|apply copy_loop].
  - destruct L as (L1 & L2 & L3). unfold dlin_var. cbn [d_H d_Ct d_d d_m]. split; [exact L1|split; [|exact L3]].
    intros k j Hk Hj. unfold GECP. rewrite mblk_out by lia. apply L2; assumption.
Qed.
Lemma dcache_prep fn adj : dq_prepared q lam -> dcache_of (dq_fun q z) fn adj -> dq_cache_ok q (Some (fn, adj)) z lam.
Proof.
  intros Hp [K1 K2]. split; [exact K1|]. intros k Hk. rewrite K2 by exact Hk. apply rsum_ext. intros j Hj. cbv zeta. destruct (Hp j Hj) as (_ & P2 & P3).
  change (dqn2 q + (nb + ng) + j)%nat with (duq q j). pose proof (act_up (one_qc q) 0 j) as E. change (act (one_qc q) 0 (uqx (one_qc q) 0 j)) with (dq_act q (duq q j)) in E.
  change (c_mask (one_qc q) 0 (uqx (one_qc q) 0 j)) with (dq_mask q (duq q j)) in E. rewrite E, P2, P3. lra.
Qed.
End D.

(** ** Newton *)
Section N.
Variables (q : dqcqp R) (qp : dqp R) (z pi lam t : nat -> R).
Hypothesis Hwf : dqc_wf q.
Hypothesis Hlin : dlin_of q z lam qp.
Hypothesis Hprep : dq_prepared q lam.
Notation Q := (one_qc q).
Lemma oneq_lin : lin_of Q (fun _ => z) (fun _ => lam) (one_stage qp).
Proof.
  destruct Hlin as [((L1 & L2 & L3 & L4 & L5) & L6 & L7 & L8 & L9 & L10 & L11 & L12 & L13) (V1 & V2 & V3)]. split.
  - unfold one_stage, one_qc, qp_dims. cbn [q_dim c_dim c_nq dN dnx dnu dnb dng dns]. rewrite L1, L3, L4, L5. reflexivity.
  - intros i Hi. split; [exact V1|]. split.
    + intros k j Hk Hj. cbn [one_stage q_DCt]. change (dng (c_dim Q) i) with (dq_ng q) in *. change (c_nq Q i) with (dq_nq q) in Hj. change (cnux Q i) with (dq_nv q) in Hk.
      destruct (Nat.ltb_spec j (dq_ng q)) as [H|H]; [apply L7; assumption|]. replace j with (dq_ng q + (j - dq_ng q))%nat at 1 by lia. apply V2; [exact Hk|lia].
    + split; [intros c Hc; destruct (V3 c Hc) as [A B]; split; [exact A|split; [exact (L10 c Hc)|exact B]]|]. split; [exact L11|]. split; [exact L12|]. split; [exact L13|].
      intros H. cbn in H. lia.
Qed.
Lemma oneq_prep : q_prepared Q (fun _ => lam).
Proof. intros i _ j Hj. exact (Hprep j Hj). Qed.
Variables (rm dz dpi dlam dt : nat -> R).
Let st := dwith_rhs qp (dq_kkt_g q z pi lam) (dq_eq q z) (dq_kkt_d q z t) rm.
Let ost := with_rhs (one_stage qp) (qkkt_g Q (fun _ => z) (fun _ => pi) (fun _ => lam)) (qdyn Q (fun _ => z)) (qkkt_d Q (fun _ => z) (fun _ => t)) (fun _ => rm).
Let Hd j k := rsum (dq_nv q) (fun l => dq_Hsym q j k l * dz l).
Lemma st_kkt_g k : (k < dqnv q)%nat ->
  kkt_g ost (fun _ => dz) (fun _ => dpi) (fun _ => dlam) 0 k = den_kkt_g st dz dpi dlam k + (if (k <? dq_nv q)%nat then rsum (dq_ne q) (fun j => dq_A q j k * (pi j + dpi j)) else 0).
Proof.
  intros Hk. destruct Hlin as [((L1 & L2 & L3 & L4 & L5) & L6 & _) _].
  assert (E : kkt_g ost (fun _ => dz) (fun _ => dpi) (fun _ => dlam) 0 k = kkt_g (one_stage st) (fun _ => dz) (fun _ => dpi) (fun _ => dlam) 0 k + qkkt_g Q (fun _ => z) (fun _ => pi) (fun _ => lam) 0 k - dq_kkt_g q z pi lam k).
  { unfold kkt_g. cbn [q_dim one_stage with_rhs ost dN Nat.ltb Nat.leb andb q_rqz q_mask]. cbn [st dwith_rhs d_gz d_mask].
    match goal with |- ?a + _ + 0 - 0 - ?b = ?a' + _ + 0 - 0 - ?b' + _ - _ => change a' with a; change b' with b; set (x1 := a); set (x2 := b) end. lra. }
  rewrite E, one_kkt_g, oneq_kkt_g. cbn [st dwith_rhs d_nv d_ne d_A]. rewrite L1, L2. fold st. destruct (Nat.ltb_spec k (dq_nv q)) as [H|H]; [|lra].
  assert (E1 : rsum (dq_ne q) (fun j => d_A qp j k * dpi j) = rsum (dq_ne q) (fun j => dq_A q j k * dpi j)).
  { apply rsum_ext. intros j Hj. rewrite L6 by assumption. reflexivity. }
  rewrite (rsum_ext _ (fun j => dq_A q j k * (pi j + dpi j)) (fun j => dq_A q j k * pi j + dq_A q j k * dpi j)) by (intros; lra). rewrite rsum_add.
  change (d_A st) with (d_A qp). rewrite E1. lra.
Qed.
Lemma dnewton_g k : (k < dqnv q)%nat ->
  den_kkt_g st dz dpi dlam k = dq_kkt_g q (fun k => z k + dz k) (fun k => pi k + dpi k) (fun k => lam k + dlam k) k
    - (if (k <? dq_nv q)%nat then rsum (dq_nq q) (fun j => dq_mask q (duq q j) * dlam (duq q j) * Hd j k) else 0).
Proof.
  intros Hk. pose proof (st_kkt_g k Hk) as E.
  pose proof (newton_g Q (one_stage qp) (fun _ => z) (fun _ => pi) (fun _ => lam) (fun _ => t) oneq_lin oneq_prep (fun _ => rm) (fun _ => dz) (fun _ => dpi) (fun _ => dlam) 0 k (Nat.le_refl 0) Hk) as N.
  change (newton_qp Q (one_stage qp) (fun _ => z) (fun _ => pi) (fun _ => lam) (fun _ => t) (fun _ => rm)) with ost in N.
  change (qkkt_g Q (fun i k => (fun _ => z) i k + (fun _ => dz) i k)) with (qkkt_g Q (fun _ k => z k + dz k)) in N.
  cbv beta in N. pose proof (oneq_kkt_g q (fun k => z k + dz k) (fun k => pi k + dpi k) (fun k => lam k + dlam k) k) as E2. rewrite E2 in N. rewrite E in N. unfold Hd.
  change (cnux Q 0) with (dq_nv q) in N. change (c_nq Q 0) with (dq_nq q) in N.
  change (fun j => c_mask Q 0 (uqx Q 0 j) * dlam (uqx Q 0 j) * Hv Q 0 j k (fun _ => dz)) with (fun j => dq_mask q (duq q j) * dlam (duq q j) * rsum (dq_nv q) (fun l => dq_Hsym q j k l * dz l)) in N.
  lra.
Qed.
Lemma dnewton_b j : (j < dq_ne q)%nat -> den_eq st dz j = dq_eq q (fun k => z k + dz k) j.
Proof.
  intros Hj. destruct Hlin as [((L1 & L2 & L3 & L4 & L5) & L6 & _) _]. unfold den_eq, dq_eq. cbn [st dwith_rhs d_b d_nv d_A]. unfold dq_eq. rewrite L1.
  rewrite (rsum_ext _ (fun k => d_A qp j k * dz k) (fun k => dq_A q j k * dz k)) by (intros k Hk; rewrite L6 by assumption; reflexivity).
  rewrite (rsum_ext _ (fun k => dq_A q j k * (z k + dz k)) (fun k => dq_A q j k * z k + dq_A q j k * dz k)) by (intros; lra). rewrite rsum_add. lra.
Qed.
Lemma dnewton_d c : (c < dqnc q)%nat -> dq_mask q c = 0 \/ dq_mask q c = 1 ->
  den_kkt_d st dz dt c = dq_kkt_d q (fun k => z k + dz k) (fun c => t c + dt c) c
    - dq_mask q c * (if ((duq q 0 <=? c) && (c <? 2 * dqn2 q))%nat then 1 / 2 * rsum (dq_nv q) (fun k => dz k * Hd (c - duq q 0)%nat k) else 0).
Proof.
  intros Hc Hm. exact (newton_d Q (one_stage qp) (fun _ => z) (fun _ => pi) (fun _ => lam) (fun _ => t) (oneq_wf q Hwf) oneq_lin oneq_prep (fun _ => rm) (fun _ => dz) (fun _ => dt) 0 c (Nat.le_refl 0) Hc Hm).
Qed.
Lemma dnewton_m c : (c < dqnc q)%nat -> dq_mask q c = 0 \/ dq_mask q c = 1 -> rm c = dq_kkt_m q lam t c ->
  d_mask st c * (d_m st c + lam c * dt c + dlam c * t c) = dq_kkt_m q (fun c => lam c + dlam c) (fun c => t c + dt c) c - dq_mask q c * (dlam c * dt c).
Proof.
  intros Hc Hm Hr. exact (newton_m Q (one_stage qp) (fun _ => z) (fun _ => pi) (fun _ => lam) (fun _ => t) oneq_lin oneq_prep (fun _ => rm) (fun _ => dlam) (fun _ => dt) 0 c (Nat.le_refl 0) Hc Hm Hr).
Qed.
End N.

(** ** masks *)
Definition dlowslack (q : dqcqp R) (c : nat) : Prop := exists j, (j < dq_nq q)%nat /\ dq_idxs_rev q (dlq q j) <> (-1)%Z /\ c = (2 * dqn2 q + Z.to_nat (dq_idxs_rev q (dlq q j)))%nat.
Lemma dmask_lower_R (q : dqcqp R) c :
  (dq_lower q c = true \/ dlowslack q c -> dqc_mask_lower q c = 0) /\ (dq_lower q c = false -> ~ dlowslack q c -> dqc_mask_lower q c = dq_mask q c).
Proof. exact (mask_lower_R (one_qc q) 0 c (Nat.le_refl 0)). Qed.
Definition dwith_mask (q : dqcqp R) (m : nat -> R) : dqcqp R :=
  mkdqc (dq_nv q) (dq_ne q) (dq_nb q) (dq_ng q) (dq_nq q) (dq_ns q) (dq_H q) (dq_A q) (dq_Ct q) (dq_Hq q) (dq_gz q) (dq_b q) (dq_d q) m (dq_m q) (dq_Z q) (dq_idxb q) (dq_idxs_rev q).
(** slack number s softens the lower side of a quadratic constraint *)
Definition dqslack (q : dqcqp R) (s : nat) : Prop := exists j, (j < dq_nq q)%nat /\ dq_idxs_rev q (dlq q j) <> (-1)%Z /\ s = Z.to_nat (dq_idxs_rev q (dlq q j)).
(** such slacks have no linear cost, a convex one, a bound <= 0 and soften no other lower side *)
Definition dmask_harmless (q : dqcqp R) : Prop := forall s, dqslack q s ->
  dq_gz q (dq_nv q + s)%nat = 0 /\ 0 <= dq_Z q s /\ dq_d q (2 * dqn2 q + s)%nat <= 0 /\
  (forall j, (j < dq_nb q + dq_ng q)%nat -> dq_idxs_rev q j <> (-1)%Z -> Z.to_nat (dq_idxs_rev q j) <> s).
Lemma oneq_feas q y : dq_feasible q y -> qfeasible (one_qc q) (fun _ => y).
Proof. intros [_ H]. split; [intros i j Hi; cbn in Hi; lia|]. intros i c Hi. cbn in Hi. assert (i = 0%nat) by lia; subst i. exact (H c). Qed.
Lemma dmask_harmless_R q y : dqc_wf q -> dmask_harmless q ->
  (dq_feasible q y -> dq_feasible (dwith_mask q (dqc_mask_lower q)) y) /\
  (dq_feasible (dwith_mask q (dqc_mask_lower q)) y -> exists y', dq_feasible q y' /\ dq_cost q y' <= dq_cost q y /\ forall k, (k < dq_nv q)%nat -> y' k = y k).
Proof.
  intros Hwf Hh. assert (Hh' : mask_harmless (one_qc q)). { intros i s Hi Hs. cbn in Hi. assert (i = 0%nat) by lia; subst i. exact (Hh s Hs). }
  split.
  - intros H. pose proof (feas_masked (one_qc q) (fun _ => y) (oneq_feas q y H)) as [_ F]. split; [exact (proj1 H)|]. intros c. exact (F 0%nat c (Nat.le_refl 0)).
  - intros [H1 H2]. assert (Hf : qfeasible (with_mask (one_qc q) (mask_lower (one_qc q))) (fun _ => y)).
    { split; [intros i j Hi; cbn in Hi; lia|]. intros i c Hi. cbn in Hi. assert (i = 0%nat) by lia; subst i. exact (H2 c). }
    pose proof (feas_zeroed (one_qc q) (fun _ => y) (oneq_wf q Hwf) Hh' Hf) as [_ F].
    pose proof (cost_zeroed (one_qc q) (fun _ => y) (oneq_wf q Hwf) Hh') as Fc.
    assert (Hz : forall k, (k < dq_nv q)%nat -> zeroed (one_qc q) (fun _ => y) 0 k = y k) by (intros k Hk; exact (zeroed_hard (one_qc q) (fun _ => y) 0 k Hk)).
    exists (fun k => zeroed (one_qc q) (fun _ => y) 0 k). split; [split|split].
    + intros j Hj. rewrite <- (H1 j Hj). unfold dq_eq. cbn [dwith_mask dq_b dq_A dq_nv]. f_equal. apply rsum_ext. intros k Hk. rewrite Hz by exact Hk. reflexivity.
    + intros c. exact (F 0%nat c (Nat.le_refl 0)).
    + rewrite <- !oneq_cost. unfold qcost in *. cbn [c_dim one_qc dN Nat.add rsum] in *. exact Fc.
    + exact Hz.
Qed.
Lemma den_kkt_g_scal (p : dqp R) dz dpi dlam a k :
  den_kkt_g p (fun k => a * dz k) (fun k => a * dpi k) (fun k => a * dlam k) k = a * den_kkt_g p dz dpi dlam k + (1 - a) * d_gz p k.
Proof.
  unfold den_kkt_g.
  rewrite (rsum_ext _ (fun l => den_Hess p k l * (a * dz l)) (fun l => a * (den_Hess p k l * dz l))) by (intros; lra).
  rewrite (rsum_ext _ (fun j => d_A p j k * (a * dpi j)) (fun j => a * (d_A p j k * dpi j))) by (intros; lra).
  rewrite (rsum_ext _ (fun c => den_G p c k * (d_mask p c * (a * dlam c))) (fun c => a * (den_G p c k * (d_mask p c * dlam c)))) by (intros; lra).
  rewrite !rsum_scal. destruct (k <? d_nv p)%nat; lra.
Qed.
Lemma den_con_scal (p : dqp R) dz a c : den_con p (fun k => a * dz k) c = a * den_con p dz c.
Proof. unfold den_con. rewrite (rsum_ext _ (fun k => den_G p c k * (a * dz k)) (fun k => a * (den_G p c k * dz k))) by (intros; lra). apply rsum_scal. Qed.
