(** QcqpLin.v -- proofs about APPROX_QP / UPDATE_QP (QcqpModel.v). *)
From Coq Require Import ZArith Bool Arith Lia Reals Lra.
From Verif Require Import Base ArithF RSum Blas Blas2 OcpModel ResSpec ResProofs ResProofs2 QcqpModel QcqpSpec QcqpProofs QcqpProofs2 QcqpProofs3 QcqpLinSpec QpDataProofs.
Local Open Scope R_scope.

Lemma approx_loop_R n ng nq o ou Ct Hq ux lam H0 C0 d0 adj0 fn0 x0 x1 : (o + nq <= ou)%nat ->
  let '(H, C, d, adj, fn, _, _) := approx_loop n ng nq o ou Ct Hq ux lam (H0, C0, d0, adj0, fn0, x0, x1) in
  (forall k l, (k < n)%nat -> (l < n)%nat -> H k l = H0 k l + rsum nq (fun j => (lam (ou + j)%nat - lam (o + j)%nat) * Hq j k l)) /\
  (forall k j, (k < n)%nat -> (j < nq)%nat -> C k (ng + j)%nat = b_grad n ng Ct Hq ux j k) /\
  (forall k l, (l < ng)%nat \/ (ng + nq <= l)%nat -> C k l = C0 k l) /\
  (forall j, (j < nq)%nat -> d (o + j)%nat = d0 (o + j)%nat - b_val n ng Ct Hq ux j /\ d (ou + j)%nat = d0 (ou + j)%nat + b_val n ng Ct Hq ux j /\ fn j = b_val n ng Ct Hq ux j) /\
  (forall c, ~ ((o <= c < o + nq)%nat) -> ~ ((ou <= c < ou + nq)%nat) -> d c = d0 c) /\
  (forall k, (k < n)%nat -> adj k = adj0 k + rsum nq (fun j => (lam (ou + j)%nat - lam (o + j)%nat) * b_grad n ng Ct Hq ux j k)).
Proof.
  intros Ho. unfold approx_loop.
  match goal with |- context [loop nq ?f ?s] => set (body := f) end.
  enough (Hm : forall m, (m <= nq)%nat -> let '(H, C, d, adj, fn, _, _) := loop m body (H0, C0, d0, adj0, fn0, x0, x1) in
    (forall k l, (k < n)%nat -> (l < n)%nat -> H k l = H0 k l + rsum m (fun j => (lam (ou + j)%nat - lam (o + j)%nat) * Hq j k l)) /\
    (forall k j, (k < n)%nat -> (j < m)%nat -> C k (ng + j)%nat = b_grad n ng Ct Hq ux j k) /\
    (forall k l, (l < ng)%nat \/ (ng + m <= l)%nat -> C k l = C0 k l) /\
    (forall j, (j < m)%nat -> d (o + j)%nat = d0 (o + j)%nat - b_val n ng Ct Hq ux j /\ d (ou + j)%nat = d0 (ou + j)%nat + b_val n ng Ct Hq ux j /\ fn j = b_val n ng Ct Hq ux j) /\
    (forall c, ~ ((o <= c < o + m)%nat) -> ~ ((ou <= c < ou + m)%nat) -> d c = d0 c) /\
    (forall k, (k < n)%nat -> adj k = adj0 k + rsum m (fun j => (lam (ou + j)%nat - lam (o + j)%nat) * b_grad n ng Ct Hq ux j k))) by (apply Hm; lia).
  induction m as [|m IH]; intros Hm.
  - cbn [loop rsum]. repeat split; intros; try lia; try lra; reflexivity.
  - rewrite loop_S. specialize (IH ltac:(lia)). destruct (loop m body _) as [[[[[[H C] d] adj] fn] y0] y1].
    destruct IH as (I1 & I2 & I3 & I4 & I5 & I6). unfold body. clear body. cbv zeta.
    set (X0 := SYMV_L _ _ _ _ _ _ _ _ _ _ _ _).
    assert (HX0 : forall k, (k < n)%nat -> X0 k = rsum n (fun l => symL (Hq m) k l * ux l)).
    { intros k Hk. unfold X0, SYMV_L. vn. rewrite fsum_R. rsimp. rewrite R_lit11, R_lit01. cbn [Nat.add]. change (symL (fun r c => Hq m r c)) with (symL (Hq m)). lra. }
    set (X1 := COLEX _ _ _ _ y1 _).
    assert (HX1 : forall k, (k < n)%nat -> X1 k = Ct k (ng + m)%nat).
    { intros k Hk. unfold X1, COLEX. vn. reflexivity. }
    set (X2 := AXPY n f1 X0 0 X1 0 X1 0).
    assert (HX2 : forall k, (k < n)%nat -> X2 k = b_grad n ng Ct Hq ux m k).
    { intros k Hk. unfold X2, AXPY. vn. rewrite HX0, HX1 by assumption. unfold b_grad. rsimp. rewrite R_lit11. lra. }
    set (X3 := COLEX _ _ _ _ X2 _).
    assert (HX3 : forall k, (k < n)%nat -> X3 k = Ct k (ng + m)%nat).
    { intros k Hk. unfold X3, COLEX. vn. reflexivity. }
    clearbody X3. set (v := DOT _ _ _ _ _).
    assert (Hv : v = b_val n ng Ct Hq ux m).
    { unfold v, DOT. rewrite fsum_R. unfold b_val, b_h. rewrite <- rsum_scal, <- rsum_add. apply rsum_ext. intros k Hk. unfold AXPY. vn. rewrite HX0, HX3 by assumption. rsimp. lra. }
    clearbody v X0 X1 X2. subst v.
    split; [|split; [|split; [|split; [|split]]]].
    + intros k l Hk Hl. unfold GEAD. rewrite mblk_in' by lia. rewrite !Nat.sub_0_r. cbn [Nat.add].
      rewrite I1 by assumption. cbn [rsum]. rsimp. lra.
    + intros k j Hk Hj. unfold COLIN. destruct (Nat.eq_dec j m) as [->|Hn].
      * rewrite mblk_in' by lia. rewrite !Nat.sub_0_r. cbn [Nat.add]. apply HX2. assumption.
      * rewrite mblk_out by lia. apply I2; [assumption|lia].
    + intros k l Hl. unfold COLIN. rewrite mblk_out by lia. apply I3. lia.
    + intros j Hj. destruct (Nat.eq_dec j m) as [->|Hn].
      * rewrite upd_same. rewrite upd_other by lia. rewrite upd_same. rewrite upd_same. rewrite upd_other by lia. rewrite !I5 by lia. rsimp. split; [lra|split; [lra|reflexivity]].
      * rewrite !upd_other by lia. apply I4. lia.
    + intros c Hc1 Hc2. rewrite !upd_other by lia. apply I5; lia.
    + intros k Hk. unfold AXPY at 1. vn. rewrite HX2, I6 by assumption. cbn [rsum]. rsimp. lra.
Qed.

(** ** one stage *)
Section St.
Variables (qc : oqcqp R) (sol : osol R).
Let D := c_dim qc.
Notation z := (s_ux sol). Notation lam := (s_lam sol).
Definition lin_stage (zz ll : nat -> nat -> R) (qp : oqp R) (i : nat) : Prop :=
  (forall k l, (l <= k)%nat -> (k < cnux qc i)%nat -> q_RSQ qp i k l = c_RSQ qc i k l + rsum (c_nq qc i) (fun j => (ll i (uqx qc i j) - ll i (lq qc i j)) * c_Hq qc i j k l)) /\
  (forall k j, (k < cnux qc i)%nat -> (j < c_nq qc i)%nat -> q_DCt qp i k (dng D i + j)%nat = qgrad qc zz i j k) /\
  (forall c, (c < cnc qc i)%nat -> q_d qp i c = lin_d qc zz i c /\ q_m qp i c = c_m qc i c).
Definition cache_stage_ok (fn adj : nat -> nat -> R) (i : nat) : Prop :=
  (forall j, (j < c_nq qc i)%nat -> fn i j = qfun qc z i j) /\
  (forall k, (k < cnux qc i)%nat -> adj i k = rsum (c_nq qc i) (fun j => (lam i (uqx qc i j) - lam i (lq qc i j)) * qgrad qc z i j k)).
(** the parts of the QP UPDATE_QP does not write *)
Definition same_const (q q' : oqp R) : Prop :=
  q_dim q' = q_dim q /\ q_BAbt q' = q_BAbt q /\ q_b q' = q_b q /\ q_rqz q' = q_rqz q /\ q_mask q' = q_mask q /\ q_Z q' = q_Z q /\ q_idxb q' = q_idxb q /\ q_idxs_rev q' = q_idxs_rev q /\
  (forall i k j, (j < dng D i)%nat -> q_DCt q' i k j = q_DCt q i k j).
Lemma qfun_b i j : b_val (cnux qc i) (dng D i) (c_DCt qc i) (c_Hq qc i) (z i) j = qfun qc z i j.
Proof.
  unfold qfun, b_val, b_h. f_equal. f_equal. apply rsum_ext. intros k _. rewrite <- rsum_scal_r. apply rsum_ext. intros l _.
  change (symL (c_Hq qc i j) k l) with (Hsym qc i j k l). lra.
Qed.
Lemma update_stage_R i s : let s' := update_stage qc sol i s in
  lin_stage z lam (a_qp s') i /\ cache_stage_ok (a_fun s') (a_adj s') i /\ same_const (a_qp s) (a_qp s') /\
  forall i', i' <> i -> q_RSQ (a_qp s') i' = q_RSQ (a_qp s) i' /\ q_DCt (a_qp s') i' = q_DCt (a_qp s) i' /\ q_d (a_qp s') i' = q_d (a_qp s) i' /\ q_m (a_qp s') i' = q_m (a_qp s) i' /\
    a_fun s' i' = a_fun s i' /\ a_adj s' i' = a_adj s i'.
Proof.
  unfold update_stage. cbv zeta. fold D.
  change (dnu D i + dnx D i)%nat with (cnux qc i). set (n := cnux qc i). set (nb := dnb D i). set (ng := dng D i). set (nq := c_nq qc i). set (ns := dns D i).
  assert (Ec : cnc qc i = (2 * nb + 2 * ng + 2 * nq + 2 * ns)%nat) by (unfold cnc, cn2; fold D nb ng nq ns; lia).
  set (d0 := VECCP _ _ _ _ _). set (H0 := GECP _ _ _ _ _ _ _ _). set (a0 := VECSE _ _ _ _).
  pose proof (approx_loop_R n ng nq (nb + ng) (2 * nb + 2 * ng + nq) (c_DCt qc i) (c_Hq qc i) (z i) (lam i) H0 (q_DCt (a_qp s) i) d0 a0 (a_fun s i) (a_x0 s) (a_x1 s) ltac:(lia)) as A.
  destruct (approx_loop _ _ _ _ _ _ _ _ _ _) as [[[[[[H C] d] adj] fn] y0] y1]. destruct A as (A1 & A2 & A3 & A4 & A5 & A6).
  cbn [a_qp a_fun a_adj q_dim q_BAbt q_RSQ q_DCt q_b q_rqz q_d q_mask q_m q_Z q_idxb q_idxs_rev].
  assert (El : forall j, lq qc i j = (nb + ng + j)%nat) by reflexivity.
  assert (Eu : forall j, uqx qc i j = (2 * nb + 2 * ng + nq + j)%nat) by (intros j; unfold uqx, cn2; fold D nb ng nq; lia).
  split; [|split; [|split]].
  - unfold lin_stage. cbn [q_RSQ q_DCt q_d q_m]. rewrite !upd_same. split; [|split].
    + intros k l Hl Hk. fold n in Hk. rewrite A1 by lia. unfold H0, GECP. rewrite mblk_in' by lia. rewrite !Nat.sub_0_r. cbn [Nat.add]. f_equal. apply rsum_ext. intros j _. rewrite El, Eu. reflexivity.
    + intros k j Hk Hj. fold ng. rewrite A2 by assumption. reflexivity.
    + intros c Hc. split.
      * unfold lin_d, lowerq. rewrite El, Eu. unfold cn2. fold D nb ng nq. rewrite !Nat.add_0_r.
        assert (Hd0 : d0 c = c_d qc i c) by (unfold d0, VECCP; vn; reflexivity).
        destruct (Nat.leb_spec (nb + ng) c), (Nat.ltb_spec c (nb + ng + nq)); cbn [andb].
        -- pose proof (A4 (c - (nb + ng))%nat ltac:(lia)) as (B1 & _). replace (nb + ng + (c - (nb + ng)))%nat with c in B1 by lia. rewrite B1, Hd0. unfold n, ng. rewrite qfun_b. reflexivity.
        -- destruct (Nat.leb_spec (2 * nb + 2 * ng + nq) c), (Nat.ltb_spec c (2 * (nb + ng + nq))); cbn [andb].
           ++ pose proof (A4 (c - (2 * nb + 2 * ng + nq))%nat ltac:(lia)) as (_ & B1 & _). replace (2 * nb + 2 * ng + nq + (c - (2 * nb + 2 * ng + nq)))%nat with c in B1 by lia. rewrite B1, Hd0. unfold n, ng. rewrite qfun_b. reflexivity.
           ++ rewrite A5 by lia. exact Hd0.
           ++ rewrite A5 by lia. exact Hd0.
           ++ rewrite A5 by lia. exact Hd0.
        -- destruct (Nat.leb_spec (2 * nb + 2 * ng + nq) c); [lia|]. cbn [andb]. rewrite A5 by lia. exact Hd0.
        -- lia.
      * unfold VECCP. vn. reflexivity.
  - unfold cache_stage_ok. rewrite !upd_same. split.
    + intros j Hj. destruct (A4 j Hj) as (_ & _ & ->). apply qfun_b.
    + intros k Hk. rewrite A6 by assumption. unfold a0, VECSE. vn. rsimp. rewrite R_lit01, Rplus_0_l. apply rsum_ext. intros j _. rewrite El, Eu. reflexivity.
  - unfold same_const. cbn [q_dim q_BAbt q_RSQ q_DCt q_b q_rqz q_d q_mask q_m q_Z q_idxb q_idxs_rev]. repeat (split; [reflexivity|]).
    intros i' k j Hj. destruct (Nat.eq_dec i' i) as [->|]; [rewrite upd_same; apply A3; left; exact Hj|rewrite upd_other by assumption; reflexivity].
  - intros i' Hi. rewrite !upd_other by assumption. repeat split.
Qed.
Lemma same_const_trans a b c : same_const a b -> same_const b c -> same_const a c.
Proof.
  intros (A1 & A2 & A3 & A4 & A5 & A6 & A7 & A8 & A9) (B1 & B2 & B3 & B4 & B5 & B6 & B7 & B8 & B9). unfold same_const.
  rewrite B1, B2, B3, B4, B5, B6, B7, B8. repeat (split; [assumption|]). intros. rewrite B9, A9 by assumption. reflexivity.
Qed.
Lemma lin_stage_eq zz ll q q' i : q_RSQ q' i = q_RSQ q i -> (forall k j, (dng D i <= j)%nat -> q_DCt q' i k j = q_DCt q i k j) -> q_d q' i = q_d q i -> q_m q' i = q_m q i -> lin_stage zz ll q i -> lin_stage zz ll q' i.
Proof. intros E1 E2 E3 E4 (A & B & C). unfold lin_stage. rewrite E1, E3, E4. split; [exact A|split; [|exact C]]. intros k j Hk Hj. rewrite E2 by lia. apply B; assumption. Qed.
Lemma update_loop_R s n : let s' := loop n (update_stage qc sol) s in
  (forall i, (i < n)%nat -> lin_stage z lam (a_qp s') i /\ cache_stage_ok (a_fun s') (a_adj s') i) /\ same_const (a_qp s) (a_qp s').
Proof.
  induction n as [|n IH]; cbv zeta in *.
  - cbn [loop]. split; [intros; lia|]. unfold same_const. repeat (split; [reflexivity|]). reflexivity.
  - rewrite loop_S. destruct IH as [I1 I2]. destruct (update_stage_R n (loop n (update_stage qc sol) s)) as (A & B & C & E). cbv zeta in *. split; [|eapply same_const_trans; eassumption].
    intros i Hi. destruct (Nat.eq_dec i n) as [->|Hn]; [split; assumption|]. destruct (E i Hn) as (E1 & E2 & E3 & E4 & E5 & E6). destruct (I1 i ltac:(lia)) as [J1 J2]. split.
    + eapply lin_stage_eq; [exact E1|intros; rewrite E2; reflexivity|exact E3|exact E4|exact J1].
    + unfold cache_stage_ok in *. rewrite E5, E6. exact J2.
Qed.
(** UPDATE_QP: from a linearisation anywhere to the linearisation at the new point; the cache is that of the new point *)
Lemma update_lin z0 l0 s : lin_of qc z0 l0 (a_qp s) -> lin_of qc z lam (a_qp (update_qp qc sol s)).
Proof.
  intros [Hd H]. unfold update_qp. destruct (update_loop_R s (dN (c_dim qc) + 1)) as [A (B1 & B2 & B3 & B4 & B5 & B6 & B7 & B8 & B9)]. cbv zeta in *.
  set (q := a_qp (loop _ _ s)) in *. split; [rewrite B1; exact Hd|]. intros i Hi. destruct (H i Hi) as (_ & H2 & H3 & H4 & H5 & H6 & H7).
  destruct (A i ltac:(lia)) as [(C1 & C2 & C3) _]. rewrite B2, B3, B5, B6, B7, B8. split; [exact C1|]. split; [|split; [|exact (conj H4 (conj H5 (conj H6 H7)))]].
  - intros k j Hk Hj. destruct (Nat.ltb_spec j (dng (c_dim qc) i)) as [Hg|Hg].
    + rewrite B9 by exact Hg. rewrite H2 by assumption. destruct (Nat.ltb_spec j (dng (c_dim qc) i)); [reflexivity|lia].
    + rewrite <- C2 by (try assumption; lia). f_equal. unfold D. lia.
  - intros c Hc. destruct (C3 c Hc) as [F1 F2]. destruct (H3 c Hc) as (_ & F3 & _). split; [exact F1|split; [exact F3|exact F2]].
Qed.
Lemma cache_prep fn adj : q_prepared qc lam -> (forall i, (i <= dN (c_dim qc))%nat -> cache_stage_ok fn adj i) -> cache_ok (Some (fn, adj)) qc z lam.
Proof.
  intros Hp H i Hi. destruct (H i Hi) as [A B]. split; [exact A|]. intros k Hk. rewrite B by assumption. apply rsum_ext. intros j Hj. destruct (Hp i Hi j Hj) as (_ & E2 & E3). rewrite E2.
  cbv zeta. fold (uqx qc i j). replace (act qc i (uqx qc i j)) with (c_mask qc i (uqx qc i j)); [rewrite E3; lra|].
  unfold act, lowerq, uqx. destruct (Nat.ltb_spec (cn2 qc i + (dnb (c_dim qc) i + dng (c_dim qc) i) + j) (cn2 qc i)); [lia|]. rewrite andb_false_r. reflexivity.
Qed.
Lemma update_cache s : q_prepared qc lam -> cache_ok (Some (a_fun (update_qp qc sol s), a_adj (update_qp qc sol s))) qc z lam.
Proof.
  intros Hp. apply cache_prep; [exact Hp|]. intros i Hi. unfold update_qp. destruct (update_loop_R s (dN (c_dim qc) + 1)) as [A _]. apply A. lia.
Qed.

(** ** APPROX_QP *)
Lemma copy_loop {T} n (src v : nat -> T) : (forall j, (j < n)%nat -> loop n (fun jj v => upd v jj (src jj)) v j = src j).
Proof.
  induction n as [|n IH]; intros j Hj; [lia|]. rewrite loop_S. destruct (Nat.eq_dec j n) as [->|]; [apply upd_same|]. rewrite upd_other by assumption. apply IH. lia.
Qed.
Definition rest_stage (qp : oqp R) (i : nat) : Prop :=
  (forall k j, (k < cnux qc i)%nat -> (j < dng D i)%nat -> q_DCt qp i k j = c_DCt qc i k j) /\
  (forall c, (c < cnc qc i)%nat -> q_mask qp i c = c_mask qc i c) /\
  (forall k, (k < 2 * dns D i)%nat -> q_Z qp i k = c_Z qc i k) /\
  (forall j, (j < dnb D i)%nat -> q_idxb qp i j = c_idxb qc i j) /\
  (forall j, (j < cn2 qc i)%nat -> q_idxs_rev qp i j = c_idxs_rev qc i j).
Lemma approx_stage_R i s : let s' := approx_stage qc sol i s in
  lin_stage z lam (a_qp s') i /\ cache_stage_ok (a_fun s') (a_adj s') i /\ rest_stage (a_qp s') i /\ q_dim (a_qp s') = q_dim (a_qp s) /\
  forall i', i' <> i -> q_RSQ (a_qp s') i' = q_RSQ (a_qp s) i' /\ q_DCt (a_qp s') i' = q_DCt (a_qp s) i' /\ q_d (a_qp s') i' = q_d (a_qp s) i' /\ q_m (a_qp s') i' = q_m (a_qp s) i' /\
    a_fun s' i' = a_fun s i' /\ a_adj s' i' = a_adj s i' /\ q_mask (a_qp s') i' = q_mask (a_qp s) i' /\ q_Z (a_qp s') i' = q_Z (a_qp s) i' /\
    q_idxb (a_qp s') i' = q_idxb (a_qp s) i' /\ q_idxs_rev (a_qp s') i' = q_idxs_rev (a_qp s) i'.
Proof.
  unfold approx_stage. cbv zeta. destruct (update_stage_R i s) as (A & B & C & E). cbv zeta in *. set (s1 := update_stage qc sol i s) in *. fold D.
  cbn [a_qp a_fun a_adj q_dim q_BAbt q_RSQ q_DCt q_b q_rqz q_d q_mask q_m q_Z q_idxb q_idxs_rev].
  destruct C as (C1 & C2 & C3 & C4 & C5 & C6 & C7 & C8 & C9).
  split; [|split; [exact B|split; [|split; [exact C1|]]]].
  - eapply lin_stage_eq; [| | | |exact A]; try reflexivity. cbn [q_DCt]. rewrite upd_same. intros k j Hj. unfold GECP. rewrite mblk_out by lia. reflexivity.
  - unfold rest_stage. cbn [q_DCt q_mask q_Z q_idxb q_idxs_rev]. rewrite !upd_same. split; [|split; [|split; [|split]]].
    + intros k j Hk Hj. unfold GECP. change (dnu D i + dnx D i)%nat with (cnux qc i). rewrite mblk_in' by lia. rewrite !Nat.sub_0_r. reflexivity.
    + intros c Hc. unfold cnc, cn2 in Hc. fold D in Hc. unfold VECCP. vn. reflexivity.
    + intros k Hk. unfold VECCP. vn. reflexivity.
    + intros j Hj. apply copy_loop. exact Hj.
    + intros j Hj. apply copy_loop. exact Hj.
  - intros i' Hi. rewrite !upd_other by assumption. destruct (E i' Hi) as (E1 & E2 & E3 & E4 & E5 & E6). rewrite C5, C6, C7, C8. repeat split; assumption.
Qed.
Lemma approx_loop1_R s n : let s' := loop n (approx_stage qc sol) s in
  (forall i, (i < n)%nat -> lin_stage z lam (a_qp s') i /\ cache_stage_ok (a_fun s') (a_adj s') i /\ rest_stage (a_qp s') i) /\ q_dim (a_qp s') = q_dim (a_qp s).
Proof.
  induction n as [|n IH]; cbv zeta in *.
  - cbn [loop]. split; [intros; lia|reflexivity].
  - rewrite loop_S. destruct IH as [I1 I2]. destruct (approx_stage_R n (loop n (approx_stage qc sol) s)) as (A & B & C & C' & E). cbv zeta in *. split; [|congruence].
    intros i Hi. destruct (Nat.eq_dec i n) as [->|Hn]; [exact (conj A (conj B C))|]. destruct (E i Hn) as (E1 & E2 & E3 & E4 & E5 & E6 & E7 & E8 & E9 & E10). destruct (I1 i ltac:(lia)) as (J1 & J2 & J3). split; [|split].
    + eapply lin_stage_eq; [exact E1|intros; rewrite E2; reflexivity|exact E3|exact E4|exact J1].
    + unfold cache_stage_ok in *. rewrite E5, E6. exact J2.
    + unfold rest_stage in *. rewrite E2, E7, E8, E9, E10. exact J3.
Qed.
Lemma approx_dyn_R s n : let s' := loop n (approx_dyn qc) s in
  (forall i, (i < n)%nat -> forall j, (j < dnx D (S i))%nat -> q_b (a_qp s') i j = c_b qc i j /\ forall k, (k < cnux qc i)%nat -> q_BAbt (a_qp s') i k j = c_BAbt qc i k j) /\
  a_fun s' = a_fun s /\ a_adj s' = a_adj s /\ q_dim (a_qp s') = q_dim (a_qp s) /\ q_RSQ (a_qp s') = q_RSQ (a_qp s) /\ q_DCt (a_qp s') = q_DCt (a_qp s) /\ q_d (a_qp s') = q_d (a_qp s) /\
  q_m (a_qp s') = q_m (a_qp s) /\ q_mask (a_qp s') = q_mask (a_qp s) /\ q_Z (a_qp s') = q_Z (a_qp s) /\ q_idxb (a_qp s') = q_idxb (a_qp s) /\ q_idxs_rev (a_qp s') = q_idxs_rev (a_qp s) /\
  q_rqz (a_qp s') = q_rqz (a_qp s).
Proof.
  induction n as [|n IH]; cbv zeta in *.
  - cbn [loop]. split; [intros; lia|]. repeat split.
  - rewrite loop_S. destruct IH as (I1 & I2). set (s1 := loop n (approx_dyn qc) s) in *. unfold approx_dyn. cbv zeta.
    cbn [a_qp a_fun a_adj q_dim q_BAbt q_RSQ q_DCt q_b q_rqz q_d q_mask q_m q_Z q_idxb q_idxs_rev]. split; [|exact I2].
    intros i Hi j Hj. fold D. destruct (Nat.eq_dec i n) as [->|Hn].
    + rewrite !upd_same. split.
      * unfold VECCP. replace (n + 1)%nat with (S n) by lia. vn. reflexivity.
      * intros k Hk. unfold GECP. unfold cnux in Hk. fold D in Hk. replace (n + 1)%nat with (S n) by lia. rewrite mblk_in' by lia. rewrite !Nat.sub_0_r. reflexivity.
    + rewrite !upd_other by assumption. apply I1; [lia|assumption].
Qed.
Lemma approx_lin s : q_dim (a_qp s) = qp_dims D (c_nq qc) -> lin_of qc z lam (a_qp (approx_qp qc sol s)).
Proof.
  intros Hd. unfold approx_qp. fold D. destruct (approx_loop1_R s (dN D + 1)) as [A B]. cbv zeta in *. set (s1 := loop (dN D + 1) _ s) in *.
  destruct (approx_dyn_R s1 (dN D)) as (C0 & C1 & C2 & C3 & C4 & C5 & C6 & C7 & C8 & C9 & C10 & C11 & C12). cbv zeta in *. set (s2 := loop (dN D) _ s1) in *.
  split; [rewrite C3, B; exact Hd|]. intros i Hi. rewrite C4, C5, C6, C7, C8, C9, C10, C11. destruct (A i ltac:(unfold D; lia)) as ((E1 & E2 & E3) & _ & (F1 & F2 & F3 & F4 & F5)).
  split; [exact E1|]. split; [|split; [|split; [exact F3|split; [exact F4|split; [exact F5|]]]]].
  - intros k j Hk Hj. destruct (Nat.ltb_spec j (dng (c_dim qc) i)) as [Hg|Hg]; [apply F1; assumption|]. rewrite <- E2 by (try assumption; lia). f_equal. unfold D. lia.
  - intros c Hc. destruct (E3 c Hc) as [G1 G2]. split; [exact G1|split; [apply F2; exact Hc|exact G2]].
  - intros Hn j Hj. apply C0; [exact Hn|exact Hj].
Qed.
Lemma approx_cache s : q_prepared qc lam -> cache_ok (Some (a_fun (approx_qp qc sol s), a_adj (approx_qp qc sol s))) qc z lam.
Proof.
  intros Hp. apply cache_prep; [exact Hp|]. intros i Hi. unfold approx_qp. fold D. destruct (approx_loop1_R s (dN D + 1)) as [A _]. cbv zeta in *. set (s1 := loop (dN D + 1) _ s) in *.
  destruct (approx_dyn_R s1 (dN D)) as (_ & C1 & C2 & _). cbv zeta in *. rewrite C1, C2. apply A. unfold D. lia.
Qed.
End St.
