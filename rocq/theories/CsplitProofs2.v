(** CsplitProofs2.v -- condensing in two calls: the cost with cond_alg 1. *)
From Coq Require Import ZArith Bool Arith Lia Reals Lra.
From Verif Require Import Base ArithF RSum Blas Blas2 OcpModel ResSpec ResProofs CholProofs KktModel KktProofs KktProofs2 DenModel DenSpec CondModel CondSpec CondProofs CondCost CondCost2 CondCost3 CsplitModel CsplitProofs.
Local Open Scope R_scope.

Section Alg1.
Variables (qp : oqp R) (M : nat) (Gm : nat -> rmat) (diag : nat -> bool).
Notation D := (q_dim qp).
Notation nu := (dnu D).
Notation nx := (dnx D).
Notation uo := (uoff qp M).
Notation nux := (nux qp).
Notation nh := (n_hard qp M).
Notation Lst := (Lst qp).
Hypothesis Hdiag : diag_ok qp M diag.
(** the Hessian after stages 0..k *)
Definition hbase (r c : nat) : R := if (uo 0 <=? c)%nat then q_RSQ qp 0%nat (r - uo 0)%nat (c - uo 0)%nat else 0.
Definition HI1 (k : nat) (H : rmat) : Prop := forall r c, (c <= r < nh)%nat -> H r c = hbase r c + rsum k (fun n => incr qp M Gm (S n) r c).
Definition low1 (RSQ : nat -> rmat) : Prop := forall i r c, (c <= r < nux i)%nat -> RSQ i r c = q_RSQ qp i r c.

Lemma lhs1_stage_R n s : (1 <= n <= M)%nat -> q1_nuf s = nsum n nu -> q1_nub s = (uo n + nu n)%nat -> low1 (q1_RSQ s) ->
  let s' := lhs1_stage diag qp Gm n s in
  (forall r c, (c <= r < nh)%nat -> q1_H s' r c = q1_H s r c + incr qp M Gm n r c) /\ q1_nuf s' = nsum (S n) nu /\ q1_nub s' = uo n /\ low1 (q1_RSQ s').
Proof.
  intros Hn Hf Hb HL s'. pose proof (nh_uo qp M n Hn) as Enh. set (b := (nsum n nu + nx 0)%nat) in *. set (o := (uo n + nu n)%nat) in *.
  unfold s', lhs1_stage. rewrite Hf, Hb. fold o. destruct (Nat.eqb_spec n 0); [lia|]. replace (o - nu n)%nat with (uo n) by lia. fold b. change (uo n + nu n)%nat with o.
  set (G := Gm (n - 1)%nat).
  set (trip := if diag n then _ else _).
  assert (T : exists RSQ tmp GQ, trip = (RSQ, tmp, GQ) /\ low1 RSQ /\
     (forall r l, (r < b)%nat -> (l < nx n)%nat -> GQ r l = rsum (nx n) (fun m => G r m * Pm qp (Lst n) n m l))).
  { unfold trip. destruct (diag n) eqn:Ed.
    - eexists _, _, _. split; [reflexivity|]. split; [exact HL|]. intros r l Hr Hl. unfold GEMM_ND. rewrite mblk_i by lia. unfold DIAEX. rewrite !Nat.sub_0_r. cbn [Nat.add]. rewrite vset_in' by lia. rsimp. rewrite R_lit01, R_lit11, Nat.sub_0_r.
      rewrite HL by (unfold ResSpec.nux; lia).
      rewrite (rsum_ext (nx n) _ (fun m => if (m =? l)%nat then G r m * Pm qp (Lst n) n m l else 0)).
      + rewrite rsum_one by assumption. unfold Pm, symL, CondCost3.Lst. rewrite Nat.leb_refl. destruct (Nat.ltb_spec (nu n + l) (nux n)); [|unfold ResSpec.nux in *; lia]. fold G. lra.
      + intros m Hm. destruct (Nat.eqb_spec m l); [reflexivity|]. unfold Pm, symL, CondCost3.Lst. unfold ResSpec.nux.
        destruct (Nat.leb_spec (nu n + l) (nu n + m)); [destruct (Nat.ltb_spec (nu n + m) (nu n + nx n)); [|lia]|destruct (Nat.ltb_spec (nu n + l) (nu n + nx n)); [|lia]];
        (rewrite (Hdiag n) by (try assumption; unfold ResSpec.nux; lia)); lra.
    - eexists _, _, _. split; [reflexivity|].
      assert (ER : forall r c, (r < nux n)%nat -> (c < nux n)%nat -> TRTR_L (nu n + nx n) (q1_RSQ s n) 0 0 (q1_RSQ s n) 0 0 r c = symL (q_RSQ qp n) r c).
      { intros r c Hr Hc. unfold TRTR_L. rewrite mupd_at. cbn [Nat.add]. rewrite !Nat.sub_0_r. fold (nux n). destruct (Nat.ltb_spec r (nux n)); [|lia]. destruct (Nat.ltb_spec c (nux n)); [|lia]. cbn [Nat.leb andb].
        unfold symL. destruct (Nat.leb_spec r c); destruct (Nat.leb_spec c r); try lia; try (apply HL; lia). replace c with r by lia. apply HL; lia. }
      split.
      + intros i r c H. unfold upd. destruct (Nat.eqb_spec i n) as [->|]; [|apply HL; exact H]. rewrite ER by lia. unfold symL. destruct (Nat.leb_spec c r); [reflexivity|lia].
      + intros r l Hr Hl. unfold GEMM_NN. rewrite mblk_i by lia. rewrite fsum_R. rsimp. rewrite R_lit01, R_lit11, !Nat.sub_0_r. cbn [Nat.add]. rewrite Rmult_0_l, Rplus_0_l, Rmult_1_l. apply rsum_ext. intros m Hm.
        rewrite ER by (unfold ResSpec.nux; lia). fold G. f_equal. unfold Pm, symL, CondCost3.Lst, ResSpec.nux.
        destruct (Nat.leb_spec (nu n + l) (nu n + m)); [destruct (Nat.ltb_spec (nu n + m) (nu n + nx n)); [reflexivity|lia]|destruct (Nat.ltb_spec (nu n + l) (nu n + nx n)); [reflexivity|lia]]. }
  destruct T as (RSQ & tmp & GQ & -> & TR & TG). cbn [q1_H q1_nuf q1_nub q1_RSQ].
  set (H1 := SYRK_LN_MN _ _ _ _ _ _ _ _ _ _ _ _ _ _ _ _ _). set (H2 := GEAD _ _ _ _ _ _ H1 _ _). set (H3 := if diag n then H2 else _).
  assert (E1 : forall r c, (c <= r)%nat -> (o <= c)%nat -> (r < nh)%nat -> H1 r c = q1_H s r c + incr qp M Gm n r c).
  { intros r c H01 H02 H03. unfold H1, SYRK_LN_MN. rewrite mupd_i by (try lia; unfold low; apply Nat.leb_le; lia). rewrite fsum_R. rsimp. rewrite R_lit11. cbn [Nat.add].
    replace (o + (r - o))%nat with r by lia. replace (o + (c - o))%nat with c by lia. rewrite !Rmult_1_l. f_equal. unfold incr. fold o. fold G. destruct (Nat.leb_spec o c); [|lia].
    apply rsum_ext. intros l Hl. rewrite TG by lia. destruct (Nat.eqb_spec r nh); [lia|]. lra. }
  assert (E1o : forall r c, (c < o)%nat -> H1 r c = q1_H s r c). { intros r c Hc. unfold H1, SYRK_LN_MN. apply mupd_out. lia. }
  assert (E3 : forall r c, (uo n <= c < o)%nat -> (o <= r < nh)%nat -> H3 r c = q1_H s r c + rsum (nx n) (fun l => G (r - o)%nat l * Lst n (nu n + l)%nat (c - uo n)%nat)).
  { intros r c Hc Hr. assert (E2 : H2 r c = q1_H s r c). { unfold H2, GEAD. rewrite mblk_o by lia. apply E1o. lia. }
    unfold H3. destruct (diag n) eqn:Ed.
    - rewrite E2, rsum_0; [lra|]. intros l Hl. unfold CondCost3.Lst. destruct (Nat.ltb_spec (nu n + l) (nux n)); [|unfold ResSpec.nux in *; lia]. rewrite (Hdiag n) by (try assumption; unfold ResSpec.nux in *; lia). lra.
    - unfold GEMM_NN. rewrite mblk_i by lia. rewrite fsum_R. rsimp. rewrite R_lit11. cbn [Nat.add]. rewrite !Rmult_1_l. replace (o + (r - o))%nat with r by lia. replace (uo n + (c - uo n))%nat with c by lia. rewrite E2. f_equal.
      apply rsum_ext. intros l Hl. fold G. f_equal. unfold CondCost3.Lst. destruct (Nat.ltb_spec (nu n + l) (nux n)); [|unfold ResSpec.nux in *; lia]. apply TR. unfold ResSpec.nux in *; lia. }
  assert (E3o : forall r c, (c < uo n \/ o <= c \/ r < o)%nat -> H3 r c = H2 r c). { intros r c H. unfold H3. destruct (diag n); [reflexivity|]. unfold GEMM_NN. apply mblk_o. lia. }
  assert (EH : forall r c, (c <= r < nh)%nat -> H3 r c = q1_H s r c + incr qp M Gm n r c).
  { intros r c H01. destruct (Nat.lt_ge_cases c (uo n)) as [C1|C1]; [|destruct (Nat.lt_ge_cases c o) as [C2|C2]].
    - rewrite E3o by lia. unfold H2, GEAD. rewrite mblk_o by lia. rewrite E1o by lia. unfold incr. fold o. destruct (Nat.leb_spec o c); [lia|]. destruct (Nat.leb_spec (uo n) c); [lia|]. lra.
    - unfold incr. fold o. fold G. destruct (Nat.leb_spec o c); [lia|]. destruct (Nat.leb_spec (uo n) c); [|lia]. destruct (Nat.ltb_spec r o).
      + rewrite E3o by lia. unfold H2, GEAD. rewrite mblk_i by lia. cbn [Nat.add]. replace (uo n + (r - uo n))%nat with r by lia. replace (uo n + (c - uo n))%nat with c by lia. rewrite E1o by lia. rsimp. rewrite R_lit11, Rmult_1_l. f_equal.
        unfold CondCost3.Lst, ResSpec.nux. destruct (Nat.ltb_spec (r - uo n) (nu n + nx n)); [|lia]. apply TR. unfold ResSpec.nux. lia.
      + rewrite E3 by lia. destruct (Nat.eqb_spec r nh); [lia|]. lra.
    - rewrite E3o by lia. unfold H2, GEAD. rewrite mblk_o by lia. apply E1; lia. }
  split; [exact EH|]. split; [cbn [nsum]; lia|]. split; [reflexivity|]. exact TR.
Qed.
Lemma uo0_eq : (nu2_of qp M - nu 0 = uo 0)%nat /\ nh = (uo 0 + nux 0)%nat.
Proof. split; [|unfold n_hard, ResSpec.nux; lia]. unfold nu2_of. rewrite Nat.add_1_r, <- (uoff_sum qp M 0) by lia. cbn [nsum]. lia. Qed.
Lemma lhs_alg1_R s : low1 (q1_RSQ s) -> q1_nub s = nu2_of qp M -> q1_nuf s = 0%nat -> let s' := lhs_alg1 diag qp Gm M (nu2_of qp M) s in HI1 M (q1_H s') /\ low1 (q1_RSQ s').
Proof.
  intros HL Hb Hf s'. unfold s', lhs_alg1. rewrite <- n_hard_eq. set (s0 := mkqst1 _ _ _ _ _ _). destruct uo0_eq as (Eu & Enh).
  assert (X : forall k, (k <= M)%nat -> let s1 := loop (S k) (lhs1_stage diag qp Gm) s0 in HI1 k (q1_H s1) /\ low1 (q1_RSQ s1) /\ q1_nuf s1 = nsum (S k) nu /\ q1_nub s1 = uo k).
  { induction k as [|k IH]; intros Hk; cbv zeta.
    - rewrite loop_S. cbn [loop]. unfold lhs1_stage. cbn [Nat.eqb s0 q1_RSQ q1_H q1_nub q1_nuf q1_GQ q1_tmp]. rewrite Hb, Hf, Eu. change (nu 0 + nx 0)%nat with (nux 0). split; [|split; [exact HL|split; reflexivity]].
      intros r c H. cbn [rsum]. unfold hbase. destruct (Nat.leb_spec (uo 0) c).
      + unfold TRCP_L. rewrite mupd_i by (try lia; unfold low; apply Nat.leb_le; lia). cbn [Nat.add]. rewrite HL by lia. lra.
      + unfold TRCP_L. rewrite mupd_out by lia. unfold GESE. rewrite mblk_i by lia. rsimp. rewrite R_lit01. lra.
    - specialize (IH ltac:(lia)). cbv zeta in IH. rewrite loop_S. set (s1 := loop (S k) _ s0) in *. clearbody s1. destruct IH as (IH & IL & If & Ib). rewrite (uoff_S qp M k) in Ib by lia.
      pose proof (lhs1_stage_R (S k) s1 ltac:(lia) If Ib IL) as S1. cbv zeta in S1. destruct S1 as (S1 & S2 & S3 & S4). set (s2 := lhs1_stage _ _ _ _ _) in *. clearbody s2.
      split; [|split; [exact S4|split; assumption]]. intros r c H. rewrite S1, (IH r c) by exact H. cbn [rsum]. lra. }
  rewrite Nat.add_1_r. specialize (X M (le_n _)). cbv zeta in X. destruct X as (X1 & X2 & _ & _). split; [exact X1|exact X2].
Qed.

Variable Gb : nat -> rvec.
Notation VG := (virtG qp Gm Gb).
Definition gbase (c : nat) : R := if (uo 0 <=? c)%nat then q_rqz qp 0%nat (c - uo 0)%nat else 0.
Definition GI1 (k : nat) (g : rvec) : Prop := forall c, (c < nh)%nat -> g c = gbase c + rsum k (fun n => incr qp M VG (S n) nh c).

Lemma incr_lo G n c : (c < uo n)%nat -> incr qp M G n nh c = 0.
Proof. intros H. unfold incr. destruct (Nat.leb_spec (uo n + nu n) c); [lia|]. destruct (Nat.leb_spec (uo n) c); [lia|reflexivity]. Qed.
Lemma rq1_stage_R n tmp g nub nuf : (1 <= n <= M)%nat -> nuf = nsum n nu -> nub = (uo n + nu n)%nat -> (forall c, (uo n <= c < uo n + nu n)%nat -> g c = 0) ->
  exists tmp' g', rq1_stage diag qp Gm Gb n (tmp, g, nub, nuf) = (tmp', g', uo n, nsum (S n) nu) /\ forall c, (c < nh)%nat -> g' c = g c + incr qp M VG n nh c.
Proof.
  intros Hn -> -> HZ. pose proof (nh_uo qp M n Hn) as Enh. set (b := (nsum n nu + nx 0)%nat) in *. set (o := (uo n + nu n)%nat) in *.
  unfold rq1_stage. destruct (Nat.eqb_spec n 0); [lia|]. replace (o - nu n)%nat with (uo n) by lia. fold b. change (uo n + nu n)%nat with o.
  set (G := Gm (n - 1)%nat). set (gam := Gb (n - 1)%nat). set (tp := if diag n then _ else _).
  assert (LD : forall r c, (r < nux n)%nat -> Lst n r c = q_RSQ qp n r c). { intros r c H. unfold CondCost3.Lst. destruct (Nat.ltb_spec r (nux n)); [reflexivity|lia]. }
  assert (LG : forall c, Lst n (nux n) c = q_rqz qp n c). { intros c. unfold CondCost3.Lst. rewrite Nat.ltb_irrefl. reflexivity. }
  assert (PD : forall l m, (l < nx n)%nat -> (m < nx n)%nat -> Pm qp (Lst n) n l m = symL (q_RSQ qp n) (nu n + l)%nat (nu n + m)%nat).
  { intros l m Hl Hm. unfold Pm, symL. destruct (Nat.leb_spec (nu n + m) (nu n + l)); apply LD; unfold ResSpec.nux; lia. }
  assert (VB : forall l, VG (n - 1)%nat b l = gam l). { intros l. unfold virtG, CondProofs.nuf. replace (S (n - 1)) with n by lia. fold b. rewrite Nat.eqb_refl. reflexivity. }
  assert (VL : forall r l, (r < b)%nat -> VG (n - 1)%nat r l = G r l). { intros r l Hr. unfold virtG, CondProofs.nuf. replace (S (n - 1)) with n by lia. fold b. destruct (Nat.eqb_spec r b); [lia|reflexivity]. }
  assert (T : forall l, (l < nx n)%nat -> tp l = rsum (nx n) (fun m => gam m * Pm qp (Lst n) n m l) + pv qp (Lst n) n l).
  { intros l Hl. unfold pv. rewrite LG. unfold tp. destruct (diag n) eqn:Ed.
    - unfold GEMV_DIAG. rewrite vset_in' by lia. unfold DIAEX. rewrite vset_in' by lia. rsimp. rewrite R_lit11. rewrite !Nat.sub_0_r. cbn [Nat.add].
      rewrite (rsum_ext (nx n) _ (fun m => if (m =? l)%nat then gam m * Pm qp (Lst n) n m l else 0)).
      + rewrite rsum_one by assumption. rewrite PD by assumption. unfold symL. rewrite Nat.leb_refl. fold gam. lra.
      + intros m Hm. destruct (Nat.eqb_spec m l); [reflexivity|]. rewrite PD by assumption. unfold symL.
        destruct (Nat.leb_spec (nu n + l) (nu n + m)); (rewrite (Hdiag n) by (try assumption; unfold ResSpec.nux; lia)); lra.
    - unfold SYMV_L. rewrite vset_in' by lia. rewrite fsum_R. rsimp. rewrite R_lit11, !Nat.sub_0_r. cbn [Nat.add]. rewrite !Rmult_1_l. rewrite Rplus_comm. f_equal.
      apply rsum_ext. intros m Hm. rewrite PD by assumption. fold gam. unfold symL. destruct (Nat.leb_spec (nu n + l) (nu n + m)), (Nat.leb_spec m l); try lia; try lra. replace m with l by lia. lra. }
  clearbody tp. set (g1 := GEMV_N _ _ _ _ _ _ _ _ _ _ _ _ _). set (g2 := if diag n then _ else _).
  assert (E1 : forall c, (o <= c < nh)%nat -> g1 c = g c + rsum (nx n) (fun l => G (c - o)%nat l * tp l)).
  { intros c Hc. unfold g1, GEMV_N. rewrite vset_in' by lia. rewrite fsum_R. rsimp. rewrite R_lit11. replace (o + (c - o))%nat with c by lia. cbn [Nat.add]. rewrite !Rmult_1_l. f_equal. }
  assert (E1o : forall c, (c < o)%nat -> g1 c = g c). { intros c Hc. unfold g1, GEMV_N. rewrite vset_out by lia. reflexivity. }
  assert (E2 : forall c, (uo n <= c < o)%nat -> g2 c = rsum (nx n) (fun l => gam l * Lst n (nu n + l)%nat (c - uo n)%nat) + q_rqz qp n (c - uo n)%nat).
  { intros c Hc. unfold g2. destruct (diag n) eqn:Ed.
    - unfold AXPY. rewrite vset_in' by lia. replace (uo n + (c - uo n))%nat with c by lia. rsimp. rewrite R_lit11. rewrite E1o by lia. rewrite HZ by lia. cbn [Nat.add].
      rewrite rsum_0; [lra|]. intros l Hl. rewrite LD by (unfold ResSpec.nux; lia). rewrite (Hdiag n) by (try assumption; unfold ResSpec.nux in *; lia). lra.
    - unfold GEMV_T. rewrite vset_in' by lia. rewrite fsum_R. rsimp. rewrite R_lit11. cbn [Nat.add]. rewrite !Rmult_1_l. rewrite Rplus_comm. f_equal. apply rsum_ext. intros l Hl. rewrite LD by (unfold ResSpec.nux; lia). fold gam. lra. }
  assert (E2o : forall c, (c < uo n \/ o <= c)%nat -> g2 c = g1 c). { intros c H. unfold g2. destruct (diag n); [unfold AXPY|unfold GEMV_T]; apply vset_out; lia. }
  exists tp, g2. split; [cbn [nsum]; f_equal; lia|].
  intros c Hc. destruct (Nat.lt_ge_cases c (uo n)) as [C1|C1]; [|destruct (Nat.lt_ge_cases c o) as [C2|C2]].
  - rewrite E2o by lia. rewrite E1o by lia. rewrite incr_lo by exact C1. lra.
  - rewrite E2 by lia. rewrite (HZ c) by lia. unfold incr. fold o. destruct (Nat.leb_spec o c); [lia|]. destruct (Nat.leb_spec (uo n) c); [|lia]. destruct (Nat.ltb_spec nh o); [lia|]. rewrite Nat.eqb_refl, LG.
    replace (nh - o)%nat with b by lia. rewrite Rplus_0_l. f_equal. apply rsum_ext. intros l Hl. rewrite VB. reflexivity.
  - rewrite E2o by lia. rewrite E1 by lia. f_equal. unfold incr. fold o. destruct (Nat.leb_spec o c); [|lia]. rewrite Nat.eqb_refl. replace (nh - o)%nat with b by lia.
    apply rsum_ext. intros l Hl. rewrite VL by lia. rewrite T by exact Hl.
    rewrite (rsum_ext (nx n) (fun m => VG (n - 1)%nat b m * Pm qp (Lst n) n m l) (fun m => gam m * Pm qp (Lst n) n m l)) by (intros m _; rewrite VB; reflexivity). lra.
Qed.
Lemma rq_alg1_R tmp g : let '(tmp', g') := rq_alg1 diag qp Gm Gb M (nu2_of qp M) tmp g in GI1 M g' /\ forall p, (nh <= p)%nat -> g' p = g p.
Proof.
  unfold rq_alg1. rewrite <- n_hard_eq. set (g0 := VECSE nh f0 g 0). destruct uo0_eq as (Eu & Enh).
  assert (X : forall k, (k <= M)%nat -> exists tmp' g', loop (S k) (rq1_stage diag qp Gm Gb) (tmp, g0, nu2_of qp M, 0%nat) = (tmp', g', uo k, nsum (S k) nu) /\ GI1 k g' /\ (forall p, (nh <= p)%nat -> g' p = g p)).
  { induction k as [|k IH]; intros Hk.
    - rewrite loop_S. cbn [loop]. unfold rq1_stage. cbn [Nat.eqb]. rewrite Eu. change (nu 0 + nx 0)%nat with (nux 0). eexists _, _. split; [reflexivity|]. split.
      + intros c Hc. cbn [rsum]. unfold gbase, VECCP. destruct (Nat.leb_spec (uo 0) c).
        * rewrite vset_in' by lia. cbn [Nat.add]. lra.
        * rewrite vset_out by lia. unfold g0, VECSE. rewrite vset_in' by lia. rsimp. rewrite R_lit01. lra.
      + intros p Hp. unfold VECCP. rewrite vset_out by lia. unfold g0, VECSE. apply vset_out. lia.
    - destruct (IH ltac:(lia)) as (t1 & g1 & E & I1 & I2). rewrite loop_S, E.
      assert (Z : forall c, (uo (S k) <= c < uo (S k) + nu (S k))%nat -> g1 c = 0).
      { intros c Hc. pose proof (uoff_S qp M k ltac:(lia)) as Uk. pose proof (nh_uo qp M (S k) ltac:(lia)). rewrite I1 by lia. unfold gbase. assert (uo k <= uo 0)%nat by (destruct k; [lia|pose proof (uo_mono qp M 0 (S k) ltac:(lia) ltac:(lia)); lia]). destruct (Nat.leb_spec (uo 0) c).
        - lia.
        - rewrite rsum_0; [lra|]. intros n Hn. apply incr_lo. destruct (Nat.eq_dec (S n) k) as [->|]; [lia|]. pose proof (uo_mono qp M (S n) k ltac:(lia) ltac:(lia)). lia. }
      destruct (rq1_stage_R (S k) t1 g1 (uo k) (nsum (S k) nu) ltac:(lia) eq_refl (uoff_S qp M k ltac:(lia)) Z) as (t2 & g2 & E2 & I3).
      exists t2, g2. split; [exact E2|]. split.
      + intros c Hc. rewrite I3, I1 by exact Hc. cbn [rsum]. lra.
      + intros p Hp. rewrite <- (I2 p Hp). pose proof (uoff_S qp M k ltac:(lia)) as Uk. pose proof (nh_uo qp M (S k) ltac:(lia)).
        unfold rq1_stage in E2. cbn [Nat.eqb] in E2. rewrite Uk in E2. replace (uo (S k) + nu (S k) - nu (S k))%nat with (uo (S k)) in E2 by lia.
        assert (E3 := f_equal (fun x => snd (fst (fst x))) E2). cbn [fst snd] in E3. rewrite <- E3. destruct (diag (S k)); unfold AXPY, GEMV_T; rewrite vset_out by lia; unfold GEMV_N; rewrite vset_out by lia; reflexivity. }
  rewrite Nat.add_1_r. destruct (X M (le_n _)) as (t1 & g1 & E & I1 & I2). rewrite E. split; assumption.
Qed.

(** Hessian of the first call, gradient of the second *)
Lemma split_cost1 H g : HI1 M H -> GI1 M g -> (forall i, (i < M)%nat -> HGV qp M Gm i /\ BGV qp M Gb i) ->
  exists K, forall v, 1 / 2 * Qo H 0 nh v + rsum nh (fun k => g k * v k) = rsum (S M) (hardc qp (traj qp M v)) + K.
Proof.
  intros HH Hg HG. destruct uo0_eq as (_ & Enh).
  set (Hv := fun r c => if (r =? nh)%nat then g c else H r c).
  set (B := fun r c => if (uo 0 <=? c)%nat then (if (r =? nh)%nat then q_rqz qp 0%nat (c - uo 0)%nat else q_RSQ qp 0%nat (r - uo 0)%nat (c - uo 0)%nat) else 0).
  assert (X : forall k v, PhiH qp M (fun r c => B r c + rsum k (fun n => incr qp M VG (S n) r c)) v = PhiH qp M B v + rsum k (fun n => PhiH qp M (incr qp M VG (S n)) v)).
  { induction k as [|k IH]; intros v; cbn [rsum].
    - rewrite (PhiH_add qp M B _ (fun _ _ => 0)) by (intros; lra). f_equal. unfold PhiH, Qo. rewrite rsum_0, rsum_0; [lra| |].
      + intros. lra.
      + intros. apply rsum_0. intros. unfold symL. destruct (Nat.leb _ _); lra.
    - rewrite (PhiH_add qp M _ _ (incr qp M VG (S k))) by (intros; rewrite <- Rplus_assoc; reflexivity). rewrite IH. lra. }
  exists (- rsum M (fun n => Vf qp (Lst (S n)) (S n) (fun l => VG (S n - 1)%nat (nsum (S n) nu + nx 0)%nat l))). intros v.
  assert (E0 : 1 / 2 * Qo H 0 nh v + rsum nh (fun k => g k * v k) = PhiH qp M Hv v).
  { unfold PhiH. f_equal; [f_equal|].
    - apply Qo_ext. intros r c H1 H2 H3. unfold Hv. destruct (Nat.eqb_spec r nh); [lia|reflexivity].
    - apply rsum_ext. intros k _. unfold Hv. rewrite Nat.eqb_refl. reflexivity. }
  rewrite E0. rewrite (PhiH_add qp M (fun r c => B r c + rsum M (fun n => incr qp M VG (S n) r c)) Hv (fun _ _ => 0)).
  2:{ intros r c H1 H2. unfold Hv, B. destruct (Nat.eqb_spec r nh) as [->|].
      - rewrite Hg by lia. unfold gbase. lra.
      - rewrite HH by lia. unfold hbase. rewrite Rplus_0_r. f_equal. apply rsum_ext. intros p Hp. pose proof (nh_uo qp M (S p) ltac:(lia)) as En. unfold incr.
        destruct (Nat.eqb_spec r nh); [lia|].
        assert (VE : forall r' l, (r' < nsum (S p) nu + nx 0)%nat -> VG (S p - 1)%nat r' l = Gm (S p - 1)%nat r' l).
        { intros r' l Hr. unfold virtG, CondProofs.nuf. replace (S (S p - 1)) with (S p) by lia. destruct (Nat.eqb_spec r' (nsum (S p) nu + nx 0)); [lia|reflexivity]. }
        destruct (Nat.leb_spec (uo (S p) + nu (S p)) c).
        + apply rsum_ext. intros l Hl. rewrite (VE (c - _)%nat l) by lia. f_equal. f_equal. apply rsum_ext. intros m Hm. rewrite VE by lia. reflexivity.
        + destruct (Nat.leb_spec (uo (S p)) c); [|reflexivity]. destruct (Nat.ltb_spec r (uo (S p) + nu (S p))); [reflexivity|]. f_equal. apply rsum_ext. intros l Hl. rewrite VE by lia. reflexivity. }
  rewrite X. rewrite (rsum_ext M (fun n => PhiH qp M (incr qp M VG (S n)) v) (fun n => hardc qp (traj qp M v) (S n) + - Vf qp (Lst (S n)) (S n) (fun l => VG (S n - 1)%nat (nsum (S n) nu + nx 0)%nat l))).
  2:{ intros n Hn. rewrite (incr_cost qp M VG Gb); [lra| |lia]. intros i Hi. destruct (HG i Hi). apply virt_GIV; assumption. }
  rewrite rsum_add. rewrite (rsum_ext M (fun k => - _) (fun k => (-1) * Vf qp (Lst (S k)) (S k) (fun l => VG (S k - 1)%nat (nsum (S k) nu + nx 0)%nat l))) by (intros; lra). rewrite rsum_scal.
  rewrite rsum_S_l.
  assert (EB : PhiH qp M B v = hardc qp (traj qp M v) 0).
  { rewrite hardc_qs. rewrite (PhiH_from qp M B (uo 0) v ltac:(lia)). 2:{ intros r c Hc. unfold B. destruct (Nat.leb_spec (uo 0) c); [lia|reflexivity]. }
    rewrite <- (Tn_0 qp M B (Lst 0) v); [reflexivity|]. split.
    - intros r c Hr. unfold B, CondCost3.Lst. destruct (Nat.leb_spec (uo 0) (uo 0 + c)); [|lia]. destruct (Nat.eqb_spec (uo 0 + r) nh); [lia|]. destruct (Nat.ltb_spec r (nux 0)); [|lia]. f_equal; lia.
    - intros c Hc. unfold B, CondCost3.Lst. destruct (Nat.leb_spec (uo 0) (uo 0 + c)); [|lia]. rewrite Nat.eqb_refl, Nat.ltb_irrefl. f_equal; lia. }
  rewrite EB.
  replace (PhiH qp M (fun _ _ => 0) v) with 0; [lra|]. unfold PhiH, Qo. rewrite rsum_0, rsum_0; [lra| |].
  - intros. lra.
  - intros. apply rsum_0. intros. unfold symL. destruct (Nat.leb _ _); lra.
Qed.
End Alg1.
