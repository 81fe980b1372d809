(** CsplitFull.v -- condensing in two calls: the matrices once, then the vectors of any number of QPs with these matrices. *)
From Coq Require Import ZArith Bool Arith Lia Reals Lra List.
From Verif Require Import Base ArithF RSum Blas Blas2 OcpModel ResSpec ResProofs ResProofs2 CholProofs CholPD KktModel KktProofs KktProofs2 DenModel DenSpec CondModel CondSpec CondProofs CondCost CondCost2 CondCost3 CondCon CondCon2 CondCon3 CondSem CondFull CondProps CsplitModel CsplitSpec CsplitProofs CsplitProofs2 CsplitCon.
Local Open Scope R_scope.

(** ** what depends on the matrices only *)
Section Transfer.
Variables (D : dims) (BA BA' RSQ RSQ' DCt : nat -> rmat) (b b' rqz rqz' d d' mask mask' m m' Zz : nat -> rvec) (idxb : nat -> nat -> nat) (idxs : nat -> nat -> Z).
Let qp := mkqp D BA RSQ DCt b rqz d mask m Zz idxb idxs.
Let qp' := mkqp D BA' RSQ' DCt b' rqz' d' mask' m' Zz idxb idxs.
Hypothesis HB : forall i r c, (r < dnu D i + dnx D i)%nat -> BA' i r c = BA i r c.
Hypothesis HR : forall i r c, (c <= r < dnu D i + dnx D i)%nat -> RSQ' i r c = RSQ i r c.
Lemma st_tr M v i j : st (nob qp') M v i j = st (nob qp) M v i j.
Proof.
  revert j. induction i as [|i IH]; intros j; [reflexivity|]. rewrite !hst_S. cbn [qp qp' q_dim q_BAbt]. f_equal.
  - apply rsum_ext. intros k Hk. rewrite HB by lia. reflexivity.
  - apply rsum_ext. intros k Hk. rewrite HB by lia. rewrite IH. reflexivity.
Qed.
Lemma HGV_tr M G i : HGV qp M G i -> HGV qp' M G i.
Proof. intros H j Hj v. rewrite st_tr. exact (H j Hj v). Qed.
Lemma LI_tr M G L H : LI qp M G 0 L H -> LI qp' M G 0 L H.
Proof.
  intros (I1 & I2 & I3 & I4). split; [exact I1|]. split; [exact I2|]. split.
  - intros p Hp r c Hr. rewrite (I3 p Hp r c Hr). cbn [qp qp' q_dim q_BAbt q_RSQ] in *. unfold nux in Hr. cbn [qp qp' q_dim] in Hr. rewrite HR by exact Hr. f_equal.
    apply rsum_ext. intros l _. apply rsum_ext. intros k _. rewrite !HB by lia. reflexivity.
  - intros r c Hr. rewrite (I4 r c Hr). unfold nux in Hr. cbn [qp qp' q_dim q_RSQ] in *. rewrite HR by exact Hr. reflexivity.
Qed.
Lemma HI1_tr M G k H : (k <= M)%nat -> HI1 qp M G k H -> HI1 qp' M G k H.
Proof.
  intros Hk HI r c Hr. rewrite (HI r c Hr). change (n_hard qp' M) with (n_hard qp M) in Hr. assert (En : n_hard qp M = (uoff qp M 0 + nux qp 0)%nat) by (unfold n_hard, nux; lia). f_equal.
  - unfold hbase. change (uoff qp' M 0) with (uoff qp M 0). destruct (Nat.leb_spec (uoff qp M 0) c); [|reflexivity]. cbn [qp qp' q_RSQ]. symmetry. apply HR. change (dnu D 0 + dnx D 0)%nat with (nux qp 0). lia.
  - apply rsum_ext. intros n Hn. unfold incr. change (uoff qp' M) with (uoff qp M). change (q_dim qp') with (q_dim qp). change (n_hard qp' M) with (n_hard qp M).
    replace (r =? n_hard qp M)%nat with false by (symmetry; apply Nat.eqb_neq; lia). cbv zeta.
    assert (EL : forall a e, (e <= a < nux qp (S n))%nat -> CondCost3.Lst qp' (S n) a e = CondCost3.Lst qp (S n) a e).
    { intros a e Ha. unfold CondCost3.Lst. change (nux qp' (S n)) with (nux qp (S n)). destruct (Nat.ltb_spec a (nux qp (S n))); [|lia]. apply HR. exact Ha. }
    destruct (Nat.leb_spec (uoff qp M (S n) + dnu (q_dim qp) (S n)) c).
    + apply rsum_ext. intros l Hl. f_equal. f_equal. apply rsum_ext. intros k' Hk'. f_equal. unfold Pm, symL. change (q_dim qp') with (q_dim qp).
      destruct (Nat.leb_spec (dnu (q_dim qp) (S n) + l) (dnu (q_dim qp) (S n) + k')); symmetry; apply EL; unfold nux; lia.
    + destruct (Nat.leb_spec (uoff qp M (S n)) c); [|reflexivity]. destruct (Nat.ltb_spec r (uoff qp M (S n) + dnu (q_dim qp) (S n))).
      * symmetry. apply EL. unfold nux. lia.
      * f_equal. apply rsum_ext. intros l Hl. f_equal. symmetry. apply EL. unfold nux. lia.
Qed.
End Transfer.

(** ** what the first call establishes, and every later call keeps *)
Definition alg2_ok (alg0 sq : bool) (diag : nat -> bool) (qp : oqp R) : Prop :=
  if alg0 then sq = false \/ (forall n, (1 <= n <= dN (q_dim qp))%nat -> Qpsd qp n) else diag_flag_ok qp diag.
Definition mst_of (q : dqp R) : mst := mkmst (d_idxb q) (d_idxs_rev q) (d_Ct q) (d_Z q) 0 0 0.
Definition INV (alg0 : bool) (qp : oqp R) (q0 q : dqp R) (w : sws2 R) : Prop :=
  let M := dN (q_dim qp) in let G := cw_Gamma (sw_c w) in let y := cond_dct true qp G (mst_of q0) in
  ddims_ok qp M q /\ (d_idxb q = y_idxb y /\ d_idxs_rev q = y_idxs y /\ d_Ct q = y_Ct y /\ d_Z q = y_Z y) /\
  (forall i, (i < M)%nat -> HGV qp M G i) /\
  (if Nat.eqb M 0 then forall r c, (c <= r < nux qp 0)%nat -> d_H q r c = q_RSQ qp 0%nat r c
   else if alg0 then LI qp M G 0 (cw_L (sw_c w)) (d_H q) else HI1 qp M G M (d_H q)).
Lemma INV_tr alg0 qp qp' q0 q w : same_matrices qp qp' -> INV alg0 qp q0 q w -> INV alg0 qp' q0 q w.
Proof.
  destruct qp as [D BA RSQ DCt b rqz d mask m Z idxb idxs]. destruct qp' as [D' BA' RSQ' DCt' b' rqz' d' mask' m' Z' idxb' idxs'].
  intros (E1 & E2 & E3 & E4 & E5 & HB & HR). cbn [q_dim q_DCt q_Z q_idxb q_idxs_rev q_BAbt q_RSQ] in *. subst D' DCt' Z' idxb' idxs'. unfold nux in HB, HR. cbn [q_dim] in HB, HR.
  unfold INV. cbv zeta. cbn [q_dim]. intros (I1 & I2 & I3 & I4). split; [exact I1|]. split; [exact I2|]. split.
  - intros i Hi. eapply HGV_tr; [exact HB|exact (I3 i Hi)].
  - destruct (Nat.eqb (dN D) 0).
    + intros r c Hr. rewrite (I4 r c Hr). symmetry. apply HR. exact Hr.
    + destruct alg0; [eapply LI_tr; [exact HB|exact HR|exact I4]|eapply HI1_tr; [exact HR|lia|exact I4]].
Qed.
Lemma lhs_INV alg0 sq diag qp q0 w : ddims_ok qp (dN (q_dim qp)) q0 -> alg2_ok alg0 sq diag qp ->
  let '(q, w', RSQ) := cond_lhs alg0 sq diag qp q0 w in INV alg0 qp q0 q w' /\ (forall i r c, (c <= r < nux qp i)%nat -> RSQ i r c = q_RSQ qp i r c) /\
    d_gz q = d_gz q0 /\ d_d q = d_d q0 /\ d_mask q = d_mask q0 /\ d_m q = d_m q0.
Proof.
  intros Hd Ha. unfold cond_lhs. set (M := dN (q_dim qp)) in *.
  assert (HB : forall i, (i < M)%nat -> HGV qp M (fst (cond_bat true qp (cw_Gamma (sw_c w)) (fun _ _ => f0))) i).
  { intros i Hi. apply bat_loop_R; [reflexivity|lia|exact Hi]. }
  destruct (cond_bat true qp (cw_Gamma (sw_c w)) (fun _ _ => f0)) as [G x]. cbn [fst] in HB. clear x.
  unfold cond_rsq. cbn [last_stage cw_Gamma cw_L cw_Lx cw_dA cw_AL cw_GQ cw_nux cw_Gammab cw_nbg]. fold M. destruct (Nat.eqb_spec M 0) as [E0|E0].
  - split; [|repeat split; reflexivity]. unfold INV. fold M. cbn [sw_c cw_Gamma cw_L d_H d_idxb d_idxs_rev d_Ct d_Z]. cbv zeta. split; [eapply ddims_ok_ext; [|exact Hd]; repeat split; reflexivity|].
    split; [repeat split; reflexivity|]. split; [exact HB|]. rewrite E0. cbn [Nat.eqb]. intros r c Hr. unfold GECP. fold (nux qp 0). rewrite mblk_i by lia. cbn [Nat.add]. rewrite !Nat.sub_0_r. reflexivity.
  - change (nsum (M + 1) (dnu (q_dim qp))) with (nu2_of qp M). destruct alg0.
    + split; [|repeat split; reflexivity]. unfold INV. fold M. cbn [sw_c cw_Gamma cw_L d_H d_idxb d_idxs_rev d_Ct d_Z]. cbv zeta. split; [eapply ddims_ok_ext; [|exact Hd]; repeat split; reflexivity|].
      split; [repeat split; reflexivity|]. split; [exact HB|]. destruct (Nat.eqb_spec M 0); [lia|]. apply (lhs_alg0_R qp M G sq Ha); [lia|reflexivity|reflexivity].
    + set (s0 := mkqst1 _ _ _ _ _ _). pose proof (lhs_alg1_R qp M G diag Ha s0 (fun i r c _ => eq_refl) eq_refl eq_refl) as R. cbv zeta in R. destruct R as (R1 & R2). split; [|split; [exact R2|repeat split; reflexivity]].
      unfold INV. fold M. cbn [sw_c cw_Gamma cw_L d_H d_idxb d_idxs_rev d_Ct d_Z]. cbv zeta. split; [eapply ddims_ok_ext; [|exact Hd]; repeat split; reflexivity|].
      split; [repeat split; reflexivity|]. split; [exact HB|]. destruct (Nat.eqb_spec M 0); [lia|]. exact R1.
Qed.
Lemma dst_wrap_gz (x y z : rvec) : (forall p, x p = y p) -> y = z -> forall p, x p = z p.
Proof. intros H <-. exact H. Qed.
(** what the vectors of a QP give, when its matrices are in place *)
Definition split_post (qp : oqp R) (q : dqp R) : Prop := let M := dN (q_dim qp) in
  ddims_ok qp M q /\ (exists Gm Gb md, CQ qp M Gm Gb (setm q md) /\ forall i, (i < M)%nat -> GIV qp M Gm Gb i) /\
  (exists K, forall v, den_cost q v = cost qp (traj qp M v) + K).
Lemma rhs_R alg0 diag qp q0 q w : qp_wf qp -> dN (q_dim qp) = 0%nat \/ slack_order qp (dN (q_dim qp)) -> (alg0 = false -> diag_flag_ok qp diag) ->
  (forall p, (p < count_nbb qp (dN (q_dim qp)) + (count_nbg qp (dN (q_dim qp)) + ngg_of qp (dN (q_dim qp))))%nat -> d_idxs_rev q0 p = (-1)%Z) -> INV alg0 qp q0 q w ->
  let '(q', w') := cond_rhs alg0 diag qp q w in INV alg0 qp q0 q' w' /\ split_post qp q' /\ d_m q' = d_m q.
Proof.
  intros Hwf HO Ha H0 HI. unfold cond_rhs, cond_vecs. set (M := dN (q_dim qp)) in *. pose proof HI as (I1 & (I2 & I3 & I4 & I5) & I6 & I7). fold M in I1, I2, I3, I4, I5, I6, I7.
  assert (HB : forall i, (i < M)%nat -> BGV qp M (fst (cond_b true qp (cw_Gammab (sw_c w)) (fun _ => f0))) i).
  { intros i Hi. apply b_loop_R; [reflexivity|lia|exact Hi]. }
  destruct (cond_b true qp (cw_Gammab (sw_c w)) (fun _ => f0)) as [Gb x]. cbn [fst] in HB. clear x.
  set (w1 := mksw (mkcws (cw_Gamma (sw_c w)) Gb (cw_L (sw_c w)) (cw_Lx (sw_c w)) (cw_dA (sw_c w)) (cw_AL (sw_c w)) (cw_GQ (sw_c w)) (cw_nux (sw_c w)) (cw_nbg (sw_c w))) (sw_l w)).
  set (G := cw_Gamma (sw_c w)) in *.
  assert (HG : forall i, (i < M)%nat -> HGV qp M G i /\ BGV qp M Gb i) by (intros i Hi; split; [apply I6|apply HB]; exact Hi).
  assert (X : let '(w2, g) := cond_rq alg0 diag true qp w1 (d_gz q) in
     cw_Gamma (sw_c w2) = G /\ (exists K, forall v, 1 / 2 * Qo (d_H q) 0 (n_hard qp M) v + rsum (n_hard qp M) (fun k => g k * v k) = rsum (S M) (hardc qp (traj qp M v)) + K) /\
     (M <> 0%nat -> alg0 = true -> LI qp M G 0 (cw_L (sw_c w2)) (d_H q))).
  { unfold cond_rq. cbn [last_stage w1 sw_c cw_Gamma cw_Gammab cw_L cw_Lx cw_dA cw_AL cw_GQ cw_nux cw_nbg sw_l]. fold M. fold G. destruct (Nat.eqb_spec M 0) as [E0|E0].
    - split; [reflexivity|]. split; [|intros; lia]. rewrite E0 in *. exists 0. intros v. cbn [rsum]. rewrite Rplus_0_r, Rplus_0_l.
      assert (En : n_hard qp 0 = nux qp 0) by (unfold n_hard, uoff; reflexivity). rewrite En. fold (nux qp 0). unfold hardc. f_equal; [f_equal|].
      + unfold Qo. apply rsum_ext. intros i Hi. apply rsum_ext. intros j Hj. rewrite !traj_0 by assumption. change (uoff qp 0 0) with 0%nat. cbn [Nat.add]. f_equal. f_equal.
        unfold symL. destruct (Nat.leb_spec j i); apply I7; lia.
      + apply rsum_ext. intros k Hk. rewrite traj_0 by exact Hk. change (uoff qp 0 0) with 0%nat. cbn [Nat.add]. unfold VECCP. rewrite vset_in' by lia. f_equal. f_equal. lia.
    - change (nsum (M + 1) (dnu (q_dim qp))) with (nu2_of qp M). destruct alg0.
      + pose proof (rq_alg0_R qp M Gb (cw_L (sw_c w)) (mkgst (cw_L (sw_c w)) (sw_l w) (cw_nux (sw_c w)) (d_gz q) 0) ltac:(lia) (fun i r c _ => eq_refl) eq_refl) as RR.
        set (s := rq_alg0 qp Gb M _) in *. clearbody s. cbn [sw_c cw_Gamma cw_L]. split; [reflexivity|]. split; [apply (split_cost0 qp M G Gb (cw_L (sw_c w))); [lia|exact I7|exact HG|exact RR]|].
        intros _ _. apply (LI_low qp M G (cw_L (sw_c w))); [exact (proj1 RR)|exact I7].
      + pose proof (rq_alg1_R qp M G diag (Ha eq_refl) Gb (cw_nux (sw_c w)) (d_gz q)) as RR. destruct (rq_alg1 diag qp G Gb M (nu2_of qp M) (cw_nux (sw_c w)) (d_gz q)) as [tmp g]. destruct RR as (RR & _).
        cbn [sw_c cw_Gamma]. split; [reflexivity|]. split; [exact (split_cost1 qp M G Gb (d_H q) g I7 RR HG)|intros; discriminate]. }
  destruct (cond_rq alg0 diag true qp w1 (d_gz q)) as [w2 g]. destruct X as (X1 & (K & HK) & X3).
  set (t0 := mkdst (d_d q) (d_mask q) g (cw_nbg (sw_c w2)) 0 0 0). set (t := cond_d true true qp Gb t0).
  set (q' := mkdqp _ _ _ _ _ _ _ _ _ _ _ _ _ _ _ _). set (w' := mksw _ _).
  assert (W : wfM qp M) by (intros i Hi; apply Hwf; exact Hi).
  assert (D2 : ddims_ok qp M q') by (eapply ddims_ok_ext; [|exact I1]; repeat split; reflexivity).
  assert (Y : (exists md, CQ qp M G Gb (setm q' md)) /\ SCall qp M (n_hard qp M) (nux qp) (q_rqz qp) (t_gz t) (t_gz t) /\ (forall p, (p < n_hard qp M)%nat -> t_gz t p = g p)).
  { unfold t, cond_d. unfold cond_dct in I2, I3, I4, I5. cbn [last_stage] in *. fold M. fold M in I2, I3, I4, I5. rewrite andb_true_r in *. destruct (Nat.eqb_spec M 0) as [E0|E0].
    - subst t. cbn [last_stage] in q'. unfold q'. unfold cond_d. cbn [last_stage]. fold M. destruct (Nat.eqb_spec M 0); [|lia]. cbn [andb]. rewrite E0. apply (con_one qp G Gb (mst_of q0) t0); try assumption; try reflexivity. exact (Hwf 0%nat ltac:(lia)).
    - destruct HO as [HO|HO]; [lia|]. unfold q', t, cond_d. cbn [last_stage]. fold M. destruct (Nat.eqb_spec M 0); [lia|]. cbn [andb].
      apply (con_main qp M G Gb W HO (mst_of q0) t0); try assumption; try reflexivity. }
  destruct Y as ((md & Y1) & Y2 & Y3). split; [|split].
  - unfold INV. fold M. unfold w', q'. cbn [sw_c cw_Gamma cw_L d_idxb d_idxs_rev d_Ct d_Z d_H]. rewrite X1. cbv zeta. split; [exact D2|]. split; [repeat split; assumption|]. split; [exact I6|].
    destruct (Nat.eqb_spec M 0); [exact I7|]. destruct alg0; [apply X3; [assumption|reflexivity]|exact I7].
  - unfold split_post. fold M. assert (Y1' : CQ qp M (virtG qp G Gb) Gb (setm q' md)) by (apply CQ_virt; exact Y1). split; [exact D2|]. split.
    + exists (virtG qp G Gb), Gb, md. split; [exact Y1'|]. intros i Hi. apply virt_GIV; apply HG; exact Hi.
    + exists K. intros v. unfold cost. fold M. rewrite Nat.add_1_r. change (den_cost q' v) with (den_cost (setm q' md) v).
      assert (D3 : ddims_ok qp M (setm q' md)) by exact D2.
      apply (cost_traj qp M (virtG qp G Gb) Gb (setm q' md) D3 Y1' K); [exact Y2|].
      intros v'. rewrite <- HK. change (d_H (setm q' md)) with (d_H q). change (d_gz (setm q' md)) with (t_gz t). f_equal. apply rsum_ext. intros k Hk. rewrite Y3 by exact Hk. reflexivity.
  - reflexivity.
Qed.
