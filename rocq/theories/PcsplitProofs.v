(** PcsplitProofs.v -- one block of partial condensing in two calls. *)
From Coq Require Import ZArith Bool Arith Lia Reals Lra.
From Verif Require Import Base ArithF RSum Blas Blas2 OcpModel ResSpec ResProofs ResProofs2 CholProofs CholPD KktModel KktProofs KktProofs2 DenModel DenSpec CondModel CondSpec CondProofs CondCost CondCost2 CondCost3 CondCon CondCon2 CondCon3 CondSem CondFull CondProps CsplitModel CsplitSpec CsplitProofs CsplitProofs2 CsplitCon CsplitFull PartModel PartSpec PartProofs PcsplitModel.
Local Open Scope R_scope.

(** the columns of Gamma, and the matrix of the dynamics of the block *)
Lemma bat_block_R last qp G BA : let N := dN (q_dim qp) in let M := last_stage last N in (last = false -> (1 <= N)%nat) ->
  (forall i, (i < M)%nat -> HGV qp M (fst (cond_bat last qp G BA)) i) /\
  (last = false -> forall v j, (j < dnx (q_dim qp) N)%nat -> rsum (n_hard qp M) (fun k => snd (cond_bat last qp G BA) k j * v k) = st (nob qp) M v N j).
Proof.
  cbv zeta. set (N := dN (q_dim qp)). set (M := last_stage last N). intros HN. unfold cond_bat. fold N. destruct (Nat.eqb_spec N 0) as [E|E].
  - destruct last; [|specialize (HN eq_refl); lia]. cbn [andb]. split; [unfold M, last_stage; intros; lia|discriminate].
  - cbn [andb]. pose proof (bat_first_R qp M G) as B0. set (G0 := upd G 0 _) in *.
    pose proof (loop_ind (fun k (s : (nat -> rmat) * nat) => let '(G, n) := s in (forall i, (i <= k)%nat -> HGV qp M G i) /\ n = nuf qp k)
      (N - 1) (fun k s => bat_mid qp (k + 1) s) (G0, dnu (q_dim qp) 0)) as L.
    assert (HNM : (N <= S M)%nat) by (unfold M, last_stage; destruct last; lia).
    destruct (loop _ _ _) as [G1 n1]. destruct L as (L1 & L2).
    + split; [|reflexivity]. intros k Hk. replace k with 0%nat by lia. exact B0.
    + intros k [G2 n2] Hk (I1 & ->). rewrite Nat.add_1_r. apply (bat_mid_R qp M k G2); [lia|exact I1].
    + cbn [fst snd]. split; [intros i Hi; apply L1; unfold M, last_stage in Hi; destruct last; lia|]. intros -> v j Hj.
      assert (EN : N = S M) by (unfold M, last_stage; lia). rewrite EN in Hj |- *. rewrite (L1 M ltac:(lia) j Hj v). rewrite uoff_M. cbn [Nat.add].
      replace (S M - 1)%nat with M by lia. rewrite L2, EN. replace (S M - 1)%nat with M by lia.
      assert (EH : n_hard qp M = (nuf qp M + dnx (q_dim qp) 0)%nat) by (rewrite n_hard_eq; unfold nu2_of, nuf; rewrite Nat.add_1_r; reflexivity). rewrite EH.
      apply rsum_ext. intros k Hk. f_equal. unfold GECP. rewrite mblk_i by lia. rewrite !Nat.sub_0_r. reflexivity.
Qed.
(** the constant terms *)
Lemma b_block_R last qp Gb b2 : let N := dN (q_dim qp) in let M := last_stage last N in (last = false -> (1 <= N)%nat) ->
  (forall i, (i < M)%nat -> BGV qp M (fst (cond_b last qp Gb b2)) i) /\
  (last = false -> forall j, (j < dnx (q_dim qp) N)%nat -> snd (cond_b last qp Gb b2) j = st qp M (fun _ => 0) N j).
Proof.
  cbv zeta. set (N := dN (q_dim qp)). set (M := last_stage last N). intros HN. unfold cond_b. fold N. destruct (Nat.eqb_spec N 0) as [E|E].
  - destruct last; [|specialize (HN eq_refl); lia]. cbn [andb]. split; [unfold M, last_stage; intros; lia|discriminate].
  - cbn [andb]. set (Gb0 := upd Gb 0 _).
    assert (Z0 : forall i j, st qp M (fun _ => 0) (S i) j = rsum (dnx (q_dim qp) i) (fun k => q_BAbt qp i (dnu (q_dim qp) i + k)%nat j * st qp M (fun _ => 0) i k) + q_b qp i j).
    { intros i0 j0. cbn [st]. rewrite (rsum_0 (dnu (q_dim qp) i0)) by (intros; lra). lra. }
    pose proof (loop_ind (fun k (Gb : nat -> rvec) => forall i, (i <= k)%nat -> BGV qp M Gb i)
      (N - 1) (fun k Gb => let ii := (k + 1)%nat in upd Gb ii (GEMV_T (dnx (q_dim qp) ii) (dnx (q_dim qp) (ii + 1)) f1 (q_BAbt qp ii) (dnu (q_dim qp) ii) 0 (Gb (ii - 1)%nat) 0 f1 (q_b qp ii) 0 (Gb ii) 0)) Gb0) as L.
    cbv zeta in L. cbv zeta. set (G1 := loop _ _ _) in *. cbn [fst snd]. cut (forall i, (i <= N - 1)%nat -> BGV qp M G1 i).
    { intros C. split; [intros i Hi; apply C; unfold M, last_stage in Hi; destruct last; lia|]. intros -> j Hj. unfold VECCP. rewrite vset_in' by lia. rewrite Nat.sub_0_r. cbn [Nat.add]. rewrite (C (N - 1)%nat ltac:(lia) j); [|replace (S (N - 1)) with N by lia; exact Hj]. replace (S (N - 1)) with N by lia. reflexivity. }
    apply L; clear L.
    + intros k Hk. replace k with 0%nat by lia. intros j Hj. unfold Gb0. rewrite upd_same. unfold VECCP. rewrite vset_in' by lia. rewrite Z0. rewrite rsum_0; [rewrite Nat.sub_0_r; cbn [Nat.add]; lra|]. intros; cbn [st]; lra.
    + intros k Gb1 Hk IH i' Hi'. rewrite Nat.add_1_r. replace (S k - 1)%nat with k by lia. destruct (Nat.eq_dec i' (S k)) as [->|Hne].
      * intros j Hj. rewrite upd_same. unfold GEMV_T. rewrite Nat.add_1_r. rewrite vset_in' by lia. rewrite fsum_R. rsimp. rewrite R_lit11. rewrite Nat.sub_0_r. cbn [Nat.add]. rewrite Z0.
        rewrite !Rmult_1_l. rewrite Rplus_comm. f_equal. apply rsum_ext. intros l Hl. rewrite (IH k (le_n _) l Hl). reflexivity.
      * intros j Hj. rewrite upd_other by exact Hne. apply IH; [lia|exact Hj].
Qed.

(** what the first call establishes for a block, and every later call keeps *)
Definition BI (last alg0 : bool) (qp : oqp R) (q0 q : dqp R) (BA2 : rmat) (w : sws2 R) : Prop :=
  let M := last_stage last (dN (q_dim qp)) in let G := cw_Gamma (sw_c w) in let y := cond_dct last qp G (mst_of q0) in
  ddims_ok qp M q /\ (d_idxb q = y_idxb y /\ d_idxs_rev q = y_idxs y /\ d_Ct q = y_Ct y /\ d_Z q = y_Z y) /\
  (forall i, (i < M)%nat -> HGV qp M G i) /\
  (if Nat.eqb M 0 then forall r c, (c <= r < nux qp 0)%nat -> d_H q r c = q_RSQ qp 0%nat r c
   else if alg0 then LI qp M G 0 (cw_L (sw_c w)) (d_H q) else HI1 qp M G M (d_H q)) /\
  (last = false -> forall v j, (j < dnx (q_dim qp) (dN (q_dim qp)))%nat -> rsum (n_hard qp M) (fun k => BA2 k j * v k) = st (nob qp) M v (dN (q_dim qp)) j).
Lemma BI_tr last alg0 qp qp' q0 q BA2 w : same_matrices qp qp' -> BI last alg0 qp q0 q BA2 w -> BI last alg0 qp' q0 q BA2 w.
Proof.
  destruct qp as [D BA RSQ DCt b rqz d mask m Z idxb idxs]. destruct qp' as [D' BA' RSQ' DCt' b' rqz' d' mask' m' Z' idxb' idxs'].
  intros (E1 & E2 & E3 & E4 & E5 & HB & HR). cbn [q_dim q_DCt q_Z q_idxb q_idxs_rev q_BAbt q_RSQ] in *. subst D' DCt' Z' idxb' idxs'. unfold nux in HB, HR. cbn [q_dim] in HB, HR.
  unfold BI. cbv zeta. cbn [q_dim]. set (M := last_stage last (dN D)). intros (I1 & I2 & I3 & I4 & I5). split; [exact I1|]. split; [exact I2|]. split; [|split].
  - intros i Hi. eapply HGV_tr; [exact HB|exact (I3 i Hi)].
  - destruct (Nat.eqb M 0).
    + intros r c Hr. rewrite (I4 r c Hr). symmetry. apply HR. exact Hr.
    + destruct alg0; [eapply LI_tr; [exact HB|exact HR|exact I4]|eapply HI1_tr; [exact HR|lia|exact I4]].
  - intros L v j Hj. etransitivity; [exact (I5 L v j Hj)|]. symmetry. apply st_tr. exact HB.
Qed.
Definition alg_blk (alg0 sq : bool) (diag : nat -> bool) (qp : oqp R) (M : nat) : Prop :=
  if alg0 then sq = false \/ (forall n, (1 <= n <= M)%nat -> Qpsd qp n) else diag_ok qp M diag.
Lemma lhs_block_R last alg0 sq diag qp q0 BA0 w : let M := last_stage last (dN (q_dim qp)) in (last = false -> (1 <= dN (q_dim qp))%nat) -> ddims_ok qp M q0 -> alg_blk alg0 sq diag qp M ->
  let '(q, BA2, w', RSQ) := lhs_block last alg0 sq diag qp q0 BA0 w in BI last alg0 qp q0 q BA2 w' /\ (forall i r c, (c <= r < nux qp i)%nat -> RSQ i r c = q_RSQ qp i r c) /\
    d_gz q = d_gz q0 /\ d_d q = d_d q0 /\ d_mask q = d_mask q0 /\ d_m q = d_m q0.
Proof.
  cbv zeta. set (M := last_stage last (dN (q_dim qp))). intros HN Hd Ha. unfold lhs_block.
  pose proof (bat_block_R last qp (cw_Gamma (sw_c w)) BA0) as HB. cbv zeta in HB. fold M in HB. specialize (HB HN).
  destruct (cond_bat last qp (cw_Gamma (sw_c w)) BA0) as [G BA2]. cbn [fst snd] in HB. destruct HB as (HB & HC).
  unfold cond_rsq. cbn [cw_Gamma cw_L cw_Lx cw_dA cw_AL cw_GQ cw_nux cw_Gammab cw_nbg]. fold M. destruct (Nat.eqb_spec M 0) as [E0|E0].
  - split; [|repeat split; reflexivity]. unfold BI. fold M. cbn [sw_c cw_Gamma cw_L d_H d_idxb d_idxs_rev d_Ct d_Z]. cbv zeta. split; [eapply ddims_ok_ext; [|exact Hd]; repeat split; reflexivity|].
    split; [repeat split; reflexivity|]. split; [exact HB|]. split; [|exact HC]. rewrite E0. cbn [Nat.eqb]. intros r c Hr. unfold GECP. fold (nux qp 0). rewrite mblk_i by lia. cbn [Nat.add]. rewrite !Nat.sub_0_r. reflexivity.
  - change (nsum (M + 1) (dnu (q_dim qp))) with (nu2_of qp M). destruct alg0.
    + split; [|repeat split; reflexivity]. unfold BI. fold M. cbn [sw_c cw_Gamma cw_L d_H d_idxb d_idxs_rev d_Ct d_Z]. cbv zeta. split; [eapply ddims_ok_ext; [|exact Hd]; repeat split; reflexivity|].
      split; [repeat split; reflexivity|]. split; [exact HB|]. split; [|exact HC]. destruct (Nat.eqb_spec M 0); [lia|]. apply (lhs_alg0_R qp M G sq Ha); [lia|reflexivity|reflexivity].
    + set (s0 := mkqst1 _ _ _ _ _ _). pose proof (lhs_alg1_R qp M G diag Ha s0 (fun i r c _ => eq_refl) eq_refl eq_refl) as R. cbv zeta in R. destruct R as (R1 & R2). split; [|split; [exact R2|repeat split; reflexivity]].
      unfold BI. fold M. cbn [sw_c cw_Gamma cw_L d_H d_idxb d_idxs_rev d_Ct d_Z]. cbv zeta. split; [eapply ddims_ok_ext; [|exact Hd]; repeat split; reflexivity|].
      split; [repeat split; reflexivity|]. split; [exact HB|]. split; [|exact HC]. destruct (Nat.eqb_spec M 0); [lia|]. exact R1.
Qed.
(** the stage of the second QP after the vectors have been put in *)
Definition with_vecs (q : dqp R) (g d mask : rvec) : dqp R :=
  mkdqp (d_nv q) (d_ne q) (d_nb q) (d_ng q) (d_ns q) (d_H q) (d_A q) (d_Ct q) g (d_b q) d mask (d_m q) (d_Z q) (d_idxb q) (d_idxs_rev q).
Lemma rhs_block_R last alg0 diag qp q0 q BA2 b2 w : let M := last_stage last (dN (q_dim qp)) in (last = false -> (1 <= dN (q_dim qp))%nat) ->
  wfM qp M -> (last = true /\ M = 0%nat) \/ slack_order qp M -> (alg0 = false -> diag_ok qp M diag) ->
  (forall p, (p < count_nbb qp M + (count_nbg qp M + ngg_of qp M))%nat -> d_idxs_rev q0 p = (-1)%Z) -> BI last alg0 qp q0 q BA2 w ->
  let '(b, g, d, mask, w') := vecs_block true last alg0 diag qp b2 (d_gz q) (d_d q) (d_mask q) w in let q' := with_vecs q g d mask in
  BI last alg0 qp q0 q' BA2 w' /\ exists md, block_sem last qp (setm q' md) BA2 b.
Proof.
  cbv zeta. set (M := last_stage last (dN (q_dim qp))). intros HN Hwf HO Ha H0 HI. unfold vecs_block. pose proof HI as (I1 & (I2 & I3 & I4 & I5) & I6 & I7 & I8). fold M in I1, I2, I3, I4, I5, I6, I7, I8.
  pose proof (b_block_R last qp (cw_Gammab (sw_c w)) b2) as HB. cbv zeta in HB. fold M in HB. specialize (HB HN).
  destruct (cond_b last qp (cw_Gammab (sw_c w)) b2) as [Gb b]. cbn [fst snd] in HB. destruct HB as (HB & HC).
  set (w1 := mksw (mkcws (cw_Gamma (sw_c w)) Gb (cw_L (sw_c w)) (cw_Lx (sw_c w)) (cw_dA (sw_c w)) (cw_AL (sw_c w)) (cw_GQ (sw_c w)) (cw_nux (sw_c w)) (cw_nbg (sw_c w))) (sw_l w)).
  set (G := cw_Gamma (sw_c w)) in *.
  assert (HG : forall i, (i < M)%nat -> HGV qp M G i /\ BGV qp M Gb i) by (intros i Hi; split; [apply I6|apply HB]; exact Hi).
  assert (X : let '(w2, g) := cond_rq alg0 diag last qp w1 (d_gz q) in
     cw_Gamma (sw_c w2) = G /\ (exists K, forall v, 1 / 2 * Qo (d_H q) 0 (n_hard qp M) v + rsum (n_hard qp M) (fun k => g k * v k) = rsum (S M) (hardc qp (traj qp M v)) + K) /\
     (M <> 0%nat -> alg0 = true -> LI qp M G 0 (cw_L (sw_c w2)) (d_H q))).
  { unfold cond_rq. cbn [w1 sw_c cw_Gamma cw_Gammab cw_L cw_Lx cw_dA cw_AL cw_GQ cw_nux cw_nbg sw_l]. fold M. fold G. destruct (Nat.eqb_spec M 0) as [E0|E0].
    - split; [reflexivity|]. split; [|intros; lia]. rewrite E0 in *. exists 0. intros v. cbn [rsum]. rewrite Rplus_0_r, Rplus_0_l.
      assert (En : n_hard qp 0 = nux qp 0) by (unfold n_hard, uoff; reflexivity). rewrite En. fold (nux qp 0). unfold hardc. f_equal; [f_equal|].
      + unfold Qo. apply rsum_ext. intros i Hi. apply rsum_ext. intros j Hj. rewrite !traj_0 by assumption. change (uoff qp 0 0) with 0%nat. cbn [Nat.add]. f_equal. f_equal.
        unfold symL. destruct (Nat.leb_spec j i); apply I7; lia.
      + apply rsum_ext. intros k Hk. rewrite traj_0 by exact Hk. change (uoff qp 0 0) with 0%nat. cbn [Nat.add]. unfold VECCP. rewrite vset_in' by lia. f_equal. f_equal. lia.
    - change (nsum (M + 1) (dnu (q_dim qp))) with (nu2_of qp M). destruct alg0.
      + pose proof (rq_alg0_R qp M Gb (cw_L (sw_c w)) (mkgst (cw_L (sw_c w)) (sw_l w) (cw_nux (sw_c w)) (d_gz q) 0) ltac:(lia) (fun i r c _ => eq_refl) eq_refl) as RR.
        set (s := rq_alg0 qp Gb M _) in *. clearbody s. cbn [sw_c cw_Gamma cw_L]. split; [reflexivity|]. split; [apply (split_cost0 qp M G Gb (cw_L (sw_c w))); [lia|exact I7|exact HG|exact RR]|].
        intros _ _. apply (LI_low qp M G (cw_L (sw_c w))); [exact (proj1 RR)|exact I7].
      + pose proof (rq_alg1_R qp M G diag (Ha eq_refl) Gb (cw_nux (sw_c w)) (d_gz q)) as RR. destruct (rq_alg1 diag qp G Gb M (nu2_of qp M) (cw_nux (sw_c w)) (d_gz q)) as [tmp g]. destruct RR as (RR & _).
        cbn [sw_c cw_Gamma]. split; [reflexivity|]. split; [exact (split_cost1 qp M G Gb (d_H q) g I7 RR HG)|intros; discriminate]. }
  destruct (cond_rq alg0 diag last qp w1 (d_gz q)) as [w2 g]. destruct X as (X1 & (K & HK) & X3).
  set (t0 := mkdst (d_d q) (d_mask q) g (cw_nbg (sw_c w2)) 0 0 0). set (t := cond_d true last qp Gb t0).
  set (q' := with_vecs q (t_gz t) (t_d t) (t_mask t)). set (w' := mksw _ _).
  assert (D2 : ddims_ok qp M q') by (eapply ddims_ok_ext; [|exact I1]; repeat split; reflexivity).
  assert (Y : (exists md, CQ qp M G Gb (setm q' md)) /\ SCall qp M (n_hard qp M) (nux qp) (q_rqz qp) (t_gz t) (t_gz t) /\ (forall p, (p < n_hard qp M)%nat -> t_gz t p = g p)).
  { unfold cond_dct in I2, I3, I4, I5. fold M in I2, I3, I4, I5. assert (Et : t = if andb (Nat.eqb M 0) last then d_one true qp t0 else d_main qp M Gb true t0) by reflexivity.
    assert (Eq : d_idxb q' = d_idxb q /\ d_idxs_rev q' = d_idxs_rev q /\ d_Ct q' = d_Ct q /\ d_Z q' = d_Z q /\ d_d q' = t_d t /\ d_mask q' = t_mask t) by (repeat split; reflexivity).
    destruct Eq as (Q1 & Q2 & Q3 & Q4 & Q5 & Q6). clearbody t q'. destruct (andb (Nat.eqb M 0) last) eqn:EA; rewrite Et in *.
    - apply andb_true_iff in EA. destruct EA as (E0 & _). apply Nat.eqb_eq in E0. rewrite E0. apply (con_one qp G Gb (mst_of q0) t0); try congruence. apply Hwf. lia.
    - destruct HO as [(HO1 & HO2)|HO]; [rewrite HO1, HO2 in EA; discriminate|].
      apply (con_main qp M G Gb Hwf HO (mst_of q0) t0); try assumption; congruence. }
  destruct Y as ((md & Y1) & Y2 & Y3). split.
  - unfold BI. fold M. unfold w', q'. cbn [sw_c cw_Gamma cw_L with_vecs d_idxb d_idxs_rev d_Ct d_Z d_H]. rewrite X1. cbv zeta. split; [exact D2|]. split; [repeat split; assumption|]. split; [exact I6|].
    split; [|exact I8]. destruct (Nat.eqb_spec M 0); [exact I7|]. destruct alg0; [apply X3; [assumption|reflexivity]|exact I7].
  - assert (Y1' : CQ qp M (virtG qp G Gb) Gb (setm q' md)) by (apply CQ_virt; exact Y1).
    assert (GV : forall i, (i < M)%nat -> GIV qp M (virtG qp G Gb) Gb i) by (intros i Hi; apply virt_GIV; apply HG; exact Hi).
    exists md. assert (D3 : ddims_ok qp M (setm q' md)) by exact D2. unfold block_sem. fold M. split; [exact D3|]. split; [exact (den_wf_ok qp M _ _ (setm q' md) D3 Hwf Y1')|]. split; [|split].
    + intros v i c Hi Hc. exact (con_traj qp M _ _ (setm q' md) D3 Hwf Y1' GV v i c Hi Hc).
    + exists K. intros v. apply (cost_traj qp M (virtG qp G Gb) Gb (setm q' md) D3 Y1' K); [exact Y2|].
      intros v'. rewrite <- HK. change (d_H (setm q' md)) with (d_H q). change (d_gz (setm q' md)) with (t_gz t). f_equal. apply rsum_ext. intros k Hk. rewrite Y3 by exact Hk. reflexivity.
    + intros L v j Hj. rewrite (I8 L v j Hj), (HC L j Hj). symmetry. apply st_aff.
Qed.
