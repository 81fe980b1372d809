(** PupdBlk.v -- one block of partial condensing: a block condensed with cond_alg 0, then updated any number of times (exact arithmetic, no slacks).
    The last block has cond_last_stage = 1 and is the case of CupdFull.v; the others end one stage before the end of their alias. *)
From Coq Require Import ZArith Bool Arith Lia Reals Lra.
From Verif Require Import Base ArithF RSum Blas Blas2 OcpModel ResSpec ResProofs ResProofs2 CholProofs CholPD KktModel KktProofs KktProofs2 DenModel DenSpec CondModel CondSpec CondProofs CondCost CondCost2 CondCost3 CondCon CondCon2 CondCon3 CondSem CondFull CondProps ExpModel.
From Verif Require Import PartModel PartSpec PartProofs CupdModel CupdSpec CupdProofs CupdCost CupdCon CupdFull PupdModel.
Local Open Scope R_scope.

Definition condensed_blk (last : bool) (qp : oqp R) (q : dqp R) (BA2 : rmat) (b2 : rvec) (w : cws R) : Prop :=
  let N := dN (q_dim qp) in let M := last_stage last N in let nh := n_hard qp M in
  ddims_ok qp M q /\ (forall i, (i < N)%nat -> RG qp (cw_Gamma w) (cw_Gammab w) i) /\ CQ qp M (cw_Gamma w) (cw_Gammab w) q /\
  (M = 0%nat -> (forall r c, (c <= r < nh)%nat -> d_H q r c = q_RSQ qp 0%nat r c) /\ (forall k, (k < nh)%nat -> d_gz q k = q_rqz qp 0%nat k)) /\
  ((1 <= M)%nat -> RI qp M (cw_Gamma w) 0 (sts qp w q) /\ (forall k, (k < nh)%nat -> d_gz q k = d_H q nh k)) /\
  (last = false -> forall j, (j < dnx (q_dim qp) N)%nat -> (forall k, (k < nh)%nat -> BA2 k j = cw_Gamma w M k j) /\ b2 j = cw_Gamma w M nh j).

Lemma M_le last N : (last_stage last N <= N)%nat. Proof. unfold last_stage. destruct last; lia. Qed.
Lemma nuf_nh qp M : n_hard qp M = (nuf qp M + dnx (q_dim qp) 0)%nat.
Proof. rewrite n_hard_eq. unfold nu2_of, nuf. rewrite Nat.add_1_r. reflexivity. Qed.

(** what it says about the dense QP of the block *)
Lemma condensed_blk_sem last qp q BA2 b2 w : (last = false -> (1 <= dN (q_dim qp))%nat) -> qp_wf qp -> no_slacks qp -> condensed_blk last qp q BA2 b2 w -> block_sem last qp q BA2 b2.
Proof.
  intros HN Hwf Hns (C1 & C2 & C3 & C4 & C5 & C6). unfold block_sem. set (N := dN (q_dim qp)) in *. set (M := last_stage last N) in *.
  assert (HM : (M <= N)%nat) by apply M_le.
  assert (HG : forall i, (i < M)%nat -> GIV qp M (cw_Gamma w) (cw_Gammab w) i) by (intros i Hi; apply RG_GIV; [lia|]; intros k Hk; apply C2; lia).
  assert (W : wfM qp M) by (intros i Hi; apply Hwf; fold N; lia).
  assert (X : exists K, forall v, 1 / 2 * Qo (d_H q) 0 (n_hard qp M) v + rsum (n_hard qp M) (fun k => d_gz q k * v k) = rsum (S M) (hardc qp (traj qp M v)) + K).
  { destruct (Nat.eq_dec M 0) as [E0|E0].
    - destruct (C4 E0) as (A & B). exists 0. intros v. clearbody M. subst M. cbn [rsum]. rewrite Rplus_0_r, Rplus_0_l.
      assert (En : n_hard qp 0 = nux qp 0) by (unfold n_hard, uoff; reflexivity). rewrite En in *. unfold hardc. f_equal; [f_equal|].
      + unfold Qo. apply rsum_ext. intros i Hi. apply rsum_ext. intros j Hj. rewrite !traj_0 by assumption. change (uoff qp 0 0) with 0%nat. cbn [Nat.add]. f_equal. f_equal.
        unfold symL. destruct (Nat.leb_spec j i); apply A; lia.
      + apply rsum_ext. intros k Hk. rewrite traj_0 by exact Hk. change (uoff qp 0 0) with 0%nat. cbn [Nat.add]. rewrite B by exact Hk. reflexivity.
    - destruct (C5 ltac:(lia)) as (A & B). destruct (PhiH_alg0 qp M (cw_Gamma w) (cw_Gammab w) _ ltac:(lia) HG A) as (K & HK). exists K. intros v. rewrite <- HK. unfold PhiH, sts. cbn [rs_H]. f_equal. apply rsum_ext. intros k Hk. rewrite B by exact Hk. reflexivity. }
  destruct X as (K & HK).
  split; [exact C1|]. split; [exact (den_wf_ok qp M _ _ q C1 W C3)|]. split; [|split].
  - intros v i c Hi Hc. exact (con_traj qp M _ _ q C1 W C3 HG v i c Hi Hc).
  - exists K. apply (cost_traj qp M (cw_Gamma w) (cw_Gammab w) q C1 C3 K); [|exact HK].
    split; [intros i l Hi Hl; rewrite (Hns i) in Hl by (fold N; lia); lia|reflexivity].
  - intros El v j Hj. assert (EN : N = S M) by (specialize (HN El); unfold M, last_stage; rewrite El; lia).
    destruct (C6 El j Hj) as (D1 & D2). rewrite EN in Hj |- *.
    pose proof (RG_GIV qp M (cw_Gamma w) (cw_Gammab w) M (le_n _) ltac:(intros k Hk; apply C2; lia)) as G. destruct (G j Hj) as (G1 & _). rewrite (G1 v). rewrite uoff_M. cbn [Nat.add].
    rewrite nuf_nh in *. rewrite D2. f_equal. apply rsum_ext. intros k Hk. rewrite D1 by exact Hk. reflexivity.
Qed.

(** a fresh condensing (cond_alg 0) establishes the invariant *)
Lemma cond_blk_inv last sq diag qp q0 BA0 b0 w : let M := last_stage last (dN (q_dim qp)) in
  (last = false -> (1 <= dN (q_dim qp))%nat) -> qp_wf qp -> ddims_ok qp M q0 -> (forall p, (p < d_nb q0 + d_ng q0)%nat -> d_idxs_rev q0 p = (-1)%Z) ->
  let '(q, BA2, b2, w', BA, RSQ) := cond_block last true sq diag qp q0 BA0 b0 w in condensed_blk last qp q BA2 b2 w'.
Proof.
  cbv zeta. intros HN Hwf Hd H0. unfold cond_block. set (N := dN (q_dim qp)) in *. set (M := last_stage last N) in *. assert (HM : (M <= N)%nat) by apply M_le.
  assert (HB : let '(w1, BA1, b1) := cond_babt last qp w BA0 b0 in (forall i, (i < N)%nat -> RG qp (cw_Gamma w1) (cw_Gammab w1) i) /\
     (last = false -> forall j, (j < dnx (q_dim qp) N)%nat -> (forall k, (k < n_hard qp M)%nat -> BA1 k j = cw_Gamma w1 M k j) /\ b1 j = cw_Gamma w1 M (n_hard qp M) j)).
  { unfold cond_babt. fold N. destruct (Nat.eqb_spec N 0) as [E|E].
    { destruct last; [|specialize (HN eq_refl); lia]. cbn [andb]. split; [intros; lia|discriminate]. }
    cbn [andb]. unfold babt_loop.
    pose proof (RG_first qp (cw_Gamma w) (cw_Gammab w)) as B0. destruct (babt_first qp _ _) as [G0 Gb0]. destruct B0 as (B0 & _).
    pose proof (loop_ind (fun k (s : (nat -> rmat) * (nat -> rvec) * nat) => let '(G, Gb, n) := s in (forall i, (i <= k)%nat -> RG qp G Gb i) /\ n = nuf qp k)
      (N - 1) (fun k s => babt_mid qp (k + 1) s) (G0, Gb0, dnu (q_dim qp) 0)) as L. fold N.
    destruct (loop (N - 1) _ _) as [[G Gb] n]. destruct L as (L1 & L2).
    - split; [|reflexivity]. intros i Hi. replace i with 0%nat by lia. exact B0.
    - intros k [[G1 Gb1] n1] Hk (I1 & ->). rewrite Nat.add_1_r. pose proof (RG_mid qp k G1 Gb1 I1) as Q. destruct (babt_mid qp (S k) (G1, Gb1, nuf qp k)) as [[G2 Gb2] n2]. split; apply Q.
    - destruct last; cbn [cw_Gamma cw_Gammab]; (split; [intros i Hi; apply L1; lia|]); [discriminate|]. intros _ j Hj.
      assert (EM : (N - 1 = M)%nat) by reflexivity. rewrite L2, EM. rewrite nuf_nh. split.
      + intros k Hk. unfold GECP. rewrite mblk_i by lia. rewrite !Nat.sub_0_r. reflexivity.
      + unfold ROWEX. rewrite vset_in' by lia. rsimp. rewrite R_lit11, Nat.sub_0_r. cbn [Nat.add]. lra. }
  destruct (cond_babt last qp w BA0 b0) as [[w1 BA1] b1]. destruct HB as (HB & HD).
  assert (HR : let '(BA, RSQ, w2, H, g) := cond_rsqrq true sq diag last qp w1 (d_H q0) (d_gz q0) in cw_Gamma w2 = cw_Gamma w1 /\ cw_Gammab w2 = cw_Gammab w1 /\
     (M = 0%nat -> (forall r c, (c <= r < n_hard qp M)%nat -> H r c = q_RSQ qp 0%nat r c) /\ (forall k, (k < n_hard qp M)%nat -> g k = q_rqz qp 0%nat k)) /\
     ((1 <= M)%nat -> (exists s, RI qp M (cw_Gamma w1) 0 s /\ rs_L s = cw_L w2 /\ rs_H s = H) /\ (forall k, (k < n_hard qp M)%nat -> g k = H (n_hard qp M) k))).
  { unfold cond_rsqrq. fold N. fold M. destruct (Nat.eqb_spec M 0) as [E|E].
    - split; [reflexivity|]. split; [reflexivity|]. split; [|lia]. intros _. assert (En : n_hard qp M = nux qp 0) by (rewrite E; unfold n_hard, uoff; reflexivity). rewrite En. change (dnu (q_dim qp) 0 + dnx (q_dim qp) 0)%nat with (nux qp 0). split.
      + intros r c H. unfold GECP. rewrite mblk_i by lia. rewrite !Nat.sub_0_r. reflexivity.
      + intros k Hk. unfold VECCP. rewrite vset_in' by lia. rewrite Nat.sub_0_r. reflexivity.
    - change (nsum (M + 1) (dnu (q_dim qp))) with (nu2_of qp M). set (s0 := mkrst _ _ _ _ _ _ _ _ _).
      assert (HF : forall i, fresh qp s0 i) by (intros i; split; reflexivity).
      pose proof (rsq_alg0_R qp M (cw_Gamma w1) sq s0 ltac:(lia) HF) as R0. set (s := rsq_alg0 _ _ _ _ _ s0) in *. clearbody s. cbn [cw_Gamma cw_Gammab cw_L].
      split; [reflexivity|]. split; [reflexivity|]. split; [lia|]. intros _. split; [exists s; split; [exact R0|split; reflexivity]|].
      intros k Hk. rewrite <- n_hard_eq. unfold ROWEX. rewrite vset_in' by lia. rsimp. rewrite R_lit11, Rmult_1_l. f_equal. lia. }
  destruct (cond_rsqrq true sq diag last qp w1 (d_H q0) (d_gz q0)) as [[[[BA RSQ] w2] H] g]. destruct HR as (R2 & R3 & R4 & R5).
  set (q1 := mkdqp _ _ _ _ _ _ _ _ _ _ _ _ _ _ _ _). set (qp' := with_mats qp BA RSQ).
  assert (D1 : ddims_ok qp M q1) by (eapply ddims_ok_ext; [|exact Hd]; repeat split; reflexivity).
  assert (X : let q := fst (cond_dctd last qp' w2 q1) in CQ qp M (cw_Gamma w1) (cw_Gammab w1) q /\ SCall qp M (n_hard qp M) (nux qp) (q_rqz qp) g (d_gz q) /\ d_H q = H /\
     (d_nv q = d_nv q1 /\ d_ne q = d_ne q1 /\ d_nb q = d_nb q1 /\ d_ng q = d_ng q1 /\ d_ns q = d_ns q1)).
  { unfold cond_dctd. rewrite R2, R3. change (dN (q_dim qp')) with N. fold M. destruct (andb (Nat.eqb M 0) last) eqn:E.
    - apply andb_true_iff in E. destruct E as (E & _). apply Nat.eqb_eq in E. cbn [fst]. rewrite E. exact (dctd_one_R qp (cw_Gamma w1) (cw_Gammab w1) q1 (Hwf 0%nat ltac:(fold N; lia))).
    - assert (Q : forall p, (p < count_nbb qp M + (count_nbg qp M + ngg_of qp M))%nat -> d_idxs_rev q1 p = (-1)%Z).
      { intros p Hp. destruct Hd as (_ & _ & E3 & E4 & _). apply H0. rewrite E3, E4. exact Hp. }
      exact (dctd_main_R qp M (cw_Gamma w1) (cw_Gammab w1) q1 (cw_nbg w2) Q). }
  destruct (cond_dctd last qp' w2 q1) as [q tbg]. cbv zeta in X. cbn [fst] in X. destruct X as (X1 & X2 & X3 & X4).
  assert (D2 : ddims_ok qp M q) by (eapply ddims_ok_ext; [exact X4|exact D1]).
  unfold condensed_blk. fold N. fold M. cbn [cw_Gamma cw_Gammab]. rewrite R2, R3. split; [exact D2|]. split; [exact HB|]. split; [exact X1|]. split; [|split; [|exact HD]].
  - intros E. destruct (R4 E) as (A & B). split; [intros r c Hr; rewrite X3; apply A; exact Hr|]. intros k Hk. rewrite (proj2 X2) by exact Hk. apply B. exact Hk.
  - intros E. destruct (R5 E) as ((s & A1 & A2 & A3) & B). split.
    + apply (RI_sts qp M (cw_Gamma w1) s _ q A1); [exact A2|rewrite A3, X3; reflexivity].
    + intros k Hk. rewrite (proj2 X2) by exact Hk. rewrite X3. apply B. exact Hk.
Qed.

Lemma idx_of_near idxc a b : (b <= a <= S b)%nat -> idxc b = false -> idx_of idxc a = idx_of idxc b.
Proof. intros H E. assert (Ea : a = b \/ a = S b) by lia. destruct Ea as [-> | ->]; [reflexivity|]. rewrite idx_of_S, E. reflexivity. Qed.
(** ** the update of the block *)
Section Update.
Variables (last : bool) (qp qp' : oqp R) (idxc : nat -> bool) (q : dqp R) (BA2 : rmat) (b2 : rvec) (w : cws R).
Notation D := (q_dim qp).
Notation N := (dN D).
Notation nu := (dnu D).
Notation nx := (dnx D).
Notation M := (last_stage last N).
Hypothesis Hlay : same_layout qp qp'.
Hypothesis Hmark : marked idxc qp qp'.
Hypothesis Hpred : last_with_pred idxc M.
Hypothesis Hpd : forall n, (1 <= n <= M)%nat -> Qpd qp' n.
Hypothesis HN : last = false -> (1 <= N)%nat.
Hypothesis Hwf : qp_wf qp.
Hypothesis Hns : no_slacks qp.
Hypothesis HC : condensed_blk last qp q BA2 b2 w.
Let Hdim : q_dim qp' = q_dim qp := CupdFull.Hdim qp qp' Hlay.
Let idxN := idx_of idxc N.
Let idx := idx_of idxc M.
Lemma HMN : (M <= N <= S M)%nat. Proof. unfold last_stage. destruct last; lia. Qed.
Lemma abN k : (idxN <= k < N)%nat -> same_stage qp qp' k.
Proof. intros Hk. apply Hmark; [lia|apply (idx_of_above idxc N); exact Hk]. Qed.
Lemma abM k : (idx <= k < M)%nat -> same_stage qp qp' k.
Proof. intros Hk. apply Hmark; [pose proof HMN; lia|apply (idx_of_above idxc M); exact Hk]. Qed.
Lemma idxN_M : idxc M = false -> idxN = idx.
Proof.
  intros E. apply idx_of_near; [exact HMN|exact E].
Qed.

(** the dynamics *)
Lemma upd_babt_blk : let '(w1, BA1, b1) := update_babt idxc last qp' w BA2 b2 in
  (forall k, (k < N)%nat -> RG qp' (cw_Gamma w1) (cw_Gammab w1) k) /\
  (forall k r j, (idxN <= S k)%nat -> (k < N)%nat -> (r < kept qp' idxN k)%nat -> (j < nx (S k))%nat -> cw_Gamma w1 k r j = cw_Gamma w k r j) /\
  cw_L w1 = cw_L w /\ (idxN = 0%nat -> w1 = w) /\
  (last = false -> forall j, (j < nx N)%nat -> (forall k, (k < n_hard qp M)%nat -> BA1 k j = cw_Gamma w1 M k j) /\ b1 j = cw_Gamma w1 M (n_hard qp M) j).
Proof.
  pose proof HC as (C1 & C2 & C3 & C4 & C5 & C6).
  pose proof (update_babt_R qp' idxc w BA2 b2) as B. cbv zeta in B. rewrite Hdim in B. fold idxN in B.
  assert (B1 : forall k, (idxN <= k < N)%nat -> KG qp' (cw_Gamma w) idxN k).
  { intros k Hk. apply (u_KG qp qp' Hlay); [apply abN; exact Hk|]. eapply RG_KG; [|lia]. intros i Hi. apply C2. lia. }
  assert (B2 : idxN = 0%nat -> forall k, (k < N)%nat -> RG qp' (cw_Gamma w) (cw_Gammab w) k).
  { intros E k Hk. apply (u_RG qp qp' Hlay); [apply abN; lia|]. apply C2. exact Hk. }
  specialize (B B1 B2). clear B1 B2.
  assert (Q : let '(w1, BA1, b1) := update_babt idxc last qp' w BA2 b2 in w1 = fst (fst (update_babt idxc true qp' w BA2 b2)) /\
     (last = false -> forall j, (j < nx N)%nat -> (forall k, (k < n_hard qp M)%nat -> BA1 k j = cw_Gamma w1 M k j) /\ b1 j = cw_Gamma w1 M (n_hard qp M) j)).
  { unfold update_babt. rewrite Hdim. fold idxN. destruct (Nat.eqb_spec idxN 0) as [E|E]; [split; [reflexivity|exact C6]|].
    assert (Hle : (idxN <= N)%nat) by apply idx_of_le.
    destruct (babt_first qp' (cw_Gamma w) (cw_Gammab w)) as [G0 Gb0].
    pose proof (loop_ind (fun k (s : (nat -> rmat) * (nat -> rvec) * nat) => snd s = nuf qp' k) (idxN - 1) (fun k s => babt_mid qp' (k + 1) s) (G0, Gb0, nu 0)) as L.
    destruct (loop (idxN - 1) _ _) as [[G1 Gb1] n1]. cbn [snd] in L.
    assert (L1 : n1 = nuf qp' (idxN - 1)).
    { apply L; [unfold nuf; rewrite Hdim; reflexivity|]. intros k [[G Gb] n] Hk E1. cbn [snd] in E1. subst n. rewrite Nat.add_1_r. unfold babt_mid. cbn [snd]. rewrite nuf_S. reflexivity. }
    clear L. pose proof (loop_ind (fun k (s : (nat -> rmat) * (nat -> rvec) * nat * nat) => snd (fst s) = nuf qp' (idxN - 1 + k)) (N - idxN) (fun k s => ubabt_tail qp' n1 (idxN + k) s) (G1, Gb1, n1, 0%nat)) as T.
    destruct (loop (N - idxN) _ _) as [[[G2 Gb2] n2] n3]. cbn [snd fst] in T.
    assert (T1 : n2 = nuf qp' (N - 1)).
    { rewrite T; [f_equal; lia|rewrite Nat.add_0_r; exact L1|]. intros k [[[G Gb] n] n0] Hk E1. cbn [snd fst] in E1. subst n. unfold ubabt_tail. cbn [snd fst]. replace (idxN - 1 + S k)%nat with (S (idxN - 1 + k)) by lia. rewrite nuf_S. f_equal. f_equal. lia. }
    destruct last eqn:El; cbn [fst cw_Gamma]; (split; [reflexivity|]); [discriminate|]. intros _ j Hj. change (last_stage false N) with (N - 1)%nat.
    rewrite <- (u_nh qp qp' Hlay), nuf_nh, <- T1. rewrite Hdim. split.
    - intros k Hk. unfold GECP. rewrite mblk_i by lia. rewrite !Nat.sub_0_r. reflexivity.
    - unfold ROWEX. rewrite vset_in' by lia. rsimp. rewrite R_lit11, Nat.sub_0_r. cbn [Nat.add]. lra. }
  destruct (update_babt idxc true qp' w BA2 b2) as [[w0 x1] x2]. destruct (update_babt idxc last qp' w BA2 b2) as [[w1 BA1] b1]. cbn [fst] in Q. destruct Q as (-> & Q).
  destruct B as (B1 & B2 & B3 & B4). repeat (split; [assumption|]). exact Q.
Qed.

(** no constraint is soft in the old dense QP *)
Lemma blk_idxs_none p : (p < count_nbb qp M + (count_nbg qp M + ngg_of qp M))%nat -> d_idxs_rev q p = (-1)%Z.
Proof.
  intros Hp. pose proof HMN as HMN. destruct HC as (_ & _ & (A & _) & _). destruct (pos_surj qp M p ltac:(lia)) as (i & c & Hi & Hc & E). unfold pos in E. unfold nct in Hc. pose proof (Hns i ltac:(lia)) as En. cbv zeta in E.
  destruct (Nat.ltb_spec c (dnb D i + dng D i)) as [L|L].
  - specialize (A i c ltac:(split; lia)). cbv zeta in A. destruct A as (_ & _ & _ & A & _). rewrite E in A. rewrite A. pose proof (nosoft_idxs qp Hwf Hns i c ltac:(lia) L). destruct (Z.ltb_spec (q_idxs_rev qp i c) 0); [reflexivity|lia].
  - destruct (Nat.ltb_spec c (2 * (dnb D i + dng D i))) as [L2|L2]; [exfalso; lia|]. destruct (Nat.ltb_spec c (2 * (dnb D i + dng D i) + dns D i)); exfalso; lia.
Qed.

(** the constraints, when something changed *)
Lemma upd_dctd_blk BA RSQ w1 H g : andb (Nat.eqb idx 0) (negb (idxc M)) = false ->
  let q1 := mkdqp (d_nv q) (d_ne q) (d_nb q) (d_ng q) (d_ns q) H (d_A q) (d_Ct q) g (d_b q) (d_d q) (d_mask q) (d_m q) (d_Z q) (d_idxb q) (d_idxs_rev q) in
  let q' := fst (update_dctd idxc last (with_mats qp' BA RSQ) w1 q1) in
  CQ qp' M (cw_Gamma w1) (cw_Gammab w1) q' /\ d_H q' = H /\ (forall k, (k < n_hard qp' M)%nat -> d_gz q' k = g k) /\ ddims_ok qp' M q'.
Proof.
  intros Echg q1. unfold update_dctd. cbn [with_mats q_dim]. rewrite Hdim. fold idx. rewrite Echg. pose proof HC as (C1 & _ & C3 & _). pose proof HMN as HMN.
  destruct (andb (Nat.eqb M 0) last) eqn:E.
  - apply andb_true_iff in E. destruct E as (E & _). apply Nat.eqb_eq in E. cbn [fst].
    assert (Wf0 : stage_wf (nux qp' 0) (dnb (q_dim qp') 0) (dng (q_dim qp') 0) (dns (q_dim qp') 0) (q_idxb qp' 0%nat) (q_idxs_rev qp' 0%nat)) by (apply (u_wf qp qp' Hlay Hwf); rewrite Hdim; lia).
    pose proof (dctd_one_R qp' (cw_Gamma w1) (cw_Gammab w1) q1 Wf0) as (X1 & X2 & _).
    assert (Ens : (2 * dns (q_dim qp') 0 = 0)%nat) by (rewrite Hdim, (Hns 0%nat) by lia; reflexivity).
    assert (En : n_hard qp' M = nux qp' 0) by (rewrite E; unfold n_hard, uoff; reflexivity).
    split; [|split; [reflexivity|split]].
    + rewrite E in C3 |- *. apply (u_CQ_mix qp qp' Hlay Hns 0 _ _ (cw_Gamma w) (cw_Gammab w) (dctd_one qp' q1) q); try reflexivity; [lia|exact X1|exact C3].
    + intros k Hk. change (d_gz (u_dctd_one (with_mats qp' BA RSQ) q1)) with (VECCP (2 * dns (q_dim qp') 0) (q_rqz qp' 0%nat) (nux qp' 0) g (nux qp' 0)). rewrite Ens. unfold VECCP. rewrite vset_out by lia. reflexivity.
    + apply (u_ddims qp qp' Hlay). eapply ddims_ok_ext; [|exact C1]. repeat split; reflexivity.
  - set (qpx := with_mats qp' BA RSQ).
    assert (Sx : forall i j, (i <= M)%nat -> (j < dnb (q_dim qpx) i + dng (q_dim qpx) i)%nat -> (q_idxs_rev qpx i j < 0)%Z).
    { intros i j Hi Hj. apply (nosoft_idxs qp' (u_wf qp qp' Hlay Hwf) (u_ns qp qp' Hlay Hns)); [rewrite Hdim; lia|exact Hj]. }
    assert (Nx : forall i, (i <= M)%nat -> dns (q_dim qpx) i = 0%nat) by (intros i Hi; apply (u_ns qp qp' Hlay Hns); rewrite Hdim; lia).
    pose proof (u_dctd_main_same qpx M (cw_Gamma w1) (cw_Gammab w1) Sx Nx q1 (cw_nbg w1)) as U.
    pose proof (dctd_main_R qpx M (cw_Gamma w1) (cw_Gammab w1) q1 (cw_nbg w1)) as V.
    destruct (u_dctd_main qpx M (cw_Gamma w1) (cw_Gammab w1) q1 (cw_nbg w1)) as [qa ta]. destruct (dctd_main qpx M (cw_Gamma w1) (cw_Gammab w1) q1 (cw_nbg w1)) as [qb tb].
    cbn [fst] in V |- *. destruct U as (U1 & _).
    destruct V as (V1 & V2 & V3 & V4).
    { intros p Hp. apply blk_idxs_none. change (count_nbb qpx M) with (count_nbb qp' M) in Hp. change (count_nbg qpx M) with (count_nbg qp' M) in Hp. change (ngg_of qpx M) with (ngg_of qp' M) in Hp.
      rewrite (u_nb2 qp qp' Hlay), (u_ng2 qp qp' Hlay) in Hp. exact Hp. }
    assert (V1' : CQ qp' M (cw_Gamma w1) (cw_Gammab w1) qb) by exact V1.
    split; [|split; [rewrite U1; reflexivity|split]].
    + apply (u_CQ_mix qp qp' Hlay Hns M _ _ (cw_Gamma w) (cw_Gammab w) qb q); [lia|exact V1'|exact C3|rewrite U1; reflexivity ..].
    + intros k Hk. rewrite U1. reflexivity.
    + apply (u_ddims qp qp' Hlay). eapply ddims_ok_ext; [|exact C1]. rewrite U1. repeat split; reflexivity.
Qed.

Lemma update_blk_inv : let '(q', BA', b', w', BA, RSQ) := update_block idxc last qp' q BA2 b2 w in condensed_blk last qp' q' BA' b' w'.
Proof.
  unfold update_block. pose proof HC as (C1 & C2 & C3 & C4 & C5 & C6). pose proof HMN as HMN. pose proof upd_babt_blk as B.
  destruct (update_babt idxc last qp' w BA2 b2) as [[w1 BA1] b1]. destruct B as (G1 & G2 & G3 & G4 & G5).
  unfold update_rsqrq. rewrite Hdim. fold idx. assert (Hidx : (idx <= M)%nat) by apply idx_of_le.
  destruct (andb (Nat.eqb idx 0) (negb (idxc M))) eqn:Echg.
  - (* nothing changed *)
    apply andb_true_iff in Echg. destruct Echg as (E1 & E2). apply Nat.eqb_eq in E1. apply negb_true_iff in E2.
    assert (Hall : forall i, (i <= M)%nat -> same_stage qp qp' i) by (intros i Hi; destruct (Nat.eq_dec i M) as [->|]; [apply Hmark; [lia|exact E2]|apply abM; lia]).
    unfold update_dctd. cbn [with_mats q_dim]. rewrite Hdim. fold idx. rewrite E1, E2. cbn [Nat.eqb negb andb].
    assert (Ew : w1 = w) by (apply G4; rewrite (idxN_M E2); exact E1). subst w1.
    unfold condensed_blk. cbn [cw_Gamma cw_Gammab]. rewrite Hdim.
    split; [apply (u_ddims qp qp' Hlay); exact C1|]. split; [exact G1|].
    split; [exact (u_CQ_same qp qp' Hlay Hns M (cw_Gamma w) (cw_Gammab w) q (proj1 HMN) Hall C3)|]. rewrite (u_nh qp qp' Hlay). split; [|split; [|exact G5]].
    + intros E. destruct (C4 E) as (A & B). destruct (Hall 0%nat ltac:(lia)) as (_ & _ & S3 & S4 & _). assert (En : n_hard qp M = nux qp 0) by (rewrite E; unfold n_hard, uoff; reflexivity). rewrite En in *. cbn [d_H d_gz]. split.
      * intros r c Hr. rewrite S3 by lia. apply A. exact Hr.
      * intros k Hk. rewrite S4. apply B. exact Hk.
    + intros E. destruct (C5 E) as (A & B). cbn [d_H d_gz]. split; [|exact B].
      apply (u_RI qp qp' Hlay M _ (sts qp w q)); [exact A|reflexivity|reflexivity|intros i; split; reflexivity|exact Hall].
  - (* something changed *)
    destruct (Nat.eqb_spec M 0) as [E0|E0].
    + pose proof (upd_dctd_blk (q_BAbt qp') (q_RSQ qp') w1 (GECP (nu 0 + nx 0) (nu 0 + nx 0) (q_RSQ qp' 0%nat) 0 0 (d_H q) 0 0) (VECCP (nu 0 + nx 0) (q_rqz qp' 0%nat) 0 (d_gz q) 0) Echg) as X. cbv zeta in X.
      destruct (update_dctd _ _ _ _ _) as [q' tbg]. cbn [fst] in X. destruct X as (X1 & X2 & X3 & X4).
      unfold condensed_blk. cbn [cw_Gamma cw_Gammab]. rewrite Hdim. split; [exact X4|]. split; [exact G1|]. split; [exact X1|]. split; [|split; [intros; lia|rewrite (u_nh qp qp' Hlay); exact G5]].
      intros _. assert (En : n_hard qp' M = nux qp' 0) by (rewrite E0; unfold n_hard, uoff; reflexivity). rewrite En in *. assert (Ed : nux qp' 0 = (nu 0 + nx 0)%nat) by (unfold ResSpec.nux; rewrite Hdim; reflexivity). rewrite Ed in *. split.
      * intros r c Hr. rewrite X2. unfold GECP. rewrite mblk_i by lia. rewrite !Nat.sub_0_r. reflexivity.
      * intros k Hk. rewrite X3 by exact Hk. unfold VECCP. rewrite vset_in' by lia. rewrite Nat.sub_0_r. reflexivity.
    + set (s0 := mkrst _ _ _ _ _ _ _ _ _). destruct (C5 ltac:(lia)) as (A & B). destruct A as (I1 & I2 & I3 & I4 & I5 & I6). cbn [sts rs_L rs_H] in I1, I2, I3, I4.
      change (nsum (M + 1) nu) with (nu2_of qp M). rewrite <- (u_nu2 qp qp' Hlay M).
      assert (HR : RI qp' M (cw_Gamma w1) 0 (ursq_main qp' (cw_Gamma w1) M (nu2_of qp' M) idx s0)).
      { apply (ursq_main_R qp' M (cw_Gamma w1) (cw_L w) (d_H q) idx s0); [lia|exact Hidx|intros i; split; reflexivity|exact G3|reflexivity|exact Hpd|].
        intros m Hm Him. assert (EM : idxc M = false).
        { destruct (idxc M) eqn:EN; [|reflexivity]. exfalso. destruct (Hpred EN) as [H|H]; [lia|]. pose proof (idx_of_above idxc M (M - 1)%nat ltac:(fold idx; lia)). congruence. }
        assert (HNM : same_stage qp qp' M) by (apply Hmark; [lia|exact EM]).
        assert (EI : idxN = idx) by exact (idxN_M EM). rewrite EI in G2.
        split; [apply (u_PLlast qp qp' Hlay); [exact HNM|exact I4]|]. destruct (I1 m ltac:(lia) ltac:(lia)) as (J1 & J2 & _). unfold KH. rewrite (u_uo qp qp' Hlay), Hdim. split; [|split].
        - apply (u_PL qp qp' Hlay); [apply abM; lia|apply I3; lia].
        - exact J1.
        - intros r c Hr Hc. rewrite J2 by lia. apply rsum_ext. intros l Hl. f_equal. symmetry. apply G2; [lia|lia| |replace (S (m - 1)) with m by lia; exact Hl]. rewrite (u_kept qp qp' Hlay). unfold kept, CondProofs.nuf. replace (S (m - 1)) with m by lia. exact Hr. }
      set (s := ursq_main _ _ _ _ _ s0) in *. clearbody s.
      pose proof (upd_dctd_blk (rs_BA s) (rs_RSQ s) (mkcws (cw_Gamma w1) (cw_Gammab w1) (rs_L s) (rs_Lx s) (rs_dA s) (rs_AL s) (cw_GQ w1) (cw_nux w1) (cw_nbg w1)) (rs_H s) (ROWEX (nu2_of qp' M + nx 0) f1 (rs_H s) (nu2_of qp' M + nx 0) 0 (d_gz q) 0) Echg) as X. cbv zeta in X.
      destruct (update_dctd _ _ _ _ _) as [q' tbg]. cbn [fst] in X. cbn [cw_Gamma cw_Gammab] in X |- *. destruct X as (X1 & X2 & X3 & X4).
      unfold condensed_blk. cbn [cw_Gamma cw_Gammab]. rewrite Hdim. split; [exact X4|]. split; [exact G1|]. split; [exact X1|]. split; [intros; lia|]. split; [|rewrite (u_nh qp qp' Hlay); exact G5].
      intros _. split.
      * apply (RI_sts qp' M _ s); [exact HR|reflexivity|symmetry; exact X2].
      * intros k Hk. rewrite X3 by exact Hk. rewrite X2. pose proof (n_hard_eq qp' M) as EH. rewrite Hdim in EH. rewrite EH in *. unfold ROWEX. rewrite vset_in' by lia. rsimp. rewrite R_lit11, Rmult_1_l. f_equal. lia.
Qed.
End Update.
