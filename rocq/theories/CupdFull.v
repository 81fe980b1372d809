(** CupdFull.v -- COND_QP_UPDATE as a whole: the invariant of a condensed QP and its workspace. *)
From Coq Require Import ZArith Bool Arith Lia Reals Lra.
From Verif Require Import Base ArithF RSum Blas Blas2 OcpModel ResSpec ResProofs ResProofs2 CholProofs CholPD KktModel KktProofs KktProofs2 DenModel DenSpec CondModel CondSpec CondProofs CondCost CondCost2 CondCost3 CondCon CondCon2 CondCon3 CondSem CondFull.
From Verif Require Import CupdModel CupdSpec CupdProofs CupdCost CupdCon.
Local Open Scope R_scope.

(** the cost part of the state as left by the last call *)
Definition sts (qp : oqp R) (w : cws R) (q : dqp R) : rst := mkrst (q_BAbt qp) (q_RSQ qp) (cw_L w) (cw_Lx w) (cw_dA w) (cw_AL w) (d_H q) 0 0.
(** q is the condensed qp and w the workspace the condensing left *)
Definition condensed (qp : oqp R) (q : dqp R) (w : cws R) : Prop := let N := dN (q_dim qp) in let nh := n_hard qp N in
  ddims_ok qp N q /\ (forall i, (i < N)%nat -> RG qp (cw_Gamma w) (cw_Gammab w) i) /\ CQ qp N (cw_Gamma w) (cw_Gammab w) q /\
  (N = 0%nat -> (forall r c, (c <= r < nh)%nat -> d_H q r c = q_RSQ qp 0%nat r c) /\ (forall k, (k < nh)%nat -> d_gz q k = q_rqz qp 0%nat k)) /\
  ((1 <= N)%nat -> RI qp N (cw_Gamma w) 0 (sts qp w q) /\ (forall k, (k < nh)%nat -> d_gz q k = d_H q nh k)).
Notation nosoft := no_slacks.
Lemma nosoft_idxs qp : qp_wf qp -> nosoft qp -> forall i j, (i <= dN (q_dim qp))%nat -> (j < dnb (q_dim qp) i + dng (q_dim qp) i)%nat -> (q_idxs_rev qp i j < 0)%Z.
Proof. intros W Hn i j Hi Hj. destruct (W i Hi) as (_ & W2). pose proof (Hn i Hi) as E. rewrite E in W2. specialize (W2 j Hj). lia. Qed.
Lemma nosoft_nsf qp M : (forall i, (i <= M)%nat -> dns (q_dim qp) i = 0%nat) -> n_soft qp M = 0%nat.
Proof. intros Hn. unfold n_soft, soff. rewrite Nat.sub_0_r, (Hn 0%nat) by lia. rewrite Nat.add_0_r. rewrite (nsum_ext M _ (fun _ => 0%nat)) by (intros; apply Hn; lia). clear. induction M; cbn [nsum]; lia. Qed.
Lemma RI_sts qp M G s w q : RI qp M G 0 s -> rs_L s = cw_L w -> rs_H s = d_H q -> RI qp M G 0 (sts qp w q).
Proof.
  intros (I1 & I2 & I3 & I4 & I5 & I6) EL EH. unfold sts. split; [|split; [|split; [|split; [|split]]]]; cbn [rs_L rs_H rs_nub rs_nuf]; rewrite <- ?EL, <- ?EH; try assumption; [|lia].
  intros i. split; reflexivity.
Qed.

(** a fresh condensing (cond_alg 0) establishes the invariant *)
Lemma cond_inv sq diag qp q0 w : let M := dN (q_dim qp) in
  qp_wf qp -> nosoft qp -> ddims_ok qp M q0 -> (forall p, (p < d_nb q0 + d_ng q0)%nat -> d_idxs_rev q0 p = (-1)%Z) ->
  let '(q, w', BA, RSQ) := cond_qp true sq diag qp q0 w in condensed qp q w'.
Proof.
  cbv zeta. intros Hwf Hns Hd H0. unfold cond_qp. set (M := dN (q_dim qp)) in *.
  assert (HB : let '(w1, _, _) := cond_babt true qp w (fun _ _ => f0) (fun _ => f0) in forall i, (i < M)%nat -> RG qp (cw_Gamma w1) (cw_Gammab w1) i).
  { unfold cond_babt. fold M. destruct (Nat.eqb_spec M 0) as [E|E]; cbn [andb]; [intros; lia|]. unfold babt_loop.
    pose proof (RG_first qp (cw_Gamma w) (cw_Gammab w)) as B0. destruct (babt_first qp _ _) as [G0 Gb0]. destruct B0 as (B0 & _).
    pose proof (loop_ind (fun k (s : (nat -> rmat) * (nat -> rvec) * nat) => let '(G, Gb, n) := s in (forall i, (i <= k)%nat -> RG qp G Gb i) /\ n = nuf qp k)
      (M - 1) (fun k s => babt_mid qp (k + 1) s) (G0, Gb0, dnu (q_dim qp) 0)) as L. fold M.
    destruct (loop (M - 1) _ _) as [[G Gb] n]. destruct L as (L1 & L2).
    - split; [|reflexivity]. intros i Hi. replace i with 0%nat by lia. exact B0.
    - intros k [[G1 Gb1] n1] Hk (I1 & ->). rewrite Nat.add_1_r. pose proof (RG_mid qp k G1 Gb1 I1) as Q. destruct (babt_mid qp (S k) (G1, Gb1, nuf qp k)) as [[G2 Gb2] n2]. split; apply Q.
    - cbn [cw_Gamma cw_Gammab]. intros i Hi. apply L1. lia. }
  destruct (cond_babt true qp w (fun _ _ => f0) (fun _ => f0)) as [[w1 x1] x2]. clear x1 x2.
  assert (HR : let '(BA, RSQ, w2, H, g) := cond_rsqrq true sq diag true qp w1 (d_H q0) (d_gz q0) in cw_Gamma w2 = cw_Gamma w1 /\ cw_Gammab w2 = cw_Gammab w1 /\
     (M = 0%nat -> (forall r c, (c <= r < n_hard qp M)%nat -> H r c = q_RSQ qp 0%nat r c) /\ (forall k, (k < n_hard qp M)%nat -> g k = q_rqz qp 0%nat k)) /\
     ((1 <= M)%nat -> (exists s, RI qp M (cw_Gamma w1) 0 s /\ rs_L s = cw_L w2 /\ rs_H s = H) /\ (forall k, (k < n_hard qp M)%nat -> g k = H (n_hard qp M) k))).
  { unfold cond_rsqrq, last_stage. fold M. destruct (Nat.eqb_spec M 0) as [E|E].
    - split; [reflexivity|]. split; [reflexivity|]. split; [|lia]. intros _. rewrite E. assert (En : n_hard qp 0 = nux qp 0) by (unfold n_hard, uoff; reflexivity). rewrite En. change (dnu (q_dim qp) 0 + dnx (q_dim qp) 0)%nat with (nux qp 0). split.
      + intros r c H. unfold GECP. rewrite mblk_i by lia. rewrite !Nat.sub_0_r. reflexivity.
      + intros k Hk. unfold VECCP. rewrite vset_in' by lia. rewrite Nat.sub_0_r. reflexivity.
    - change (nsum (M + 1) (dnu (q_dim qp))) with (nu2_of qp M). set (s0 := mkrst _ _ _ _ _ _ _ _ _).
      assert (HF : forall i, fresh qp s0 i) by (intros i; split; reflexivity).
      pose proof (rsq_alg0_R qp M (cw_Gamma w1) sq s0 ltac:(lia) HF) as R0. set (s := rsq_alg0 _ _ _ _ _ s0) in *. clearbody s. cbn [cw_Gamma cw_Gammab cw_L].
      split; [reflexivity|]. split; [reflexivity|]. split; [lia|]. intros _. split; [exists s; split; [exact R0|split; reflexivity]|].
      intros k Hk. rewrite <- n_hard_eq. unfold ROWEX. rewrite vset_in' by lia. rsimp. rewrite R_lit11, Rmult_1_l. f_equal. lia. }
  destruct (cond_rsqrq true sq diag true qp w1 (d_H q0) (d_gz q0)) as [[[[BA RSQ] w2] H] g]. destruct HR as (R2 & R3 & R4 & R5).
  set (q1 := mkdqp _ _ _ _ _ _ _ _ _ _ _ _ _ _ _ _). set (qp' := mkqp _ _ _ _ _ _ _ _ _ _ _ _).
  assert (D1 : ddims_ok qp M q1) by (eapply ddims_ok_ext; [|exact Hd]; repeat split; reflexivity).
  assert (X : let q := fst (cond_dctd true qp' w2 q1) in CQ qp M (cw_Gamma w1) (cw_Gammab w1) q /\ SCall qp M (n_hard qp M) (nux qp) (q_rqz qp) g (d_gz q) /\ d_H q = H /\
     (d_nv q = d_nv q1 /\ d_ne q = d_ne q1 /\ d_nb q = d_nb q1 /\ d_ng q = d_ng q1 /\ d_ns q = d_ns q1)).
  { unfold cond_dctd, last_stage. rewrite R2, R3. change (dN (q_dim qp')) with M. rewrite andb_true_r. destruct (Nat.eqb_spec M 0) as [E|E].
    - cbn [fst]. rewrite E. exact (dctd_one_R qp (cw_Gamma w1) (cw_Gammab w1) q1 (Hwf 0%nat ltac:(lia))).
    - assert (Q : forall p, (p < count_nbb qp M + (count_nbg qp M + ngg_of qp M))%nat -> d_idxs_rev q1 p = (-1)%Z).
      { intros p Hp. destruct Hd as (_ & _ & E3 & E4 & _). apply H0. rewrite E3, E4. exact Hp. }
      exact (dctd_main_R qp M (cw_Gamma w1) (cw_Gammab w1) q1 (cw_nbg w2) Q). }
  destruct (cond_dctd true qp' w2 q1) as [q tbg]. cbv zeta in X. cbn [fst] in X. destruct X as (X1 & X2 & X3 & X4).
  assert (D2 : ddims_ok qp M q) by (eapply ddims_ok_ext; [exact X4|exact D1]).
  unfold condensed. fold M. cbn [cw_Gamma cw_Gammab]. rewrite R2, R3. split; [exact D2|]. split; [exact HB|]. split; [exact X1|]. split.
  - intros E. destruct (R4 E) as (A & B). split; [intros r c Hr; rewrite X3; apply A; exact Hr|]. intros k Hk. rewrite (proj2 X2) by exact Hk. apply B. exact Hk.
  - intros E. destruct (R5 E) as ((s & A1 & A2 & A3) & B). split.
    + apply (RI_sts qp M (cw_Gamma w1) s _ q A1); [exact A2|rewrite A3, X3; reflexivity].
    + intros k Hk. rewrite (proj2 X2) by exact Hk. rewrite X3. apply B. exact Hk.
Qed.

(** what the invariant says about the dense QP *)
Lemma condensed_post qp q w : qp_wf qp -> nosoft qp -> condensed qp q w -> cond_post qp q (q_BAbt qp) (q_RSQ qp).
Proof.
  intros Hwf Hns (C1 & C2 & C3 & C4 & C5). unfold cond_post. set (M := dN (q_dim qp)) in *.
  assert (HG : forall i, (i < M)%nat -> GIV qp M (cw_Gamma w) (cw_Gammab w) i) by (intros i Hi; apply RG_GIV; [lia|]; intros k Hk; apply C2; lia).
  split; [exact C1|]. split; [exists (cw_Gamma w), (cw_Gammab w); split; assumption|]. split; [|split; reflexivity].
  assert (X : exists K, forall v, 1 / 2 * Qo (d_H q) 0 (n_hard qp M) v + rsum (n_hard qp M) (fun k => d_gz q k * v k) = rsum (S M) (hardc qp (traj qp M v)) + K).
  { destruct (Nat.eq_dec M 0) as [E0|E0].
    - destruct (C4 E0) as (A & B). exists 0. intros v. rewrite E0 in *. cbn [rsum]. rewrite Rplus_0_r, Rplus_0_l.
      assert (En : n_hard qp 0 = nux qp 0) by (unfold n_hard, uoff; reflexivity). rewrite En in *. unfold hardc. f_equal; [f_equal|].
      + unfold Qo. apply rsum_ext. intros i Hi. apply rsum_ext. intros j Hj. rewrite !traj_0 by assumption. change (uoff qp 0 0) with 0%nat. cbn [Nat.add]. f_equal. f_equal.
        unfold symL. destruct (Nat.leb_spec j i); apply A; lia.
      + apply rsum_ext. intros k Hk. rewrite traj_0 by exact Hk. change (uoff qp 0 0) with 0%nat. cbn [Nat.add]. rewrite B by exact Hk. reflexivity.
    - destruct (C5 ltac:(lia)) as (A & B). destruct (PhiH_alg0 qp M (cw_Gamma w) (cw_Gammab w) _ ltac:(lia) HG A) as (K & HK). exists K. intros v. rewrite <- HK. unfold PhiH, sts. cbn [rs_H]. f_equal. apply rsum_ext. intros k Hk. rewrite B by exact Hk. reflexivity. }
  destruct X as (K & HK). exists K. intros v. unfold cost. fold M. rewrite Nat.add_1_r.
  apply (cost_traj qp M (cw_Gamma w) (cw_Gammab w) q C1 C3 K); [|exact HK].
  split; [intros i l Hi Hl; rewrite (Hns i Hi) in Hl; lia|reflexivity].
Qed.

(** ** the update *)
Section Update.
Variables (qp qp' : oqp R) (idxc : nat -> bool) (q : dqp R) (w : cws R).
Notation D := (q_dim qp).
Notation N := (dN D).
Notation nu := (dnu D).
Notation nx := (dnx D).
Hypothesis Hlay : same_layout qp qp'.
Hypothesis Hmark : marked idxc qp qp'.
Hypothesis Hpred : last_with_pred idxc N.
Hypothesis Hpd : forall n, (1 <= n <= N)%nat -> Qpd qp' n.
Hypothesis Hwf : qp_wf qp.
Hypothesis Hns : nosoft qp.
Hypothesis HC : condensed qp q w.
Lemma Hdim : q_dim qp' = q_dim qp. Proof. exact (proj1 Hlay). Qed.

Lemma u_uo M i : uoff qp' M i = uoff qp M i. Proof. unfold uoff. rewrite Hdim. reflexivity. Qed.
Lemma u_nux i : nux qp' i = nux qp i. Proof. unfold ResSpec.nux. rewrite Hdim. reflexivity. Qed.
Lemma u_nh M : n_hard qp' M = n_hard qp M. Proof. unfold n_hard. rewrite u_uo, Hdim. reflexivity. Qed.
Lemma u_nuf i : nuf qp' i = nuf qp i. Proof. unfold nuf. rewrite Hdim. reflexivity. Qed.
Lemma u_kept idx i : kept qp' idx i = kept qp idx i. Proof. unfold kept. rewrite u_nuf, Hdim. reflexivity. Qed.
Lemma u_nu2 M : nu2_of qp' M = nu2_of qp M. Proof. unfold nu2_of. rewrite Hdim. reflexivity. Qed.
Lemma u_wf : qp_wf qp'.
Proof. destruct Hlay as (E1 & E2 & E3 & _). unfold qp_wf. rewrite E1, E2, E3. intros i Hi. rewrite u_nux. apply Hwf. exact Hi. Qed.
Lemma u_ns : nosoft qp'. Proof. unfold no_slacks. rewrite Hdim. exact Hns. Qed.

Lemma u_KG G idx k : same_stage qp qp' k -> KG qp G idx k -> KG qp' G idx k.
Proof.
  intros (S1 & _) H j. rewrite Hdim, u_kept. intros Hj. destruct (H j Hj) as (A & B). unfold ResSpec.nux in S1. split.
  - intros r Hr. rewrite S1 by lia. apply A. exact Hr.
  - intros r Hr Hlt. rewrite B by assumption. apply rsum_ext. intros l Hl. rewrite S1 by lia. reflexivity.
Qed.
Lemma u_RG G Gb k : same_stage qp qp' k -> RG qp G Gb k -> RG qp' G Gb k.
Proof.
  intros (S1 & S2 & _) H j. rewrite Hdim. intros Hj. destruct (H j Hj) as (A & B & C). unfold ResSpec.nux in S1. split; [|split].
  - intros r Hr. rewrite S1 by lia. apply A. exact Hr.
  - destruct k as [|k]; [destruct B as (B1 & B2); split|].
    + intros r Hr. rewrite S1 by lia. apply B1. exact Hr.
    + rewrite S2. exact B2.
    + rewrite u_nuf. intros r Hr. rewrite B by exact Hr. f_equal; [apply rsum_ext; intros l Hl; rewrite S1 by lia; reflexivity|]. rewrite S2. reflexivity.
  - rewrite u_nuf. exact C.
Qed.
Lemma u_Pm L n l m : Pm qp' L n l m = Pm qp L n l m. Proof. unfold Pm. rewrite Hdim. reflexivity. Qed.
Lemma u_pv L n l : pv qp' L n l = pv qp L n l. Proof. unfold pv. rewrite u_nux, Hdim. reflexivity. Qed.
Lemma u_PL Lp Ln p : same_stage qp qp' p -> PL qp Lp Ln p -> PL qp' Lp Ln p.
Proof.
  intros (S1 & S2 & S3 & S4 & _) (A & B). unfold PL. rewrite u_nux, Hdim. split.
  - intros r c H. rewrite A by exact H. rewrite S3 by lia. f_equal. apply rsum_ext. intros l Hl. apply rsum_ext. intros m Hm. rewrite u_Pm, !S1 by lia. reflexivity.
  - intros c H. rewrite B by exact H. rewrite S4. f_equal. apply rsum_ext. intros l Hl. rewrite S1 by lia. rewrite u_pv. f_equal. f_equal. apply rsum_ext. intros m Hm. rewrite u_Pm, S2. reflexivity.
Qed.
Lemma u_PLlast M L : same_stage qp qp' M -> PLlast qp M L -> PLlast qp' M L.
Proof. intros (S1 & S2 & S3 & S4 & _) (A & B). unfold PLlast. rewrite u_nux. split; [intros r c H; rewrite S3 by lia; apply A; exact H|intros c H; rewrite S4; apply B; exact H]. Qed.
Lemma u_EM M G H L m : EM qp M G H L m -> EM qp' M G H L m.
Proof. unfold EM. rewrite !u_uo, u_nh, u_nux, Hdim. tauto. Qed.
Lemma u_RI M G s s' : RI qp M G 0 s -> rs_L s' = rs_L s -> rs_H s' = rs_H s -> (forall i, fresh qp' s' i) -> (forall i, (i <= M)%nat -> same_stage qp qp' i) -> RI qp' M G 0 s'.
Proof.
  intros (I1 & I2 & I3 & I4 & I5 & I6) EL EH HF HS. split; [|split; [|split; [|split; [|split]]]]; rewrite ?EL, ?EH.
  - intros m Hm Hm1. apply u_EM. apply I1; assumption.
  - intros E. specialize (I2 E). unfold EM0 in *. rewrite u_uo, u_nh, u_nux. exact I2.
  - intros m Hm. apply u_PL; [apply HS; lia|apply I3; exact Hm].
  - apply u_PLlast; [apply HS; lia|exact I4].
  - exact HF.
  - lia.
Qed.

(** the positions of the constraints are the same *)
Lemma u_posl M i j : posl qp' M i j = posl qp M i j.
Proof. destruct Hlay as (E1 & E2 & _). unfold posl, box, cb, cg, nbox, box, count_nbb, count_nbg, is_input. rewrite E1, E2. reflexivity. Qed.
Lemma u_nb2 M : count_nbb qp' M = count_nbb qp M. Proof. destruct Hlay as (E1 & E2 & _). unfold count_nbb, is_input. rewrite E1, E2. reflexivity. Qed.
Lemma u_ng2 M : (count_nbg qp' M + ngg_of qp' M = count_nbg qp M + ngg_of qp M)%nat. Proof. destruct Hlay as (E1 & E2 & _). unfold count_nbg, ngg_of, is_input. rewrite E1, E2. reflexivity. Qed.
Lemma u_valid M i j : valid qp' M i j <-> valid qp M i j. Proof. unfold valid. rewrite Hdim. tauto. Qed.
Lemma u_ddims M q1 : ddims_ok qp M q1 -> ddims_ok qp' M q1.
Proof. unfold ddims_ok, n_soft, soff. rewrite u_nh, u_nb2, u_ng2, Hdim. tauto. Qed.
(** constraints of the new QP from a dense QP qa that has everything but the masks and targets, which come from the old dense QP *)
Lemma u_CQ_mix M G Gb G0 Gb0 qa q0 qr : (M <= N)%nat -> CQ qp' M G Gb qa -> CQ qp M G0 Gb0 q0 ->
  d_d qr = d_d qa -> d_idxs_rev qr = d_idxs_rev qa -> d_idxb qr = d_idxb qa -> d_Ct qr = d_Ct qa -> d_mask qr = d_mask q0 -> d_m qr = d_m q0 -> CQ qp' M G Gb qr.
Proof.
  intros HM (A & _) (B & _) E1 E2 E3 E4 E5 E6. unfold CQ. rewrite E1, E2, E3, E4, E5, E6. split.
  - intros i j V. specialize (A i j V). specialize (B i j (proj1 (u_valid M i j) V)). cbv zeta in *. destruct A as (A1 & _ & _ & A4 & A5 & A6). destruct B as (_ & B2 & B3 & _).
    split; [exact A1|]. destruct Hlay as (_ & _ & _ & Lm & Lmm). rewrite Lm, Lmm, u_posl, u_nb2, u_ng2. rewrite Hdim. split; [exact B2|]. split; [exact B3|]. rewrite u_posl, u_nb2 in *. split; [exact A4|]. split; [exact A5|exact A6].
  - assert (X : forall o os src v, SCall qp' M o os src v v). { intros o os src v. split; [|reflexivity]. intros i l Hi Hl. exfalso. rewrite Hdim, (Hns i) in Hl by lia. lia. }
    repeat split; intros; exfalso; match goal with H : (_ < dns _ ?i)%nat |- _ => rewrite Hdim, (Hns i) in H by lia; lia end.
Qed.
Lemma u_CQ_same M G Gb qa : (M <= N)%nat -> (forall i, (i <= M)%nat -> same_stage qp qp' i) -> CQ qp M G Gb qa -> CQ qp' M G Gb qa.
Proof.
  intros HM HS (A & _). unfold CQ. split.
  - intros i j V. pose proof (proj1 (u_valid M i j) V) as V'. specialize (A i j V'). cbv zeta in *. destruct (HS i (proj1 V')) as (_ & _ & _ & _ & S5 & S6). destruct Hlay as (L1 & L2 & L3 & L4 & L5).
    assert (ES : shift qp' Gb i j = shift qp Gb i j).
    { unfold shift, box, is_input. rewrite L1, L2. destruct (i =? 0)%nat; [reflexivity|]. destruct (j <? dnb D i)%nat; [reflexivity|]. apply rsum_ext. intros l Hl. rewrite S5. reflexivity. }
    assert (EC : forall k, colv qp' M G i j k = colv qp M G i j k).
    { intros k. unfold colv. rewrite !u_uo, L1, L2. destruct (j <? dnb D i)%nat; [reflexivity|]. destruct (Nat.eqb_spec i 0) as [->|]; [rewrite S5; reflexivity|]. destruct (k <? uoff qp M (i - 1))%nat; [rewrite S5; reflexivity|]. apply rsum_ext. intros l Hl. rewrite S5. reflexivity. }
    rewrite u_posl, u_nb2, u_ng2, ES, L2, L3, L4, L5, !S6, u_uo, u_nh. unfold soff, lows, isbox, box, is_input in *. rewrite !u_uo, L1, L2.
    destruct A as (A1 & A2 & A3 & A4 & A5 & A6). repeat (split; [assumption|]). intros B k Hk. rewrite EC. apply A6; assumption.
  - repeat split; intros; exfalso; match goal with H : (_ < dns _ ?i)%nat |- _ => rewrite Hdim, (Hns i) in H by lia; lia end.
Qed.
(** no constraint is soft in the old dense QP *)
Lemma u_idxs_none p : (p < count_nbb qp N + (count_nbg qp N + ngg_of qp N))%nat -> d_idxs_rev q p = (-1)%Z.
Proof.
  intros Hp. destruct HC as (_ & _ & (A & _) & _). destruct (pos_surj qp N p ltac:(lia)) as (i & c & Hi & Hc & E). unfold pos in E. unfold nct in Hc. pose proof (Hns i Hi) as En. cbv zeta in E.
  destruct (Nat.ltb_spec c (dnb D i + dng D i)) as [L|L].
  - specialize (A i c ltac:(split; lia)). cbv zeta in A. destruct A as (_ & _ & _ & A & _). rewrite E in A. rewrite A. pose proof (nosoft_idxs qp Hwf Hns i c Hi L). destruct (Z.ltb_spec (q_idxs_rev qp i c) 0); [reflexivity|lia].
  - destruct (Nat.ltb_spec c (2 * (dnb D i + dng D i))) as [L2|L2]; [exfalso; lia|]. destruct (Nat.ltb_spec c (2 * (dnb D i + dng D i) + dns D i)); exfalso; lia.
Qed.

Lemma u_eta : mkqp D (q_BAbt qp') (q_RSQ qp') (q_DCt qp') (q_b qp') (q_rqz qp') (q_d qp') (q_mask qp') (q_m qp') (q_Z qp') (q_idxb qp') (q_idxs_rev qp') = qp'.
Proof. rewrite <- Hdim. destruct qp'; reflexivity. Qed.
Lemma update_inv : let '(q', w', BA, RSQ) := update_qp idxc qp' q w in condensed qp' q' w' /\
  (forall i r c, (r < nux qp' i)%nat -> BA i r c = q_BAbt qp' i r c) /\ (forall i r c, (c <= r < nux qp' i)%nat -> RSQ i r c = q_RSQ qp' i r c).
Proof.
  unfold update_qp. pose proof HC as (C1 & C2 & C3 & C4 & C5). set (idx := idx_of idxc N) in *.
  assert (Hidx : (idx <= N)%nat) by apply idx_of_le.
  assert (Hab : forall k, (idx <= k < N)%nat -> same_stage qp qp' k) by (intros k Hk; apply Hmark; [lia|apply (idx_of_above idxc N); exact Hk]).
  pose proof (update_babt_R qp' idxc w (fun _ _ => f0) (fun _ => f0)) as B. cbv zeta in B. rewrite Hdim in B. fold idx in B.
  assert (B1 : forall k, (idx <= k < N)%nat -> KG qp' (cw_Gamma w) idx k).
  { intros k Hk. apply u_KG; [apply Hab; exact Hk|]. eapply RG_KG; [|lia]. intros i Hi. apply C2. lia. }
  assert (B2 : idx = 0%nat -> forall k, (k < N)%nat -> RG qp' (cw_Gamma w) (cw_Gammab w) k).
  { intros E k Hk. apply u_RG; [apply Hab; lia|]. apply C2. exact Hk. }
  specialize (B B1 B2). destruct (update_babt idxc true qp' w (fun _ _ => f0) (fun _ => f0)) as [[w1 x1] x2]. clear x1 x2 B1 B2. destruct B as (G1 & G2 & G3 & G4).
  unfold update_rsqrq, last_stage. rewrite Hdim. fold idx.
  destruct (andb (Nat.eqb idx 0) (negb (idxc N))) eqn:Echg.
  - (* nothing changed *)
    apply andb_true_iff in Echg. destruct Echg as (E1 & E2). apply Nat.eqb_eq in E1. apply negb_true_iff in E2.
    assert (Hall : forall i, (i <= N)%nat -> same_stage qp qp' i) by (intros i Hi; destruct (Nat.eq_dec i N) as [->|]; [apply Hmark; [lia|exact E2]|apply Hab; lia]).
    unfold update_dctd, last_stage. cbn [q_dim]. rewrite ?Hdim. fold idx. rewrite E1, E2. cbn [Nat.eqb negb andb].
    unfold condensed. cbn [cw_Gamma cw_Gammab d_H d_gz]. rewrite Hdim. split; [|split; reflexivity].
    split; [apply u_ddims; exact C1|]. split; [exact G1|].
    rewrite (G4 E1). split; [|split].
    + exact (u_CQ_same N (cw_Gamma w) (cw_Gammab w) q (le_n _) Hall C3).
    + intros E. destruct (C4 E) as (A & B). destruct (Hall 0%nat ltac:(lia)) as (_ & _ & S3 & S4 & _). rewrite u_nh. assert (En : n_hard qp N = nux qp 0) by (rewrite E; unfold n_hard, uoff; reflexivity). rewrite En in *. split.
      * intros r c Hr. rewrite S3 by lia. apply A. exact Hr.
      * intros k Hk. rewrite S4. apply B. exact Hk.
    + intros E. destruct (C5 E) as (A & B). rewrite u_nh. split; [|exact B].
      apply (u_RI N _ (sts qp w q)); [exact A|reflexivity|reflexivity|intros i; split; reflexivity|exact Hall].
  - (* something changed *)
    destruct (Nat.eqb_spec N 0) as [E0|E0].
    + unfold update_dctd, last_stage. cbn [q_dim]. rewrite ?Hdim. fold idx. rewrite Echg. destruct (Nat.eqb_spec N 0); [|lia]. cbn [andb].
      rewrite u_eta. set (q1 := mkdqp _ _ _ _ _ _ _ _ _ _ _ _ _ _ _ _).
      assert (Wf0 : stage_wf (nux qp' 0) (dnb (q_dim qp') 0) (dng (q_dim qp') 0) (dns (q_dim qp') 0) (q_idxb qp' 0%nat) (q_idxs_rev qp' 0%nat)) by (apply u_wf; rewrite Hdim; lia).
      pose proof (dctd_one_R qp' (cw_Gamma w1) (cw_Gammab w1) q1 Wf0) as (X1 & X2 & _).
      split; [|split; reflexivity]. unfold condensed. cbn [cw_Gamma cw_Gammab]. rewrite Hdim. split; [apply u_ddims; exact C1|]. split; [exact G1|].
      assert (Ens : (2 * dns (q_dim qp') 0 = 0)%nat) by (rewrite Hdim, (Hns 0%nat) by lia; reflexivity).
      assert (En : n_hard qp' N = nux qp' 0) by (rewrite E0; unfold n_hard, uoff; reflexivity).
      split; [|split; [|intros; lia]].
      * rewrite E0 in *. apply (u_CQ_mix 0 _ _ (cw_Gamma w) (cw_Gammab w) (dctd_one qp' q1) q); try reflexivity; [lia|exact X1|exact C3].
      * intros _. rewrite En. split.
        -- intros r c Hr. cbn [d_H u_dctd_one q1]. unfold GECP. rewrite <- Hdim. change (dnu (q_dim qp') 0 + dnx (q_dim qp') 0)%nat with (nux qp' 0). rewrite mblk_i by lia. rewrite !Nat.sub_0_r. reflexivity.
        -- intros k Hk. cbn [d_gz u_dctd_one q1]. rewrite Ens. unfold VECCP. cbn [vset loop]. rewrite <- Hdim. change (dnu (q_dim qp') 0 + dnx (q_dim qp') 0)%nat with (nux qp' 0). rewrite vset_out by lia. rewrite vset_in' by lia. rewrite Nat.sub_0_r. reflexivity.
    + set (s0 := mkrst _ _ _ _ _ _ _ _ _). destruct (C5 ltac:(lia)) as (A & B). destruct A as (I1 & I2 & I3 & I4 & I5 & I6). cbn [sts rs_L rs_H] in I1, I2, I3, I4.
      change (nsum (N + 1) nu) with (nu2_of qp N). rewrite <- (u_nu2 N).
      assert (HR : RI qp' N (cw_Gamma w1) 0 (ursq_main qp' (cw_Gamma w1) N (nu2_of qp' N) idx s0)).
      { apply (ursq_main_R qp' N (cw_Gamma w1) (cw_L w) (d_H q) idx s0); [lia|exact Hidx|intros i; split; reflexivity|exact G3|reflexivity|exact Hpd|].
        intros m Hm Him. assert (HN : same_stage qp qp' N).
        { apply Hmark; [lia|]. destruct (idxc N) eqn:EN; [|reflexivity]. exfalso. destruct (Hpred EN) as [H|H]; [lia|]. pose proof (idx_of_above idxc N (N - 1)%nat ltac:(fold idx; lia)). congruence. }
        split; [apply u_PLlast; [exact HN|exact I4]|]. destruct (I1 m ltac:(lia) ltac:(lia)) as (J1 & J2 & _). unfold KH. rewrite u_uo, Hdim. split; [|split].
        - apply u_PL; [apply Hab; lia|apply I3; lia].
        - exact J1.
        - intros r c Hr Hc. rewrite J2 by lia. apply rsum_ext. intros l Hl. f_equal. symmetry. apply G2; [lia|lia| |replace (S (m - 1)) with m by lia; exact Hl]. rewrite u_kept. unfold kept, CondProofs.nuf. replace (S (m - 1)) with m by lia. exact Hr. }
      set (s := ursq_main _ _ _ _ _ s0) in *. clearbody s. pose proof HR as (_ & _ & _ & _ & R5 & _).
      unfold update_dctd, last_stage. cbn [q_dim]. rewrite ?Hdim. fold idx. rewrite Echg. destruct (Nat.eqb_spec N 0); [lia|]. cbn [andb cw_Gamma cw_Gammab cw_nbg].
      set (q1 := mkdqp _ _ _ _ _ _ _ _ _ _ _ _ _ _ _ _).
      set (qpx := mkqp D _ _ _ _ _ _ _ _ _ _ _).
      assert (Sx : forall i j, (i <= N)%nat -> (j < dnb D i + dng D i)%nat -> (q_idxs_rev qpx i j < 0)%Z) by (pose proof (nosoft_idxs qp' u_wf u_ns) as Q; rewrite Hdim in Q; exact Q).
      pose proof (u_dctd_main_same qpx N (cw_Gamma w1) (cw_Gammab w1) Sx Hns q1 (cw_nbg w1)) as U.
      pose proof (dctd_main_R qpx N (cw_Gamma w1) (cw_Gammab w1) q1 (cw_nbg w1)) as V.
      destruct (u_dctd_main qpx N (cw_Gamma w1) (cw_Gammab w1) q1 (cw_nbg w1)) as [qa ta]. destruct (dctd_main qpx N (cw_Gamma w1) (cw_Gammab w1) q1 (cw_nbg w1)) as [qb tb].
      cbn [fst] in V. destruct U as (U1 & U2 & U3 & U4).
      assert (Ex : forall P : oqp R -> Prop, P qp' -> P (mkqp D (q_BAbt qp') (q_RSQ qp') (q_DCt qp') (q_b qp') (q_rqz qp') (q_d qp') (q_mask qp') (q_m qp') (q_Z qp') (q_idxb qp') (q_idxs_rev qp'))) by (intros P HP; rewrite u_eta; exact HP).
      assert (EC : (count_nbb qpx N + (count_nbg qpx N + ngg_of qpx N) = count_nbb qp N + (count_nbg qp N + ngg_of qp N))%nat).
      { apply (Ex (fun z => count_nbb z N + (count_nbg z N + ngg_of z N) = count_nbb qp N + (count_nbg qp N + ngg_of qp N))%nat). rewrite u_nb2, u_ng2. reflexivity. }
      destruct V as (V1 & V2 & V3 & V4); [intros p Hp; rewrite EC in Hp; apply u_idxs_none; exact Hp|].
      assert (V1' : CQ qp' N (cw_Gamma w1) (cw_Gammab w1) qb) by (rewrite <- u_eta; exact V1).
      assert (Dg : d_gz qa = d_gz q1) by (rewrite U1; reflexivity). assert (DH : d_H qa = rs_H s) by (rewrite U1; reflexivity).
      split; [|split].
      * unfold condensed. cbn [cw_Gamma cw_Gammab]. rewrite Hdim. split; [|split; [exact G1|split; [|split; [intros; lia|intros _; split]]]].
        -- apply u_ddims. eapply ddims_ok_ext; [|exact C1]. rewrite U1. repeat split; reflexivity.
        -- apply (u_CQ_mix N _ _ (cw_Gamma w) (cw_Gammab w) qb q); [lia|exact V1'|exact C3|rewrite U1; reflexivity ..].
        -- apply (RI_sts qp' N _ s); [exact HR|reflexivity|symmetry; exact DH].
        -- intros k Hk. rewrite Dg, DH. cbn [d_gz q1]. rewrite u_nh in *. rewrite n_hard_eq in *. rewrite <- (u_nu2 N) in *. unfold ROWEX. rewrite vset_in' by lia. rsimp. rewrite R_lit11, Rmult_1_l. f_equal. lia.
      * intros i r c Hr. apply (proj1 (R5 i)). exact Hr.
      * intros i r c Hr. apply (proj2 (R5 i)). lia.
Qed.
End Update.
