(** PcsplitProps.v -- property C64: partial condensing in two calls (PART_COND_QP_COND_LHS once, then any number of PART_COND_QP_COND_RHS and
    PART_COND_QP_COND_SEED) is exact. *)
From Coq Require Import ZArith Bool Arith Lia Reals Lra List.
From Verif Require Import Base ArithF RSum Blas Blas2 OcpModel ResSpec ResProofs ResProofs2 CholProofs CholPD KktModel SolveModel SensModel DenModel DenSpec CondModel ExpModel CondSpec CondProofs CondCost CondCost2 CondCost3 CondCon CondCon2 CondCon3 CondSem CondFull CondProps ExpProofs ExpKkt ExpProps CsplitModel CsplitSpec CsplitProofs CsplitProofs2 CsplitCon CsplitFull CsplitProps PartModel PartSpec PartProofs PartSem PartProps PartExp PartKkt PartExpProps PcsplitModel PcsplitProofs PcsplitProofs2 PcsplitSeed PcsplitExp.
Import ListNotations.
Local Open Scope R_scope.

(** What the caller has to provide: legal index data in the QP; block sizes adding up to the horizon; a second QP object of the right sizes whose
    soft-constraint indices are as OCP_QP_CREATE leaves them; slacks numbered in the order in which the constraints of a block are scanned; for
    blocks condensed with square_root_alg a convex cost of the states; for blocks condensed with cond_alg = 1 honest diag_H_flag. *)
Definition pc_pre (alg0 sq diag : nat -> bool) (N2 : nat) (bs : nat -> nat) (qp p0 : oqp R) : Prop :=
  qp_wf qp /\ blocks_ok (dN (q_dim qp)) N2 bs /\ part_size qp N2 bs p0 /\
  (forall ii c, (ii <= N2)%nat -> (c < dnb (q_dim p0) ii + dng (q_dim p0) ii)%nat -> q_idxs_rev p0 ii c = (-1)%Z) /\
  (forall ii, (ii <= N2)%nat -> (ii = N2 /\ bs N2 = 0%nat) \/ slack_order (block qp bs ii) (blen N2 bs ii)) /\
  (forall ii, (ii <= N2)%nat -> if alg0 ii then sq ii = false \/ states_convex qp else diag_flag_ok qp diag).

(** the calls that may follow the condensing of the matrices: the vectors of a QP, or a seed for the sensitivities of a QP *)
Inductive call := Vecs (qk : oqp R) | Seed (qk : oqp R) (sd : seed R).
Definition call_qp (c : call) : oqp R := match c with Vecs qk => qk | Seed qk _ => qk end.
(** second QP, second seed object, workspace *)
Definition cst := (oqp R * seed R * (nat -> sws2 R))%type.
Definition do_call (alg0 diag : nat -> bool) (N2 : nat) (bs : nat -> nat) (s : cst) (c : call) : cst :=
  let '(p, s2, ws) := s in
  match c with
  | Vecs qk => let r := part_rhs (last_default N2) alg0 diag bs qk p ws in (rp_q2 r, s2, rp_ws r)
  | Seed qk sd => let r := part_seed (last_default N2) alg0 diag bs N2 qk sd s2 ws in (p, sp_s2 r, sp_ws r)
  end.
Definition pc_run (alg0 sq diag : nat -> bool) (N2 : nat) (bs : nat -> nat) (qp : oqp R) (cs : list call) (p0 : oqp R) (s0 : seed R) (ws : nat -> sws2 R) : cst :=
  let l := part_lhs (last_default N2) alg0 sq diag bs qp p0 ws in fold_left (do_call alg0 diag N2 bs) cs (lp_q2 l, s0, lp_ws l).
(** the second QP after the matrices of [qp], the calls [cs] and then the vectors of [qk] *)
Notation pc_qp alg0 sq diag N2 bs qp cs qk p0 s0 ws := (fst (fst (pc_run alg0 sq diag N2 bs qp (cs ++ [Vecs qk]) p0 s0 ws))).
(** the second seed after the calls [cs] and then a seed [sd] for [qk] *)
Notation pc_seed alg0 sq diag N2 bs qp cs qk sd p0 s0 ws := (snd (fst (pc_run alg0 sq diag N2 bs qp (cs ++ [Seed qk sd]) p0 s0 ws))).
Definition calls_ok (qp : oqp R) (cs : list call) : Prop := Forall (fun c => same_matrices qp (call_qp c)) cs.

Section Calls.
Variables (alg0 sq diag : nat -> bool) (N2 : nat) (bs : nat -> nat) (qp p0 : oqp R).
Hypothesis HP : pc_pre alg0 sq diag N2 bs qp p0.
Lemma pc_alg ii : (ii <= N2)%nat -> alg_blk (alg0 ii) (sq ii) (from (start bs ii) diag) (block qp bs ii) (blen N2 bs ii).
Proof.
  intros Hii. destruct HP as (_ & HB & _ & _ & _ & H). specialize (H ii Hii). unfold alg_blk. destruct (alg0 ii).
  - destruct H as [H|H]; [left; exact H|right]. intros n Hn. pose proof (in_le _ N2 bs HB ii n Hii ltac:(lia)) as L. exact (convex_psd qp (start bs ii + n) H ltac:(lia)).
  - intros n r c Hn Hd Hr Hc. pose proof (in_le _ N2 bs HB ii n Hii ltac:(lia)) as L. apply (H (start bs ii + n)%nat r c); [lia|exact Hd|exact Hr|exact Hc].
Qed.
Notation PInv := (PI p0 N2 bs alg0).
Lemma pc_lhs ws : let s := part_lhs (last_default N2) alg0 sq diag bs qp p0 ws in PInv qp (lp_q2 s) (lp_ws s) /\ same_matrices qp (lp_qp s) /\ exists RSQ, lp_qp s = with_mats qp (q_BAbt qp) RSQ.
Proof. destruct HP as (H1 & H2 & H3 & H4 & H5 & _). apply part_lhs_R; try assumption. exact pc_alg. Qed.
Lemma pc_rhs qk p ws : same_matrices qp qk -> PInv qp p ws -> let s := part_rhs (last_default N2) alg0 diag bs qk p ws in PInv qp (rp_q2 s) (rp_ws s) /\
  (forall ii, (ii <= N2)%nat -> exists md, block_sem (last_default N2 ii) (block qk bs ii) (setm (stage_q (rp_q2 s) ii) md) (q_BAbt (rp_q2 s) ii) (q_b (rp_q2 s) ii)).
Proof.
  intros HM HI. destruct HP as (H1 & H2 & H3 & H4 & H5 & _). cbv zeta.
  pose proof (part_rhs_R qp p0 N2 bs alg0 sq diag H1 H2 H3 H4 H5 pc_alg qk HM p ws) as X. cbv zeta in X. destruct X as (X1 & X2); [apply (PI_tr p0 N2 bs alg0 qp qk); assumption|]. split; [|exact X2]. apply (PI_tr p0 N2 bs alg0 qk qp); [apply sm_sym; exact HM|exact X1].
Qed.
Lemma pc_sd qk sd s2 p ws : same_matrices qp qk -> PInv qp p ws -> let s := part_seed (last_default N2) alg0 diag bs N2 qk sd s2 ws in PInv qp p (sp_ws s) /\ sd_m (sp_s2 s) = sd_m s2 /\
  exists p', q_dim p' = q_dim p /\ q_BAbt p' = q_BAbt p /\ q_RSQ p' = q_RSQ p /\ q_DCt p' = q_DCt p /\ q_Z p' = q_Z p /\ q_idxb p' = q_idxb p /\ q_idxs_rev p' = q_idxs_rev p /\
    q_rqz p' = sd_g (sp_s2 s) /\ q_b p' = sd_b (sp_s2 s) /\ q_d p' = sd_d (sp_s2 s) /\
    forall ii, (ii <= N2)%nat -> exists md, block_sem (last_default N2 ii) (block (seed_qp qk sd) bs ii) (setm (stage_q p' ii) md) (q_BAbt p' ii) (q_b p' ii).
Proof.
  intros HM HI. pose proof HP as (H1 & H2 & H3 & H4 & H5 & _). cbv zeta. assert (En : N2 = dN (q_dim p)) by (rewrite (proj1 HI); symmetry; exact (proj1 H3)).
  pose proof (seed_sim (last_default N2) alg0 diag bs qk p sd s2 ws) as S. cbv zeta in S. rewrite <- En in S.
  assert (HM' : same_matrices qp (seed_qp qk sd)) by exact HM.
  pose proof (part_rhs_R qp (seed_qp p0 s2) N2 bs alg0 sq diag H1 H2 H3 H4 H5 pc_alg (seed_qp qk sd) HM' (seed_qp p s2) ws) as X. cbv zeta in X.
  set (r := part_rhs _ _ _ _ _ _ _) in *. set (s := part_seed _ _ _ _ _ _ _ _ _) in *. clearbody r s.
  destruct S as (S1 & S2 & S3 & S4 & S5 & S6 & S7 & S8 & S9 & S10 & S11 & S12 & S13).
  destruct X as (X1 & X2).
  { destruct (PI_tr p0 N2 bs alg0 qp (seed_qp qk sd) p ws HM' HI) as (I1 & I2 & I3). split; [exact I1|]. split; [reflexivity|]. exact I3. }
  split; [|split; [exact S4|exists (rp_q2 r)]].
  - destruct HI as (I1 & I2 & _). apply (PI_tr (seed_qp p0 s2) N2 bs alg0 (seed_qp qk sd) qp) in X1; [|apply sm_sym; exact HM']. destruct X1 as (_ & _ & X3). split; [exact I1|]. split; [exact I2|]. intros ii Hii. specialize (X3 ii Hii). rewrite S5.
    unfold BI in *. cbv zeta in *. cbn [stage_q d_idxb d_idxs_rev d_Ct d_Z d_H] in *. rewrite S7, S8, S9, S10, S11, S12 in X3. unfold ddims_ok in *. cbn [stage_q d_nv d_ne d_nb d_ng d_ns] in *. rewrite S6 in X3. exact X3.
  - repeat (split; [first [assumption|symmetry; assumption]|]). exact X2.
Qed.
Lemma pc_inv cs s : calls_ok qp cs -> PInv qp (fst (fst s)) (snd s) -> let s' := fold_left (do_call alg0 diag N2 bs) cs s in PInv qp (fst (fst s')) (snd s') /\ sd_m (snd (fst s')) = sd_m (snd (fst s)).
Proof.
  revert s. induction cs as [|c cs IH]; intros [[p s2] ws] Hc HI; [split; [exact HI|reflexivity]|]. inversion Hc as [|? ? Hc1 Hc2]; subst. cbn [fold_left]. cbv zeta in *.
  destruct c as [qk|qk sd]; cbn [do_call call_qp fst snd] in *.
  - apply IH; [exact Hc2|]. exact (proj1 (pc_rhs qk p ws Hc1 HI)).
  - destruct (pc_sd qk sd s2 p ws Hc1 HI) as (X1 & X2 & _). rewrite <- X2. apply (IH (p, _, _)); [exact Hc2|exact X1].
Qed.
Lemma pc_facts cs qk s0 ws : calls_ok qp cs -> same_matrices qp qk -> let p := pc_qp alg0 sq diag N2 bs qp cs qk p0 s0 ws in
  (forall ii, q_m p ii = q_m p0 ii) /\ blocks_ok (dN (q_dim qk)) N2 bs /\ part_size qk N2 bs p /\
  exists md, forall ii, (ii <= N2)%nat -> block_sem (last_default N2 ii) (block qk bs ii) (stage_q (with_m p md) ii) (q_BAbt (with_m p md) ii) (q_b (with_m p md) ii).
Proof.
  intros HC HM. cbv zeta. unfold pc_run. rewrite fold_left_app. cbn [fold_left].
  pose proof (pc_inv cs (lp_q2 (part_lhs (last_default N2) alg0 sq diag bs qp p0 ws), s0, lp_ws (part_lhs (last_default N2) alg0 sq diag bs qp p0 ws)) HC (proj1 (pc_lhs ws))) as I. cbv zeta in I.
  destruct (fold_left _ cs _) as [[p s2] ws2]. cbn [fst snd do_call] in *. destruct I as (I & _). destruct (pc_rhs qk p ws2 HM I) as ((J1 & J2 & _) & J4). split; [exact J2|].
  pose proof HP as (H1 & H2 & H3 & _). assert (ED : q_dim qk = q_dim qp) by exact (proj1 HM). split; [rewrite ED; exact H2|]. split; [|apply sem_with_m; exact J4].
  clear J4. revert HM J1 H3. clear. set (r := rp_q2 _). clearbody r. intros (E1 & E2 & E3 & E4 & E5 & _) J1. destruct qp as [D BA RSQ DCt b rqz d mask m Z idxb idxs]. destruct qk as [D' BA' RSQ' DCt' b' rqz' d' mask' m' Z' idxb' idxs'].
  cbn [q_dim q_DCt q_Z q_idxb q_idxs_rev] in *. subst. unfold part_size. rewrite J1. exact (fun H => H).
Qed.
Lemma pc_seed_facts cs qk sd s0 ws : calls_ok qp cs -> same_matrices qp qk -> let '(p, s2, _) := pc_run alg0 sq diag N2 bs qp (cs ++ [Seed qk sd]) p0 s0 ws in
  sd_m s2 = sd_m s0 /\ exists p', q_dim p' = q_dim p /\ q_BAbt p' = q_BAbt p /\ q_RSQ p' = q_RSQ p /\ q_DCt p' = q_DCt p /\ q_Z p' = q_Z p /\ q_idxb p' = q_idxb p /\ q_idxs_rev p' = q_idxs_rev p /\
    q_rqz p' = sd_g s2 /\ q_b p' = sd_b s2 /\ q_d p' = sd_d s2 /\ part_size (seed_qp qk sd) N2 bs p' /\
    forall ii, (ii <= N2)%nat -> block_sem (last_default N2 ii) (block (seed_qp qk sd) bs ii) (stage_q p' ii) (q_BAbt p' ii) (q_b p' ii).
Proof.
  intros HC HM. unfold pc_run. rewrite fold_left_app. cbn [fold_left].
  pose proof (pc_inv cs (lp_q2 (part_lhs (last_default N2) alg0 sq diag bs qp p0 ws), s0, lp_ws (part_lhs (last_default N2) alg0 sq diag bs qp p0 ws)) HC (proj1 (pc_lhs ws))) as I. cbv zeta in I.
  destruct (fold_left _ cs _) as [[p s2] ws2]. cbn [fst snd do_call] in *. destruct I as (I & Im). destruct (pc_sd qk sd s2 p ws2 HM I) as (_ & J1 & p' & J2 & J3 & J4 & J5 & J6 & J7 & J8 & J9 & J10 & J11 & J12).
  split; [congruence|]. destruct (sem_with_m (seed_qp qk sd) p' N2 bs J12) as (md & K). exists (with_m p' md). cbn [with_m q_dim q_BAbt q_RSQ q_DCt q_Z q_idxb q_idxs_rev q_rqz q_b q_d].
  do 10 (split; [assumption|]). split; [|exact K].
  pose proof HP as (_ & _ & H3 & _). destruct I as (I & _). rewrite I in J2. clear - HM J2 H3. destruct HM as (E1 & E2 & E3 & E4 & E5 & _). unfold part_size, with_m. cbn [q_dim]. rewrite J2. clear J2. destruct qp as [D BA RSQ DCt b rqz d mask m Z idxb idxs]. destruct qk as [D' BA' RSQ' DCt' b' rqz' d' mask' m' Z' idxb' idxs'].
  cbn [q_dim q_DCt q_Z q_idxb q_idxs_rev] in *. subst. exact H3.
Qed.
End Calls.

(** *** the objective of the second QP at z is the objective of the QP at the trajectory of z, up to a constant *)
Theorem C64_objective : forall alg0 sq diag N2 bs qp cs qk p0 s0 ws, pc_pre alg0 sq diag N2 bs qp p0 -> calls_ok qp cs -> same_matrices qp qk ->
  let p := pc_qp alg0 sq diag N2 bs qp cs qk p0 s0 ws in exists K, forall z, cost p z = cost qk (ptraj qk N2 bs z) + K.
Proof.
  intros alg0 sq diag N2 bs qp cs qk p0 s0 ws HP HC HM. cbv zeta. destruct (pc_facts alg0 sq diag N2 bs qp p0 HP cs qk s0 ws HC HM) as (_ & F1 & F2 & md & F3). set (p := fst (fst _)) in *. clearbody p.
  exact (part_cost qk (with_m p md) N2 bs F1 F2 F3).
Qed.
(** its constraints are, one to one and block by block, those of the QP at the trajectory: same distance to the bound, same mask.  The complementarity
    targets m of the second QP are left alone. *)
Theorem C64_constraints : forall alg0 sq diag N2 bs qp cs qk p0 s0 ws, pc_pre alg0 sq diag N2 bs qp p0 -> calls_ok qp cs -> same_matrices qp qk ->
  let p := pc_qp alg0 sq diag N2 bs qp cs qk p0 s0 ws in
  part_size qk N2 bs p /\ qp_wf p /\ (forall ii, q_m p ii = q_m p0 ii) /\
  exists pos, part_numbering qk p N2 bs pos /\ forall z i c, (i <= dN (q_dim qk))%nat -> (c < nct (q_dim qk) i)%nat -> let ii := block_of N2 bs i in
    con p z ii (pos i c) - q_d p ii (pos i c) = con qk (ptraj qk N2 bs z) i c - q_d qk i c /\ q_mask p ii (pos i c) = q_mask qk i c.
Proof.
  intros alg0 sq diag N2 bs qp cs qk p0 s0 ws HP HC HM. cbv zeta. destruct (pc_facts alg0 sq diag N2 bs qp p0 HP cs qk s0 ws HC HM) as (Fm & F1 & F2 & md & F3). set (p := fst (fst _)) in *. clearbody p.
  split; [exact F2|]. split; [|split; [exact Fm|]].
  - intros ii Hii. rewrite (proj1 F2) in Hii. destruct (F3 ii Hii) as (_ & W & _). exact W.
  - exists (ppos qk N2 bs). split; [exact (part_num qk (with_m p md) N2 bs F1 F3)|]. intros z i c Hi Hc. destruct (part_con qk (with_m p md) N2 bs F1 F3 z i c Hi Hc) as (A & B & _). split; [exact A|exact B].
Qed.
(** its dynamics are those of the QP at the last stages of the blocks *)
Theorem C64_dynamics : forall alg0 sq diag N2 bs qp cs qk p0 s0 ws, pc_pre alg0 sq diag N2 bs qp p0 -> calls_ok qp cs -> same_matrices qp qk ->
  let p := pc_qp alg0 sq diag N2 bs qp cs qk p0 s0 ws in
  forall z ii j, (ii < N2)%nat -> (j < dnx (q_dim p) (S ii))%nat -> dyn p z ii j = dyn qk (ptraj qk N2 bs z) (start bs (S ii) - 1) j.
Proof.
  intros alg0 sq diag N2 bs qp cs qk p0 s0 ws HP HC HM. cbv zeta. destruct (pc_facts alg0 sq diag N2 bs qp p0 HP cs qk s0 ws HC HM) as (_ & F1 & F2 & md & F3). set (p := fst (fst _)) in *. clearbody p.
  intros z ii j. exact (part_dyn qk (with_m p md) N2 bs F1 F2 F3 z ii j).
Qed.

Lemma gen_equivalent N2 bs qp p K pos : blocks_ok (dN (q_dim qp)) N2 bs -> part_size qp N2 bs p -> part_numbering qp p N2 bs pos ->
  (forall z i c, (i <= dN (q_dim qp))%nat -> (c < nct (q_dim qp) i)%nat -> let ii := block_of N2 bs i in con p z ii (pos i c) - q_d p ii (pos i c) = con qp (ptraj qp N2 bs z) i c - q_d qp i c /\ q_mask p ii (pos i c) = q_mask qp i c) ->
  (forall z, cost p z = cost qp (ptraj qp N2 bs z) + K) ->
  (forall z ii j, (ii < N2)%nat -> (j < dnx (q_dim p) (S ii))%nat -> dyn p z ii j = dyn qp (ptraj qp N2 bs z) (start bs (S ii) - 1) j) ->
  (forall z, feasible p z <-> feasible qp (ptraj qp N2 bs z)) /\
  (forall z, ocp_optimal p z <-> ocp_optimal qp (ptraj qp N2 bs z)) /\
  (forall z, ocp_optimal qp z -> exists y, same_point qp (ptraj qp N2 bs y) z /\ ocp_optimal p y).
Proof.
  intros HB S (M1 & M2 & M3) C O DY. destruct (C43_trajectories N2 bs qp HB) as (T1 & _ & _ & T4). set (N := dN (q_dim qp)) in *.
  assert (En : dN (q_dim p) = N2) by exact (proj1 S).
  assert (F : forall z, feasible p z <-> feasible qp (ptraj qp N2 bs z)).
  { intros z. split.
    - intros (Hd & H). split.
      + intros i j Hi Hj. destruct (end_dec qp N2 bs i Hi) as [(ii & A & E)|A]; [|apply T1; assumption].
        assert (Ei : i = (start bs (Datatypes.S ii) - 1)%nat) by lia. rewrite Ei. rewrite <- DY; [|exact A|destruct (proj2 S (Datatypes.S ii) ltac:(lia)) as (_ & S2 & _); rewrite S2, <- E; exact Hj].
        apply Hd; [lia|]. destruct (proj2 S (Datatypes.S ii) ltac:(lia)) as (_ & S2 & _). rewrite S2, <- E. exact Hj.
      + intros i c Hi Hc Hm. destruct (C z i c Hi Hc) as (C1 & C2). destruct (M1 i c Hi Hc) as (L1 & L2). specialize (H (block_of N2 bs i) (pos i c) ltac:(lia) L2). rewrite C2 in H. specialize (H Hm). lra.
    - intros (Hd & H). split.
      + intros ii j Hii Hj. rewrite En in Hii. rewrite (DY z ii j Hii Hj). destruct (proj2 S (Datatypes.S ii) ltac:(lia)) as (_ & S2 & _). rewrite S2 in Hj. pose proof (start_S N N2 bs HB ii Hii) as Es. pose proof (in_le N N2 bs HB (Datatypes.S ii) 0 ltac:(lia) ltac:(lia)) as L.
        apply Hd; [lia|]. replace (Datatypes.S (start bs (Datatypes.S ii) - 1)) with (start bs (Datatypes.S ii)) by lia. exact Hj.
      + intros ii r Hii Hr Hm. rewrite En in Hii. destruct (M3 ii r Hii Hr) as (i & c & Hi & Hc & Eb & <-). destruct (C z i c Hi Hc) as (C1 & C2). rewrite Eb in C1, C2. rewrite C2 in Hm. specialize (H i c Hi Hc Hm). lra. }
  assert (P : forall z, feasible qp z -> exists y, same_point qp (ptraj qp N2 bs y) z /\ feasible p y).
  { intros z (Hz1 & Hz2). destruct (T4 z) as (y & Hy); [intros i j Hi Hj _; apply Hz1; assumption|]. exists y. split; [exact Hy|]. apply F. split.
    - intros i j Hi Hj. rewrite (same_dyn qp _ z i j Hy Hi Hj). apply Hz1; assumption.
    - intros i c Hi Hc Hm. rewrite (same_con qp _ z i c Hy Hi). apply Hz2; assumption. }
  assert (Opt : forall z, ocp_optimal p z <-> ocp_optimal qp (ptraj qp N2 bs z)).
  { intros z. split.
    - intros (H1 & H2). split; [apply F; exact H1|]. intros y Hy. destruct (P y Hy) as (vy & E1 & E2). rewrite <- (same_cost qp _ _ E1). specialize (H2 vy E2). rewrite !O in H2. lra.
    - intros (H1 & H2). split; [apply F; exact H1|]. intros y Hy. apply F in Hy. specialize (H2 _ Hy). rewrite !O. lra. }
  split; [exact F|]. split; [exact Opt|]. intros z (Hz1 & Hz2). destruct (P z Hz1) as (y & E1 & E2). exists y. split; [exact E1|]. apply Opt. split; [apply F; exact E2|]. intros u Hu. rewrite (same_cost qp _ _ E1). apply Hz2. exact Hu.
Qed.
(** *** the two problems are equivalent: same feasible set, same minimisers *)
Theorem C64_equivalent : forall alg0 sq diag N2 bs qp cs qk p0 s0 ws, pc_pre alg0 sq diag N2 bs qp p0 -> calls_ok qp cs -> same_matrices qp qk ->
  let p := pc_qp alg0 sq diag N2 bs qp cs qk p0 s0 ws in
  (forall z, feasible p z <-> feasible qk (ptraj qk N2 bs z)) /\
  (forall z, ocp_optimal p z <-> ocp_optimal qk (ptraj qk N2 bs z)) /\
  (forall z, ocp_optimal qk z -> exists y, same_point qk (ptraj qk N2 bs y) z /\ ocp_optimal p y).
Proof.
  intros alg0 sq diag N2 bs qp cs qk p0 s0 ws HP HC HM. cbv zeta. destruct (C64_objective alg0 sq diag N2 bs qp cs qk p0 s0 ws HP HC HM) as (K & O). destruct (C64_constraints alg0 sq diag N2 bs qp cs qk p0 s0 ws HP HC HM) as (S & _ & _ & pos & M & C).
  pose proof (C64_dynamics alg0 sq diag N2 bs qp cs qk p0 s0 ws HP HC HM) as DY. cbv zeta in DY. set (p := fst (fst _)) in *. clearbody p.
  apply (gen_equivalent N2 bs qk p K pos); try assumption. destruct HP as (_ & H2 & _). destruct HM as (E & _). rewrite E. exact H2.
Qed.
(** in particular the two calls on one QP give the problem that the single call PART_COND_QP_COND gives *)
Theorem C64_same_as_single_call : forall alg0 sq diag N2 bs qp p0 s0 ws ws', part_pre alg0 diag N2 bs qp p0 -> pc_pre alg0 sq diag N2 bs qp p0 ->
  let p := pc_qp alg0 sq diag N2 bs qp [] qp p0 s0 ws in let p' := part_qp alg0 sq diag N2 bs qp p0 ws' in
  (exists K, forall z, cost p z = cost p' z + K) /\ (forall z, feasible p z <-> feasible p' z) /\ (forall z, ocp_optimal p z <-> ocp_optimal p' z).
Proof.
  intros alg0 sq diag N2 bs qp p0 s0 ws ws' H1 H2. cbv zeta. destruct (C64_objective alg0 sq diag N2 bs qp [] qp p0 s0 ws H2 (Forall_nil _) (same_mat_refl qp)) as (K & O). destruct (C64_equivalent alg0 sq diag N2 bs qp [] qp p0 s0 ws H2 (Forall_nil _) (same_mat_refl qp)) as (E1 & E2 & _).
  destruct (C43_objective alg0 sq diag N2 bs qp p0 ws' H1) as (K' & O'). destruct (C43_equivalent alg0 sq diag N2 bs qp p0 ws' H1) as (F1 & F2 & _).
  split; [exists (K - K'); intros z; rewrite O, O'; lra|]. split; intros z; [rewrite E1, F1|rewrite E2, F2]; reflexivity.
Qed.
(** the first call writes parts of RSQrq of the QP object that carry no information: the object can be used for the other calls *)
Theorem C64_ocp_qp_unchanged : forall alg0 sq diag N2 bs qp p0 ws, pc_pre alg0 sq diag N2 bs qp p0 ->
  same_matrices qp (lp_qp (part_lhs (last_default N2) alg0 sq diag bs qp p0 ws)) /\ exists RSQ, lp_qp (part_lhs (last_default N2) alg0 sq diag bs qp p0 ws) = with_mats qp (q_BAbt qp) RSQ.
Proof. intros alg0 sq diag N2 bs qp p0 ws HP. destruct (pc_lhs alg0 sq diag N2 bs qp p0 HP ws) as (_ & A & B). split; [exact A|exact B]. Qed.

(** *** the seed: with the second seed in place of the vectors of the second QP, it is the condensed form of the QP with the seed in place of its vectors;
    the complementarity targets of the seed are not condensed; the second QP is not touched *)
Theorem C64_seed : forall alg0 sq diag N2 bs qp cs qk sd p0 s0 ws, pc_pre alg0 sq diag N2 bs qp p0 -> calls_ok qp cs -> same_matrices qp qk ->
  let '(p, s2, _) := pc_run alg0 sq diag N2 bs qp (cs ++ [Seed qk sd]) p0 s0 ws in let u := seed_qp qk sd in let v := seed_qp p s2 in
  (exists K, forall z, cost v z = cost u (ptraj u N2 bs z) + K) /\
  (forall z ii j, (ii < N2)%nat -> (j < dnx (q_dim p) (S ii))%nat -> dyn v z ii j = dyn u (ptraj u N2 bs z) (start bs (S ii) - 1) j) /\
  (exists pos, part_numbering u v N2 bs pos /\ forall z i c, (i <= dN (q_dim qk))%nat -> (c < nct (q_dim qk) i)%nat -> let ii := block_of N2 bs i in
     con v z ii (pos i c) - sd_d s2 ii (pos i c) = con u (ptraj u N2 bs z) i c - sd_d sd i c) /\
  sd_m s2 = sd_m s0 /\ p = fst (fst (pc_run alg0 sq diag N2 bs qp cs p0 s0 ws)).
Proof.
  intros alg0 sq diag N2 bs qp cs qk sd p0 s0 ws HP HC HM. pose proof (pc_seed_facts alg0 sq diag N2 bs qp p0 HP cs qk sd s0 ws HC HM) as X.
  assert (EP : fst (fst (pc_run alg0 sq diag N2 bs qp (cs ++ [Seed qk sd]) p0 s0 ws)) = fst (fst (pc_run alg0 sq diag N2 bs qp cs p0 s0 ws))).
  { unfold pc_run. rewrite fold_left_app. cbn [fold_left]. destruct (fold_left _ cs _) as [[p s2] w]. reflexivity. }
  destruct (pc_run alg0 sq diag N2 bs qp (cs ++ [Seed qk sd]) p0 s0 ws) as [[p s2] w]. cbn [fst] in EP. destruct X as (X0 & p' & E1 & E2 & E3 & E4 & E5 & E6 & E7 & E8 & E9 & E10 & F2 & F3). cbv zeta. set (u := seed_qp qk sd) in *.
  assert (F1 : blocks_ok (dN (q_dim u)) N2 bs). { destruct HP as (_ & H2 & _). destruct HM as (E & _). change (q_dim u) with (q_dim qk). rewrite E. exact H2. }
  assert (EV : seed_qp p s2 = mkqp (q_dim p') (q_BAbt p') (q_RSQ p') (q_DCt p') (q_b p') (q_rqz p') (q_d p') (q_mask p) (sd_m s2) (q_Z p') (q_idxb p') (q_idxs_rev p')).
  { unfold seed_qp, SolveModel.with_rhs. rewrite E1, E2, E3, E4, E5, E6, E7, E8, E9, E10. reflexivity. }
  rewrite <- E1, <- E10. split; [|split; [|split; [|split; [exact X0|exact EP]]]]; rewrite ?EV.
  - exact (part_cost u p' N2 bs F1 F2 F3).
  - intros z ii j. exact (part_dyn u p' N2 bs F1 F2 F3 z ii j).
  - exists (ppos u N2 bs). split; [exact (part_num u p' N2 bs F1 F3)|]. intros z i c Hi Hc. exact (proj1 (part_con u p' N2 bs F1 F3 z i c Hi Hc)).
Qed.

(** *** expanding a solution of the second QP: every residual of the KKT conditions is zero or one of the second QP; lam and t are copied *)
Theorem C64_expanded : forall alg0 sq diag N2 bs qp cs qk p0 s0 ws ps sol ws2, pc_pre alg0 sq diag N2 bs qp p0 -> calls_ok qp cs -> same_matrices qp qk ->
  let p := pc_qp alg0 sq diag N2 bs qp cs qk p0 s0 ws in
  let s := e_sol (part_expand (last_default N2) (fun _ => true) (fun _ => true) (fun _ => true) bs N2 qk ps sol ws2) in let D := q_dim qk in
  ocp_lam_masked p (s_lam ps) ->
  same_point qk (s_ux s) (ptraj qk N2 bs (s_ux ps)) /\
  (forall i k, (i <= dN D)%nat -> (k < nvt D i)%nat -> part_eliminated qk N2 bs i k -> kkt_g qk (s_ux s) (s_pi s) (s_lam s) i k = 0) /\
  (forall i k, (i <= dN D)%nat -> (k < nvt D i)%nat -> ~ part_eliminated qk N2 bs i k -> let ii := block_of N2 bs i in exists k2, (ii <= N2)%nat /\ (k2 < nvt (q_dim p) ii)%nat /\
     s_ux s i k = s_ux ps ii k2 /\ kkt_g qk (s_ux s) (s_pi s) (s_lam s) i k = kkt_g p (s_ux ps) (s_pi ps) (s_lam ps) ii k2) /\
  (forall i j, (i < dN D)%nat -> (j < dnx D (S i))%nat -> dyn qk (s_ux s) i j = 0 \/ exists ii, (ii < N2)%nat /\ (j < dnx (q_dim p) (S ii))%nat /\ dyn qk (s_ux s) i j = dyn p (s_ux ps) ii j) /\
  (forall i c, (i <= dN D)%nat -> (c < nct D i)%nat -> let ii := block_of N2 bs i in exists c2, (ii <= N2)%nat /\ (c2 < nct (q_dim p) ii)%nat /\ s_lam s i c = s_lam ps ii c2 /\ s_t s i c = s_t ps ii c2 /\
     q_mask p ii c2 = q_mask qk i c /\ kkt_d qk (s_ux s) (s_t s) i c = kkt_d p (s_ux ps) (s_t ps) ii c2).
Proof.
  intros alg0 sq diag N2 bs qp cs qk p0 s0 ws ps sol ws2 HP HC HM. cbv zeta. destruct (pc_facts alg0 sq diag N2 bs qp p0 HP cs qk s0 ws HC HM) as (_ & F1 & F2 & md & F3). set (p := fst (fst _)) in *. clearbody p. intros HL.
  pose proof (gen_residuals N2 bs qk (with_m p md) ps sol ws2 F1 F2 F3 HL) as (Q1 & Q2 & Q3 & Q4). pose proof (gen_facts N2 bs qk ps sol ws2 F1 true true) as (X1 & X2 & _). specialize (X2 eq_refl).
  split; [exact X1|]. split; [exact Q1|]. split; [exact Q2|]. split; [exact Q3|]. clear Q1 Q2 Q3 Q4. set (s := e_sol _) in *. clearbody s.
  intros i c Hi Hc. cbv zeta. exists (ppos qk N2 bs i c). destruct (part_num qk (with_m p md) N2 bs F1 F3) as (M1 & _). destruct (M1 i c Hi Hc) as (L1 & L2). destruct (X2 i c Hi Hc) as (Y1 & Y2). destruct (part_con qk (with_m p md) N2 bs F1 F3 (s_ux ps) i c Hi Hc) as (C1 & C2 & _). cbn [with_m q_d q_mask] in C1, C2.
  split; [exact L1|]. split; [exact L2|]. split; [exact Y1|]. split; [exact Y2|]. split; [exact C2|]. unfold kkt_d. rewrite (same_con qk _ _ i c X1 Hi), C2, Y2. f_equal. change (con (with_m p md)) with (con p) in C1. lra.
Qed.
Theorem C64_optimal : forall alg0 sq diag N2 bs qp cs qk p0 s0 ws ps sol ws2 dineq deq, pc_pre alg0 sq diag N2 bs qp p0 -> calls_ok qp cs -> same_matrices qp qk ->
  ocp_optimal (pc_qp alg0 sq diag N2 bs qp cs qk p0 s0 ws) (s_ux ps) ->
  ocp_optimal qk (s_ux (e_sol (part_expand (last_default N2) (fun _ => true) (fun _ => dineq) (fun _ => deq) bs N2 qk ps sol ws2))).
Proof.
  intros alg0 sq diag N2 bs qp cs qk p0 s0 ws ps sol ws2 dineq deq HP HC HM HO. apply (proj1 (proj2 (C64_equivalent alg0 sq diag N2 bs qp cs qk p0 s0 ws HP HC HM))) in HO.
  destruct (pc_facts alg0 sq diag N2 bs qp p0 HP cs qk s0 ws HC HM) as (_ & F1 & _). pose proof (gen_facts N2 bs qk ps sol ws2 F1 dineq deq) as (X & _). cbv zeta in X. set (s := e_sol _) in *. clearbody s.
  destruct HO as ((O1 & O2) & O3). split; [split|].
  - intros i j Hi Hj. rewrite (same_dyn qk _ _ i j X Hi Hj). apply O1; assumption.
  - intros i c Hi Hc Hm. rewrite (same_con qk _ _ i c X Hi). apply O2; assumption.
  - intros y Hy. rewrite (same_cost qk _ _ X). apply O3. exact Hy.
Qed.
(** *** expanding a solution of the linear system of the sensitivities (PART_COND_QP_EXPAND_SOL_SEED, x_part_cond.c lines 866-945: EXPAND_SOL with the seed in place
    of the vectors): every residual is zero or one of the system of the second QP with the second seed; lam and t are copied.  The seed follows the vectors of the same QP. *)
Theorem C64_seed_expanded : forall alg0 sq diag N2 bs qp cs qk sd p0 s0 ws ps sol ws2, pc_pre alg0 sq diag N2 bs qp p0 -> calls_ok qp cs -> same_matrices qp qk ->
  let '(p, s2, _) := pc_run alg0 sq diag N2 bs qp (cs ++ [Vecs qk; Seed qk sd]) p0 s0 ws in let u := seed_qp qk sd in let v := seed_qp p s2 in
  let s := e_sol (part_expand (last_default N2) (fun _ => true) (fun _ => true) (fun _ => true) bs N2 u ps sol ws2) in let D := q_dim qk in
  ocp_lam_masked p (s_lam ps) ->
  (forall i k, (i <= dN D)%nat -> (k < nvt D i)%nat -> part_eliminated qk N2 bs i k -> kkt_g u (s_ux s) (s_pi s) (s_lam s) i k = 0) /\
  (forall i k, (i <= dN D)%nat -> (k < nvt D i)%nat -> ~ part_eliminated qk N2 bs i k -> let ii := block_of N2 bs i in exists k2, (ii <= N2)%nat /\ (k2 < nvt (q_dim p) ii)%nat /\
     s_ux s i k = s_ux ps ii k2 /\ kkt_g u (s_ux s) (s_pi s) (s_lam s) i k = kkt_g v (s_ux ps) (s_pi ps) (s_lam ps) ii k2) /\
  (forall i j, (i < dN D)%nat -> (j < dnx D (S i))%nat -> dyn u (s_ux s) i j = 0 \/ exists ii, (ii < N2)%nat /\ (j < dnx (q_dim p) (S ii))%nat /\ dyn u (s_ux s) i j = dyn v (s_ux ps) ii j) /\
  (forall i c, (i <= dN D)%nat -> (c < nct D i)%nat -> let ii := block_of N2 bs i in exists c2, (ii <= N2)%nat /\ (c2 < nct (q_dim p) ii)%nat /\ s_lam s i c = s_lam ps ii c2 /\ s_t s i c = s_t ps ii c2 /\
     q_mask p ii c2 = q_mask qk i c /\ kkt_d u (s_ux s) (s_t s) i c = kkt_d v (s_ux ps) (s_t ps) ii c2).
Proof.
  intros alg0 sq diag N2 bs qp cs qk sd p0 s0 ws ps sol ws2 HP HC HM. change (cs ++ [Vecs qk; Seed qk sd]) with (cs ++ ([Vecs qk] ++ [Seed qk sd])). rewrite app_assoc.
  assert (HC' : calls_ok qp (cs ++ [Vecs qk])) by (apply Forall_app; split; [exact HC|constructor; [exact HM|constructor]]).
  pose proof (pc_facts alg0 sq diag N2 bs qp p0 HP cs qk s0 ws HC HM) as F. cbv zeta in F. pose proof (C64_seed alg0 sq diag N2 bs qp (cs ++ [Vecs qk]) qk sd p0 s0 ws HP HC' HM) as X0. pose proof (pc_seed_facts alg0 sq diag N2 bs qp p0 HP (cs ++ [Vecs qk]) qk sd s0 ws HC' HM) as X.
  set (pv := fst (fst (pc_run alg0 sq diag N2 bs qp (cs ++ [Vecs qk]) p0 s0 ws))) in *. clearbody pv.
  destruct (pc_run alg0 sq diag N2 bs qp ((cs ++ [Vecs qk]) ++ [Seed qk sd]) p0 s0 ws) as [[p s2] w]. cbv zeta in X0. destruct X0 as (_ & _ & _ & _ & <-).
  destruct F as (_ & F1 & F2 & md & F3). destruct X as (_ & p' & E1 & E2 & E3 & E4 & E5 & E6 & E7 & E8 & E9 & E10 & S2 & S3). cbv zeta. set (u := seed_qp qk sd) in *. intros HL.
  assert (F1' : blocks_ok (dN (q_dim u)) N2 bs) by exact F1.
  assert (EM : forall ii c, (ii <= N2)%nat -> (c < nct (q_dim p) ii)%nat -> q_mask p' ii c = q_mask p ii c).
  { intros ii c Hii Hc. destruct (part_num qk (with_m p md) N2 bs F1 F3) as (_ & _ & M3). destruct (M3 ii c Hii Hc) as (i & c' & Hi & Hc' & <- & <-). destruct (part_con qk (with_m p md) N2 bs F1 F3 (fun _ _ => 0) i c' Hi Hc') as (_ & A & _). destruct (part_con u p' N2 bs F1' S3 (fun _ _ => 0) i c' Hi Hc') as (_ & B & _).
    cbn [with_m q_mask] in A. change (q_mask p (block_of N2 bs i) (ppos qk N2 bs i c') = q_mask qk i c') in A. change (q_mask p' (block_of N2 bs i) (ppos qk N2 bs i c') = q_mask qk i c') in B. congruence. }
  assert (EV : seed_qp p s2 = mkqp (q_dim p') (q_BAbt p') (q_RSQ p') (q_DCt p') (q_b p') (q_rqz p') (q_d p') (q_mask p) (sd_m s2) (q_Z p') (q_idxb p') (q_idxs_rev p')).
  { unfold seed_qp, SolveModel.with_rhs. rewrite E1, E2, E3, E4, E5, E6, E7, E8, E9, E10. reflexivity. }
  assert (EG : forall z pi lam ii k, (ii <= N2)%nat -> kkt_g p' z pi lam ii k = kkt_g (seed_qp p s2) z pi lam ii k).
  { intros z pi lam ii k Hii. rewrite EV. unfold kkt_g. cbn [q_dim q_rqz q_BAbt q_mask]. f_equal. apply rsum_ext. intros c Hc. rewrite E1 in Hc. rewrite EM by assumption. reflexivity. }
  assert (HL' : ocp_lam_masked p' (s_lam ps)). { intros ii c Hii Hc. rewrite E1 in Hii, Hc. rewrite EM; [apply HL; assumption|destruct F2 as (F2 & _); lia|exact Hc]. }
  pose proof (gen_residuals N2 bs u p' ps sol ws2 F1' S2 S3 HL') as (Q1 & Q2 & Q3 & Q4). cbv zeta in Q1, Q2, Q3, Q4. pose proof (gen_facts N2 bs u ps sol ws2 F1' true true) as (X1 & X2 & _). specialize (X2 eq_refl).
  set (s := e_sol _) in *. clearbody s. split; [exact Q1|]. split; [|split].
  - intros i k Hi Hk He. destruct (Q2 i k Hi Hk He) as (k2 & A1 & A2 & A3 & A4). rewrite E1 in A2. exists k2. split; [exact A1|]. split; [exact A2|]. split; [exact A3|]. rewrite A4. apply EG. exact A1.
  - intros i j Hi Hj. destruct (Q3 i j Hi Hj) as [A|(ii & A1 & A2 & A3)]; [left; exact A|right]. exists ii. rewrite E1 in A2. split; [exact A1|]. split; [exact A2|]. rewrite A3, EV. reflexivity.
  - clear Q1 Q2 Q3 Q4. intros i c Hi Hc. exists (ppos u N2 bs i c). destruct (part_num u p' N2 bs F1' S3) as (M1 & _). destruct (M1 i c Hi Hc) as (L1 & L2). rewrite E1 in L2. destruct (X2 i c Hi Hc) as (Y1 & Y2). destruct (part_con u p' N2 bs F1' S3 (s_ux ps) i c Hi Hc) as (C1 & C2 & _). rewrite (EM _ _ L1 L2) in C2.
    split; [exact L1|]. split; [exact L2|]. split; [exact Y1|]. split; [exact Y2|]. split; [exact C2|]. unfold kkt_d. rewrite (same_con u _ _ i c X1 Hi), Y2. rewrite EV. cbn [q_mask q_d].
    change (con (mkqp (q_dim p') (q_BAbt p') (q_RSQ p') (q_DCt p') (q_b p') (q_rqz p') (q_d p') (q_mask p) (sd_m s2) (q_Z p') (q_idxb p') (q_idxs_rev p'))) with (con p'). rewrite C2. f_equal. lra.
Qed.
(** *** the condition on the order of the slacks holds when only bounds are softened, in order (in particular without slacks) *)
Theorem C64_soft_bounds : forall N2 bs (qp : oqp R), blocks_ok (dN (q_dim qp)) N2 bs -> soft_bounds_in_order qp -> forall ii, (ii <= N2)%nat -> slack_order (block qp bs ii) (blen N2 bs ii).
Proof.
  intros N2 bs qp HB H ii Hii. exact (C51_soft_bounds (window qp (start bs ii) (blen N2 bs ii)) (fun i Hi => H (start bs ii + i)%nat (in_le _ N2 bs HB ii i Hii Hi))).
Qed.
(** *** a concrete case: horizon 3 in blocks of 2 and 1 stages (C43's sizes), softened first bound, every algorithm; vectors and seeds in between *)
Definition pcx_qp (g : R) : oqp R := mkqp pex_dims (fun _ r _ => INR r + 1) (fun _ r c => if (r =? c)%nat then 2 else 0) (fun _ _ _ => 3) (fun _ _ => g) (fun _ _ => 1 + g) (fun _ _ => -1 - g) (fun _ _ => 1) (fun _ _ => 0) (fun _ _ => 10)
  (fun i j => j) (fun i j => if (j =? 0)%nat then 0%Z else (-1)%Z).
Definition pcx_sd : seed R := mkseed (fun _ _ => 1) (fun _ _ => 2) (fun _ _ => 3) (fun _ _ => 4).
Theorem C64_hypotheses_met : forall alg0 sq, pc_pre alg0 sq (fun _ => true) 2 pex_bs (pcx_qp 0) pex_p /\ calls_ok (pcx_qp 0) [Vecs (pcx_qp 1); Seed (pcx_qp 1) pcx_sd; Vecs (pcx_qp 2)] /\ same_matrices (pcx_qp 0) (pcx_qp 7).
Proof.
  intros alg0 sq. assert (S : forall g, same_matrices (pcx_qp 0) (pcx_qp g)) by (intros g; unfold same_matrices; repeat split; reflexivity).
  split; [|split; [repeat constructor; apply S|apply S]]. destruct pex_pre as (P1 & P2 & P3 & P4 & _). split; [exact P1|]. split; [exact P2|]. split; [exact P3|]. split; [exact P4|]. split.
  - intros ii Hii. right. apply C64_soft_bounds; [exact P2| |exact Hii]. intros i Hi. assert (E : i = 0%nat \/ i = 1%nat \/ i = 2%nat \/ i = 3%nat) by (cbn in Hi; lia).
    destruct E as [-> | [-> | [-> | ->]]]; (split; [reflexivity|split; [|intros [|l] Hl; cbn in Hl; first [lia|reflexivity]]]); intros j Hj Hs; cbn in Hj; destruct j as [|[|j]]; try discriminate; try reflexivity; lia.
  - intros ii Hii. destruct (alg0 ii); [right|intros n r c _ _ _ Hc; cbn; destruct (Nat.eqb_spec r c); [lia|reflexivity]].
    intros n z Hn. cbn [pcx_qp q_dim pex_dims dnx rsum]. unfold Hess, H_co, nux. assert (E : n = 1%nat \/ n = 2%nat \/ n = 3%nat) by (cbn in Hn; lia). destruct E as [-> | [-> | ->]]; cbn; nra.
Qed.
(** *** the complementarity targets m are not condensed by these calls (they are by the single call) *)
Theorem C64_m_refuted : exists qp p0, pc_pre (fun _ => true) (fun _ => false) (fun _ => true) 2 pex_bs qp p0 /\ part_pre (fun _ => true) (fun _ => true) 2 pex_bs qp p0 /\ q_m qp 0%nat 0%nat = 1 /\
  q_m (pc_qp (fun _ => true) (fun _ => false) (fun _ => true) 2%nat pex_bs qp [] qp p0 pcx_sd (fun _ => mksw w0 (fun _ _ => 0))) 0%nat 0%nat = 0 /\
  q_m (part_qp (fun _ => true) (fun _ => false) (fun _ => true) 2%nat pex_bs qp p0 (fun _ => w0)) 0%nat 0%nat = 1.
Proof.
  set (qp := mkqp pex_dims (fun _ r _ => INR r + 1) (fun _ r c => if (r =? c)%nat then 2 else 0) (fun _ _ _ => 3) (fun _ _ => 0) (fun _ _ => 1) (fun _ _ => -1) (fun _ _ => 1) (fun _ _ => 1) (fun _ _ => 10)
    (fun i j => j) (fun i j => if (j =? 0)%nat then 0%Z else (-1)%Z)).
  assert (P : pc_pre (fun _ => true) (fun _ => false) (fun _ => true) 2 pex_bs qp pex_p).
  { destruct (C64_hypotheses_met (fun _ => true) (fun _ => false)) as ((P1 & P2 & P3 & P4 & P5 & P6) & _). split; [exact P1|split; [exact P2|split; [exact P3|split; [exact P4|split; [exact P5|intros; left; reflexivity]]]]]. }
  assert (P' : part_pre (fun _ => true) (fun _ => true) 2 pex_bs qp pex_p).
  { destruct P as (P1 & P2 & P3 & P4 & _). split; [exact P1|split; [exact P2|split; [exact P3|split; [exact P4|intros; left; reflexivity]]]]. }
  exists qp, pex_p. split; [exact P|]. split; [exact P'|]. split; [reflexivity|]. split.
  - destruct (C64_constraints (fun _ => true) (fun _ => false) (fun _ => true) 2 pex_bs qp [] qp pex_p pcx_sd (fun _ => mksw w0 (fun _ _ => 0)) P (Forall_nil _) (same_mat_refl qp)) as (_ & _ & E & _). rewrite E. reflexivity.
  - destruct (C43_constraints (fun _ => true) (fun _ => false) (fun _ => true) 2 pex_bs qp pex_p (fun _ => w0) P') as ((En & S) & _ & pos & (_ & _ & N3) & C). set (p := p_q2 _) in *. clearbody p.
    destruct (N3 0%nat 0%nat ltac:(lia)) as (i & c & Hi & Hc & Eb & Ep).
    { destruct (S 0%nat ltac:(lia)) as (S1 & S2 & S3 & _). unfold nct. rewrite S3. vm_compute. lia. }
    destruct (C (fun _ _ => 0) i c Hi Hc) as (_ & _ & E). cbv zeta in E. rewrite Eb, Ep in E. rewrite E. reflexivity.
Qed.
Print Assumptions C64_objective.
Print Assumptions C64_constraints.
Print Assumptions C64_dynamics.
Print Assumptions C64_equivalent.
Print Assumptions C64_same_as_single_call.
Print Assumptions C64_ocp_qp_unchanged.
Print Assumptions C64_seed.
Print Assumptions C64_expanded.
Print Assumptions C64_seed_expanded.
Print Assumptions C64_optimal.
Print Assumptions C64_soft_bounds.
Print Assumptions C64_hypotheses_met.
Print Assumptions C64_m_refuted.
