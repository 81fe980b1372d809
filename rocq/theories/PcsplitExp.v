(** PcsplitExp.v -- expanding a solution of the partially condensed QP: residuals, for any second QP that stands for the first. *)
From Coq Require Import ZArith Bool Arith Lia Reals Lra.
From Verif Require Import Base ArithF RSum Blas Blas2 OcpModel ResSpec ResProofs ResProofs2 CholProofs KktModel DenModel DenSpec CondModel ExpModel CondSpec CondProofs CondCost CondCost2 CondCon CondCon2 CondCon3 CondSem CondFull ExpProofs ExpKkt CondProps ExpProps PartModel PartSpec PartProofs PartSem PartProps PartExp PartKkt PartExpProps.
Local Open Scope R_scope.

Section Gen.
Variables (N2 : nat) (bs : nat -> nat) (qp p : oqp R) (ps sol : osol R) (ws2 : nat -> cws R).
Hypothesis F1 : blocks_ok (dN (q_dim qp)) N2 bs.
Hypothesis F2 : part_size qp N2 bs p.
Hypothesis F3 : forall ii, (ii <= N2)%nat -> block_sem (last_default N2 ii) (block qp bs ii) (stage_q p ii) (q_BAbt p ii) (q_b p ii).
Notation D := (q_dim qp).
Notation N := (dN (q_dim qp)).
Notation s0 := (e_sol (part_expand (last_default N2) (fun _ => true) (fun _ => true) (fun _ => true) bs N2 qp ps sol ws2)).
Lemma gen_facts dineq deq : let s := e_sol (part_expand (last_default N2) (fun _ => true) (fun _ => dineq) (fun _ => deq) bs N2 qp ps sol ws2) in same_point qp (s_ux s) (ptraj qp N2 bs (s_ux ps)) /\
  (dineq = true -> forall i c, (i <= N)%nat -> (c < nct D i)%nat -> s_lam s i c = s_lam ps (block_of N2 bs i) (ppos qp N2 bs i c) /\ s_t s i c = s_t ps (block_of N2 bs i) (ppos qp N2 bs i c)) /\
  (deq = true -> (forall ii j, (ii < N2)%nat -> (j < dnx D (start bs (S ii)))%nat -> s_pi s (start bs (S ii) - 1)%nat j = s_pi ps ii j) /\
     forall ii i j, (ii <= N2)%nat -> (1 <= i <= blen N2 bs ii)%nat -> (j < dnx D (start bs ii + i))%nat ->
       s_pi s (start bs ii + i - 1)%nat j = pif qp (start bs ii + i <? N)%nat (start bs ii + i) (s_ux s) (s_lam s) (s_pi s (start bs ii + i)%nat) j).
Proof.
  cbv zeta. pose proof (part_expand_R qp N2 bs dineq deq ps sol ws2 F1) as X.
  change (part_expand (last_default N2) yes) with (@part_expand R _ (last_default N2) (fun _ => true)) in X. set (s := e_sol _) in *. clearbody s. split; [|split].
  - intros i k Hi Hk. destruct (locate N N2 bs F1 i Hi) as (ii & i' & A1 & A2 & ->). destruct (X ii A1) as (X1 & _). rewrite X1 by assumption. rewrite (ptraj_at qp N2 bs F1) by assumption. reflexivity.
  - intros Hd i c Hi Hc. destruct (locate N N2 bs F1 i Hi) as (ii & i' & A1 & A2 & ->). destruct (X ii A1) as (_ & X2 & _). rewrite (blk_at N N2 bs F1) by assumption. rewrite (ppos_at qp N2 bs F1) by assumption. exact (X2 Hd i' c A2 Hc).
  - intros He. split.
    + intros ii j Hii Hj. destruct (X ii ltac:(lia)) as (_ & _ & X3). apply (X3 He); assumption.
    + intros ii i j Hii Hi Hj. destruct (X ii Hii) as (_ & _ & X3). exact (proj2 (X3 He) i j Hi Hj).
Qed.
Lemma gen_residuals : let s := s0 in ocp_lam_masked p (s_lam ps) ->
  (forall i k, (i <= dN D)%nat -> (k < nvt D i)%nat -> part_eliminated qp N2 bs i k -> kkt_g qp (s_ux s) (s_pi s) (s_lam s) i k = 0) /\
  (forall i k, (i <= dN D)%nat -> (k < nvt D i)%nat -> ~ part_eliminated qp N2 bs i k -> let ii := block_of N2 bs i in exists k2, (ii <= N2)%nat /\ (k2 < nvt (q_dim p) ii)%nat /\
     s_ux s i k = s_ux ps ii k2 /\ kkt_g qp (s_ux s) (s_pi s) (s_lam s) i k = kkt_g p (s_ux ps) (s_pi ps) (s_lam ps) ii k2) /\
  (forall i j, (i < dN D)%nat -> (j < dnx D (S i))%nat -> dyn qp (s_ux s) i j = 0 \/ exists ii, (ii < N2)%nat /\ (j < dnx (q_dim p) (S ii))%nat /\ dyn qp (s_ux s) i j = dyn p (s_ux ps) ii j) /\
  (forall i c, (i <= dN D)%nat -> (c < nct D i)%nat -> let ii := block_of N2 bs i in exists c2, (ii <= N2)%nat /\ (c2 < nct (q_dim p) ii)%nat /\ s_lam s i c = s_lam ps ii c2 /\ s_t s i c = s_t ps ii c2 /\
     kkt_d qp (s_ux s) (s_t s) i c = kkt_d p (s_ux ps) (s_t ps) ii c2).
Proof.
  cbv zeta. intros HM. pose proof (gen_facts true true) as (X1 & X2 & X3). specialize (X2 eq_refl). destruct (X3 eq_refl) as (X4 & X5). clear X3.
  set (s := s0) in *. clearbody s.
  assert (T2 : forall i j, (i < N)%nat -> (j < dnx D (S i))%nat -> ~ block_end N2 bs i -> dyn qp (s_ux s) i j = 0).
  { intros i j Hi Hj Hn. rewrite (same_dyn qp _ _ i j X1 Hi Hj). apply (inner_dyn qp N2 bs F1); [exact Hi| |exact Hj]. intros ii Hii E. apply Hn. exists ii. split; assumption. }
  assert (T3 : forall ii j, (ii < N2)%nat -> (j < dnx (q_dim p) (S ii))%nat -> dyn qp (s_ux s) (start bs (S ii) - 1) j = dyn p (s_ux ps) ii j).
  { intros ii j Hii Hj. pose proof (start_S _ N2 bs F1 ii Hii) as Es. pose proof (in_le _ N2 bs F1 (S ii) 0 ltac:(lia) ltac:(lia)) as Hle. assert (Hj' := Hj). destruct (proj2 F2 (S ii) ltac:(lia)) as (_ & S2 & _). rewrite S2 in Hj'.
    rewrite (part_dyn qp p N2 bs F1 F2 F3 (s_ux ps) ii j Hii Hj). apply same_dyn; [exact X1|lia|]. replace (S (start bs (S ii) - 1)) with (start bs (S ii)) by lia. exact Hj'. }
  destruct (part_num qp p N2 bs F1 F3) as (M1 & M2 & M3). assert (En : dN (q_dim p) = N2) by exact (proj1 F2).
  assert (HL : forall i c, (i <= N)%nat -> (c < nct D i)%nat -> s_lam s i c = s_lam ps (block_of N2 bs i) (ppos qp N2 bs i c)) by (intros i c Hi Hc; apply X2; assumption).
  assert (K0 : forall ii i j, (ii <= N2)%nat -> (1 <= i <= blen N2 bs ii)%nat -> (j < dnx D (start bs ii + i))%nat -> kkt_g qp (ptraj qp N2 bs (s_ux ps)) (s_pi s) (s_lam s) (start bs ii + i) (dnu D (start bs ii + i) + j)%nat = 0).
  { intros ii i j Hii Hi Hj. pose proof (in_le N N2 bs F1 ii i Hii ltac:(lia)) as Hle. rewrite <- (same_kkt_g qp _ _ (s_pi s) (s_lam s) _ _ X1) by exact Hle. apply (pif_kkt qp).
    - lia.
    - exact Hj.
    - intros c Hc. 
      destruct (part_con qp p N2 bs F1 F3 (s_ux ps) _ c Hle Hc) as (_ & C2 & _). rewrite HL by assumption. rewrite <- C2. destruct (M1 _ c Hle Hc) as (L1 & L2). destruct (HM _ _ ltac:(rewrite En; exact L1) L2) as [(_ & E)|E]; rewrite E; ring.
    - apply X5; assumption. }
  assert (KF : forall i k, (i <= N)%nat -> (k < nvt D i)%nat -> ~ part_eliminated qp N2 bs i k -> let ii := block_of N2 bs i in exists k2, (ii <= N2)%nat /\ (k2 < nvt (q_dim p) ii)%nat /\
     s_ux s i k = s_ux ps ii k2 /\ kkt_g qp (s_ux s) (s_pi s) (s_lam s) i k = kkt_g p (s_ux ps) (s_pi ps) (s_lam ps) ii k2).
  { intros i k Hi Hk HE. cbv zeta. rewrite (X1 i k Hi Hk), (same_kkt_g qp _ _ (s_pi s) (s_lam s) i _ X1) by exact Hi. destruct (locate N N2 bs F1 i Hi) as (ii & i' & A1 & A2 & ->). rewrite (blk_at N N2 bs F1) by assumption.
    assert (FF : free (W qp N2 bs ii) i' k).
    { split; [exact A2|]. split; [exact Hk|]. destruct (Nat.eq_dec i' 0) as [|Hn]; [left; assumption|right]. destruct (Nat.lt_ge_cases k (dnu D (start bs ii + i'))) as [L|L]; [left; exact L|right]. destruct (Nat.lt_ge_cases k (nux qp (start bs ii + i'))) as [L2|L2]; [|exact L2].
      exfalso. apply HE. split; [|split; [exact L|exact L2]]. intros kk Hkk E. pose proof (blk_at N N2 bs F1 ii i' A1 A2) as E1. pose proof (blk_at N N2 bs F1 kk 0 Hkk ltac:(lia)) as E2. rewrite Nat.add_0_r in E2. rewrite E in E1. assert (ii = kk) by congruence. subst kk. lia. }
    exists (slot (W qp N2 bs ii) i' k). split; [exact A1|]. split; [exact (slot_lt (W qp N2 bs ii) (stage_q p ii) (ddims_W qp p N2 bs F3 ii A1) i' k FF)|]. split.
    - rewrite (ptraj_at qp N2 bs F1) by assumption. exact (traj_slot (W qp N2 bs ii) (s_ux ps ii) i' k FF).
    - exact (part_kkt_g qp p N2 bs F1 F2 F3 (s_ux ps) (s_pi s) (s_lam s) (s_pi ps) (s_lam ps) HL X4 K0 ii i' k A1 FF). }
  split; [|split; [exact KF|split]].
  - intros i k Hi Hk (E1 & E2). rewrite (same_kkt_g qp _ _ (s_pi s) (s_lam s) i _ X1) by exact Hi. destruct (locate N N2 bs F1 i Hi) as (ii & i' & A1 & A2 & ->). replace k with (dnu D (start bs ii + i') + (k - dnu D (start bs ii + i')))%nat by lia. apply K0; [exact A1| |unfold nux in E2; lia].
    specialize (E1 ii A1). lia.
  - intros i j Hi Hj. destruct (end_dec qp N2 bs i Hi) as [(ii & A & E)|A].
    + right. exists ii. destruct (proj2 F2 (S ii) ltac:(lia)) as (_ & S2 & _). assert (Hj' : (j < dnx (q_dim p) (S ii))%nat) by (rewrite S2, <- E; exact Hj). split; [exact A|]. split; [exact Hj'|]. rewrite <- (T3 ii j A Hj'). f_equal. lia.
    + left. apply T2; [exact Hi|exact Hj|]. intros (ii & B1 & B2). exact (A ii B1 B2).
  - intros i c Hi Hc. exists (ppos qp N2 bs i c). destruct (M1 i c Hi Hc) as (L1 & L2). destruct (X2 i c Hi Hc) as (Y1 & Y2). split; [exact L1|]. split; [exact L2|]. split; [exact Y1|]. split; [exact Y2|].
    destruct (part_con qp p N2 bs F1 F3 (s_ux ps) i c Hi Hc) as (C1 & C2 & C3).
    unfold kkt_d. rewrite (same_con qp _ _ i c X1 Hi), C2, Y2. f_equal. lra.
Qed.
End Gen.
