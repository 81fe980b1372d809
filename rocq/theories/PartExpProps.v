(** PartExpProps.v -- property C44: expanding a solution of the partially condensed QP (PART_COND_QP_EXPAND_SOL). *)
From Coq Require Import ZArith Bool Arith Lia Reals Lra.
From Verif Require Import Base ArithF RSum Blas Blas2 OcpModel ResSpec ResProofs ResProofs2 CholProofs KktModel DenModel DenSpec CondModel ExpModel CondSpec CondProofs CondCost CondCost2 CondCon CondCon2 CondCon3 CondSem CondFull ExpProofs ExpKkt CondProps ExpProps PartModel PartSpec PartProofs PartSem PartProps PartExp PartKkt.
Local Open Scope R_scope.

(** no multiplier on a constraint that is masked out (and masks 0 or 1): the interior point solver ensures it *)
Definition ocp_lam_masked (p : oqp R) (lam : nat -> nat -> R) : Prop := forall ii c, (ii <= dN (q_dim p))%nat -> (c < nct (q_dim p) ii)%nat -> (q_mask p ii c = 0 /\ lam ii c = 0) \/ q_mask p ii c = 1.
(** states of the stages that do not start a block: the variables eliminated by partial condensing *)
Definition part_eliminated (qp : oqp R) (N2 : nat) (bs : nat -> nat) (i k : nat) : Prop := (forall ii, (ii <= N2)%nat -> i <> start bs ii) /\ (dnu (q_dim qp) i <= k < nux qp i)%nat.
(** last stage of a block, i.e. the stage before the start of the next one *)
Definition block_end (N2 : nat) (bs : nat -> nat) (i : nat) : Prop := exists ii, (ii < N2)%nat /\ S i = start bs (S ii).

(** parts not requested (comp_prim_sol, comp_dual_sol_ineq, comp_dual_sol_eq) are left as they are; any number type, any QP *)
Theorem C44_flags : forall F (AF : Arith F) last prim dineq deq bs N2 (qp : oqp F) ps sol ws, let s := e_sol (part_expand last prim dineq deq bs N2 qp ps sol ws) in
  ((forall ii, prim ii = false) -> forall i, s_ux s i = s_ux sol i) /\
  ((forall ii, dineq ii = false) -> forall i, s_lam s i = s_lam sol i /\ s_t s i = s_t sol i) /\
  ((forall ii, deq ii = false) -> forall i, s_pi s i = s_pi sol i).
Proof.
  intros F AF last prim dineq deq bs N2 qp ps sol ws. cbv zeta. unfold part_expand.
  assert (ME : forall A o (f : nat -> A) i, merge o (from o f) f i = f i). { intros A o f i. unfold merge, from. destruct (Nat.leb_spec o i); [f_equal; lia|reflexivity]. }
  pose proof (loop_ind (fun _ e => ((forall ii, prim ii = false) -> forall i, s_ux (e_sol e) i = s_ux sol i) /\ ((forall ii, dineq ii = false) -> forall i, s_lam (e_sol e) i = s_lam sol i /\ s_t (e_sol e) i = s_t sol i) /\ ((forall ii, deq ii = false) -> forall i, s_pi (e_sol e) i = s_pi sol i))
     (N2 + 1) (part_exp_step last prim dineq deq bs qp ps) (mkest sol ws 0)) as L. cbv beta in L. apply L; [repeat split; reflexivity|].
  intros k e _ (I1 & I2 & I3). unfold part_exp_step.
  pose proof (C29_flags F AF (last k) (sub_qp qp (e_o e) (bs k)) (stage_sol ps k) (sub_sol (e_sol e) (e_o e)) (e_ws e k) (prim k) (dineq k) (deq k)) as C. cbv zeta in C.
  destruct (expand_sol _ _ _ _ _ _ _ _) as [s w]. cbn [fst] in C. destruct C as (C1 & C2 & C3). cbn [e_sol merge_sol s_ux s_pi s_lam s_t]. split; [|split].
  - intros H i. rewrite (C1 (H k)). cbn [sub_sol s_ux]. rewrite ME. apply I1. exact H.
  - intros H i. destruct (C2 (H k)) as (-> & ->). cbn [sub_sol s_lam s_t]. rewrite !ME. apply I2. exact H.
  - intros H i. rewrite (C3 (H k)). cbn [sub_sol s_pi]. rewrite ME. apply I3. exact H.
Qed.

Lemma after_ptraj qp BA RSQ N2 bs z i k : (forall i r c, (r < nux qp i)%nat -> BA i r c = q_BAbt qp i r c) -> ptraj (with_mats qp BA RSQ) N2 bs z i k = ptraj qp N2 bs z i k.
Proof.
  intros H. unfold ptraj. cbv zeta. set (ii := block_of N2 bs i). exact (after_traj (block qp bs ii) (from (start bs ii) BA) (from (start bs ii) RSQ) (fun i r c Hr => H (start bs ii + i)%nat r c Hr) (blen N2 bs ii) (z ii) (i - start bs ii) k).
Qed.

Section Facts.
Variables (alg0 sq diag : nat -> bool) (N2 : nat) (bs : nat -> nat) (qp p0 : oqp R) (ws : nat -> cws R).
Hypothesis HP : part_pre alg0 diag N2 bs qp p0.
Notation r := (part_cond (last_default N2) alg0 sq diag bs qp p0 ws).
Notation D := (q_dim qp).
Notation N := (dN (q_dim qp)).
Variables (ps sol : osol R) (ws2 : nat -> cws R) (dineq deq : bool).
Notation s := (e_sol (part_expand (last_default N2) (fun _ => true) (fun _ => dineq) (fun _ => deq) bs N2 (p_qp r) ps sol ws2)).
Lemma exp_facts : same_point qp (s_ux s) (ptraj qp N2 bs (s_ux ps)) /\
  (dineq = true -> forall i c, (i <= N)%nat -> (c < nct D i)%nat -> s_lam s i c = s_lam ps (block_of N2 bs i) (ppos qp N2 bs i c) /\ s_t s i c = s_t ps (block_of N2 bs i) (ppos qp N2 bs i c)) /\
  (deq = true -> (forall ii j, (ii < N2)%nat -> (j < dnx D (start bs (S ii)))%nat -> s_pi s (start bs (S ii) - 1)%nat j = s_pi ps ii j) /\
     exists BA RSQ, same_info qp BA RSQ /\ forall ii i j, (ii <= N2)%nat -> (1 <= i <= blen N2 bs ii)%nat -> (j < dnx D (start bs ii + i))%nat ->
       s_pi s (start bs ii + i - 1)%nat j = pif (after qp BA RSQ) (start bs ii + i <? N)%nat (start bs ii + i) (s_ux s) (s_lam s) (s_pi s (start bs ii + i)%nat) j).
Proof.
  destruct (part_pre_INV alg0 sq diag N2 bs qp p0 ws HP) as (_ & (BA & RSQ & E & (Q1 & Q2)) & _). pose proof HP as (_ & HB & _). rewrite E.
  pose proof (part_expand_R (with_mats qp BA RSQ) N2 bs dineq deq ps sol ws2 HB) as X.
  change (part_expand (last_default N2) yes) with (@part_expand R _ (last_default N2) (fun _ => true)) in X. set (s := e_sol _) in *. clearbody s. split; [|split].
  - intros i k Hi Hk. destruct (locate N N2 bs HB i Hi) as (ii & i' & A1 & A2 & ->). destruct (X ii A1) as (X1 & _). rewrite X1 by assumption. rewrite (ptraj_at qp N2 bs HB) by assumption.
    exact (after_traj (block qp bs ii) (from (start bs ii) BA) (from (start bs ii) RSQ) (fun i r c Hr => Q1 (start bs ii + i)%nat r c Hr) (blen N2 bs ii) (s_ux ps ii) i' k).
  - intros Hd i c Hi Hc. destruct (locate N N2 bs HB i Hi) as (ii & i' & A1 & A2 & ->). destruct (X ii A1) as (_ & X2 & _). rewrite (blk_at N N2 bs HB) by assumption. rewrite (ppos_at qp N2 bs HB) by assumption. exact (X2 Hd i' c A2 Hc).
  - intros He. split.
    + intros ii j Hii Hj. destruct (X ii ltac:(lia)) as (_ & _ & X3). apply (X3 He); assumption.
    + exists BA, RSQ. split; [split; assumption|]. intros ii i j Hii Hi Hj. destruct (X ii Hii) as (_ & _ & X3). exact (proj2 (X3 He) i j Hi Hj).
Qed.
End Facts.

(** *** the primal solution is the trajectory described by the solution of the second QP; the multipliers of the dynamics at the ends of the blocks are copied.
    Whatever the solution of the second QP is. *)
Theorem C44_trajectory : forall alg0 sq diag N2 bs qp p0 ws ps sol ws2 dineq deq, part_pre alg0 diag N2 bs qp p0 ->
  let r := part_cond (last_default N2) alg0 sq diag bs qp p0 ws in let p := p_q2 r in
  let s := e_sol (part_expand (last_default N2) (fun _ => true) (fun _ => dineq) (fun _ => deq) bs N2 (p_qp r) ps sol ws2) in
  same_point qp (s_ux s) (ptraj qp N2 bs (s_ux ps)) /\
  (forall i j, (i < dN (q_dim qp))%nat -> (j < dnx (q_dim qp) (S i))%nat -> ~ block_end N2 bs i -> dyn qp (s_ux s) i j = 0) /\
  (forall ii j, (ii < N2)%nat -> (j < dnx (q_dim p) (S ii))%nat -> dyn qp (s_ux s) (start bs (S ii) - 1) j = dyn p (s_ux ps) ii j /\ (deq = true -> s_pi s (start bs (S ii) - 1)%nat j = s_pi ps ii j)).
Proof.
  intros alg0 sq diag N2 bs qp p0 ws ps sol ws2 dineq deq HP. cbv zeta. pose proof (exp_facts alg0 sq diag N2 bs qp p0 ws HP ps sol ws2 dineq deq) as (X1 & _ & X3). set (s := e_sol _) in *. clearbody s.
  destruct (part_facts alg0 sq diag N2 bs qp p0 ws HP) as (F1 & F2 & F3). set (p := p_q2 _) in *. clearbody p. split; [exact X1|]. split.
  - intros i j Hi Hj Hn. rewrite (same_dyn qp _ _ i j X1 Hi Hj). apply (inner_dyn qp N2 bs F1); [exact Hi| |exact Hj]. intros ii Hii E. apply Hn. exists ii. split; assumption.
  - intros ii j Hii Hj. pose proof (start_S _ N2 bs F1 ii Hii) as Es. pose proof (in_le _ N2 bs F1 (S ii) 0 ltac:(lia) ltac:(lia)) as Hle. assert (Hj' := Hj). destruct (proj2 F2 (S ii) ltac:(lia)) as (_ & S2 & _). rewrite S2 in Hj'. split.
    + rewrite (part_dyn qp p N2 bs F1 F2 F3 (s_ux ps) ii j Hii Hj). apply same_dyn; [exact X1|lia|]. replace (S (start bs (S ii) - 1)) with (start bs (S ii)) by lia. exact Hj'.
    + intros He. apply (proj1 (X3 He)); assumption.
Qed.

(** *** every KKT residual of the expanded solution is zero or a residual of the solution of the second QP *)
Theorem C44_residuals : forall alg0 sq diag N2 bs qp p0 ws ps sol ws2, part_pre alg0 diag N2 bs qp p0 ->
  let r := part_cond (last_default N2) alg0 sq diag bs qp p0 ws in let p := p_q2 r in
  let s := e_sol (part_expand (last_default N2) (fun _ => true) (fun _ => true) (fun _ => true) bs N2 (p_qp r) ps sol ws2) in let D := q_dim qp in
  ocp_lam_masked p (s_lam ps) ->
  (forall i k, (i <= dN D)%nat -> (k < nvt D i)%nat -> part_eliminated qp N2 bs i k -> kkt_g qp (s_ux s) (s_pi s) (s_lam s) i k = 0) /\
  (forall i k, (i <= dN D)%nat -> (k < nvt D i)%nat -> ~ part_eliminated qp N2 bs i k -> let ii := block_of N2 bs i in exists k2, (ii <= N2)%nat /\ (k2 < nvt (q_dim p) ii)%nat /\
     s_ux s i k = s_ux ps ii k2 /\ kkt_g qp (s_ux s) (s_pi s) (s_lam s) i k = kkt_g p (s_ux ps) (s_pi ps) (s_lam ps) ii k2) /\
  (forall i j, (i < dN D)%nat -> (j < dnx D (S i))%nat -> dyn qp (s_ux s) i j = 0 \/ exists ii, (ii < N2)%nat /\ (j < dnx (q_dim p) (S ii))%nat /\ dyn qp (s_ux s) i j = dyn p (s_ux ps) ii j) /\
  (forall i c, (i <= dN D)%nat -> (c < nct D i)%nat -> let ii := block_of N2 bs i in exists c2, (ii <= N2)%nat /\ (c2 < nct (q_dim p) ii)%nat /\ s_lam s i c = s_lam ps ii c2 /\ s_t s i c = s_t ps ii c2 /\
     kkt_d qp (s_ux s) (s_t s) i c = kkt_d p (s_ux ps) (s_t ps) ii c2 /\ kkt_m qp (s_lam s) (s_t s) i c = kkt_m p (s_lam ps) (s_t ps) ii c2).
Proof.
  intros alg0 sq diag N2 bs qp p0 ws ps sol ws2 HP. cbv zeta. intros HM.
  pose proof (C44_trajectory alg0 sq diag N2 bs qp p0 ws ps sol ws2 true true HP) as T. cbv zeta in T. destruct T as (T1 & T2 & T3).
  pose proof (exp_facts alg0 sq diag N2 bs qp p0 ws HP ps sol ws2 true true) as (X1 & X2 & X3). specialize (X2 eq_refl). destruct (X3 eq_refl) as (X4 & BA & RSQ & (Q1 & Q2) & X5). clear X3.
  set (s := e_sol _) in *. clearbody s. destruct (part_facts alg0 sq diag N2 bs qp p0 ws HP) as (F1 & F2 & F3). set (p := p_q2 _) in *. clearbody p. set (N := dN (q_dim qp)) in *. set (D := q_dim qp) in *.
  destruct (part_num qp p N2 bs F1 F3) as (M1 & M2 & M3). fold N D in M1, M2, M3. assert (En : dN (q_dim p) = N2) by exact (proj1 F2).
  assert (HL : forall i c, (i <= N)%nat -> (c < nct D i)%nat -> s_lam s i c = s_lam ps (block_of N2 bs i) (ppos qp N2 bs i c)) by (intros i c Hi Hc; apply X2; assumption).
  assert (K0 : forall ii i j, (ii <= N2)%nat -> (1 <= i <= blen N2 bs ii)%nat -> (j < dnx D (start bs ii + i))%nat -> kkt_g qp (ptraj qp N2 bs (s_ux ps)) (s_pi s) (s_lam s) (start bs ii + i) (dnu D (start bs ii + i) + j)%nat = 0).
  { intros ii i j Hii Hi Hj. pose proof (in_le N N2 bs F1 ii i Hii ltac:(lia)) as Hle. rewrite <- (same_kkt_g qp _ _ (s_pi s) (s_lam s) _ _ X1) by exact Hle. rewrite <- (after_kkt_g qp BA RSQ Q1 Q2). apply (pif_kkt (after qp BA RSQ)).
    - change (dN (q_dim (after qp BA RSQ))) with N. lia.
    - exact Hj.
    - intros c Hc. change (q_mask (after qp BA RSQ)) with (q_mask qp). change (nct (q_dim (after qp BA RSQ)) (start bs ii + i)) with (nct D (start bs ii + i)) in Hc.
      destruct (part_con qp p N2 bs F1 F3 (s_ux ps) _ c Hle Hc) as (_ & C2 & _). rewrite HL by assumption. rewrite <- C2. destruct (M1 _ c Hle Hc) as (L1 & L2). destruct (HM _ _ ltac:(rewrite En; exact L1) L2) as [(_ & E)|E]; rewrite E; ring.
    - apply X5; assumption. }
  assert (KF : forall i k, (i <= N)%nat -> (k < nvt D i)%nat -> ~ part_eliminated qp N2 bs i k -> let ii := block_of N2 bs i in exists k2, (ii <= N2)%nat /\ (k2 < nvt (q_dim p) ii)%nat /\
     s_ux s i k = s_ux ps ii k2 /\ kkt_g qp (s_ux s) (s_pi s) (s_lam s) i k = kkt_g p (s_ux ps) (s_pi ps) (s_lam ps) ii k2).
  { intros i k Hi Hk HE. cbv zeta. rewrite (X1 i k Hi Hk), (same_kkt_g qp _ _ (s_pi s) (s_lam s) i _ X1) by exact Hi. destruct (locate N N2 bs F1 i Hi) as (ii & i' & A1 & A2 & ->). rewrite (blk_at N N2 bs F1) by assumption.
    assert (FF : free (W qp N2 bs ii) i' k).
    { split; [exact A2|]. split; [exact Hk|]. destruct (Nat.eq_dec i' 0) as [|Hn]; [left; assumption|right]. destruct (Nat.lt_ge_cases k (dnu D (start bs ii + i'))) as [L|L]; [left; exact L|right]. destruct (Nat.lt_ge_cases k (nux qp (start bs ii + i'))) as [L2|L2]; [|exact L2].
      exfalso. apply HE. split; [|split; [exact L|exact L2]]. intros kk Hkk E. pose proof (blk_at N N2 bs F1 ii i' A1 A2) as E1. pose proof (blk_at N N2 bs F1 kk 0 Hkk ltac:(lia)) as E2. rewrite Nat.add_0_r in E2. rewrite E in E1. assert (ii = kk) by congruence. subst kk. lia. }
    exists (slot (W qp N2 bs ii) i' k). split; [exact A1|]. split; [exact (slot_lt (W qp N2 bs ii) (stage_q p ii) (ddims_W qp p N2 bs F3 ii A1) i' k FF)|]. split.
    - rewrite (ptraj_at qp N2 bs F1) by assumption. exact (traj_slot (W qp N2 bs ii) (s_ux ps ii) i' k FF).
    - exact (part_kkt_g qp p N2 bs F1 F2 F3 (s_ux ps) (s_pi s) (s_lam s) (s_pi ps) (s_lam ps) HL X4 K0 ii i' k A1 FF). }
  split; [|split; [exact KF|split]].
  - intros i k Hi Hk (E1 & E2). rewrite (same_kkt_g qp _ _ (s_pi s) (s_lam s) i _ X1) by exact Hi. destruct (locate N N2 bs F1 i Hi) as (ii & i' & A1 & A2 & ->). replace k with (dnu D (start bs ii + i') + (k - dnu D (start bs ii + i')))%nat by (unfold D; lia). apply K0; [exact A1| |unfold nux in E2; fold D in E2; lia].
    specialize (E1 ii A1). lia.
  - intros i j Hi Hj. destruct (end_dec qp N2 bs i Hi) as [(ii & A & E)|A].
    + right. exists ii. destruct (proj2 F2 (S ii) ltac:(lia)) as (_ & S2 & _). assert (Hj' : (j < dnx (q_dim p) (S ii))%nat) by (rewrite S2, <- E; exact Hj). split; [exact A|]. split; [exact Hj'|]. rewrite <- (proj1 (T3 ii j A Hj')). f_equal. lia.
    + left. apply T2; [exact Hi|exact Hj|]. intros (ii & B1 & B2). exact (A ii B1 B2).
  - intros i c Hi Hc. exists (ppos qp N2 bs i c). destruct (M1 i c Hi Hc) as (L1 & L2). destruct (X2 i c Hi Hc) as (Y1 & Y2). split; [exact L1|]. split; [exact L2|]. split; [exact Y1|]. split; [exact Y2|].
    destruct (part_con qp p N2 bs F1 F3 (s_ux ps) i c Hi Hc) as (C1 & C2 & C3). split.
    + unfold kkt_d. rewrite (same_con qp _ _ i c X1 Hi), C2, Y2. f_equal. lra.
    + unfold kkt_m. rewrite C2, C3, Y1, Y2. reflexivity.
Qed.

(** hence accuracy is kept: residuals bounded by eps stay bounded by eps *)
Theorem C44_accuracy : forall alg0 sq diag N2 bs qp p0 ws ps sol ws2 (eps : R), part_pre alg0 diag N2 bs qp p0 -> 0 <= eps ->
  let r := part_cond (last_default N2) alg0 sq diag bs qp p0 ws in let p := p_q2 r in
  let s := e_sol (part_expand (last_default N2) (fun _ => true) (fun _ => true) (fun _ => true) bs N2 (p_qp r) ps sol ws2) in let D := q_dim qp in
  ocp_lam_masked p (s_lam ps) ->
  (forall ii k, (ii <= N2)%nat -> (k < nvt (q_dim p) ii)%nat -> Rabs (kkt_g p (s_ux ps) (s_pi ps) (s_lam ps) ii k) <= eps) ->
  (forall ii j, (ii < N2)%nat -> (j < dnx (q_dim p) (S ii))%nat -> Rabs (dyn p (s_ux ps) ii j) <= eps) ->
  (forall ii c, (ii <= N2)%nat -> (c < nct (q_dim p) ii)%nat -> Rabs (kkt_d p (s_ux ps) (s_t ps) ii c) <= eps /\ Rabs (kkt_m p (s_lam ps) (s_t ps) ii c) <= eps) ->
  (forall i k, (i <= dN D)%nat -> (k < nvt D i)%nat -> Rabs (kkt_g qp (s_ux s) (s_pi s) (s_lam s) i k) <= eps) /\
  (forall i j, (i < dN D)%nat -> (j < dnx D (S i))%nat -> Rabs (dyn qp (s_ux s) i j) <= eps) /\
  (forall i c, (i <= dN D)%nat -> (c < nct D i)%nat -> Rabs (kkt_d qp (s_ux s) (s_t s) i c) <= eps /\ Rabs (kkt_m qp (s_lam s) (s_t s) i c) <= eps).
Proof.
  intros alg0 sq diag N2 bs qp p0 ws ps sol ws2 eps HP He. pose proof (C44_residuals alg0 sq diag N2 bs qp p0 ws ps sol ws2 HP) as Q. cbv zeta in *. intros HM Hg Hb Hc. destruct (Q HM) as (Q1 & Q2 & Q3 & Q4). clear Q.
  assert (DEC : forall i k, (i <= dN (q_dim qp))%nat -> part_eliminated qp N2 bs i k \/ ~ part_eliminated qp N2 bs i k).
  { intros i k Hi. pose proof HP as (_ & HB & _). destruct (locate _ N2 bs HB i Hi) as (ii & i' & A1 & A2 & ->). destruct (Nat.eq_dec i' 0) as [->|Hn]; [right; intros (E & _); apply (E ii A1); lia|].
    destruct (le_lt_dec (dnu (q_dim qp) (start bs ii + i')) k) as [L2|L2]; [destruct (Nat.lt_ge_cases k (nux qp (start bs ii + i'))) as [L3|L3]|]; [left|right; intros (_ & E); lia|right; intros (_ & E); lia].
    split; [|lia]. intros kk Hkk E. pose proof (blk_at _ N2 bs HB ii i' A1 A2) as E1. pose proof (blk_at _ N2 bs HB kk 0 Hkk ltac:(lia)) as E2. rewrite Nat.add_0_r in E2. rewrite E in E1. assert (ii = kk) by congruence. subst kk. lia. }
  split; [|split].
  - intros i k Hi Hk. destruct (DEC i k Hi) as [E|E]; [rewrite Q1 by assumption; rewrite Rabs_R0; exact He|]. destruct (Q2 i k Hi Hk E) as (k2 & P1 & P2 & _ & ->). apply Hg; assumption.
  - intros i j Hi Hj. destruct (Q3 i j Hi Hj) as [->|(ii & P1 & P2 & ->)]; [rewrite Rabs_R0; exact He|apply Hb; assumption].
  - intros i c Hi Hc'. destruct (Q4 i c Hi Hc') as (c2 & P1 & P2 & _ & _ & -> & ->). apply Hc; assumption.
Qed.

(** a KKT point of the second QP expands to a KKT point of the first; a minimiser to a minimiser *)
Theorem C44_kkt_point : forall alg0 sq diag N2 bs qp p0 ws ps sol ws2, part_pre alg0 diag N2 bs qp p0 ->
  let r := part_cond (last_default N2) alg0 sq diag bs qp p0 ws in let p := p_q2 r in
  let s := e_sol (part_expand (last_default N2) (fun _ => true) (fun _ => true) (fun _ => true) bs N2 (p_qp r) ps sol ws2) in
  ocp_lam_masked p (s_lam ps) -> ocp_kkt_point p ps -> ocp_kkt_point qp s.
Proof.
  intros alg0 sq diag N2 bs qp p0 ws ps sol ws2 HP. pose proof (C44_residuals alg0 sq diag N2 bs qp p0 ws ps sol ws2 HP) as Q. pose proof (C44_accuracy alg0 sq diag N2 bs qp p0 ws ps sol ws2 0 HP (Rle_refl 0)) as A. cbv zeta in *. intros HM (Hg & Hb & Hc). destruct (part_facts alg0 sq diag N2 bs qp p0 ws HP) as (_ & F2 & _). rewrite (proj1 F2) in *.
  assert (Z : forall x, x = 0 -> Rabs x <= 0) by (intros x ->; rewrite Rabs_R0; lra). assert (Z' : forall x, Rabs x <= 0 -> x = 0) by (intros x Hx; destruct (Req_dec x 0) as [|Hn]; [assumption|]; pose proof (Rabs_pos_lt x Hn); lra).
  destruct (Q HM) as (_ & _ & _ & Q4). destruct A as (A1 & A2 & A3); [exact HM|intros; apply Z; apply Hg; assumption|intros; apply Z; apply Hb; assumption|intros ii c H1 H2; destruct (Hc ii c H1 H2) as (B1 & B2 & _); split; apply Z; assumption|].
  split; [intros i k Hi Hk; apply Z'; apply A1; assumption|]. split; [intros i j Hi Hj; apply Z'; apply A2; assumption|]. intros i c Hi Hc'. destruct (A3 i c Hi Hc') as (B1 & B2). split; [apply Z'; exact B1|]. split; [apply Z'; exact B2|].
  destruct (Q4 i c Hi Hc') as (c2 & P1 & P2 & -> & -> & _). destruct (Hc _ c2 P1 P2) as (_ & _ & B). exact B.
Qed.
Theorem C44_optimal : forall alg0 sq diag N2 bs qp p0 ws ps sol ws2 dineq deq, part_pre alg0 diag N2 bs qp p0 ->
  let r := part_cond (last_default N2) alg0 sq diag bs qp p0 ws in let p := p_q2 r in
  ocp_optimal p (s_ux ps) -> ocp_optimal qp (s_ux (e_sol (part_expand (last_default N2) (fun _ => true) (fun _ => dineq) (fun _ => deq) bs N2 (p_qp r) ps sol ws2))).
Proof.
  intros alg0 sq diag N2 bs qp p0 ws ps sol ws2 dineq deq HP. cbv zeta. pose proof (C43_equivalent alg0 sq diag N2 bs qp p0 ws HP) as E. cbv zeta in E. destruct E as (_ & E & _). intros HO. apply E in HO.
  pose proof (exp_facts alg0 sq diag N2 bs qp p0 ws HP ps sol ws2 dineq deq) as (X & _). set (s := e_sol _) in *. clearbody s.
  destruct HO as ((O1 & O2) & O3). split; [split|].
  - intros i j Hi Hj. rewrite (same_dyn qp _ _ i j X Hi Hj). apply O1; assumption.
  - intros i c Hi Hc Hm. rewrite (same_con qp _ _ i c X Hi). apply O2; assumption.
  - intros y Hy. rewrite (same_cost qp _ _ X). apply O3. exact Hy.
Qed.

(** *** the hypotheses are met (QP of PartProps.v, every multiplier positive) *)
Example pex_exp_pre : part_pre (fun ii => (ii =? 0)%nat) (fun _ => true) 2 pex_bs pex_qp pex_p /\
  ocp_lam_masked (p_q2 (part_cond (last_default 2) (fun ii => (ii =? 0)%nat) (fun _ => false) (fun _ => true) pex_bs pex_qp pex_p (fun _ => w0))) (fun _ _ => 1).
Proof.
  split; [exact pex_pre|]. pose proof (C43_constraints (fun ii => (ii =? 0)%nat) (fun _ => false) (fun _ => true) 2 pex_bs pex_qp pex_p (fun _ => w0) pex_pre) as C. cbv zeta in C. destruct C as (S & _ & pos & (_ & _ & N3) & C).
  set (p := p_q2 _) in *. clearbody p. intros ii c Hii Hc. right. rewrite (proj1 S) in Hii. destruct (N3 ii c Hii Hc) as (i & c' & Hi & Hc' & <- & <-). destruct (C (fun _ _ => 0) i c' Hi Hc') as (_ & -> & _). reflexivity.
Qed.
(** a concrete KKT point of a condensed QP with active inequality multipliers: horizon 2 in one block of two stages plus the last stage *)
Definition kex_dims : dims := mkdims 2 (fun _ => 1%nat) (fun i => if (i =? 2)%nat then 0%nat else 1%nat) (fun i => if (i =? 2)%nat then 0%nat else 2%nat) (fun _ => 0%nat) (fun _ => 0%nat).
Definition kex_qp : oqp R := mkqp kex_dims (fun _ r _ => INR r + 1) (fun _ r c => if (r =? c)%nat then 2 else 0) (fun _ _ _ => 0) (fun _ _ => 0) (fun _ _ => 0) (fun _ _ => -1) (fun _ _ => 1) (fun _ _ => 1) (fun _ _ => 0) (fun i j => j) (fun i j => (-1)%Z).
Definition kex_p : oqp R := mkqp (mkdims 1 (fun _ => 1%nat) (fun ii => if (ii =? 0)%nat then 2%nat else 0%nat) (fun ii => if (ii =? 0)%nat then 3%nat else 0%nat) (fun ii => if (ii =? 0)%nat then 1%nat else 0%nat) (fun _ => 0%nat))
  (fun _ _ _ => 0) (fun _ _ _ => 0) (fun _ _ _ => 0) (fun _ _ => 0) (fun _ _ => 0) (fun _ _ => 0) (fun _ _ => 1) (fun _ _ => 0) (fun _ _ => 0) (fun _ _ => 0%nat) (fun _ _ => (-1)%Z).
Definition kex_ps : osol R := mksol (fun _ _ => 0) (fun _ _ => 0) (fun _ _ => 1) (fun _ _ => 1).
Example kex_kkt : part_pre (fun _ => true) (fun _ => false) 1 pbad_bs kex_qp kex_p /\
  let p := p_q2 (part_cond (last_default 1) (fun _ => true) (fun _ => false) (fun _ => false) pbad_bs kex_qp kex_p (fun _ => w0)) in
  ocp_lam_masked p (s_lam kex_ps) /\ ocp_kkt_point p kex_ps.
Proof.
  assert (PRE : part_pre (fun _ => true) (fun _ => false) 1 pbad_bs kex_qp kex_p).
  { split; [|split; [|split; [|split]]].
    - intros i Hi. assert (E : i = 0%nat \/ i = 1%nat \/ i = 2%nat) by (cbn in Hi; lia). split; [|intros j Hj; left; reflexivity]. intros j Hj. destruct E as [-> | [-> | ->]]; cbn in *; lia.
    - split; [|reflexivity]. intros ii Hii. assert (ii = 0%nat) by lia. subst ii. cbn. lia.
    - split; [reflexivity|]. intros ii Hii. assert (E : ii = 0%nat \/ ii = 1%nat) by lia. destruct E as [-> | ->]; vm_compute; repeat split; reflexivity.
    - reflexivity.
    - intros ii _. left. reflexivity. }
  split; [exact PRE|]. pose proof (C43_constraints _ (fun _ => false) _ _ _ _ _ (fun _ => w0) PRE) as C. cbv zeta in C. destruct C as (S & _ & pos & (_ & _ & N3) & C). cbv zeta.
  set (p := p_q2 _) in *. assert (En : dN (q_dim p) = 1%nat) by exact (proj1 S).
  assert (CC : forall ii c, (ii <= 1)%nat -> (c < nct (q_dim p) ii)%nat -> con p (fun _ _ => 0) ii c - q_d p ii c = 1 /\ q_mask p ii c = 1 /\ q_m p ii c = 1).
  { intros ii c Hii Hc. destruct (N3 ii c Hii Hc) as (i & c' & Hi & Hc' & <- & <-). destruct (C (fun _ _ => 0) i c' Hi Hc') as (-> & -> & ->). split; [|split; reflexivity].
    assert (E : i = 0%nat \/ i = 1%nat \/ i = 2%nat) by (cbn in Hi; lia). destruct E as [-> | [-> | ->]]; cbn in Hc'; (do 4 (destruct c' as [|c']; [try lia; cbv -[Rplus Rmult Rminus Ropp IZR Rinv Rdiv]; lra|]); lia). }
  split.
  - intros ii c Hii Hc. right. rewrite En in Hii. apply CC; assumption.
  - split; [|split].
    + destruct (part_facts _ (fun _ => false) _ _ _ _ _ (fun _ => w0) PRE) as (F1 & F2 & F3). fold p in F2, F3.
      assert (KQ : forall i k, (i <= 2)%nat -> (k < nvt kex_dims i)%nat -> kkt_g kex_qp (ptraj kex_qp 1 pbad_bs (fun _ _ => 0)) (fun _ _ => 0) (fun _ _ => 1) i k = 0).
      { intros i k Hi Hk. assert (E : i = 0%nat \/ i = 1%nat \/ i = 2%nat) by lia. destruct E as [-> | [-> | ->]]; cbn in Hk; (do 2 (destruct k as [|k]; [try lia; cbv -[Rplus Rmult Rminus Ropp IZR Rinv Rdiv]; lra|]); lia). }
      pose proof (part_kkt_g kex_qp p 1 pbad_bs F1 F2 F3 (fun _ _ => 0) (fun _ _ => 0) (fun _ _ => 1) (fun _ _ => 0) (fun _ _ => 1)) as KP.
      specialize (KP ltac:(intros; reflexivity) ltac:(intros; reflexivity)).
      assert (H0 : forall ii i j, (ii <= 1)%nat -> (1 <= i <= blen 1 pbad_bs ii)%nat -> (j < dnx (q_dim kex_qp) (start pbad_bs ii + i))%nat -> kkt_g kex_qp (ptraj kex_qp 1 pbad_bs (fun _ _ => 0)) (fun _ _ => 0) (fun _ _ => 1) (start pbad_bs ii + i) (dnu (q_dim kex_qp) (start pbad_bs ii + i) + j) = 0).
      { intros ii i j Hii Hi Hj. pose proof (in_le 2 1 pbad_bs F1 ii i Hii ltac:(lia)). apply KQ; [assumption|]. unfold nvt. change kex_dims with (q_dim kex_qp). lia. }
      specialize (KP H0).
      assert (SL : forall ii i k k2, (ii <= 1)%nat -> free (W kex_qp 1 pbad_bs ii) i k -> slot (W kex_qp 1 pbad_bs ii) i k = k2 -> kkt_g p (s_ux kex_ps) (s_pi kex_ps) (s_lam kex_ps) ii k2 = 0).
      { intros ii i k k2 Hii HF <-. etransitivity; [symmetry; exact (KP ii i k Hii HF)|]. destruct HF as (A1 & A2 & _). pose proof (in_le 2 1 pbad_bs F1 ii i Hii A1). apply KQ; assumption. }
      intros ii k Hii Hk. rewrite En in Hii. assert (E : ii = 0%nat \/ ii = 1%nat) by lia. destruct E as [-> | ->].
      * change (nvt (q_dim p) 0) with 3%nat in Hk. destruct k as [|[|[|k]]]; [apply (SL 0%nat 1%nat 0%nat)|apply (SL 0%nat 0%nat 0%nat)|apply (SL 0%nat 0%nat 1%nat)|lia]; try lia; try reflexivity; (split; [cbn; lia|split; [cbn; lia|cbn; lia]]).
      * change (nvt (q_dim p) 1) with 1%nat in Hk. destruct k as [|k]; [apply (SL 1%nat 0%nat 0%nat)|lia]; try lia; try reflexivity; (split; [cbn; lia|split; [cbn; lia|cbn; lia]]).
    + intros ii j Hii Hj. rewrite En in Hii. pose proof (C43_dynamics _ (fun _ => false) _ _ _ _ _ (fun _ => w0) PRE (fun _ _ => 0) ii j Hii Hj) as DY. fold p in DY. change (s_ux kex_ps) with (fun _ _ : nat => 0). rewrite DY.
      assert (ii = 0%nat) by lia. subst ii. assert (Hj' : (j < 1)%nat) by exact Hj. destruct j as [|j]; [|lia]. cbv -[Rplus Rmult Rminus Ropp IZR Rinv Rdiv]. lra.
    + intros ii c Hii Hc. rewrite En in Hii. destruct (CC ii c Hii Hc) as (C1 & C2 & C3). unfold kkt_d, kkt_m, kex_ps. cbn [s_ux s_lam s_t]. rewrite C2, C3. split; [lra|]. split; [lra|]. split; lra.
Qed.
Print Assumptions C44_flags.
Print Assumptions C44_trajectory.
Print Assumptions C44_residuals.
Print Assumptions C44_accuracy.
Print Assumptions C44_kkt_point.
Print Assumptions C44_optimal.
