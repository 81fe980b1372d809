(** CsolPartProps.v -- property C67 continued: condensing a solution for the partially condensed QP (PART_COND_QP_COND_SOL). *)
From Coq Require Import ZArith Bool Arith Lia Reals Lra.
From Verif Require PcsplitProps.
From Verif Require Import Base ArithF RSum Blas Blas2 OcpModel ResSpec ResProofs ResProofs2 CholProofs KktModel DenModel DenSpec CondModel ExpModel CondSpec CondProofs CondCost CondCost2 CondCon CondCon2 CondCon3 CondSem CondFull ExpProofs ExpKkt CondProps ExpProps PartModel PartSpec PartProofs PartSem PartProps PartExp PartKkt PartExpProps CsplitSpec CsolModel CsolProofs CsolPart CsolProps.
Local Open Scope R_scope.

(** the dynamics hold, but possibly not from one block to the next *)
Definition inner_dynamics (qp : oqp R) (N2 : nat) (bs : nat -> nat) (z : nat -> nat -> R) : Prop :=
  forall i j, (i < dN (q_dim qp))%nat -> (j < dnx (q_dim qp) (S i))%nat -> ~ block_end N2 bs i -> dyn qp z i j = 0.
(** the gradient of the Lagrangian vanishes with respect to the states that do not start a block *)
Definition inner_stationary (qp : oqp R) (N2 : nat) (bs : nat -> nat) (s : osol R) : Prop :=
  forall i k, (i <= dN (q_dim qp))%nat -> part_eliminated qp N2 bs i k -> kkt_g qp (s_ux s) (s_pi s) (s_lam s) i k = 0.
(** slacks in the order condensing a solution assumes, in each block *)
Definition block_orders (qp : oqp R) (N2 : nat) (bs : nat -> nat) : Prop := forall ii, (ii <= N2)%nat -> slack_order (block qp bs ii) (blen N2 bs ii).

Theorem C67_part_flags : forall F (AF : Arith F) last prim dineq deq bs N2 (qp : oqp F) sol ps, let s := part_cond_sol last prim dineq deq bs N2 qp sol ps in
  ((forall ii, prim ii = false) -> forall i, s_ux s i = s_ux ps i) /\
  ((forall ii, dineq ii = false) -> forall i, s_lam s i = s_lam ps i /\ s_t s i = s_t ps i) /\
  ((forall ii, deq ii = false) -> forall i, s_pi s i = s_pi ps i) /\
  (forall i, (N2 < i)%nat -> s_ux s i = s_ux ps i /\ s_lam s i = s_lam ps i /\ s_t s i = s_t ps i /\ s_pi s i = s_pi ps i).
Proof.
  intros F AF last prim dineq deq bs N2 qp sol ps. cbv zeta. unfold part_cond_sol.
  pose proof (loop_ind (fun _ '(x, _) => ((forall ii, prim ii = false) -> forall i, s_ux x i = s_ux ps i) /\ ((forall ii, dineq ii = false) -> forall i, s_lam x i = s_lam ps i /\ s_t x i = s_t ps i) /\ ((forall ii, deq ii = false) -> forall i, s_pi x i = s_pi ps i) /\
      (forall i, (N2 < i)%nat -> s_ux x i = s_ux ps i /\ s_lam x i = s_lam ps i /\ s_t x i = s_t ps i /\ s_pi x i = s_pi ps i))
     (N2 + 1) (fun ii '(ps, o) => (put_stage_sol ps ii (cond_sol (last ii) (prim ii) (dineq ii) (deq ii) (sub_qp qp o (bs ii)) (sub_sol sol o) (stage_sol ps ii)), o + bs ii)%nat) (ps, 0%nat)) as L. cbv beta in L.
  destruct (loop _ _ _) as [x o]. apply L; [repeat split; reflexivity|]. clear L x o.
  intros k [x o] Hk (I1 & I2 & I3 & I4). pose proof (C67_flags F AF (last k) (sub_qp qp o (bs k)) (sub_sol sol o) (stage_sol x k) (prim k) (dineq k) (deq k)) as C. cbv zeta in C. set (d := cond_sol _ _ _ _ _ _ _) in *. clearbody d. destruct C as (C1 & C2 & C3).
  unfold put_stage_sol. cbn [s_ux s_lam s_t s_pi]. split; [|split; [|split]].
  - intros H i. unfold upd. destruct (Nat.eqb_spec i k) as [->|]; [rewrite (C1 (H k)); cbn [stage_sol ds_v]|]; apply I1; exact H.
  - intros H i. unfold upd. destruct (Nat.eqb_spec i k) as [->|]; [destruct (C2 (H k)) as (-> & ->); cbn [stage_sol ds_lam ds_t]|]; apply I2; exact H.
  - intros H i. unfold upd. destruct (Nat.eqb_spec i k) as [->|]; [rewrite (C3 (or_introl (H k))); cbn [stage_sol ds_pi]|]; apply I3; exact H.
  - intros i Hi. rewrite !upd_other by lia. apply I4. exact Hi.
Qed.

Section P.
Variables (qp : oqp R) (N2 : nat) (bs : nat -> nat) (sol ps0 : osol R).
Notation N := (dN (q_dim qp)).
Notation D := (q_dim qp).
Hypothesis HB : blocks_ok N N2 bs.
Hypothesis Hwf : qp_wf qp.
Hypothesis HO : block_orders qp N2 bs.
Notation ps dineq deq := (part_cond_sol (last_default N2) (fun _ => true) (fun _ => dineq) (fun _ => deq) bs N2 qp sol ps0).
Lemma p_ok dineq deq ii : (ii <= N2)%nat -> ps_ok qp N2 bs dineq deq sol (ps dineq deq) ii.
Proof. exact (part_sol_R qp N2 bs dineq deq sol ps0 HB Hwf HO ii). Qed.
Lemma p_traj dineq deq : inner_dynamics qp N2 bs (s_ux sol) -> same_point qp (ptraj qp N2 bs (s_ux (ps dineq deq))) (s_ux sol).
Proof.
  intros Hz i k Hi Hk. destruct (locate N N2 bs HB i Hi) as (ii & i' & A1 & A2 & ->). rewrite (ptraj_at qp N2 bs HB) by assumption. destruct (p_ok dineq deq ii A1) as (X & _).
  rewrite (holds_traj (block qp bs ii) (blen N2 bs ii) _ _ X); [reflexivity| |exact A2|exact Hk].
  intros i j Hij Hj. pose proof (in_le N N2 bs HB ii (S i) A1 ltac:(lia)) as Hle. rewrite <- (Hz (start bs ii + i)%nat j).
  - unfold dyn, from. cbn [block window q_dim q_BAbt q_b dnu]. rewrite <- Nat.add_succ_r. reflexivity.
  - lia.
  - rewrite <- Nat.add_succ_r. exact Hj.
  - intros (kk & Hkk & E). rewrite <- Nat.add_succ_r in E. pose proof (blk_at N N2 bs HB ii (S i) A1 ltac:(lia)) as E1. pose proof (blk_at N N2 bs HB (S kk) 0 ltac:(lia) ltac:(lia)) as E2. rewrite Nat.add_0_r in E2. rewrite E in E1. assert (E3 : ii = S kk) by congruence. clear E1 E2. rewrite E3 in E. clear - E. lia.
Qed.
Lemma p_ineq deq i c : (i <= N)%nat -> (c < nct D i)%nat -> s_lam (ps true deq) (block_of N2 bs i) (ppos qp N2 bs i c) = s_lam sol i c /\ s_t (ps true deq) (block_of N2 bs i) (ppos qp N2 bs i c) = s_t sol i c.
Proof.
  intros Hi Hc. destruct (locate N N2 bs HB i Hi) as (ii & i' & A1 & A2 & ->). rewrite (blk_at N N2 bs HB) by assumption. rewrite (ppos_at qp N2 bs HB) by assumption. destruct (p_ok true deq ii A1) as (_ & X & _). apply X; [reflexivity|exact A2|exact Hc].
Qed.
End P.

(** *** the point of the second QP describes the OCP point, if this satisfies the dynamics inside the blocks; the multipliers of the dynamics between
    blocks are copied *)
Theorem C67_part_trajectory : forall (qp : oqp R) N2 bs sol ps dineq deq, blocks_ok (dN (q_dim qp)) N2 bs -> qp_wf qp -> block_orders qp N2 bs -> inner_dynamics qp N2 bs (s_ux sol) ->
  let s := part_cond_sol (last_default N2) (fun _ => true) (fun _ => dineq) (fun _ => deq) bs N2 qp sol ps in
  same_point qp (ptraj qp N2 bs (s_ux s)) (s_ux sol) /\
  (deq = true -> forall ii j, (ii < N2)%nat -> (j < dnx (q_dim qp) (start bs (S ii)))%nat -> s_pi s ii j = s_pi sol (start bs (S ii) - 1)%nat j).
Proof.
  intros qp N2 bs sol ps dineq deq HB Hwf HO HD. cbv zeta. split; [exact (p_traj qp N2 bs sol ps HB Hwf HO dineq deq HD)|]. intros -> ii j Hii Hj. destruct (p_ok qp N2 bs sol ps HB Hwf HO dineq true ii ltac:(lia)) as (_ & _ & X). apply X; [reflexivity|exact Hii|exact Hj].
Qed.
Theorem C67_part_optimal : forall alg0 sq diag N2 bs qp p0 ws sol ps dineq deq, part_pre alg0 diag N2 bs qp p0 -> block_orders qp N2 bs ->
  let p := p_q2 (part_cond (last_default N2) alg0 sq diag bs qp p0 ws) in
  let z := s_ux (part_cond_sol (last_default N2) (fun _ => true) (fun _ => dineq) (fun _ => deq) bs N2 qp sol ps) in
  (feasible qp (s_ux sol) -> feasible p z) /\ (ocp_optimal qp (s_ux sol) -> ocp_optimal p z).
Proof.
  intros alg0 sq diag N2 bs qp p0 ws sol ps dineq deq HP HO. cbv zeta. pose proof (C43_equivalent alg0 sq diag N2 bs qp p0 ws HP) as E. cbv zeta in E. destruct E as (E1 & E2 & _).
  pose proof HP as (Hwf & HB & _). pose proof (C67_part_trajectory qp N2 bs sol ps dineq deq HB Hwf HO) as T. cbv zeta in T. set (z := s_ux (part_cond_sol _ _ _ _ _ _ _ _ _)) in *. clearbody z.
  assert (FE : feasible qp (s_ux sol) -> same_point qp (ptraj qp N2 bs z) (s_ux sol) /\ feasible qp (ptraj qp N2 bs z)).
  { intros (F1 & F2). assert (T' : same_point qp (ptraj qp N2 bs z) (s_ux sol)) by (apply T; intros i j Hi Hj _; apply F1; assumption). split; [exact T'|]. split.
    - intros i j Hi Hj. rewrite (same_dyn qp _ _ i j T' Hi Hj). apply F1; assumption.
    - intros i c Hi Hc Hm. rewrite (same_con qp _ _ i c T' Hi). apply F2; assumption. }
  split; [intros H; apply E1; exact (proj2 (FE H))|]. intros (O1 & O2). destruct (FE O1) as (T' & F'). apply E2. split; [exact F'|]. intros y Hy. rewrite (same_cost qp _ _ T'). apply O2. exact Hy.
Qed.

(** *** round trips with PART_COND_QP_EXPAND_SOL *)
Theorem C67_part_expand_condensed : forall alg0 sq diag N2 bs qp p0 ws sol ps sol0 ws2, part_pre alg0 diag N2 bs qp p0 -> block_orders qp N2 bs -> inner_dynamics qp N2 bs (s_ux sol) ->
  let r := part_cond (last_default N2) alg0 sq diag bs qp p0 ws in let t := fun _ : nat => true in
  let s := e_sol (part_expand (last_default N2) t t t bs N2 (p_qp r) (part_cond_sol (last_default N2) t t t bs N2 qp sol ps) sol0 ws2) in let D := q_dim qp in
  same_point qp (s_ux s) (s_ux sol) /\
  (forall i c, (i <= dN D)%nat -> (c < nct D i)%nat -> s_lam s i c = s_lam sol i c /\ s_t s i c = s_t sol i c) /\
  (ocp_lam_masked qp (s_lam sol) -> inner_stationary qp N2 bs sol -> forall i j, (i < dN D)%nat -> (j < dnx D (S i))%nat -> s_pi s i j = s_pi sol i j).
Proof.
  intros alg0 sq diag N2 bs qp p0 ws sol ps sol0 ws2 HP HO HD. cbv zeta. pose proof HP as (Hwf & HB & _).
  pose proof (p_traj qp N2 bs sol ps HB Hwf HO true true HD) as T. pose proof (p_ineq qp N2 bs sol ps HB Hwf HO true) as L. pose proof (p_ok qp N2 bs sol ps HB Hwf HO true true) as O. set (z := part_cond_sol _ _ _ _ _ _ _ _ _) in *. clearbody z.
  pose proof (exp_facts alg0 sq diag N2 bs qp p0 ws HP z sol0 ws2 true true) as (X1 & X2 & X3). specialize (X2 eq_refl). destruct (X3 eq_refl) as (X4 & BA & RSQ & (Q1 & Q2) & X5). clear X3. set (s := e_sol _) in *. clearbody s. set (D := q_dim qp) in *. set (N := dN D) in *.
  assert (A1 : same_point qp (s_ux s) (s_ux sol)). { intros i k Hi Hk. rewrite (X1 i k Hi Hk). apply T; assumption. }
  assert (A2 : forall i c, (i <= N)%nat -> (c < nct D i)%nat -> s_lam s i c = s_lam sol i c /\ s_t s i c = s_t sol i c). { intros i c Hi Hc. destruct (X2 i c Hi Hc) as (-> & ->). apply L; assumption. }
  split; [exact A1|]. split; [exact A2|]. intros HM HS.
  enough (Z : forall n i, (N - n <= i)%nat -> (i < N)%nat -> forall j, (j < dnx D (S i))%nat -> s_pi s i j = s_pi sol i j) by (intros i j Hi; apply (Z N i); [lia|exact Hi]).
  induction n as [|n IH]; intros i Hn Hi j Hj; [lia|].
  destruct (locate N N2 bs HB (S i) ltac:(lia)) as (ii & i' & B1 & B2 & E). destruct (Nat.eq_dec i' 0) as [->|Hi'].
  - rewrite Nat.add_0_r in E. destruct ii as [|ii]; [cbn in E; lia|]. rewrite E in Hj. replace i with (start bs (S ii) - 1)%nat by lia. rewrite (X4 ii j) by (try exact Hj; lia). destruct (O ii ltac:(lia)) as (_ & _ & O3). apply (O3 eq_refl); [lia|exact Hj].
  - pose proof (kkt_g_pi qp (s_ux s) (s_ux sol) (s_pi s) (s_pi sol) (s_lam s) (s_lam sol) (S i) j) as P. cbv zeta in P. fold D N in P. replace (S i - 1)%nat with i in P by lia. apply P.
    + lia.
    + exact Hj.
    + intros k Hk. apply A1; [fold D N; lia|exact Hk].
    + intros c Hc. apply A2; [lia|exact Hc].
    + intros Lt l Hl. apply IH; [lia|exact Lt|exact Hl].
    + rewrite <- (after_kkt_g qp BA RSQ Q1 Q2). apply (pif_kkt (after qp BA RSQ)); [change (dN (q_dim (after qp BA RSQ))) with N; lia|exact Hj| |].
      * intros c Hc. change (q_mask (after qp BA RSQ)) with (q_mask qp). change (nct (q_dim (after qp BA RSQ)) (S i)) with (nct D (S i)) in Hc. destruct (A2 (S i) c ltac:(lia) Hc) as (-> & _). destruct (HM (S i) c ltac:(fold D N; lia) Hc) as [(E1 & E2)|E1]; [rewrite E1, E2|rewrite E1]; ring.
      * change (dN (q_dim (after qp BA RSQ))) with N. rewrite E in Hj |- *. apply X5; [exact B1|lia|exact Hj].
    + apply HS; [fold D N; lia|]. split; [|unfold nux; fold D; lia]. intros kk Hkk Ek. rewrite E in Ek. pose proof (blk_at N N2 bs HB ii i' B1 B2) as E1. pose proof (blk_at N N2 bs HB kk 0 Hkk ltac:(lia)) as E2. rewrite Nat.add_0_r in E2. rewrite Ek in E1. assert (ii = kk) by congruence. subst kk. lia.
Qed.
Theorem C67_part_condensed_expanded : forall alg0 sq diag N2 bs qp p0 ws ps sol0 ws2 ps0, part_pre alg0 diag N2 bs qp p0 -> block_orders qp N2 bs ->
  let r := part_cond (last_default N2) alg0 sq diag bs qp p0 ws in let p := p_q2 r in let t := fun _ : nat => true in
  let s := part_cond_sol (last_default N2) t t t bs N2 qp (e_sol (part_expand (last_default N2) t t t bs N2 (p_qp r) ps sol0 ws2)) ps0 in
  forall ii, (ii <= N2)%nat ->
  (forall k, (k < nvt (q_dim p) ii)%nat -> s_ux s ii k = s_ux ps ii k) /\ (forall c, (c < nct (q_dim p) ii)%nat -> s_lam s ii c = s_lam ps ii c /\ s_t s ii c = s_t ps ii c) /\
  ((ii < N2)%nat -> forall j, (j < dnx (q_dim p) (S ii))%nat -> s_pi s ii j = s_pi ps ii j).
Proof.
  intros alg0 sq diag N2 bs qp p0 ws ps sol0 ws2 ps0 HP HO. cbv zeta. intros ii Hii. pose proof HP as (Hwf & HB & _).
  pose proof (exp_facts alg0 sq diag N2 bs qp p0 ws HP ps sol0 ws2 true true) as (X1 & X2 & X3). specialize (X2 eq_refl). destruct (X3 eq_refl) as (X4 & _). clear X3. set (o := e_sol _) in *. clearbody o.
  destruct (part_facts alg0 sq diag N2 bs qp p0 ws HP) as (F1 & F2 & F3). set (p := p_q2 _) in *. clearbody p. destruct (part_num qp p N2 bs F1 F3) as (_ & _ & M3).
  pose proof (p_ok qp N2 bs o ps0 HB Hwf HO true true ii Hii) as (O1 & _ & O3). pose proof (p_ineq qp N2 bs o ps0 HB Hwf HO true) as O2. set (s := part_cond_sol _ _ _ _ _ _ _ _ _) in *. clearbody s. split; [|split].
  - intros k Hk. pose proof (ddims_W qp p N2 bs F3 ii Hii) as (E1 & _ & _ & _ & E5). change (nvt (q_dim p) ii) with (dnv (stage_q p ii)) in Hk. unfold dnv in Hk. rewrite E1, E5 in Hk. destruct (slot_surj (W qp N2 bs ii) k ltac:(lia)) as (i & l & FF & <-).
    rewrite (holds_slot (W qp N2 bs ii) (from (start bs ii) (s_ux o)) (s_ux s ii) i l O1 FF). pose proof FF as (G1 & G2 & _). unfold from. rewrite (X1 (start bs ii + i)%nat l (in_le _ N2 bs HB ii i Hii G1) G2). rewrite (ptraj_at qp N2 bs HB (s_ux ps) ii i l) by assumption. exact (traj_slot (W qp N2 bs ii) (s_ux ps ii) i l FF).
  - intros c Hc. destruct (M3 ii c Hii Hc) as (i & c' & Hi & Hc' & <- & <-). destruct (O2 i c' Hi Hc') as (-> & ->). apply X2; assumption.
  - intros L j Hj. destruct (proj2 F2 (S ii) ltac:(lia)) as (_ & S2 & _). rewrite S2 in Hj. rewrite (O3 eq_refl L j Hj). apply X4; assumption.
Qed.

(** *** every KKT residual of the condensed solution is a KKT residual of the OCP solution *)
Theorem C67_part_residuals : forall alg0 sq diag N2 bs qp p0 ws sol ps, part_pre alg0 diag N2 bs qp p0 -> block_orders qp N2 bs -> inner_dynamics qp N2 bs (s_ux sol) -> inner_stationary qp N2 bs sol ->
  let p := p_q2 (part_cond (last_default N2) alg0 sq diag bs qp p0 ws) in let t := fun _ : nat => true in
  let s := part_cond_sol (last_default N2) t t t bs N2 qp sol ps in let D := q_dim qp in
  (forall ii k2, (ii <= N2)%nat -> (k2 < nvt (q_dim p) ii)%nat -> exists i k, (i <= dN D)%nat /\ (k < nvt D i)%nat /\ ~ part_eliminated qp N2 bs i k /\ s_ux s ii k2 = s_ux sol i k /\
     kkt_g p (s_ux s) (s_pi s) (s_lam s) ii k2 = kkt_g qp (s_ux sol) (s_pi sol) (s_lam sol) i k) /\
  (forall ii j, (ii < N2)%nat -> (j < dnx (q_dim p) (S ii))%nat -> dyn p (s_ux s) ii j = dyn qp (s_ux sol) (start bs (S ii) - 1) j) /\
  (forall ii c2, (ii <= N2)%nat -> (c2 < nct (q_dim p) ii)%nat -> exists i c, (i <= dN D)%nat /\ (c < nct D i)%nat /\ s_lam s ii c2 = s_lam sol i c /\ s_t s ii c2 = s_t sol i c /\
     kkt_d p (s_ux s) (s_t s) ii c2 = kkt_d qp (s_ux sol) (s_t sol) i c /\ kkt_m p (s_lam s) (s_t s) ii c2 = kkt_m qp (s_lam sol) (s_t sol) i c).
Proof.
  intros alg0 sq diag N2 bs qp p0 ws sol ps HP HO HD HS. cbv zeta. pose proof HP as (Hwf & HB & _).
  pose proof (p_traj qp N2 bs sol ps HB Hwf HO true true HD) as T. pose proof (p_ineq qp N2 bs sol ps HB Hwf HO true) as L. pose proof (p_ok qp N2 bs sol ps HB Hwf HO true true) as O. set (s := part_cond_sol _ _ _ _ _ _ _ _ _) in *. clearbody s.
  destruct (part_facts alg0 sq diag N2 bs qp p0 ws HP) as (F1 & F2 & F3). set (p := p_q2 _) in *. clearbody p. destruct (part_num qp p N2 bs F1 F3) as (_ & _ & M3). set (D := q_dim qp) in *. set (N := dN D) in *.
  assert (HL : forall i c, (i <= N)%nat -> (c < nct D i)%nat -> s_lam sol i c = s_lam s (block_of N2 bs i) (ppos qp N2 bs i c)) by (intros i c Hi Hc; symmetry; apply L; assumption).
  assert (HPi : forall ii j, (ii < N2)%nat -> (j < dnx D (start bs (S ii)))%nat -> s_pi sol (start bs (S ii) - 1)%nat j = s_pi s ii j). { intros ii j Hii Hj. destruct (O ii ltac:(lia)) as (_ & _ & O3). symmetry. apply (O3 eq_refl); assumption. }
  assert (NE : forall ii i' kk, (ii <= N2)%nat -> (i' <= blen N2 bs ii)%nat -> (kk <= N2)%nat -> (start bs ii + i')%nat = start bs kk -> i' = 0%nat).
  { intros ii i' kk B1 B2 Hkk Ek. pose proof (blk_at N N2 bs HB ii i' B1 B2) as E1. pose proof (blk_at N N2 bs HB kk 0 Hkk ltac:(lia)) as E2. rewrite Nat.add_0_r in E2. rewrite Ek in E1. assert (ii = kk) by congruence. subst kk. lia. }
  assert (K0 : forall ii i j, (ii <= N2)%nat -> (1 <= i <= blen N2 bs ii)%nat -> (j < dnx D (start bs ii + i))%nat -> kkt_g qp (ptraj qp N2 bs (s_ux s)) (s_pi sol) (s_lam sol) (start bs ii + i) (dnu D (start bs ii + i) + j)%nat = 0).
  { intros ii i j Hii Hi Hj. pose proof (in_le N N2 bs F1 ii i Hii ltac:(lia)) as Hle. rewrite (same_kkt_g qp _ _ (s_pi sol) (s_lam sol) _ _ T) by exact Hle. apply HS; [exact Hle|]. split; [|unfold nux; fold D; lia]. intros kk Hkk Ek. pose proof (NE ii i kk Hii ltac:(lia) Hkk Ek). lia. }
  split; [|split].
  - intros ii k2 Hii Hk. pose proof (ddims_W qp p N2 bs F3 ii Hii) as (E1 & _ & _ & _ & E5). change (nvt (q_dim p) ii) with (dnv (stage_q p ii)) in Hk. unfold dnv in Hk. rewrite E1, E5 in Hk. destruct (slot_surj (W qp N2 bs ii) k2 ltac:(lia)) as (i & l & FF & <-). pose proof FF as (G1 & G2 & G3).
    pose proof (in_le N N2 bs HB ii i Hii G1) as Hle. exists (start bs ii + i)%nat, l. split; [exact Hle|]. split; [exact G2|]. split; [|split].
    + intros (E2 & E3). destruct G3 as [G3|[G3|G3]]; [subst i; apply (E2 ii Hii); lia| |]; cbn [W window q_dim dnu nux ResSpec.nux] in G3; unfold nux in *; cbn [W window q_dim dnu dnx] in G3; lia.
    + destruct (O ii Hii) as (O1 & _). exact (holds_slot (W qp N2 bs ii) (from (start bs ii) (s_ux sol)) (s_ux s ii) i l O1 FF).
    + rewrite <- (same_kkt_g qp _ _ (s_pi sol) (s_lam sol) _ l T Hle). symmetry. exact (part_kkt_g qp p N2 bs F1 F2 F3 (s_ux s) (s_pi sol) (s_lam sol) (s_pi s) (s_lam s) HL HPi K0 ii i l Hii FF).
  - intros ii j Hii Hj. rewrite (part_dyn qp p N2 bs F1 F2 F3 (s_ux s) ii j Hii Hj). pose proof (PartSem.start_S _ N2 bs F1 ii Hii) as Es. pose proof (in_le _ N2 bs F1 (S ii) 0 ltac:(lia) ltac:(lia)) as Hle. destruct (proj2 F2 (S ii) ltac:(lia)) as (_ & S2 & _). rewrite S2 in Hj.
    apply same_dyn; [exact T|fold D N in Hle |- *; lia|]. replace (S (start bs (S ii) - 1)) with (start bs (S ii)) by lia. exact Hj.
  - intros ii c2 Hii Hc2. destruct (M3 ii c2 Hii Hc2) as (i & c & Hi & Hc & <- & <-). exists i, c. destruct (L i c Hi Hc) as (L1 & L2). split; [exact Hi|]. split; [exact Hc|]. split; [exact L1|]. split; [exact L2|].
    destruct (part_con qp p N2 bs F1 F3 (s_ux s) i c Hi Hc) as (C1 & C2 & C3). rewrite (same_con qp _ _ i c T Hi) in C1. split.
    + unfold kkt_d. rewrite C2, L2. f_equal. lra.
    + unfold kkt_m. rewrite C2, C3, L1, L2. reflexivity.
Qed.
Theorem C67_part_kkt_point : forall alg0 sq diag N2 bs qp p0 ws sol ps, part_pre alg0 diag N2 bs qp p0 -> block_orders qp N2 bs -> ocp_kkt_point qp sol ->
  let t := fun _ : nat => true in ocp_kkt_point (p_q2 (part_cond (last_default N2) alg0 sq diag bs qp p0 ws)) (part_cond_sol (last_default N2) t t t bs N2 qp sol ps).
Proof.
  intros alg0 sq diag N2 bs qp p0 ws sol ps HP HO (K1 & K2 & K3). cbv zeta. pose proof (C67_part_residuals alg0 sq diag N2 bs qp p0 ws sol ps HP HO) as R. cbv zeta in R.
  destruct R as (R1 & R2 & R3); [intros i j Hi Hj _; apply K2; assumption|intros i k Hi (_ & E); apply K1; [exact Hi|unfold nvt; unfold nux in E; lia]|].
  destruct (part_facts alg0 sq diag N2 bs qp p0 ws HP) as (F1 & F2 & _). set (p := p_q2 _) in *. clearbody p. set (s := part_cond_sol _ _ _ _ _ _ _ _ _) in *. clearbody s. assert (En : dN (q_dim p) = N2) by exact (proj1 F2). unfold ocp_kkt_point. rewrite En. split; [|split].
  - intros ii k2 Hii Hk. destruct (R1 ii k2 Hii Hk) as (i & k & Hi & Hk' & _ & _ & ->). apply K1; assumption.
  - intros ii j Hii Hj. rewrite (R2 ii j Hii Hj). pose proof (PartSem.start_S _ N2 bs F1 ii Hii) as Es. pose proof (in_le _ N2 bs F1 (S ii) 0 ltac:(lia) ltac:(lia)) as Hle. destruct (proj2 F2 (S ii) ltac:(lia)) as (_ & S2 & _). rewrite S2 in Hj. apply K2; [lia|]. replace (S (start bs (S ii) - 1)) with (start bs (S ii)) by lia. exact Hj.
  - intros ii c2 Hii Hc2. destruct (R3 ii c2 Hii Hc2) as (i & c & Hi & Hc & -> & -> & -> & ->). apply K3; assumption.
Qed.

(** *** the condition on the order of the slacks *)
Theorem C67_part_soft_bounds : forall N2 bs (qp : oqp R), blocks_ok (dN (q_dim qp)) N2 bs -> soft_bounds_in_order qp -> block_orders qp N2 bs.
Proof. exact PcsplitProps.C64_soft_bounds. Qed.
(** *** a concrete case: the QP and KKT point of CsolProps.v in a block of two stages and one of one stage *)
Definition cxp_bs (ii : nat) : nat := if (ii =? 0)%nat then 2%nat else 0%nat.
Definition cxp_p : oqp R := mkqp (mkdims 1 (fun _ => 1%nat) (fun ii => if (ii =? 0)%nat then 2%nat else 0%nat) (fun ii => if (ii =? 0)%nat then 2%nat else 1%nat) (fun _ => 0%nat) (fun ii => if (ii =? 0)%nat then 2%nat else 0%nat))
  (fun _ _ _ => 0) (fun _ _ _ => 0) (fun _ _ _ => 0) (fun _ _ => 0) (fun _ _ => 0) (fun _ _ => 0) (fun _ _ => 1) (fun _ _ => 0) (fun _ _ => 0) (fun _ _ => 0%nat) (fun _ _ => (-1)%Z).
Theorem C67_part_hypotheses_met : part_pre (fun _ => true) (fun _ => true) 1 cxp_bs cx_qp cxp_p /\ block_orders cx_qp 1 cxp_bs /\ ocp_kkt_point cx_qp cx_sol /\ ocp_lam_masked cx_qp (s_lam cx_sol).
Proof.
  assert (HB : blocks_ok (dN (q_dim cx_qp)) 1 cxp_bs). { split; [|reflexivity]. intros ii Hii. assert (ii = 0%nat) by lia. subst ii. cbn. lia. }
  split; [|split; [apply C67_part_soft_bounds; [exact HB|exact cx_order]|exact cx_kkt]].
  destruct C67_hypotheses_met as ((P1 & _) & _). split; [exact P1|]. split; [exact HB|]. split; [|split].
  - split; [reflexivity|]. intros ii Hii. assert (E : ii = 0%nat \/ ii = 1%nat) by lia. destruct E as [-> | ->]; vm_compute; repeat split; reflexivity.
  - reflexivity.
  - intros ii Hii. left. reflexivity.
Qed.
Print Assumptions C67_part_optimal.
Print Assumptions C67_part_expand_condensed.
Print Assumptions C67_part_condensed_expanded.
Print Assumptions C67_part_kkt_point.
