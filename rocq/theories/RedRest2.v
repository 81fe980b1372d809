(** RedRest2.v -- restoration and reduction of solutions over all stages; KKT residuals of restored solutions. *)
From Coq Require Import ZArith Bool Arith List Lia Reals Lra.
From Verif Require Import Base ArithF RSum Blas OcpModel ResSpec ResProofs ResProofs2 KktProofs CondSpec CondProps RedModel RedSpec RedSem RedProofs RedFull RedRest.
Local Open Scope R_scope.

Lemma restore_frame {F} {AF : Arith F} pr du dq lmin tmin (qp : oqp F) Dr e r ii o w : let o' := fst (restore_stage pr du dq lmin tmin qp Dr e r ii (o, w)) in
  (pr = false -> s_ux o' = s_ux o) /\ (dq = false -> s_pi o' = s_pi o) /\ (du = false -> s_lam o' = s_lam o /\ s_t o' = s_t o) /\
  (forall i, i <> ii -> s_ux o' i = s_ux o i /\ s_pi o' i = s_pi o i /\ s_lam o' i = s_lam o i /\ s_t o' i = s_t o i).
Proof.
  cbv zeta. unfold restore_stage. set (pi := if dq then _ else s_pi o). assert (P1 : dq = false -> pi = s_pi o) by (intros E; unfold pi; rewrite E; reflexivity). assert (P2 : forall i, i <> ii -> pi i = s_pi o i) by (intros i Hi; unfold pi; destruct dq; [destruct (ii <? dN (q_dim qp))%nat; [apply upd_other; exact Hi|]|]; reflexivity). clearbody pi.
  destruct (0 <? ne_thr e ii)%nat.
  - set (w1 := red_marks _ _ _ _ _ _ _). clearbody w1. cbv zeta. destruct du.
    + destruct (res_mult _ _ _ _ _ _ _ _) as [[a b] c]. cbn [fst s_ux s_pi s_lam s_t]. split; [intros ->; reflexivity|]. split; [exact P1|]. split; [discriminate|]. intros i Hi. destruct pr; rewrite !upd_other by exact Hi; rewrite P2 by exact Hi; repeat split.
    + cbn [fst s_ux s_pi s_lam s_t]. split; [intros ->; reflexivity|]. split; [exact P1|]. split; [split; reflexivity|]. intros i Hi. destruct pr; rewrite ?upd_other by exact Hi; rewrite P2 by exact Hi; repeat split.
  - cbn [fst s_ux s_pi s_lam s_t]. split; [intros ->; reflexivity|]. split; [exact P1|]. split; [intros ->; split; reflexivity|]. intros i Hi. destruct pr; destruct du; rewrite ?upd_other by exact Hi; rewrite P2 by exact Hi; repeat split.
Qed.
Lemma restore_flags {F} {AF : Arith F} pr du dq lmin tmin (qp : oqp F) Dr e r o w : let o' := fst (restore_eq_dof pr du dq lmin tmin qp Dr e r (o, w)) in
  (pr = false -> s_ux o' = s_ux o) /\ (dq = false -> s_pi o' = s_pi o) /\ (du = false -> s_lam o' = s_lam o /\ s_t o' = s_t o).
Proof.
  cbv zeta. unfold restore_eq_dof. generalize (dN (q_dim qp) + 1)%nat. intros n. induction n as [|n IH]; [cbn [loop fst]; repeat split|]. rewrite loop_S. destruct (loop n _ _) as [o1 w1]. cbn [fst] in IH. destruct IH as (A & B & C).
  pose proof (restore_frame pr du dq lmin tmin qp Dr e r n o1 w1) as X. cbv zeta in X. destruct X as (X1 & X2 & X3 & _). set (o2 := fst _) in *. clearbody o2. split; [intros E; rewrite X1, A by exact E; reflexivity|]. split; [intros E; rewrite X2, B by exact E; reflexivity|].
  intros E. destruct (X3 E) as (-> & ->). apply C. exact E.
Qed.

Section Full.
Variables (qp : oqp R) (e : eqd).
Let D := q_dim qp.
Let Dr := dim_reduce D e.
Hypothesis WF : qp_wf qp.
Hypothesis EW : eq_wf qp e.
Notation fx := (fixed qp e).
Notation vp := (vplace qp e).
Notation cp := (cplace qp e).
Notation fv := (fixval qp e).
Notation lft := (lift qp e).
Notation rmc := (removedc qp e).

Lemma rest_prim_ext i y z z' : z' i = z i -> rest_prim qp e i y z -> rest_prim qp e i y z'.
Proof. unfold rest_prim. intros ->. exact (fun H => H). Qed.
Lemma rest_pi_ext i y z z' : z' i = z i -> rest_pi qp i y z -> rest_pi qp i y z'.
Proof. unfold rest_pi. intros ->. exact (fun H => H). Qed.
Lemma rest_ineq_ext i lmin tmin r z z' pi l l' t t' : z' i = z i -> l' i = l i -> t' i = t i -> rest_ineq qp e i lmin tmin r z pi l t -> rest_ineq qp e i lmin tmin r z' pi l' t'.
Proof. unfold rest_ineq. intros -> -> ->. exact (fun H => H). Qed.
Lemma restore_R pr du dq lmin tmin (r o : osol R) w : let o' := fst (restore_eq_dof pr du dq lmin tmin qp Dr e r (o, w)) in
  forall i, (i <= dN D)%nat -> (pr = true -> rest_prim qp e i (s_ux r) (s_ux o')) /\ (dq = true -> rest_pi qp i (s_pi r) (s_pi o')) /\
    (du = true -> rest_ineq qp e i lmin tmin r (s_ux o') (s_pi r) (s_lam o') (s_t o')).
Proof.
  cbv zeta. unfold restore_eq_dof. fold D.
  assert (X : forall n, (n <= dN D + 1)%nat -> let o' := fst (loop n (restore_stage pr du dq lmin tmin qp Dr e r) (o, w)) in forall i, (i < n)%nat ->
    (pr = true -> rest_prim qp e i (s_ux r) (s_ux o')) /\ (dq = true -> rest_pi qp i (s_pi r) (s_pi o')) /\ (du = true -> rest_ineq qp e i lmin tmin r (s_ux o') (s_pi r) (s_lam o') (s_t o'))).
  { induction n as [|n IH]; intros Hn; [cbn [loop fst]; lia|]. cbv zeta. rewrite loop_S. specialize (IH ltac:(lia)). cbv zeta in IH. destruct (loop n _ (o, w)) as [o1 w1]. cbn [fst] in IH. intros i Hi.
    pose proof (restore_frame pr du dq lmin tmin qp Dr e r n o1 w1) as FR. pose proof (restore_stage_R qp e n ltac:(fold D; lia) WF EW pr du dq lmin tmin r o1 w1) as ST. fold D Dr in ST. cbv zeta in FR, ST. set (o2 := fst _) in *. clearbody o2. destruct FR as (_ & _ & _ & FR).
    destruct (Nat.eq_dec i n) as [->|N]; [exact ST|]. destruct (FR i N) as (F1 & F2 & F3 & F4). destruct (IH i ltac:(lia)) as (I1 & I2 & I3). split; [|split]; intros E.
    - apply (rest_prim_ext i _ (s_ux o1)); [exact F1|]. apply I1. exact E.
    - apply (rest_pi_ext i _ (s_pi o1)); [exact F2|]. apply I2. exact E.
    - apply (rest_ineq_ext i _ _ _ (s_ux o1) _ _ (s_lam o1) _ (s_t o1)); try assumption. apply I3. exact E. }
  intros i Hi. apply (X (dN D + 1)%nat (le_n _)). lia.
Qed.

(** *** reduction of a solution *)
Definition redsol_post (o : osol R) (i : nat) (pr du dq : bool) (r : osol R) : Prop :=
  (pr = true -> forall k, (k < nvt D i)%nat -> fx i k = false -> s_ux r i (vp i k) = s_ux o i k) /\
  (dq = true -> (i < dN D)%nat -> forall j, (j < dnx D (S i))%nat -> s_pi r i j = s_pi o i j) /\
  (du = true -> forall c, (c < nct D i)%nat -> rmc i c = false -> s_lam r i (cp i c) = s_lam o i c /\ s_t r i (cp i c) = s_t o i c).
Lemma redsol_stage_R pr du dq (o r : osol R) w i : (i <= dN D)%nat -> redsol_post o i pr du dq (fst (redsol_stage pr du dq qp Dr e o i (r, w))).
Proof.
  intros Hi. unfold redsol_stage. fold D. change (dnu D i + dnx D i)%nat with (nux qp i). change (dng Dr i) with (dng D i). replace (i + 1)%nat with (S i) by lia. set (n := nux qp i).
  pose proof (nuxr_eq qp e i Hi WF EW) as ENX. fold D Dr n in ENX. rewrite ENX.
  set (pi := if dq then _ else s_pi r).
  assert (PI : dq = true -> (i < dN D)%nat -> forall j, (j < dnx D (S i))%nat -> pi i j = s_pi o i j).
  { intros Edq HN j Hj. unfold pi. rewrite Edq. destruct (Nat.ltb_spec i (dN D)); [|lia]. rewrite upd_same. unfold VECCP. rewrite vset_in' by lia. f_equal. lia. }
  clearbody pi. assert (EV : nvt D i = (n + 2 * dns D i)%nat) by (unfold nvt, n, nux; fold D; lia). unfold redsol_post.
  destruct (Nat.ltb_spec 0 (ne_thr e i)) as [Hne|Hne].
  - pose proof (red_marks_R qp e i Hi EW (dnb D i) w eq_refl) as M. cbv zeta in M. fold n in M. set (w' := red_marks n _ _ _ _ _ w) in *. clearbody w'. destruct M as (M1 & M2). fold D in M2.
    assert (RK : forall k, (k <= n)%nat -> vp i k = rk (rw_mx w') k) by (intros k Hk; apply rk_ext; intros l Hl; symmetry; apply M1; lia).
    cbn [fst s_ux s_pi s_lam s_t]. split; [|split; [exact PI|]].
    + intros -> k Hk F. rewrite upd_same. rewrite EV in Hk. unfold VECCP. destruct (Nat.lt_ge_cases k n) as [L|L].
      * rewrite vset_out by (left; apply rk_lt; assumption). rewrite RK by lia. apply (red_idx_R n (rw_mx w')); [exact L|]. rewrite (proj2 (M1 k L)). exact F.
      * assert (EK : vp i k = (vp i n + (k - n))%nat) by (rewrite <- (vp_slack qp e i Hi); f_equal; fold n; lia). rewrite EK, vset_in by lia. f_equal. lia.
    + intros -> c Hc Hr. rewrite !upd_same. pose proof (red_cp_R qp e i Hi EW (rw_md w') (s_lam o i) (s_lam r i) M2 c Hc Hr) as A1. pose proof (red_cp_R qp e i Hi EW (rw_md w') (s_t o i) (s_t r i) M2 c Hc Hr) as A2. fold D Dr in A1, A2. split; [exact A1|exact A2].
  - assert (Z0 : ne_thr e i = 0%nat) by lia. cbn [fst s_ux s_pi s_lam s_t]. split; [|split; [exact PI|]].
    + intros -> k Hk _. rewrite upd_same. assert (EK : vp i k = k) by (apply rk_none, none_fx, Z0). rewrite EK. unfold VECCP. rewrite vset_in' by lia. f_equal. lia.
    + intros -> c Hc _. rewrite !upd_same. assert (EC : cp i c = c) by (apply rk_none, none_rmc, Z0). rewrite EC. unfold VECCP. unfold nct in Hc. rewrite !vset_in' by lia. rewrite Nat.sub_0_r. split; reflexivity.
Qed.
Lemma redsol_frame pr du dq (o r : osol R) w ii : let r' := fst (redsol_stage pr du dq qp Dr e o ii (r, w)) in
  (pr = false -> s_ux r' = s_ux r) /\ (dq = false -> s_pi r' = s_pi r) /\ (du = false -> s_lam r' = s_lam r /\ s_t r' = s_t r) /\
  (forall i, i <> ii -> s_ux r' i = s_ux r i /\ s_pi r' i = s_pi r i /\ s_lam r' i = s_lam r i /\ s_t r' i = s_t r i).
Proof.
  cbv zeta. unfold redsol_stage. set (pi := if dq then _ else s_pi r). assert (P1 : dq = false -> pi = s_pi r) by (intros E; unfold pi; rewrite E; reflexivity). assert (P2 : forall i, i <> ii -> pi i = s_pi r i) by (intros i Hi; unfold pi; destruct dq; [destruct (ii <? dN (q_dim qp))%nat; [apply upd_other; exact Hi|]|]; reflexivity). clearbody pi.
  destruct (0 <? ne_thr e ii)%nat; [set (w1 := red_marks _ _ _ _ _ _ _); clearbody w1|]; cbn [fst s_ux s_pi s_lam s_t]; (split; [intros ->; reflexivity|]; split; [exact P1|]; split; [intros ->; split; reflexivity|]; intros i Hi; destruct pr; destruct du; rewrite ?upd_other by exact Hi; rewrite P2 by exact Hi; repeat split).
Qed.
Lemma reduce_sol_R pr du dq (o r : osol R) w : forall i, (i <= dN D)%nat -> redsol_post o i pr du dq (fst (reduce_sol pr du dq qp Dr e o (r, w))).
Proof.
  unfold reduce_sol. fold D.
  assert (X : forall n, (n <= dN D + 1)%nat -> forall i, (i < n)%nat -> redsol_post o i pr du dq (fst (loop n (redsol_stage pr du dq qp Dr e o) (r, w)))).
  { induction n as [|n IH]; intros Hn i Hi; [lia|]. rewrite loop_S. specialize (IH ltac:(lia)). destruct (loop n _ (r, w)) as [r1 w1]. cbn [fst] in IH.
    pose proof (redsol_frame pr du dq o r1 w1 n) as FR. pose proof (redsol_stage_R pr du dq o r1 w1 n ltac:(lia)) as ST. cbv zeta in FR. set (r2 := fst _) in *. clearbody r2. destruct FR as (_ & _ & _ & FR).
    destruct (Nat.eq_dec i n) as [->|N]; [exact ST|]. destruct (FR i N) as (F1 & F2 & F3 & F4). unfold redsol_post. rewrite F1, F2, F3, F4. apply IH. lia. }
  intros i Hi. apply (X (dN D + 1)%nat (le_n _)). lia.
Qed.

(** *** KKT residuals of the restored solution *)
Variable r : oqp R.
Hypothesis RR : restriction qp e r.
Hypothesis EB : eq_bounds qp e.
Hypothesis EI : eq_imposed qp e.
Variables (lmin tmin : R) (sr o : osol R).
Hypothesis R1 : same_point qp (s_ux o) (lft (s_ux sr)).
Hypothesis R2 : forall i j, (i < dN D)%nat -> (j < dnx D (S i))%nat -> s_pi o i j = s_pi sr i j.
Hypothesis R3 : forall i, (i <= dN D)%nat -> rest_ineq qp e i lmin tmin sr (s_ux o) (s_pi sr) (s_lam o) (s_t o).
Hypothesis LM : forall i c, (i <= dN D)%nat -> (c < nct (q_dim r) i)%nat -> (q_mask r i c = 0 /\ s_lam sr i c = 0) \/ q_mask r i c = 1.
Lemma kept_lam i c : (i <= dN D)%nat -> (c < nct D i)%nat -> rmc i c = false -> q_mask qp i c * s_lam o i c = s_lam o i c.
Proof.
  intros Hi Hc Hr. destruct (R3 i Hi) as (K & _). destruct (K c Hc Hr) as (EL & _). destruct RR as (_ & A & _ & _ & B). destruct (A i Hi) as (_ & _ & _ & A4 & _). destruct (B i c Hi Hc Hr) as (_ & _ & EM & _).
  assert (P : (cp i c < nct (q_dim r) i)%nat) by (rewrite A4; apply rk_lt; assumption). rewrite EL, <- EM. destruct (LM i (cp i c) Hi P) as [(E1 & E2)|E1]; [rewrite E2|rewrite E1]; ring.
Qed.
Lemma kkt_g_fixed i k : (i <= dN D)%nat -> fx i k = true -> kkt_g qp (s_ux o) (s_pi o) (s_lam o) i k = lmin \/ kkt_g qp (s_ux o) (s_pi o) (s_lam o) i k = - lmin.
Proof.
  intros Hi F. pose proof (fixed_lt qp e i k F) as Hk. destruct (fixed_ex qp e i k F) as (q & Hq & Ek). destruct (EW i Hi) as (_ & _ & _ & A & _ & _ & INJ & NF). destruct (A q Hq) as (Hj & Sj). fold D in Hj, NF. set (j := e_idxe e i q) in *. pose proof (removed_q e i q Hq) as Rj. fold j in Rj.
  destruct (R3 i Hi) as (_ & K). fold D in K. destruct (K j Hj Rj) as (_ & _ & g & lt & L1 & L2 & L3). fold D in L1. rewrite <- Ek in L2.
  set (nb := dnb D i) in *. set (ng := dng D i) in *. set (nbg := (nb + ng)%nat).
  assert (J1 : (j < nct D i)%nat) by (unfold nct; fold nb; lia). assert (J2 : (nbg + j < nct D i)%nat) by (unfold nct, nbg; fold nb ng; lia).
  pose proof (rm_rmc_lo qp e i Hi j Hj) as Q1. pose proof (rm_rmc_up qp e i Hi j Hj) as Q2. fold D nb ng nbg in Q2. rewrite Rj in Q1, Q2. fold nbg in L3.
  assert (EQ : kkt_g qp (s_ux o) (s_pi o) (s_lam o) i k = g + (s_lam o i (nbg + j)%nat - lmin) - (s_lam o i j - lmin)).
  { unfold kkt_g. fold D. assert (GT := GT_hard (nux qp i) nb ng (dns D i) (q_idxb qp i) (q_DCt qp i) (q_idxs_rev qp i) (fun c => q_mask qp i c * s_lam o i c) k Hk).
    unfold nct. fold nb ng. unfold G. fold D nb ng. rewrite GT. clear GT. rewrite L2. unfold gr. fold D nb ng.
    assert (EH : rsum (nvt D i) (fun l => Hess qp i k l * s_ux o i l) = rsum (nux qp i) (fun l => symL (q_RSQ qp i) k l * s_ux o i l)).
    { unfold Hess. replace (nvt D i) with (nux qp i + 2 * dns D i)%nat by (unfold nvt, nux; fold D; lia). apply H_hard. exact Hk. }
    rewrite EH. assert (EP : ((0 <? i) && (dnu D i <=? k) && (k <? nux qp i))%nat%bool = false).
    { destruct (Nat.ltb_spec 0 i) as [P|P]; [|reflexivity]. destruct (Nat.leb_spec (dnu D i) k) as [P2|P2]; [|reflexivity]. pose proof (state_free qp e EW i k ltac:(fold D; lia) P2). congruence. }
    rewrite EP. assert (EBA : (if ((i <? dN D) && (k <? nux qp i))%nat%bool then rsum (dnx D (S i)) (fun j => q_BAbt qp i k j * s_pi o i j) else 0) = (if (i <? dN D)%nat then rsum (dnx D (S i)) (fun j => q_BAbt qp i k j * s_pi sr i j) else 0)).
    { destruct (Nat.ltb_spec k (nux qp i)); [|lia]. destruct (Nat.ltb_spec i (dN D)); [|reflexivity]. cbn [andb]. apply rsum_ext. intros l Hl. rewrite R2 by assumption. reflexivity. }
    rewrite EBA.
    assert (ES : rsum nbg (fun l => row_co nb (q_idxb qp i) (q_DCt qp i) l k * (q_mask qp i (nbg + l)%nat * s_lam o i (nbg + l)%nat - q_mask qp i l * s_lam o i l)) =
      rsum nbg (fun l => row_co nb (q_idxb qp i) (q_DCt qp i) l k * (lt (nbg + l)%nat - lt l)) + (s_lam o i (nbg + j)%nat - lmin) - (s_lam o i j - lmin)).
    { transitivity (rsum nbg (fun l => row_co nb (q_idxb qp i) (q_DCt qp i) l k * (lt (nbg + l)%nat - lt l) + (if (l =? j)%nat then (s_lam o i (nbg + j)%nat - lmin) - (s_lam o i j - lmin) else 0))).
      2:{ rewrite rsum_add. rewrite (rsum_one nbg j (fun _ => s_lam o i (nbg + j)%nat - lmin - (s_lam o i j - lmin))) by (unfold nbg; lia). ring. }
      apply rsum_ext. intros l Hl. assert (B1 : (l < nct D i)%nat) by (unfold nct, nbg in *; fold nb ng; lia). assert (B2 : (nbg + l < nct D i)%nat) by (unfold nct, nbg in *; fold nb ng; lia). rewrite !L1 by assumption.
      destruct (Nat.eqb_spec l j) as [->|N].
      - rewrite Q1, Q2. rewrite (EI i j Hi J1 Q1). rewrite (EI i (nbg + j)%nat Hi J2 Q2). unfold row_co. destruct (Nat.ltb_spec j nb); [|lia]. destruct (Nat.eqb_spec (q_idxb qp i j) k) as [_|NN]; [|symmetry in Ek; contradiction]. ring.
      - destruct (Nat.lt_ge_cases l nb) as [L|L].
        + assert (Z0 : row_co nb (q_idxb qp i) (q_DCt qp i) l k = 0).
          { unfold row_co. destruct (Nat.ltb_spec l nb); [|lia]. destruct (Nat.eqb_spec (q_idxb qp i l) k) as [E|_]; [|reflexivity]. exfalso. destruct (removed e i l) eqn:Rl.
            - destruct (removed_ex e i l Rl) as (q' & Hq' & ->). rewrite Ek in E. pose proof (INJ q' q Hq' Hq E). subst q'. apply N. reflexivity.
            - pose proof (NF l L Rl). congruence. }
          rewrite Z0. ring.
        + assert (C1 : rmc i l = false) by (apply (rmc_gen qp e i Hi); fold D nb ng; unfold nbg in *; lia). assert (C2 : rmc i (nbg + l)%nat = false) by (apply (rmc_gen qp e i Hi); fold D nb ng; unfold nbg in *; lia). rewrite C1, C2. rewrite !kept_lam by assumption. ring. }
    fold nbg. rewrite ES. ring. }
  rewrite EQ. destruct L3 as [(_ & -> & ->)|(_ & -> & ->)]; [left|right]; ring.
Qed.
Lemma kkt_g_free_r i k : (i <= dN D)%nat -> (k < nvt D i)%nat -> fx i k = false -> kkt_g qp (s_ux o) (s_pi o) (s_lam o) i k = kkt_g r (s_ux sr) (s_pi sr) (s_lam sr) i (vp i k).
Proof.
  intros Hi Hk F. apply (kkt_g_lift qp e r WF EW RR); try assumption. intros i' c Hi' Hc Hr. destruct (R3 i' Hi') as (K & _). apply K; assumption.
Qed.
Lemma dyn_rest i j : (i < dN D)%nat -> (j < dnx D (S i))%nat -> dyn qp (s_ux o) i j = dyn r (s_ux sr) i j.
Proof.
  intros Hi Hj. rewrite <- (dyn_lift qp e r WF EW RR) by assumption. unfold dyn. rewrite (R1 (S i)) by (fold D; try lia; unfold nvt; fold D; lia). f_equal. f_equal. apply rsum_ext. intros k Hk. rewrite (R1 i k) by (fold D; try lia; unfold nux in Hk; fold D in Hk; unfold nvt; lia). reflexivity.
Qed.
Lemma con_rest i c : (i <= dN D)%nat -> con qp (s_ux o) i c = con qp (lft (s_ux sr)) i c.
Proof. intros Hi. apply same_con; assumption. Qed.
Lemma kkt_d_kept i c : (i <= dN D)%nat -> (c < nct D i)%nat -> rmc i c = false ->
  kkt_d qp (s_ux o) (s_t o) i c = kkt_d r (s_ux sr) (s_t sr) i (cp i c) /\ kkt_m qp (s_lam o) (s_t o) i c = kkt_m r (s_lam sr) (s_t sr) i (cp i c).
Proof.
  intros Hi Hc Hr. destruct (R3 i Hi) as (K & _). destruct (K c Hc Hr) as (EL & ET). pose proof (con_lift qp e r WF EW RR (s_ux sr) i c Hi Hc Hr) as CL. destruct RR as (_ & _ & _ & _ & B). destruct (B i c Hi Hc Hr) as (_ & _ & EM & Em).
  unfold kkt_d, kkt_m. rewrite EL, ET, EM, Em. split; [|reflexivity]. rewrite con_rest by exact Hi. f_equal. lra.
Qed.
Lemma kkt_d_removed i c : (i <= dN D)%nat -> (c < nct D i)%nat -> rmc i c = true ->
  kkt_d qp (s_ux o) (s_t o) i c = tmin /\ kkt_m qp (s_lam o) (s_t o) i c = s_lam o i c * tmin - q_m qp i c /\ s_t o i c = tmin /\ (0 <= lmin -> 0 <= s_lam o i c).
Proof.
  intros Hi Hc Hr. destruct (removedc_cases qp e i c Hc Hr) as (j & Hj & Rj & Ec). destruct (R3 i Hi) as (_ & K). destruct (K j Hj Rj) as (T1 & T2 & g & lt & _ & _ & L). fold D in T2, L, Hj, Ec.
  assert (ET : s_t o i c = tmin) by (destruct Ec as [->| ->]; assumption). unfold kkt_d, kkt_m. rewrite (EI i c Hi Hc Hr), ET. rewrite con_rest by exact Hi. rewrite (con_removed qp e WF EW (s_ux sr) i c Hi Hc Hr EB). split; [ring|]. split; [ring|]. split; [reflexivity|].
  intros HL. destruct Ec as [->| ->]; destruct L as [(P1 & P2 & P3)|(P1 & P2 & P3)]; rewrite ?P2, ?P3; lra.
Qed.
End Full.
