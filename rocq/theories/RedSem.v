(** RedSem.v -- consequences of "r is the restriction of qp" (RedSpec.v). *)
From Coq Require Import ZArith Bool Arith List Lia Reals Lra.
From Verif Require Import Base RSum OcpModel ResSpec ResProofs ResProofs2 RedModel RedSpec CondSpec.
Local Open Scope R_scope.

Section Rk.
Variable m : nat -> bool.
Lemma rk_S k : rk m (S k) = (rk m k + if m k then 0 else 1)%nat. Proof. reflexivity. Qed.
Lemma rk_mono j k : (j <= k)%nat -> (rk m j <= rk m k)%nat. Proof. apply nsum_mono. Qed.
Lemma rk_lt j k : (j < k)%nat -> m j = false -> (rk m j < rk m k)%nat.
Proof. intros H E. pose proof (rk_mono (S j) k H). rewrite rk_S, E in H0. lia. Qed.
Lemma rk_le k : (rk m k <= k)%nat.
Proof. induction k as [|k IH]; [apply le_n|]. rewrite rk_S. destruct (m k); lia. Qed.
Lemma rk_inj j k : m j = false -> m k = false -> rk m j = rk m k -> j = k.
Proof. intros A B E. destruct (Nat.lt_trichotomy j k) as [L|[L|L]]; [|exact L|]; [pose proof (rk_lt j k L A)|pose proof (rk_lt k j L B)]; lia. Qed.
Lemma rk_surj n p : (p < rk m n)%nat -> exists k, (k < n)%nat /\ m k = false /\ rk m k = p.
Proof.
  induction n as [|n IH]; intros H; [cbn in H; lia|]. rewrite rk_S in H. destruct (Nat.lt_ge_cases p (rk m n)) as [L|L].
  - destruct (IH L) as (k & A & B & C). exists k. split; [lia|]. split; assumption.
  - destruct (m n) eqn:E; [lia|]. exists n. split; [lia|]. split; [exact E|lia].
Qed.
Lemma rk_free a b : (forall k, (a <= k < a + b)%nat -> m k = false) -> rk m (a + b) = (rk m a + b)%nat.
Proof.
  induction b as [|b IH]; intros H; [rewrite !Nat.add_0_r; reflexivity|]. rewrite Nat.add_succ_r, rk_S, IH by (intros k Hk; apply H; lia). rewrite H by lia. lia.
Qed.
Lemma rsum_rk n f : rsum n (fun k => if m k then 0 else f (rk m k)) = rsum (rk m n) f.
Proof. induction n as [|n IH]; [reflexivity|]. rewrite rk_S. cbn [rsum]. rewrite IH. destruct (m n); [rewrite Nat.add_0_r; ring|]. rewrite Nat.add_1_r. reflexivity. Qed.
End Rk.
Lemma rk_ext m m' k : (forall l, (l < k)%nat -> m l = m' l) -> rk m k = rk m' k.
Proof. intros H. apply nsum_ext. intros l Hl. rewrite H by exact Hl. reflexivity. Qed.

Section Sem.
Variables (qp : oqp R) (e : eqd) (r : oqp R).
Let D := q_dim qp.
Let Dr := q_dim r.
Hypothesis WF : qp_wf qp.
Hypothesis EW : eq_wf qp e.
Hypothesis RR : restriction qp e r.
Notation fx := (fixed qp e).
Notation vp := (vplace qp e).
Notation cp := (cplace qp e).
Notation fv := (fixval qp e).
Notation lft := (lift qp e).
Notation rmc := (removedc qp e).
Ltac dl := unfold D, Dr in *; lia.

Lemma fixed_lt i k : fx i k = true -> (k < nux qp i)%nat.
Proof. unfold fixed. intros H. apply andb_prop in H. apply Nat.ltb_lt, H. Qed.
Lemma fixed_ex i k : fx i k = true -> exists q, (q < ne_thr e i)%nat /\ k = q_idxb qp i (e_idxe e i q).
Proof. unfold fixed. intros H. apply andb_prop in H. destruct H as (_ & H). apply existsb_exists in H. destruct H as (q & A & B). apply in_seq in A. apply Nat.eqb_eq in B. exists q. split; [lia|exact B]. Qed.
Lemma removed_ex i j : removed e i j = true -> exists q, (q < ne_thr e i)%nat /\ j = e_idxe e i q.
Proof. unfold removed. intros H. apply existsb_exists in H. destruct H as (q & A & B). apply in_seq in A. apply Nat.eqb_eq in B. exists q. split; [lia|exact B]. Qed.
Lemma removed_q i q : (q < ne_thr e i)%nat -> removed e i (e_idxe e i q) = true.
Proof. intros H. apply existsb_exists. exists q. split; [apply in_seq; lia|apply Nat.eqb_refl]. Qed.
Lemma fixed_q i q : (i <= dN D)%nat -> (q < ne_thr e i)%nat -> fx i (q_idxb qp i (e_idxe e i q)) = true.
Proof.
  intros Hi H. destruct (EW i Hi) as (_ & _ & _ & A & _). destruct (A q H) as (A1 & _). unfold fixed. apply andb_true_intro. split.
  - apply Nat.ltb_lt. apply (WF i Hi). exact A1.
  - apply existsb_exists. exists q. split; [apply in_seq; lia|apply Nat.eqb_refl].
Qed.
Lemma fixval_q i q : (i <= dN D)%nat -> (q < ne_thr e i)%nat -> fv i (q_idxb qp i (e_idxe e i q)) = q_d qp i (e_idxe e i q).
Proof.
  intros Hi H. unfold fixval. destruct (EW i Hi) as (_ & _ & _ & _ & _ & _ & I & _). rewrite (rsum_ext _ _ (fun q' => if (q' =? q)%nat then q_d qp i (e_idxe e i q') else 0)).
  - apply (rsum_one (ne_thr e i) q (fun q' => q_d qp i (e_idxe e i q'))). exact H.
  - intros q' Hq'. destruct (Nat.eqb_spec q' q) as [->|N]; [rewrite Nat.eqb_refl; reflexivity|]. destruct (Nat.eqb_spec (q_idxb qp i (e_idxe e i q)) (q_idxb qp i (e_idxe e i q'))) as [E|_]; [|reflexivity].
    exfalso. apply N. symmetry. apply I; assumption.
Qed.
Lemma fixval_0 i k : (i <= dN D)%nat -> fx i k = false -> fv i k = 0.
Proof.
  intros Hi H. apply rsum_0. intros q Hq. destruct (Nat.eqb_spec k (q_idxb qp i (e_idxe e i q))) as [->|_]; [|reflexivity]. rewrite fixed_q in H by assumption. discriminate.
Qed.
(** sums over all variables split into the fixed part and a sum over the variables of the reduced QP *)
Lemma lift_sum i n (f : nat -> R) y : (i <= dN D)%nat -> rsum n (fun k => f k * lft y i k) = rsum n (fun k => f k * fv i k) + rsum n (fun k => if fx i k then 0 else f k * y i (vp i k)).
Proof. intros Hi. rewrite <- rsum_add. apply rsum_ext. intros k _. unfold lift. destruct (fx i k) eqn:E; [ring|]. rewrite fixval_0 by assumption. ring. Qed.
Lemma place_sum i n (f : nat -> R) (g : nat -> R) : (forall k, (k < n)%nat -> fx i k = false -> f k = g (vp i k)) -> rsum n (fun k => if fx i k then 0 else f k) = rsum (vp i n) g.
Proof. intros H. unfold vplace. rewrite <- rsum_rk. apply rsum_ext. intros k Hk. destruct (fx i k) eqn:E; [reflexivity|]. apply H; assumption. Qed.

Lemma state_free i k : (0 < i <= dN D)%nat -> (dnu D i <= k)%nat -> fx i k = false.
Proof.
  intros Hi Hk. destruct (fx i k) eqn:E; [|reflexivity]. destruct (fixed_ex i k E) as (q & A & B). destruct (EW i ltac:(dl)) as (_ & _ & _ & _ & U & _). assert (ne_thr e i = e_nbue e i). { unfold ne_thr. destruct (Nat.eqb_spec i 0); [lia|reflexivity]. }
  pose proof (U q ltac:(dl)). fold D in H0. lia.
Qed.
Lemma vp_state i j : (0 < i <= dN D)%nat -> vp i (dnu D i + j)%nat = (dnu Dr i + j)%nat.
Proof.
  intros Hi. destruct RR as (_ & A & _). destruct (A i ltac:(dl)) as (X & _). fold D Dr in X. rewrite X. unfold vplace. apply rk_free. intros k Hk. apply state_free; [exact Hi|fold D in Hk; lia].
Qed.
Lemma con_lift y i c : (i <= dN D)%nat -> (c < nct D i)%nat -> rmc i c = false ->
  con qp (lft y) i c - q_d qp i c = con r y i (cp i c) - q_d r i (cp i c).
Proof.
  intros Hi Hc Hr. destruct RR as (_ & A & _ & _ & B). destruct (A i Hi) as (_ & _ & A3 & _). destruct (B i c Hi Hc Hr) as (B1 & -> & _).
  unfold con. fold D. rewrite (lift_sum i _ (G qp i c) y Hi). rewrite (place_sum i _ _ (fun p => G r i (cp i c) p * y i p)).
  - fold D in A3. rewrite <- A3. unfold D. ring.
  - intros k Hk E. rewrite B1 by assumption. reflexivity.
Qed.
Lemma dyn_lift y i j : (i < dN D)%nat -> (j < dnx D (S i))%nat -> dyn qp (lft y) i j = dyn r y i j.
Proof.
  intros Hi Hj. destruct RR as (_ & A & B & _). destruct (A i ltac:(dl)) as (_ & A2 & _). destruct (B i Hi j Hj) as (B1 & B2).
  unfold dyn. fold D. rewrite (lift_sum i (nux qp i) (fun k => q_BAbt qp i k j) y ltac:(dl)). rewrite (place_sum i _ _ (fun p => q_BAbt r i p j * y i p)).
  - fold Dr in A2. rewrite B2. unfold nux at 3. fold Dr. rewrite A2. unfold lift. rewrite state_free by lia. rewrite vp_state by lia. fold D Dr. ring.
  - intros k Hk E. rewrite B1 by assumption. reflexivity.
Qed.
Definition stage_const (i : nat) : R :=
  1 / 2 * rsum (nvt D i) (fun k => rsum (nvt D i) (fun l => fv i k * Hess qp i k l * fv i l)) + rsum (nvt D i) (fun k => q_rqz qp i k * fv i k).
Lemma cost_lift_stage y i : (i <= dN D)%nat -> stage_cost qp (lft y) i = stage_cost r y i + stage_const i.
Proof.
  intros Hi. destruct RR as (_ & A & _ & B & _). destruct (A i Hi) as (_ & _ & A3 & _). fold D Dr in A3. set (n := nvt D i) in *.
  set (Y := fun k => if fx i k then 0 else y i (vp i k)).
  assert (EL : forall k, lft y i k = fv i k + Y k). { intros k. unfold lift, Y. destruct (fx i k) eqn:E; [ring|]. rewrite fixval_0 by assumption. ring. }
  assert (Hs : forall k l, Hess qp i k l = Hess qp i l k) by (intros; apply H_co_sym).
  unfold stage_cost, stage_const. fold D Dr. fold n. rewrite A3. 
  assert (Q : rsum n (fun k => rsum n (fun l => lft y i k * Hess qp i k l * lft y i l)) =
     rsum n (fun k => rsum n (fun l => fv i k * Hess qp i k l * fv i l)) + 2 * rsum n (fun k => Y k * rsum n (fun l => Hess qp i k l * fv i l)) + rsum n (fun k => rsum n (fun l => Y k * Hess qp i k l * Y l))).
  { assert (S1 : rsum n (fun k => rsum n (fun l => fv i k * Hess qp i k l * Y l)) = rsum n (fun k => Y k * rsum n (fun l => Hess qp i k l * fv i l))).
    { rewrite rsum_swap. apply rsum_ext. intros k _. rewrite <- rsum_scal. apply rsum_ext. intros l _. rewrite (Hs l k). ring. }
    rewrite <- S1 at 1. replace (2 * rsum n (fun k => rsum n (fun l => fv i k * Hess qp i k l * Y l))) with (rsum n (fun k => rsum n (fun l => fv i k * Hess qp i k l * Y l)) + rsum n (fun k => Y k * rsum n (fun l => Hess qp i k l * fv i l))) by (rewrite <- S1; ring).
    rewrite <- !rsum_add. apply rsum_ext. intros k _. rewrite <- rsum_scal. rewrite <- !rsum_add. apply rsum_ext. intros l _. rewrite !EL. ring. }
  rewrite Q.
  assert (Q2 : rsum n (fun k => rsum n (fun l => Y k * Hess qp i k l * Y l)) = rsum (vp i n) (fun k => rsum (vp i n) (fun l => y i k * Hess r i k l * y i l))).
  { rewrite <- (place_sum i n (fun k => rsum n (fun l => Y k * Hess qp i k l * Y l))).
    - apply rsum_ext. intros k Hk. destruct (fx i k) eqn:E; [|reflexivity]. apply rsum_0. intros l _. unfold Y. rewrite E. ring.
    - intros k Hk E. rewrite <- (place_sum i n (fun l => Y k * Hess qp i k l * Y l)).
      + apply rsum_ext. intros l Hl. destruct (fx i l) eqn:E2; [|reflexivity]. unfold Y at 2. rewrite E2. ring.
      + intros l Hl E2. destruct (B i k Hi Hk E) as (B1 & _). rewrite (B1 l Hl E2). unfold Y. rewrite E, E2. reflexivity. }
  rewrite Q2.
  assert (Q3 : rsum n (fun k => q_rqz qp i k * lft y i k) + rsum n (fun k => Y k * rsum n (fun l => Hess qp i k l * fv i l)) = rsum n (fun k => q_rqz qp i k * fv i k) + rsum (vp i n) (fun p => q_rqz r i p * y i p)).
  { rewrite <- (place_sum i n (fun k => (q_rqz qp i k + rsum n (fun l => Hess qp i k l * fv i l)) * y i (vp i k))).
    - rewrite <- !rsum_add. apply rsum_ext. intros k Hk. rewrite EL. unfold Y. destruct (fx i k); ring.
    - intros k Hk E. destruct (B i k Hi Hk E) as (_ & ->). reflexivity. }
  lra.
Qed.
Lemma cost_lift y : cost qp (lft y) = cost r y + rsum (dN D + 1) stage_const.
Proof.
  unfold cost. destruct RR as (E & _). fold D Dr in E |- *. rewrite E, <- rsum_add. apply rsum_ext. intros i Hi. apply cost_lift_stage. fold D. lia.
Qed.
(** the removed constraints at a lifted point: value = the fixed value *)
Lemma con_at_bound z i j : (i <= dN D)%nat -> (j < dnb D i)%nat -> q_idxs_rev qp i j = (-1)%Z ->
  con qp z i j = z i (q_idxb qp i j) /\ con qp z i (dnb D i + dng D i + j)%nat = - z i (q_idxb qp i j).
Proof.
  intros Hi Hj Hs. pose proof (WF i Hi) as WFi. pose proof WFi as (W1 & W2). fold D in W1, W2, WFi. split.
  - unfold con, G, nvt. fold D. change (dnu D i + dnx D i)%nat with (nux qp i). rewrite (G_val_lo _ _ _ _ _ _ _ _ WFi) by lia. rewrite Hs, Z.eqb_refl. rewrite row_val by (try assumption; apply W1; assumption). ring.
  - unfold con, G, nvt. fold D. change (dnu D i + dnx D i)%nat with (nux qp i). rewrite (G_val_up _ _ _ _ _ _ _ _ WFi) by lia. replace (dnb D i + dng D i + j - (dnb D i + dng D i))%nat with j by lia. rewrite Hs, Z.eqb_refl. rewrite row_val by (try assumption; apply W1; assumption). ring.
Qed.
Lemma removedc_cases i c : (c < nct D i)%nat -> rmc i c = true -> exists j, (j < dnb D i)%nat /\ removed e i j = true /\ (c = j \/ c = (dnb D i + dng D i + j)%nat).
Proof.
  unfold removedc. fold D. intros Hc H. apply orb_prop in H. destruct H as [H|H].
  - apply andb_prop in H. destruct H as (A & B). apply Nat.ltb_lt in A. exists c. auto.
  - apply andb_prop in H. destruct H as (A & B). apply andb_prop in A. destruct A as (A1 & A2). apply Nat.leb_le in A1. apply Nat.ltb_lt in A2. exists (c - (dnb D i + dng D i))%nat. split; [lia|]. split; [exact B|]. right. lia.
Qed.
Lemma con_removed y i c : (i <= dN D)%nat -> (c < nct D i)%nat -> rmc i c = true -> eq_bounds qp e -> con qp (lft y) i c = q_d qp i c.
Proof.
  intros Hi Hc Hr HE. destruct (removedc_cases i c Hc Hr) as (j & Hj & Hr' & Hc'). destruct (removed_ex i j Hr') as (q & Hq & Ej). destruct (EW i Hi) as (_ & _ & _ & A & _). destruct (A q Hq) as (_ & A2). rewrite <- Ej in A2.
  destruct (con_at_bound (lft y) i j Hi Hj A2) as (C1 & C2).
  assert (L : lft y i (q_idxb qp i j) = q_d qp i j). { unfold lift. rewrite Ej. rewrite fixed_q, fixval_q by assumption. reflexivity. }
  destruct Hc' as [->| ->]; [rewrite C1; exact L|]. rewrite C2, L. symmetry. apply HE; assumption.
Qed.
Lemma feasible_lift y : eq_bounds qp e -> (feasible qp (lft y) <-> feasible r y).
Proof.
  intros HE. destruct RR as (EN & A & _ & _ & B). fold D Dr in EN. split; intros (F1 & F2); split.
  - intros i j Hi Hj. fold Dr in Hi, Hj. rewrite EN in Hi. destruct (A (S i) ltac:(dl)) as (_ & _ & _ & _ & A5). fold D Dr in A5. rewrite A5 in Hj by lia. rewrite <- dyn_lift by assumption. apply F1; assumption.
  - intros i p Hi Hp Hm. fold Dr in Hi, Hp. rewrite EN in Hi. destruct (A i Hi) as (_ & _ & _ & A4 & _). fold D Dr in A4. rewrite A4 in Hp. destruct (rk_surj _ _ _ Hp) as (c & Hc & Hr & E). change (rk (rmc i) c) with (cp i c) in E. subst p.
    destruct (B i c Hi Hc Hr) as (_ & _ & Em & _). rewrite Em in Hm. pose proof (F2 i c Hi Hc Hm). pose proof (con_lift y i c Hi Hc Hr). lra.
  - intros i j Hi Hj. rewrite dyn_lift by assumption. apply F1; fold Dr; [rewrite EN; exact Hi|]. destruct (A (S i) ltac:(dl)) as (_ & _ & _ & _ & A5). fold D Dr in A5. rewrite A5 by lia. exact Hj.
  - intros i c Hi Hc Hm. destruct (rmc i c) eqn:Hr.
    + rewrite (con_removed y i c Hi Hc Hr HE). apply Rge_refl.
    + destruct (B i c Hi Hc Hr) as (_ & _ & Em & _). destruct (A i Hi) as (_ & _ & _ & A4 & _). fold D Dr in A4. assert (Hp : (cp i c < nct Dr i)%nat) by (rewrite A4; apply rk_lt; assumption).
      pose proof (F2 i (cp i c) ltac:(fold Dr; rewrite EN; exact Hi) Hp ltac:(rewrite Em; exact Hm)). pose proof (con_lift y i c Hi Hc Hr). lra.
Qed.
(** a feasible point is the lift of its reduction *)
Definition unlift (z : nat -> nat -> R) (i p : nat) : R := z i (match find (fun k => (negb (fx i k) && (vp i k =? p)%nat)%bool) (seq 0 (nvt D i)) with Some k => k | None => 0%nat end).
Lemma unlift_at z i k : (k < nvt D i)%nat -> fx i k = false -> unlift z i (vp i k) = z i k.
Proof.
  intros Hk E. unfold unlift. destruct (find _ _) as [k'|] eqn:F.
  - apply find_some in F. destruct F as (_ & F). apply andb_prop in F. destruct F as (F1 & F2). apply Nat.eqb_eq in F2. apply negb_true_iff in F1. f_equal. exact (rk_inj _ _ _ F1 E F2).
  - exfalso. pose proof (find_none _ _ F k ltac:(apply in_seq; lia)) as X. cbv beta in X. rewrite E, Nat.eqb_refl in X. discriminate.
Qed.
Lemma feasible_unlift z : eq_bounds qp e -> eq_imposed qp e -> feasible qp z -> same_point qp z (lft (unlift z)).
Proof.
  intros HE HI (_ & F2) i k Hi Hk. fold D in Hi, Hk. unfold lift. destruct (fx i k) eqn:E; [|symmetry; apply unlift_at; assumption].
  destruct (fixed_ex i k E) as (q & Hq & ->). destruct (EW i Hi) as (_ & _ & _ & A & _). destruct (A q Hq) as (A1 & A2). rewrite fixval_q by assumption. set (j := e_idxe e i q) in *.
  destruct (con_at_bound z i j Hi A1 A2) as (C1 & C2). pose proof (removed_q i q Hq) as Rq. fold j in Rq. fold D in A1.
  assert (R1 : rmc i j = true). { unfold removedc. fold D. apply orb_true_intro. left. apply andb_true_intro. split; [apply Nat.ltb_lt; exact A1|exact Rq]. }
  assert (R2 : rmc i (dnb D i + dng D i + j)%nat = true). { unfold removedc. fold D. apply orb_true_intro. right. replace (dnb D i + dng D i + j - (dnb D i + dng D i))%nat with j by lia. rewrite Rq. destruct (Nat.leb_spec (dnb D i + dng D i) (dnb D i + dng D i + j)); [|lia]. destruct (Nat.ltb_spec (dnb D i + dng D i + j) (2 * dnb D i + dng D i)); [reflexivity|lia]. }
  assert (K1 : (j < nct D i)%nat) by (unfold nct; lia). assert (K2 : (dnb D i + dng D i + j < nct D i)%nat) by (unfold nct; lia).
  pose proof (F2 i j Hi K1 ltac:(rewrite (HI i j Hi K1 R1); lra)) as P1. pose proof (F2 i _ Hi K2 ltac:(rewrite (HI i _ Hi K2 R2); lra)) as P2. rewrite C1 in P1. rewrite C2 in P2. pose proof (HE i j Hi A1 Rq) as P3. fold D in P3. rewrite P3 in P2. lra.
Qed.
(** *** KKT residuals *)
Lemma G_removed i c k : (i <= dN D)%nat -> (c < nct D i)%nat -> rmc i c = true -> fx i k = false -> (k < nvt D i)%nat -> G qp i c k = 0.
Proof.
  intros Hi Hc Hr Hf Hk. destruct (removedc_cases i c Hc Hr) as (j & Hj & Hr' & Hc'). destruct (removed_ex i j Hr') as (q & Hq & Ej). destruct (EW i Hi) as (_ & _ & _ & A & _). destruct (A q Hq) as (_ & A2). rewrite <- Ej in A2.
  assert (N : q_idxb qp i j <> k). { intros <-. rewrite Ej, fixed_q in Hf by assumption. discriminate. }
  assert (R0 : row_co (dnb D i) (q_idxb qp i) (q_DCt qp i) j k = 0). { unfold row_co. destruct (Nat.ltb_spec j (dnb D i)); [|lia]. destruct (Nat.eqb_spec (q_idxb qp i j) k); [contradiction|reflexivity]. }
  unfold G, G_co. fold D. destruct Hc' as [->| ->].
  - destruct (Nat.ltb_spec j (dnb D i + dng D i)); [|lia]. rewrite R0. destruct (k <? nux qp i)%nat; [reflexivity|]. unfold soft_co. rewrite A2. reflexivity.
  - destruct (Nat.ltb_spec (dnb D i + dng D i + j) (dnb D i + dng D i)); [lia|]. destruct (Nat.ltb_spec (dnb D i + dng D i + j) (2 * (dnb D i + dng D i))); [|lia]. replace (dnb D i + dng D i + j - (dnb D i + dng D i))%nat with j by lia. rewrite R0. destruct (k <? nux qp i)%nat; [ring|]. unfold soft_co. rewrite A2. reflexivity.
Qed.
Lemma kkt_g_lift y z pi pir lam lamr i k : (i <= dN D)%nat -> (k < nvt D i)%nat -> fx i k = false -> same_point qp z (lft y) ->
  (forall i j, (i < dN D)%nat -> (j < dnx D (S i))%nat -> pi i j = pir i j) ->
  (forall i c, (i <= dN D)%nat -> (c < nct D i)%nat -> rmc i c = false -> lam i c = lamr i (cp i c)) ->
  kkt_g qp z pi lam i k = kkt_g r y pir lamr i (vp i k).
Proof.
  intros Hi Hk Hf Hz Hpi Hlam. destruct RR as (EN & A & BB & B & C). fold D Dr in EN. destruct (A i Hi) as (A1 & A2 & A3 & A4 & A5). fold D Dr in A1, A2, A3, A4, A5. destruct (B i k Hi Hk Hf) as (B1 & B2). fold D in B1, B2.
  unfold kkt_g. fold D Dr. rewrite B2, EN, A3, A4. f_equal; [f_equal; [f_equal|]|].
  - rewrite (rsum_ext _ (fun l => Hess qp i k l * z i l) (fun l => Hess qp i k l * lft y i l)) by (intros l Hl; rewrite (Hz i l Hi Hl); reflexivity). rewrite (lift_sum i _ (Hess qp i k) y Hi). rewrite (place_sum i _ _ (fun p => Hess r i (vp i k) p * y i p)).
    + ring.
    + intros l Hl E. rewrite B1 by assumption. reflexivity.
  - assert (E : (vp i k <? nux r i)%nat = (k <? nux qp i)%nat).
    { unfold nux at 1. fold Dr. rewrite A2. destruct (Nat.ltb_spec k (nux qp i)) as [L|L]; [apply Nat.ltb_lt; apply rk_lt; assumption|apply Nat.ltb_ge; apply rk_mono; exact L]. }
    rewrite E. destruct (Nat.ltb_spec i (dN D)) as [Li|Li]; [|reflexivity]. destruct (Nat.ltb_spec k (nux qp i)) as [Lk|Lk]; [|reflexivity]. cbn [andb].
    destruct (A (S i) ltac:(dl)) as (_ & _ & _ & _ & X). fold D Dr in X. rewrite X by lia. apply rsum_ext. intros j Hj. destruct (BB i Li j Hj) as (X1 & _). rewrite (X1 k Lk Hf), (Hpi i j Li Hj). reflexivity.
  - destruct (Nat.ltb_spec 0 i) as [Li|Li]; [|reflexivity]. cbn [andb].
    destruct (Nat.leb_spec (dnu D i) k) as [L1|L1].
    + replace k with (dnu D i + (k - dnu D i))%nat by lia. rewrite vp_state by lia. unfold nux. fold D Dr. rewrite A5 by lia. set (j := (k - dnu D i)%nat). replace (dnu D i + j - dnu D i)%nat with j by lia. replace (dnu Dr i + j - dnu Dr i)%nat with j by lia.
      destruct (Nat.leb_spec (dnu D i) (dnu D i + j)); [|lia]. destruct (Nat.leb_spec (dnu Dr i) (dnu Dr i + j)); [|lia]. destruct (Nat.ltb_spec (dnu D i + j) (dnu D i + dnx D i)); destruct (Nat.ltb_spec (dnu Dr i + j) (dnu Dr i + dnx D i)); try lia; [|reflexivity]. cbn [andb].
      apply Hpi; [lia|]. replace (S (i - 1)) with i by lia. lia.
    + pose proof (rk_lt (fx i) k (dnu D i) L1 Hf) as X. change (rk (fx i)) with (vp i) in X. rewrite <- A1 in X. destruct (Nat.leb_spec (dnu Dr i) (vp i k)); [lia|]. reflexivity.
  - unfold cplace. rewrite <- (rsum_rk (rmc i) (nct D i) (fun p => G r i p (vp i k) * (q_mask r i p * lamr i p))). apply rsum_ext. intros c Hc. destruct (rmc i c) eqn:E.
    + rewrite (G_removed i c k Hi Hc E Hf Hk). ring.
    + destruct (C i c Hi Hc E) as (C1 & _ & C3 & _). change (rk (rmc i) c) with (cp i c). rewrite (C1 k Hk Hf), C3, (Hlam i c Hi Hc E). reflexivity.
Qed.
End Sem.
