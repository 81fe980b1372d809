(** CondSem.v -- the dense QP built by condensing is the OCP QP restricted to trajectories: constraints and objective. *)
From Coq Require Import ZArith Bool Arith Lia Reals Lra.
From Verif Require Import Base ArithF RSum Blas Blas2 OcpModel ResSpec ResProofs ResProofs2 CholProofs KktModel KktProofs KktProofs2 DenModel DenSpec CondModel CondSpec CondProofs CondCost CondCost2 CondCon CondCon2 CondCon3.
Local Open Scope R_scope.

Section Sem.
Variables (qp : oqp R) (M : nat) (Gm : nat -> rmat) (Gb : nat -> rvec) (q : dqp R).
Notation D := (q_dim qp).
Notation nu := (dnu D).
Notation nx := (dnx D).
Notation nb := (dnb D).
Notation ng := (dng D).
Notation ns := (dns D).
Notation uo := (uoff qp M).
Notation so := (soff qp M).
Notation nux := (nux qp).
Notation nh := (n_hard qp M).
Notation nsf := (n_soft qp M).
Notation nb2 := (count_nbb qp M).
Notation nbg := (count_nbg qp M).
Notation ng2 := (count_nbg qp M + ngg_of qp M)%nat.
Notation valid := (valid qp M).
Notation posl := (posl qp M).
Notation pos := (pos qp M).
Notation box := (box qp).
Notation lows := (lows qp M).
Notation tr := (traj qp M).

Definition ddims_ok : Prop := d_nv q = nh /\ d_ne q = 0%nat /\ d_nb q = nb2 /\ d_ng q = ng2 /\ d_ns q = nsf.
Definition wfM : Prop := forall i, (i <= M)%nat -> stage_wf (nux i) (nb i) (ng i) (ns i) (q_idxb qp i) (q_idxs_rev qp i).
Hypothesis Hd : ddims_ok.
Hypothesis Hwf : wfM.
Hypothesis HC : CQ qp M Gm Gb q.
Hypothesis HG : forall i, (i < M)%nat -> GIV qp M Gm Gb i.

Lemma traj_0 v k : (k < nux 0)%nat -> tr v 0 k = v (uo 0 + k)%nat.
Proof.
  intros Hk. destruct (Nat.lt_ge_cases k (nu 0)); [apply traj_u; assumption|]. replace k with (nu 0 + (k - nu 0))%nat at 1 by lia. rewrite traj_x by (unfold ResSpec.nux in Hk; lia). cbn [st]. f_equal. lia.
Qed.
Lemma traj_sl v i l : (l < ns i)%nat -> tr v i (nux i + l)%nat = v (nh + so i + l)%nat.
Proof.
  intros Hl. unfold traj, ResSpec.nux. destruct (Nat.ltb_spec (nu i + nx i + l) (nu i)); [lia|]. destruct (Nat.ltb_spec (nu i + nx i + l) (nu i + nx i)); [lia|]. destruct (Nat.ltb_spec (nu i + nx i + l) (nu i + nx i + ns i)); [|lia]. f_equal. lia.
Qed.
Lemma traj_su v i l : (l < ns i)%nat -> tr v i (nux i + ns i + l)%nat = v (nh + nsf + so i + l)%nat.
Proof.
  intros Hl. unfold traj, ResSpec.nux. destruct (Nat.ltb_spec (nu i + nx i + ns i + l) (nu i)); [lia|]. destruct (Nat.ltb_spec (nu i + nx i + ns i + l) (nu i + nx i)); [lia|]. destruct (Nat.ltb_spec (nu i + nx i + ns i + l) (nu i + nx i + ns i)); [lia|]. f_equal. lia.
Qed.
(** positions *)
Lemma posl_surj p : (p < nb2 + ng2)%nat -> exists i j, valid i j /\ posl i j = p.
Proof.
  intros Hp.
  assert (X : (exists i j, valid i j /\ posl i j = p) \/ (forall i j, valid i j -> posl i j <> p)).
  { enough (Y : forall n, (n <= S M)%nat -> (exists i j, valid i j /\ posl i j = p) \/ (forall i j, (i < n)%nat -> valid i j -> posl i j <> p)).
    { destruct (Y (S M) ltac:(lia)) as [Y1|Y1]; [left; exact Y1|right]. intros i j V. apply Y1; [|exact V]. destruct V. lia. }
    induction n as [|n IH]; intros Hn; [right; intros; lia|]. destruct (IH ltac:(lia)) as [I|I]; [left; exact I|].
    enough (Z : forall m, (m <= nb n + ng n)%nat -> (exists i j, valid i j /\ posl i j = p) \/ (forall j, (j < m)%nat -> posl n j <> p)).
    { destruct (Z (nb n + ng n)%nat ltac:(lia)) as [Z1|Z1]; [left; exact Z1|right]. intros i j Hi V. destruct (Nat.eq_dec i n) as [->|]; [apply Z1; destruct V; lia|apply I; [lia|exact V]]. }
    induction m as [|m IHm]; intros Hm; [right; intros; lia|]. destruct (IHm ltac:(lia)) as [J|J]; [left; exact J|].
    destruct (Nat.eq_dec (posl n m) p) as [E|E]; [left; exists n, m; split; [split; lia|exact E]|right]. intros j Hj. destruct (Nat.eq_dec j m) as [->|]; [exact E|apply J; lia]. }
  destruct X as [X|X]; [exact X|exfalso]. pose proof (rsum_posl qp M (fun k => if (k =? p)%nat then 1 else 0)) as E.
  rewrite (rsum_0 (S M)) in E.
  - rewrite (rsum_ext _ _ (fun k => (if (k =? p)%nat then 1 else 0) * 1)) in E by (intros; lra).
    pose proof (rsum_one (nb2 + ng2) p (fun _ => 1) Hp) as E1. rewrite (rsum_ext _ _ (fun k => (if (k =? p)%nat then 1 else 0))) in E by (intros; lra). rewrite E1 in E. lra.
  - intros i Hi. apply rsum_0. intros j Hj. destruct (Nat.eqb_spec (posl i j) p) as [Ep|]; [|reflexivity]. exfalso. apply (X i j); [split; lia|exact Ep].
Qed.
Lemma den_wf_ok : den_wf q.
Proof.
  destruct Hd as (E1 & E2 & E3 & E4 & E5). unfold den_wf, stage_wf. rewrite E1, E3, E4, E5. destruct HC as (C & _). split.
  - intros p Hp. destruct (posl_surj p ltac:(lia)) as (i & j & V & <-). destruct (C i j V) as (_ & _ & _ & _ & B & _).
    assert (Bx : isbox qp i j = true). { destruct (isbox qp i j) eqn:E; [reflexivity|]. pose proof (posl_gen qp M i j V E). lia. }
    rewrite B by exact Bx. unfold isbox in Bx. apply andb_true_iff in Bx. destruct Bx as (Bj & Bi). apply Nat.ltb_lt in Bj. destruct V as (V1 & V2).
    unfold CondCon.box in Bi. apply orb_true_iff in Bi. destruct Bi as [Bi|Bi].
    + apply Nat.eqb_eq in Bi. subst i. pose proof (proj1 (Hwf 0%nat ltac:(lia)) j Bj). unfold ResSpec.nux in *. unfold n_hard. lia.
    + unfold is_input in Bi. apply Nat.ltb_lt in Bi. pose proof (roff_lt M nu i _ V1 Bi) as Q. change (roff M nu i) with (uo i) in Q. change (roff M nu 0) with (uo 0) in Q. unfold n_hard. lia.
  - intros p Hp. destruct (posl_surj p Hp) as (i & j & V & <-). destruct (C i j V) as (_ & _ & _ & B & _). rewrite B. destruct V as (V1 & V2). pose proof (proj2 (Hwf i V1) j V2) as W.
    pose proof (so_fit qp M i V1). destruct (Z.ltb_spec (q_idxs_rev qp i j) 0); [left; reflexivity|right]. lia.
Qed.
(** the value of the row of a two-sided constraint *)
Definition drow (v : rvec) (p : nat) : R := rsum (d_nv q) (fun k => row_co (d_nb q) (d_idxb q) (d_Ct q) p k * v k).
Definition orow (z : nat -> rvec) (i j : nat) : R := rsum (nux i) (fun k => row_co (nb i) (q_idxb qp i) (q_DCt qp i) j k * z i k).
Lemma st_G v i l : (1 <= i <= M)%nat -> (l < nx i)%nat -> st qp M v i l = rsum (nh - uo (i - 1)) (fun r => Gm (i - 1)%nat r l * v (uo (i - 1) + r)%nat) + Gb (i - 1)%nat l.
Proof.
  intros Hi Hl. destruct i as [|i]; [lia|]. replace (S i - 1)%nat with i by lia. destruct (HG i ltac:(lia) l Hl) as (E1 & E2). rewrite E1, E2. f_equal.
  pose proof (nh_pred qp M (S i) Hi) as En. replace (S i - 1)%nat with i in En by lia. unfold nuf. replace (nh - uo i)%nat with (nsum (S i) nu + nx 0)%nat by lia. reflexivity.
Qed.
Lemma row_traj v i j : valid i j -> drow v (posl i j) + shift qp Gb i j = orow (tr v) i j.
Proof.
  intros V. destruct Hd as (E1 & E2 & E3 & E4 & E5). destruct HC as (C & _). destruct (C i j V) as (_ & _ & _ & _ & Cb & Cg). clear C. destruct V as (V1 & V2). destruct (Hwf i V1) as (W1 & _).
  unfold drow, orow. rewrite E1, E3.
  destruct (isbox qp i j) eqn:Bx.
  - assert (Pl := posl_box qp M i j (conj V1 V2) Bx). specialize (Cb eq_refl). unfold isbox in Bx. apply andb_true_iff in Bx. destruct Bx as (Bj & Bi). assert (Hj := Bj). apply Nat.ltb_lt in Hj.
    assert (Hx : (d_idxb q (posl i j) < nh)%nat). { rewrite <- E1. apply (proj1 den_wf_ok). lia. }
    rewrite row_val by assumption. rewrite row_val by (try assumption; apply W1; exact Hj). rewrite Cb. unfold shift. rewrite Bj, Bi.
    replace (if (i =? 0)%nat then 0 else 0) with 0 by (destruct (i =? 0)%nat; reflexivity). rewrite Rplus_0_r.
    unfold CondCon.box in Bi. apply orb_true_iff in Bi. destruct Bi as [Bi|Bi].
    + apply Nat.eqb_eq in Bi. subst i. symmetry. apply traj_0. apply W1. exact Hj.
    + unfold is_input in Bi. apply Nat.ltb_lt in Bi. symmetry. apply traj_u. exact Bi.
  - pose proof (posl_gen qp M i j (conj V1 V2) Bx) as Pl. specialize (Cg eq_refl). rewrite row_val_g by lia.
    assert (Hlow : (lows i j <= nh)%nat).
    { unfold CondCon.lows. assert (Q : forall k, (k <= M)%nat -> (uo k <= nh)%nat). { intros k Hk. unfold n_hard. destruct (Nat.eq_dec k 0) as [->|]; [lia|]. pose proof (roff_mono M nu 0 k ltac:(lia) Hk) as Q. change (roff M nu k) with (uo k) in Q. change (roff M nu 0) with (uo 0) in Q. lia. } destruct (j <? nb i)%nat; apply Q; lia. }
    assert (Es : rsum nh (fun k => d_Ct q k (posl i j - nb2)%nat * v k) = rsum (nh - lows i j) (fun r => colv qp M Gm i j (lows i j + r) * v (lows i j + r)%nat)).
    { replace nh with (lows i j + (nh - lows i j))%nat at 1 by lia. rewrite rsum_split. rewrite (rsum_0 (lows i j)).
      - rewrite Rplus_0_l. apply rsum_ext. intros r Hr. rewrite Cg by lia. destruct (Nat.ltb_spec (lows i j + r) (lows i j)); [lia|reflexivity].
      - intros k Hk. rewrite Cg by lia. destruct (Nat.ltb_spec k (lows i j)); [lra|lia]. }
    rewrite Es. clear Es Cg Cb. unfold isbox in Bx. unfold shift, CondCon.lows, colv. destruct (Nat.ltb_spec j (nb i)) as [Hj|Hj].
    + cbn [andb] in Bx. assert (Hi : (1 <= i)%nat). { destruct i; [|lia]. unfold CondCon.box in Bx. cbn in Bx. discriminate. }
      destruct (Nat.eqb_spec i 0); [lia|]. rewrite Bx. rewrite row_val by (try assumption; apply W1; exact Hj). specialize (W1 j Hj).
      assert (Hn : (nu i <= q_idxb qp i j)%nat). { unfold CondCon.box in Bx. apply orb_false_iff in Bx. destruct Bx as (_ & Bx). unfold is_input in Bx. apply Nat.ltb_ge in Bx. exact Bx. }
      unfold ResSpec.nux in W1. assert (Et : tr v i (q_idxb qp i j) = st qp M v i (q_idxb qp i j - nu i)).
      { rewrite <- traj_x by lia. f_equal. lia. }
      rewrite Et. rewrite st_G by lia. f_equal.
      apply rsum_ext. intros r Hr. f_equal. f_equal. lia.
    + rewrite row_val_g by exact Hj. destruct (Nat.eqb_spec i 0) as [->|Hi].
      * rewrite Rplus_0_r. replace (nh - uo 0)%nat with (nux 0) by (unfold n_hard, ResSpec.nux; lia). apply rsum_ext. intros r Hr. rewrite traj_0 by exact Hr. f_equal. f_equal. lia.
      * assert (Hi' : (1 <= i <= M)%nat) by lia. pose proof (uo_pred qp M i Hi') as Eu. pose proof (nh_pred qp M i Hi') as En.
        replace (nh - uo i)%nat with (nu i + (nh - uo (i - 1)))%nat by lia. rewrite rsum_split. unfold ResSpec.nux. rewrite rsum_split. rewrite Rplus_assoc. f_equal.
        -- apply rsum_ext. intros k Hk. destruct (Nat.ltb_spec (uo i + k) (uo (i - 1))); [|lia]. rewrite traj_u by exact Hk. f_equal. f_equal. lia.
        -- rewrite (rsum_ext (nx i) (fun l => q_DCt qp i (nu i + l)%nat (j - nb i)%nat * tr v i (nu i + l)%nat) (fun l => rsum (nh - uo (i - 1)) (fun r => q_DCt qp i (nu i + l)%nat (j - nb i)%nat * (Gm (i - 1)%nat r l * v (uo (i - 1) + r)%nat)) + q_DCt qp i (nu i + l)%nat (j - nb i)%nat * Gb (i - 1)%nat l)).
           2:{ intros l Hl. rewrite traj_x by exact Hl. rewrite st_G by lia. rewrite Rmult_plus_distr_l, rsum_scal. reflexivity. }
           rewrite rsum_add. f_equal. rewrite rsum_swap. apply rsum_ext. intros r Hr. destruct (Nat.ltb_spec (uo i + (nu i + r)) (uo (i - 1))); [lia|].
           rewrite <- rsum_scal_r. apply rsum_ext. intros l Hl. replace (uo i + (nu i + r))%nat with (uo (i - 1) + r)%nat by lia. replace (uo (i - 1) + r - uo (i - 1))%nat with r by lia. ring.
Qed.
(** every one-sided constraint of the OCP QP is the dense constraint number [pos], with the same mask, complementarity target and value *)
Lemma con_traj v i c : (i <= M)%nat -> (c < nct D i)%nat ->
  den_con q v (pos i c) - d_d q (pos i c) = con qp (tr v) i c - q_d qp i c /\ d_mask q (pos i c) = q_mask qp i c /\ d_m q (pos i c) = q_m qp i c.
Proof.
  intros Hi Hc. assert (Hd' := Hd). destruct Hd' as (E1 & E2 & E3 & E4 & E5). pose proof den_wf_ok as DW. unfold den_wf in DW. assert (HW := Hwf i Hi). assert (HC' := HC). destruct HC' as (C & (S1 & _) & (S2 & _) & (S3 & _) & _).
  unfold den_con, con, dnv, nvt, den_G, G. change (nu i + nx i)%nat with (nux i). unfold nct in Hc.
  assert (EN : forall j, valid i j -> (Z.eqb (d_idxs_rev q (posl i j)) (-1) = Z.eqb (q_idxs_rev qp i j) (-1)) /\ ((q_idxs_rev qp i j <> -1)%Z -> (0 <= q_idxs_rev qp i j < Z.of_nat (ns i))%Z /\ Z.to_nat (d_idxs_rev q (posl i j)) = (so i + Z.to_nat (q_idxs_rev qp i j))%nat)).
  { intros j V. destruct (C i j V) as (_ & _ & _ & B & _). rewrite B. destruct (proj2 HW j (proj2 V)) as [E|E].
    - rewrite E. split; [reflexivity|]. intros Q; contradiction.
    - destruct (Z.ltb_spec (q_idxs_rev qp i j) 0); [lia|]. split; [|intros _; split; [exact E|lia]]. destruct (Z.eqb_spec (Z.of_nat (so i) + q_idxs_rev qp i j) (-1)), (Z.eqb_spec (q_idxs_rev qp i j) (-1)); try lia; reflexivity. }
  unfold CondCon.pos. destruct (Nat.ltb_spec c (nb i + ng i)) as [L1|L1]; [|destruct (Nat.ltb_spec c (2 * (nb i + ng i))) as [L2|L2]].
  - assert (V : valid i c) by (split; assumption). destruct (C i c V) as ((A1 & _) & (A2 & _) & (A3 & _) & _). split; [|split; assumption]. pose proof (posl_lt qp M i c V) as Pl.
    rewrite (G_val_lo _ _ _ _ _ _ _ _ DW) by (rewrite E3, E4; exact Pl). rewrite (G_val_lo _ _ _ _ _ _ _ _ HW) by exact L1.
    fold (drow v (posl i c)). fold (orow (tr v) i c). rewrite <- (row_traj v i c V). rewrite A1. destruct (EN c V) as (N1 & N2). rewrite N1. destruct (Z.eqb_spec (q_idxs_rev qp i c) (-1)) as [Z1|Z1]; [lra|].
    destruct (N2 Z1) as (N3 & N4). rewrite N4, E1. rewrite traj_sl by lia. rewrite Nat.add_assoc. lra.
  - set (j := (c - (nb i + ng i))%nat) in *. assert (V : valid i j) by (split; unfold j; lia). destruct (C i j V) as ((_ & A1) & (_ & A2) & (_ & A3) & _). replace (nb i + ng i + j)%nat with c in * by (unfold j; lia). split; [|split; assumption]. pose proof (posl_lt qp M i j V) as Pl.
    rewrite (G_val_up _ _ _ _ _ _ _ _ DW) by (rewrite E3, E4; lia). rewrite (G_val_up _ _ _ _ _ _ _ _ HW) by lia. rewrite E3, E4. replace (nb2 + ng2 + posl i j - (nb2 + ng2))%nat with (posl i j) by lia.
    rewrite <- E3. fold (drow v (posl i j)). fold j. fold (orow (tr v) i j). rewrite <- (row_traj v i j V). rewrite E3, A1. destruct (EN j V) as (N1 & N2). rewrite N1. destruct (Z.eqb_spec (q_idxs_rev qp i j) (-1)) as [Z1|Z1]; [lra|].
    destruct (N2 Z1) as (N3 & N4). rewrite N4, E1, E5. rewrite traj_su by lia. rewrite Nat.add_assoc. lra.
  - pose proof (so_fit qp M i Hi) as Hs. rewrite (G_val_sl _ _ _ _ _ _ _ _) with (c := c) by lia.
    destruct (Nat.ltb_spec c (2 * (nb i + ng i) + ns i)) as [L3|L3].
    + set (l := (c - 2 * (nb i + ng i))%nat) in *. destruct (S1 i l Hi ltac:(unfold l; lia)) as (A1 & _). destruct (S2 i l Hi ltac:(unfold l; lia)) as (A2 & _). destruct (S3 i l Hi ltac:(unfold l; lia)) as (A3 & _).
      rewrite <- Nat.add_assoc in A1, A2, A3. replace (2 * nb i + 2 * ng i + l)%nat with c in * by (unfold l; lia). split; [|split; assumption].
      rewrite (G_val_sl _ _ _ _ _ _ _ _) by (rewrite E3, E4, E5; unfold l; lia). rewrite A1, E1, E3, E4. rewrite traj_sl by (unfold l; lia). f_equal. f_equal. unfold l. lia.
    + set (l := (c - 2 * (nb i + ng i) - ns i)%nat) in *. destruct (S1 i l Hi ltac:(unfold l; lia)) as (_ & A1). destruct (S2 i l Hi ltac:(unfold l; lia)) as (_ & A2). destruct (S3 i l Hi ltac:(unfold l; lia)) as (_ & A3).
      rewrite <- Nat.add_assoc in A1, A2, A3. replace (2 * nb i + 2 * ng i + ns i + l)%nat with c in * by (unfold l; lia). split; [|split; assumption].
      rewrite (G_val_sl _ _ _ _ _ _ _ _) by (rewrite E3, E4, E5; unfold l; lia). rewrite A1, E1, E3, E4. replace (c - 2 * (nb i + ng i))%nat with (ns i + l)%nat by (unfold l; lia). rewrite (Nat.add_assoc (nux i) (ns i) l). rewrite traj_su by (unfold l; lia). f_equal. f_equal. unfold l. lia.
Qed.

(** ** objective *)
Definition softc (i : nat) (z : nat -> rvec) : R := rsum (2 * ns i) (fun l => 1 / 2 * q_Z qp i l * z i (nux i + l)%nat * z i (nux i + l)%nat + q_rqz qp i (nux i + l)%nat * z i (nux i + l)%nat).
Lemma quad_parts n m H Zd g (z : rvec) : 1 / 2 * rsum (n + 2 * m) (fun k => rsum (n + 2 * m) (fun l => z k * H_co n H Zd k l * z l)) + rsum (n + 2 * m) (fun k => g k * z k) =
  (1 / 2 * Qo H 0 n z + rsum n (fun k => g k * z k)) + rsum (2 * m) (fun l => 1 / 2 * Zd l * z (n + l)%nat * z (n + l)%nat + g (n + l)%nat * z (n + l)%nat).
Proof.
  rewrite (rsum_ext (n + 2 * m) _ (fun k => z k * rsum (n + 2 * m) (fun l => H_co n H Zd k l * z l))).
  2:{ intros k _. rewrite <- rsum_scal. apply rsum_ext. intros; ring. }
  rewrite !(rsum_split n (2 * m)). rewrite rsum_add.
  assert (A : rsum n (fun k => z k * rsum (n + 2 * m) (fun l => H_co n H Zd k l * z l)) = Qo H 0 n z).
  { unfold Qo. apply rsum_ext. intros k Hk. rewrite H_hard by exact Hk. rewrite <- rsum_scal. apply rsum_ext. intros l _. cbn [Nat.add]. ring. }
  assert (B : 1 / 2 * rsum (2 * m) (fun k => z (n + k)%nat * rsum (n + 2 * m) (fun l => H_co n H Zd (n + k)%nat l * z l)) = rsum (2 * m) (fun l => 1 / 2 * Zd l * z (n + l)%nat * z (n + l)%nat)).
  { rewrite <- rsum_scal. apply rsum_ext. intros k Hk. rewrite H_slack by lia. replace (n + k - n)%nat with k by lia. ring. }
  rewrite A. rewrite Rmult_plus_distr_l. rewrite B. ring.
Qed.
Lemma stage_cost_parts z i : stage_cost qp z i = hardc qp z i + softc i z.
Proof. unfold stage_cost, hardc, softc. unfold nvt, Hess. change (nu i + nx i)%nat with (nux i). apply quad_parts. Qed.
Lemma soft_traj v : SCall qp M nh nux (q_rqz qp) (d_gz q) (d_gz q) ->
  rsum (2 * nsf) (fun l => 1 / 2 * d_Z q l * v (nh + l)%nat * v (nh + l)%nat + d_gz q (nh + l)%nat * v (nh + l)%nat) = rsum (S M) (fun i => softc i (tr v)).
Proof.
  intros (Sg & _). destruct HC as (_ & _ & _ & _ & (Sz & _)). set (f := fun l => 1 / 2 * d_Z q l * v (nh + l)%nat * v (nh + l)%nat + d_gz q (nh + l)%nat * v (nh + l)%nat).
  replace (2 * nsf)%nat with (nsf + nsf)%nat by lia. rewrite rsum_split. change nsf with (roff M ns 0 + ns 0)%nat at 1 2. rewrite (rsum_roff M ns f), (rsum_roff M ns (fun k => f (nsf + k)%nat)). rewrite <- rsum_add.
  apply rsum_ext. intros i Hi. unfold softc. replace (2 * ns i)%nat with (ns i + ns i)%nat by lia. rewrite rsum_split. change (roff M ns i) with (so i). f_equal; apply rsum_ext; intros l Hl; unfold f.
  - destruct (Sz i l ltac:(lia) Hl) as (Z1 & _). destruct (Sg i l ltac:(lia) Hl) as (G1 & _). cbn [Nat.add] in Z1. rewrite Nat.add_assoc. rewrite G1, Z1. rewrite traj_sl by exact Hl. reflexivity.
  - destruct (Sz i l ltac:(lia) Hl) as (_ & Z1). destruct (Sg i l ltac:(lia) Hl) as (_ & G1). cbn [Nat.add] in Z1. rewrite !Nat.add_assoc in *. rewrite G1, Z1. rewrite traj_su by exact Hl. reflexivity.
Qed.
Lemma cost_traj K : SCall qp M nh nux (q_rqz qp) (d_gz q) (d_gz q) ->
  (forall v, 1 / 2 * Qo (d_H q) 0 nh v + rsum nh (fun k => d_gz q k * v k) = rsum (S M) (hardc qp (tr v)) + K) ->
  forall v, den_cost q v = rsum (S M) (stage_cost qp (tr v)) + K.
Proof.
  intros Sg HK v. destruct Hd as (E1 & E2 & E3 & E4 & E5). unfold den_cost, dnv, den_Hess. rewrite E1, E5. rewrite quad_parts. rewrite HK, (soft_traj v Sg).
  rewrite (rsum_ext (S M) (stage_cost qp (tr v)) (fun i => hardc qp (tr v) i + softc i (tr v))) by (intros; apply stage_cost_parts). rewrite rsum_add. lra.
Qed.
Lemma traj_dyn v i j : (i < M)%nat -> (j < nx (S i))%nat -> dyn qp (tr v) i j = 0.
Proof. intros Hi Hj. unfold dyn. rewrite traj_x by exact Hj. rewrite st_S. lra. Qed.
(** every point satisfying the dynamics is the trajectory of some v *)
Definition pack (z : nat -> rvec) : rvec := fun p =>
  rsum (S M) (fun i => rsum (nu i) (fun k => if (p =? uo i + k)%nat then z i k else 0)) + rsum (nx 0) (fun k => if (p =? uo 0 + nu 0 + k)%nat then z 0%nat (nu 0 + k)%nat else 0) +
  rsum (S M) (fun i => rsum (ns i) (fun l => (if (p =? nh + so i + l)%nat then z i (nux i + l)%nat else 0) + (if (p =? nh + nsf + so i + l)%nat then z i (nux i + ns i + l)%nat else 0))).
Lemma uo_lt i k : (i <= M)%nat -> (k < nu i)%nat -> (uo i + k < uo 0 + nu 0)%nat.
Proof. intros Hi Hk. exact (roff_lt M nu i k Hi Hk). Qed.
Lemma rsum_pick2 (n : nat -> nat) (f : nat -> rvec) i k : (i <= M)%nat -> (k < n i)%nat ->
  rsum (S M) (fun i' => rsum (n i') (fun k' => if (roff M n i + k =? roff M n i' + k')%nat then f i' k' else 0)) = f i k.
Proof.
  intros Hi Hk. rewrite <- (rsum_one' (S M) i (fun i' => f i' k)) by lia. apply rsum_ext. intros i' Hi'. destruct (Nat.eqb_spec i i') as [->|Hne].
  - rewrite <- (rsum_one' (n i') k (f i')) by exact Hk. apply rsum_ext. intros k' Hk'. destruct (Nat.eqb_spec (roff M n i' + k) (roff M n i' + k')), (Nat.eqb_spec k k'); try lia; lra.
  - apply rsum_0. intros k' Hk'. destruct (Nat.eqb_spec (roff M n i + k) (roff M n i' + k')) as [E|]; [|reflexivity]. exfalso. destruct (roff_inj M n i i' k k' Hi ltac:(lia) Hk Hk' E). contradiction.
Qed.
Lemma pack_u z i k : (i <= M)%nat -> (k < nu i)%nat -> pack z (uo i + k)%nat = z i k.
Proof.
  intros Hi Hk. pose proof (uo_lt i k Hi Hk). unfold pack. rewrite (rsum_0 (nx 0)).
  2:{ intros k' Hk'. destruct (Nat.eqb_spec (uo i + k) (uo 0 + nu 0 + k')); [lia|reflexivity]. }
  rewrite (rsum_0 (S M) (fun i0 => rsum (ns i0) _)).
  2:{ intros i' Hi'. apply rsum_0. intros l Hl. unfold n_hard. destruct (Nat.eqb_spec (uo i + k) (uo 0 + nu 0 + nx 0 + so i' + l)); [lia|]. destruct (Nat.eqb_spec (uo i + k) (uo 0 + nu 0 + nx 0 + nsf + so i' + l)); [lia|]. lra. }
  rewrite !Rplus_0_r. exact (rsum_pick2 nu z i k Hi Hk).
Qed.
Lemma pack_x0 z k : (k < nx 0)%nat -> pack z (uo 0 + nu 0 + k)%nat = z 0%nat (nu 0 + k)%nat.
Proof.
  intros Hk. unfold pack. rewrite (rsum_0 (S M) (fun i0 => rsum (nu i0) _)).
  2:{ intros i' Hi'. apply rsum_0. intros k' Hk'. pose proof (uo_lt i' k' ltac:(lia) Hk'). destruct (Nat.eqb_spec (uo 0 + nu 0 + k) (uo i' + k')); [lia|reflexivity]. }
  rewrite (rsum_0 (S M) (fun i0 => rsum (ns i0) _)).
  2:{ intros i' Hi'. apply rsum_0. intros l Hl. unfold n_hard. destruct (Nat.eqb_spec (uo 0 + nu 0 + k) (uo 0 + nu 0 + nx 0 + so i' + l)); [lia|]. destruct (Nat.eqb_spec (uo 0 + nu 0 + k) (uo 0 + nu 0 + nx 0 + nsf + so i' + l)); [lia|]. lra. }
  rewrite Rplus_0_l, Rplus_0_r. rewrite <- (rsum_one' (nx 0%nat) k (fun k => z 0%nat (nu 0%nat + k)%nat)) by exact Hk. apply rsum_ext. intros k' Hk'. destruct (Nat.eqb_spec (uo 0 + nu 0 + k) (uo 0 + nu 0 + k')), (Nat.eqb_spec k k'); try lia; reflexivity.
Qed.
Lemma pack_s z i l : (i <= M)%nat -> (l < ns i)%nat -> pack z (nh + so i + l)%nat = z i (nux i + l)%nat /\ pack z (nh + nsf + so i + l)%nat = z i (nux i + ns i + l)%nat.
Proof.
  intros Hi Hl. pose proof (so_fit qp M i Hi) as Hs. unfold pack.
  assert (A : forall p, (nh <= p)%nat -> rsum (S M) (fun i => rsum (nu i) (fun k => if (p =? uo i + k)%nat then z i k else 0)) = 0).
  { intros p Hp. apply rsum_0. intros i' Hi'. apply rsum_0. intros k' Hk'. pose proof (uo_lt i' k' ltac:(lia) Hk'). unfold n_hard in Hp. destruct (Nat.eqb_spec p (uo i' + k')); [lia|reflexivity]. }
  assert (B : forall p, (nh <= p)%nat -> rsum (nx 0) (fun k => if (p =? uo 0 + nu 0 + k)%nat then z 0%nat (nu 0 + k)%nat else 0) = 0).
  { intros p Hp. apply rsum_0. intros k' Hk'. unfold n_hard in Hp. destruct (Nat.eqb_spec p (uo 0 + nu 0 + k')); [lia|reflexivity]. }
  rewrite !A, !B by lia. rewrite !Rplus_0_l.
  assert (P : forall f, rsum (S M) (fun i' => rsum (ns i') (fun l' => if (so i + l =? so i' + l')%nat then f i' l' else 0)) = f i l) by (intros f; exact (rsum_pick2 ns f i l Hi Hl)).
  split.
  - rewrite <- (P (fun i l => z i (nux i + l)%nat)). apply rsum_ext. intros i' Hi'. apply rsum_ext. intros l' Hl'. pose proof (so_fit qp M i' ltac:(lia)) as Hs'.
    destruct (Nat.eqb_spec (nh + so i + l) (nh + nsf + so i' + l')); [lia|]. destruct (Nat.eqb_spec (nh + so i + l) (nh + so i' + l')), (Nat.eqb_spec (so i + l) (so i' + l')); try lia; lra.
  - rewrite <- (P (fun i l => z i (nux i + ns i + l)%nat)). apply rsum_ext. intros i' Hi'. apply rsum_ext. intros l' Hl'. pose proof (so_fit qp M i' ltac:(lia)) as Hs'.
    destruct (Nat.eqb_spec (nh + nsf + so i + l) (nh + so i' + l')); [lia|]. destruct (Nat.eqb_spec (nh + nsf + so i + l) (nh + nsf + so i' + l')), (Nat.eqb_spec (so i + l) (so i' + l')); try lia; lra.
Qed.
Lemma pack_traj z : (forall i j, (i < M)%nat -> (j < nx (S i))%nat -> dyn qp z i j = 0) -> forall i k, (i <= M)%nat -> (k < nvt D i)%nat -> tr (pack z) i k = z i k.
Proof.
  intros Hz.
  assert (X : forall i, (i <= M)%nat -> forall j, (j < nx i)%nat -> st qp M (pack z) i j = z i (nu i + j)%nat).
  { induction i as [|i IH]; intros Hi j Hj.
    - cbn [st]. apply pack_x0. exact Hj.
    - specialize (Hz i j ltac:(lia) Hj). unfold dyn in Hz. rewrite st_S. enough (rsum (nux i) (fun k => q_BAbt qp i k j * tr (pack z) i k) = rsum (nux i) (fun k => q_BAbt qp i k j * z i k)) by lra.
      unfold ResSpec.nux. rewrite !rsum_split. f_equal; apply rsum_ext; intros k Hk.
      + rewrite traj_u, pack_u by (try exact Hk; lia). reflexivity.
      + rewrite traj_x, IH by (try exact Hk; lia). reflexivity. }
  intros i k Hi Hk. unfold nvt in Hk. destruct (Nat.lt_ge_cases k (nu i)) as [L|L].
  - rewrite traj_u, pack_u by assumption. reflexivity.
  - destruct (Nat.lt_ge_cases k (nu i + nx i)) as [L2|L2].
    + replace k with (nu i + (k - nu i))%nat by lia. rewrite traj_x by lia. apply X; lia.
    + destruct (Nat.lt_ge_cases k (nu i + nx i + ns i)) as [L3|L3].
      * replace k with (nux i + (k - nux i))%nat by (unfold ResSpec.nux; lia). rewrite traj_sl by (unfold ResSpec.nux; lia). apply (pack_s z i (k - nux i) Hi). unfold ResSpec.nux. lia.
      * replace k with (nux i + ns i + (k - nux i - ns i))%nat by (unfold ResSpec.nux; lia). rewrite traj_su by (unfold ResSpec.nux; lia). apply (pack_s z i (k - nux i - ns i) Hi). unfold ResSpec.nux. lia.
Qed.
End Sem.
