(** CsolProofs.v -- what COND_SOL writes: every variable, multiplier and slack t at its place in the dense solution. *)
From Coq Require Import ZArith Bool Arith Lia Reals Lra.
From Verif Require Import Base ArithF RSum Blas Blas2 OcpModel ResSpec ResProofs ResProofs2 CholProofs KktModel KktProofs KktProofs2 DenModel DenSpec CondModel ExpModel CondSpec CondProofs CondCost CondCost2 CondCon CondCon2 CondCon3 CondSem CondFull ExpProofs ExpKkt CondProps ExpProps CsplitSpec CsplitProofs CsplitCon PartModel CsolModel.
Local Open Scope R_scope.

Section Csol.
Variables (qp : oqp R) (M : nat).
Notation D := (q_dim qp).
Notation nu := (dnu D).
Notation nx := (dnx D).
Notation nb := (dnb D).
Notation ng := (dng D).
Notation ns := (dns D).
Notation uo := (uoff qp M).
Notation so := (soff qp M).
Notation nux := (nux qp).
Notation nh := (n_hard qp M).
Notation nsf := (n_soft qp M).
Notation nb2 := (count_nbb qp M).
Notation nbg := (count_nbg qp M).
Notation ng2 := (count_nbg qp M + ngg_of qp M)%nat.
Notation posl := (posl qp M).
Notation pos := (pos qp M).
Notation box := (box qp).
Notation nbox := (nbox qp).
Notation cb := (cb qp).
Notation cg := (cg qp).
Notation valid := (valid qp M).
Notation sft := (softened qp).
Hypothesis Hwf : wfM qp M.
Hypothesis HO : slack_order qp M.

(** ** slacks *)
Definition soft_done (o2 : nat) (os : nat -> nat) (x : nat -> rvec) (c : nat) (dst : rvec) (s : rvec * nat) : Prop :=
  snd s = c /\ slot qp M c o2 os x (fst s) /\ forall p, (p < o2)%nat -> fst s p = dst p.
Lemma soft_put_R o2 os x i j c dst s : (i <= M)%nat -> (sft i j = true -> exists k, q_idxs_rev qp i j = Z.of_nat k /\ (k < ns i)%nat /\ c = (so i + k)%nat) ->
  soft_done o2 os x c dst s -> soft_done o2 os x (if sft i j then S c else c) dst (soft_put qp M os o2 x i j s).
Proof.
  intros Hi Hk. destruct s as [v is]. intros (E1 & E2 & E3). cbn [fst snd] in *. unfold soft_put. change (Z.leb 0 (q_idxs_rev qp i j)) with (sft i j). destruct (sft i j); [|split; [|split]; assumption].
  destruct (Hk eq_refl) as (k & Ek & Hlt & Ec). rewrite Ek, Nat2Z.id, ns2_eq, E1. split; [reflexivity|]. cbn [fst]. split; [exact (slot_put qp M i k c o2 os x v Hi Hlt Ec E2)|].
  intros p Hp. rewrite !upd_other by lia. apply E3. exact Hp.
Qed.
Lemma no_soft i j : (i <= M)%nat -> (j < nb i + ng i)%nat -> ns i = 0%nat -> sft i j = false.
Proof. intros Hi Hj E. destruct (Hwf i Hi) as (_ & W). specialize (W j Hj). unfold softened. apply Z.leb_gt. lia. Qed.
Lemma soft_stage_box o2 os x i dst s : (i <= M)%nat -> soft_done o2 os x (sb qp M i 0) dst s -> soft_done o2 os x (sb qp M i (nb i)) dst (soft_stage qp M os o2 x i 0 (nb i) s).
Proof.
  intros Hi H. unfold soft_stage. rewrite Nat.sub_0_r. destruct (Nat.ltb_spec 0 (ns i)) as [L|L].
  - apply (loop_ind (fun j s => soft_done o2 os x (sb qp M i j) dst s)); [exact H|]. intros j s' Hj I. cbn [Nat.add]. rewrite sb_S. apply soft_put_R; [exact Hi| |exact I]. intros Hs. exact (sb_slot qp M Hwf HO i j Hi Hj Hs).
  - replace (sb qp M i (nb i)) with (sb qp M i 0); [exact H|]. symmetry. enough (X : forall j, (j <= nb i)%nat -> sb qp M i j = sb qp M i 0) by (apply X; lia).
    induction j as [|j IH]; intros Hj; [reflexivity|]. rewrite sb_S, (no_soft i j) by lia. apply IH. lia.
Qed.
Lemma soft_stage_gen o2 os x i dst s : (i <= M)%nat -> soft_done o2 os x (sg qp M i 0) dst s -> soft_done o2 os x (sg qp M i (ng i)) dst (soft_stage qp M os o2 x i (nb i) (nb i + ng i) s).
Proof.
  intros Hi H. unfold soft_stage. replace (nb i + ng i - nb i)%nat with (ng i) by lia. destruct (Nat.ltb_spec 0 (ns i)) as [L|L].
  - apply (loop_ind (fun j s => soft_done o2 os x (sg qp M i j) dst s)); [exact H|]. intros j s' Hj I. rewrite sg_S. apply soft_put_R; [exact Hi| |exact I]. intros Hs. exact (sg_slot qp M Hwf HO i j Hi Hj Hs).
  - replace (sg qp M i (ng i)) with (sg qp M i 0); [exact H|]. symmetry. enough (X : forall j, (j <= ng i)%nat -> sg qp M i j = sg qp M i 0) by (apply X; lia).
    induction j as [|j IH]; intros Hj; [reflexivity|]. rewrite sg_S, (no_soft i (nb i + j)) by lia. apply IH. lia.
Qed.
Lemma soft_fwd_R o2 os x dst : let v := soft_fwd qp M os o2 x dst in
  (forall i l, (i <= M)%nat -> (l < ns i)%nat -> v (o2 + (so i + l))%nat = x i (os i + l)%nat /\ v (o2 + nsf + (so i + l))%nat = x i (os i + ns i + l)%nat) /\
  (forall p, (p < o2)%nat -> v p = dst p).
Proof.
  cbv zeta. unfold soft_fwd.
  set (s1 := loop (M + 1) _ (dst, 0%nat)).
  assert (S1 : soft_done o2 os x (sg qp M M 0) dst s1).
  { unfold s1. rewrite Nat.add_1_r, loop_S. rewrite <- (sb_end qp M). rewrite Nat.sub_diag. apply soft_stage_box; [lia|].
    pose proof (loop_ind (fun n s => soft_done o2 os x (sb qp M (M - n) 0) dst s) M (fun ii s => let i := (M - ii)%nat in soft_stage qp M os o2 x i 0 (nb i) s) (dst, 0%nat)) as L. cbv beta zeta in L. rewrite Nat.sub_diag in L. apply L.
    - rewrite Nat.sub_0_r, sb_M. split; [reflexivity|]. split; [|reflexivity]. intros i l _ _ Hl. lia.
    - intros n s Hn I. replace (M - S n)%nat with (M - n - 1)%nat by lia. rewrite <- sb_next by lia. apply soft_stage_box; [lia|exact I]. }
  assert (S2 : soft_done o2 os x nsf dst (loop (M + 1) (fun ii s => let i := (M - ii)%nat in soft_stage qp M os o2 x i (nb i) (nb i + ng i) s) s1)).
  { rewrite Nat.add_1_r, loop_S. rewrite <- (sg_end qp M HO). cbv zeta. rewrite Nat.sub_diag. apply soft_stage_gen; [lia|].
    pose proof (loop_ind (fun n s => soft_done o2 os x (sg qp M (M - n) 0) dst s) M (fun ii s => let i := (M - ii)%nat in soft_stage qp M os o2 x i (nb i) (nb i + ng i) s) s1) as L. cbv beta zeta in L. rewrite Nat.sub_diag in L. apply L.
    - rewrite Nat.sub_0_r. exact S1.
    - intros n s Hn I. replace (M - S n)%nat with (M - n - 1)%nat by lia. rewrite <- sg_next by lia. apply soft_stage_gen; [lia|exact I]. }
  destruct S2 as (_ & A & B). split; [|exact B]. intros i l Hi Hl. apply A; try assumption. pose proof (so_fit qp M i Hi). lia.
Qed.

(** ** primal variables *)
Lemma csol_inputs_R ux vc : let v := csol_inputs qp M ux vc in
  (forall i k, (i <= M)%nat -> (k < nu i)%nat -> v (uo i + k)%nat = ux i k) /\ (forall k, (k < nux 0)%nat -> v (uo 0 + k)%nat = ux 0%nat k).
Proof.
  unfold csol_inputs.
  pose proof (loop_ind (fun k '(z, n) => n = uo (M - k) /\ forall i c, (M - k < i <= M)%nat -> (c < nu i)%nat -> z (uo i + c)%nat = ux i c) M
    (fun ii '(vc, nu_tmp) => let i := (M - ii)%nat in (VECCP (nu i) (ux i) 0 vc nu_tmp, nu_tmp + nu i)%nat) (vc, 0%nat)) as L.
  cbv beta zeta in L. cbv zeta. destruct (loop _ _ _) as [z n]. destruct L as (L1 & L2).
  - rewrite Nat.sub_0_r, uoff_M. split; [reflexivity|intros; lia].
  - intros k [z0 n0] Hk (I1 & I2). subst n0. split.
    + replace (M - S k)%nat with (M - k - 1)%nat by lia. rewrite (uo_pred qp M) by lia. lia.
    + intros i c Hi Hc. unfold VECCP. destruct (Nat.eq_dec i (M - k)) as [->|Hn].
      * rewrite vset_in' by lia. f_equal. lia.
      * rewrite vset_out; [apply I2; [lia|exact Hc]|]. pose proof (roff_mono M nu (M - k) i ltac:(lia) ltac:(lia)) as X. change (roff M nu) with uo in X. lia.
  - rewrite Nat.sub_diag in *. subst n. assert (Z0 : forall k, (k < nux 0)%nat -> VECCP (nu 0 + nx 0) (ux 0%nat) 0 z (uo 0) (uo 0 + k)%nat = ux 0%nat k).
    { intros k Hk. unfold VECCP. unfold ResSpec.nux in Hk. rewrite vset_in' by lia. f_equal. lia. }
    split; [|exact Z0]. intros i k Hi Hk. destruct (Nat.eq_dec i 0) as [->|Hn]; [apply Z0; unfold ResSpec.nux; lia|]. unfold VECCP. rewrite vset_out; [apply L2; [lia|exact Hk]|]. pose proof (roff_mono M nu 0 i ltac:(lia) ltac:(lia)) as X. change (roff M nu) with uo in X. lia.
Qed.
(** the dense vector holds all the variables it is to hold *)
Definition holds_vars (ux : nat -> rvec) (v : rvec) : Prop :=
  (forall i k, (i <= M)%nat -> (k < nu i)%nat -> v (uo i + k)%nat = ux i k) /\ (forall k, (k < nux 0)%nat -> v (uo 0 + k)%nat = ux 0%nat k) /\
  (forall i l, (i <= M)%nat -> (l < ns i)%nat -> v (nh + (so i + l))%nat = ux i (nux i + l)%nat /\ v (nh + nsf + (so i + l))%nat = ux i (nux i + ns i + l)%nat).
Lemma csol_prim_R ux vc : holds_vars ux (csol_prim qp M ux vc).
Proof.
  unfold csol_prim, holds_vars. rewrite <- n_hard_eq. pose proof (soft_fwd_R nh (fun i => nu i + nx i)%nat ux (csol_inputs qp M ux vc)) as (S1 & S2). pose proof (csol_inputs_R ux vc) as (I1 & I2). split; [|split].
  - intros i k Hi Hk. rewrite S2; [apply I1; assumption|]. pose proof (uo_lt qp M i k Hi Hk). unfold n_hard. lia.
  - intros k Hk. rewrite S2; [apply I2; assumption|]. unfold n_hard, ResSpec.nux in *. lia.
  - exact S1.
Qed.
(** if the OCP point satisfies the dynamics, it is the trajectory of the dense vector *)
Lemma holds_traj ux v : holds_vars ux v -> (forall i j, (i < M)%nat -> (j < nx (S i))%nat -> dyn qp ux i j = 0) -> forall i k, (i <= M)%nat -> (k < nvt D i)%nat -> traj qp M v i k = ux i k.
Proof.
  intros (H1 & H2 & H3) Hd.
  assert (X : forall i k, (i <= M)%nat -> (k < nux i)%nat -> traj qp M v i k = ux i k).
  { induction i as [|i IH]; intros k Hi Hk.
    - rewrite traj_0 by exact Hk. apply H2. exact Hk.
    - destruct (Nat.lt_ge_cases k (nu (S i))) as [L|L]; [rewrite traj_u by exact L; apply H1; assumption|].
      assert (Ek : (k - nu (S i) < nx (S i))%nat) by (unfold ResSpec.nux in Hk; lia).
      replace k with (nu (S i) + (k - nu (S i)))%nat by lia. rewrite traj_x by exact Ek. rewrite st_S. specialize (Hd i (k - nu (S i))%nat ltac:(lia) Ek). unfold dyn in Hd.
      rewrite (rsum_ext (nux i) (fun l => q_BAbt qp i l (k - nu (S i))%nat * traj qp M v i l) (fun l => q_BAbt qp i l (k - nu (S i))%nat * ux i l)); [|intros l Hl; rewrite IH by (try lia; exact Hl); reflexivity]. lra. }
  intros i k Hi Hk. unfold nvt in Hk. change (nu i + nx i)%nat with (nux i) in Hk. destruct (Nat.lt_ge_cases k (nux i)) as [L|L]; [apply X; assumption|]. destruct (Nat.lt_ge_cases k (nux i + ns i)) as [L2|L2].
  - replace k with (nux i + (k - nux i))%nat by lia. rewrite traj_sl by lia. rewrite <- Nat.add_assoc. apply H3; lia.
  - replace k with (nux i + ns i + (k - nux i - ns i))%nat by lia. rewrite traj_su by lia. rewrite <- !Nat.add_assoc. rewrite <- (proj2 (H3 i (k - nux i - ns i)%nat Hi ltac:(lia))) at 1 || idtac. pose proof (proj2 (H3 i (k - nux i - ns i)%nat Hi ltac:(lia))) as E. rewrite <- !Nat.add_assoc in E. exact E.
Qed.

(** ** multipliers and slacks t of the inequalities *)
Section Ineq.
Variable x : nat -> rvec.
Definition good (v : rvec) (i j : nat) : Prop := v (posl i j) = x i j /\ v (nb2 + ng2 + posl i j)%nat = x i (nb i + ng i + j)%nat.
Definition keeps (v v' : rvec) : Prop := forall i j, valid i j -> good v i j -> good v' i j.
Lemma keeps_put v i j p : valid i j -> p = posl i j -> let v' := upd (upd v p (x i j)) (nb2 + ng2 + p)%nat (x i (nb i + ng i + j)%nat) in keeps v v' /\ good v' i j.
Proof.
  intros H ->. cbv zeta. pose proof (posl_lt qp M i j H) as L. assert (G0 : good (upd (upd v (posl i j) (x i j)) (nb2 + ng2 + posl i j)%nat (x i (nb i + ng i + j)%nat)) i j).
  { unfold good. rewrite upd_same. rewrite upd_other by lia. rewrite upd_same. split; reflexivity. }
  split; [|exact G0]. intros i' j' H' (A & B). pose proof (posl_lt qp M i' j' H') as L'. destruct (Nat.eq_dec (posl i' j') (posl i j)) as [E|E].
  - destruct (posl_inj qp M i' j' i j H' H E) as (-> & ->). exact G0.
  - unfold good. rewrite !upd_other by lia. split; assumption.
Qed.
Lemma keeps_cp v a n o : (a + n <= nb 0 + ng 0)%nat -> (forall k, (k < n)%nat -> posl 0 (a + k) = (o + k)%nat) ->
  let v' := VECCP n (x 0%nat) (nb 0 + ng 0 + a) (VECCP n (x 0%nat) a v o) (nb2 + ng2 + o) in keeps v v' /\ forall k, (k < n)%nat -> good v' 0 (a + k).
Proof.
  intros Ha Hp. cbv zeta. set (v' := VECCP n _ _ _ _).
  assert (Hk : forall k, (k < n)%nat -> good v' 0 (a + k)).
  { intros k Hk. pose proof (posl_lt qp M 0 (a + k) ltac:(split; lia)) as L. unfold good, v', VECCP. rewrite Hp in * by exact Hk. split.
    - rewrite vset_out by lia. rewrite vset_in' by lia. f_equal. lia.
    - rewrite vset_in' by lia. f_equal. lia. }
  split; [|exact Hk]. intros i j H (A & B). pose proof (posl_lt qp M i j H) as L.
  assert (Hon : (n = 0 \/ o + n <= nb2 + ng2)%nat).
  { destruct n as [|n']; [left; reflexivity|right]. pose proof (posl_lt qp M 0 (a + n') ltac:(split; lia)) as L0. rewrite Hp in L0 by lia. lia. }
  destruct (le_lt_dec o (posl i j)) as [L1|L1]; [destruct (le_lt_dec (o + n) (posl i j)) as [L2|L2]|].
  - unfold good, v', VECCP. split; [|rewrite !vset_out by lia; exact B]. rewrite vset_out; [rewrite vset_out by lia; exact A|]. lia.
  - specialize (Hp (posl i j - o)%nat ltac:(lia)). destruct (posl_inj qp M i j 0 (a + (posl i j - o)) H ltac:(split; lia) ltac:(lia)) as (-> & E). rewrite E. apply Hk. lia.
  - unfold good, v', VECCP. rewrite !vset_out by lia. split; assumption.
Qed.
Lemma keeps_trans a b c : keeps a b -> keeps b c -> keeps a c.
Proof. intros H1 H2 i j H G. apply H2; [exact H|]. apply H1; assumption. Qed.
Lemma fwd_bound_R i v m : (1 <= i <= M)%nat -> (m <= nb i)%nat ->
  let '(v', a, b) := loop m (fwd_bound qp M x i) (v, roff M cb i, roff M cg i) in
  a = (roff M cb i + cnt (box i) m)%nat /\ b = (roff M cg i + cnt (nbox i) m)%nat /\ keeps v v' /\ forall j, (j < m)%nat -> good v' i j.
Proof.
  intros Hi. induction m as [|m IH]; intros Hm.
  - cbn [loop]. unfold cnt. cbn [nsum]. split; [lia|]. split; [lia|]. split; [intros i' j' _ G; exact G|intros; lia].
  - rewrite loop_S. specialize (IH ltac:(lia)). destruct (loop m _ _) as [[v1 a] b]. destruct IH as (I1 & I2 & I3 & I4). unfold fwd_bound. cbv zeta.
    assert (Eb : box i m = is_input qp i m) by (unfold CondCon.box; replace (Nat.eqb i 0) with false by (symmetry; apply Nat.eqb_neq; lia); reflexivity).
    assert (Ej : (m <? nb i)%nat = true) by (apply Nat.ltb_lt; lia).
    change (q_idxb qp i m <? nu i)%nat with (is_input qp i m).
    assert (Q : forall p, p = posl i m -> let v' := upd (upd v1 p (x i m)) (nb2 + ng2 + p)%nat (x i (nb i + ng i + m)%nat) in keeps v v' /\ forall j, (j < S m)%nat -> good v' i j).
    { intros p Ep. cbv zeta. destruct (keeps_put v1 i m p ltac:(split; lia) Ep) as (P1 & P2). split; [exact (keeps_trans _ _ _ I3 P1)|]. intros j Hj. destruct (Nat.eq_dec j m) as [->|]; [exact P2|apply P1; [split; lia|apply I4; lia]]. }
    destruct (is_input qp i m) eqn:Ein.
    + unfold cnt in *. cbn [nsum]. unfold CondCon.nbox at 2. rewrite Eb. cbn [negb]. split; [lia|]. split; [lia|]. apply Q. unfold CondCon.posl. rewrite Ej, Eb. unfold cnt. lia.
    + unfold cnt in *. cbn [nsum]. unfold CondCon.nbox at 2. rewrite Eb. cbn [negb]. split; [lia|]. split; [lia|].
      replace (2 * nb2 + ng2 + b)%nat with (nb2 + ng2 + (nb2 + b))%nat by lia. apply Q. unfold CondCon.posl. rewrite Ej, Eb. unfold cnt. lia.
Qed.
Lemma csol_ineq_R v i c : (i <= M)%nat -> (c < nct D i)%nat -> csol_ineq qp M x v (pos i c) = x i c.
Proof.
  intros Hi Hc. unfold csol_ineq.
  pose proof (loop_ind (fun n '(v', a, b) => a = roff M cb (M - n) /\ b = roff M cg (M - n) /\ forall i j, (M - n < i <= M)%nat -> (j < nb i)%nat -> good v' i j) M
    (fun ii s => let i := (M - ii)%nat in loop (nb i) (fwd_bound qp M x i) s) (v, 0%nat, 0%nat)) as L. cbv beta zeta in L. cbv zeta. destruct (loop M _ (v, 0%nat, 0%nat)) as [[v1 a] b]. destruct L as (L1 & L2 & L3).
  { rewrite Nat.sub_0_r, !roff_M. split; [reflexivity|]. split; [reflexivity|intros; lia]. }
  { intros n [[v0 a0] b0] Hn (I1 & I2 & I3). subst a0 b0. pose proof (fwd_bound_R (M - n) v0 (nb (M - n)%nat) ltac:(lia) (le_n _)) as B. destruct (loop (nb (M - n)%nat) _ _) as [[v' a1] b1]. destruct B as (B1 & B2 & B3 & B4).
    destruct (cb_pred qp M (M - n) ltac:(lia)) as (C1 & C2 & _). replace (M - S n)%nat with (M - n - 1)%nat by lia. rewrite C1, C2. split; [exact B1|]. split; [exact B2|]. intros i' j Hi' Hj. destruct (Nat.eq_dec i' (M - n)) as [->|]; [apply B4; exact Hj|]. apply B3; [split; lia|apply I3; [lia|exact Hj]]. }
  rewrite Nat.sub_diag in *. subst a. rewrite <- nbg_eq in L2. subst b.
  pose proof (keeps_cp v1 0 (nb 0) (roff M cb 0) ltac:(lia)) as C. cbv zeta in C. rewrite Nat.add_0_r in C.
  set (v2 := VECCP (nb 0) (x 0%nat) (nb 0 + ng 0) _ _) in *. destruct C as (C1 & C2).
  { intros k Hk. cbn [Nat.add]. unfold CondCon.posl. destruct (Nat.ltb_spec k (nb 0)); [|lia]. replace (box 0 k) with true by reflexivity. rewrite (cnt_all0 qp). reflexivity. }
  assert (Bd : forall i j, (i <= M)%nat -> (j < nb i)%nat -> good v2 i j).
  { intros i' j Hi' Hj. destruct (Nat.eq_dec i' 0) as [->|]; [apply (C2 j Hj)|]. apply C1; [split; lia|]. apply L3; [lia|exact Hj]. }
  clear C1 C2. clearbody v2.
  pose proof (loop_ind (fun n '(v', g) => g = roff M ng (M - n) /\ keeps v2 v' /\ forall i j, (M - n < i <= M)%nat -> (j < ng i)%nat -> good v' i (nb i + j)) M
    (fun ii s => let i := (M - ii)%nat in loop (ng i) (fun jj '(v, ngg) => (upd (upd v (nb2 + (nbg + ngg))%nat (x i (nb i + jj)%nat)) (2 * nb2 + ng2 + (nbg + ngg))%nat (x i (2 * nb i + ng i + jj)%nat), S ngg)) s) (v2, 0%nat)) as L. cbv beta zeta in L.
  destruct (loop M _ (v2, 0%nat)) as [v3 g]. destruct L as (G1 & G2 & G3).
  { rewrite Nat.sub_0_r, roff_M. split; [reflexivity|]. split; [intros i' j' _ G; exact G|intros; lia]. }
  { intros n [v0 g0] Hn (I1 & I2 & I3). subst g0. set (i0 := (M - n)%nat) in *.
    pose proof (loop_ind (fun m '(v', g) => g = (roff M ng i0 + m)%nat /\ keeps v0 v' /\ forall j, (j < m)%nat -> good v' i0 (nb i0 + j)) (ng i0)
      (fun jj '(v, ngg) => (upd (upd v (nb2 + (nbg + ngg))%nat (x i0 (nb i0 + jj)%nat)) (2 * nb2 + ng2 + (nbg + ngg))%nat (x i0 (2 * nb i0 + ng i0 + jj)%nat), S ngg)) (v0, roff M ng i0)) as L. cbv beta in L.
    destruct (loop (ng i0) _ _) as [v' g']. destruct L as (A1 & A2 & A3).
    - split; [lia|]. split; [intros i' j' _ G; exact G|intros; lia].
    - intros m [v4 g4] Hm (J1 & J2 & J3). subst g4. split; [lia|].
      assert (Ep : (nb2 + (nbg + (roff M ng i0 + m)))%nat = posl i0 (nb i0 + m)).
      { unfold CondCon.posl. destruct (Nat.ltb_spec (nb i0 + m) (nb i0)); [lia|]. replace (nb i0 + m - nb i0)%nat with m by lia. lia. }
      destruct (keeps_put v4 i0 (nb i0 + m) _ ltac:(split; lia) Ep) as (P1 & P2). replace (2 * nb2 + ng2 + (nbg + (roff M ng i0 + m)))%nat with (nb2 + ng2 + (nb2 + (nbg + (roff M ng i0 + m))))%nat by lia.
      replace (2 * nb i0 + ng i0 + m)%nat with (nb i0 + ng i0 + (nb i0 + m))%nat by lia.
      split; [exact (keeps_trans _ _ _ J2 P1)|]. intros j Hj. destruct (Nat.eq_dec j m) as [->|]; [exact P2|]. apply P1; [split; lia|]. apply J3. lia.
    - destruct (cb_pred qp M i0 ltac:(lia)) as (_ & _ & C3). replace (M - S n)%nat with (i0 - 1)%nat by lia. rewrite C3. split; [exact A1|]. split; [exact (keeps_trans _ _ _ I2 A2)|].
      intros i' j Hi' Hj. destruct (Nat.eq_dec i' i0) as [->|]; [apply A3; exact Hj|]. apply A2; [split; lia|]. apply I3; [lia|exact Hj]. }
  rewrite Nat.sub_diag in *. subst g.
  pose proof (keeps_cp v3 (nb 0) (ng 0) (nb2 + nbg + roff M ng 0) ltac:(lia)) as C. cbv zeta in C. replace (nb 0 + ng 0 + nb 0)%nat with (2 * nb 0 + ng 0)%nat in C by lia. replace (nb2 + ng2 + (nb2 + nbg + roff M ng 0))%nat with (2 * nb2 + ng2 + nbg + roff M ng 0)%nat in C by lia.
  set (v4 := VECCP (ng 0) (x 0%nat) (2 * nb 0 + ng 0) _ _) in *. destruct C as (C1 & C2).
  { intros k Hk. unfold CondCon.posl. destruct (Nat.ltb_spec (nb 0 + k) (nb 0)); [lia|]. replace (nb 0 + k - nb 0)%nat with k by lia. lia. }
  assert (Al : forall i j, valid i j -> good v4 i j).
  { intros i' j (Hi' & Hj). destruct (Nat.lt_ge_cases j (nb i')) as [Lj|Lj]; [apply C1; [split; lia|]; apply G2; [split; lia|]; apply Bd; assumption|].
    replace j with (nb i' + (j - nb i'))%nat by lia. destruct (Nat.eq_dec i' 0) as [->|]; [apply C2; lia|]. apply C1; [split; lia|]. apply G3; lia. }
  clear C1 C2. clearbody v4.
  pose proof (soft_fwd_R (2 * nb2 + 2 * ng2) (fun i => 2 * nb i + 2 * ng i)%nat x v4) as (S1 & S2). set (v5 := soft_fwd _ _ _ _ _ _) in *. clearbody v5.
  unfold nct in Hc. unfold CondCon.pos. destruct (Nat.ltb_spec c (nb i + ng i)) as [K1|K1]; [|destruct (Nat.ltb_spec c (2 * (nb i + ng i))) as [K2|K2]; [|destruct (Nat.ltb_spec c (2 * (nb i + ng i) + ns i)) as [K3|K3]]].
  - pose proof (posl_lt qp M i c ltac:(split; lia)). rewrite S2 by lia. apply Al. split; lia.
  - pose proof (posl_lt qp M i (c - (nb i + ng i)) ltac:(split; lia)). rewrite S2 by lia. destruct (Al i (c - (nb i + ng i))%nat ltac:(split; lia)) as (_ & E). rewrite E. f_equal. lia.
  - destruct (S1 i (c - 2 * (nb i + ng i))%nat Hi ltac:(lia)) as (E & _). rewrite E. f_equal. lia.
  - destruct (S1 i (c - 2 * (nb i + ng i) - ns i)%nat Hi ltac:(lia)) as (_ & E). rewrite E. f_equal. lia.
Qed.
End Ineq.
End Csol.

(** ** the whole function, one block *)
Lemma traj_vars_00 (qp : oqp R) : n_hard qp 0 = nux qp 0 /\ n_soft qp 0 = dns (q_dim qp) 0 /\ uoff qp 0 0 = 0%nat /\ soff qp 0 0 = 0%nat.
Proof. repeat split; reflexivity. Qed.
Lemma cond_sol_R last (qp : oqp R) sol ds dineq deq : let N := dN (q_dim qp) in let M := last_stage last N in let s := cond_sol last true dineq deq qp sol ds in
  (last = false -> (1 <= N)%nat) -> wfM qp M -> slack_order qp M ->
  holds_vars qp M (s_ux sol) (ds_v s) /\
  (dineq = true -> forall i c, (i <= M)%nat -> (c < nct (q_dim qp) i)%nat -> ds_lam s (pos qp M i c) = s_lam sol i c /\ ds_t s (pos qp M i c) = s_t sol i c) /\
  (deq = true -> last = false -> forall j, (j < dnx (q_dim qp) N)%nat -> ds_pi s j = s_pi sol (N - 1)%nat j).
Proof.
  cbv zeta. intros HN Hwf HO. unfold cond_sol. set (M := last_stage last _) in *. destruct (andb (Nat.eqb M 0) last) eqn:E0.
  - apply andb_true_iff in E0. destruct E0 as (E0 & ->). apply Nat.eqb_eq in E0. cbn [last_stage] in M. cbn [ds_v ds_lam ds_t ds_pi]. rewrite E0 in *. split; [|split; [|discriminate]].
    + split; [|split].
      * intros i k Hi Hk. assert (i = 0%nat) by lia. subst i. change (uoff qp 0 0) with 0%nat. unfold VECCP. rewrite vset_in' by lia. f_equal. lia.
      * intros k Hk. change (uoff qp 0 0) with 0%nat. unfold nux in Hk. unfold VECCP. rewrite vset_in' by lia. f_equal. lia.
      * intros i l Hi Hl. assert (i = 0%nat) by lia. subst i. change (n_hard qp 0) with (nux qp 0). change (n_soft qp 0) with (dns (q_dim qp) 0). change (soff qp 0 0) with 0%nat. unfold nux. unfold VECCP. rewrite !vset_in' by lia. split; f_equal; lia.
    + intros -> i c Hi Hc. assert (i = 0%nat) by lia. subst i.
      assert (Ep : pos qp 0 0 c = c). { pose proof (ExpProps.pos_00 qp c) as P. fold M in P. rewrite E0 in P. apply P; [reflexivity|exact Hc]. }
      rewrite Ep. unfold nct in Hc. unfold VECCP. rewrite !vset_in' by lia. rewrite Nat.add_0_l, Nat.sub_0_r. split; reflexivity.
  - cbn [ds_v ds_lam ds_t ds_pi]. split; [apply csol_prim_R; assumption|]. split.
    + intros -> i c Hi Hc. split; apply csol_ineq_R; assumption.
    + intros -> -> j Hj. cbn [andb negb]. unfold VECCP. rewrite vset_in' by lia. f_equal. lia.
Qed.
