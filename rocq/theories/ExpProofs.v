(** ExpProofs.v -- what EXPAND_SOL writes: the trajectory, and every multiplier / slack t at the position of its constraint. *)
From Coq Require Import ZArith Bool Arith Lia Reals Lra.
From Verif Require Import Base ArithF RSum Blas Blas2 OcpModel ResSpec ResProofs ResProofs2 CholProofs KktModel KktProofs KktProofs2 DenModel DenSpec CondModel ExpModel CondSpec CondProofs CondCost CondCost2 CondCon CondCon2 CondCon3 CondSem.
Local Open Scope R_scope.

Lemma two_upd {A} n a b (f g : nat -> A) v k : (a + n <= b)%nat ->
  loop n (fun jj v => upd (upd v (a + jj)%nat (f jj)) (b + jj)%nat (g jj)) v k =
  if ((a <=? k) && (k <? a + n))%nat then f (k - a)%nat else if ((b <=? k) && (k <? b + n))%nat then g (k - b)%nat else v k.
Proof.
  intros H. revert k. induction n as [|n IH]; intros k.
  - cbn [loop]. destruct (Nat.leb_spec a k), (Nat.ltb_spec k (a + 0)), (Nat.leb_spec b k), (Nat.ltb_spec k (b + 0)); cbn [andb]; try lia; reflexivity.
  - rewrite loop_S. unfold upd at 1 2. rewrite (IH ltac:(lia)).
    destruct (Nat.eqb_spec k (b + n)) as [->|E1].
    { destruct (Nat.leb_spec a (b + n)), (Nat.ltb_spec (b + n) (a + S n)), (Nat.leb_spec b (b + n)), (Nat.ltb_spec (b + n) (b + S n)); cbn [andb]; try lia. f_equal. lia. }
    destruct (Nat.eqb_spec k (a + n)) as [->|E2].
    { destruct (Nat.leb_spec a (a + n)), (Nat.ltb_spec (a + n) (a + S n)); cbn [andb]; try lia. f_equal. lia. }
    destruct (Nat.leb_spec a k), (Nat.ltb_spec k (a + S n)), (Nat.ltb_spec k (a + n)), (Nat.leb_spec b k), (Nat.ltb_spec k (b + S n)), (Nat.ltb_spec k (b + n)); cbn [andb]; try lia; reflexivity.
Qed.

Section Exp.
Variables (qp : oqp R) (M : nat).
Notation D := (q_dim qp).
Notation nu := (dnu D).
Notation nx := (dnx D).
Notation nb := (dnb D).
Notation ng := (dng D).
Notation ns := (dns D).
Notation uo := (uoff qp M).
Notation so := (soff qp M).
Notation nux := (nux qp).
Notation nh := (n_hard qp M).
Notation nsf := (n_soft qp M).
Notation nb2 := (count_nbb qp M).
Notation nbg := (count_nbg qp M).
Notation ng2 := (count_nbg qp M + ngg_of qp M)%nat.
Notation cb := (cb qp).
Notation cg := (cg qp).
Notation posl := (posl qp M).
Notation pos := (pos qp M).
Notation box := (box qp).
Notation nbox := (nbox qp).
Notation tr := (traj qp M).

(** ** primal variables *)
Lemma exp_inputs_R vc ux : let z := exp_inputs qp M vc ux in
  (forall i k, (i <= M)%nat -> (k < nu i)%nat -> z i k = vc (uo i + k)%nat) /\ (forall k, (k < nux 0)%nat -> z 0%nat k = vc (uo 0 + k)%nat).
Proof.
  unfold exp_inputs.
  pose proof (loop_ind (fun k '(z, n) => n = uo (M - k) /\ forall i c, (M - k < i <= M)%nat -> (c < nu i)%nat -> z i c = vc (uo i + c)%nat) M
    (fun ii '(ux, nu_tmp) => let i := (M - ii)%nat in (upd ux i (VECCP (nu i) vc nu_tmp (ux i) 0), nu_tmp + nu i)%nat) (ux, 0%nat)) as L.
  cbv beta zeta in L. cbv zeta. destruct (loop _ _ _) as [z n]. destruct L as (L1 & L2).
  - rewrite Nat.sub_0_r, uoff_M. split; [reflexivity|intros; lia].
  - intros k [z0 n0] Hk (I1 & I2). split.
    + rewrite I1. replace (M - S k)%nat with (M - k - 1)%nat by lia. rewrite (uo_pred qp M) by lia. lia.
    + intros i c Hi Hc. unfold upd. destruct (Nat.eqb_spec i (M - k)) as [->|].
      * unfold VECCP. rewrite vset_in' by lia. rewrite I1. f_equal. lia.
      * apply I2; [lia|exact Hc].
  - rewrite Nat.sub_diag in *. subst n. assert (Z0 : forall k, (k < nux 0)%nat -> upd z 0 (VECCP (nu 0 + nx 0) vc (uo 0) (z 0%nat) 0) 0%nat k = vc (uo 0 + k)%nat).
    { intros k Hk. rewrite upd_same. unfold VECCP. unfold ResSpec.nux in Hk. rewrite vset_in' by lia. f_equal. lia. }
    split; [|exact Z0]. intros i k Hi Hk. destruct (Nat.eq_dec i 0) as [->|]; [apply Z0; unfold ResSpec.nux; lia|]. rewrite upd_other by lia. apply L2; [lia|exact Hk].
Qed.
Lemma exp_states_R vc z0 : (forall i k, (i <= M)%nat -> (k < nu i)%nat -> z0 i k = vc (uo i + k)%nat) -> (forall k, (k < nux 0)%nat -> z0 0%nat k = vc (uo 0 + k)%nat) ->
  forall i k, (i <= M)%nat -> (k < nux i)%nat -> exp_states qp M z0 i k = tr vc i k.
Proof.
  intros H1 H2. unfold exp_states.
  pose proof (loop_ind (fun n z => (forall i k, (i <= n)%nat -> (k < nux i)%nat -> z i k = tr vc i k) /\ (forall i, (n < i)%nat -> z i = z0 i)) M
    (fun ii ux => upd ux (ii + 1)%nat (GEMV_T (nu ii + nx ii) (nx (ii + 1)) f1 (q_BAbt qp ii) 0 0 (ux ii) 0 f1 (q_b qp ii) 0 (ux (ii + 1)%nat) (nu (ii + 1)))) z0) as L.
  cbv beta in L. destruct L as (L1 & _).
  - split; [|reflexivity]. intros i k Hi Hk. replace i with 0%nat in * by lia. rewrite H2 by exact Hk. symmetry. apply traj_0. exact Hk.
  - intros n z Hn (I1 & I2). rewrite Nat.add_1_r. split.
    + intros i k Hi Hk. unfold upd. destruct (Nat.eqb_spec i (S n)) as [->|].
      * unfold GEMV_T. destruct (Nat.lt_ge_cases k (nu (S n))) as [Lk|Lk].
        -- rewrite vset_out by lia. rewrite I2 by lia. rewrite H1 by (try exact Lk; lia). symmetry. apply traj_u. exact Lk.
        -- unfold ResSpec.nux in Hk. rewrite vset_in' by lia. rsimp. rewrite R_lit11, !Rmult_1_l. rewrite fsum_R. replace (tr vc (S n) k) with (tr vc (S n) (nu (S n) + (k - nu (S n)))%nat) by (f_equal; lia).
           rewrite traj_x by lia. rewrite st_S. cbn [Nat.add]. rewrite Rplus_comm. f_equal. apply rsum_ext. intros l Hl. rewrite I1 by (try exact Hl; lia). reflexivity.
      * apply I1; [lia|exact Hk].
    + intros i Hi. rewrite upd_other by lia. apply I2. lia.
  - exact L1.
Qed.
Lemma ns2_nsf : ns2_of qp M = nsf.
Proof. unfold ns2_of, n_soft. rewrite Nat.add_1_r. pose proof (roff_sum M ns 0 ltac:(lia)) as E. cbn [nsum] in E. cbn [nsum]. change (so 0) with (roff M ns 0). lia. Qed.
Lemma soft_back_R os o2 src x i k : (i <= M)%nat -> soft_back qp M os o2 src x i k =
  if ((os i <=? k) && (k <? os i + ns i))%nat then src (o2 + so i + (k - os i))%nat
  else if ((os i + ns i <=? k) && (k <? os i + ns i + ns i))%nat then src (o2 + nsf + so i + (k - (os i + ns i)))%nat else x i k.
Proof.
  intros Hi. unfold soft_back. rewrite ns2_nsf.
  set (val := fun i => (fun k => if ((os i <=? k) && (k <? os i + ns i))%nat then src (o2 + so i + (k - os i))%nat
  else if ((os i + ns i <=? k) && (k <? os i + ns i + ns i))%nat then src (o2 + nsf + so i + (k - (os i + ns i)))%nat else x i k)).
  change (if ((os i <=? k) && (k <? os i + ns i))%nat then _ else _) with (val i k).
  pose proof (loop_ind (fun n '(z, is) => ((n <= M)%nat -> is = so (M - n)) /\ (forall i k, (M < i + n)%nat -> (i <= M)%nat -> z i k = val i k) /\ (forall i, (i + n <= M)%nat -> z i = x i)) (M + 1)
    (fun ii '(x, is) => let i := (M - ii)%nat in
      (upd x i (loop (ns i) (fun jj v => upd (upd v (os i + jj)%nat (src (o2 + is + jj)%nat)) (os i + ns i + jj)%nat (src (o2 + nsf + is + jj)%nat)) (x i)), is + ns i)%nat) (x, 0%nat)) as L.
  cbv beta zeta in L. destruct (loop (M + 1) _ _) as [z is]. destruct L as (_ & L2 & _).
  - split; [intros _; rewrite Nat.sub_0_r; symmetry; apply roff_M|]. split; [intros; lia|reflexivity].
  - intros n [z0 is0] Hn (I1 & I2 & I3). rewrite (I1 ltac:(lia)). split; [|split].
    + intros Hn'. replace (M - S n)%nat with (M - n - 1)%nat by lia. change (so (M - n - 1)) with (roff M ns (M - n - 1)). rewrite (roff_S M ns (M - n - 1)) by lia. replace (S (M - n - 1)) with (M - n)%nat by lia. reflexivity.
    + intros i' k' H1 H2. unfold upd at 1. destruct (Nat.eqb_spec i' (M - n)) as [->|]; [|apply I2; lia].
      rewrite two_upd by lia. unfold val. rewrite (I3 (M - n)%nat) by lia. reflexivity.
    + intros i' H1. rewrite upd_other by lia. apply I3. lia.
  - cbn [fst]. apply L2; lia.
Qed.
Lemma exp_prim_R vc ux i k : (i <= M)%nat -> (k < nvt D i)%nat -> exp_prim qp M vc ux i k = tr vc i k.
Proof.
  intros Hi Hk. unfold exp_prim. rewrite soft_back_R by exact Hi. pose proof (exp_inputs_R vc ux) as (I1 & I2). unfold nvt in Hk.
  rewrite <- n_hard_eq. change (nu i + nx i)%nat with (nux i) in *.
  destruct (Nat.leb_spec (nux i) k) as [A|A]; cbn [andb].
  - destruct (Nat.ltb_spec k (nux i + ns i)) as [B|B]; cbn [andb].
    + rewrite <- (traj_sl qp M vc i (k - nux i)) by lia. f_equal. lia.
    + destruct (Nat.leb_spec (nux i + ns i) k); [|lia]. destruct (Nat.ltb_spec k (nux i + ns i + ns i)); [|lia]. cbn [andb].
      rewrite <- (traj_su qp M vc i (k - (nux i + ns i))) by lia. f_equal. lia.
  - destruct (Nat.leb_spec (nux i + ns i) k); [lia|]. cbn [andb]. apply exp_states_R; assumption.
Qed.

(** ** multipliers and slacks of the inequalities *)
Lemma cnt_all0 j : cnt (box 0) j = j.
Proof. unfold cnt, CondCon.box. induction j as [|j IH]; [reflexivity|]. cbn [nsum Nat.eqb orb] in *. lia. Qed.
Lemma back_bound_R src i v m : (1 <= i)%nat -> (m <= nb i)%nat ->
  let '(v', nbb, nbg') := loop m (back_bound qp M src i) (v, roff M cb i, roff M cg i) in
  nbb = (roff M cb i + cnt (box i) m)%nat /\ nbg' = (roff M cg i + cnt (nbox i) m)%nat /\
  forall k, v' k = if (k <? m)%nat then src (posl i k) else if ((nb i + ng i <=? k) && (k <? nb i + ng i + m))%nat then src (nb2 + ng2 + posl i (k - (nb i + ng i)))%nat else v k.
Proof.
  intros Hi1. induction m as [|m IH]; intros Hm.
  - cbn [loop]. unfold cnt. cbn [nsum]. split; [lia|]. split; [lia|]. intros k. destruct (Nat.ltb_spec k 0); [lia|]. destruct (Nat.leb_spec (nb i + ng i) k), (Nat.ltb_spec k (nb i + ng i + 0)); cbn [andb]; try lia; reflexivity.
  - rewrite loop_S. specialize (IH ltac:(lia)). destruct (loop m _ _) as [[v1 a] b]. destruct IH as (I1 & I2 & I3). unfold back_bound. cbv zeta.
    assert (Eb : box i m = is_input qp i m) by (unfold CondCon.box; replace (Nat.eqb i 0) with false by (symmetry; apply Nat.eqb_neq; lia); reflexivity).
    assert (Ej : (m <? nb i)%nat = true) by (apply Nat.ltb_lt; lia).
    change (q_idxb qp i m <? nu i)%nat with (is_input qp i m).
    assert (K : forall p : nat, p = posl i m -> forall k, upd (upd v1 m (src p)) (nb i + ng i + m)%nat (src (nb2 + ng2 + p)%nat) k =
      if (k <? S m)%nat then src (posl i k) else if ((nb i + ng i <=? k) && (k <? nb i + ng i + S m))%nat then src (nb2 + ng2 + posl i (k - (nb i + ng i)))%nat else v k).
    { intros p -> k. unfold upd. rewrite I3. destruct (Nat.eqb_spec k (nb i + ng i + m)) as [->|].
      - destruct (Nat.ltb_spec (nb i + ng i + m) (S m)); [lia|]. destruct (Nat.leb_spec (nb i + ng i) (nb i + ng i + m)), (Nat.ltb_spec (nb i + ng i + m) (nb i + ng i + S m)); cbn [andb]; try lia. f_equal. f_equal. f_equal. lia.
      - destruct (Nat.eqb_spec k m) as [->|]; [destruct (Nat.ltb_spec m (S m)); [reflexivity|lia]|].
        destruct (Nat.ltb_spec k m), (Nat.ltb_spec k (S m)); try lia; [reflexivity|]. destruct (Nat.leb_spec (nb i + ng i) k), (Nat.ltb_spec k (nb i + ng i + m)), (Nat.ltb_spec k (nb i + ng i + S m)); cbn [andb]; try lia; reflexivity. }
    destruct (is_input qp i m) eqn:Ein.
    + unfold cnt in *. cbn [nsum]. unfold CondCon.nbox at 2. rewrite Eb. cbn [negb]. split; [lia|]. split; [lia|]. apply K. unfold CondCon.posl. rewrite Ej, Eb. unfold cnt. lia.
    + unfold cnt in *. cbn [nsum]. unfold CondCon.nbox at 2. rewrite Eb. cbn [negb]. split; [lia|]. split; [lia|].
      replace (2 * nb2 + ng2 + b)%nat with (nb2 + ng2 + (nb2 + b))%nat by lia. apply K. unfold CondCon.posl. rewrite Ej, Eb. unfold cnt. lia.
Qed.
Lemma cb_pred i : (1 <= i <= M)%nat -> roff M cb (i - 1) = (roff M cb i + cb i)%nat /\ roff M cg (i - 1) = (roff M cg i + cg i)%nat /\ roff M ng (i - 1) = (roff M ng i + ng i)%nat.
Proof. intros H. rewrite !(roff_S M _ (i - 1)) by lia. replace (S (i - 1)) with i by lia. repeat split; reflexivity. Qed.
(** entries of the bounds and of the general constraints, as a function of the entry number *)
Definition bget (src : rvec) (i : nat) (old : rvec) (k : nat) : R :=
  if (k <? nb i)%nat then src (posl i k) else if ((nb i + ng i <=? k) && (k <? nb i + ng i + nb i))%nat then src (nb2 + ng2 + posl i (k - (nb i + ng i)))%nat else old k.
Definition gget (src : rvec) (i : nat) (old : rvec) (k : nat) : R :=
  if ((nb i <=? k) && (k <? nb i + ng i))%nat then src (posl i k) else if ((2 * nb i + ng i <=? k) && (k <? 2 * nb i + ng i + ng i))%nat then src (nb2 + ng2 + posl i (k - (nb i + ng i)))%nat else old k.
Lemma exp_bounds_R (src : rvec) (x : nat -> rvec) : let '(x', nbb, nbg') := loop M (fun ii '(x, nbb, nbg) =>
      let i := (M - ii)%nat in let '(v, nbb, nbg) := loop (nb i) (back_bound qp M src i) (x i, nbb, nbg) in (upd x i v, nbb, nbg)) (x, 0%nat, 0%nat) in
  nbb = roff M cb 0 /\ nbg' = nbg /\ (forall i k, (1 <= i <= M)%nat -> x' i k = bget src i (x i) k) /\ x' 0%nat = x 0%nat.
Proof.
  pose proof (loop_ind (fun n '(x', nbb, nbg') => nbb = roff M cb (M - n) /\ nbg' = roff M cg (M - n) /\ (forall i k, (M - n < i <= M)%nat -> x' i k = bget src i (x i) k) /\ (forall i, (i <= M - n)%nat -> x' i = x i)) M
   (fun ii '(x, nbb, nbg) => let i := (M - ii)%nat in let '(v, nbb, nbg) := loop (nb i) (back_bound qp M src i) (x i, nbb, nbg) in (upd x i v, nbb, nbg)) (x, 0%nat, 0%nat)) as L.
  cbv beta zeta in L. cbv zeta. destruct (loop M _ _) as [[x' a] b]. destruct L as (L1 & L2 & L3 & L4).
  - rewrite Nat.sub_0_r, !roff_M. repeat split; try reflexivity. intros; lia.
  - intros n [[x0 a0] b0] Hn (I1 & I2 & I3 & I4). subst a0 b0. pose proof (back_bound_R src (M - n) (x0 (M - n)%nat) (nb (M - n)%nat) ltac:(lia) (le_n _)) as B.
    destruct (loop (nb (M - n)%nat) _ _) as [[v a1] b1]. destruct B as (B1 & B2 & B3). destruct (cb_pred (M - n) ltac:(lia)) as (C1 & C2 & _). replace (M - S n)%nat with (M - n - 1)%nat by lia.
    rewrite C1, C2. split; [exact B1|]. split; [exact B2|]. split.
    + intros i k Hi. unfold upd. destruct (Nat.eqb_spec i (M - n)) as [->|]; [rewrite B3; rewrite I4 by lia; reflexivity|apply I3; lia].
    + intros i Hi. rewrite upd_other by lia. apply I4. lia.
  - rewrite Nat.sub_diag in *. split; [exact L1|]. split; [rewrite L2, nbg_eq; reflexivity|]. split; [intros i k Hi; apply L3; lia|apply L4; lia].
Qed.
Lemma gen_loop_R (src : rvec) i (v : rvec) a m : (m <= ng i)%nat ->
  let '(v', a') := loop m (fun jj '(v, ngg) => (upd (upd v (nb i + jj)%nat (src (nb2 + nbg + ngg)%nat)) (2 * nb i + ng i + jj)%nat (src (2 * nb2 + ng2 + nbg + ngg)%nat), S ngg)) (v, a) in
  a' = (a + m)%nat /\ forall k, v' k = if ((nb i <=? k) && (k <? nb i + m))%nat then src (nb2 + nbg + (a + (k - nb i)))%nat else if ((2 * nb i + ng i <=? k) && (k <? 2 * nb i + ng i + m))%nat then src (2 * nb2 + ng2 + nbg + (a + (k - (2 * nb i + ng i))))%nat else v k.
Proof.
  induction m as [|m IH]; intros Hm.
  - cbn [loop]. split; [lia|]. intros k. destruct (Nat.leb_spec (nb i) k), (Nat.ltb_spec k (nb i + 0)), (Nat.leb_spec (2 * nb i + ng i) k), (Nat.ltb_spec k (2 * nb i + ng i + 0)); cbn [andb]; try lia; reflexivity.
  - rewrite loop_S. specialize (IH ltac:(lia)). destruct (loop m _ _) as [v1 a1]. destruct IH as (I1 & I2). split; [lia|]. intros k. unfold upd. rewrite I2, I1.
    destruct (Nat.eqb_spec k (2 * nb i + ng i + m)) as [->|E1].
    { destruct (Nat.leb_spec (nb i) (2 * nb i + ng i + m)), (Nat.ltb_spec (2 * nb i + ng i + m) (nb i + S m)), (Nat.leb_spec (2 * nb i + ng i) (2 * nb i + ng i + m)), (Nat.ltb_spec (2 * nb i + ng i + m) (2 * nb i + ng i + S m)); cbn [andb]; try lia. f_equal. lia. }
    destruct (Nat.eqb_spec k (nb i + m)) as [->|E2].
    { destruct (Nat.leb_spec (nb i) (nb i + m)), (Nat.ltb_spec (nb i + m) (nb i + S m)); cbn [andb]; try lia. f_equal. lia. }
    destruct (Nat.leb_spec (nb i) k), (Nat.ltb_spec k (nb i + S m)), (Nat.ltb_spec k (nb i + m)), (Nat.leb_spec (2 * nb i + ng i) k), (Nat.ltb_spec k (2 * nb i + ng i + S m)), (Nat.ltb_spec k (2 * nb i + ng i + m)); cbn [andb]; try lia; reflexivity.
Qed.
Lemma gget_pos (src : rvec) i (v : rvec) a k : a = roff M ng i -> (if ((nb i <=? k) && (k <? nb i + ng i))%nat then src (nb2 + nbg + (a + (k - nb i)))%nat else if ((2 * nb i + ng i <=? k) && (k <? 2 * nb i + ng i + ng i))%nat then src (2 * nb2 + ng2 + nbg + (a + (k - (2 * nb i + ng i))))%nat else v k) = gget src i v k.
Proof.
  intros ->. unfold gget. destruct (Nat.leb_spec (nb i) k), (Nat.ltb_spec k (nb i + ng i)), (Nat.leb_spec (2 * nb i + ng i) k), (Nat.ltb_spec k (2 * nb i + ng i + ng i)); cbn [andb]; try lia; try reflexivity; f_equal.
  all: unfold CondCon.posl.
  all: first [destruct (Nat.ltb_spec k (nb i)); lia | destruct (Nat.ltb_spec (k - (nb i + ng i)) (nb i)); lia].
Qed.
Lemma exp_gens_R (src : rvec) (x : nat -> rvec) : let '(x', ngg) := loop M (fun ii '(x, ngg) => let i := (M - ii)%nat in
      let '(v, ngg) := loop (ng i) (fun jj '(v, ngg) => (upd (upd v (nb i + jj)%nat (src (nb2 + nbg + ngg)%nat)) (2 * nb i + ng i + jj)%nat (src (2 * nb2 + ng2 + nbg + ngg)%nat), S ngg)) (x i, ngg) in
      (upd x i v, ngg)) (x, 0%nat) in
  ngg = roff M ng 0 /\ (forall i k, (1 <= i <= M)%nat -> x' i k = gget src i (x i) k) /\ x' 0%nat = x 0%nat.
Proof.
  pose proof (loop_ind (fun n '(x', a) => a = roff M ng (M - n) /\ (forall i k, (M - n < i <= M)%nat -> x' i k = gget src i (x i) k) /\ (forall i, (i <= M - n)%nat -> x' i = x i)) M
   (fun ii '(x, ngg) => let i := (M - ii)%nat in
      let '(v, ngg) := loop (ng i) (fun jj '(v, ngg) => (upd (upd v (nb i + jj)%nat (src (nb2 + nbg + ngg)%nat)) (2 * nb i + ng i + jj)%nat (src (2 * nb2 + ng2 + nbg + ngg)%nat), S ngg)) (x i, ngg) in
      (upd x i v, ngg)) (x, 0%nat)) as L.
  cbv beta zeta in L. cbv zeta. destruct (loop M _ _) as [x' a]. destruct L as (L1 & L2 & L3).
  - rewrite Nat.sub_0_r, !roff_M. repeat split; try reflexivity. intros; lia.
  - intros n [x0 a0] Hn (I1 & I2 & I3). pose proof (gen_loop_R src (M - n) (x0 (M - n)%nat) a0 (ng (M - n)%nat) (le_n _)) as B.
    destruct (loop (ng (M - n)%nat) _ _) as [v a1]. destruct B as (B1 & B2). destruct (cb_pred (M - n) ltac:(lia)) as (_ & _ & C1). replace (M - S n)%nat with (M - n - 1)%nat by lia.
    rewrite C1. split; [lia|]. split.
    + intros i k Hi. unfold upd. destruct (Nat.eqb_spec i (M - n)) as [->|]; [|apply I2; lia]. rewrite B2. rewrite (gget_pos src (M - n) (x0 (M - n)%nat) a0 k I1). rewrite I3 by lia. reflexivity.
    + intros i Hi. rewrite upd_other by lia. apply I3. lia.
  - rewrite Nat.sub_diag in *. split; [exact L1|]. split; [intros i k Hi; apply L2; lia|apply L3; lia].
Qed.
Lemma exp_ineq_R src x i c : (i <= M)%nat -> (c < nct D i)%nat -> exp_ineq qp M src x i c = src (pos i c).
Proof.
  intros Hi Hc. unfold exp_ineq. pose proof (exp_bounds_R src x) as B. cbv zeta in B. destruct (loop M _ (x, 0%nat, 0%nat)) as [[x1 nbb] nbg']. destruct B as (B1 & B2 & B3 & B4). subst nbb nbg'.
  set (x2 := upd x1 0 _).
  assert (X2 : forall i k, (i <= M)%nat -> x2 i k = bget src i (x i) k).
  { intros i' k Hi'. unfold x2, upd. destruct (Nat.eqb_spec i' 0) as [->|]; [|apply B3; lia]. unfold VECCP, bget. rewrite B4. unfold vset.
    assert (P : forall j, (j < nb 0)%nat -> posl 0 j = (roff M cb 0 + j)%nat). { intros j Hj. unfold CondCon.posl. destruct (Nat.ltb_spec j (nb 0)); [|lia]. change (box 0 j) with true. cbv iota. rewrite cnt_all0. reflexivity. }
    destruct (Nat.ltb_spec k (nb 0)), (Nat.leb_spec (nb 0 + ng 0) k), (Nat.ltb_spec k (nb 0 + ng 0 + nb 0)); cbn [andb]; try lia.
    - destruct (Nat.leb_spec 0 k), (Nat.ltb_spec k (0 + nb 0)); cbn [andb]; try lia. rewrite P by lia. f_equal. lia.
    - rewrite P by lia. f_equal. lia.
    - destruct (Nat.leb_spec 0 k), (Nat.ltb_spec k (0 + nb 0)); cbn [andb]; try lia. reflexivity.
    - destruct (Nat.leb_spec 0 k), (Nat.ltb_spec k (0 + nb 0)); cbn [andb]; try lia. reflexivity. }
  clearbody x2. clear B3 B4.
  pose proof (exp_gens_R src x2) as G. cbv zeta in G. destruct (loop M _ (x2, 0%nat)) as [x3 ngg]. destruct G as (G1 & G2 & G3). subst ngg. set (x4 := upd x3 0 _).
  assert (X4 : forall i k, (i <= M)%nat -> x4 i k = gget src i (x2 i) k).
  { intros i' k Hi'. unfold x4, upd. destruct (Nat.eqb_spec i' 0) as [->|]; [|apply G2; lia]. rewrite <- (gget_pos src 0 (x2 0%nat) (roff M ng 0) k eq_refl). unfold VECCP. rewrite G3. unfold vset.
    destruct (Nat.leb_spec (nb 0) k), (Nat.ltb_spec k (nb 0 + ng 0)), (Nat.leb_spec (2 * nb 0 + ng 0) k), (Nat.ltb_spec k (2 * nb 0 + ng 0 + ng 0)); cbn [andb]; try lia; try reflexivity; f_equal; lia. }
  clearbody x4. clear G2 G3. rewrite soft_back_R by exact Hi. unfold nct in Hc. unfold CondCon.pos.
  destruct (Nat.ltb_spec c (nb i + ng i)) as [L1|L1]; [|destruct (Nat.ltb_spec c (2 * (nb i + ng i))) as [L2|L2]].
  - destruct (Nat.leb_spec (2 * nb i + 2 * ng i) c); [lia|]. destruct (Nat.leb_spec (2 * nb i + 2 * ng i + ns i) c); [lia|]. cbn [andb]. rewrite X4 by exact Hi. unfold gget. rewrite X2 by exact Hi. unfold bget.
    destruct (Nat.leb_spec (nb i) c), (Nat.ltb_spec c (nb i + ng i)); cbn [andb]; try lia; [reflexivity|]. destruct (Nat.leb_spec (2 * nb i + ng i) c); [lia|]. cbn [andb]. destruct (Nat.ltb_spec c (nb i)); [reflexivity|lia].
  - destruct (Nat.leb_spec (2 * nb i + 2 * ng i) c); [lia|]. destruct (Nat.leb_spec (2 * nb i + 2 * ng i + ns i) c); [lia|]. cbn [andb]. rewrite X4 by exact Hi. unfold gget. rewrite X2 by exact Hi. unfold bget.
    destruct (Nat.leb_spec (nb i) c), (Nat.ltb_spec c (nb i + ng i)); cbn [andb]; try lia. destruct (Nat.leb_spec (2 * nb i + ng i) c), (Nat.ltb_spec c (2 * nb i + ng i + ng i)); cbn [andb]; try lia; [reflexivity|].
    destruct (Nat.ltb_spec c (nb i)); [lia|]. destruct (Nat.leb_spec (nb i + ng i) c), (Nat.ltb_spec c (nb i + ng i + nb i)); cbn [andb]; try lia. reflexivity.
  - destruct (Nat.leb_spec (2 * nb i + 2 * ng i) c); [|lia]. destruct (Nat.ltb_spec c (2 * nb i + 2 * ng i + ns i)); cbn [andb].
    + destruct (Nat.ltb_spec c (2 * (nb i + ng i) + ns i)); [|lia]. f_equal. lia.
    + destruct (Nat.leb_spec (2 * nb i + 2 * ng i + ns i) c), (Nat.ltb_spec c (2 * nb i + 2 * ng i + ns i + ns i)); cbn [andb]; try lia. destruct (Nat.ltb_spec c (2 * (nb i + ng i) + ns i)); [lia|]. f_equal. lia.
Qed.
End Exp.
