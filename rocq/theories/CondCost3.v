(** CondCost3.v -- COND_RSQRQ, cond_alg 1 (N^3 nx^2): every stage adds its cost to the condensed Hessian and gradient. *)
From Coq Require Import ZArith Bool Arith Lia Reals Lra.
From Verif Require Import Base ArithF RSum Blas Blas2 OcpModel ResSpec ResProofs CholProofs KktModel KktProofs KktProofs2 DenModel DenSpec CondModel CondSpec CondProofs CondCost CondCost2.
Local Open Scope R_scope.

Section Alg1.
Variables (qp : oqp R) (M : nat) (Gm : nat -> rmat) (Gb : nat -> rvec) (diag : nat -> bool).
Notation D := (q_dim qp).
Notation nu := (dnu D).
Notation nx := (dnx D).
Notation uo := (uoff qp M).
Notation nux := (nux qp).
Notation nh := (n_hard qp M).
(** the states of a stage flagged diagonal have no off-diagonal cost *)
Definition diag_ok : Prop := forall n r c, (1 <= n <= M)%nat -> diag n = true -> (nu n <= r < nux n)%nat -> (c < r)%nat -> q_RSQ qp n r c = 0.
Hypothesis Hdiag : diag_ok.
Hypothesis HG : forall i, (i < M)%nat -> GIV qp M Gm Gb i.

Lemma Qo_ext A B o n v : (forall r c, (c <= r)%nat -> (o <= c)%nat -> (r < o + n)%nat -> A r c = B r c) -> Qo A o n v = Qo B o n v.
Proof.
  intros H. unfold Qo. apply rsum_ext. intros i Hi. apply rsum_ext. intros j Hj. f_equal. f_equal. unfold symL. destruct (Nat.leb_spec (o + j) (o + i)); apply H; lia.
Qed.
Lemma PhiH_add H H1 Dl v : (forall r c, (c <= r <= nh)%nat -> (c < nh)%nat -> H1 r c = H r c + Dl r c) -> PhiH qp M H1 v = PhiH qp M H v + PhiH qp M Dl v.
Proof.
  intros E. unfold PhiH. rewrite (Qo_ext H1 (fun r c => H r c + Dl r c)) by (intros; apply E; lia).
  rewrite (rsum_ext nh (fun k => H1 nh k * v k) (fun k => H nh k * v k + Dl nh k * v k)) by (intros; rewrite E by lia; lra). rewrite rsum_add.
  replace (Qo (fun r c => H r c + Dl r c) 0 nh v) with (Qo H 0 nh v + Qo Dl 0 nh v); [lra|].
  unfold Qo. rewrite <- rsum_add. apply rsum_ext. intros i _. rewrite <- rsum_add. apply rsum_ext. intros j _. unfold symL. destruct (Nat.leb _ _); lra.
Qed.
Lemma PhiH_from Dl o v : (o <= nh)%nat -> (forall r c, (c < o)%nat -> Dl r c = 0) -> PhiH qp M Dl v = 1 / 2 * Qo Dl o (nh - o) v + rsum (nh - o) (fun c => Dl nh (o + c)%nat * v (o + c)%nat).
Proof.
  intros Ho HZ. unfold PhiH. replace (Qo Dl 0 nh v) with (Qo Dl 0 (o + (nh - o)) v) by (f_equal; lia). rewrite Qo_split. cbn [Nat.add].
  replace (rsum nh (fun k => Dl nh k * v k)) with (rsum (o + (nh - o)) (fun k => Dl nh k * v k)) by (f_equal; lia). rewrite rsum_split.
  rewrite (rsum_0 o (fun k => Dl nh k * v k)). 2:{ intros k Hk. rewrite HZ by lia. lra. }
  rewrite (rsum_0 o (fun c => v c * _)). 2:{ intros c Hc. rewrite rsum_0; [lra|]. intros r Hr. rewrite HZ by lia. lra. }
  replace (Qo Dl 0 o v) with 0. 2:{ symmetry. unfold Qo. apply rsum_0. intros i Hi. apply rsum_0. intros j Hj. unfold symL. cbn [Nat.add]. destruct (Nat.leb _ _); rewrite HZ by lia; lra. }
  lra.
Qed.

(** stage data as one matrix: Hessian rows, then the gradient *)
Definition Lst (n : nat) : rmat := fun r c => if (r <? nux n)%nat then q_RSQ qp n r c else q_rqz qp n c.
Lemma hardc_qs n v : hardc qp (traj qp M v) n = qs qp M (Lst n) n v.
Proof.
  unfold hardc, qs. f_equal; [f_equal|].
  - apply Qo_ext. intros r c H1 H2 H3. unfold Lst. destruct (Nat.ltb_spec r (nux n)); [reflexivity|lia].
  - apply rsum_ext. intros k Hk. unfold Lst. rewrite Nat.ltb_irrefl. reflexivity.
Qed.

(** the increment of stage n: o = uo (n-1), b = nsum n nu + nx 0 *)
Definition incr (n : nat) : rmat := fun r c =>
  let o := (uo n + nu n)%nat in
  if (o <=? c)%nat then rsum (nx n) (fun l => (rsum (nx n) (fun m => Gm (n - 1)%nat (r - o)%nat m * Pm qp (Lst n) n m l) + (if (r =? nh)%nat then pv qp (Lst n) n l else 0)) * Gm (n - 1)%nat (c - o)%nat l)
  else if (uo n <=? c)%nat then
    if (r <? o)%nat then Lst n (r - uo n)%nat (c - uo n)%nat
    else rsum (nx n) (fun l => Gm (n - 1)%nat (r - o)%nat l * Lst n (nu n + l)%nat (c - uo n)%nat) + (if (r =? nh)%nat then Lst n (nux n) (c - uo n)%nat else 0)
  else 0.
Lemma incr_cost n v : (1 <= n <= M)%nat -> PhiH qp M (incr n) v = hardc qp (traj qp M v) n - Vf qp (Lst n) n (fun l => Gm (n - 1)%nat (nsum n nu + nx 0)%nat l).
Proof.
  intros Hn. pose proof (nh_uo qp M n Hn) as Enh. set (b := (nsum n nu + nx 0)%nat) in *. set (o := (uo n + nu n)%nat) in *.
  set (G := Gm (n - 1)%nat). set (gam := fun l => G b l). set (y := fun l => rsum b (fun r => G r l * v (o + r)%nat)).
  assert (Eu : uo (n - 1) = o). { unfold o. rewrite (uoff_S qp M (n - 1)) by lia. replace (S (n - 1)) with n by lia. reflexivity. }
  assert (Ex : forall l, (l < nx n)%nat -> st qp M v n l = y l + gam l).
  { intros l Hl. replace (st qp M v n l) with (st qp M v (S (n - 1)) l) by (do 2 f_equal; lia).
    destruct (HG (n - 1) ltac:(lia) l) as (HG1 & _); [replace (S (n - 1)) with n by lia; exact Hl|]. rewrite HG1. unfold nuf. replace (S (n - 1)) with n by lia. rewrite Eu. reflexivity. }
  rewrite hardc_qs, qs_split.
  assert (EV : Vf qp (Lst n) n (st qp M v n) = Vf qp (Lst n) n (fun l => y l + gam l)).
  { unfold Vf. f_equal; [f_equal|].
    - apply rsum_ext. intros l Hl. apply rsum_ext. intros m Hm. rewrite !Ex by assumption. reflexivity.
    - apply rsum_ext. intros l Hl. rewrite Ex by assumption. reflexivity. }
  rewrite EV. unfold Vf at 1. rewrite (quad_aff (nx n) (Pm qp (Lst n) n) y gam (pv qp (Lst n) n) (Pm_sym qp (Lst n) n)). fold (Vf qp (Lst n) n gam).
  rewrite (PhiH_from (incr n) (uo n) v ltac:(lia)).
  2:{ intros r c Hc. unfold incr. destruct (Nat.leb_spec (uo n + nu n) c); [lia|]. destruct (Nat.leb_spec (uo n) c); [lia|reflexivity]. }
  replace (nh - uo n)%nat with (nu n + b)%nat by lia. rewrite Qo_split, rsum_split. fold o.
  (* u-u block *)
  replace (Qo (incr n) (uo n) (nu n) v) with (Qo (Lst n) 0 (nu n) (traj qp M v n)).
  2:{ unfold Qo. apply rsum_ext. intros i Hi. apply rsum_ext. intros j Hj. cbn [Nat.add]. rewrite !traj_u by assumption. f_equal. f_equal. unfold symL.
      assert (X : forall a c, (c <= a < nu n)%nat -> incr n (uo n + a)%nat (uo n + c)%nat = Lst n a c).
      { intros a c H. unfold incr. fold o. destruct (Nat.leb_spec o (uo n + c)); [lia|]. destruct (Nat.leb_spec (uo n) (uo n + c)); [|lia]. destruct (Nat.ltb_spec (uo n + a) o); [|lia]. f_equal; lia. }
      destruct (Nat.leb_spec j i), (Nat.leb_spec (uo n + j) (uo n + i)); try lia; rewrite X by lia; reflexivity. }
  (* x-x block *)
  assert (Xo : forall r c, (c < b)%nat -> incr n (o + r)%nat (o + c)%nat = rsum (nx n) (fun l => (rsum (nx n) (fun m => G r m * Pm qp (Lst n) n m l) + (if (o + r =? nh)%nat then pv qp (Lst n) n l else 0)) * G c l)).
  { intros r c Hc. unfold incr. fold o. fold G. destruct (Nat.leb_spec o (o + c)); [|lia]. replace (o + r - o)%nat with r by lia. replace (o + c - o)%nat with c by lia. reflexivity. }
  replace (Qo (incr n) o b v) with (rsum (nx n) (fun l => rsum (nx n) (fun m => y l * Pm qp (Lst n) n l m * y m))).
  2:{ unfold Qo. rewrite (rsum_ext (nx n) _ (fun l => rsum b (fun i => rsum b (fun j => rsum (nx n) (fun m => v (o + i)%nat * (G i l * Pm qp (Lst n) n l m * G j m) * v (o + j)%nat))))).
      2:{ intros l _. rewrite (rsum_ext (nx n) _ (fun m => rsum b (fun i => rsum b (fun j => v (o + i)%nat * (G i l * Pm qp (Lst n) n l m * G j m) * v (o + j)%nat)))).
          2:{ intros m _. unfold y. rewrite Rmult_assoc, <- rsum_scal_r. apply rsum_ext. intros i _. rewrite <- rsum_scal, <- rsum_scal. apply rsum_ext. intros j _. lra. }
          rewrite rsum_swap. apply rsum_ext. intros i _. apply rsum_swap. }
      rewrite (rsum_swap (nx n) b). apply rsum_ext. intros i Hi. rewrite (rsum_swap (nx n) b). apply rsum_ext. intros j Hj.
      assert (E : symL (incr n) (o + i)%nat (o + j)%nat = rsum (nx n) (fun l => rsum (nx n) (fun m => G i l * Pm qp (Lst n) n l m * G j m))).
      { unfold symL. destruct (Nat.leb_spec (o + j) (o + i)).
        - rewrite Xo by lia. rewrite rsum_swap. apply rsum_ext. intros l _. destruct (Nat.eqb_spec (o + i) nh); [lia|]. rewrite Rplus_0_r, <- rsum_scal_r. apply rsum_ext. intros; lra.
        - rewrite Xo by lia. apply rsum_ext. intros l _. destruct (Nat.eqb_spec (o + j) nh); [lia|]. rewrite Rplus_0_r, <- rsum_scal_r. apply rsum_ext. intros m _. rewrite (Pm_sym qp (Lst n) n m l). lra. }
      rewrite E. rewrite <- rsum_scal, <- rsum_scal_r. apply rsum_ext. intros l _. rewrite <- rsum_scal, <- rsum_scal_r. reflexivity. }
  (* gradient of the x part *)
  rewrite (rsum_ext b (fun k => incr n nh (uo n + (nu n + k))%nat * _) (fun c => rsum (nx n) (fun l => G c l * v (o + c)%nat * (rsum (nx n) (fun m => Pm qp (Lst n) n l m * gam m) + pv qp (Lst n) n l)))).
  2:{ intros c Hc. replace (uo n + (nu n + c))%nat with (o + c)%nat by lia. rewrite Enh at 1. rewrite Xo by lia. rewrite <- rsum_scal_r. apply rsum_ext. intros l _.
      destruct (Nat.eqb_spec (o + b) nh); [|lia]. rewrite (rsum_ext (nx n) (fun m => Pm qp (Lst n) n l m * gam m) (fun m => G b m * Pm qp (Lst n) n m l)); [lra|].
      intros m _. unfold gam. rewrite (Pm_sym qp (Lst n) n l m). lra. }
  rewrite (rsum_swap b (nx n)).
  rewrite (rsum_ext (nx n) (fun j => rsum b _) (fun l => y l * (rsum (nx n) (fun m => Pm qp (Lst n) n l m * gam m) + pv qp (Lst n) n l))) by (intros; apply rsum_scal_r).
  (* mixed part and gradient of the inputs *)
  unfold lin.
  assert (X : forall c, (c < nu n)%nat -> v (uo n + c)%nat * rsum b (fun r => incr n (o + r)%nat (uo n + c)%nat * v (o + r)%nat) + incr n nh (uo n + c)%nat * v (uo n + c)%nat =
     v (uo n + c)%nat * (rsum (nx n) (fun l => Lst n (nu n + l)%nat c * st qp M v n l) + Lst n (nux n) c)).
  { intros c Hc.
    assert (Xi : forall r, (r <= b)%nat -> incr n (o + r)%nat (uo n + c)%nat = rsum (nx n) (fun l => G r l * Lst n (nu n + l)%nat c) + (if (o + r =? nh)%nat then Lst n (nux n) c else 0)).
    { intros r Hr. unfold incr. fold o. fold G. destruct (Nat.leb_spec o (uo n + c)); [lia|]. destruct (Nat.leb_spec (uo n) (uo n + c)); [|lia]. destruct (Nat.ltb_spec (o + r) o); [lia|].
      replace (o + r - o)%nat with r by lia. replace (uo n + c - uo n)%nat with c by lia. reflexivity. }
    rewrite Enh at 1. rewrite Xi by lia. destruct (Nat.eqb_spec (o + b) nh); [|lia].
    rewrite (rsum_ext b _ (fun r => rsum (nx n) (fun l => Lst n (nu n + l)%nat c * (G r l * v (o + r)%nat)))).
    2:{ intros r Hr. rewrite Xi by lia. destruct (Nat.eqb_spec (o + r) nh); [lia|]. rewrite Rplus_0_r, <- rsum_scal_r. apply rsum_ext. intros; lra. }
    rewrite rsum_swap.
    rewrite (rsum_ext (nx n) (fun l => Lst n (nu n + l)%nat c * st qp M v n l) (fun l => rsum b (fun r => Lst n (nu n + l)%nat c * (G r l * v (o + r)%nat)) + G b l * Lst n (nu n + l)%nat c)).
    2:{ intros l Hl. rewrite rsum_scal, Ex by assumption. unfold y, gam. lra. }
    rewrite rsum_add. lra. }
  rewrite <- (rsum_ext (nu n) _ _ X). rewrite rsum_add. fold gam. unfold gam. lra.
Qed.

(** ** one stage of the code *)
Definition lowRSQ (s : rst1 (F := R)) : Prop := forall i r c, (c <= r < nux i)%nat -> r1_RSQ s i r c = q_RSQ qp i r c.
Lemma rsq1_stage_R n s : (1 <= n <= M)%nat -> r1_nuf s = nsum n nu -> r1_nub s = (uo n + nu n)%nat -> lowRSQ s ->
  let s' := rsq1_stage diag qp Gm (nu2_of qp M) n s in
  (forall r c, (c <= r <= nh)%nat -> (c < nh)%nat -> r1_H s' r c = r1_H s r c + incr n r c) /\ r1_nuf s' = nsum (S n) nu /\ r1_nub s' = uo n /\ lowRSQ s' /\
  (n = M -> nu M = 0%nat -> forall k, (k < nh)%nat -> r1_g s' k = r1_H s' nh k).
Proof.
  intros Hn Hf Hb HL s'. pose proof (nh_uo qp M n Hn) as Enh. set (b := (nsum n nu + nx 0)%nat) in *. set (o := (uo n + nu n)%nat) in *.
  unfold s', rsq1_stage. rewrite Hf, Hb. fold o. destruct (Nat.eqb_spec n 0); [lia|]. replace (o - nu n)%nat with (uo n) by lia. rewrite <- n_hard_eq. fold b. change (uo n + nu n)%nat with o.
  set (G := Gm (n - 1)%nat).
  set (trip := if diag n then _ else _).
  assert (T : exists RSQ tmp GQ0, trip = (RSQ, tmp, GQ0) /\ (forall i r c, (c <= r < nux i)%nat -> RSQ i r c = q_RSQ qp i r c) /\
     (forall r l, (r <= b)%nat -> (l < nx n)%nat -> GQ0 r l = rsum (nx n) (fun m => G r m * Pm qp (Lst n) n m l))).
  { unfold trip. destruct (diag n) eqn:Ed.
    - eexists _, _, _. split; [reflexivity|]. split; [exact HL|]. intros r l Hr Hl. unfold GEMM_ND. rewrite mblk_i by lia. unfold DIAEX. rewrite !Nat.sub_0_r. cbn [Nat.add]. rewrite vset_in' by lia. rsimp. rewrite R_lit01, R_lit11, Nat.sub_0_r.
      rewrite HL by (unfold ResSpec.nux; lia).
      rewrite (rsum_ext (nx n) _ (fun m => if (m =? l)%nat then G r m * Pm qp (Lst n) n m l else 0)).
      + rewrite rsum_one by assumption. unfold Pm, symL, Lst. rewrite Nat.leb_refl. destruct (Nat.ltb_spec (nu n + l) (nux n)); [|unfold ResSpec.nux in *; lia]. fold G. lra.
      + intros m Hm. destruct (Nat.eqb_spec m l); [reflexivity|]. unfold Pm, symL, Lst. unfold ResSpec.nux.
        destruct (Nat.leb_spec (nu n + l) (nu n + m)); [destruct (Nat.ltb_spec (nu n + m) (nu n + nx n)); [|lia]|destruct (Nat.ltb_spec (nu n + l) (nu n + nx n)); [|lia]];
        (rewrite (Hdiag n) by (try assumption; unfold ResSpec.nux; lia)); lra.
    - eexists _, _, _. split; [reflexivity|].
      assert (ER : forall r c, (r < nux n)%nat -> (c < nux n)%nat -> TRTR_L (nu n + nx n) (r1_RSQ s n) 0 0 (r1_RSQ s n) 0 0 r c = symL (q_RSQ qp n) r c).
      { intros r c Hr Hc. unfold TRTR_L. rewrite mupd_at. cbn [Nat.add]. rewrite !Nat.sub_0_r. fold (nux n). destruct (Nat.ltb_spec r (nux n)); [|lia]. destruct (Nat.ltb_spec c (nux n)); [|lia]. cbn [Nat.leb andb].
        unfold symL. destruct (Nat.leb_spec r c); destruct (Nat.leb_spec c r); try lia; try (apply HL; lia). replace c with r by lia. apply HL; lia. }
      split.
      + intros i r c H. unfold upd. destruct (Nat.eqb_spec i n) as [->|]; [|apply HL; exact H]. rewrite ER by lia. unfold symL. destruct (Nat.leb_spec c r); [reflexivity|lia].
      + intros r l Hr Hl. unfold GEMM_NN. rewrite mblk_i by lia. rewrite fsum_R. rsimp. rewrite R_lit01, R_lit11, !Nat.sub_0_r. cbn [Nat.add]. rewrite Rmult_0_l, Rplus_0_l, Rmult_1_l. apply rsum_ext. intros m Hm.
        rewrite ER by (unfold ResSpec.nux; lia). fold G. f_equal. unfold Pm, symL, Lst, ResSpec.nux.
        destruct (Nat.leb_spec (nu n + l) (nu n + m)); [destruct (Nat.ltb_spec (nu n + m) (nu n + nx n)); [reflexivity|lia]|destruct (Nat.ltb_spec (nu n + l) (nu n + nx n)); [reflexivity|lia]]. }
  destruct T as (RSQ & tmp & GQ0 & -> & TR & TG). cbn [r1_H r1_nuf r1_nub r1_RSQ r1_g].
  set (GQ := ROWAD _ _ _ _ GQ0 _ _). set (H1 := SYRK_LN_MN _ _ _ _ _ _ _ _ _ _ _ _ _ _ _ _ _). set (H2 := GEAD _ _ _ _ _ _ H1 _ _). set (H3 := if diag n then H2 else _). set (H4 := ROWAD _ _ _ _ H3 _ _).
  assert (EGQ : forall r l, (r <= b)%nat -> (l < nx n)%nat -> GQ r l = rsum (nx n) (fun m => G r m * Pm qp (Lst n) n m l) + (if (o + r =? nh)%nat then pv qp (Lst n) n l else 0)).
  { intros r l Hr Hl. unfold GQ, ROWAD. destruct (Nat.eqb_spec (o + r) nh).
    - assert (r = b) by lia. subst r. rewrite mblk_i by lia. rewrite Nat.sub_0_r. cbn [Nat.add]. rewrite TG by lia. rsimp. rewrite R_lit11. unfold pv, Lst. rewrite Nat.ltb_irrefl. lra.
    - rewrite mblk_o by lia. rewrite TG by lia. lra. }
  assert (E1 : forall r c, (c <= r)%nat -> (o <= c)%nat -> (r <= nh)%nat -> (c < nh)%nat -> H1 r c = r1_H s r c + incr n r c).
  { intros r c H01 H02 H03 H04. unfold H1, SYRK_LN_MN. rewrite mupd_i by (try lia; unfold low; apply Nat.leb_le; lia). rewrite fsum_R. rsimp. rewrite R_lit11. cbn [Nat.add].
    replace (o + (r - o))%nat with r by lia. replace (o + (c - o))%nat with c by lia. rewrite !Rmult_1_l. f_equal. unfold incr. fold o. fold G. destruct (Nat.leb_spec o c); [|lia].
    apply rsum_ext. intros l Hl. rewrite EGQ by lia. replace (o + (r - o))%nat with r by lia. reflexivity. }
  assert (E1o : forall r c, (c < o)%nat -> H1 r c = r1_H s r c). { intros r c Hc. unfold H1, SYRK_LN_MN. apply mupd_out. lia. }
  assert (E3 : forall r c, (uo n <= c < o)%nat -> (o <= r <= nh)%nat -> H3 r c = r1_H s r c + rsum (nx n) (fun l => G (r - o)%nat l * Lst n (nu n + l)%nat (c - uo n)%nat)).
  { intros r c Hc Hr. assert (E2 : H2 r c = r1_H s r c). { unfold H2, GEAD. rewrite mblk_o by lia. apply E1o. lia. }
    unfold H3. destruct (diag n) eqn:Ed.
    - rewrite E2, rsum_0; [lra|]. intros l Hl. unfold Lst. destruct (Nat.ltb_spec (nu n + l) (nux n)); [|unfold ResSpec.nux in *; lia]. rewrite (Hdiag n) by (try assumption; unfold ResSpec.nux in *; lia). lra.
    - unfold GEMM_NN. rewrite mblk_i by lia. rewrite fsum_R. rsimp. rewrite R_lit11. cbn [Nat.add]. rewrite !Rmult_1_l. replace (o + (r - o))%nat with r by lia. replace (uo n + (c - uo n))%nat with c by lia. rewrite E2. f_equal.
      apply rsum_ext. intros l Hl. fold G. f_equal. unfold Lst. destruct (Nat.ltb_spec (nu n + l) (nux n)); [|unfold ResSpec.nux in *; lia]. apply TR. unfold ResSpec.nux in *; lia. }
  assert (E3o : forall r c, (c < uo n \/ o <= c \/ r < o)%nat -> H3 r c = H2 r c). { intros r c H. unfold H3. destruct (diag n); [reflexivity|]. unfold GEMM_NN. apply mblk_o. lia. }
  assert (EH : forall r c, (c <= r <= nh)%nat -> (c < nh)%nat -> H4 r c = r1_H s r c + incr n r c).
  { intros r c H01 H02. destruct (Nat.lt_ge_cases c (uo n)) as [C1|C1]; [|destruct (Nat.lt_ge_cases c o) as [C2|C2]].
    - unfold H4, ROWAD. rewrite mblk_o by lia. rewrite E3o by lia. unfold H2, GEAD. rewrite mblk_o by lia. rewrite E1o by lia. unfold incr. fold o. destruct (Nat.leb_spec o c); [lia|]. destruct (Nat.leb_spec (uo n) c); [lia|]. lra.
    - unfold incr. fold o. fold G. destruct (Nat.leb_spec o c); [lia|]. destruct (Nat.leb_spec (uo n) c); [|lia]. destruct (Nat.ltb_spec r o).
      + unfold H4, ROWAD. rewrite mblk_o by lia. rewrite E3o by lia. unfold H2, GEAD. rewrite mblk_i by lia. cbn [Nat.add]. replace (uo n + (r - uo n))%nat with r by lia. replace (uo n + (c - uo n))%nat with c by lia. rewrite E1o by lia. rsimp. rewrite R_lit11, Rmult_1_l. f_equal.
        unfold Lst, ResSpec.nux. destruct (Nat.ltb_spec (r - uo n) (nu n + nx n)); [|lia]. apply TR. unfold ResSpec.nux. lia.
      + unfold H4, ROWAD. destruct (Nat.eqb_spec r nh) as [->|Hr].
        * rewrite mblk_i by lia. replace (uo n + (c - uo n))%nat with c by lia. rewrite E3 by lia. rsimp. rewrite R_lit11. replace (Lst n (nux n) (c - uo n)%nat) with (q_rqz qp n (c - uo n)%nat) by (unfold Lst; rewrite Nat.ltb_irrefl; reflexivity). cbn [Nat.add]. lra.
        * rewrite mblk_o by lia. rewrite E3 by lia. lra.
    - unfold H4, ROWAD. rewrite mblk_o by lia. rewrite E3o by lia. unfold H2, GEAD. rewrite mblk_o by lia. apply E1; lia. }
  split; [exact EH|]. split; [cbn [nsum]; lia|]. split; [reflexivity|]. split; [exact TR|].
  intros HnM HuM k Hk. unfold ROWEX. assert (o = 0%nat) by (unfold o; rewrite HnM, uoff_M; lia).
  rewrite vset_in' by lia. rsimp. rewrite R_lit11, Nat.sub_0_r. replace (o + k)%nat with k by lia. lra.
Qed.
Lemma rsq1_stage0_R s : (1 <= M)%nat -> r1_nuf s = 0%nat -> r1_nub s = nu2_of qp M -> lowRSQ s -> (forall r c, (r <= nh)%nat -> (c < nh)%nat -> r1_H s r c = 0) ->
  let s' := rsq1_stage diag qp Gm (nu2_of qp M) 0 s in
  (forall v, PhiH qp M (r1_H s') v = hardc qp (traj qp M v) 0) /\ r1_nuf s' = nsum 1 nu /\ r1_nub s' = uo 0 /\ lowRSQ s'.
Proof.
  intros HM Hf Hb HL HZ s'. unfold s', rsq1_stage. rewrite Hf, Hb. cbn [Nat.eqb]. cbn [r1_H r1_nuf r1_nub r1_RSQ r1_g].
  assert (Eu : (nu2_of qp M - nu 0 = uo 0)%nat). { unfold nu2_of. rewrite Nat.add_1_r, <- (uoff_sum qp M 0) by lia. cbn [nsum]. lia. }
  rewrite Eu. rewrite <- n_hard_eq. change (nu 0 + nx 0)%nat with (nux 0). assert (Enh : nh = (uo 0 + nux 0)%nat) by (unfold n_hard, ResSpec.nux; lia).
  split; [|split; [reflexivity|split; [reflexivity|exact HL]]].
  intros v. rewrite hardc_qs. rewrite <- (Tn_0 qp M (ROWAD (nux 0) f1 (q_rqz qp 0%nat) 0 (TRCP_L (nux 0) (r1_RSQ s 0%nat) 0 0 (r1_H s) (uo 0) (uo 0)) nh (uo 0)) (Lst 0) v).
  - unfold Tn. set (H' := ROWAD _ _ _ _ _ _ _).
    assert (HZ' : forall r c, (r <= nh)%nat -> (c < uo 0)%nat -> H' r c = 0). { intros r c Hr Hc. unfold H', ROWAD. rewrite mblk_o by lia. unfold TRCP_L. rewrite mupd_out by lia. apply HZ; lia. }
    unfold PhiH. replace (Qo H' 0 nh v) with (Qo H' 0 (uo 0 + (nh - uo 0)) v) by (f_equal; lia). rewrite Qo_split. cbn [Nat.add].
    replace (rsum nh (fun k => H' nh k * v k)) with (rsum (uo 0 + (nh - uo 0)) (fun k => H' nh k * v k)) by (f_equal; lia). rewrite rsum_split.
    rewrite (rsum_0 (uo 0) (fun k => H' nh k * v k)). 2:{ intros k Hk. rewrite HZ' by lia. lra. }
    rewrite (rsum_0 (uo 0) (fun c => v c * _)). 2:{ intros c Hc. rewrite rsum_0; [lra|]. intros r Hr. rewrite HZ' by lia. lra. }
    replace (Qo H' 0 (uo 0) v) with 0. 2:{ symmetry. unfold Qo. apply rsum_0. intros i Hi. apply rsum_0. intros j Hj. unfold symL. cbn [Nat.add]. destruct (Nat.leb _ _); rewrite HZ' by lia; lra. }
    lra.
  - split.
    + intros r c H. unfold ROWAD. rewrite mblk_o by lia. unfold TRCP_L. rewrite mupd_i by (try lia; unfold low; apply Nat.leb_le; lia). cbn [Nat.add].
      replace (uo 0 + r - uo 0)%nat with r by lia. replace (uo 0 + c - uo 0)%nat with c by lia. unfold Lst. destruct (Nat.ltb_spec r (nux 0)); [|lia]. apply HL; lia.
    + intros c H. unfold ROWAD. rewrite mblk_i by lia. replace (uo 0 + (uo 0 + c - uo 0))%nat with (uo 0 + c)%nat by lia. rsimp. rewrite R_lit11. unfold TRCP_L. rewrite mupd_out by lia. rewrite HZ by lia.
      unfold Lst. rewrite Nat.ltb_irrefl. replace (uo 0 + c - uo 0)%nat with c by lia. cbn [Nat.add]. lra.
Qed.
Lemma rsq_alg1_R s : (1 <= M)%nat -> lowRSQ s -> let s' := rsq_alg1 diag qp Gm M (nu2_of qp M) s in
  (exists K, forall v, PhiH qp M (r1_H s') v = rsum (S M) (hardc qp (traj qp M v)) + K) /\ lowRSQ s' /\ (nu M = 0%nat -> forall k, (k < nh)%nat -> r1_g s' k = r1_H s' nh k).
Proof.
  intros HM HL s'. unfold s', rsq_alg1. rewrite <- n_hard_eq. set (s0 := mkrst1 _ _ _ _ _ _ _).
  replace (M + 1)%nat with (S (M - 1 + 1)) by lia. 
  assert (X : forall k, (k <= M)%nat -> let s1 := loop (S k) (rsq1_stage diag qp Gm (nu2_of qp M)) s0 in
     (exists K, forall v, PhiH qp M (r1_H s1) v = rsum (S k) (hardc qp (traj qp M v)) + K) /\ lowRSQ s1 /\ r1_nuf s1 = nsum (S k) nu /\ r1_nub s1 = uo k /\
     (k = M -> nu M = 0%nat -> forall j, (j < nh)%nat -> r1_g s1 j = r1_H s1 nh j)).
  { induction k as [|k IH]; intros Hk; cbv zeta.
    - rewrite loop_S. cbn [loop]. pose proof (rsq1_stage0_R s0 HM eq_refl eq_refl HL) as S0. cbv zeta in S0. destruct S0 as (S1 & S2 & S3 & S4).
      + intros r c Hr Hc. cbn [s0 r1_H]. unfold GESE. rewrite mblk_i by lia. apply R_lit01.
      + split; [exists 0; intros v; rewrite S1; cbn [rsum]; lra|]. split; [exact S4|]. split; [exact S2|]. split; [exact S3|lia].
    - specialize (IH ltac:(lia)). cbv zeta in IH. rewrite loop_S. set (s1 := loop (S k) _ s0) in *. clearbody s1. destruct IH as ((K & IK) & IL & If & Ib & _).
      pose proof (rsq1_stage_R (S k) s1 ltac:(lia) If) as S1. cbv zeta in S1. rewrite (uoff_S qp M k) in Ib by lia. specialize (S1 Ib IL). destruct S1 as (S1 & S2 & S3 & S4 & S5).
      set (s2 := rsq1_stage _ _ _ _ _ _) in *. clearbody s2. split.
      + eexists. intros v. rewrite (PhiH_add _ _ _ v S1), IK, (incr_cost (S k) v) by lia. cbn [rsum]. set (V := Vf _ _ _ _). instantiate (1 := K - Vf qp (Lst (S k)) (S k) (fun l => Gm (S k - 1)%nat (nsum (S k) nu + nx 0)%nat l)). unfold V. lra.
      + split; [exact S4|]. split; [exact S2|]. split; [exact S3|]. exact S5. }
  replace (M - 1 + 1)%nat with M by lia. specialize (X M (le_n _)). cbv zeta in X. destruct X as (X1 & X2 & _ & _ & X5). split; [exact X1|]. split; [exact X2|]. apply X5. reflexivity.
Qed.
End Alg1.
