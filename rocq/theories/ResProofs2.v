(** ResProofs2.v -- whole-horizon residuals, duality and optimality. *)
From Coq Require Import ZArith Bool Arith List Lia Reals Lra.
From Verif Require Import Base ArithF RSum Blas OcpModel ResSpec ResProofs.
Local Open Scope R_scope.

(** mask_count *)
Definition is1 (x : R) : nat := if Reqb x 1 then 1%nat else 0%nat.
Lemma mask_stage (mask : nat -> nat -> R) i n s : loop n (fun jj '(n0, c) => if (mask i jj =? f1)%F then (S n0, c) else (n0, true)) s =
  ((fst s + nsum n (fun c => is1 (mask i c)))%nat, orb (snd s) (negb (forallb (fun c => Nat.eqb (is1 (mask i c)) 1) (seq 0 n)))).
Proof.
  induction n as [|n IH].
  - cbn. rewrite Nat.add_0_r, orb_false_r. destruct s; reflexivity.
  - rewrite loop_S, IH. rewrite seq_S, List.forallb_app. cbn [nsum List.forallb Nat.add]. rsimp. rewrite R_lit11.
    assert (Ei : is1 (mask i n) = if Reqb (mask i n) 1 then 1%nat else 0%nat) by reflexivity. rewrite Ei. clear Ei.
    destruct (Reqb (mask i n) 1); cbn [Nat.eqb andb negb fst snd].
    + f_equal; [lia|]. rewrite andb_true_r. reflexivity.
    + f_equal; [lia|]. rewrite andb_false_r. cbn. rewrite orb_true_r. reflexivity.
Qed.
Lemma mask_count_R D (mask : nat -> nat -> R) :
  fst (mask_count D mask) = nsum (dN D + 1) (fun i => nsum (nct D i) (fun c => is1 (mask i c))) /\
  (snd (mask_count D mask) = false -> masks_one D mask).
Proof.
  unfold mask_count, masks_one. replace (dN D + 1)%nat with (S (dN D)) by lia.
  enough (H : forall n, let r := loop n (fun ii s => loop (nct D ii) (fun jj '(n, c) => if (mask ii jj =? f1)%F then (S n, c) else (n, true)) s) (0%nat, false) in
    fst r = nsum n (fun i => nsum (nct D i) (fun c => is1 (mask i c))) /\ (snd r = false -> forall i c, (i < n)%nat -> (c < nct D i)%nat -> mask i c = 1)).
  { destruct (H (S (dN D))) as [H1 H2]. split; [exact H1|]. intros Hf i c Hi Hc. apply H2; [exact Hf|lia|exact Hc]. }
  induction n as [|n IH]; cbn zeta.
  - cbn. split; [reflexivity|]. intros; lia.
  - rewrite loop_S. cbn zeta in IH. destruct (loop n _ _) as [a b]. cbn [fst snd] in IH. destruct IH as [I1 I2].
    rewrite (mask_stage mask n (nct D n) (a, b)). cbn [fst snd nsum]. split; [lia|].
    intros Hf. apply orb_false_iff in Hf as [Hb Hf]. intros i c Hi Hc. destruct (Nat.eq_dec i n) as [->|]; [|apply I2; auto; lia].
    apply negb_false_iff in Hf. rewrite List.forallb_forall in Hf. specialize (Hf c). rewrite List.in_seq in Hf. specialize (Hf ltac:(lia)).
    unfold is1 in Hf. destruct (Reqb_spec (mask n c) 1); [assumption|discriminate].
Qed.


Section Whole.
Variables (qp : oqp R) (sol : osol R).
Let D := q_dim qp.
Hypothesis Hwf : qp_wf qp.
Notation z := (s_ux sol). Notation pi := (s_pi sol). Notation lam := (s_lam sol). Notation t := (s_t sol).

Lemma res_loop_R mc res0 ws0 : (mc = true \/ masks_one D (q_mask qp)) -> forall n, (n <= dN D + 1)%nat ->
  let r := fst (loop n (res_stage mc qp sol) (res0, ws0)) in
  (forall i k, (i < n)%nat -> (k < nvt D i)%nat -> r_g r i k = kkt_g qp z pi lam i k) /\
  (forall i j, (i < n)%nat -> (i < dN D)%nat -> (j < dnx D (S i))%nat -> r_b r i j = dyn qp z i j) /\
  (forall i c, (i < n)%nat -> (c < nct D i)%nat -> r_d r i c = kkt_d qp z t i c) /\
  (forall i c, (i < n)%nat -> (c < nct D i)%nat -> r_m r i c = kkt_m qp lam t i c) /\
  r_obj r = r_obj res0 + rsum n (stage_cost qp z) /\
  r_gap r = r_gap res0 + rsum n (stage_gap qp sol) /\
  r_mu_sum r = r_mu_sum res0 + rsum n (stage_mu qp sol) /\ r_mu r = r_mu res0.
Proof.
  intros Hmc. induction n as [|n IH]; intros Hn.
  - cbn [loop fst rsum]. repeat split; intros; try lia; try lra; reflexivity.
  - rewrite loop_S. specialize (IH ltac:(lia)). destruct (loop n _ _) as [res ws]. cbn [fst] in IH.
    destruct IH as (I1 & I2 & I3 & I4 & I5 & I6 & I7 & I8).
    assert (Hmn : mc = true \/ forall c, (c < nct (q_dim qp) n)%nat -> q_mask qp n c = 1).
    { destruct Hmc as [H|H]; [left; exact H|right; intros c Hc; apply H; [unfold D in *; lia|exact Hc]]. }
    pose proof (res_stage_R mc qp sol n (Hwf n ltac:(unfold D in *; lia)) Hmn ltac:(unfold D in *; lia) res ws) as S.
    cbv zeta in S |- *. destruct S as (S1 & S2 & S3 & S4 & S5 & S6 & S7 & S8 & S9). fold D in S1, S2, S3, S4.
    split; [|split; [|split; [|split; [|split; [|split; [|split]]]]]]; cbn [rsum].
    + intros i k Hi Hk. destruct (Nat.eq_dec i n) as [->|]; [apply S1; assumption|]. destruct (S9 i ltac:(assumption)) as (-> & _). apply I1; [lia|assumption].
    + intros i k Hi HN Hk. destruct (Nat.eq_dec i n) as [->|]; [apply S2; assumption|]. destruct (S9 i ltac:(assumption)) as (_ & -> & _). apply I2; [lia|assumption|assumption].
    + intros i k Hi Hk. destruct (Nat.eq_dec i n) as [->|]; [apply S3; assumption|]. destruct (S9 i ltac:(assumption)) as (_ & _ & -> & _). apply I3; [lia|assumption].
    + intros i k Hi Hk. destruct (Nat.eq_dec i n) as [->|]; [apply S4; assumption|]. destruct (S9 i ltac:(assumption)) as (_ & _ & _ & ->). apply I4; [lia|assumption].
    + rewrite S5, I5. lra.
    + rewrite S6, I6. lra.
    + rewrite S7, I7. lra.
    + rewrite S8, I8. reflexivity.
Qed.

Lemma res_compute_R valid res0 ws0 : valid_ok valid qp ->
  let r := fst (res_compute valid qp sol res0 ws0) in
  (forall i k, (i <= dN D)%nat -> (k < nvt D i)%nat -> r_g r i k = kkt_g qp z pi lam i k) /\
  (forall i j, (i < dN D)%nat -> (j < dnx D (S i))%nat -> r_b r i j = dyn qp z i j) /\
  (forall i c, (i <= dN D)%nat -> (c < nct D i)%nat -> r_d r i c = kkt_d qp z t i c) /\
  (forall i c, (i <= dN D)%nat -> (c < nct D i)%nat -> r_m r i c = kkt_m qp lam t i c) /\
  r_obj r = cost qp z /\ r_gap r = rsum (dN D + 1) (stage_gap qp sol) /\
  r_mu_sum r = rsum (dN D + 1) (stage_mu qp sol) /\
  (valid = None -> let n := nsum (dN D + 1) (fun i => nsum (nct D i) (fun c => is1 (q_mask qp i c))) in
     r_mu r = if Nat.eqb n 0 then 0 else r_mu_sum r / INR n).
Proof.
  intros Hv. unfold res_compute. fold D.
  set (mi := match valid with Some _ => _ | None => _ end).
  destruct mi as [mc inv] eqn:Em.
  assert (Hmc : mc = true \/ masks_one D (q_mask qp)).
  { destruct valid as [[mc' inv']|]; unfold mi in Em.
    - injection Em as -> ->. exact Hv.
    - pose proof (mask_count_R D (q_mask qp)) as [_ H2]. destruct (mask_count _ _) as [n b]. injection Em as -> _. cbn in H2.
      destruct mc; [left; reflexivity|right; apply H2; reflexivity]. }
  pose proof (res_loop_R mc (mkres (r_g res0) (r_b res0) (r_d res0) (r_m res0) f0 f0 (r_mu res0) f0) ws0 Hmc (dN D + 1) (le_n _)) as H.
  cbv zeta in H. destruct (loop (dN D + 1) _ _) as [res ws]. cbn [fst r_g r_b r_d r_m r_obj r_gap r_mu r_mu_sum] in *.
  destruct H as (I1 & I2 & I3 & I4 & I5 & I6 & I7 & I8).
  rsimp. rewrite R_lit01 in *. rewrite Rplus_0_l in *.
  split; [|split; [|split; [|split; [|split; [|split; [|split]]]]]].
  - intros; apply I1; [lia|assumption].
  - intros; apply I2; [lia|assumption|assumption].
  - intros; apply I3; [lia|assumption].
  - intros; apply I4; [lia|assumption].
  - exact I5.
  - exact I6.
  - exact I7.
  - intros ->. unfold mi in Em. pose proof (mask_count_R D (q_mask qp)) as [H1 _]. destruct (mask_count _ _) as [n b]. injection Em as _ <-. cbn [fst] in H1.
    rewrite <- H1. destruct (Nat.ltb_spec 0 n) as [Hp|Hp].
    + destruct (Nat.eqb_spec n 0); [lia|]. unfold inv_count. rsimp. rewrite R_lit11. rewrite INR_IZR_INZ. unfold Rdiv. rewrite Rinv_1. rewrite !Rmult_1_r, Rmult_1_l. reflexivity.
    + destruct (Nat.eqb_spec n 0); [|lia]. rsimp. rewrite R_lit01. lra.
Qed.
End Whole.

(** ** Duality algebra *)
Lemma H_co_sym n H Zd k l : H_co n H Zd k l = H_co n H Zd l k.
Proof.
  unfold H_co. destruct (Nat.ltb_spec k n), (Nat.ltb_spec l n).
  - destruct (Nat.leb_spec l k), (Nat.leb_spec k l); try reflexivity; try lia. replace k with l by lia. reflexivity.
  - destruct (Nat.eqb_spec l k); [lia|reflexivity].
  - destruct (Nat.eqb_spec k l); [lia|reflexivity].
  - rewrite Nat.eqb_sym. destruct (Nat.eqb_spec l k) as [->|]; reflexivity.
Qed.
Definition dot2 (n : nat) (m : nat -> nat) (a b : nat -> nat -> R) : R := rsum n (fun i => rsum (m i) (fun k => a i k * b i k)).
(** exact second-order expansion of a quadratic form *)
Lemma quad_expand n (H : nat -> nat -> R) (x y : nat -> R) : (forall k l, H k l = H l k) ->
  rsum n (fun k => rsum n (fun l => y k * H k l * y l)) =
  rsum n (fun k => rsum n (fun l => x k * H k l * x l)) + 2 * rsum n (fun k => rsum n (fun l => H k l * x l) * (y k - x k))
  + rsum n (fun k => rsum n (fun l => (y k - x k) * H k l * (y l - x l))).
Proof.
  intros Hs.
  assert (E : rsum n (fun k => rsum n (fun l => H k l * x l) * (y k - x k)) = rsum n (fun k => rsum n (fun l => (y k - x k) * H k l * x l))).
  { apply rsum_ext. intros k _. rewrite <- rsum_scal_r. apply rsum_ext. intros l _. lra. }
  assert (E2 : rsum n (fun k => rsum n (fun l => (y k - x k) * H k l * x l)) = rsum n (fun k => rsum n (fun l => x k * H k l * (y l - x l)))).
  { rewrite rsum_swap. apply rsum_ext. intros k _. apply rsum_ext. intros l _. rewrite (Hs l k). lra. }
  rewrite E. replace (2 * rsum n (fun k => rsum n (fun l => (y k - x k) * H k l * x l))) with
    (rsum n (fun k => rsum n (fun l => (y k - x k) * H k l * x l)) + rsum n (fun k => rsum n (fun l => x k * H k l * (y l - x l)))) by lra.
  rewrite <- !rsum_add. apply rsum_ext. intros k _. rewrite <- !rsum_add. apply rsum_ext. intros l _. lra.
Qed.

Section Dual.
Variable qp : oqp R.
Let D := q_dim qp. Let N := dN D.
Variables z pi lam : nat -> nat -> R.
Let ml i c := q_mask qp i c * lam i c.

(** the stationarity residual as a linear functional *)
Lemma kkt_g_dot (w : nat -> nat -> R) :
  dot2 (N + 1) (nvt D) (kkt_g qp z pi lam) w =
  rsum (N + 1) (fun i => rsum (nvt D i) (fun k => rsum (nvt D i) (fun l => Hess qp i k l * z i l) * w i k) + rsum (nvt D i) (fun k => q_rqz qp i k * w i k))
  + rsum N (fun i => rsum (dnx D (S i)) (fun j => pi i j * (rsum (nux qp i) (fun k => q_BAbt qp i k j * w i k) - w (S i) (dnu D (S i) + j)%nat)))
  - rsum (N + 1) (fun i => rsum (nct D i) (fun c => ml i c * con qp w i c)).
Proof.
  unfold dot2.
  set (T1 := fun i => rsum (nvt D i) (fun k => rsum (nvt D i) (fun l => Hess qp i k l * z i l) * w i k) + rsum (nvt D i) (fun k => q_rqz qp i k * w i k)).
  set (T2 := fun i => if (i <? N)%nat then rsum (dnx D (S i)) (fun j => pi i j * rsum (nux qp i) (fun k => q_BAbt qp i k j * w i k)) else 0).
  set (T3 := fun i => if (0 <? i)%nat then rsum (dnx D i) (fun j => pi (i - 1)%nat j * w i (dnu D i + j)%nat) else 0).
  set (T4 := fun i => rsum (nct D i) (fun c => ml i c * con qp w i c)).
  assert (Hstage : forall i, rsum (nvt D i) (fun k => kkt_g qp z pi lam i k * w i k) = T1 i + T2 i - T3 i - T4 i).
  { intros i. unfold kkt_g. fold D N.
    rewrite (rsum_ext _ _ (fun k => rsum (nvt D i) (fun l => Hess qp i k l * z i l) * w i k + q_rqz qp i k * w i k
      + (if ((i <? N) && (k <? nux qp i))%nat then rsum (dnx D (S i)) (fun j => q_BAbt qp i k j * pi i j) else 0) * w i k
      - (if ((0 <? i) && (dnu D i <=? k) && (k <? nux qp i))%nat then pi (i - 1)%nat (k - dnu D i)%nat else 0) * w i k
      - rsum (nct D i) (fun c => G qp i c k * (q_mask qp i c * lam i c)) * w i k)) by (intros; lra).
    rewrite !rsum_sub, !rsum_add. fold (T1 i).
    assert (Env : nvt D i = (nux qp i + 2 * dns D i)%nat) by reflexivity.
    f_equal; [f_equal; [f_equal|]|].
    - unfold T2. destruct (i <? N)%nat; cbn [andb].
      + rewrite Env, rsum_split. rewrite (rsum_0 (2 * dns D i)).
        2:{ intros k _. destruct (Nat.ltb_spec (nux qp i + k) (nux qp i)); [lia|lra]. }
        rewrite Rplus_0_r.
        rewrite (rsum_ext _ _ (fun k => rsum (dnx D (S i)) (fun j => pi i j * (q_BAbt qp i k j * w i k)))).
        2:{ intros k Hk. destruct (Nat.ltb_spec k (nux qp i)); [|lia]. rewrite <- rsum_scal_r. apply rsum_ext. intros; lra. }
        rewrite rsum_swap. apply rsum_ext. intros j _. rewrite rsum_scal. reflexivity.
      + rewrite rsum_0; [reflexivity|]. intros; lra.
    - unfold T3. destruct (0 <? i)%nat; cbn [andb].
      + rewrite Env. replace (nux qp i + 2 * dns D i)%nat with (dnu D i + dnx D i + 2 * dns D i)%nat by reflexivity.
        rewrite (rsum_split (dnu D i + dnx D i)), (rsum_split (dnu D i)). rewrite (rsum_0 (2 * dns D i)).
        2:{ intros k _. change (nux qp i) with (dnu D i + dnx D i)%nat. destruct (Nat.ltb_spec (dnu D i + dnx D i + k) (dnu D i + dnx D i)); [lia|]. rewrite andb_false_r. lra. }
        rewrite (rsum_0 (dnu D i)).
        2:{ intros k Hk. destruct (Nat.leb_spec (dnu D i) k); [lia|]. cbn [andb]. lra. }
        rewrite Rplus_0_l, Rplus_0_r. apply rsum_ext. intros j Hj. change (nux qp i) with (dnu D i + dnx D i)%nat.
        destruct (Nat.leb_spec (dnu D i) (dnu D i + j)); [|lia]. destruct (Nat.ltb_spec (dnu D i + j) (dnu D i + dnx D i)); [|lia]. cbn [andb].
        replace (dnu D i + j - dnu D i)%nat with j by lia. reflexivity.
      + rewrite rsum_0; [reflexivity|]. intros; lra.
    - unfold T4, con. fold D.
      rewrite (rsum_ext _ _ (fun k => rsum (nct D i) (fun c => ml i c * (G qp i c k * w i k)))).
      2:{ intros k Hk. rewrite <- rsum_scal_r. apply rsum_ext. intros; unfold ml; lra. }
      rewrite rsum_swap. apply rsum_ext. intros c _. rewrite rsum_scal. reflexivity. }
  rewrite (rsum_ext _ _ (fun i => T1 i + T2 i - T3 i - T4 i)) by (intros; apply Hstage).
  rewrite !rsum_sub, !rsum_add. fold T1 T4.
  assert (E2 : rsum (N + 1) T2 = rsum N (fun i => rsum (dnx D (S i)) (fun j => pi i j * rsum (nux qp i) (fun k => q_BAbt qp i k j * w i k)))).
  { replace (N + 1)%nat with (S N) by lia. cbn [rsum]. unfold T2 at 2. rewrite Nat.ltb_irrefl, Rplus_0_r. apply rsum_ext. intros i Hi. unfold T2.
    destruct (Nat.ltb_spec i N); [reflexivity|lia]. }
  assert (E3 : rsum (N + 1) T3 = rsum N (fun i => rsum (dnx D (S i)) (fun j => pi i j * w (S i) (dnu D (S i) + j)%nat))).
  { replace (N + 1)%nat with (S N) by lia. rewrite rsum_S_l. unfold T3 at 1. cbn [Nat.ltb Nat.leb]. rewrite Rplus_0_l. apply rsum_ext. intros i Hi. unfold T3.
    cbn [Nat.ltb Nat.leb]. replace (S i - 1)%nat with i by lia. reflexivity. }
  rewrite E2, E3. unfold T1.
  replace (rsum N (fun i => rsum (dnx D (S i)) (fun j => pi i j * (rsum (nux qp i) (fun k => q_BAbt qp i k j * w i k) - w (S i) (dnu D (S i) + j)%nat)))) with
   (rsum N (fun i => rsum (dnx D (S i)) (fun j => pi i j * rsum (nux qp i) (fun k => q_BAbt qp i k j * w i k))) - rsum N (fun i => rsum (dnx D (S i)) (fun j => pi i j * w (S i) (dnu D (S i) + j)%nat))).
  2:{ rewrite <- rsum_sub. apply rsum_ext. intros i _. rewrite <- rsum_sub. apply rsum_ext. intros j _. lra. }
  change (fun i : nat => rsum (nct D i) (fun c : nat => ml i c * con qp w i c)) with T4. lra.
Qed.

Lemma con_sub (y x : nat -> nat -> R) i c : con qp (fun i k => y i k - x i k) i c = con qp y i c - con qp x i c.
Proof. unfold con. rewrite <- rsum_sub. apply rsum_ext. intros; lra. Qed.
Lemma dyn_sub (y x : nat -> nat -> R) i j : dyn qp y i j - dyn qp x i j =
  rsum (nux qp i) (fun k => q_BAbt qp i k j * (y i k - x i k)) - (y (S i) (dnu D (S i) + j)%nat - x (S i) (dnu D (S i) + j)%nat).
Proof.
  unfold dyn. fold D. rewrite (rsum_ext _ (fun k => q_BAbt qp i k j * (y i k - x i k)) (fun k => q_BAbt qp i k j * y i k - q_BAbt qp i k j * x i k)) by (intros; lra).
  rewrite rsum_sub. lra.
Qed.

(** exact second-order expansion of the Lagrangian: its gradient is kkt_g *)
Lemma lagr_expand (y : nat -> nat -> R) :
  lagr qp y pi lam = lagr qp z pi lam + dot2 (N + 1) (nvt D) (kkt_g qp z pi lam) (fun i k => y i k - z i k)
    + 1 / 2 * rsum (N + 1) (fun i => rsum (nvt D i) (fun k => rsum (nvt D i) (fun l => (y i k - z i k) * Hess qp i k l * (y i l - z i l)))).
Proof.
  rewrite kkt_g_dot. unfold lagr, cost. fold D N.
  assert (Hc : rsum (N + 1) (stage_cost qp y) = rsum (N + 1) (stage_cost qp z)
     + rsum (N + 1) (fun i => rsum (nvt D i) (fun k => rsum (nvt D i) (fun l => Hess qp i k l * z i l) * (y i k - z i k)) + rsum (nvt D i) (fun k => q_rqz qp i k * (y i k - z i k)))
     + 1 / 2 * rsum (N + 1) (fun i => rsum (nvt D i) (fun k => rsum (nvt D i) (fun l => (y i k - z i k) * Hess qp i k l * (y i l - z i l))))).
  { rewrite <- rsum_scal, <- !rsum_add. apply rsum_ext. intros i _. unfold stage_cost. fold D.
    rewrite (quad_expand (nvt D i) (Hess qp i) (z i) (y i)) by (intros; apply H_co_sym).
    rewrite (rsum_ext _ (fun k => q_rqz qp i k * (y i k - z i k)) (fun k => q_rqz qp i k * y i k - q_rqz qp i k * z i k)) by (intros; lra).
    rewrite rsum_sub. lra. }
  rewrite Hc.
  assert (Hd : rsum N (fun i => rsum (dnx D (S i)) (fun j => pi i j * dyn qp y i j)) = rsum N (fun i => rsum (dnx D (S i)) (fun j => pi i j * dyn qp z i j)) +
    rsum N (fun i => rsum (dnx D (S i)) (fun j => pi i j * (rsum (nux qp i) (fun k => q_BAbt qp i k j * (y i k - z i k)) - (y (S i) (dnu D (S i) + j)%nat - z (S i) (dnu D (S i) + j)%nat))))).
  { rewrite <- rsum_add. apply rsum_ext. intros i _. rewrite <- rsum_add. apply rsum_ext. intros j _. rewrite <- dyn_sub. lra. }
  rewrite Hd.
  assert (Hi : rsum (N + 1) (fun i => rsum (nct D i) (fun c => q_mask qp i c * lam i c * (con qp y i c - q_d qp i c))) =
    rsum (N + 1) (fun i => rsum (nct D i) (fun c => q_mask qp i c * lam i c * (con qp z i c - q_d qp i c))) +
    rsum (N + 1) (fun i => rsum (nct D i) (fun c => ml i c * con qp (fun i k => y i k - z i k) i c))).
  { rewrite <- rsum_add. apply rsum_ext. intros i _. rewrite <- rsum_add. apply rsum_ext. intros c _. rewrite con_sub. unfold ml. lra. }
  rewrite Hi. lra.
Qed.

(** the reported gap *)
Lemma gap_identity t : cost qp z - rsum (N + 1) (stage_gap qp (mksol z pi lam t)) = lagr qp z pi lam - dot2 (N + 1) (nvt D) (kkt_g qp z pi lam) z.
Proof.
  rewrite kkt_g_dot. unfold lagr. fold D N.
  assert (Hg : rsum (N + 1) (stage_gap qp (mksol z pi lam t)) =
    rsum (N + 1) (fun i => rsum (nvt D i) (fun k => rsum (nvt D i) (fun l => Hess qp i k l * z i l) * z i k) + rsum (nvt D i) (fun k => q_rqz qp i k * z i k))
    - rsum (N + 1) (fun i => rsum (nct D i) (fun c => q_d qp i c * ml i c)) - rsum N (fun i => rsum (dnx D (S i)) (fun j => q_b qp i j * pi i j))).
  { assert (E : rsum (N + 1) (fun i => if (i <? N)%nat then rsum (dnx D (S i)) (fun j => q_b qp i j * pi i j) else 0) = rsum N (fun i => rsum (dnx D (S i)) (fun j => q_b qp i j * pi i j))).
    { replace (N + 1)%nat with (S N) by lia. cbn [rsum]. rewrite Nat.ltb_irrefl, Rplus_0_r. apply rsum_ext. intros i Hi. destruct (Nat.ltb_spec i N); [reflexivity|lia]. }
    rewrite <- E, <- !rsum_sub. apply rsum_ext. intros i _. unfold stage_gap. cbn [s_ux s_pi s_lam]. fold D N. unfold ml.
    assert (Eq : rsum (nvt D i) (fun k => rsum (nvt D i) (fun l => z i k * Hess qp i k l * z i l)) = rsum (nvt D i) (fun k => rsum (nvt D i) (fun l => Hess qp i k l * z i l) * z i k)).
    { apply rsum_ext. intros k _. rewrite <- rsum_scal_r. apply rsum_ext. intros; lra. }
    rewrite Eq. lra. }
  rewrite Hg.
  assert (Hd : rsum N (fun i => rsum (dnx D (S i)) (fun j => pi i j * dyn qp z i j)) =
    rsum N (fun i => rsum (dnx D (S i)) (fun j => q_b qp i j * pi i j)) +
    rsum N (fun i => rsum (dnx D (S i)) (fun j => pi i j * (rsum (nux qp i) (fun k => q_BAbt qp i k j * z i k) - z (S i) (dnu D (S i) + j)%nat)))).
  { rewrite <- rsum_add. apply rsum_ext. intros i _. rewrite <- rsum_add. apply rsum_ext. intros j _. unfold dyn. fold D. lra. }
  rewrite Hd.
  assert (Hi : rsum (N + 1) (fun i => rsum (nct D i) (fun c => q_mask qp i c * lam i c * (con qp z i c - q_d qp i c))) =
    rsum (N + 1) (fun i => rsum (nct D i) (fun c => ml i c * con qp z i c)) - rsum (N + 1) (fun i => rsum (nct D i) (fun c => q_d qp i c * ml i c))).
  { rewrite <- rsum_sub. apply rsum_ext. intros i _. rewrite <- rsum_sub. apply rsum_ext. intros c _. unfold ml. lra. }
  rewrite Hi. lra.
Qed.
(** the Lagrangian is below the cost on the feasible set *)
Lemma lagr_le_cost y : feasible qp y -> mask01 qp -> (forall i c, (i <= N)%nat -> (c < nct D i)%nat -> q_mask qp i c <> 0 -> 0 <= lam i c) ->
  lagr qp y pi lam <= cost qp y.
Proof.
  intros [Hdyn Hcon] Hm Hlam. unfold lagr. fold D N.
  rewrite (rsum_0 N).
  2:{ intros i Hi. apply rsum_0. intros j Hj. rewrite Hdyn by assumption. lra. }
  assert (0 <= rsum (N + 1) (fun i => rsum (nct D i) (fun c => q_mask qp i c * lam i c * (con qp y i c - q_d qp i c)))); [|lra].
  apply rsum_nonneg. intros i Hi. apply rsum_nonneg. intros c Hc.
  destruct (Hm i c ltac:(unfold N, D in *; lia) Hc) as [E|E].
  - rewrite E. lra.
  - assert (H1 := Hcon i c ltac:(unfold N, D in *; lia) Hc ltac:(rewrite E; lra)).
    assert (H2 := Hlam i c ltac:(lia) Hc ltac:(rewrite E; lra)). rewrite E, Rmult_1_l. apply Rmult_le_pos; lra.
Qed.
End Dual.

(** ** Whole-horizon linear residual *)
Lemma any_mask_R D (mask : nat -> nat -> R) : any_mask D mask = false -> masks_one D mask.
Proof.
  unfold any_mask, masks_one. replace (dN D + 1)%nat with (S (dN D)) by lia.
  enough (H : forall n, loop n (fun ii s => loop (nct D ii) (fun jj c => if negb (mask ii jj =? f1)%F then true else c) s) false = false ->
     forall i c, (i < n)%nat -> (c < nct D i)%nat -> mask i c = 1).
  { intros Hf i c Hi Hc. eapply H; [exact Hf|lia|exact Hc]. }
  induction n as [|n IH]; intros Hf i c Hi Hc; [lia|]. rewrite loop_S in Hf.
  set (s := loop n _ false) in *.
  assert (Hin : forall m, loop m (fun jj c => if negb (mask n jj =? f1)%F then true else c) s = false -> s = false /\ forall c, (c < m)%nat -> mask n c = 1).
  { induction m as [|m IHm]; intros Hm; [split; [exact Hm|intros; lia]|]. rewrite loop_S in Hm. cbv beta in Hm.
    assert (E1 : (mask n m =? f1)%F = Reqb (mask n m) 1) by (rsimp; rewrite R_lit11; reflexivity). rewrite E1 in Hm.
    destruct (Reqb_spec (mask n m) 1) as [E|E]; cbn [negb] in Hm; [|discriminate]. destruct (IHm Hm) as [A B]. split; [exact A|].
    intros c' Hc'. destruct (Nat.eq_dec c' m) as [->|]; [exact E|apply B; lia]. }
  destruct (Hin _ Hf) as [A B]. destruct (Nat.eq_dec i n) as [->|]; [apply B; exact Hc|]. apply IH; [exact A|lia|exact Hc].
Qed.
Section WholeLin.
Variables (qp : oqp R) (sol stp : osol R).
Let D := q_dim qp.
Hypothesis Hwf : qp_wf qp.
Notation z := (s_ux stp). Notation pi := (s_pi stp). Notation lam := (s_lam stp). Notation t := (s_t stp).
Lemma reslin_compute_R valid res0 ws0 :
  (match valid with None => True | Some mc => mc = true \/ masks_one D (q_mask qp) end) ->
  let r := fst (reslin_compute valid qp sol stp res0 ws0) in
  (forall i k, (i <= dN D)%nat -> (k < nvt D i)%nat -> r_g r i k = kkt_g qp z pi lam i k) /\
  (forall i j, (i < dN D)%nat -> (j < dnx D (S i))%nat -> r_b r i j = dyn qp z i j) /\
  (forall i c, (i <= dN D)%nat -> (c < nct D i)%nat -> r_d r i c = kkt_d qp z t i c) /\
  (forall i c, (i <= dN D)%nat -> (c < nct D i)%nat -> r_m r i c = lin_m qp sol stp i c).
Proof.
  intros Hv. unfold reslin_compute. fold D. set (mc := match valid with Some _ => _ | None => _ end).
  assert (Hmc : mc = true \/ masks_one D (q_mask qp)).
  { unfold mc. destruct valid as [b|]; [exact Hv|]. destruct (any_mask D (q_mask qp)) eqn:E; [left; reflexivity|right; apply any_mask_R; exact E]. }
  clearbody mc.
  enough (H : forall n, (n <= dN D + 1)%nat -> let r := fst (loop n (reslin_stage mc qp sol stp) (res0, ws0)) in
    (forall i k, (i < n)%nat -> (k < nvt D i)%nat -> r_g r i k = kkt_g qp z pi lam i k) /\
    (forall i j, (i < n)%nat -> (i < dN D)%nat -> (j < dnx D (S i))%nat -> r_b r i j = dyn qp z i j) /\
    (forall i c, (i < n)%nat -> (c < nct D i)%nat -> r_d r i c = kkt_d qp z t i c) /\
    (forall i c, (i < n)%nat -> (c < nct D i)%nat -> r_m r i c = lin_m qp sol stp i c)).
  { destruct (H (dN D + 1)%nat (le_n _)) as (H1 & H2 & H3 & H4). cbv zeta.
    split; [|split; [|split]]; intros; [apply H1|apply H2|apply H3|apply H4]; try assumption; lia. }
  induction n as [|n IH]; intros Hn.
  - cbn [loop fst]. repeat split; intros; lia.
  - rewrite loop_S. specialize (IH ltac:(lia)). destruct (loop n _ _) as [res ws]. cbn [fst] in IH.
    destruct IH as (I1 & I2 & I3 & I4).
    assert (Hmn : mc = true \/ forall c, (c < nct (q_dim qp) n)%nat -> q_mask qp n c = 1).
    { destruct Hmc as [H|H]; [left; exact H|right; intros c Hc; apply H; [unfold D in *; lia|exact Hc]]. }
    pose proof (reslin_stage_R mc qp sol stp n (Hwf n ltac:(unfold D in *; lia)) Hmn ltac:(unfold D in *; lia) res ws) as S.
    cbv zeta in S |- *. destruct S as (S1 & S2 & S3 & S4 & S9). fold D in S1, S2, S3, S4.
    split; [|split; [|split]].
    + intros i k Hi Hk. destruct (Nat.eq_dec i n) as [->|]; [apply S1; assumption|]. destruct (S9 i ltac:(assumption)) as (-> & _). apply I1; [lia|assumption].
    + intros i k Hi HN Hk. destruct (Nat.eq_dec i n) as [->|]; [apply S2; assumption|]. destruct (S9 i ltac:(assumption)) as (_ & -> & _). apply I2; [lia|assumption|assumption].
    + intros i k Hi Hk. destruct (Nat.eq_dec i n) as [->|]; [apply S3; assumption|]. destruct (S9 i ltac:(assumption)) as (_ & _ & -> & _). apply I3; [lia|assumption].
    + intros i k Hi Hk. destruct (Nat.eq_dec i n) as [->|]; [apply S4; assumption|]. destruct (S9 i ltac:(assumption)) as (_ & _ & _ & ->). apply I4; [lia|assumption].
Qed.
End WholeLin.

(** ** Norms *)
Lemma cat_at {F} {AF : Arith F} n : forall (len : nat -> nat) (v : nat -> nat -> F) i k, (i < n)%nat -> (k < len i)%nat ->
  cat n len v (nsum i len + k) = v i k.
Proof.
  induction n as [|n IH]; intros len v i k Hi Hk; [lia|]. cbn [cat].
  destruct i as [|i].
  - cbn [nsum Nat.add]. destruct (Nat.ltb_spec k (len 0%nat)); [reflexivity|lia].
  - assert (E : nsum (S i) len = (len 0 + nsum i (fun j => len (S j)))%nat).
    { change (S i) with (1 + i)%nat. rewrite nsum_split. cbn [nsum Nat.add]. reflexivity. }
    rewrite E. destruct (Nat.ltb_spec (len 0%nat + nsum i (fun j => len (S j)) + k) (len 0%nat)); [lia|].
    replace (len 0 + nsum i (fun j => len (S j)) + k - len 0)%nat with (nsum i (fun j => len (S j)) + k)%nat by lia.
    apply (IH (fun j => len (S j)) (fun j => v (S j))); [lia|exact Hk].
Qed.
Lemma nsum_locate n : forall len k, (k < nsum n len)%nat -> exists i j, (i < n)%nat /\ (j < len i)%nat /\ k = (nsum i len + j)%nat.
Proof.
  induction n as [|n IH]; cbn [nsum]; intros len k Hk; [lia|].
  destruct (Nat.ltb_spec k (nsum n len)) as [L|L].
  - destruct (IH len k L) as (i & j & A & B & C). exists i, j. repeat split; [lia|exact B|exact C].
  - exists n, (k - nsum n len)%nat. repeat split; lia.
Qed.
Lemma norm_cat n len (v : nat -> nat -> R) : max_abs n len v (VECNRM_INF (nsum n len) (cat n len v) 0).
Proof.
  destruct (VECNRM_INF_R (nsum n len) (cat n len v) 0) as (A & B & C). split; [exact A|]. split.
  - intros i k Hi Hk. rewrite <- (cat_at n len v i k Hi Hk). apply (B (nsum i len + k)%nat).
    assert (H : (nsum (S i) len <= nsum n len)%nat) by (apply nsum_mono; lia). cbn [nsum] in H. lia.
  - destruct C as [C|(i & Hi & C)]; [left; exact C|right]. destruct (nsum_locate _ _ _ Hi) as (i' & j & A1 & A2 & A3).
    exists i', j. split; [exact A1|]. split; [exact A2|]. rewrite C, A3. cbn [Nat.add]. rewrite cat_at by assumption. reflexivity.
Qed.
Lemma res_inf_norm_R D (res : ores R) : let '(a, b, c, e) := res_inf_norm D res in
  max_abs (dN D + 1) (nvt D) (r_g res) a /\ max_abs (dN D) (fun i => dnx D (S i)) (r_b res) b /\
  max_abs (dN D + 1) (nct D) (r_d res) c /\ max_abs (dN D + 1) (nct D) (r_m res) e.
Proof.
  unfold res_inf_norm.
  assert (E : forall f : nat -> nat, (nsum (dN D) f + f (dN D) = nsum (dN D + 1) f)%nat).
  { intros f. replace (dN D + 1)%nat with (S (dN D)) by lia. reflexivity. }
  rewrite !E. split; [apply norm_cat|]. split; [|split; apply norm_cat].
  assert (E2 : forall i, dnx D (i + 1) = dnx D (S i)) by (intros; f_equal; lia).
  pose proof (norm_cat (dN D) (fun i => dnx D (i + 1)) (r_b res)) as (A & B & C). split; [exact A|]. split.
  - intros i k Hi Hk. apply B; [exact Hi|rewrite E2; exact Hk].
  - destruct C as [C|(i & k & C1 & C2 & C3)]; [left; exact C|right; exists i, k; rewrite E2 in C2; repeat split; assumption].
Qed.
