(** ErkProofs.v -- the integrator's memory accesses stay in the block and compute the Runge-Kutta steps. *)
From Coq Require Import ZArith Lia List Bool Arith String Reals Lra.
From Verif Require Import Base ArithF AuxModel RSum ErkModel ErkSpec.

(** one pass over [off, off+n) writing val(ii) *)
Lemma oloop_vset {A : Type} off n (val : nat -> A) (body : nat -> (nat -> A) -> outcome (nat -> A)) (m : nat -> A) :
  (forall ii m1, ii < n -> (forall k, m1 k = vset m off ii val k) -> body ii m1 = Ok (upd m1 (off + ii) (val ii))) ->
  exists m', oloop n body m = Ok m' /\ forall k, m' k = vset m off n val k.
Proof.
  intros H.
  apply (oloop_ind (fun j m1 => forall k, m1 k = vset m off j val k) n body m).
  - intros k. rewrite vset_out by lia. reflexivity.
  - intros j m1 Hj HP. exists (upd m1 (off + j) (val j)). split; [apply H; assumption|]. intros k.
    destruct (Nat.eq_dec k (off + j)) as [->|Hne].
    + rewrite upd_same, vset_in by lia. reflexivity.
    + rewrite upd_other by assumption. rewrite HP.
      destruct (Nat.lt_ge_cases k off); [rewrite !vset_out by lia; reflexivity|].
      destruct (Nat.lt_ge_cases k (off + j)); [rewrite !vset_in' by lia; reflexivity|].
      rewrite !vset_out by lia. reflexivity.
Qed.
Lemma rdm_ok {F} sz (m : nat -> F) i : i < sz -> rdm sz m i = Ok (m i).
Proof. intros H. unfold rdm. destruct (Nat.ltb_spec i sz); [reflexivity|lia]. Qed.
Lemma wrm_ok {F} sz (m : nat -> F) i v : i < sz -> wrm sz m i v = Ok (upd m i v).
Proof. intros H. unfold wrm. destruct (Nat.ltb_spec i sz); [reflexivity|lia]. Qed.
Lemma wr_vec_ok {F} sz dst n (src m : nat -> F) : dst + n <= sz ->
  exists m', wr_vec sz dst n src m = Ok m' /\ forall k, m' k = vset m dst n src k.
Proof. intros H. apply oloop_vset. intros ii m1 Hi _. apply wrm_ok. lia. Qed.

(** layout facts the integrator needs *)
Definition lay {F} (w : ews F) (ns nX : nat) : Prop :=
  w_p w + w_np w <= w_xfor w /\ w_xfor w + nX <= w_K w /\ w_K w + ns * nX <= w_xtmp w /\ w_xtmp w + nX <= w_size w.
Definition rk_fits {F} (rk : rkd F) : Prop :=
  rk_A rk + rk_ns rk * rk_ns rk <= rk_size rk /\ rk_B rk + rk_ns rk <= rk_size rk /\ rk_C rk + rk_ns rk <= rk_size rk.
Definition tab (rk : rkd R) : tableau :=
  mktab (rk_ns rk) (fun s r => rk_mem rk (rk_A rk + (s + rk_ns rk * r))) (fun s => rk_mem rk (rk_B rk + s)) (fun s => rk_mem rk (rk_C rk + s)).

Local Open Scope R_scope.

Lemma win_pad m off n : win (F := R) m off n = pad n (fun i => m (off + i)%nat).
Proof. unfold win, pad. apply FunctionalExtensionality.functional_extensionality. intros i.
  destruct (i <? n)%nat; [reflexivity|]. rsimp. apply R_lit01. Qed.
Lemma pad_ext n x y : eqv n x y -> pad n x = pad n y.
Proof. intros H. unfold pad. apply FunctionalExtensionality.functional_extensionality. intros i.
  destruct (Nat.ltb_spec i n); [apply H; assumption|reflexivity]. Qed.

Section Step.
Variable toint : R -> Z.
Variable rk : rkd R.
Variable h : R.
Variable w : ews R.
Variable nX : nat.
Hypothesis HL : lay w (rk_ns rk) nX.
Hypothesis HR : rk_fits rk.
Let ns := rk_ns rk.
Let T := tab rk.
Let cb := if (0 <? w_nf w)%nat then w_vde w else w_ode w.
Let Krow (m : rv) (s : nat) : rv := fun i => m (w_K w + (i + s * nX))%nat.
Let Xat (m : rv) : rv := fun i => m (w_xfor w + i)%nat.
Let Pat (m : rv) : rv := fun i => m (w_p w + i)%nat.

Lemma row_bound s i : (s < ns)%nat -> (i < nX)%nat -> (w_K w + (i + s * nX) < w_xtmp w)%nat.
Proof.
  intros Hs Hi. destruct HL as (H1 & H2 & H3 & H4).
  assert ((s + 1) * nX <= rk_ns rk * nX)%nat by (apply Nat.mul_le_mono_r; unfold ns in Hs; lia). lia.
Qed.
Lemma stage_ok t ss m : (ss < ns)%nat ->
  exists m', erk_stage toint rk h w nX t ss m = Ok m' /\
    (forall k, (k < w_K w + ss * nX \/ w_K w + ss * nX + nX <= k)%nat -> (k < w_xtmp w \/ w_xtmp w + nX <= k)%nat -> m' k = m k) /\
    eqv nX (Krow m' ss)
      (cb (toint (t + h * t_C T ss)) (pad nX (fun i => Xat m i + h * rsum ss (fun r => t_A T ss r * Krow m r i))) (pad (w_np w) (Pat m))).
Proof.
  intros Hss. destruct HL as (H1 & H2 & H3 & H4). destruct HR as (R1 & R2 & R3).
  unfold erk_stage.
  destruct (oloop_vset (w_xtmp w) nX (Xat m)
    (fun ii m0 => let! v := rdm (w_size w) m0 (w_xfor w + ii) in wrm (w_size w) m0 (w_xtmp w + ii) v) m) as [m1 [E1 V1]].
  { intros ii m0 Hi Hm. rewrite rdm_ok by lia. cbn [obind]. rewrite wrm_ok by lia. f_equal. f_equal.
    rewrite Hm. rewrite vset_out by lia. reflexivity. }
  rewrite E1. cbn [obind]. clear E1.
  match goal with |- context [oloop ss ?b m1] => set (body := b) end.
  destruct (oloop_ind (fun j m2 => (forall k, (k < w_xtmp w \/ w_xtmp w + nX <= k)%nat -> m2 k = m k) /\
       forall i, (i < nX)%nat -> m2 (w_xtmp w + i)%nat = Xat m i + h * rsum j (fun r => t_A T ss r * Krow m r i)) ss body m1)
    as [m2 [E2 [V2 W2]]].
  { split.
    - intros k Hk. rewrite V1, vset_out by lia. reflexivity.
    - intros i Hi. rewrite V1, vset_in by lia. cbn [rsum]. lra. }
  { intros j m2 Hj [Ha Hb]. unfold body.
    assert (rk_ns rk * j + rk_ns rk <= rk_ns rk * rk_ns rk)%nat.
    { replace (rk_ns rk * j + rk_ns rk)%nat with (rk_ns rk * (j + 1))%nat by lia. apply Nat.mul_le_mono_l. unfold ns in *. lia. }
    rewrite rdm_ok by (unfold ns in *; lia). cbn [obind].
    change (rk_mem rk (rk_A rk + (ss + rk_ns rk * j))%nat) with (t_A T ss j).
    rsimp. rewrite R_lit01. destruct (Reqb_spec (t_A T ss j) 0) as [E0|E0]; cbn [negb].
    - exists m2. split; [reflexivity|]. split; [exact Ha|]. intros i Hi. rewrite Hb by assumption. cbn [rsum]. rewrite E0. lra.
    - destruct (oloop_vset (w_xtmp w) nX (fun i => m2 (w_xtmp w + i)%nat + t_A T ss j * h * Krow m j i)
        (fun jj m0 => let! v := rdm (w_size w) m0 (w_xtmp w + jj) in let! k := rdm (w_size w) m0 (w_K w + (jj + j * nX)) in
                              wrm (w_size w) m0 (w_xtmp w + jj) (v + t_A T ss j * h * k)) m2) as [m3 [E3 V3]].
      { intros jj m0 Hjj Hm. pose proof (row_bound j jj ltac:(lia) Hjj).
        rewrite rdm_ok by lia. cbn [obind]. rewrite rdm_ok by lia. cbn [obind]. rewrite wrm_ok by lia. f_equal. f_equal.
        rewrite !Hm, !vset_out by lia. f_equal. f_equal. unfold Krow. apply Ha. lia. }
      rewrite E3. exists m3. split; [reflexivity|]. split.
      + intros k Hk. rewrite V3, vset_out by lia. apply Ha. assumption.
      + intros i Hi. rewrite V3, vset_in by lia. rewrite Hb by assumption. cbn [rsum]. lra. }
  rewrite E2. cbn [obind]. clear E2 body.
  rewrite rdm_ok by (unfold ns in *; lia). cbn [obind].
  unfold call_cb.
  assert (HK : (w_K w + ss * nX + nX <= w_xtmp w)%nat).
  { assert ((ss + 1) * nX <= rk_ns rk * nX)%nat by (apply Nat.mul_le_mono_r; unfold ns in *; lia). lia. }
  destruct (Nat.leb_spec (w_xtmp w + nX) (w_size w)); [|lia].
  destruct (Nat.leb_spec (w_p w + w_np w) (w_size w)); [|lia].
  destruct (Nat.leb_spec (w_K w + ss * nX + nX) (w_size w)); [|lia]. cbn [andb].
  eexists. split; [reflexivity|]. split.
  - intros k Hk1 Hk2. rewrite vset_out by lia. apply V2. assumption.
  - intros i Hi. unfold Krow. replace (w_K w + (i + ss * nX))%nat with (w_K w + ss * nX + i)%nat by lia. rewrite vset_in by lia.
    rewrite !win_pad. fold cb. rsimp. change (rk_mem rk (rk_C rk + ss)%nat) with (t_C T ss).
    f_equal.
    + apply pad_ext. intros j Hj. apply W2. assumption.
    + apply pad_ext. intros j Hj. unfold Pat. apply V2. lia.
Qed.

Lemma stages_ok t m :
  exists m', oloop ns (erk_stage toint rk h w nX t) m = Ok m' /\
    (forall k, (k < w_K w \/ w_xtmp w + nX <= k)%nat -> m' k = m k) /\
    forall s, (s < ns)%nat -> eqv nX (Krow m' s)
      (cb (toint (t + h * t_C T s)) (pad nX (fun i => Xat m i + h * rsum s (fun r => t_A T s r * Krow m' r i))) (pad (w_np w) (Pat m))).
Proof.
  destruct HL as (H1 & H2 & H3 & H4).
  apply (oloop_ind (fun j m' =>
    (forall k, (k < w_K w \/ w_xtmp w + nX <= k)%nat -> m' k = m k) /\
    forall s, (s < j)%nat -> eqv nX (Krow m' s)
      (cb (toint (t + h * t_C T s)) (pad nX (fun i => Xat m i + h * rsum s (fun r => t_A T s r * Krow m' r i))) (pad (w_np w) (Pat m))))
    ns).
  - split; [reflexivity|intros; lia].
  - intros j m1 Hj [Ha Hb]. destruct (stage_ok t j m1 Hj) as [m2 [E2 [V2 W2]]]. exists m2. split; [exact E2|].
    assert (HK : (w_K w + j * nX + nX <= w_xtmp w)%nat).
    { assert ((j + 1) * nX <= rk_ns rk * nX)%nat by (apply Nat.mul_le_mono_r; unfold ns in *; lia). lia. }
    assert (Hkeep : forall s i, (s < j)%nat -> (i < nX)%nat -> Krow m2 s i = Krow m1 s i).
    { intros s i Hs Hi. unfold Krow. pose proof (row_bound s i ltac:(lia) Hi).
      assert (s * nX + nX <= j * nX)%nat by (replace (s * nX + nX)%nat with ((s + 1) * nX)%nat by lia; apply Nat.mul_le_mono_r; lia).
      apply V2; lia. }
    split.
    + intros k Hk. rewrite V2 by lia. apply Ha. assumption.
    + intros s Hs. destruct (Nat.eq_dec s j) as [->|Hne].
      * intros i Hi. rewrite W2 by assumption. f_equal.
        -- apply pad_ext. intros q Hq. f_equal; [unfold Xat; apply Ha; lia|]. f_equal. apply rsum_ext. intros r Hr.
           rewrite Hkeep by assumption. reflexivity.
        -- apply pad_ext. intros q Hq. unfold Pat. apply Ha. lia.
      * intros i Hi. rewrite Hkeep by lia. rewrite Hb by lia. f_equal. apply pad_ext. intros q Hq. f_equal. f_equal. apply rsum_ext.
        intros r Hr. rewrite Hkeep by lia. reflexivity.
Qed.

Lemma update_ok m :
  exists m', erk_update rk h w nX m = Ok m' /\
    (forall k, (k < w_xfor w \/ w_xfor w + nX <= k)%nat -> m' k = m k) /\
    eqv nX (Xat m') (fun i => Xat m i + h * rsum ns (fun s => t_B T s * Krow m s i)).
Proof.
  destruct HL as (H1 & H2 & H3 & H4). destruct HR as (R1 & R2 & R3). unfold erk_update.
  apply (oloop_ind (fun j m' =>
    (forall k, (k < w_xfor w \/ w_xfor w + nX <= k)%nat -> m' k = m k) /\
    eqv nX (Xat m') (fun i => Xat m i + h * rsum j (fun s => t_B T s * Krow m s i))) (rk_ns rk)).
  - split; [reflexivity|]. intros i Hi. cbn [rsum]. lra.
  - intros j m1 Hj [Ha Hb]. rewrite rdm_ok by lia. cbn [obind]. change (rk_mem rk (rk_B rk + j)%nat) with (t_B T j). rsimp.
    destruct (oloop_vset (w_xfor w) nX (fun i => Xat m1 i + h * t_B T j * Krow m j i)
      (fun ii m0 => let! v := rdm (w_size w) m0 (w_xfor w + ii) in let! k := rdm (w_size w) m0 (w_K w + (ii + j * nX)) in
                    wrm (w_size w) m0 (w_xfor w + ii) (v + h * t_B T j * k)) m1) as [m2 [E2 V2]].
    { intros ii m0 Hi Hm. pose proof (row_bound j ii Hj Hi).
      rewrite rdm_ok by lia. cbn [obind]. rewrite rdm_ok by lia. cbn [obind]. rewrite wrm_ok by lia. f_equal. f_equal.
      rewrite !Hm, !vset_out by lia. f_equal. f_equal. unfold Krow. apply Ha. lia. }
    rewrite E2. exists m2. split; [reflexivity|]. split.
    + intros k Hk. rewrite V2, vset_out by lia. apply Ha. assumption.
    + intros i Hi. unfold Xat at 1. rewrite V2, vset_in by lia. rewrite Hb by assumption. cbn [rsum]. lra.
Qed.

(** the ODE the code integrates: its right-hand side sees the time as an int *)
Definition code_ode (p : rv) : R -> rv -> rv := fun t x => cb (toint t) x (pad (w_np w) p).

Lemma step_ok t m :
  exists m', erk_step_c toint rk h w nX (m, t) = Ok (m', t + h) /\
    (forall k, (k < w_xfor w \/ w_xtmp w + nX <= k)%nat -> m' k = m k) /\
    erk_step nX T h (code_ode (Pat m)) t (Xat m) (Xat m').
Proof.
  destruct HL as (H1 & H2 & H3 & H4). unfold erk_step_c.
  destruct (stages_ok t m) as [m1 [E1 [V1 W1]]]. fold ns. rewrite E1. cbn [obind].
  destruct (update_ok m1) as [m2 [E2 [V2 W2]]]. rewrite E2. cbn [obind].
  exists m2. split; [reflexivity|]. split.
  - intros k Hk. rewrite V2 by lia. apply V1. lia.
  - exists (Krow m1). split.
    + intros s Hs i Hi. rewrite W1 by assumption. unfold code_ode. rewrite Rmult_comm. reflexivity.
    + intros i Hi. rewrite W2 by assumption. change (t_ns T) with ns. f_equal. unfold Xat. apply V1. lia.
Qed.

Lemma steps_ok n m :
  exists m' , oloop n (fun _ mt => erk_step_c toint rk h w nX mt) (m, 0) = Ok (m', INR n * h) /\
    (forall k, (k < w_xfor w \/ w_xtmp w + nX <= k)%nat -> m' k = m k) /\
    erk_run nX T h (code_ode (Pat m)) n (Xat m) (Xat m').
Proof.
  destruct HL as (H1 & H2 & H3 & H4).
  induction n as [|n IH].
  - exists m. split; [cbn; rewrite Rmult_0_l; reflexivity|]. split; [reflexivity|]. exists (fun _ => Xat m).
    split; [intros i _; reflexivity|]. split; [intros; lia|intros i _; reflexivity].
  - destruct IH as [m1 [E1 [V1 [y [Y0 [Y1 Y2]]]]]]. cbn [oloop]. rewrite E1. cbn [obind].
    destruct (step_ok (INR n * h) m1) as [m2 [E2 [V2 W2]]]. rewrite E2.
    exists m2. split; [rewrite S_INR; do 2 f_equal; lra|]. split; [intros k Hk; rewrite V2 by assumption; apply V1; assumption|].
    exists (fun j => if Nat.leb j n then y j else Xat m2). split; [exact Y0|]. split.
    + intros j Hj. destruct (Nat.leb_spec j n); [|lia]. destruct (Nat.eq_dec j n) as [->|Hne].
      * destruct (Nat.leb_spec (S n) n); [lia|]. destruct W2 as [kk [K1 K2]].
        exists kk. split.
        -- intros s Hs i Hi. rewrite K1 by assumption.
           unfold code_ode. f_equal.
           ++ apply pad_ext. intros q Hq. rewrite (Y2 q Hq). reflexivity.
           ++ apply pad_ext. intros q Hq. unfold Pat. apply V1. lia.
        -- intros i Hi. rewrite K2 by assumption. rewrite (Y2 i Hi). reflexivity.
      * destruct (Nat.leb_spec (S j) n); [|lia]. apply Y1. lia.
    + destruct (Nat.leb_spec (S n) n); [lia|]. intros i _. reflexivity.
Qed.
End Step.
