(** DenKktProofs4.v -- dense KKT solver over the reals: recovery of slacks and multipliers, the full Newton system, the retry loop. *)
From Coq Require Import ZArith Bool Arith Lia Reals Lra FunctionalExtensionality.
From Verif Require Import Base ArithF RSum Blas Blas2 CoreModel CoreProofs OcpModel ResSpec ResProofs CholProofs CholPD KktModel KktSpec KktProofs KktProofs2 KktProofs3 KktProofs4 KktProofs5 KktProofs6 SolveProofs DenModel DenSpec DenProofs DenKktModel DenKktSpec DenKktProofs DenKktAlg DenKktProofs2 DenKktProofs3.
Local Open Scope R_scope.

Lemma vset_nil {A} (x : nat -> A) o g : vset x o 0 g = x.
Proof. apply functional_extensionality. intros k. apply vset_out. lia. Qed.

(** the dense QP as stage 0 of an OCP QP whose dynamics carry the extra force e *)
Definition two_stage (q : dqp R) (e : rvec) : oqp R :=
  mkqp (mkdims 1 (fun i => match i with O => d_nv q | _ => 1%nat end) (fun _ => 0%nat) (fun i => match i with O => d_nb q | _ => 0%nat end) (fun i => match i with O => d_ng q | _ => 0%nat end) (fun i => match i with O => d_ns q | _ => 0%nat end))
    (fun _ i _ => e i) (fun _ => d_H q) (fun _ => d_Ct q) (fun _ _ => 0) (fun _ => d_gz q) (fun _ => d_d q) (fun _ => d_mask q) (fun _ => d_m q)
    (fun _ => d_Z q) (fun _ => d_idxb q) (fun _ => d_idxs_rev q).

Section Den.
Variables (a : dka R) (q : dqp R).
Notation nv := (d_nv q). Notation ne := (d_ne q). Notation nb := (d_nb q). Notation ng := (d_ng q). Notation ns := (d_ns q).
Notation reg := (da_reg a).
Notation oq := (one_stage q).
Hypothesis Hwf : den_wf q.
Hypothesis Hinj : den_soft_inj q.
Hypothesis Hp : den_point a q.
Hypothesis Hm : den_mask01 q.

Lemma two_wf e : qp_wf (two_stage q e).
Proof. intros i Hi. destruct i as [|i]; [exact Hwf|]. split; cbn; intros; lia. Qed.
Lemma two_inj e : soft_inj (two_stage q e).
Proof. intros i j j' Hi. destruct i as [|i]; cbn; intros; [apply Hinj; assumption|lia]. Qed.
Lemma den_lin_eq e Gamma Zs dv dt : den_lin q Gamma Zs (dv, dt) = lin_stage (two_stage q e) Gamma Zs 0 (dv, dt).
Proof.
  unfold den_lin, lin_stage. cbn [two_stage q_dim dnu dnx dnb dng dns q_idxb q_DCt q_idxs_rev Nat.add].
  assert (E1 : (if (0 <? nb)%nat then VECEX_SP nb f1 (d_idxb q) dv 0 dt 0 else dt) = VECEX_SP nb f1 (d_idxb q) dv 0 dt 0).
  { destruct (Nat.ltb_spec 0 nb) as [H|H]; [reflexivity|]. unfold VECEX_SP. replace (d_nb q) with 0%nat by lia. symmetry. apply vset_nil. }
  rewrite E1. set (t1 := VECEX_SP nb f1 (d_idxb q) dv 0 dt 0).
  assert (E2 : (if (0 <? ng)%nat then GEMV_T nv ng f1 (d_Ct q) 0 0 dv 0 f0 t1 nb t1 nb else t1) = GEMV_T nv ng f1 (d_Ct q) 0 0 dv 0 f0 t1 nb t1 nb).
  { destruct (Nat.ltb_spec 0 ng) as [H|H]; [reflexivity|]. unfold GEMV_T. replace (d_ng q) with 0%nat by lia. symmetry. apply vset_nil. }
  rewrite E2. destruct (0 <? ns)%nat; [|reflexivity]. apply den_expand_R.
Qed.

(** the values of t_inv, Gamma, gamma *)
Definition Gg_ok (tinv Gamma gamma : rvec) : Prop := forall c, (c < d_nct q)%nat ->
  tinv c = 1 / da_t a c /\ Gamma c = den_wgt a c /\ gamma c = 1 / da_t a c * (d_m q c - da_lam a c * d_d q c).
Lemma clip_wgt c : (c < d_nct q)%nat -> (if (da_tlm a =? 1)%Z then (if Rltb (da_t a c) (da_t_min a) then da_t_min_inv a else 1 / da_t a c) * (if Rltb (da_lam a c) (da_lam_min a) then da_lam_min a else da_lam a c)
      else 1 / da_t a c * da_lam a c) = den_wgt a c.
Proof.
  intros Hc. unfold den_wgt. destruct (Z.eqb_spec (da_tlm a) 1) as [E|E]; [|unfold Rdiv; lra].
  destruct (dp_clip _ _ Hp) as [E'|Hcl]; [contradiction|]. destruct (Hcl c Hc) as (C1 & C2).
  destruct (Rltb_spec (da_t a c) (da_t_min a)); [lra|]. destruct (Rltb_spec (da_lam a c) (da_lam_min a)); [lra|]. unfold Rdiv. lra.
Qed.
Lemma den_Gg_R g3 : let '(tinv, Gamma, gamma) := den_Gg a q g3 in Gg_ok tinv Gamma gamma.
Proof.
  unfold den_Gg. destruct g3 as [[ti0 G0] g0]. destruct (Nat.ltb_spec 0 (nb + ng + ns)) as [H|H].
  - destruct (compute_Gamma_gamma _ _ _ _ _ _ _ _ _ _) as [[tinv Gamma] gamma] eqn:E. intros c Hc.
    pose proof (compute_Gamma_gamma_spec (da_tlm a) (d_nct q) (da_lam a) (da_t a) (da_lam_min a) (da_t_min a) (da_t_min_inv a) (d_d q) (d_m q) ti0 G0 g0 c) as X. rewrite E in X. destruct X as (X1 & X2 & X3).
    apply Nat.ltb_lt in Hc as Hc'. rewrite Hc' in *. revert X1 X2 X3. rsimp. rewrite R_lit11. intros X1 X2 X3. split; [exact X1|]. split; [|exact X3]. rewrite X2. apply clip_wgt. exact Hc.
  - intros c Hc. unfold d_nct in Hc. lia.
Qed.

(** full system from the reduced one *)
Lemma den_assemble tinv Gamma gamma Zs dv dpi dlam dt (rr : rvec) :
  Gg_ok tinv Gamma gamma -> (forall k, (k < 2 * ns)%nat -> Zs k = Zq oq 0 reg Gamma k) -> (forall k, (k < 2 * ns)%nat -> dv (nv + k)%nat = Rq oq 0 gamma k) ->
  (forall i, (i < nv)%nat -> rsum nv (fun j => dM a q Gamma i j * dv j) + rr i + dh a q Gamma gamma i - rsum ne (fun j => d_A q j i * dpi j) = 0) ->
  let '(v', lam', t') := den_epilogue a q tinv Gamma Zs dv dlam dt in
  (forall i, (i < nv)%nat -> v' i = dv i) /\
  (forall k, (k < dnv q)%nat -> den_kkt_g q v' dpi lam' k + (if (k <? nv)%nat then rr k else reg * v' k) = 0) /\
  (forall c, (c < d_nct q)%nat -> d_d q c + t' c - den_con q v' c = 0) /\
  (forall c, (c < d_nct q)%nat -> d_m q c + da_lam a c * t' c + lam' c * da_t a c = 0).
Proof.
  intros HG HZ HR Hst. set (e := fun k => rr k - rsum ne (fun j => d_A q j k * dpi j)). set (o := two_stage q e).
  pose proof (newton_stage o reg (fun _ => Gamma) (fun _ => gamma) (fun _ => 0) 0 dv dt Zs (fun _ _ => 1)) as NS.
  pose proof (lin_stage_R o Gamma Zs 0 dv dt (two_wf e 0%nat ltac:(lia))) as LR. unfold o in LR, NS at 9. rewrite <- (den_lin_eq e) in LR. 
  assert (EL : lin_stage o Gamma Zs 0 (dv, dt) = den_lin q Gamma Zs (dv, dt)) by (symmetry; apply den_lin_eq).
  assert (NS' : forall lamv, let '(u, t) := den_lin q Gamma Zs (dv, dt) in (forall c, (c < d_nct q)%nat -> lamv c = - (Gamma c * t c + gamma c)) ->
     forall k, (k < dnv q)%nat -> rsum (dnv q) (fun l => den_Hess q k l * u l) + d_gz q k + (if (k <? nv)%nat then e k else 0) - rsum (d_nct q) (fun c => den_G q c k * lamv c) = - (if (k <? nv)%nat then 0 else reg) * u k).
  { intros lamv. specialize (NS lamv ltac:(lia) (two_wf e) (two_inj e)).
    assert (P1 : forall k, (k < 2 * dns (q_dim o) 0)%nat -> slack_pivot o reg Gamma 0 k <> 0).
    { intros k Hk. cbn in Hk. pose proof (dp_piv _ _ Hp k ltac:(lia)) as P. intros Z. apply P. rewrite <- Z. unfold den_pivot, slack_pivot. cbn [o two_stage q_dim q_Z dnb dng dns q_idxs_rev].
      assert (EG : forall c, (c < d_nct q)%nat -> den_wgt a c = Gamma c) by (intros c Hc; symmetry; apply HG; exact Hc). f_equal; [f_equal; apply EG; unfold d_nct; lia|].
      apply rsum_ext. intros j Hj. rewrite !EG by (unfold d_nct; lia). reflexivity. }
    specialize (NS P1 (fun k Hk => conj (HZ k Hk) (HR k Hk))).
    assert (P2 : forall i, (i < nux o 0)%nat -> rsum (nux o 0) (fun j => stH o reg (fun _ => Gamma) (fun _ => 0) 0 i j * dv j) + sth o reg (fun _ => Gamma) (fun _ => gamma) 0 i
       + (if (0 <? dN (q_dim o))%nat then rsum (dnx (q_dim o) 1) (fun l => q_BAbt o 0 i l * 1) else 0) - (if ((0 <? 0) && (dnu (q_dim o) 0 <=? i))%nat then 1 else 0) = 0).
    { intros i Hi. specialize (Hst i Hi). change (0 <? dN (q_dim o))%nat with true. change (0 <? 0)%nat with false. cbn [andb]. cbv iota. change (dnx (q_dim o) 1) with 1%nat. cbn [rsum]. change (q_BAbt o 0 i 0%nat) with (e i).
      change (rsum nv (fun j => dM a q Gamma i j * dv j) + dh a q Gamma gamma i + (0 + e i * 1) - 0 = 0). unfold e. lra. }
    specialize (NS P2). rewrite EL in NS. destruct (den_lin q Gamma Zs (dv, dt)) as [u t]. intros Hl k Hk. specialize (NS Hl k Hk).
    change (0 <? dN (q_dim o))%nat with true in NS. change (0 <? 0)%nat with false in NS. cbn [andb] in NS. cbv iota in NS. change (dnx (q_dim o) 1) with 1%nat in NS. cbn [rsum] in NS. change (q_BAbt o 0 k 0%nat) with (e k) in NS.
    change (nvt (q_dim o) 0) with (dnv q) in NS. change (nct (q_dim o) 0) with (d_nct q) in NS. change (nux o 0) with nv in NS. change (Hess o 0) with (den_Hess q) in NS. change (G o 0) with (den_G q) in NS. change (q_rqz o 0) with (d_gz q) in NS.
    rewrite <- NS. destruct (k <? nv)%nat; lra. }
  clear NS. unfold den_epilogue. destruct (Nat.ltb_spec 0 (nb + ng + ns)) as [Hc0|Hc0].
  - destruct (den_lin q Gamma Zs (dv, dt)) as [u t] eqn:ED. destruct LR as (U & _ & T).
    assert (U' : forall i, (i < nv)%nat -> u i = dv i) by exact U. assert (T' : forall c, (c < d_nct q)%nat -> t c = den_con q u c) by exact T. clear U T.
    pose proof (fun c => compute_lam_t_spec (d_nct q) (da_lam a) tinv (d_d q) (d_m q) dlam t c) as CL. destruct (compute_lam_t _ _ _ _ _ _) as [lam' t'].
    assert (L1 : forall c, (c < d_nct q)%nat -> lam' c = - (Gamma c * t c + gamma c)).
    { intros c Hc. destruct (CL c) as (X & _). apply Nat.ltb_lt in Hc as Hc'. rewrite Hc' in X. rewrite X. destruct (HG c Hc) as (E1 & E2 & E3). rewrite E1, E2, E3. unfold den_wgt. rsimp. unfold Rdiv. ring. }
    assert (L2 : forall c, (c < d_nct q)%nat -> t' c = t c - d_d q c) by (intros c Hc; destruct (CL c) as (_ & X); apply Nat.ltb_lt in Hc as Hc'; rewrite Hc' in X; exact X).
    split; [exact U'|]. split; [|split].
    + intros k Hk. pose proof (NS' lam') as X. cbv beta iota in X. specialize (X L1 k Hk). unfold den_kkt_g.
      rewrite (rsum_ext (d_nct q) (fun c => den_G q c k * (d_mask q c * lam' c)) (fun c => den_G q c k * lam' c)).
      * destruct (k <? nv)%nat; unfold e in X; lra.
      * intros c Hc. f_equal. destruct (Hm c Hc) as [E|E]; rewrite E; [|lra]. rewrite Rmult_0_l. rewrite L1 by exact Hc. destruct (dp_mask _ _ Hp c Hc E) as (M1 & M2). destruct (HG c Hc) as (_ & E2 & E3). rewrite E2, E3. unfold den_wgt. rewrite M1, M2. unfold Rdiv. ring.
    + intros c Hc. rewrite L2, T' by exact Hc. lra.
    + intros c Hc. rewrite L1, L2 by exact Hc. destruct (HG c Hc) as (_ & E2 & E3). rewrite E2, E3. unfold den_wgt. field. apply Hp. exact Hc.
  - split; [reflexivity|]. split; [|split; intros c Hc; unfold d_nct in Hc; lia].
    intros k Hk. pose proof (NS' dlam) as X. destruct (den_lin q Gamma Zs (dv, dt)) as [u t]. destruct LR as (U & _ & _). assert (U' : forall i, (i < nv)%nat -> u i = dv i) by exact U. clear U.
    assert (Hnc : d_nct q = 0%nat) by (unfold d_nct; lia). assert (Hdn : dnv q = nv) by (unfold dnv; lia). specialize (X ltac:(intros c Hc; lia) k Hk). unfold den_kkt_g. rewrite Hnc in *. cbn [rsum] in *. rewrite Hdn in *. apply Nat.ltb_lt in Hk as Hk'. rewrite Hk' in *.
    rewrite (rsum_ext nv _ (fun l => den_Hess q k l * dv l)) in X by (intros l Hl; rewrite U' by exact Hl; reflexivity). unfold e in X. lra.
Qed.
End Den.
