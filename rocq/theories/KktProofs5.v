(** KktProofs5.v -- recovery of slacks, multipliers and constraint slacks; the full Newton system. *)
From Coq Require Import ZArith Bool Arith Lia Reals Lra.
From Verif Require Import Base ArithF RSum Blas Blas2 CoreModel CoreProofs OcpModel ResSpec KktSpec ResProofs CholProofs KktModel KktProofs KktProofs2 KktProofs3 KktProofs4.
Local Open Scope R_scope.

(** add v(sf j) to entries j and nbg+j *)
Lemma gather2 (sf : nat -> Z) (nbg o1 o2 : nat) (v : rvec) p (dt : rvec) : (p <= nbg)%nat ->
  let dt' := loop p (fun ii dt => if Z.eqb (sf ii) (-1) then dt else
      let idx := Z.to_nat (sf ii) in let dt := upd dt ii (dt ii + v (o1 + idx)%nat) in upd dt (nbg + ii)%nat (dt (nbg + ii)%nat + v (o2 + idx)%nat)) dt in
  (forall j, (j < p)%nat -> dt' j = dt j + (if Z.eqb (sf j) (-1) then 0 else v (o1 + Z.to_nat (sf j))%nat) /\ dt' (nbg + j)%nat = dt (nbg + j)%nat + (if Z.eqb (sf j) (-1) then 0 else v (o2 + Z.to_nat (sf j))%nat)) /\
  (forall c, (p <= c < nbg \/ nbg + p <= c)%nat -> dt' c = dt c).
Proof.
  induction p as [|p IH]; intros Hp; cbv zeta.
  - cbn [loop]. split; [intros; lia|reflexivity].
  - specialize (IH ltac:(lia)). cbv zeta in IH. cbn [loop]. set (d1 := loop p _ dt) in *. destruct IH as (I1 & I2).
    destruct (Z.eqb (sf p) (-1)) eqn:E.
    + split; [|intros; apply I2; lia]. intros j Hj. destruct (Nat.eq_dec j p) as [->|Hne]; [|apply I1; lia]. rewrite E. rewrite !I2 by lia. lra.
    + split.
      * intros j Hj. destruct (Nat.eq_dec j p) as [->|Hne].
        -- rewrite E, upd_same. rewrite (upd_other _ (nbg + p)) by lia. rewrite upd_same. rewrite (upd_other _ p) by lia. rewrite !I2 by lia. lra.
        -- rewrite !upd_other by lia. apply I1. lia.
      * intros c Hc. rewrite !upd_other by lia. apply I2. lia.
Qed.

Section Expand.
Variables (n nb ng ns : nat) (sf : nat -> Z) (Gamma Zs dux dt : rvec).
Notation nbg := (nb + ng)%nat.
Lemma expand_slacks_R : let '(u, t) := expand_slacks n nb ng ns sf Gamma Zs (dux, dt) in
  (forall i, (i < n)%nat -> (forall j, (j < nbg)%nat -> (sf j = -1 \/ 0 <= sf j)%Z) -> u i = dux i) /\
  (forall k, (k < 2 * ns)%nat -> u (n + k)%nat = - Zs k * (dux (n + k)%nat + softsum nb ng ns sf (fun c => Gamma c * dt c) k)) /\
  (forall j, (j < nbg)%nat -> t j = dt j + (if Z.eqb (sf j) (-1) then 0 else u (n + Z.to_nat (sf j))%nat)) /\
  (forall j, (j < nbg)%nat -> t (nbg + j)%nat = dt (nbg + j)%nat + (if Z.eqb (sf j) (-1) then 0 else u (n + ns + Z.to_nat (sf j))%nat)) /\
  (forall k, (k < 2 * ns)%nat -> t (2 * nb + 2 * ng + k)%nat = u (n + k)%nat).
Proof.
  unfold expand_slacks.
  pose proof (scatter2 sf n (n + ns) (fun i => Gamma i * dt i) (fun i => Gamma (nbg + i)%nat * dt (nbg + i)%nat) nbg dux) as H1.
  set (u1 := loop nbg (fun ii dux => if (sf ii =? -1)%Z then dux else _) dux).
  assert (H1' : forall k, u1 k = dux k + rsum nbg (fun j => soft_co sf n j k * (Gamma j * dt j) + soft_co sf (n + ns) j k * (Gamma (nbg + j)%nat * dt (nbg + j)%nat))) by exact H1.
  clear H1. clearbody u1.
  set (f := fun (idx : nat) '((dux, dt) : (nat -> R) * (nat -> R)) => _).
  assert (H2 : forall p, (p <= ns)%nat -> let '(u, t) := loop p f (u1, dt) in
    (forall k, (k < p \/ ns <= k < ns + p)%nat -> u (n + k)%nat = - Zs k * u1 (n + k)%nat /\ t (2 * nb + 2 * ng + k)%nat = u (n + k)%nat) /\
    (forall k, (k < n \/ n + p <= k < n + ns \/ n + ns + p <= k)%nat -> u k = u1 k) /\ (forall c, (c < 2 * nb + 2 * ng)%nat -> t c = dt c)).
  { induction p as [|p IH]; intros Hp; cbn [loop].
    - split; [intros; lia|]. split; reflexivity.
    - specialize (IH ltac:(lia)). destruct (loop p f (u1, dt)) as [u t]. destruct IH as (I1 & I2 & I3). unfold f. split; [|split].
      + intros k Hk. rsimp. destruct (Nat.eq_dec k (ns + p)) as [->|N1].
        * replace (n + (ns + p))%nat with (n + ns + p)%nat by lia. replace (2 * nb + 2 * ng + (ns + p))%nat with (2 * nb + 2 * ng + ns + p)%nat by lia. rewrite !upd_same. rewrite (upd_other _ (n + p)) by lia. rewrite I2 by lia. split; reflexivity.
        * rewrite !(upd_other _ (n + ns + p)) by lia. rewrite !(upd_other _ (2 * nb + 2 * ng + ns + p)) by lia. destruct (Nat.eq_dec k p) as [->|N2].
          -- rewrite !upd_same. rewrite I2 by lia. split; reflexivity.
          -- rewrite !upd_other by lia. apply I1. lia.
      + intros k Hk. rewrite !upd_other by lia. apply I2. lia.
      + intros c Hc. rewrite !upd_other by lia. apply I3. exact Hc. }
  specialize (H2 ns (le_n _)). destruct (loop ns f (u1, dt)) as [u t]. destruct H2 as (I1 & I2 & I3).
  pose proof (gather2 sf nbg n (n + ns) u nbg t (le_n _)) as H3. cbv zeta in H3.
  set (t' := loop nbg _ t).
  assert (H3' : (forall j, (j < nbg)%nat -> t' j = t j + (if Z.eqb (sf j) (-1) then 0 else u (n + Z.to_nat (sf j))%nat) /\ t' (nbg + j)%nat = t (nbg + j)%nat + (if Z.eqb (sf j) (-1) then 0 else u (n + ns + Z.to_nat (sf j))%nat)) /\
    (forall c, (nbg <= c < nbg \/ nbg + nbg <= c)%nat -> t' c = t c)) by exact H3.
  clear H3. clearbody t'. destruct H3' as (J1 & J2). split; [|split; [|split; [|split]]].
  - intros i Hi Hsf. rewrite I2 by lia. rewrite H1'. rewrite rsum_0; [lra|]. intros j Hj. unfold soft_co. destruct (Z.eqb_spec (sf j) (-1)); [lra|].
    destruct (Nat.eqb_spec i (n + Z.to_nat (sf j))); [lia|]. destruct (Nat.eqb_spec i (n + ns + Z.to_nat (sf j))); [lia|]. lra.
  - intros k Hk. destruct (I1 k ltac:(lia)) as (-> & _). rewrite H1'. f_equal. f_equal. unfold softsum. apply rsum_ext. intros j Hj.
    rewrite <- (soft_shift n sf 0 j k), <- (soft_shift n sf ns j k). cbn [Nat.add]. rewrite (Nat.add_comm ns n). reflexivity.
  - intros j Hj. destruct (J1 j Hj) as (-> & _). rewrite I3 by lia. reflexivity.
  - intros j Hj. destruct (J1 j Hj) as (_ & ->). rewrite I3 by lia. reflexivity.
  - intros k Hk. rewrite J2 by lia. apply I1. lia.
Qed.
End Expand.

Section Full.
Variable qp : oqp R.
Notation D := (q_dim qp).
Notation N := (dN D).

Lemma lin_stage_R (Gamma Zs : rvec) ss (z t0 : rvec) : stage_wf (nux qp ss) (dnb D ss) (dng D ss) (dns D ss) (q_idxb qp ss) (q_idxs_rev qp ss) ->
  let '(u, t) := lin_stage qp Gamma Zs ss (z, t0) in
  let rz j := rsum (nux qp ss) (fun k => rowq qp ss j k * z k) in
  (forall i, (i < nux qp ss)%nat -> u i = z i) /\
  (forall k, (k < 2 * dns D ss)%nat -> u (nux qp ss + k)%nat = - Zs k * (z (nux qp ss + k)%nat + rsum (dnb D ss + dng D ss) (fun j =>
       soft_co (q_idxs_rev qp ss) 0 j k * (Gamma j * rz j) + soft_co (q_idxs_rev qp ss) (dns D ss) j k * (Gamma (dnb D ss + dng D ss + j)%nat * - rz j)))) /\
  (forall c, (c < nct D ss)%nat -> t c = rsum (nvt D ss) (fun k => G qp ss c k * u k)).
Proof.
  intros Hwf. pose proof Hwf as (Hib & Hsf). unfold lin_stage. change (dnu D ss + dnx D ss)%nat with (nux qp ss).
  set (n := nux qp ss) in *. set (nb := dnb D ss) in *. set (ng := dng D ss) in *. set (ns := dns D ss) in *. set (sf := q_idxs_rev qp ss) in *.
  set (t1 := VECEX_SP _ _ _ _ _ _ _). set (t2 := GEMV_T _ _ _ _ _ _ _ _ _ _ _ _ _). set (t3 := VECCP _ _ _ _ _). set (t4 := VECSC _ _ _ _).
  set (rz := fun j => rsum n (fun k => rowq qp ss j k * z k)).
  assert (E1 : forall j, (j < nb)%nat -> t1 j = rz j).
  { intros j Hj. unfold t1, VECEX_SP. rewrite vset0 by assumption. cbn [Nat.add]. rsimp. rewrite R_lit11. unfold rz, rowq. fold nb. rewrite row_val; [lra|exact Hj|apply Hib; exact Hj]. }
  assert (E2 : forall j, (j < nb + ng)%nat -> t2 j = rz j).
  { intros j Hj. unfold t2, GEMV_T. destruct (Nat.lt_ge_cases j nb) as [H|H].
    - rewrite vset_out by lia. apply E1. exact H.
    - rewrite vset_in' by lia. cbn [Nat.add]. rewrite fsum_R. rsimp. rewrite R_lit01, R_lit11. unfold rz, rowq. fold nb. rewrite row_val_g by assumption. lra. }
  assert (E3 : forall j, (j < nb + ng)%nat -> t4 j = rz j /\ t4 (nb + ng + j)%nat = - rz j).
  { intros j Hj. unfold t4, VECSC. split.
    - rewrite vset_out by lia. unfold t3, VECCP. rewrite vset_out by lia. apply E2. exact Hj.
    - rewrite vset_o by lia. unfold t3, VECCP. rewrite vset_o by lia. cbn [Nat.add]. rewrite E2 by exact Hj. rsimp. rewrite R_lit11. lra. }
  clearbody t4. cbv zeta.
  assert (Fin : forall u t, (forall i, (i < n)%nat -> u i = z i) ->
    (forall j, (j < nb + ng)%nat -> t j = rz j + (if Z.eqb (sf j) (-1) then 0 else u (n + Z.to_nat (sf j))%nat)) ->
    (forall j, (j < nb + ng)%nat -> t (nb + ng + j)%nat = - rz j + (if Z.eqb (sf j) (-1) then 0 else u (n + ns + Z.to_nat (sf j))%nat)) ->
    (forall k, (k < 2 * ns)%nat -> t (2 * nb + 2 * ng + k)%nat = u (n + k)%nat) ->
    forall c, (c < nct D ss)%nat -> t c = rsum (nvt D ss) (fun k => G qp ss c k * u k)).
  { intros u t U T1 T2 T3 c Hc. unfold nct in Hc. fold nb ng ns in Hc.
    assert (Er : forall j, rsum n (fun k => row_co nb (q_idxb qp ss) (q_DCt qp ss) j k * u k) = rz j). { intros j. apply rsum_ext. intros k Hk. rewrite U by assumption. reflexivity. }
    change (nvt D ss) with (n + 2 * ns)%nat. unfold G. fold n nb ng ns sf.
    destruct (Nat.lt_ge_cases c (nb + ng)) as [H|H].
    - rewrite G_val_lo by assumption. rewrite T1 by assumption. rewrite Er. reflexivity.
    - destruct (Nat.lt_ge_cases c (2 * (nb + ng))) as [H'|H'].
      + rewrite G_val_up by (try assumption; lia). rewrite Er. replace c with (nb + ng + (c - (nb + ng)))%nat at 1 by lia. rewrite T2 by lia. reflexivity.
      + rewrite G_val_sl by lia. replace c with (2 * nb + 2 * ng + (c - 2 * (nb + ng)))%nat at 1 by lia. rewrite T3 by lia. reflexivity. }
  destruct (Nat.ltb_spec 0 ns) as [Hns|Hns].
  - pose proof (expand_slacks_R n nb ng ns sf Gamma Zs z t4) as HE. destruct (expand_slacks _ _ _ _ _ _ _ _) as [u t]. destruct HE as (X1 & X2 & X3 & X4 & X5).
    assert (U : forall i, (i < n)%nat -> u i = z i). { intros i Hi. apply X1; [exact Hi|]. intros j Hj. destruct (Hsf j Hj); lia. }
    split; [exact U|]. split.
    + intros k Hk. rewrite X2 by exact Hk. f_equal. f_equal. unfold softsum. apply rsum_ext. intros j Hj. destruct (E3 j Hj) as (-> & ->). reflexivity.
    + apply Fin; [exact U| | |exact X5].
      * intros j Hj. rewrite X3 by exact Hj. destruct (E3 j Hj) as (-> & _). reflexivity.
      * intros j Hj. rewrite X4 by exact Hj. destruct (E3 j Hj) as (_ & ->). reflexivity.
  - assert (Hm : forall c, (c < nb + ng)%nat -> Z.eqb (sf c) (-1) = true). { intros c Hc. apply Z.eqb_eq. destruct (Hsf c Hc); lia. }
    split; [reflexivity|]. split; [intros; lia|]. apply Fin.
    + reflexivity.
    + intros j Hj. rewrite Hm by exact Hj. destruct (E3 j Hj) as (-> & _). lra.
    + intros j Hj. rewrite Hm by exact Hj. destruct (E3 j Hj) as (_ & ->). lra.
    + intros; lia.
Qed.

(** one constraint per slack *)
Notation soft_inj := (soft_inj qp).

(** value of the slack of constraint j when it is the only one it softens *)
Lemma soft_pick (nb ng ns : nat) (sf : nat -> Z) (a b : rvec) j : (forall j, (j < nb + ng)%nat -> (sf j = -1 \/ 0 <= sf j < Z.of_nat ns)%Z) ->
  (forall j', (j' < nb + ng)%nat -> sf j' = sf j -> j' = j) -> (j < nb + ng)%nat -> sf j <> (-1)%Z ->
  rsum (nb + ng) (fun j' => soft_co sf 0 j' (Z.to_nat (sf j)) * a j' + soft_co sf ns j' (Z.to_nat (sf j)) * b j') = a j /\
  rsum (nb + ng) (fun j' => soft_co sf 0 j' (ns + Z.to_nat (sf j)) * a j' + soft_co sf ns j' (ns + Z.to_nat (sf j)) * b j') = b j.
Proof.
  intros Hsf Hinj Hj Hne. assert (Hj2 : (0 <= sf j < Z.of_nat ns)%Z) by (destruct (Hsf j Hj); [contradiction|assumption]).
  split.
  - rewrite <- (rsum_one (nb + ng) j a Hj). apply rsum_ext. intros j' Hj'. unfold soft_co. destruct (Z.eqb_spec (sf j') (-1)) as [E|E].
    + destruct (Nat.eqb_spec j' j) as [->|]; [contradiction|lra].
    + destruct (Hsf j' Hj') as [|Hs]; [contradiction|]. destruct (Nat.eqb_spec (Z.to_nat (sf j)) (ns + Z.to_nat (sf j'))); [lia|]. cbn [Nat.add].
      destruct (Nat.eqb_spec (Z.to_nat (sf j)) (Z.to_nat (sf j'))) as [E1|E1]; destruct (Nat.eqb_spec j' j) as [E2|E2]; subst; try lra; try lia. exfalso. apply E2. apply Hinj; [exact Hj'|lia].
  - rewrite <- (rsum_one (nb + ng) j b Hj). apply rsum_ext. intros j' Hj'. unfold soft_co. destruct (Z.eqb_spec (sf j') (-1)) as [E|E].
    + destruct (Nat.eqb_spec j' j) as [->|]; [contradiction|lra].
    + destruct (Hsf j' Hj') as [|Hs]; [contradiction|]. cbn [Nat.add]. destruct (Nat.eqb_spec (ns + Z.to_nat (sf j)) (Z.to_nat (sf j'))); [lia|].
      destruct (Nat.eqb_spec (ns + Z.to_nat (sf j)) (ns + Z.to_nat (sf j'))) as [E1|E1]; destruct (Nat.eqb_spec j' j) as [E2|E2]; subst; try lra; try lia. exfalso. apply E2. apply Hinj; [exact Hj'|lia].
Qed.

(** pivot of slack k of stage i, from the slack Hessian, the regularisation and the weights Gamma = lam/t *)
Notation slack_pivot := (slack_pivot qp).

(** the step of a stage: hard variables [z], its slacks recovered by lin_stage, multipliers eliminated *)
Lemma newton_stage (reg : R) (Gam gam : nat -> rvec) rho ss (z t0 Zs : rvec) (pi : nat -> rvec) (lamv : rvec) :
  (ss <= N)%nat -> qp_wf qp -> soft_inj ->
  (forall k, (k < 2 * dns D ss)%nat -> slack_pivot reg (Gam ss) ss k <> 0) ->
  (forall k, (k < 2 * dns D ss)%nat -> Zs k = Zq qp ss reg (Gam ss) k /\ z (nux qp ss + k)%nat = Rq qp ss (gam ss) k) ->
  (forall i, (i < nux qp ss)%nat ->
     rsum (nux qp ss) (fun j => stH qp reg Gam rho ss i j * z j) + sth qp reg Gam gam ss i
     + (if (ss <? N)%nat then rsum (dnx D (S ss)) (fun l => q_BAbt qp ss i l * pi ss l) else 0)
     - (if ((0 <? ss) && (dnu D ss <=? i))%nat then pi (ss - 1)%nat (i - dnu D ss)%nat else 0) = 0) ->
  let '(u, t) := lin_stage qp (Gam ss) Zs ss (z, t0) in
  (forall c, (c < nct D ss)%nat -> lamv c = - (Gam ss c * t c + gam ss c)) ->
  forall k, (k < nvt D ss)%nat ->
  rsum (nvt D ss) (fun l => Hess qp ss k l * u l) + q_rqz qp ss k
  + (if ((ss <? N) && (k <? nux qp ss))%nat then rsum (dnx D (S ss)) (fun j => q_BAbt qp ss k j * pi ss j) else 0)
  - (if ((0 <? ss) && (dnu D ss <=? k) && (k <? nux qp ss))%nat then pi (ss - 1)%nat (k - dnu D ss)%nat else 0)
  - rsum (nct D ss) (fun c => G qp ss c k * lamv c) = - (if (k <? nux qp ss)%nat then rho k else reg) * u k.
Proof.
  intros Hss Hwf Hinj Hpiv HZ Hst. specialize (Hwf ss Hss). pose proof Hwf as (Hib & Hsf).
  pose proof (lin_stage_R (Gam ss) Zs ss z t0 Hwf) as HL. destruct (lin_stage _ _ _ _ _) as [u t]. cbv zeta in HL. destruct HL as (U & Us & Tv). intros Hlam k Hk.
  set (n := nux qp ss) in *. set (nb := dnb D ss) in *. set (ng := dng D ss) in *. set (ns := dns D ss) in *. set (sf := q_idxs_rev qp ss) in *.
  set (Ga := Gam ss) in *. set (ga := gam ss) in *.
  set (rz := fun j => rsum n (fun k => rowq qp ss j k * z k)).
  assert (Er : forall j, rsum n (fun k => row_co nb (q_idxb qp ss) (q_DCt qp ss) j k * u k) = rz j). { intros j. apply rsum_ext. intros l Hl. rewrite U by assumption. reflexivity. }
  assert (Us' : forall k, (k < 2 * ns)%nat -> u (n + k)%nat = - Zs k * (z (n + k)%nat + rsum (nb + ng) (fun j => soft_co sf 0 j k * (Ga j * rz j) + soft_co sf ns j k * (Ga (nb + ng + j)%nat * - rz j)))) by exact Us.
  clear Us.
  (* constraint values *)
  assert (Tlo : forall j, (j < nb + ng)%nat -> t j = rz j + (if Z.eqb (sf j) (-1) then 0 else u (n + Z.to_nat (sf j))%nat)).
  { intros j Hj. rewrite Tv by (unfold nct; fold nb ng ns; lia). change (nvt D ss) with (n + 2 * ns)%nat. unfold G. fold n nb ng ns sf. rewrite G_val_lo by assumption. rewrite Er. reflexivity. }
  assert (Tup : forall j, (j < nb + ng)%nat -> t (nb + ng + j)%nat = - rz j + (if Z.eqb (sf j) (-1) then 0 else u (n + ns + Z.to_nat (sf j))%nat)).
  { intros j Hj. rewrite Tv by (unfold nct; fold nb ng ns; lia). change (nvt D ss) with (n + 2 * ns)%nat. unfold G. fold n nb ng ns sf. rewrite G_val_up by (try assumption; lia). rewrite Er. replace (nb + ng + j - (nb + ng))%nat with j by lia. reflexivity. }
  assert (Tsl : forall l, (l < 2 * ns)%nat -> t (2 * nb + 2 * ng + l)%nat = u (n + l)%nat).
  { intros l Hl. rewrite Tv by (unfold nct; fold nb ng ns; lia). change (nvt D ss) with (n + 2 * ns)%nat. unfold G. fold n nb ng ns sf. rewrite G_val_sl by lia. f_equal. lia. }
  change (nct D ss) with (2 * nb + 2 * ng + 2 * ns)%nat in *. change (nvt D ss) with (n + 2 * ns)%nat in *.
  unfold Hess, G. fold n nb ng ns sf.
  (* slack equation *)
  assert (Sl : forall l, (l < 2 * ns)%nat -> slack_pivot reg Ga ss l * u (n + l)%nat = - (sl_rhs n nb ng ns sf (q_rqz qp ss) ga l + rsum (nb + ng) (fun j => soft_co sf 0 j l * (Ga j * rz j) + soft_co sf ns j l * (Ga (nb + ng + j)%nat * - rz j)))).
  { intros l Hl. rewrite Us' by exact Hl. destruct (HZ l Hl) as (-> & ->). set (S := rsum (nb + ng) _). unfold Zq, Rq. fold n nb ng ns sf. unfold sl_inv, sl_piv. fold (softsum nb ng ns sf Ga l). unfold slack_pivot. fold nb ng ns sf.
    fold (softsum nb ng ns sf Ga l). specialize (Hpiv l Hl). unfold slack_pivot in Hpiv. fold nb ng ns sf in Hpiv. fold (softsum nb ng ns sf Ga l) in Hpiv. field. exact Hpiv. }
  destruct (Nat.ltb_spec k n) as [Hkn|Hkn]; cbn [andb].
  - (* hard variable *)
    rewrite !andb_true_r. rewrite H_hard by exact Hkn. rewrite GT_hard by exact Hkn.
    specialize (Hst k Hkn). unfold stH, sth in Hst. fold nb ng in Hst.
    rewrite (rsum_ext n (fun l => symL (q_RSQ qp ss) k l * u l) (fun l => symL (q_RSQ qp ss) k l * z l)). 2:{ intros l Hl. rewrite U by exact Hl. reflexivity. }
    rewrite (U k Hkn).
    assert (EH : rsum n (fun j => (symL (q_RSQ qp ss) k j + (if (k =? j)%nat then rho k else 0) + rsum (nb + ng) (fun c => rowq qp ss c k * T0q qp ss reg Ga c * rowq qp ss c j)) * z j) =
      rsum n (fun l => symL (q_RSQ qp ss) k l * z l) + rho k * z k + rsum (nb + ng) (fun c => rowq qp ss c k * (T0q qp ss reg Ga c * rz c))).
    { rewrite (rsum_ext n _ (fun j => symL (q_RSQ qp ss) k j * z j + (if (k =? j)%nat then rho k * z j else 0) + rsum (nb + ng) (fun c => rowq qp ss c k * T0q qp ss reg Ga c * (rowq qp ss c j * z j)))).
      2:{ intros j _. rewrite !Rmult_plus_distr_r. f_equal; [f_equal; destruct (k =? j)%nat; lra|]. rewrite <- rsum_scal_r. apply rsum_ext. intros; lra. }
      rewrite !rsum_add. rewrite (rsum_one' n k (fun j => rho k * z j)) by exact Hkn. f_equal. rewrite rsum_swap. apply rsum_ext. intros c _. rewrite rsum_scal. fold (rz c). lra. }
    fold Ga in Hst. rewrite EH in Hst.
    assert (EC : rsum (nb + ng) (fun j => row_co nb (q_idxb qp ss) (q_DCt qp ss) j k * (lamv (nb + ng + j)%nat - lamv j)) =
      rsum (nb + ng) (fun c => rowq qp ss c k * (T0q qp ss reg Ga c * rz c)) + rsum (nb + ng) (fun c => rowq qp ss c k * T1q qp ss reg Ga ga c)).
    { rewrite <- rsum_add. apply rsum_ext. intros j Hj. change (row_co nb (q_idxb qp ss) (q_DCt qp ss) j k) with (rowq qp ss j k).
      rewrite <- Rmult_plus_distr_l. f_equal. rewrite !Hlam by lia. rewrite (Tup j), (Tlo j) by exact Hj.
      unfold T0q, T1q, T0, T1, w_lo, w_up, r_lo, r_up, soft_at. fold n nb ng ns sf. destruct (Z.eqb_spec (sf j) (-1)) as [E|E]; [lra|].
      assert (Hj2 : (0 <= sf j < Z.of_nat ns)%Z) by (destruct (Hsf j Hj); [contradiction|assumption]). cbn [Nat.add].
      assert (Hin : forall j', (j' < nb + ng)%nat -> sf j' = sf j -> j' = j). { intros j' Hj' Es. symmetry. apply (Hinj ss j j' Hss Hj Hj' E). symmetry. exact Es. }
      pose proof (Sl (Z.to_nat (sf j)) ltac:(lia)) as S1. pose proof (Sl (ns + Z.to_nat (sf j))%nat ltac:(lia)) as S2.
      destruct (soft_pick nb ng ns sf (fun j => Ga j * rz j) (fun j => Ga (nb + ng + j)%nat * - rz j) j Hsf Hin Hj E) as (P1 & P2). cbv beta in P1, P2. rewrite P1 in S1. rewrite P2 in S2.
      pose proof (Hpiv (Z.to_nat (sf j)) ltac:(lia)) as N1. pose proof (Hpiv (ns + Z.to_nat (sf j))%nat ltac:(lia)) as N2.
      replace (n + ns + Z.to_nat (sf j))%nat with (n + (ns + Z.to_nat (sf j)))%nat by lia.
      assert (I1 : forall l, sl_inv nb ng ns reg sf (q_Z qp ss) Ga l = / slack_pivot reg Ga ss l). { intros l. unfold sl_inv, Rdiv. rewrite Rmult_1_l. reflexivity. }
      rewrite !I1.
      set (r1 := sl_rhs _ _ _ _ _ _ _ (Z.to_nat (sf j))) in *. set (r2 := sl_rhs _ _ _ _ _ _ _ (ns + Z.to_nat (sf j))%nat) in *.
      set (p1 := slack_pivot reg Ga ss (Z.to_nat (sf j))) in *. set (p2 := slack_pivot reg Ga ss (ns + Z.to_nat (sf j))%nat) in *.
      set (u1 := u (n + Z.to_nat (sf j))%nat) in *. set (u2 := u (n + (ns + Z.to_nat (sf j)))%nat) in *.
      assert (V1 : u1 = - (r1 + Ga j * rz j) / p1). { rewrite <- S1. field. exact N1. }
      assert (V2 : u2 = - (r2 + Ga (nb + ng + j)%nat * - rz j) / p2). { rewrite <- S2. field. exact N2. }
      rewrite V1, V2. field. split; assumption. }
    rewrite EC. fold ga in Hst. lra.
  - (* slack *)
    rewrite !andb_false_r. assert (Ek : exists l, k = (n + l)%nat) by (exists (k - n)%nat; lia). destruct Ek as (l & ->).
    assert (Hl : (l < 2 * ns)%nat) by lia. rewrite H_slack by lia. replace (n + l - n)%nat with l by lia.
    rewrite GT_slack by exact Hl. rewrite !Hlam by lia. rewrite Tsl by exact Hl.
    specialize (Sl l Hl). set (ul := u (n + l)%nat) in *.
    rewrite (rsum_ext (nb + ng) _ (fun j => - (soft_co sf 0 j l * (Ga j * rz j) + soft_co sf ns j l * (Ga (nb + ng + j)%nat * - rz j)) - (soft_co sf 0 j l * ga j + soft_co sf ns j l * ga (nb + ng + j)%nat)
        - (soft_co sf 0 j l * Ga j + soft_co sf ns j l * Ga (nb + ng + j)%nat) * ul)).
    2:{ intros j Hj. rewrite !Hlam by lia. rewrite (Tup j), (Tlo j) by exact Hj. pose proof (soft_shift n sf 0 j l) as X1. pose proof (soft_shift n sf ns j l) as X2. cbn [Nat.add] in X1. rewrite (Nat.add_comm ns n) in X2. rewrite X1, X2.
        unfold soft_co. destruct (Z.eqb_spec (sf j) (-1)) as [E|E]; [lra|]. cbn [Nat.add].
        destruct (Nat.eqb_spec l (Z.to_nat (sf j))) as [E1|E1]; destruct (Nat.eqb_spec l (ns + Z.to_nat (sf j))) as [E2|E2]; unfold ul.
        - exfalso; lia.
        - rewrite <- E1. ring.
        - rewrite <- (Nat.add_assoc n ns), <- E2. ring.
        - ring. }
    rewrite rsum_sub, rsum_sub, rsum_opp, rsum_scal_r. unfold slack_pivot, sl_rhs, softsum in Sl. fold nb ng ns sf in Sl. lra.
Qed.
End Full.
