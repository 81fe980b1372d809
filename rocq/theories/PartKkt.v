(** PartKkt.v -- the KKT residuals of the expanded solution are those of the solution of the partially condensed QP. *)
From Coq Require Import ZArith Bool Arith Lia Reals Lra.
From Verif Require Import Base ArithF RSum Blas Blas2 OcpModel ResSpec ResProofs ResProofs2 CholProofs KktModel DenModel DenSpec CondModel ExpModel CondSpec CondProofs CondCost CondCost2 CondCon CondCon2 CondCon3 CondSem CondFull ExpProofs ExpKkt CondProps ExpProps PartModel PartSpec PartProofs PartSem.
Local Open Scope R_scope.

Section Kkt.
Variables (qp p : oqp R) (N2 : nat) (bs : nat -> nat).
Notation N := (dN (q_dim qp)).
Notation D := (q_dim qp).
Notation start := (start bs).
Notation blen := (blen N2 bs).
Notation blk := (block_of N2 bs).
Notation B := (block qp bs).
Notation ptr := (ptraj qp N2 bs).
Notation ppos := (ppos qp N2 bs).
Hypothesis HB : blocks_ok N N2 bs.
Hypothesis HS : part_size qp N2 bs p.
Hypothesis Hsem : forall ii, (ii <= N2)%nat -> block_sem (last_default N2 ii) (B ii) (stage_q p ii) (q_BAbt p ii) (q_b p ii).
(** the block without the transition to the next one *)
Definition W (ii : nat) : oqp R := window qp (start ii) (blen ii).

Section Point.
Variables (pi lam pi2 lam2 : nat -> nat -> R).
Hypothesis HL : forall i c, (i <= N)%nat -> (c < nct D i)%nat -> lam i c = lam2 (blk i) (ppos i c).
Hypothesis HP : forall ii j, (ii < N2)%nat -> (j < dnx D (start (S ii)))%nat -> pi (start (S ii) - 1)%nat j = pi2 ii j.
Lemma dyn_sum z : rsum N (fun i => rsum (dnx D (S i)) (fun j => pi i j * dyn qp (ptr z) i j)) = rsum N2 (fun ii => rsum (dnx (q_dim p) (S ii)) (fun j => pi2 ii j * dyn p z ii j)).
Proof.
  set (T := fun i => rsum (dnx D (S i)) (fun j => pi i j * dyn qp (ptr z) i j)). set (f := fun i => if (i <? N)%nat then T i else 0).
  assert (E1 : rsum N T = rsum (S N) f).
  { cbn [rsum]. unfold f at 2. destruct (Nat.ltb_spec N N); [lia|]. rewrite Rplus_0_r. apply rsum_ext. intros i Hi. unfold f. destruct (Nat.ltb_spec i N); [reflexivity|lia]. }
  rewrite E1, (rsum_stages N N2 bs HB).
  assert (E2 : forall ii, (ii <= N2)%nat -> rsum (S (blen ii)) (fun i => f (start ii + i)%nat) = f (start ii + blen ii)%nat).
  { intros ii Hii. assert (RS : forall g, rsum (S (blen ii)) g = rsum (blen ii) g + g (blen ii)) by reflexivity. rewrite RS. rewrite rsum_0; [lra|]. intros i Hi. unfold f, T. destruct (Nat.ltb_spec (start ii + i) N) as [L|L]; [|reflexivity]. apply rsum_0. intros j Hj.
    rewrite (inner_dyn qp N2 bs HB z (start ii + i) j L); [lra| |exact Hj]. intros kk Hkk E. rewrite <- Nat.add_succ_r in E. pose proof (blk_at N N2 bs HB ii (S i) Hii ltac:(lia)) as B1. pose proof (blk_at N N2 bs HB (S kk) 0 ltac:(lia) ltac:(lia)) as B2. rewrite Nat.add_0_r in B2. rewrite E in B1. assert (E3 : ii = S kk) by congruence. clear B1 B2. rewrite E3 in E. clear - E. lia. }
  assert (RS : forall g, rsum (S N2) g = rsum N2 g + g N2) by reflexivity. rewrite RS. rewrite (E2 N2 (le_n _)). rewrite (start_N N N2 bs HB). unfold f at 2. destruct (Nat.ltb_spec N N); [lia|]. rewrite Rplus_0_r.
  apply rsum_ext. intros ii Hii. rewrite (E2 ii ltac:(lia)). pose proof (start_S N N2 bs HB ii Hii) as Es. pose proof (in_le N N2 bs HB (S ii) 0 ltac:(lia) ltac:(lia)) as Hle. unfold f. destruct (Nat.ltb_spec (start ii + blen ii) N); [|lia].
  destruct (proj2 HS (S ii) ltac:(lia)) as (_ & S2 & _). rewrite S2. unfold T. rewrite <- Es. apply rsum_ext. intros j Hj. rewrite (part_dyn qp p N2 bs HB HS Hsem z ii j Hii ltac:(rewrite S2; exact Hj)). rewrite <- (HP ii j Hii Hj). rewrite Es. replace (S (start ii + blen ii) - 1)%nat with (start ii + blen ii)%nat by lia. reflexivity.
Qed.
Lemma con_sum z : rsum (N + 1) (fun i => rsum (nct D i) (fun c => q_mask qp i c * lam i c * (con qp (ptr z) i c - q_d qp i c))) = rsum (N2 + 1) (fun ii => rsum (nct (q_dim p) ii) (fun c => q_mask p ii c * lam2 ii c * (con p z ii c - q_d p ii c))).
Proof.
  rewrite !Nat.add_1_r. rewrite (rsum_stages N N2 bs HB). apply rsum_ext. intros ii Hii. rewrite (stage_nct_eq qp p N2 bs Hsem) by lia.
  rewrite (rsum_pos (B ii) (blen ii) (fun c => q_mask p ii c * lam2 ii c * (con p z ii c - q_d p ii c))). apply rsum_ext. intros i Hi. apply rsum_ext. intros c Hc.
  pose proof (in_le N N2 bs HB ii i ltac:(lia) ltac:(lia)) as Hle. destruct (part_con qp p N2 bs HB Hsem z (start ii + i)%nat c Hle Hc) as (C1 & C2 & _). rewrite HL by assumption. rewrite (blk_at N N2 bs HB) in * by lia. rewrite (ppos_at qp N2 bs HB) in * by lia. rewrite <- C2, <- C1. reflexivity.
Qed.
Lemma part_lagr K z : cost p z = cost qp (ptr z) + K -> lagr p z pi2 lam2 = lagr qp (ptr z) pi lam + K.
Proof. intros E. unfold lagr. rewrite E, dyn_sum, con_sum, (proj1 HS). lra. Qed.

End Point.

Lemma ddims_W ii : (ii <= N2)%nat -> ddims_ok (W ii) (dN (q_dim (W ii))) (stage_q p ii).
Proof. intros H. exact (proj1 (Hsem ii H)). Qed.
Lemma part_kkt_g z pi lam pi2 lam2 :
  (forall i c, (i <= N)%nat -> (c < nct D i)%nat -> lam i c = lam2 (blk i) (ppos i c)) ->
  (forall ii j, (ii < N2)%nat -> (j < dnx D (start (S ii)))%nat -> pi (start (S ii) - 1)%nat j = pi2 ii j) ->
  (forall ii i j, (ii <= N2)%nat -> (1 <= i <= blen ii)%nat -> (j < dnx D (start ii + i))%nat -> kkt_g qp (ptr z) pi lam (start ii + i) (dnu D (start ii + i) + j) = 0) ->
  forall ii0 i0 k0, (ii0 <= N2)%nat -> free (W ii0) i0 k0 -> kkt_g qp (ptr z) pi lam (start ii0 + i0) k0 = kkt_g p z pi2 lam2 ii0 (slot (W ii0) i0 k0).
Proof.
  intros HL HP H0 ii0 i0 k0 Hii0 HF. set (s0 := slot (W ii0) i0 k0).
  set (e := fun ii q => if (ii =? ii0)%nat then if (q =? s0)%nat then 1 else 0 else 0).
  destruct (part_cost qp p N2 bs HB HS Hsem) as (K & HK).
  pose proof (part_lagr pi lam pi2 lam2 HL HP K _ (HK (fun ii q => z ii q + e ii q))) as Lp. pose proof (part_lagr pi lam pi2 lam2 HL HP K _ (HK (fun ii q => z ii q - e ii q))) as Lm. pose proof (part_lagr pi lam pi2 lam2 HL HP K _ (HK z)) as L0.
  rewrite (lagr_expand p z pi2 lam2) in Lp, Lm. rewrite (lagr_expand qp (ptr z) pi lam) in Lp, Lm.
  set (g := kkt_g qp (ptr z) pi lam) in *. set (g2 := kkt_g p z pi2 lam2) in *. rewrite (proj1 HS) in Lp, Lm.
  assert (SL : (s0 < nvt (q_dim p) ii0)%nat) by exact (slot_lt (W ii0) (stage_q p ii0) (ddims_W ii0 Hii0) i0 k0 HF).
  assert (E2 : dot2 (N2 + 1) (nvt (q_dim p)) g2 (fun i k => z i k + e i k - z i k) = g2 ii0 s0).
  { unfold dot2. rewrite <- (rsum_one' (N2 + 1) ii0 (fun i => g2 i s0)) by lia. apply rsum_ext. intros ii Hii. unfold e. rewrite (Nat.eqb_sym ii0 ii). destruct (Nat.eqb_spec ii ii0) as [->|]; [|apply rsum_0; intros; lra].
    rewrite <- (rsum_one' (nvt (q_dim p) ii0) s0 (g2 ii0)) by exact SL. apply rsum_ext. intros q _. rewrite (Nat.eqb_sym s0 q). destruct (q =? s0)%nat; lra. }
  assert (E2m : dot2 (N2 + 1) (nvt (q_dim p)) g2 (fun i k => z i k - e i k - z i k) = - g2 ii0 s0).
  { rewrite <- E2. unfold dot2. rewrite <- rsum_opp. apply rsum_ext. intros ii _. rewrite <- rsum_opp. apply rsum_ext. intros q _. ring. }
  assert (EQ2 : rsum (N2 + 1) (fun i => rsum (nvt (q_dim p) i) (fun k => rsum (nvt (q_dim p) i) (fun l => (z i k - e i k - z i k) * Hess p i k l * (z i l - e i l - z i l)))) =
     rsum (N2 + 1) (fun i => rsum (nvt (q_dim p) i) (fun k => rsum (nvt (q_dim p) i) (fun l => (z i k + e i k - z i k) * Hess p i k l * (z i l + e i l - z i l))))).
  { apply rsum_ext. intros i _. apply rsum_ext. intros k _. apply rsum_ext. intros l _. ring. }
  assert (TM : forall i k, (i <= N)%nat -> ptr (fun ii q => z ii q - e ii q) i k - ptr z i k = - (ptr (fun ii q => z ii q + e ii q) i k - ptr z i k)).
  { intros i k Hi. destruct (locate N N2 bs HB i Hi) as (ii & i' & A1 & A2 & ->). rewrite !(ptraj_at qp N2 bs HB) by assumption. pose proof (tr_mid (W ii) (z ii) (e ii) i' k) as T. change (traj (W ii) (dN (q_dim (W ii)))) with (traj (B ii) (blen ii)) in T. cbv beta in T |- *. lra. }
  assert (EQ : rsum (N + 1) (fun i => rsum (nvt D i) (fun k => rsum (nvt D i) (fun l => (ptr (fun ii q => z ii q - e ii q) i k - ptr z i k) * Hess qp i k l * (ptr (fun ii q => z ii q - e ii q) i l - ptr z i l)))) =
     rsum (N + 1) (fun i => rsum (nvt D i) (fun k => rsum (nvt D i) (fun l => (ptr (fun ii q => z ii q + e ii q) i k - ptr z i k) * Hess qp i k l * (ptr (fun ii q => z ii q + e ii q) i l - ptr z i l))))).
  { apply rsum_ext. intros i Hi. apply rsum_ext. intros k _. apply rsum_ext. intros l _. rewrite !TM by lia. ring. }
  pose proof HF as (F1 & F2 & F3). change (dN (q_dim (W ii0))) with (blen ii0) in F1. change (nvt (q_dim (W ii0)) i0) with (nvt D (start ii0 + i0)) in F2. pose proof (in_le N N2 bs HB ii0 i0 Hii0 F1) as Hle0.
  assert (X : forall i k, (i <= N)%nat -> (k < nvt D i)%nat -> g i k * (ptr (fun ii q => z ii q + e ii q) i k - ptr z i k) = if (start ii0 + i0 =? i)%nat then if (k0 =? k)%nat then g i k else 0 else 0).
  { intros i k Hi Hk. destruct (locate N N2 bs HB i Hi) as (ii & i' & A1 & A2 & ->). rewrite !(ptraj_at qp N2 bs HB) by assumption.
    assert (FX : free (W ii) i' k \/ g (start ii + i')%nat k = 0 /\ ~ free (W ii) i' k).
    { destruct (le_lt_dec i' 0) as [Z|Z]; [left; split; [exact A2|split; [exact Hk|lia]]|]. change (nux (W ii) i') with (nux qp (start ii + i')).
      destruct (Nat.lt_ge_cases k (dnu D (start ii + i'))) as [L|L]; [left; split; [exact A2|split; [exact Hk|right; left; exact L]]|]. destruct (Nat.lt_ge_cases k (nux qp (start ii + i'))) as [L2|L2]; [|left; split; [exact A2|split; [exact Hk|right; right; exact L2]]].
      right. split.
      - replace k with (dnu D (start ii + i') + (k - dnu D (start ii + i')))%nat by lia. apply H0; [exact A1|lia|unfold nux in L2; lia].
      - intros (_ & _ & [Q|[Q|Q]]); [lia| |].
        + change (dnu (q_dim (W ii)) i') with (dnu D (start ii + i')) in Q. lia.
        + change (nux (W ii) i') with (nux qp (start ii + i')) in Q. lia. }
    destruct FX as [FF|(G0 & NF)].
    - pose proof (traj_slot (W ii) (fun q => z ii q + e ii q) i' k FF) as T1. pose proof (traj_slot (W ii) (z ii) i' k FF) as T2. change (traj (W ii) (dN (q_dim (W ii)))) with (traj (B ii) (blen ii)) in T1, T2. cbv beta in T1 |- *. rewrite T1, T2. unfold e.
      destruct (Nat.eqb_spec ii ii0) as [->|Hne].
      + destruct (Nat.eqb_spec (slot (W ii0) i' k) s0) as [E|E].
        * destruct (slot_inj (W ii0) i' k i0 k0 FF HF E) as (-> & ->). rewrite !Nat.eqb_refl. lra.
        * destruct (Nat.eqb_spec (start ii0 + i0) (start ii0 + i')) as [Q|]; [|lra]. destruct (Nat.eqb_spec k0 k) as [Q2|]; [|lra]. exfalso. apply E. unfold s0. assert (i' = i0) by lia. subst i' k. reflexivity.
      + destruct (Nat.eqb_spec (start ii0 + i0) (start ii + i')) as [Q|]; [|lra]. exfalso. apply Hne. rewrite <- (blk_at N N2 bs HB ii i' A1 A2), <- Q. apply (blk_at N N2 bs HB); assumption.
    - rewrite G0. destruct (Nat.eqb_spec (start ii0 + i0) (start ii + i')) as [Q|]; [|lra]. destruct (Nat.eqb_spec k0 k) as [Q2|]; [|lra]. lra. }
  assert (EP : dot2 (N + 1) (nvt D) g (fun i k => ptr (fun ii q => z ii q + e ii q) i k - ptr z i k) = g (start ii0 + i0)%nat k0).
  { unfold dot2. rewrite <- (rsum_one' (N + 1) (start ii0 + i0) (fun i => g i k0)) by lia. apply rsum_ext. intros i Hi. rewrite (rsum_ext (nvt D i) _ (fun k => if (start ii0 + i0 =? i)%nat then if (k0 =? k)%nat then g i k else 0 else 0)) by (intros k Hk; apply X; [lia|exact Hk]).
    destruct (Nat.eqb_spec (start ii0 + i0) i) as [<-|]; [|apply rsum_0; reflexivity]. apply rsum_one'. exact F2. }
  assert (EM : dot2 (N + 1) (nvt D) g (fun i k => ptr (fun ii q => z ii q - e ii q) i k - ptr z i k) = - g (start ii0 + i0)%nat k0).
  { rewrite <- EP. unfold dot2. rewrite <- rsum_opp. apply rsum_ext. intros i Hi. rewrite <- rsum_opp. apply rsum_ext. intros k _. rewrite TM by lia. ring. }
  rewrite E2, EP in Lp. rewrite E2m, EM, EQ2, EQ in Lm. lra.
Qed.
End Kkt.
