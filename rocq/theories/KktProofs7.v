(** KktProofs7.v -- no breakdown of the factorisation for strictly convex problems. *)
From Coq Require Import ZArith Bool Arith Lia Reals Lra.
From Verif Require Import Base ArithF RSum Blas Blas2 CoreModel CoreProofs OcpModel ResSpec KktSpec ResProofs CholProofs CholPD KktModel KktProofs KktProofs2 KktProofs3 KktProofs4 KktProofs5 KktProofs6.
Local Open Scope R_scope.

Lemma PD_lead n m M : (m <= n)%nat -> PD n M -> PD m M.
Proof.
  intros Hm H v (k & Hk & Hv). set (v' := fun i => if (i <? m)%nat then v i else 0).
  rewrite (quadf_ext m M M v v'); [|reflexivity|intros i Hi; unfold v'; destruct (Nat.ltb_spec i m); [reflexivity|lia]].
  rewrite <- (quadf_trunc n m); [|exact Hm|intros i Hi; unfold v'; destruct (Nat.ltb_spec i m); [lia|reflexivity]].
  apply H. exists k. split; [lia|]. unfold v'. destruct (Nat.ltb_spec k m); [exact Hv|lia].
Qed.
Lemma PD_plus n M M' : PD n M -> PSD n M' -> PD n (fun i j => M i j + M' i j).
Proof. intros H H' v Hv. rewrite quadf_add. specialize (H v Hv). specialize (H' v). lra. Qed.
Lemma PD_ext n M M' : (forall i j, (i < n)%nat -> (j < n)%nat -> M i j = M' i j) -> PD n M -> PD n M'.
Proof. intros H HP v Hv. rewrite <- (quadf_ext n M M' v v); auto. Qed.

Section Nb.
Variables (qp : oqp R) (reg : R) (Gam gam : nat -> rvec).
Notation D := (q_dim qp).
Notation N := (dN D).
Hypothesis Hwf : qp_wf qp.
Hypothesis HG : forall i c, (i <= N)%nat -> (c < nct D i)%nat -> 0 <= Gam i c.
Hypothesis HZ : forall i k, (i <= N)%nat -> (k < 2 * dns D i)%nat -> 0 <= q_Z qp i k + reg.
Hypothesis Hpiv : forall i k, (i <= N)%nat -> (k < 2 * dns D i)%nat -> 0 < slack_pivot qp reg (Gam i) i k.
Hypothesis HH : forall i, (i <= N)%nat -> PD (nux qp i) (fun k l => symL (q_RSQ qp i) k l + if (k =? l)%nat then reg else 0).

Lemma soft_co_01 sf off j k : 0 <= soft_co sf off j k.
Proof. unfold soft_co. destruct (Z.eqb _ _); [lra|]. destruct (Nat.eqb _ _); lra. Qed.
Lemma w_nonneg g p : 0 <= g -> g <= p -> 0 < p -> 0 <= g - g * (1 / p) * g.
Proof.
  intros H1 H2 H3. assert (g * (1 / p) <= 1). { unfold Rdiv. rewrite Rmult_1_l. apply (Rmult_le_reg_r p); [exact H3|]. rewrite Rmult_assoc, Rinv_l by lra. lra. }
  assert (0 <= g * (1 - g * (1 / p))); [apply Rmult_le_pos; lra|lra].
Qed.
Lemma T0_nonneg i c : (i <= N)%nat -> (c < dnb D i + dng D i)%nat -> 0 <= T0q qp i reg (Gam i) c.
Proof.
  intros Hi Hc. destruct (Hwf i Hi) as (_ & Hsf). specialize (Hsf c Hc). set (nb := dnb D i) in *. set (ng := dng D i) in *. set (ns := dns D i) in *. set (sf := q_idxs_rev qp i) in *.
  assert (G1 : 0 <= Gam i c) by (apply HG; [exact Hi|unfold nct; fold nb ng ns; lia]). assert (G2 : 0 <= Gam i (nb + ng + c)%nat) by (apply HG; [exact Hi|unfold nct; fold nb ng ns; lia]).
  unfold T0q, T0, w_lo, w_up. fold nb ng ns sf. destruct (Z.eqb_spec (sf c) (-1)) as [E|E]; [lra|]. destruct Hsf as [Hsf|Hsf]; [contradiction|].
  assert (Hle : forall k q, (k < 2 * ns)%nat -> (exists off, (off = 0%nat /\ q = c \/ off = ns /\ q = (nb + ng + c)%nat) /\ k = (off + Z.to_nat (sf c))%nat) -> Gam i q <= sl_piv nb ng ns reg sf (q_Z qp i) (Gam i) k).
  { intros k q Hk (off & Hq & Ek). unfold sl_piv, softsum.
    assert (A : 0 <= q_Z qp i k + reg) by (apply HZ; [exact Hi|exact Hk]). assert (B : 0 <= Gam i (2 * nb + 2 * ng + k)%nat) by (apply HG; [exact Hi|unfold nct; fold nb ng ns; lia]).
    enough (Gam i q <= rsum (nb + ng) (fun j => soft_co sf 0 j k * Gam i j + soft_co sf ns j k * Gam i (nb + ng + j)%nat)) by lra.
    set (f := fun j => _). assert (Hf : forall j, (j < nb + ng)%nat -> 0 <= f j).
    { intros j Hj. unfold f. pose proof (soft_co_01 sf 0 j k). pose proof (soft_co_01 sf ns j k). assert (0 <= Gam i j) by (apply HG; [exact Hi|unfold nct; fold nb ng ns; lia]).
      assert (0 <= Gam i (nb + ng + j)%nat) by (apply HG; [exact Hi|unfold nct; fold nb ng ns; lia]). assert (0 <= soft_co sf 0 j k * Gam i j) by (apply Rmult_le_pos; assumption). assert (0 <= soft_co sf ns j k * Gam i (nb + ng + j)%nat) by (apply Rmult_le_pos; assumption). lra. }
    assert (Hfc : Gam i q <= f c).
    { unfold f. destruct Hq as [(-> & ->)|(-> & ->)].
      - unfold soft_co at 1. rewrite <- Ek, Nat.eqb_refl. destruct (Z.eqb_spec (sf c) (-1)); [contradiction|]. pose proof (soft_co_01 sf ns c k). assert (0 <= soft_co sf ns c k * Gam i (nb + ng + c)%nat) by (apply Rmult_le_pos; assumption). lra.
      - unfold soft_co at 2. rewrite <- Ek, Nat.eqb_refl. destruct (Z.eqb_spec (sf c) (-1)); [contradiction|]. pose proof (soft_co_01 sf 0 c k). assert (0 <= soft_co sf 0 c k * Gam i c) by (apply Rmult_le_pos; assumption). lra. }
    eapply Rle_trans; [exact Hfc|]. replace (nb + ng)%nat with (c + S (nb + ng - S c))%nat by lia. rewrite rsum_split, rsum_S_l, Nat.add_0_r.
    assert (0 <= rsum c f) by (apply rsum_nonneg; intros; apply Hf; lia). assert (0 <= rsum (nb + ng - S c) (fun k0 => f (c + S k0)%nat)) by (apply rsum_nonneg; intros; apply Hf; lia). lra. }
  assert (Hp : forall k, (k < 2 * ns)%nat -> 0 < sl_piv nb ng ns reg sf (q_Z qp i) (Gam i) k) by (intros k Hk; exact (Hpiv i k Hi Hk)).
  unfold sl_inv, soft_at. cbn [Nat.add].
  assert (K1 : 0 <= Gam i c - Gam i c * (1 / sl_piv nb ng ns reg sf (q_Z qp i) (Gam i) (Z.to_nat (sf c))) * Gam i c).
  { apply w_nonneg; [exact G1| |apply Hp; lia]. apply Hle; [lia|]. exists 0%nat. split; [left; split; reflexivity|reflexivity]. }
  assert (K2 : 0 <= Gam i (nb + ng + c)%nat - Gam i (nb + ng + c)%nat * (1 / sl_piv nb ng ns reg sf (q_Z qp i) (Gam i) (ns + Z.to_nat (sf c))) * Gam i (nb + ng + c)%nat).
  { apply w_nonneg; [exact G2| |apply Hp; lia]. apply Hle; [lia|]. exists ns. split; [right; split; reflexivity|reflexivity]. }
  lra.
Qed.
Lemma stH_pd ss rho : (ss <= N)%nat -> (forall i, (i < nux qp ss)%nat -> rho i = reg) -> PD (nux qp ss) (stH qp reg Gam rho ss).
Proof.
  intros Hss Hr. apply (PD_ext _ (fun i j => (symL (q_RSQ qp ss) i j + (if (i =? j)%nat then reg else 0)) + rsum (dnb D ss + dng D ss) (fun c => rowq qp ss c i * T0q qp ss reg (Gam ss) c * rowq qp ss c j))).
  { intros i j Hi Hj. unfold stH. rewrite Hr by exact Hi. reflexivity. }
  apply PD_plus; [apply HH; exact Hss|]. intros v.
  rewrite (quadf_ext _ _ (fun i j => rsum (dnb D ss + dng D ss) (fun c => (rowq qp ss c i * sqrt (T0q qp ss reg (Gam ss) c)) * (rowq qp ss c j * sqrt (T0q qp ss reg (Gam ss) c)))) v v); [|intros i j _ _|reflexivity].
  - rewrite quadf_sq. apply sq_nonneg.
  - apply rsum_ext. intros c Hc. rewrite <- (sqrt_sqrt (T0q qp ss reg (Gam ss) c)) at 1 by (apply T0_nonneg; assumption). ring.
Qed.
Lemma stX_psd P ss n : PSD (dnx D (S ss)) P -> PSD n (stX qp P ss).
Proof.
  intros HP v. unfold stX. destruct (ss <? N)%nat.
  - rewrite quadf_congr. apply HP.
  - unfold quadf. apply rsum_nonneg. intros i _. apply rsum_nonneg. intros; lra.
Qed.
Lemma VPs_psd L nu nx : PSD nx (VPs L nu nx).
Proof. intros v. unfold VPs. rewrite (quadf_sq nx nx (fun l k => CholProofs.lt L (nu + l) (nu + k))). apply sq_nonneg. Qed.

Lemma sqrt_nb w : BAok qp w -> snd (fact_sqrt reg reg qp Gam gam w) = false.
Proof.
  intros HB. unfold fact_sqrt.
  enough (G : forall K, (K <= N)%nat -> exists w', loop K (fun nn '(w, sg) => if (sg : bool) then (w, sg) else fact_sqrt_mid reg reg qp Gam gam (N - nn - 1) w) (fact_sqrt_last reg reg qp Gam gam w) = (w', false) /\ BAok qp w').
  { destruct (G N (le_n _)) as (w' & -> & _). reflexivity. }
  induction K as [|K IH]; intros HK; cbn [loop].
  - destruct (fact_sqrt_last reg reg qp Gam gam w) as [w' b] eqn:E. exists w'.
    destruct (fact_sqrt_last_G qp reg Gam gam Hwf reg w w' b (fun _ _ => 0) (fun _ => 0) E) as ((_ & Hb) & _). rewrite Hb.
    + split; [reflexivity|]. eapply BA_frame; [eapply fact_sqrt_last_frame; exact E|exact HB].
    + apply stH_pd; [apply le_n|reflexivity].
  - destruct (IH ltac:(lia)) as (w1 & -> & B1). set (q := (N - K - 1)%nat).
    destruct (fact_sqrt_mid reg reg qp Gam gam q w1) as [w' b] eqn:E. exists w'.
    destruct (fact_sqrt_mid_G qp reg Gam gam Hwf reg q w1 w' b ltac:(unfold q; lia) B1 E) as ((_ & Hb) & _). rewrite Hb.
    + split; [reflexivity|]. eapply BA_frame; [eapply fact_sqrt_mid_frame; exact E|exact B1].
    + apply PD_plus; [apply stH_pd; [unfold q; lia|reflexivity]|]. apply stX_psd, VPs_psd.
Qed.

(** the value function of a stage is positive semidefinite: partial minimisation over the inputs *)
Lemma cls_P_psd rho P p ss L Q p' : FR qp reg Gam gam rho P p ss (dnu D ss) L (embQ (dnu D ss) Q) p' ->
  PSD (nux qp ss) (fun i j => stH qp reg Gam rho ss i j + stX qp P ss i j) -> PSD (dnx D ss) Q.
Proof.
  intros (F1 & _ & F3) HP x. set (nu := dnu D ss) in *. set (nx := dnx D ss). set (n := nux qp ss) in *. assert (En : n = (nu + nx)%nat) by reflexivity.
  pose proof (trsv_ltn_R n nu L (fun i => if (i <? nu)%nat then 0 else x (i - nu)%nat) (fun _ => 0) ltac:(lia)) as HT. specialize (HT ltac:(intros k Hk; specialize (F3 k Hk); lra)). cbv zeta in HT.
  set (v := TRSV_LTN_MN _ _ _ _ _ _ _ _ _) in HT. destruct HT as (V1 & V2 & _).
  specialize (HP v). rewrite (quadf_ext n _ (fun i j => rsum nu (fun k => CholProofs.lt L i k * CholProofs.lt L j k) + embQ nu Q i j) v v) in HP; [|intros i j Hi Hj; apply F1; assumption|reflexivity].
  rewrite quadf_add, quadf_sq in HP. rewrite rsum_0 in HP.
  2:{ intros l Hl. rewrite (rsum_ext n _ (fun i => CholProofs.lt L i l * v i)) by (intros; lra). rewrite V1 by exact Hl. destruct (Nat.ltb_spec l nu); [lra|lia]. }
  rewrite Rplus_0_l in HP. replace (quadf nx Q x) with (quadf n (embQ nu Q) v); [exact HP|]. unfold quadf. rewrite En, rsum_split.
  rewrite (rsum_0 nu). 2:{ intros i Hi. apply rsum_0. intros j Hj. unfold embQ. destruct (Nat.ltb_spec i nu); [cbn [orb]; lra|lia]. }
  rewrite Rplus_0_l. apply rsum_ext. intros i Hi. rewrite rsum_split. rewrite (rsum_0 nu).
  2:{ intros j Hj. unfold embQ. destruct (Nat.ltb_spec j nu); [rewrite orb_true_r; lra|lia]. }
  rewrite Rplus_0_l. apply rsum_ext. intros j Hj. unfold embQ. destruct (Nat.ltb_spec (nu + i) nu); [lia|]. destruct (Nat.ltb_spec (nu + j) nu); [lia|]. cbn [orb].
  rewrite !V2 by lia. destruct (Nat.ltb_spec (nu + i) nu); [lia|]. destruct (Nat.ltb_spec (nu + j) nu); [lia|]. replace (nu + i - nu)%nat with i by lia. replace (nu + j - nu)%nat with j by lia. reflexivity.
Qed.
Lemma PD_PSD n M : PD n M -> PSD n M.
Proof.
  intros H v. assert (Hd : (exists k, (k < n)%nat /\ v k <> 0) \/ forall k, (k < n)%nat -> v k = 0).
  { clear H. induction n as [|n IH]; [right; intros; lia|]. destruct IH as [(k & Hk & E)|A]; [left; exists k; split; [lia|exact E]|].
    destruct (Req_EM_T (v n) 0) as [E|E]; [right|left; exists n; split; [lia|exact E]]. intros k Hk. destruct (Nat.eq_dec k n) as [-> | ]; [exact E|apply A; lia]. }
  destruct Hd as [Hd|Hd]; [left; apply H; exact Hd|]. unfold quadf. rewrite rsum_0; [lra|]. intros i Hi. apply rsum_0. intros j Hj. rewrite (Hd i Hi). lra.
Qed.
Lemma cls_rho_reg ss i : cls_rho qp reg reg ss i = reg.
Proof. unfold cls_rho. destruct (_ <? _)%nat; reflexivity. Qed.

Lemma cls_sweep_nb w : BAok qp w -> forall K, (K < N)%nat -> exists w', cls_sweep qp Gam gam reg reg K w = (w', false) /\ BAok qp w' /\
  Psym (k_P w' (N - K)%nat) (dnx D (N - K)) /\ PSD (dnx D (N - K)) (k_P w' (N - K)%nat).
Proof.
  intros HB. unfold cls_sweep. induction K as [|K IH]; intros HK; cbn [loop].
  - rewrite Nat.sub_0_r. destruct (fact_cls_last reg reg qp Gam gam w) as [w' b] eqn:E. exists w'.
    destruct (fact_cls_last_G qp reg Gam gam Hwf reg w w' b (fun _ _ => 0) (fun _ => 0) E) as (HF & Hb).
    assert (HPD : PD (nux qp N) (stH qp reg Gam (cls_rho qp reg reg N) N)) by (apply stH_pd; [apply le_n|intros; apply cls_rho_reg]).
    specialize (Hb ltac:(eapply PD_lead; [|exact HPD]; unfold nux; lia)). subst b. destruct (HF eq_refl) as (F & _ & S). split; [reflexivity|].
    split; [eapply BA_frame; [eapply fact_cls_last_frame; exact E|exact HB]|]. split; [exact S|].
    eapply cls_P_psd; [exact F|]. apply PD_PSD. apply PD_plus; [exact HPD|]. apply stX_psd. intros v. unfold quadf. apply rsum_nonneg. intros i _. apply rsum_nonneg. intros; lra.
  - destruct (IH ltac:(lia)) as (w1 & E1 & B1 & S1 & P1). rewrite E1. set (q := (N - K - 1)%nat). assert (Eq : (N - K)%nat = S q) by (unfold q; lia). rewrite Eq in *.
    replace (N - S K)%nat with q by (unfold q; lia).
    destruct (fact_cls_mid false reg reg qp Gam gam q w1) as [w' b] eqn:E. exists w'.
    destruct (fact_cls_mid_G qp reg Gam gam Hwf false reg q w1 w' b ltac:(unfold q; lia) B1 S1 E) as (HF & Hb). cbv iota beta in HF, Hb.
    assert (HPD : PD (nux qp q) (fun i j => stH qp reg Gam (cls_rho qp reg reg q) q i j + stX qp (k_P w1 (S q)) q i j)) by (apply PD_plus; [apply stH_pd; [unfold q; lia|intros; apply cls_rho_reg]|apply stX_psd; exact P1]).
    specialize (Hb ltac:(eapply PD_lead; [|exact HPD]; unfold nux; lia)). subst b. destruct (HF eq_refl) as ((F & S) & _). split; [reflexivity|].
    split; [eapply BA_frame; [eapply fact_cls_mid_frame; exact E|exact B1]|]. split; [exact S|]. eapply cls_P_psd; [exact F|]. apply PD_PSD. exact HPD.
Qed.
Lemma cls_nb w : (1 <= N)%nat -> BAok qp w -> snd (fact_cls reg reg qp Gam gam w) = false.
Proof.
  intros HN HB. rewrite (fact_cls_eq qp reg Gam gam reg w). destruct (cls_sweep_nb w HB (N - 1)%nat ltac:(lia)) as (w1 & -> & B1 & S1 & P1). replace (N - (N - 1))%nat with 1%nat in * by lia.
  destruct (Nat.ltb_spec 0 N); [|lia]. destruct (fact_cls_mid true reg reg qp Gam gam 0 w1) as [w' b] eqn:E.
  destruct (fact_cls_mid_G qp reg Gam gam Hwf true reg 0 w1 w' b ltac:(lia) B1 S1 E) as (_ & Hb). cbn [snd]. apply Hb. apply PD_plus; [apply stH_pd; [lia|reflexivity]|]. apply stX_psd. exact P1.
Qed.
End Nb.
