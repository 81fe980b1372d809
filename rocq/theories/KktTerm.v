(** KktTerm.v -- the regularisation retries of the interior-point KKT solver end for every QP (reals): with enough regularisation on the
    inputs of every stage and on the states of stage 0 the classical Riccati factorisation does not break down. *)
From Coq Require Import ZArith Bool Arith Lia Reals Lra.
From Verif Require Import Base ArithF RSum Blas Blas2 CoreModel CoreProofs OcpModel ResSpec KktSpec ResProofs CholProofs CholPD CholPSD KktModel KktProofs KktProofs2 KktProofs3 KktProofs6 KktProofs7 DenKktProofs6.
Local Open Scope R_scope.

Definition evec (l i : nat) : R := if (i =? l)%nat then 1 else 0.
Lemma quadf_e n (T : rmat) l : (l < n)%nat -> quadf n T (evec l) = T l l.
Proof.
  intros Hl. unfold quadf. rewrite (rsum_ext n _ (fun i => if (i =? l)%nat then (fun _ => T l l) i else 0)).
  - rewrite (rsum_one n l (fun _ => T l l) Hl). reflexivity.
  - intros i Hi. unfold evec. destruct (Nat.eqb_spec i l) as [->|E].
    + rewrite (rsum_ext n _ (fun j => if (j =? l)%nat then (fun _ => T l l) j else 0)); [apply (rsum_one n l (fun _ => T l l) Hl)|].
      intros j Hj. destruct (Nat.eqb_spec j l) as [->|]; ring.
    + apply rsum_0. intros; ring.
Qed.
Lemma psd_diag n T l : (l < n)%nat -> PSD n T -> 0 <= T l l.
Proof. intros Hl H. rewrite <- (quadf_e n T l Hl). apply H. Qed.
Lemma psd_off n (T : rmat) l m : (l < n)%nat -> (m < n)%nat -> (forall a b, (a < n)%nat -> (b < n)%nat -> T a b = T b a) -> PSD n T -> 2 * Rabs (T l m) <= T l l + T m m.
Proof.
  intros Hl Hm HS H.
  pose proof (quadf_shift n T (evec l) m 1 Hm HS) as A. pose proof (quadf_shift n T (evec l) m (-1) Hm HS) as B. rewrite quadf_e in A, B by exact Hl.
  assert (E : rsum n (fun i => T m i * evec l i) = T l m).
  { rewrite (rsum_ext n _ (fun i => if (i =? l)%nat then (fun i => T m i) i else 0)); [rewrite (rsum_one n l (fun i => T m i) Hl); apply HS; assumption|].
    intros i Hi. unfold evec. destruct (Nat.eqb_spec i l); ring. }
  rewrite E in A, B. match type of A with quadf _ _ ?v = _ => pose proof (H v) as A' end. match type of B with quadf _ _ ?v = _ => pose proof (H v) as B' end.
  unfold Rabs. destruct (Rcase_abs (T l m)); lra.
Qed.
Lemma asum_entry n (M : rmat) i j : (i < n)%nat -> (j < n)%nat -> Rabs (M i j) <= asum n M.
Proof.
  intros Hi Hj. unfold asum. apply Rle_trans with (rsum n (fun j => Rabs (M i j))).
  - rewrite <- (rsum_one n j (fun j => Rabs (M i j)) Hj). apply rsum_le. intros k Hk. destruct (Nat.eqb_spec k j); [lra|apply Rabs_pos].
  - rewrite <- (rsum_one n i (fun i => rsum n (fun j => Rabs (M i j))) Hi) at 1. apply rsum_le. intros k Hk. destruct (Nat.eqb_spec k i); [lra|]. apply rsum_nonneg. intros. apply Rabs_pos.
Qed.
Lemma rabs_sum n (f : rvec) : Rabs (rsum n f) <= rsum n (fun k => Rabs (f k)).
Proof. induction n as [|n IH]; cbn [rsum]; [rewrite Rabs_R0; lra|]. eapply Rle_trans; [apply Rabs_triang|]. lra. Qed.

Section Term.
Variables (qp : oqp R) (reg : R) (Gam gam : nat -> rvec).
Notation D := (q_dim qp).
Notation N := (dN D).
Hypothesis Hwf : qp_wf qp.

Definition bnd n (P : rmat) (B : R) : Prop := forall l m, (l < n)%nat -> (m < n)%nat -> Rabs (P l m) <= B.
Definition xco ss : R := asum (nux qp ss) (fun i j => rsum (dnx D (S ss)) (fun l => rsum (dnx D (S ss)) (fun m => Rabs (q_BAbt qp ss i l) * Rabs (q_BAbt qp ss j m)))).
(** a bound of the assembled stage matrix *)
Lemma asm_bound ss (H0 P : rmat) B : 0 <= B -> bnd (dnx D (S ss)) P B -> asum (nux qp ss) (fun i j => H0 i j + stX qp P ss i j) <= asum (nux qp ss) H0 + B * xco ss.
Proof.
  intros HB HP. unfold xco, asum. rewrite <- rsum_scal, <- rsum_add. apply rsum_le. intros i Hi. rewrite <- rsum_scal, <- rsum_add. apply rsum_le. intros j Hj.
  eapply Rle_trans; [apply Rabs_triang|]. apply Rplus_le_compat_l. unfold stX. set (S := rsum (dnx D (S ss)) (fun l => rsum (dnx D (S ss)) (fun m => Rabs (q_BAbt qp ss i l) * Rabs (q_BAbt qp ss j m)))).
  assert (HS : 0 <= S). { apply rsum_nonneg. intros. apply rsum_nonneg. intros. apply Rmult_le_pos; apply Rabs_pos. }
  rewrite (Rabs_pos_eq S HS). destruct (ss <? N)%nat; [|rewrite Rabs_R0; nra].
  unfold S. rewrite <- rsum_scal. eapply Rle_trans; [apply rabs_sum|]. apply rsum_le. intros l Hl. rewrite <- rsum_scal. eapply Rle_trans; [apply rabs_sum|]. apply rsum_le. intros m Hm.
  rewrite !Rabs_mult. pose proof (HP l m Hl Hm). pose proof (Rabs_pos (q_BAbt qp ss i l)). pose proof (Rabs_pos (q_BAbt qp ss j m)). pose proof (Rabs_pos (P l m)).
  rewrite Rmult_assoc, (Rmult_comm (Rabs (P l m))), <- Rmult_assoc, (Rmult_comm B). apply Rmult_le_compat_l; [apply Rmult_le_pos; assumption|assumption].
Qed.
Definition cls_K ss B : R := asum (nux qp ss) (stH qp reg Gam (cls_rho qp reg 0 ss) ss) + B * xco ss + 1.
Lemma cls_K_pos ss B : 0 <= B -> 0 < cls_K ss B.
Proof. intros HB. unfold cls_K. pose proof (asum_nonneg (nux qp ss) (stH qp reg Gam (cls_rho qp reg 0 ss) ss)). assert (0 <= xco ss) by apply asum_nonneg. pose proof (Rmult_le_pos _ _ HB H0). lra. Qed.
(** the stage matrix with c on the states, preg >= c on the inputs *)
Definition rho_c preg c ss : rvec := fun i => if (i <? dnu D ss)%nat then preg else reg + c.
Lemma stage_pd ss P B preg : 0 <= B -> bnd (dnx D (S ss)) P B -> cls_K ss B <= preg -> PD (nux qp ss) (fun i j => stH qp reg Gam (rho_c preg (cls_K ss B) ss) ss i j + stX qp P ss i j).
Proof.
  intros HB HP Hp. set (c := cls_K ss B) in *. set (M := fun i j => stH qp reg Gam (cls_rho qp reg 0 ss) ss i j + stX qp P ss i j).
  assert (HA : asum (nux qp ss) M < c). { pose proof (asm_bound ss (stH qp reg Gam (cls_rho qp reg 0 ss) ss) P B HB HP). unfold c, cls_K, M. lra. }
  pose proof (big_pd (nux qp ss) M c HA) as H1.
  apply (PD_ext _ (fun i j => (M i j + (if (i =? j)%nat then c else 0)) + (if (i =? j)%nat then (if (i <? dnu D ss)%nat then preg - c else 0) else 0))).
  { intros i j _ _. unfold M, stH, rho_c, cls_rho. destruct (Nat.eqb_spec i j); [|lra]. destruct (Nat.ltb_spec i (dnu D ss)); lra. }
  apply PD_plus; [exact H1|]. intros v. unfold quadf. apply rsum_nonneg. intros i Hi.
  rewrite (rsum_ext _ _ (fun j => if (j =? i)%nat then (fun _ => (v i * v i) * (if (i <? dnu D ss)%nat then preg - c else 0)) j else 0)).
  - rewrite (rsum_one _ i (fun _ => _) Hi). apply Rmult_le_pos; [nra|]. destruct (_ <? _)%nat; lra.
  - intros j Hj. rewrite (Nat.eqb_sym j i). destruct (Nat.eqb_spec i j) as [->|]; ring.
Qed.
Lemma stage_lead ss P B preg : 0 <= B -> bnd (dnx D (S ss)) P B -> cls_K ss B <= preg -> PD (dnu D ss) (fun i j => stH qp reg Gam (cls_rho qp reg preg ss) ss i j + stX qp P ss i j).
Proof.
  intros HB HP Hp. pose proof (PD_lead (nux qp ss) (dnu D ss) _ ltac:(unfold nux; lia) (stage_pd ss P B preg HB HP Hp)) as H. eapply PD_ext; [|exact H]. intros i j Hi Hj. cbv beta. f_equal. unfold stH, rho_c, cls_rho.
  apply Nat.ltb_lt in Hi. rewrite Hi. reflexivity.
Qed.
Lemma stage_bnd ss P p B preg L Q p' : 0 <= B -> bnd (dnx D (S ss)) P B -> cls_K ss B <= preg ->
  FR qp reg Gam gam (cls_rho qp reg preg ss) P p ss (dnu D ss) L (embQ (dnu D ss) Q) p' -> Psym Q (dnx D ss) -> bnd (dnx D ss) Q (2 * cls_K ss B).
Proof.
  intros HB HP Hp (F1 & F2 & F3) HS. set (c := cls_K ss B) in *. set (nu := dnu D ss) in *. set (nx := dnx D ss) in *.
  pose proof (stage_pd ss P B preg HB HP Hp) as HPD. fold c in HPD. set (Qc := fun l m => Q l m + (if (l =? m)%nat then c else 0)).
  assert (FRc : FR qp reg Gam gam (rho_c preg c ss) P p ss nu L (embQ nu Qc) p').
  { split; [|split; assumption]. intros i j Hi Hj. specialize (F1 i j Hi Hj). revert F1. unfold stH, rho_c, cls_rho, embQ, Qc. fold nu.
    destruct (Nat.eqb_spec i j) as [->|E].
    - destruct (Nat.ltb_spec j nu); cbn [orb]; [intros; lra|]. rewrite Nat.eqb_refl. intros; lra.
    - destruct (Nat.ltb_spec i nu); cbn [orb]; [intros; lra|]. destruct (Nat.ltb_spec j nu); cbn [orb]; [intros; lra|]. destruct (Nat.eqb_spec (i - nu) (j - nu)); [lia|]. intros; lra. }
  pose proof (cls_P_psd qp reg Gam gam (rho_c preg c ss) P p ss L Qc p' FRc (PD_PSD _ _ HPD)) as HQ. fold nx in HQ.
  assert (Hd : forall l, (l < nx)%nat -> Q l l <= c).
  { intros l Hl. specialize (F1 (nu + l)%nat (nu + l)%nat ltac:(unfold nux; fold nu nx; lia) ltac:(unfold nux; fold nu nx; lia)).
    assert (Eq : embQ nu Q (nu + l)%nat (nu + l)%nat = Q l l). { unfold embQ. destruct (Nat.ltb_spec (nu + l) nu); [lia|]. cbn [orb]. replace (nu + l - nu)%nat with l by lia. reflexivity. }
    rewrite Eq in F1. pose proof (sq_nonneg nu (fun k => CholProofs.lt L (nu + l) k)) as Hsq. cbv beta in Hsq.
    assert (E0 : stH qp reg Gam (cls_rho qp reg preg ss) ss (nu + l) (nu + l) = stH qp reg Gam (cls_rho qp reg 0 ss) ss (nu + l) (nu + l)).
    { unfold stH, cls_rho. fold nu. destruct (Nat.ltb_spec (nu + l) nu); [lia|]. reflexivity. }
    rewrite E0 in F1.
    pose proof (asum_entry (nux qp ss) (fun i j => stH qp reg Gam (cls_rho qp reg 0 ss) ss i j + stX qp P ss i j) (nu + l) (nu + l) ltac:(unfold nux; fold nu nx; lia) ltac:(unfold nux; fold nu nx; lia)) as HA. cbv beta in HA.
    pose proof (asm_bound ss (stH qp reg Gam (cls_rho qp reg 0 ss) ss) P B HB HP) as HA2. pose proof (Rle_abs (stH qp reg Gam (cls_rho qp reg 0 ss) ss (nu + l) (nu + l) + stX qp P ss (nu + l) (nu + l))).
    unfold c, cls_K. lra. }
  assert (HSc : forall a b, (a < nx)%nat -> (b < nx)%nat -> Qc a b = Qc b a). { intros a b Ha Hb. unfold Qc. rewrite (HS a b Ha Hb), (Nat.eqb_sym a b). reflexivity. }
  intros l m Hl Hm. pose proof (psd_off nx Qc l m Hl Hm HSc HQ) as HO. pose proof (psd_diag nx Qc l Hl HQ) as D1. pose proof (Hd l Hl). pose proof (Hd m Hm).
  unfold Qc in HO, D1. rewrite (Nat.eqb_refl l) in HO, D1. rewrite (Nat.eqb_refl m) in HO. assert (Hc : 0 < c) by (apply cls_K_pos; exact HB). revert HO. destruct (Nat.eqb_spec l m) as [->|E]; intros HO.
  - unfold Rabs. destruct (Rcase_abs (Q m m)); lra.
  - rewrite Rplus_0_r in HO. lra.
Qed.
Lemma sweep_large : forall k, (k < N)%nat -> exists K B, 0 <= B /\ forall preg w, K <= preg -> BAok qp w -> exists w', cls_sweep qp Gam gam reg preg k w = (w', false) /\ BAok qp w' /\
  Psym (k_P w' (N - k)%nat) (dnx D (N - k)) /\ bnd (dnx D (N - k)) (k_P w' (N - k)%nat) B.
Proof.
  induction k as [|k IH]; intros Hk.
  - exists (cls_K N 0), (2 * cls_K N 0). pose proof (cls_K_pos N 0 (Rle_refl 0)) as Hc. split; [lra|]. intros preg w Hp HB. rewrite Nat.sub_0_r. unfold cls_sweep. cbn [loop]. destruct (fact_cls_last reg preg qp Gam gam w) as [w' b] eqn:E. exists w'.
    assert (H0 : bnd (dnx D (S N)) (fun _ _ => 0) 0) by (intros l m _ _; rewrite Rabs_R0; lra).
    destruct (fact_cls_last_G qp reg Gam gam Hwf preg w w' b (fun _ _ => 0) (fun _ => 0) E) as (HF & Hb).
    assert (HPD : PD (dnu D N) (stH qp reg Gam (cls_rho qp reg preg N) N)).
    { eapply PD_ext; [|apply (stage_lead N (fun _ _ => 0) 0 preg (Rle_refl 0) H0 Hp)]. intros i j _ _. cbv beta. unfold stX. rewrite Nat.ltb_irrefl. lra. }
    specialize (Hb HPD). subst b. destruct (HF eq_refl) as (F & _ & S). split; [reflexivity|]. split; [eapply BA_frame; [eapply fact_cls_last_frame; exact E|exact HB]|]. split; [exact S|].
    eapply stage_bnd; [apply Rle_refl|exact H0|exact Hp|exact F|exact S].
  - destruct (IH ltac:(lia)) as (K & B & HB0 & IH'). set (q := (N - k - 1)%nat). exists (Rmax K (cls_K q B)), (2 * cls_K q B). pose proof (cls_K_pos q B HB0) as Hc. split; [lra|]. intros preg w Hp HB.
    pose proof (Rmax_l K (cls_K q B)). pose proof (Rmax_r K (cls_K q B)).
    destruct (IH' preg w ltac:(lra) HB) as (w1 & E1 & B1 & S1 & P1). unfold cls_sweep in *. cbn [loop]. rewrite E1. assert (Eq : (N - k)%nat = S q) by (unfold q; lia). fold q. rewrite Eq in *.
    replace (N - S k)%nat with q by (unfold q; lia).
    destruct (fact_cls_mid false reg preg qp Gam gam q w1) as [w' b] eqn:E. exists w'.
    destruct (fact_cls_mid_G qp reg Gam gam Hwf false preg q w1 w' b ltac:(unfold q; lia) B1 S1 E) as (HF & Hb). cbv iota beta in HF, Hb.
    specialize (Hb (stage_lead q _ B preg HB0 P1 ltac:(lra))). subst b. destruct (HF eq_refl) as ((F & S) & _). split; [reflexivity|].
    split; [eapply BA_frame; [eapply fact_cls_mid_frame; exact E|exact B1]|]. split; [exact S|]. eapply stage_bnd; [exact HB0|exact P1| |exact F|exact S]. lra.
Qed.
Lemma cls_large : (1 <= N)%nat -> exists K, forall preg w, K <= preg -> BAok qp w -> snd (fact_cls reg preg qp Gam gam w) = false.
Proof.
  intros HN. destruct (sweep_large (N - 1)%nat ltac:(lia)) as (K & B & HB0 & HK). set (c := asum (nux qp 0) (stH qp reg Gam (fun _ => 0) 0) + B * xco 0 + 1). exists (Rmax K c). intros preg w Hp HB.
  pose proof (Rmax_l K c). pose proof (Rmax_r K c). rewrite (fact_cls_eq qp reg Gam gam preg w). destruct (HK preg w ltac:(lra) HB) as (w1 & -> & B1 & S1 & P1). replace (N - (N - 1))%nat with 1%nat in * by lia.
  destruct (Nat.ltb_spec 0 N); [|lia]. destruct (fact_cls_mid true reg preg qp Gam gam 0 w1) as [w' b] eqn:E.
  destruct (fact_cls_mid_G qp reg Gam gam Hwf true preg 0 w1 w' b ltac:(lia) B1 S1 E) as (_ & Hb). cbn [snd]. apply Hb.
  set (M := fun i j => stH qp reg Gam (fun _ => 0) 0 i j + stX qp (k_P w1 1%nat) 0 i j).
  apply (PD_ext _ (fun i j => M i j + (if (i =? j)%nat then preg else 0))); [intros i j _ _; unfold M, stH; destruct (Nat.eqb_spec i j); lra|].
  apply big_pd. pose proof (asm_bound 0 (stH qp reg Gam (fun _ => 0) 0) (k_P w1 1%nat) B HB0 P1). unfold M. unfold c in *. lra.
Qed.
Lemma retry_ends (last : R) (K : R) : 0 <= reg -> (last = reg \/ 0 < last) -> (forall preg w, K <= preg -> BAok qp w -> snd (fact_cls reg preg qp Gam gam w) = false) ->
  forall n init preg w, BAok qp w -> (init = true -> 0 < preg) -> K < next_preg reg last init preg * 8 ^ n -> exists fuel w' preg', retry fuel reg last qp Gam gam init preg w = Some (w', preg') /\ 0 < preg'.
Proof.
  intros Hr Hl HK. assert (Hpos : forall init preg, (init = true -> 0 < preg) -> 0 < next_preg reg last init preg).
  { intros [|] preg Hi; [pose proof (next_grow reg last preg (Hi eq_refl)); specialize (Hi eq_refl); lra|apply next_first; assumption]. }
  induction n as [|n IH]; intros init preg w HB Hi HKn; specialize (Hpos init preg Hi); set (p1 := next_preg reg last init preg) in *; destruct (fact_cls reg p1 qp Gam gam w) as [w1 sg] eqn:E.
  - cbn [pow] in HKn. pose proof (HK p1 w ltac:(lra) HB) as Hs. rewrite E in Hs. cbn [snd] in Hs. subst sg. exists 1%nat, w1, p1. cbn [retry]. fold p1. rewrite E. split; [reflexivity|exact Hpos].
  - destruct sg; [|exists 1%nat, w1, p1; cbn [retry]; fold p1; rewrite E; split; [reflexivity|exact Hpos]].
    pose proof (next_grow reg last p1 Hpos) as G. destruct (IH true p1 w1) as (f & w' & p' & Ef & Hp').
    + eapply fact_cls_BA; [exact HB|exact E].
    + intros _. exact Hpos.
    + cbn [pow] in HKn. pose proof (pow_lt 8 n ltac:(lra)). nra.
    + exists (S f), w', p'. cbn [retry]. fold p1. rewrite E. split; assumption.
Qed.
End Term.
