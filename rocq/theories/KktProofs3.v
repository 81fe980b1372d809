(** KktProofs3.v -- backward sweeps as a whole (both algorithms). *)
From Coq Require Import ZArith Bool Arith Lia Reals Lra.
From Verif Require Import Base ArithF RSum Blas Blas2 CoreModel CoreProofs OcpModel ResSpec KktSpec ResProofs CholProofs CholPD KktModel KktProofs KktProofs2.
Local Open Scope R_scope.

Section Sweep2.
Variables (qp : oqp R) (reg : R) (Gam gam : nat -> rvec).
Notation D := (q_dim qp).
Notation N := (dN D).
Hypothesis Hwf : qp_wf qp.
Notation FRq := (FR qp reg Gam gam).
Notation SL := (SLok qp reg Gam gam).

(** nothing but stage ss is changed *)
Definition frame (ss : nat) (w w' : kws R) : Prop :=
  (forall t, t <> ss -> k_L w' t = k_L w t /\ k_P w' t = k_P w t /\ k_Zs w' t = k_Zs w t /\ k_ux w' t = k_ux w t) /\
  (forall t i j, (i < nux qp t)%nat -> k_BAbt w' t i j = k_BAbt w t i j).
Lemma BA_frame ss w w' : frame ss w w' -> BAok qp w -> BAok qp w'.
Proof. intros (_ & H) B t i j Ht Hi Hj. rewrite H by assumption. apply B; assumption. Qed.
Lemma SL_frame ss w w' t : frame ss w w' -> t <> ss -> SL w t -> SL w' t.
Proof. intros (H & _) Hne S k Hk. destruct (H t Hne) as (_ & _ & -> & ->). apply S. exact Hk. Qed.

Lemma upd_BA (B : nat -> rmat) ss nx1 (b : rvec) t i j : (i < nux qp t)%nat -> upd B ss (ROWIN nx1 f1 b 0 (B ss) (nux qp ss) 0) t i j = B t i j.
Proof.
  intros Hi. destruct (Nat.eq_dec t ss) as [->|Hne]; [|rewrite upd_other by assumption; reflexivity].
  rewrite upd_same. unfold ROWIN. apply mblk_o. lia.
Qed.

Lemma fact_sqrt_mid_frame preg ss w w' b : fact_sqrt_mid reg preg qp Gam gam ss w = (w', b) -> frame ss w w'.
Proof.
  unfold fact_sqrt_mid. destruct (stage_build _ _ _ _ _ _ _ _) as [L [[tmp Zs] dux]].
  destruct (Nat.ltb 0 _); destruct (SYRK_POTRF_LN_MN _ _ _ _ _ _ _ _ _ _ _ _ _ _ _ _) as [L0 dA]; intros H; injection H as <- _.
  all: split; [intros t Hne; cbn [k_L k_P k_Zs k_ux]; rewrite !upd_other by assumption; auto|intros t i j Hi; cbn [k_BAbt]; apply upd_BA; exact Hi].
Qed.
Lemma fact_sqrt_last_frame preg w w' b : fact_sqrt_last reg preg qp Gam gam w = (w', b) -> frame N w w'.
Proof.
  unfold fact_sqrt_last. destruct (stage_build _ _ _ _ _ _ _ _) as [L [[tmp Zs] dux]].
  destruct (Nat.ltb 0 _); [destruct (SYRK_POTRF_LN_MN _ _ _ _ _ _ _ _ _ _ _ _ _ _ _ _) as [L0 dA]|destruct (POTRF_L_MN _ _ _ _ _ _ _ _ _) as [L0 dA]]; intros H; injection H as <- _.
  all: split; [intros t Hne; cbn [k_L k_P k_Zs k_ux]; rewrite !upd_other by assumption; auto|intros t i j Hi; cbn [k_BAbt]; reflexivity].
Qed.

(** what holds at stage ss after the sweep, square-root version *)
Definition sq_stage preg (w : kws R) ss : Prop :=
  FRq (fun _ => preg) (VPs (k_L w (S ss)) (dnu D (S ss)) (dnx D (S ss))) (vps (k_L w (S ss)) (dnu D (S ss)) (dnx D (S ss))) ss (nux qp ss) (k_L w ss) (fun _ _ => 0) (fun _ => 0) /\ SL w ss.

Lemma FR_last_any rho P p P' p' nf L Q q : FRq rho P p N nf L Q q -> FRq rho P' p' N nf L Q q.
Proof.
  intros (K1 & K2 & K3). split; [|split; [|exact K3]].
  - intros i j Hi Hj. rewrite <- K1 by assumption. unfold stX. rewrite Nat.ltb_irrefl. reflexivity.
  - intros i Hi. rewrite <- K2 by assumption. unfold stx. rewrite Nat.ltb_irrefl. reflexivity.
Qed.

Lemma fact_sqrt_BA preg w w' b : BAok qp w -> fact_sqrt reg preg qp Gam gam w = (w', b) -> BAok qp w'.
Proof.
  intros HB. unfold fact_sqrt. generalize N at 1. intros K. revert w' b. induction K as [|K IH]; intros w' b H; cbn [loop] in H.
  - eapply BA_frame; [eapply fact_sqrt_last_frame; exact H|exact HB].
  - destruct (loop K _ _) as [w1 b1]. destruct b1.
    + injection H as <- <-. eapply IH. reflexivity.
    + eapply BA_frame; [eapply fact_sqrt_mid_frame; exact H|]. eapply IH. reflexivity.
Qed.

Lemma fact_sqrt_R preg w w' : BAok qp w -> fact_sqrt reg preg qp Gam gam w = (w', false) ->
  BAok qp w' /\ forall ss, (ss <= N)%nat -> sq_stage preg w' ss.
Proof.
  intros HB H. split; [eapply fact_sqrt_BA; eassumption|]. unfold fact_sqrt in H.
  enough (G : forall K, (K <= N)%nat -> forall w', loop K (fun nn '(w, sg) => if (sg : bool) then (w, sg) else fact_sqrt_mid reg preg qp Gam gam (N - nn - 1) w) (fact_sqrt_last reg preg qp Gam gam w) = (w', false) ->
    BAok qp w' /\ forall ss, (N - K <= ss <= N)%nat -> sq_stage preg w' ss).
  { intros ss Hss. destruct (G N (le_n _) w' H) as (_ & G'). apply G'. lia. }
  clear w' H. induction K as [|K IH]; intros HK w' H; cbn [loop] in H.
  - split; [eapply BA_frame; [eapply fact_sqrt_last_frame; exact H|exact HB]|]. intros ss Hss. assert (ss = N) as -> by lia.
    destruct (fact_sqrt_last_R qp reg Gam gam Hwf preg w w' (VPs (k_L w' (S N)) (dnu D (S N)) (dnx D (S N))) (vps (k_L w' (S N)) (dnu D (S N)) (dnx D (S N))) H) as (A & B). split; assumption.
  - destruct (loop K _ _) as [w1 b1]. destruct b1; [discriminate|]. specialize (IH ltac:(lia) w1 eq_refl). destruct IH as (B1 & I1).
    pose proof (fact_sqrt_mid_frame _ _ _ _ _ H) as Hfr. split; [eapply BA_frame; eassumption|].
    set (q := (N - K - 1)%nat) in *. intros ss Hss.
    destruct (Nat.eq_dec ss q) as [->|Hne].
    + destruct (fact_sqrt_mid_R qp reg Gam gam Hwf preg q w1 w' ltac:(unfold q; lia) B1 H) as (A & B). destruct Hfr as (F1 & _).
      destruct (F1 (S q) ltac:(lia)) as (E & _). split; [|exact B]. rewrite E. exact A.
    + assert (Hss' : (N - K <= ss <= N)%nat) by (unfold q in Hne; lia). destruct (I1 ss Hss') as (A & B). split; [|eapply SL_frame; [exact Hfr|exact Hne|exact B]].
      destruct Hfr as (F1 & _). destruct (F1 ss Hne) as (E & _). rewrite E. destruct (F1 (S ss) ltac:(unfold q in *; lia)) as (E' & _). rewrite E'. exact A.
Qed.

(** ** classical algorithm *)
Definition cls_rho preg ss : rvec := fun i => if (i <? dnu D ss)%nat then preg else reg.
(** P+ss holds a symmetric value function *)
Definition Psym (P : rmat) nx : Prop := forall l m, (l < nx)%nat -> (m < nx)%nat -> P l m = P m l.

Lemma P_of_L_R (nu nx : nat) (L Ls P : rmat) : let '(Ls', P') := P_of_L nu nx L Ls P in
  (forall l m, (l < nx)%nat -> (m < nx)%nat -> P' l m = symL L (nu + l) (nu + m) - rsum nu (fun k => L (nu + l)%nat k * L (nu + m)%nat k)) /\
  (forall m, (m < nx)%nat -> P' nx m = L (nu + nx)%nat (nu + m)%nat - rsum nu (fun k => L (nu + nx)%nat k * L (nu + m)%nat k)).
Proof.
  unfold P_of_L. set (Ls' := GECP _ _ _ _ _ _ _ _).
  assert (E : forall l k, (l <= nx)%nat -> (k < nu)%nat -> Ls' l k = L (nu + l)%nat k).
  { intros l k Hl Hk. unfold Ls', GECP. rewrite mblk_i by lia. rewrite !Nat.sub_0_r. reflexivity. }
  clearbody Ls'. set (P1 := SYRK_LN_MN _ _ _ _ _ _ _ _ _ _ _ _ _ _ _ _ _).
  assert (E1 : forall r c, (r <= nx)%nat -> (c < nx)%nat -> (c <= r)%nat -> P1 r c = L (nu + r)%nat (nu + c)%nat - rsum nu (fun k => L (nu + r)%nat k * L (nu + c)%nat k)).
  { intros r c Hr Hc Hrc. unfold P1. rewrite SYRK_R by lia. cbn [Nat.add]. rsimp. rewrite R_lit11.
    rewrite (rsum_ext nu (fun l => Ls' r l * Ls' c l) (fun k => L (nu + r)%nat k * L (nu + c)%nat k)); [lra|]. intros k Hk. rewrite !E by lia. reflexivity. }
  clearbody P1. unfold TRTR_L. split.
  - intros l m Hl Hm. rewrite mupd_at. rewrite !Nat.sub_0_r. cbn [Nat.add]. destruct (Nat.ltb_spec l nx); [|lia]. destruct (Nat.ltb_spec m nx); [|lia]. cbn [andb Nat.leb].
    unfold symL. destruct (Nat.leb_spec l m); destruct (Nat.leb_spec (nu + m) (nu + l)); try lia.
    + assert (m = l) as -> by lia. apply E1; lia.
    + rewrite E1 by lia. f_equal. apply rsum_ext. intros; lra.
    + apply E1; lia.
  - intros m Hm. rewrite mupd_out by lia. apply E1; lia.
Qed.

Definition cls_stage preg (w : kws R) ss : Prop :=
  FRq (cls_rho preg ss) (k_P w (S ss)) (k_P w (S ss) (dnx D (S ss))) ss (dnu D ss) (k_L w ss) (embQ (dnu D ss) (k_P w ss)) (embq (dnu D ss) (k_P w ss (dnx D ss))) /\
  SL w ss /\ Psym (k_P w ss) (dnx D ss).

(** the last part of a stage: factorise the first nu columns in place, compute P *)
Lemma cls_tail rho P p ss (L : rmat) dA L0 dA' Ls Pold Ls' P' : Psym P (dnx D (S ss)) ->
  (forall i j, (j <= i < nux qp ss)%nat -> L i j = stH qp reg Gam rho ss i j + stX qp P ss i j) ->
  (forall j, (j < nux qp ss)%nat -> L (nux qp ss) j = sth qp reg Gam gam ss j + stx qp P p ss j) ->
  POTRF_L_MN (nux qp ss + 1) (dnu D ss) L 0 0 L 0 0 dA = (L0, dA') -> singular (dnu D ss) dA' = false ->
  P_of_L (dnu D ss) (dnx D ss) L0 Ls Pold = (Ls', P') ->
  FRq rho P p ss (dnu D ss) L0 (embQ (dnu D ss) P') (embq (dnu D ss) (P' (dnx D ss))) /\ Psym P' (dnx D ss).
Proof.
  intros HP HC Hc E Hs EP. assert (En : nux qp ss = (dnu D ss + dnx D ss)%nat) by reflexivity.
  pose proof (FR_of_chol qp reg Gam gam rho P p ss (dnu D ss) L L dA ltac:(lia) HP HC Hc) as H. rewrite E in H. destruct (H Hs) as (HF & Hfr).
  pose proof (P_of_L_R (dnu D ss) (dnx D ss) L0 Ls Pold) as HPP. rewrite EP in HPP. destruct HPP as (P1 & P2). split.
  - eapply FR_ext; [exact HF| |].
    + intros i j Hi Hj. cbv beta. unfold embQ. destruct (Nat.ltb_spec i (dnu D ss)); [reflexivity|]. destruct (Nat.ltb_spec j (dnu D ss)); [reflexivity|]. cbn [orb].
      rewrite P1 by lia. replace (dnu D ss + (i - dnu D ss))%nat with i by lia. replace (dnu D ss + (j - dnu D ss))%nat with j by lia. f_equal.
      unfold symL. destruct (Nat.leb_spec j i); symmetry; apply Hfr; lia.
    + intros i Hi. cbv beta. unfold embq. destruct (Nat.ltb_spec i (dnu D ss)); [reflexivity|]. rewrite P2 by lia. replace (dnu D ss + (i - dnu D ss))%nat with i by lia. rewrite <- En. f_equal. symmetry. apply Hfr. lia.
  - intros l m Hl Hm. rewrite !P1 by assumption. f_equal; [|apply rsum_ext; intros; lra].
    unfold symL. destruct (Nat.leb_spec (dnu D ss + m) (dnu D ss + l)), (Nat.leb_spec (dnu D ss + l) (dnu D ss + m)); try reflexivity; try lia. replace m with l by lia. reflexivity.
Qed.

Lemma fact_cls_last_frame preg w w' b : fact_cls_last reg preg qp Gam gam w = (w', b) -> frame N w w'.
Proof.
  unfold fact_cls_last. destruct (stage_build _ _ _ _ _ _ _ _) as [L [[tmp Zs] dux]].
  destruct (Nat.ltb 0 _); destruct (POTRF_L_MN _ _ _ _ _ _ _ _ _) as [L0 dA]; destruct (P_of_L _ _ _ _ _) as [Ls P]; intros H; injection H as <- _.
  all: split; [intros t Hne; cbn [k_L k_P k_Zs k_ux]; rewrite !upd_other by assumption; auto|intros t i j Hi; cbn [k_BAbt]; reflexivity].
Qed.
Lemma fact_cls_mid_frame full preg ss w w' b : fact_cls_mid full reg preg qp Gam gam ss w = (w', b) -> frame ss w w'.
Proof.
  unfold fact_cls_mid. destruct (stage_build _ _ _ _ _ _ _ _) as [L [[tmp Zs] dux]].
  destruct (Nat.ltb 0 _); (destruct full; [destruct (SYRK_POTRF_LN_MN _ _ _ _ _ _ _ _ _ _ _ _ _ _ _ _) as [L0 dA]|destruct (POTRF_L_MN _ _ _ _ _ _ _ _ _) as [L0 dA]; destruct (singular _ dA); [|destruct (P_of_L _ _ _ _ _) as [Ls P]]]);
   intros H; injection H as <- _.
  all: split; [intros t Hne; cbn [k_L k_P k_Zs k_ux]; rewrite ?upd_other by assumption; auto|intros t i j Hi; cbn [k_BAbt]; apply upd_BA; exact Hi].
Qed.

Lemma fact_cls_last_G preg w w' b P p : fact_cls_last reg preg qp Gam gam w = (w', b) ->
  (b = false -> FRq (cls_rho preg N) P p N (dnu D N) (k_L w' N) (embQ (dnu D N) (k_P w' N)) (embq (dnu D N) (k_P w' N (dnx D N))) /\ SL w' N /\ Psym (k_P w' N) (dnx D N)) /\
  (PD (dnu D N) (stH qp reg Gam (cls_rho preg N) N) -> b = false).
Proof.
  unfold fact_cls_last. intros H. destruct (Hwf N (le_n _)) as (Hib & Hsf).
  pose proof (stage_build_R qp N reg (Gam N) (gam N) (fun L => DIARE (dnx D N) reg (DIARE (dnu D N) preg L 0 0) (dnu D N) (dnu D N)) (cls_rho preg N) (k_L w N) (k_tmp w) (k_Zs w N) (k_ux w N) Hsf Hib (rg_cls qp reg N preg)) as HB.
  change (dnu D N + dnx D N)%nat with (nux qp N) in H.
  destruct (stage_build _ _ _ _ _ _ _ _) as [L [[tmp Zs] dux]]. destruct HB as (B1 & B2 & B3 & B4).
  set (s := if Nat.ltb 0 _ then _ else _) in H.
  assert (X : let '(L', _) := s in (forall i j, (j <= i < nux qp N)%nat -> L' i j = L i j + gpart qp reg Gam N i j) /\ (forall j, (j < nux qp N)%nat -> L' (nux qp N) j = L (nux qp N) j + gpart1 qp reg Gam gam N j)).
  { unfold s. destruct (Nat.ltb_spec 0 (dng D N)) as [Hng|Hng].
    - set (AL := ROWIN (dng D N) f1 (tmp 1%nat) (dnb D N) _ (nux qp N) 0).
      assert (A1 : forall i l, (i < nux qp N)%nat -> (l < dng D N)%nat -> AL i l = q_DCt qp N i l * T0q qp N reg (Gam N) (dnb D N + l)%nat).
      { intros i l Hi Hl. unfold AL, ROWIN. rewrite mblk_o by lia. unfold GEMM_ND. rewrite mblk_i by lia. rewrite !Nat.sub_0_r. cbn [Nat.add].
        destruct (B3 (dnb D N + l)%nat ltac:(lia)) as (E & _). rewrite E. rsimp. rewrite R_lit01, R_lit11. lra. }
      assert (A2 : forall l, (l < dng D N)%nat -> AL (nux qp N) l = T1q qp N reg (Gam N) (gam N) (dnb D N + l)%nat).
      { intros l Hl. unfold AL, ROWIN. rewrite mblk_i by lia. rewrite !Nat.sub_0_r. destruct (B3 (dnb D N + l)%nat ltac:(lia)) as (_ & E). rewrite E. rsimp. rewrite R_lit11. lra. }
      clearbody AL. split.
      + intros i j Hij. rewrite SYRK_R by lia. cbn [Nat.add]. rsimp. rewrite R_lit11, !Rmult_1_l. f_equal. unfold gpart. apply rsum_ext. intros l Hl. rewrite A1 by lia. reflexivity.
      + intros j Hj. rewrite SYRK_R by lia. cbn [Nat.add]. rsimp. rewrite R_lit11, !Rmult_1_l. f_equal. unfold gpart1. apply rsum_ext. intros l Hl. rewrite A2 by lia. reflexivity.
    - assert (Eg : dng D N = 0%nat) by lia. split.
      + intros i j Hij. unfold gpart. rewrite Eg. cbn [rsum]. lra.
      + intros j Hj. unfold gpart1. rewrite Eg. cbn [rsum]. lra. }
  destruct s as [L' AL0]. destruct X as (X1 & X2).
  destruct (POTRF_L_MN _ _ _ _ _ _ _ _ _) as [L0 dA'] eqn:EC. destruct (P_of_L _ _ _ _ _) as [Ls' P'] eqn:EP. injection H as Hw Hs. subst w' b. cbn [k_L k_P]. rewrite !upd_same.
  split.
  2:{ intros HPD. eapply (chol_pd qp reg Gam (cls_rho preg N) (fun _ _ => 0) N); [| | |exact EC|]; [unfold nux; lia|reflexivity| |].
      - intros i j Hij. rewrite X1, stH_split, B1 by lia. unfold stX. rewrite Nat.ltb_irrefl. lra.
      - intros v Hv. rewrite (quadf_ext _ _ (stH qp reg Gam (cls_rho preg N) N) v v); [apply HPD; exact Hv| |reflexivity]. intros i j _ _. unfold stX. rewrite Nat.ltb_irrefl. lra. }
  intros Hs.
  assert (T : FRq (cls_rho preg N) (fun _ _ => 0) p N (dnu D N) L0 (embQ (dnu D N) P') (embq (dnu D N) (P' (dnx D N))) /\ Psym P' (dnx D N)).
  { eapply cls_tail; [| | |exact EC|exact Hs|exact EP].
    - intros l m _ _. reflexivity.
    - intros i j Hij. rewrite X1, stH_split, B1 by lia. unfold stX. rewrite Nat.ltb_irrefl. lra.
    - intros j Hj. rewrite X2, sth_split, B2 by lia. unfold stx. rewrite Nat.ltb_irrefl. lra. }
  destruct T as (T1 & T2). split; [eapply FR_last_any; exact T1|]. split; [|exact T2].
  intros k Hk; cbn [k_Zs k_ux]; rewrite !upd_same; apply B4; exact Hk.
Qed.

(** middle and first stages: the matrix before the factorisation *)
Lemma fact_cls_mid_G full preg ss w w' b : (ss < N)%nat -> BAok qp w -> Psym (k_P w (S ss)) (dnx D (S ss)) ->
  fact_cls_mid full reg preg qp Gam gam ss w = (w', b) ->
  let P := k_P w (S ss) in let p := P (dnx D (S ss)) in
  (b = false -> (if full then FRq (fun _ => preg) P p ss (nux qp ss) (k_L w' ss) (fun _ _ => 0) (fun _ => 0)
   else FRq (cls_rho preg ss) P p ss (dnu D ss) (k_L w' ss) (embQ (dnu D ss) (k_P w' ss)) (embq (dnu D ss) (k_P w' ss (dnx D ss))) /\ Psym (k_P w' ss) (dnx D ss)) /\ SL w' ss) /\
  (PD (if full then nux qp ss else dnu D ss) (fun i j => stH qp reg Gam (if full then (fun _ => preg) else cls_rho preg ss) ss i j + stX qp P ss i j) -> b = false).
Proof.
  intros Hss HBA HPs H. unfold fact_cls_mid in H. rewrite (Nat.add_1_r ss) in H. set (P := k_P w (S ss)) in *. cbv zeta. set (nx1 := dnx D (S ss)) in *. set (p := P nx1).
  destruct (Hwf ss (Nat.lt_le_incl _ _ Hss)) as (Hib & Hsf).
  set (rho := if full then (fun _ => preg) else cls_rho preg ss).
  change (dnu D ss + dnx D ss)%nat with (nux qp ss) in H. set (n := nux qp ss) in *.
  match type of H with context [stage_build ?rg _ _ _ _ _ _ _] => set (rgf := rg) in H end.
  assert (Hrg : rg_ok qp ss rgf rho).
  { unfold rgf, rho. destruct full; [exact (rg_full qp ss preg)|exact (rg_cls qp reg ss preg)]. }
  pose proof (stage_build_R qp ss reg (Gam ss) (gam ss) rgf rho (k_L w ss) (k_tmp w) (k_Zs w ss) (k_ux w ss) Hsf Hib Hrg) as HB. clearbody rgf.
  set (BA := ROWIN nx1 f1 (q_b qp ss) 0 (k_BAbt w ss) n 0) in *.
  assert (HB1 : forall i l, (i < n)%nat -> (l < nx1)%nat -> BA i l = q_BAbt qp ss i l).
  { intros i l Hi Hl. unfold BA, ROWIN. rewrite mblk_o by lia. apply HBA; assumption. }
  assert (HB2 : forall l, (l < nx1)%nat -> BA n l = q_b qp ss l).
  { intros l Hl. unfold BA, ROWIN. rewrite mblk_i by lia. cbn [Nat.add]. rewrite Nat.sub_0_r. rsimp. rewrite R_lit11. lra. }
  set (A0 := GEMM_NT _ _ _ _ _ _ _ _ _ _ _ _ _ _ _ _ _) in *.
  set (A1 := GEAD 1 nx1 f1 P nx1 0 A0 n 0) in *.
  assert (H0 : forall i l, (i <= n)%nat -> (l < nx1)%nat -> A0 i l = rsum nx1 (fun m => BA i m * P l m)).
  { intros i l Hi Hl. unfold A0, GEMM_NT. rewrite mblk_i by lia. rewrite !Nat.sub_0_r, fsum_R. cbn [Nat.add]. rsimp. rewrite R_lit01, R_lit11. lra. }
  assert (H1 : forall i l, (i < n)%nat -> (l < nx1)%nat -> A1 i l = rsum nx1 (fun m => q_BAbt qp ss i m * P l m)).
  { intros i l Hi Hl. unfold A1, GEAD. rewrite mblk_o by lia. rewrite H0 by lia. apply rsum_ext. intros k Hk. rewrite HB1 by assumption. reflexivity. }
  assert (H2 : forall l, (l < nx1)%nat -> A1 n l = rsum nx1 (fun m => q_b qp ss m * P l m) + p l).
  { intros l Hl. unfold A1, GEAD. rewrite mblk_i by lia. replace (n + (n - n))%nat with n by lia. replace (nx1 + (n - n))%nat with nx1 by lia. rewrite !Nat.sub_0_r. cbn [Nat.add].
    rewrite H0 by lia. rsimp. rewrite R_lit11, Rmult_1_l. f_equal. apply rsum_ext. intros k Hk. rewrite HB2 by assumption. reflexivity. }
  clearbody A1. clear H0 HB2.
  assert (Q1 : forall i j, (i < n)%nat -> (j < n)%nat -> rsum nx1 (fun l => A1 i l * BA j l) = stX qp P ss i j).
  { intros i j Hi Hj. rewrite (stX_sym qp P ss i j HPs). unfold stX. apply Nat.ltb_lt in Hss. rewrite Hss. fold nx1. apply rsum_ext. intros l Hl. rewrite H1, HB1 by assumption.
    rewrite Rmult_comm, <- rsum_scal. apply rsum_ext. intros; lra. }
  assert (Q2 : forall j, (j < n)%nat -> rsum nx1 (fun l => A1 n l * BA j l) = stx qp P p ss j).
  { intros j Hj. unfold stx. apply Nat.ltb_lt in Hss. rewrite Hss. fold nx1. apply rsum_ext. intros l Hl. rewrite H2, HB1 by assumption.
    rewrite Rmult_comm. f_equal. f_equal. apply rsum_ext. intros; lra. }
  destruct (stage_build _ _ _ _ _ _ _ _) as [L [[tmp Zs] dux]]. destruct HB as (B1 & B2 & B3 & B4). fold n in B1, B2, B4.
  set (s := if Nat.ltb 0 _ then _ else _) in H.
  assert (X : let '(L', AL) := s in (forall i j, (j <= i < n)%nat -> L' i j = L i j + gpart qp reg Gam ss i j) /\ (forall j, (j < n)%nat -> L' n j = L n j + gpart1 qp reg Gam gam ss j) /\
    (forall i l, (i <= n)%nat -> (l < nx1)%nat -> AL i l = A1 i l)).
  { unfold s. destruct (Nat.ltb_spec 0 (dng D ss)) as [Hng|Hng].
    - set (A2 := ROWIN (dng D ss) f1 (tmp 1%nat) (dnb D ss) _ n nx1).
      assert (E1 : forall i l, (i <= n)%nat -> (l < nx1)%nat -> A2 i l = A1 i l).
      { intros i l Hi Hl. unfold A2, ROWIN. rewrite mblk_o by lia. unfold GEMM_ND. rewrite mblk_o by lia. reflexivity. }
      assert (E2 : forall i l, (i < n)%nat -> (l < dng D ss)%nat -> A2 i (nx1 + l)%nat = q_DCt qp ss i l * T0q qp ss reg (Gam ss) (dnb D ss + l)%nat).
      { intros i l Hi Hl. unfold A2, ROWIN. rewrite mblk_o by lia. unfold GEMM_ND. rewrite mblk_i by lia. rewrite !Nat.sub_0_r. cbn [Nat.add]. replace (nx1 + l - nx1)%nat with l by lia.
        destruct (B3 (dnb D ss + l)%nat ltac:(lia)) as (E & _). rewrite E. rsimp. rewrite R_lit01, R_lit11. lra. }
      assert (E3 : forall l, (l < dng D ss)%nat -> A2 n (nx1 + l)%nat = T1q qp ss reg (Gam ss) (gam ss) (dnb D ss + l)%nat).
      { intros l Hl. unfold A2, ROWIN. rewrite mblk_i by lia. replace (nx1 + l - nx1)%nat with l by lia. destruct (B3 (dnb D ss + l)%nat ltac:(lia)) as (_ & E). rewrite E. rsimp. rewrite R_lit11. lra. }
      clearbody A2. split; [|split; [|exact E1]].
      + intros i j Hij. rewrite SYRK_R by lia. cbn [Nat.add]. rsimp. rewrite R_lit11, !Rmult_1_l. f_equal. unfold gpart. apply rsum_ext. intros l Hl. rewrite E2 by lia. reflexivity.
      + intros j Hj. rewrite SYRK_R by lia. cbn [Nat.add]. rsimp. rewrite R_lit11, !Rmult_1_l. f_equal. unfold gpart1. apply rsum_ext. intros l Hl. rewrite E3 by lia. reflexivity.
    - assert (Eg : dng D ss = 0%nat) by lia. split; [|split; [|reflexivity]].
      + intros i j Hij. unfold gpart. rewrite Eg. cbn [rsum]. lra.
      + intros j Hj. unfold gpart1. rewrite Eg. cbn [rsum]. lra. }
  destruct s as [L' AL0]. destruct X as (X1 & X2 & X3).
  assert (Y : forall r c (D1 : rmat), (r <= n)%nat -> (c < n)%nat -> (c <= r)%nat -> SYRK_LN_MN (n + 1) n nx1 f1 AL0 0 0 BA 0 0 f1 L' 0 0 D1 0 0 r c = L' r c + rsum nx1 (fun l => A1 r l * BA c l)).
  { intros r c D1 Hr Hc Hrc. rewrite SYRK_R by lia. cbn [Nat.add]. rsimp. rewrite R_lit11, !Rmult_1_l. f_equal. apply rsum_ext. intros l Hl. rewrite X3 by lia. reflexivity. }
  assert (Y1 : forall D1 i j, (j <= i < n)%nat -> SYRK_LN_MN (n + 1) n nx1 f1 AL0 0 0 BA 0 0 f1 L' 0 0 D1 0 0 i j = stH qp reg Gam rho ss i j + stX qp P ss i j).
  { intros D1 i j Hij. rewrite Y by lia. rewrite X1, stH_split, B1, Q1 by lia. lra. }
  assert (Y2 : forall D1 j, (j < n)%nat -> SYRK_LN_MN (n + 1) n nx1 f1 AL0 0 0 BA 0 0 f1 L' 0 0 D1 0 0 n j = sth qp reg Gam gam ss j + stx qp P p ss j).
  { intros D1 j Hj. rewrite Y by lia. rewrite X2, sth_split, B2, Q2 by lia. lra. }
  destruct full.
  - unfold SYRK_POTRF_LN_MN in H. destruct (POTRF_L_MN _ _ _ _ _ _ _ _ _) as [L0 dA'] eqn:EC. injection H as Hw Hs. subst w' b. cbn [k_L]. rewrite upd_same.
    split; [intros Hs; split; [|intros k Hk; cbn [k_Zs k_ux]; rewrite !upd_same; apply B4; exact Hk]|].
    + eapply FR_full; [exact HPs| | |exact EC|exact Hs]; [exact (Y1 _)|exact (Y2 _)].
    + intros HPD. eapply (chol_pd qp reg Gam (fun _ => preg) P ss); [apply le_n|exact HPs| |exact EC|exact HPD]. exact (Y1 _).
  - destruct (POTRF_L_MN _ _ _ _ _ _ _ _ _) as [L0 dA'] eqn:EC.
    assert (Np : PD (dnu D ss) (fun i j => stH qp reg Gam (cls_rho preg ss) ss i j + stX qp P ss i j) -> singular (dnu D ss) dA' = false).
    { intros HPD. eapply (chol_pd qp reg Gam (cls_rho preg ss) P ss); [|exact HPs| |exact EC|exact HPD]; [unfold nux; lia|exact (Y1 _)]. }
    destruct (singular (dnu D ss) dA') eqn:Hs.
    + injection H as Hw Hb. subst b. split; [discriminate|exact Np].
    + destruct (P_of_L _ _ _ _ _) as [Ls' P'] eqn:EP. injection H as Hw Hb. subst w' b. cbn [k_L k_P]. rewrite !upd_same.
      split; [|reflexivity]. intros _. split; [|intros k Hk; cbn [k_Zs k_ux]; rewrite !upd_same; apply B4; exact Hk].
      eapply cls_tail; [exact HPs| | |exact EC|exact Hs|exact EP]; [exact (Y1 _)|exact (Y2 _)].
Qed.
Lemma fact_cls_last_R preg w w' P p : fact_cls_last reg preg qp Gam gam w = (w', false) ->
  FRq (cls_rho preg N) P p N (dnu D N) (k_L w' N) (embQ (dnu D N) (k_P w' N)) (embq (dnu D N) (k_P w' N (dnx D N))) /\ SL w' N /\ Psym (k_P w' N) (dnx D N).
Proof. intros H. destruct (fact_cls_last_G preg w w' false P p H) as (A & _). apply A. reflexivity. Qed.
Lemma fact_cls_mid_R full preg ss w w' : (ss < N)%nat -> BAok qp w -> Psym (k_P w (S ss)) (dnx D (S ss)) ->
  fact_cls_mid full reg preg qp Gam gam ss w = (w', false) ->
  let P := k_P w (S ss) in let p := P (dnx D (S ss)) in
  (if full then FRq (fun _ => preg) P p ss (nux qp ss) (k_L w' ss) (fun _ _ => 0) (fun _ => 0)
   else FRq (cls_rho preg ss) P p ss (dnu D ss) (k_L w' ss) (embQ (dnu D ss) (k_P w' ss)) (embq (dnu D ss) (k_P w' ss (dnx D ss))) /\ Psym (k_P w' ss) (dnx D ss)) /\ SL w' ss.
Proof. intros Hss HB HP H. destruct (fact_cls_mid_G full preg ss w w' false Hss HB HP H) as (A & _). apply A. reflexivity. Qed.

Definition cls_sweep (reg0 preg : R) (K : nat) (w : kws R) : kws R * bool :=
  loop K (fun nn '(w, sg) => if (sg : bool) then (w, sg) else fact_cls_mid false reg0 preg qp Gam gam (N - nn - 1) w) (fact_cls_last reg0 preg qp Gam gam w).
Lemma cls_sweep_BA preg K w w' b : BAok qp w -> cls_sweep reg preg K w = (w', b) -> BAok qp w'.
Proof.
  intros HB. unfold cls_sweep. revert w' b. induction K as [|K IH]; intros w' b H; cbn [loop] in H.
  - eapply BA_frame; [eapply fact_cls_last_frame; exact H|exact HB].
  - destruct (loop K _ _) as [w1 b1]. destruct b1.
    + injection H as <- <-. eapply IH. reflexivity.
    + eapply BA_frame; [eapply fact_cls_mid_frame; exact H|]. eapply IH. reflexivity.
Qed.
Lemma fact_cls_eq preg w : fact_cls reg preg qp Gam gam w = let '(w1, sg) := cls_sweep reg preg (N - 1) w in
  if (sg : bool) then (w1, sg) else if Nat.ltb 0 N then fact_cls_mid true reg preg qp Gam gam 0 w1 else (w1, sg).
Proof. reflexivity. Qed.
Lemma fact_cls_BA preg w w' b : BAok qp w -> fact_cls reg preg qp Gam gam w = (w', b) -> BAok qp w'.
Proof.
  intros HB. rewrite fact_cls_eq. destruct (cls_sweep _ _ _ _) as [w1 b1] eqn:E. pose proof (cls_sweep_BA _ _ _ _ _ HB E) as HB1. destruct b1.
  - intros H. injection H as <- _. exact HB1.
  - destruct (Nat.ltb 0 N).
    + intros H. eapply BA_frame; [eapply fact_cls_mid_frame; exact H|exact HB1].
    + intros H. injection H as <- _. exact HB1.
Qed.

Lemma cls_sweep_R preg w : BAok qp w -> forall K, (K <= N)%nat -> forall w', cls_sweep reg preg K w = (w', false) -> forall ss, (N - K <= ss <= N)%nat -> cls_stage preg w' ss.
Proof.
  intros HB. induction K as [|K IH]; intros HK w' H; unfold cls_sweep in H; cbn [loop] in H.
  - intros ss Hss. assert (ss = N) as -> by lia.
    destruct (fact_cls_last_R preg w w' (k_P w' (S N)) (k_P w' (S N) (dnx D (S N))) H) as (A & B & C). split; [exact A|split; assumption].
  - fold (cls_sweep reg preg K w) in H. destruct (cls_sweep reg preg K w) as [w1 b1] eqn:E1. destruct b1; [discriminate|]. specialize (IH ltac:(lia) w1 eq_refl).
    pose proof (cls_sweep_BA _ _ _ _ _ HB E1) as B1.
    pose proof (fact_cls_mid_frame _ _ _ _ _ _ H) as Hfr.
    set (q := (N - K - 1)%nat) in *. intros ss Hss.
    assert (HPs : Psym (k_P w1 (S q)) (dnx D (S q))). { apply (IH (S q)). unfold q. lia. }
    destruct (Nat.eq_dec ss q) as [->|Hne].
    + destruct (fact_cls_mid_R false preg q w1 w' ltac:(unfold q; lia) B1 HPs H) as ((A & A') & B). destruct Hfr as (F1 & _).
      destruct (F1 (S q) ltac:(lia)) as (_ & E & _). split; [|split; assumption]. rewrite E. exact A.
    + assert (Hss' : (N - K <= ss <= N)%nat) by (unfold q in Hne; lia). destruct (IH ss Hss') as (A & B & C).
      pose proof (SL_frame _ _ _ _ Hfr Hne B) as B'. destruct Hfr as (F1 & _). destruct (F1 ss Hne) as (E & Ep & _). destruct (F1 (S ss) ltac:(unfold q in *; lia)) as (_ & E' & _).
      unfold cls_stage. rewrite E, Ep, E'. split; [exact A|split; assumption].
Qed.

(** the whole classical factorisation, N >= 1 *)
Lemma fact_cls_R preg w w' : (1 <= N)%nat -> BAok qp w -> fact_cls reg preg qp Gam gam w = (w', false) ->
  BAok qp w' /\ (forall ss, (1 <= ss <= N)%nat -> cls_stage preg w' ss) /\
  FRq (fun _ => preg) (k_P w' 1%nat) (k_P w' 1%nat (dnx D 1)) 0 (nux qp 0) (k_L w' 0%nat) (fun _ _ => 0) (fun _ => 0) /\ SL w' 0%nat.
Proof.
  intros HN HB H. split; [eapply fact_cls_BA; eassumption|]. rewrite fact_cls_eq in H. destruct (cls_sweep _ _ _ _) as [w1 b1] eqn:E. destruct b1; [discriminate|].
  destruct (Nat.ltb_spec 0 N); [|lia]. pose proof (cls_sweep_R preg w HB (N - 1) ltac:(lia) w1 E) as S1. pose proof (cls_sweep_BA _ _ _ _ _ HB E) as B1.
  assert (HPs : Psym (k_P w1 1%nat) (dnx D 1)). { apply (S1 1%nat). lia. }
  destruct (fact_cls_mid_R true preg 0 w1 w' ltac:(lia) B1 HPs H) as (A & B).
  pose proof (fact_cls_mid_frame _ _ _ _ _ _ H) as Hfr. split.
  - intros ss Hss. destruct (S1 ss ltac:(lia)) as (A1 & A2 & A3). assert (Hne : ss <> 0%nat) by lia. pose proof (SL_frame _ _ _ _ Hfr Hne A2) as A2'. destruct Hfr as (F1 & _). destruct (F1 ss Hne) as (E1 & E2 & _). destruct (F1 (S ss) ltac:(lia)) as (_ & E3 & _).
    unfold cls_stage. rewrite E1, E2, E3. split; [exact A1|split; assumption].
  - split; [|exact B]. destruct Hfr as (F1 & _). destruct (F1 1%nat ltac:(lia)) as (_ & E3 & _). rewrite E3. exact A.
Qed.
End Sweep2.
