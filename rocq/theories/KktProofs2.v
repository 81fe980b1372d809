(** KktProofs2.v -- the backward Riccati sweep over the real numbers: every stage matrix is factorised. *)
From Coq Require Import ZArith Bool Arith Lia Reals Lra.
From Verif Require Import Base ArithF RSum Blas Blas2 CoreModel CoreProofs OcpModel ResSpec KktSpec ResProofs CholProofs CholPD KktModel KktProofs.
Local Open Scope R_scope.

Lemma singular_false n (dA : rvec) : singular n dA = false -> forall j, (j < n)%nat -> dA j <> 0.
Proof.
  unfold singular. induction n as [|n IH]; intros H j Hj; [lia|]. cbn [loop] in H. apply orb_false_iff in H. destruct H as (H1 & H2).
  destruct (Nat.eq_dec j n) as [->|Hne]; [|apply IH; [exact H1|lia]]. revert H2. rsimp. rewrite R_lit01. destruct (Reqb_spec (dA n) 0); [discriminate|auto].
Qed.

(** sums of products of lower-triangular rows *)
Lemma lt_sum nf (L : rmat) i j : (j <= i)%nat -> (j < nf)%nat -> rsum nf (fun k => lt L i k * lt L j k) = rsum (S j) (fun k => L i k * L j k).
Proof.
  intros Hij Hj. rewrite <- (rsum_low nf j) by assumption. apply rsum_ext. intros k Hk. unfold lt. destruct (Nat.leb_spec k j), (Nat.leb_spec k i); try lia; lra.
Qed.
Lemma lt_sum_r nf (L : rmat) (v : rvec) j : (j < nf)%nat -> rsum nf (fun k => v k * lt L j k) = rsum (S j) (fun k => v k * L j k).
Proof. intros Hj. rewrite <- (rsum_low nf j) by assumption. apply rsum_ext. intros k Hk. unfold lt. destruct (Nat.leb_spec k j); lra. Qed.

Lemma potrf_FR nf n (C D : rmat) dA : (nf <= n)%nat -> let '(L, dA') := POTRF_L_MN (n + 1) nf C 0 0 D 0 0 dA in
  singular nf dA' = false ->
  (forall i j, (i < n)%nat -> (j < n)%nat -> (i < nf \/ j < nf)%nat -> symL C i j = rsum nf (fun k => lt L i k * lt L j k)) /\
  (forall i, (i < nf)%nat -> C n i = rsum nf (fun k => L n k * lt L i k)) /\
  (forall k, (k < nf)%nat -> 0 < L k k) /\
  (forall i j, (nf <= j \/ i < j)%nat -> L i j = D i j).
Proof.
  intros Hn. pose proof (potrf_R (n + 1) nf C D dA ltac:(lia)) as H. destruct (POTRF_L_MN _ _ _ _ _ _ _ _ _) as [L dA']. intros Hs.
  specialize (H (singular_false _ _ Hs)). destruct H as (H1 & H2 & H3).
  assert (K : forall i j, (j <= i)%nat -> (i < n)%nat -> (j < nf)%nat -> C i j = rsum nf (fun k => lt L i k * lt L j k)).
  { intros i j Hij Hi Hj. rewrite lt_sum by assumption. symmetry. apply H1; lia. }
  split; [|split; [|split]].
  - intros i j Hi Hj Ho. unfold symL. destruct (Nat.leb_spec j i).
    + apply K; lia.
    + rewrite (K j i) by lia. apply rsum_ext. intros; lra.
  - intros i Hi. rewrite lt_sum_r by assumption. symmetry. apply H1; lia.
  - exact H2.
  - intros i j Hij. apply H3. lia.
Qed.

Lemma SYRK_R m n k al (A B : rmat) ai aj bi bj be (C D : rmat) ci cj r c : (r < m)%nat -> (c < n)%nat -> (c <= r)%nat ->
  SYRK_LN_MN m n k al A ai aj B bi bj be C ci cj D 0 0 r c = be * C (ci + r)%nat (cj + c)%nat + al * rsum k (fun l => A (ai + r)%nat (aj + l)%nat * B (bi + c)%nat (bj + l)%nat).
Proof.
  intros Hr Hc Hcr. unfold SYRK_LN_MN. rewrite mupd_i by (try lia; unfold low; apply Nat.leb_le; lia). rewrite !Nat.sub_0_r, fsum_R. reflexivity.
Qed.

(** quadratic forms through a factor *)
Lemma quad_factor n q (a c : rvec) (T : rmat) :
  rsum q (fun l => rsum n (fun k => a k * T k l) * rsum n (fun m => c m * T m l)) =
  rsum n (fun k => rsum n (fun m => a k * rsum q (fun l => T k l * T m l) * c m)).
Proof.
  rewrite (rsum_ext q _ (fun l => rsum n (fun k => rsum n (fun m => a k * (T k l * T m l) * c m)))).
  2:{ intros l _. rewrite <- rsum_scal_r. apply rsum_ext. intros k _. rewrite <- rsum_scal. apply rsum_ext. intros; lra. }
  rewrite rsum_swap. apply rsum_ext. intros k _. rewrite rsum_swap. apply rsum_ext. intros m _. rewrite rsum_scal_r, rsum_scal. reflexivity.
Qed.

Section Sweep.
Variables (qp : oqp R) (reg : R) (Gam gam : nat -> rvec).
Notation D := (q_dim qp).
Notation N := (dN D).
Notation T0s ss := (T0q qp ss reg (Gam ss)).
Notation T1s ss := (T1q qp ss reg (Gam ss) (gam ss)).
Hypothesis Hwf : qp_wf qp.

(** Hessian and gradient of stage ss with the inequality constraints eliminated (rho: regularisation), ... *)
Definition stH (rho : rvec) ss i j : R := symL (q_RSQ qp ss) i j + (if (i =? j)%nat then rho i else 0) + rsum (dnb D ss + dng D ss) (fun c => rowq qp ss c i * T0s ss c * rowq qp ss c j).
Definition sth ss j : R := q_rqz qp ss j + rsum (dnb D ss + dng D ss) (fun c => rowq qp ss c j * T1s ss c).
(** ... plus the value function P, p of the next stage composed with the dynamics *)
Definition stX (P : rmat) ss i j : R := if (ss <? N)%nat then rsum (dnx D (S ss)) (fun l => rsum (dnx D (S ss)) (fun m => q_BAbt qp ss i l * P l m * q_BAbt qp ss j m)) else 0.
Definition stx (P : rmat) (p : rvec) ss j : R := if (ss <? N)%nat then rsum (dnx D (S ss)) (fun l => q_BAbt qp ss j l * (rsum (dnx D (S ss)) (fun m => P l m * q_b qp ss m) + p l)) else 0.

(** the first nf columns of L factorise the stage matrix, up to the remainder Q, q *)
Definition FR (rho : rvec) (P : rmat) (p : rvec) ss nf (L Q : rmat) (q : rvec) : Prop :=
  (forall i j, (i < nux qp ss)%nat -> (j < nux qp ss)%nat -> stH rho ss i j + stX P ss i j = rsum nf (fun k => lt L i k * lt L j k) + Q i j) /\
  (forall i, (i < nux qp ss)%nat -> sth ss i + stx P p ss i = rsum nf (fun k => L (nux qp ss) k * lt L i k) + q i) /\
  (forall k, (k < nf)%nat -> 0 < L k k).

Lemma stH_sym rho ss i j : stH rho ss i j = stH rho ss j i.
Proof.
  unfold stH. f_equal; [f_equal|].
  - unfold symL. destruct (Nat.leb_spec i j), (Nat.leb_spec j i); try reflexivity; try lia. replace i with j by lia. reflexivity.
  - destruct (Nat.eqb_spec i j), (Nat.eqb_spec j i); subst; try reflexivity; lia.
  - apply rsum_ext. intros; lra.
Qed.
Lemma stX_sym P ss i j : (forall l m, (l < dnx D (S ss))%nat -> (m < dnx D (S ss))%nat -> P l m = P m l) -> stX P ss i j = stX P ss j i.
Proof.
  intros H. unfold stX. destruct (ss <? N)%nat; [|reflexivity]. rewrite rsum_swap. apply rsum_ext. intros l Hl. apply rsum_ext. intros m Hm. rewrite (H m l) by assumption. lra.
Qed.

(** assembling: [L] from stage_build, [C] = L + general constraints + next stage *)
Definition gpart ss i j : R := rsum (dng D ss) (fun l => q_DCt qp ss i l * T0s ss (dnb D ss + l)%nat * q_DCt qp ss j l).
Definition gpart1 ss j : R := rsum (dng D ss) (fun l => T1s ss (dnb D ss + l)%nat * q_DCt qp ss j l).
Lemma stH_split rho ss i j : (j <= i)%nat -> stH rho ss i j = q_RSQ qp ss i j + (if (i =? j)%nat then rho i else 0) + rsum (dnb D ss) (fun c => rowq qp ss c i * T0s ss c * rowq qp ss c j) + gpart ss i j.
Proof.
  intros H. unfold stH. rewrite rsum_split. unfold symL. destruct (Nat.leb_spec j i); [|lia].
  rewrite (rsum_ext (dng D ss) _ (fun l => q_DCt qp ss i l * T0s ss (dnb D ss + l)%nat * q_DCt qp ss j l)).
  2:{ intros l _. rewrite !rowq_g. reflexivity. }
  unfold gpart. lra.
Qed.
Lemma sth_split ss j : sth ss j = q_rqz qp ss j + rsum (dnb D ss) (fun c => rowq qp ss c j * T1s ss c) + gpart1 ss j.
Proof.
  unfold sth. rewrite rsum_split. rewrite Rplus_assoc. f_equal. f_equal. unfold gpart1. apply rsum_ext. intros l _. rewrite rowq_g. lra.
Qed.

(** from a factorised assembled matrix to FR *)
Lemma FR_of_chol rho P p ss nf C D0 dA : (nf <= nux qp ss)%nat ->
  (forall l m, (l < dnx D (S ss))%nat -> (m < dnx D (S ss))%nat -> P l m = P m l) ->
  (forall i j, (j <= i < nux qp ss)%nat -> C i j = stH rho ss i j + stX P ss i j) ->
  (forall j, (j < nux qp ss)%nat -> C (nux qp ss) j = sth ss j + stx P p ss j) ->
  let '(L, dA') := POTRF_L_MN (nux qp ss + 1) nf C 0 0 D0 0 0 dA in
  singular nf dA' = false ->
  FR rho P p ss nf L (fun i j => if ((i <? nf) || (j <? nf))%nat then 0 else symL C i j - rsum nf (fun k => L i k * L j k))
                     (fun i => if (i <? nf)%nat then 0 else C (nux qp ss) i - rsum nf (fun k => L (nux qp ss) k * L i k)) /\
  (forall i j, (nf <= j \/ i < j)%nat -> L i j = D0 i j).
Proof.
  intros Hnf HP HC Hc. pose proof (potrf_FR nf (nux qp ss) C D0 dA Hnf) as H. destruct (POTRF_L_MN _ _ _ _ _ _ _ _ _) as [L dA']. intros Hs.
  specialize (H Hs). destruct H as (H1 & H2 & H3 & H4). split; [|exact H4].
  assert (HS : forall i j, (i < nux qp ss)%nat -> (j < nux qp ss)%nat -> symL C i j = stH rho ss i j + stX P ss i j).
  { intros i j Hi Hj. unfold symL. destruct (Nat.leb_spec j i); [apply HC; lia|]. rewrite HC by lia. rewrite stH_sym. f_equal. apply stX_sym. exact HP. }
  split; [|split; [|exact H3]].
  - intros i j Hi Hj. rewrite <- HS by assumption. destruct (Nat.ltb_spec i nf) as [Hi'|Hi']; [|destruct (Nat.ltb_spec j nf) as [Hj'|Hj']]; cbn [orb].
    + rewrite H1 by lia. lra.
    + rewrite H1 by lia. lra.
    + rewrite (rsum_ext nf (fun k => lt L i k * lt L j k) (fun k => L i k * L j k)); [lra|]. intros k Hk. rewrite !lt_in by lia. reflexivity.
  - intros i Hi. rewrite <- Hc by assumption. destruct (Nat.ltb_spec i nf) as [Hi'|Hi'].
    + rewrite H2 by lia. lra.
    + rewrite (rsum_ext nf (fun k => L _ k * lt L i k) (fun k => L (nux qp ss) k * L i k)); [lra|]. intros k Hk. rewrite !lt_in by lia. reflexivity.
Qed.

(** ** value functions *)
Definition VPs (L : rmat) nu nx (l m : nat) : R := rsum nx (fun k => lt L (nu + l) (nu + k) * lt L (nu + m) (nu + k)).
Definition vps (L : rmat) nu nx (l : nat) : R := rsum nx (fun k => L (nu + nx)%nat (nu + k)%nat * lt L (nu + l) (nu + k)).
(** embedding of a value function of x in the variables (u, x) *)
Definition embQ (nu : nat) (P : rmat) (i j : nat) : R := if ((i <? nu) || (j <? nu))%nat then 0 else P (i - nu)%nat (j - nu)%nat.
Definition embq (nu : nat) (p : rvec) (i : nat) : R := if (i <? nu)%nat then 0 else p (i - nu)%nat.

(** square-root: full factorisation seen as partial factorisation plus value function *)
Lemma FR_sqrt_nu rho P p ss L : FR rho P p ss (nux qp ss) L (fun _ _ => 0) (fun _ => 0) ->
  FR rho P p ss (dnu D ss) L (embQ (dnu D ss) (VPs L (dnu D ss) (dnx D ss))) (embq (dnu D ss) (vps L (dnu D ss) (dnx D ss))).
Proof.
  intros (H1 & H2 & H3). assert (En : nux qp ss = (dnu D ss + dnx D ss)%nat) by reflexivity. split; [|split].
  - intros i j Hi Hj. rewrite H1 by assumption. rewrite Rplus_0_r. rewrite En at 1. rewrite rsum_split. f_equal. unfold embQ, VPs.
    destruct (Nat.ltb_spec i (dnu D ss)); [|destruct (Nat.ltb_spec j (dnu D ss))]; cbn [orb].
    + apply rsum_0. intros k Hk. rewrite (lt_out L i) by lia. lra.
    + apply rsum_0. intros k Hk. rewrite (lt_out L j) by lia. lra.
    + apply rsum_ext. intros k Hk. replace (dnu D ss + (i - dnu D ss))%nat with i by lia. replace (dnu D ss + (j - dnu D ss))%nat with j by lia. reflexivity.
  - intros i Hi. rewrite H2 by assumption. rewrite Rplus_0_r. rewrite En at 1. rewrite rsum_split. f_equal. unfold embq, vps.
    destruct (Nat.ltb_spec i (dnu D ss)).
    + apply rsum_0. intros k Hk. rewrite (lt_out L i) by lia. lra.
    + apply rsum_ext. intros k Hk. replace (dnu D ss + (i - dnu D ss))%nat with i by lia. fold (nux qp ss). reflexivity.
  - intros k Hk. apply H3. rewrite En. lia.
Qed.

(** ** the stages of the square-root algorithm *)
Notation BAok := (BAok qp).
Definition SLok (w : kws R) ss : Prop := forall k, (k < 2 * dns D ss)%nat -> k_Zs w ss k = Zq qp ss reg (Gam ss) k /\ k_ux w ss (nux qp ss + k)%nat = Rq qp ss (gam ss) k.

Lemma FR_ext rho P p ss nf L Q q Q' q' : FR rho P p ss nf L Q q ->
  (forall i j, (i < nux qp ss)%nat -> (j < nux qp ss)%nat -> Q i j = Q' i j) -> (forall i, (i < nux qp ss)%nat -> q i = q' i) -> FR rho P p ss nf L Q' q'.
Proof. intros (A & B & C) H1 H2. split; [|split; [|exact C]]; intros; rewrite <- ?H1, <- ?H2 by assumption; auto. Qed.

Lemma FR_full rho P p ss C D0 dA :
  (forall l m, (l < dnx D (S ss))%nat -> (m < dnx D (S ss))%nat -> P l m = P m l) ->
  (forall i j, (j <= i < nux qp ss)%nat -> C i j = stH rho ss i j + stX P ss i j) ->
  (forall j, (j < nux qp ss)%nat -> C (nux qp ss) j = sth ss j + stx P p ss j) ->
  forall L dA', POTRF_L_MN (nux qp ss + 1) (nux qp ss) C 0 0 D0 0 0 dA = (L, dA') ->
  singular (nux qp ss) dA' = false -> FR rho P p ss (nux qp ss) L (fun _ _ => 0) (fun _ => 0).
Proof.
  intros HP HC Hc L dA' E Hs. pose proof (FR_of_chol rho P p ss (nux qp ss) C D0 dA (le_n _) HP HC Hc) as H. rewrite E in H. destruct (H Hs) as (H' & _).
  eapply FR_ext; [exact H'| |].
  - intros i j Hi Hj. cbv beta. apply Nat.ltb_lt in Hi. rewrite Hi. reflexivity.
  - intros i Hi. cbv beta. apply Nat.ltb_lt in Hi. rewrite Hi. reflexivity.
Qed.

Lemma chol_pd rho P ss nf C D0 dA L dA' : (nf <= nux qp ss)%nat ->
  (forall l m, (l < dnx D (S ss))%nat -> (m < dnx D (S ss))%nat -> P l m = P m l) ->
  (forall i j, (j <= i < nux qp ss)%nat -> C i j = stH rho ss i j + stX P ss i j) ->
  POTRF_L_MN (nux qp ss + 1) nf C 0 0 D0 0 0 dA = (L, dA') -> PD nf (fun i j => stH rho ss i j + stX P ss i j) -> singular nf dA' = false.
Proof.
  intros Hnf HP HC E HPD. eapply potrf_pd; [|  |exact E]; [lia|]. intros v Hv. rewrite (quadf_ext nf _ (fun i j => stH rho ss i j + stX P ss i j) v v); [apply HPD; exact Hv| |reflexivity].
  intros i j Hi Hj. unfold symL. destruct (Nat.leb_spec j i); [apply HC; lia|]. rewrite HC by lia. rewrite stH_sym. f_equal. apply stX_sym. exact HP.
Qed.

Definition rg_ok ss (rg : rmat -> rmat) (rho : rvec) : Prop := forall L i j, (j <= i < nux qp ss)%nat -> rg L i j = L i j + if (i =? j)%nat then rho i else 0.
Lemma rg_full ss preg : rg_ok ss (fun L => DIARE (nux qp ss) preg L 0 0) (fun _ => preg).
Proof.
  intros L i j H. rewrite DIARE_R. destruct (Nat.eqb_spec i j); cbn [andb]; [|reflexivity]. destruct (Nat.leb_spec 0 i); [|lia]. destruct (Nat.ltb_spec i (0 + nux qp ss)); [reflexivity|lia].
Qed.
Lemma rg_cls ss preg : rg_ok ss (fun L => DIARE (dnx D ss) reg (DIARE (dnu D ss) preg L 0 0) (dnu D ss) (dnu D ss)) (fun i => if (i <? dnu D ss)%nat then preg else reg).
Proof.
  intros L i j H. rewrite !DIARE_R. unfold nux in H. destruct (Nat.eqb_spec i j); cbn [andb]; [|lra].
  destruct (Nat.leb_spec 0 i); [|lia]. cbn [Nat.add andb]. destruct (Nat.ltb_spec i (dnu D ss)), (Nat.leb_spec (dnu D ss) i), (Nat.ltb_spec i (dnu D ss + dnx D ss)); try lia; cbn [andb]; lra.
Qed.

Lemma fact_sqrt_last_G preg w w' b P p : fact_sqrt_last reg preg qp Gam gam w = (w', b) ->
  ((b = false -> FR (fun _ => preg) P p N (nux qp N) (k_L w' N) (fun _ _ => 0) (fun _ => 0)) /\ (PD (nux qp N) (stH (fun _ => preg) N) -> b = false)) /\ SLok w' N.
Proof.
  unfold fact_sqrt_last. intros H.
  destruct (Hwf N (le_n _)) as (Hib & Hsf).
  pose proof (stage_build_R qp N reg (Gam N) (gam N) (fun L => DIARE (nux qp N) preg L 0 0) (fun _ => preg) (k_L w N) (k_tmp w) (k_Zs w N) (k_ux w N) Hsf Hib (rg_full N preg)) as HB.
  change (dnu D N + dnx D N)%nat with (nux qp N) in H.
  destruct (stage_build _ _ _ _ _ _ _ _) as [L [[tmp Zs] dux]]. destruct HB as (B1 & B2 & B3 & B4).
  assert (X0 : forall i j, stX P N i j = 0). { intros. unfold stX. rewrite Nat.ltb_irrefl. reflexivity. }
  assert (x0 : forall j, stx P p N j = 0). { intros. unfold stx. rewrite Nat.ltb_irrefl. reflexivity. }
  assert (X : forall C D0 dA L0 dA', (forall i j, (j <= i < nux qp N)%nat -> C i j = L i j + gpart N i j) -> (forall j, (j < nux qp N)%nat -> C (nux qp N) j = L (nux qp N) j + gpart1 N j) ->
    POTRF_L_MN (nux qp N + 1) (nux qp N) C 0 0 D0 0 0 dA = (L0, dA') -> (singular (nux qp N) dA' = false -> FR (fun _ => preg) P p N (nux qp N) L0 (fun _ _ => 0) (fun _ => 0)) /\ (PD (nux qp N) (stH (fun _ => preg) N) -> singular (nux qp N) dA' = false)).
  { intros C D0 dA L0 dA' HC Hc E. split.
    2:{ intros HPD. eapply (chol_pd (fun _ => preg) (fun _ _ => 0) N); [apply le_n| | |exact E|]; [reflexivity| |].
        - intros i j Hij. rewrite HC, stH_split, B1 by lia. unfold stX. rewrite Nat.ltb_irrefl. lra.
        - intros v Hv. rewrite (quadf_ext _ _ (stH (fun _ => preg) N) v v); [apply HPD; exact Hv| |reflexivity]. intros i j _ _. unfold stX. rewrite Nat.ltb_irrefl. lra. }
    intros Hs.
    assert (K : FR (fun _ => preg) (fun _ _ => 0) p N (nux qp N) L0 (fun _ _ => 0) (fun _ => 0)).
    { eapply FR_full; [| | |exact E|exact Hs].
      - reflexivity.
      - intros i j Hij. rewrite HC, stH_split, B1 by lia. unfold stX. rewrite Nat.ltb_irrefl. lra.
      - intros j Hj. rewrite Hc, sth_split, B2 by lia. unfold stx. rewrite Nat.ltb_irrefl. lra. }
    destruct K as (K1 & K2 & K3). split; [|split; [|exact K3]].
    - intros i j Hi Hj. rewrite <- K1 by assumption. unfold stX. rewrite Nat.ltb_irrefl. reflexivity.
    - intros i Hi. rewrite <- K2 by assumption. unfold stx. rewrite Nat.ltb_irrefl. reflexivity. }
  destruct (Nat.ltb_spec 0 (dng D N)) as [Hng|Hng].
  - set (AL := ROWIN (dng D N) f1 (tmp 1%nat) (dnb D N) _ (nux qp N) 0) in H.
    assert (A1 : forall i l, (i < nux qp N)%nat -> (l < dng D N)%nat -> AL i l = q_DCt qp N i l * T0q qp N reg (Gam N) (dnb D N + l)%nat).
    { intros i l Hi Hl. unfold AL, ROWIN. rewrite mblk_o by lia. unfold GEMM_ND. rewrite mblk_i by lia. rewrite !Nat.sub_0_r. cbn [Nat.add].
      destruct (B3 (dnb D N + l)%nat ltac:(lia)) as (E & _). rewrite E. rsimp. rewrite R_lit01, R_lit11. lra. }
    assert (A2 : forall l, (l < dng D N)%nat -> AL (nux qp N) l = T1q qp N reg (Gam N) (gam N) (dnb D N + l)%nat).
    { intros l Hl. unfold AL, ROWIN. rewrite mblk_i by lia. rewrite !Nat.sub_0_r. destruct (B3 (dnb D N + l)%nat ltac:(lia)) as (_ & E). rewrite E. rsimp. rewrite R_lit11. lra. }
    clearbody AL. unfold SYRK_POTRF_LN_MN in H.
    set (C := SYRK_LN_MN _ _ _ _ _ _ _ _ _ _ _ _ _ _ _ _ _) in H.
    specialize (X C L (k_dA w N)). destruct (POTRF_L_MN _ _ _ _ _ _ _ _ _) as [L0 dA']. injection H as Hw Hs. subst w' b. cbn [k_L]. rewrite upd_same.
    split; [|intros k Hk; cbn [k_Zs k_ux]; rewrite !upd_same; apply B4; exact Hk].
    apply (X L0 dA'); [| |reflexivity].
    + intros i j Hij. unfold C. rewrite SYRK_R by lia. cbn [Nat.add]. rsimp. rewrite R_lit11, !Rmult_1_l. f_equal. unfold gpart. apply rsum_ext. intros l Hl. rewrite A1 by lia. reflexivity.
    + intros j Hj. unfold C. rewrite SYRK_R by lia. cbn [Nat.add]. rsimp. rewrite R_lit11, !Rmult_1_l. f_equal. unfold gpart1. apply rsum_ext. intros l Hl. rewrite A2 by lia. reflexivity.
  - specialize (X L L (k_dA w N)). destruct (POTRF_L_MN _ _ _ _ _ _ _ _ _) as [L0 dA']. injection H as Hw Hs. subst w' b. cbn [k_L]. rewrite upd_same.
    split; [|intros k Hk; cbn [k_Zs k_ux]; rewrite !upd_same; apply B4; exact Hk].
    assert (Eg : dng D N = 0%nat) by lia. apply (X L0 dA'); [| |reflexivity].
    + intros i j Hij. unfold gpart. rewrite Eg. cbn [rsum]. lra.
    + intros j Hj. unfold gpart1. rewrite Eg. cbn [rsum]. lra.
Qed.

(** Sqrt: what AL0 holds *)
Lemma VPs_sym L nu nx l m : VPs L nu nx l m = VPs L nu nx m l.
Proof. unfold VPs. apply rsum_ext. intros; lra. Qed.

Lemma fact_sqrt_mid_G preg ss w w' b : (ss < N)%nat -> BAok w -> fact_sqrt_mid reg preg qp Gam gam ss w = (w', b) ->
  let L1 := k_L w (S ss) in
  ((b = false -> FR (fun _ => preg) (VPs L1 (dnu D (S ss)) (dnx D (S ss))) (vps L1 (dnu D (S ss)) (dnx D (S ss))) ss (nux qp ss) (k_L w' ss) (fun _ _ => 0) (fun _ => 0)) /\
   (PD (nux qp ss) (fun i j => stH (fun _ => preg) ss i j + stX (VPs L1 (dnu D (S ss)) (dnx D (S ss))) ss i j) -> b = false)) /\ SLok w' ss.
Proof.
  intros Hss HBA H. unfold fact_sqrt_mid in H. rewrite (Nat.add_1_r ss) in H. set (L1 := k_L w (S ss)) in *. cbv zeta. set (nu1 := dnu D (S ss)) in *. set (nx1 := dnx D (S ss)) in *.
  destruct (Hwf ss (Nat.lt_le_incl _ _ Hss)) as (Hib & Hsf).
  pose proof (stage_build_R qp ss reg (Gam ss) (gam ss) (fun L => DIARE (nux qp ss) preg L 0 0) (fun _ => preg) (k_L w ss) (k_tmp w) (k_Zs w ss) (k_ux w ss) Hsf Hib (rg_full ss preg)) as HB.
  change (dnu D ss + dnx D ss)%nat with (nux qp ss) in H. set (n := nux qp ss) in *.
  set (BA := ROWIN nx1 f1 (q_b qp ss) 0 (k_BAbt w ss) n 0) in *.
  assert (HB1 : forall i l, (i < n)%nat -> (l < nx1)%nat -> BA i l = q_BAbt qp ss i l).
  { intros i l Hi Hl. unfold BA, ROWIN. rewrite mblk_o by lia. apply HBA; assumption. }
  assert (HB2 : forall l, (l < nx1)%nat -> BA n l = q_b qp ss l).
  { intros l Hl. unfold BA, ROWIN. rewrite mblk_i by lia. cbn [Nat.add]. rewrite Nat.sub_0_r. rsimp. rewrite R_lit11. lra. }
  set (A0 := TRMM_RLNN _ _ _ _ _ _ _ _ _ _ _ _) in *.
  set (A1 := GEAD 1 nx1 f1 L1 (nu1 + nx1) nu1 A0 n 0) in *.
  assert (H0 : forall i l, (i <= n)%nat -> (l < nx1)%nat -> A0 i l = rsum nx1 (fun k => BA i k * lt L1 (nu1 + k) (nu1 + l))).
  { intros i l Hi Hl. unfold A0, TRMM_RLNN. rewrite mblk_i by lia. rewrite !Nat.sub_0_r, fsum_R. cbn [Nat.add]. rsimp. rewrite R_lit11, Rmult_1_l.
    rewrite <- (rsum_high nx1 l (fun k => BA i k * L1 (nu1 + k)%nat (nu1 + l)%nat)) by lia. apply rsum_ext. intros k Hk. unfold lt.
    destruct (Nat.leb_spec l k), (Nat.leb_spec (nu1 + l) (nu1 + k)); try lia; lra. }
  assert (H1 : forall i l, (i < n)%nat -> (l < nx1)%nat -> A1 i l = rsum nx1 (fun k => q_BAbt qp ss i k * lt L1 (nu1 + k) (nu1 + l))).
  { intros i l Hi Hl. unfold A1, GEAD. rewrite mblk_o by lia. rewrite H0 by lia. apply rsum_ext. intros k Hk. rewrite HB1 by assumption. reflexivity. }
  assert (H2 : forall l, (l < nx1)%nat -> A1 n l = rsum nx1 (fun k => q_b qp ss k * lt L1 (nu1 + k) (nu1 + l)) + L1 (nu1 + nx1)%nat (nu1 + l)%nat).
  { intros l Hl. unfold A1, GEAD. rewrite mblk_i by lia. replace (n + (n - n))%nat with n by lia. replace (nu1 + nx1 + (n - n))%nat with (nu1 + nx1)%nat by lia. rewrite !Nat.sub_0_r. cbn [Nat.add].
    rewrite H0 by lia. rsimp. rewrite R_lit11, Rmult_1_l. f_equal. apply rsum_ext. intros k Hk. rewrite HB2 by assumption. reflexivity. }
  clearbody A1. clear H0. clearbody BA. 
  set (P := VPs L1 nu1 nx1). set (p := vps L1 nu1 nx1).
  assert (Q1 : forall i j, (i < n)%nat -> (j < n)%nat -> rsum nx1 (fun l => A1 i l * A1 j l) = stX P ss i j).
  { intros i j Hi Hj. unfold stX. apply Nat.ltb_lt in Hss. rewrite Hss. fold nx1.
    rewrite (rsum_ext nx1 _ (fun l => rsum nx1 (fun k => q_BAbt qp ss i k * lt L1 (nu1 + k) (nu1 + l)) * rsum nx1 (fun m => q_BAbt qp ss j m * lt L1 (nu1 + m) (nu1 + l)))).
    2:{ intros l Hl. rewrite !H1 by assumption. reflexivity. }
    exact (quad_factor nx1 nx1 (q_BAbt qp ss i) (q_BAbt qp ss j) (fun k l => lt L1 (nu1 + k) (nu1 + l))). }
  assert (Q2 : forall j, (j < n)%nat -> rsum nx1 (fun l => A1 n l * A1 j l) = stx P p ss j).
  { intros j Hj. unfold stx. apply Nat.ltb_lt in Hss. rewrite Hss. fold nx1.
    rewrite (rsum_ext nx1 _ (fun l => rsum nx1 (fun k => q_b qp ss k * lt L1 (nu1 + k) (nu1 + l)) * rsum nx1 (fun m => q_BAbt qp ss j m * lt L1 (nu1 + m) (nu1 + l)) + L1 (nu1 + nx1)%nat (nu1 + l)%nat * rsum nx1 (fun m => q_BAbt qp ss j m * lt L1 (nu1 + m) (nu1 + l)))).
    2:{ intros l Hl. rewrite H2, (H1 j) by assumption. lra. }
    rewrite rsum_add. rewrite (quad_factor nx1 nx1 (q_b qp ss) (q_BAbt qp ss j) (fun k l => lt L1 (nu1 + k) (nu1 + l))).
    rewrite (rsum_ext nx1 (fun l => L1 _ _ * _) (fun l => rsum nx1 (fun m => q_BAbt qp ss j m * (L1 (nu1 + nx1)%nat (nu1 + l)%nat * lt L1 (nu1 + m) (nu1 + l))))).
    2:{ intros l _. rewrite <- rsum_scal. apply rsum_ext. intros; lra. }
    rewrite (rsum_swap nx1 nx1 (fun l m => q_BAbt qp ss j m * (L1 (nu1 + nx1)%nat (nu1 + l)%nat * lt L1 (nu1 + m) (nu1 + l)))).
    rewrite rsum_swap. rewrite <- rsum_add. apply rsum_ext. intros m Hm. rewrite rsum_scal. fold (vps L1 nu1 nx1 m). fold p.
    rewrite Rmult_plus_distr_l. f_equal. rewrite <- rsum_scal. apply rsum_ext. intros k Hk. unfold P. rewrite (VPs_sym L1 nu1 nx1 m k). unfold VPs. cbv beta. ring. }
  destruct (stage_build _ _ _ _ _ _ _ _) as [L [[tmp Zs] dux]]. destruct HB as (B1 & B2 & B3 & B4). fold n in B1, B2, B4.
  assert (X : forall C D0 dA L0 dA', (forall i j, (j <= i < n)%nat -> C i j = L i j + rsum nx1 (fun l => A1 i l * A1 j l) + gpart ss i j) -> (forall j, (j < n)%nat -> C n j = L n j + rsum nx1 (fun l => A1 n l * A1 j l) + gpart1 ss j) ->
    POTRF_L_MN (n + 1) n C 0 0 D0 0 0 dA = (L0, dA') -> (singular n dA' = false -> FR (fun _ => preg) P p ss n L0 (fun _ _ => 0) (fun _ => 0)) /\ (PD n (fun i j => stH (fun _ => preg) ss i j + stX P ss i j) -> singular n dA' = false)).
  { intros C D0 dA L0 dA' HC Hc E. unfold n in *. split.
    2:{ intros HPD. eapply (chol_pd (fun _ => preg) P ss); [apply le_n| | |exact E|exact HPD].
        - intros. apply VPs_sym.
        - intros i j Hij. rewrite HC, stH_split, B1, Q1 by lia. lra. }
    intros Hs. eapply FR_full; [| | |exact E|exact Hs].
    - intros. apply VPs_sym.
    - intros i j Hij. rewrite HC, stH_split, B1, Q1 by lia. lra.
    - intros j Hj. rewrite Hc, sth_split, B2, Q2 by lia. lra. }
  destruct (Nat.ltb_spec 0 (dng D ss)) as [Hng|Hng].
  - set (A2 := ROWIN (dng D ss) f1 (tmp 1%nat) (dnb D ss) _ n nx1) in H.
    set (A3 := GECP n (dng D ss) (q_DCt qp ss) 0 0 _ 0 nx1) in H.
    assert (E1 : forall i l, (i <= n)%nat -> (l < nx1)%nat -> A2 i l = A1 i l).
    { intros i l Hi Hl. unfold A2, ROWIN. rewrite mblk_o by lia. unfold GEMM_ND. rewrite mblk_o by lia. reflexivity. }
    assert (E2 : forall i l, (i < n)%nat -> (l < dng D ss)%nat -> A2 i (nx1 + l)%nat = q_DCt qp ss i l * T0q qp ss reg (Gam ss) (dnb D ss + l)%nat).
    { intros i l Hi Hl. unfold A2, ROWIN. rewrite mblk_o by lia. unfold GEMM_ND. rewrite mblk_i by lia. rewrite !Nat.sub_0_r. cbn [Nat.add]. replace (nx1 + l - nx1)%nat with l by lia.
      destruct (B3 (dnb D ss + l)%nat ltac:(lia)) as (E & _). rewrite E. rsimp. rewrite R_lit01, R_lit11. lra. }
    assert (E3 : forall l, (l < dng D ss)%nat -> A2 n (nx1 + l)%nat = T1q qp ss reg (Gam ss) (gam ss) (dnb D ss + l)%nat).
    { intros l Hl. unfold A2, ROWIN. rewrite mblk_i by lia. replace (nx1 + l - nx1)%nat with l by lia. destruct (B3 (dnb D ss + l)%nat ltac:(lia)) as (_ & E). rewrite E. rsimp. rewrite R_lit11. lra. }
    assert (E4 : forall j l, (j < n)%nat -> (l < nx1)%nat -> A3 j l = A1 j l).
    { intros j l Hj Hl. unfold A3, GECP. rewrite mblk_o by lia. rewrite mblk_i by lia. rewrite !Nat.sub_0_r. apply E1; lia. }
    assert (E5 : forall j l, (j < n)%nat -> (l < dng D ss)%nat -> A3 j (nx1 + l)%nat = q_DCt qp ss j l).
    { intros j l Hj Hl. unfold A3, GECP. rewrite mblk_i by lia. rewrite !Nat.sub_0_r. cbn [Nat.add]. replace (nx1 + l - nx1)%nat with l by lia. reflexivity. }
    clearbody A2 A3. unfold SYRK_POTRF_LN_MN in H.
    set (C := SYRK_LN_MN _ _ _ _ _ _ _ _ _ _ _ _ _ _ _ _ _) in H.
    specialize (X C L (k_dA w ss)). destruct (POTRF_L_MN _ _ _ _ _ _ _ _ _) as [L0 dA']. injection H as Hw Hs. subst w' b. cbn [k_L]. rewrite upd_same.
    split; [|intros k Hk; cbn [k_Zs k_ux]; rewrite !upd_same; apply B4; exact Hk].
    apply (X L0 dA'); [| |reflexivity].
    + intros i j Hij. unfold C. rewrite SYRK_R by lia. cbn [Nat.add]. rsimp. rewrite R_lit11, !Rmult_1_l, rsum_split, Rplus_assoc. f_equal. f_equal.
      * apply rsum_ext. intros l Hl. rewrite E1, E4 by lia. reflexivity.
      * unfold gpart. apply rsum_ext. intros l Hl. rewrite E2, E5 by lia. reflexivity.
    + intros j Hj. unfold C. rewrite SYRK_R by lia. cbn [Nat.add]. rsimp. rewrite R_lit11, !Rmult_1_l, rsum_split, Rplus_assoc. f_equal. f_equal.
      * apply rsum_ext. intros l Hl. rewrite E1, E4 by lia. reflexivity.
      * unfold gpart1. apply rsum_ext. intros l Hl. rewrite E3, E5 by lia. reflexivity.
  - unfold SYRK_POTRF_LN_MN in H.
    set (C := SYRK_LN_MN _ _ _ _ _ _ _ _ _ _ _ _ _ _ _ _ _) in H.
    specialize (X C L (k_dA w ss)). destruct (POTRF_L_MN _ _ _ _ _ _ _ _ _) as [L0 dA']. injection H as Hw Hs. subst w' b. cbn [k_L]. rewrite upd_same.
    split; [|intros k Hk; cbn [k_Zs k_ux]; rewrite !upd_same; apply B4; exact Hk].
    assert (Eg : dng D ss = 0%nat) by lia. apply (X L0 dA'); [| |reflexivity].
    + intros i j Hij. unfold C. rewrite SYRK_R by lia. cbn [Nat.add]. rsimp. rewrite R_lit11, !Rmult_1_l. unfold gpart. rewrite Eg. cbn [rsum]. lra.
    + intros j Hj. unfold C. rewrite SYRK_R by lia. cbn [Nat.add]. rsimp. rewrite R_lit11, !Rmult_1_l. unfold gpart1. rewrite Eg. cbn [rsum]. lra.
Qed.
Lemma fact_sqrt_last_R preg w w' P p : fact_sqrt_last reg preg qp Gam gam w = (w', false) ->
  FR (fun _ => preg) P p N (nux qp N) (k_L w' N) (fun _ _ => 0) (fun _ => 0) /\ SLok w' N.
Proof. intros H. destruct (fact_sqrt_last_G preg w w' false P p H) as ((A & _) & B). split; [apply A; reflexivity|exact B]. Qed.
Lemma fact_sqrt_mid_R preg ss w w' : (ss < N)%nat -> BAok w -> fact_sqrt_mid reg preg qp Gam gam ss w = (w', false) ->
  let L1 := k_L w (S ss) in
  FR (fun _ => preg) (VPs L1 (dnu D (S ss)) (dnx D (S ss))) (vps L1 (dnu D (S ss)) (dnx D (S ss))) ss (nux qp ss) (k_L w' ss) (fun _ _ => 0) (fun _ => 0) /\ SLok w' ss.
Proof. intros Hss HB H. destruct (fact_sqrt_mid_G preg ss w w' false Hss HB H) as ((A & _) & B). split; [apply A; reflexivity|exact B]. Qed.
End Sweep.
