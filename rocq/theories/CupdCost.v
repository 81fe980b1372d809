(** CupdCost.v -- UPDATE_COND_RSQRQ_N2NX3: after the update the stage matrices and the condensed Hessian are those of the new QP. *)
From Coq Require Import ZArith Bool Arith Lia Reals Lra.
From Verif Require Import Base ArithF RSum Blas Blas2 OcpModel ResSpec ResProofs CholProofs CholPD KktModel KktProofs KktProofs2 DenModel DenSpec CondModel CondSpec CondProofs CondCost CondCost2 CupdModel CupdProofs.
Local Open Scope R_scope.

Section Cost.
Variables (qp : oqp R) (M : nat) (Gm : nat -> rmat).
Notation D := (q_dim qp).
Notation nu := (dnu D).
Notation nx := (dnx D).
Notation uo := (uoff qp M).
Notation nux := (nux qp).
Notation nh := (n_hard qp M).

(** the cost of the states of stage n is strictly convex *)
Definition Qpd (n : nat) : Prop := PD (nx n) (fun l m => symL (q_RSQ qp n) (nu n + l)%nat (nu n + m)%nat).
Lemma nz_dec n (v : rvec) : (exists k, (k < n)%nat /\ v k <> 0) \/ (forall k, (k < n)%nat -> v k = 0).
Proof.
  induction n as [|n [(k & Hk & E)|IH]]; [right; intros; lia|left; exists k; split; [lia|exact E]|].
  destruct (Req_EM_T (v n) 0) as [Z|Z]; [right|left; exists n; split; [lia|exact Z]]. intros k Hk. destruct (Nat.eq_dec k n) as [->|]; [exact Z|apply IH; lia].
Qed.
Lemma PD_PSD n (P : rmat) : PD n P -> PSD n P.
Proof.
  intros H v. destruct (nz_dec n v) as [E|E]; [left; apply H; exact E|]. right.
  rewrite (quadf_ext n P P v (fun _ => 0)); [|reflexivity|exact E]. unfold quadf.
  symmetry. apply rsum_0. intros i _. apply rsum_0. intros; lra.
Qed.
Lemma Pm_pd Lp Ln p : PL qp Lp Ln p -> Qpd p -> PSD (nx (S p)) (Pm qp Ln (S p)) -> PD (nx p) (Pm qp Lp p).
Proof.
  intros (HPL & _) HQ HP v Hv.
  set (A := fun l k => q_BAbt qp p (nu p + l)%nat k).
  rewrite (quadf_ext (nx p) (Pm qp Lp p) (fun l m => symL (q_RSQ qp p) (nu p + l)%nat (nu p + m)%nat + rsum (nx (S p)) (fun k => rsum (nx (S p)) (fun k' => A l k * Pm qp Ln (S p) k k' * A m k'))) v v); [| |reflexivity].
  - rewrite quadf_add, quadf_congr. pose proof (HQ v Hv). pose proof (HP (fun l => rsum (nx p) (fun i => v i * A i l))). lra.
  - intros l m Hl Hm. unfold Pm at 1. unfold symL. unfold ResSpec.nux in HPL. destruct (Nat.leb_spec (nu p + m) (nu p + l)).
    + apply HPL. unfold ResSpec.nux. lia.
    + rewrite HPL by (unfold ResSpec.nux; lia). f_equal. rewrite rsum_swap. apply rsum_ext. intros a _. apply rsum_ext. intros b _. unfold A. rewrite (Pm_sym qp Ln (S p) b a). ring.
Qed.
Lemma Pm_last L : PLlast qp M L -> Qpd M -> PD (nx M) (Pm qp L M).
Proof.
  intros (HL & _) HQ v Hv. rewrite (quadf_ext (nx M) (Pm qp L M) (fun l m => symL (q_RSQ qp M) (nu M + l)%nat (nu M + m)%nat) v v); [apply HQ; exact Hv| |reflexivity].
  intros l m Hl Hm. unfold Pm, symL. unfold ResSpec.nux in HL. destruct (Nat.leb_spec (nu M + m) (nu M + l)); apply HL; unfold ResSpec.nux; lia.
Qed.

(** two stage matrices with the same meaning *)
Definition AG (n : nat) (L L' : rmat) : Prop := (forall r c, (c <= r < nux n)%nat -> L r c = L' r c) /\ (forall c, (c < nux n)%nat -> L (nux n) c = L' (nux n) c).
Lemma AG_refl n L : AG n L L. Proof. split; reflexivity. Qed.
Lemma AG_Pm n L L' l m : AG n L L' -> (l < nx n)%nat -> (m < nx n)%nat -> Pm qp L n l m = Pm qp L' n l m.
Proof. intros (A & _) Hl Hm. unfold Pm, symL. unfold ResSpec.nux in A. destruct (Nat.leb_spec (nu n + m) (nu n + l)); apply A; lia. Qed.
Lemma AG_pv n L L' l : AG n L L' -> (l < nx n)%nat -> pv qp L n l = pv qp L' n l.
Proof. intros (_ & A) Hl. unfold pv. apply A. unfold ResSpec.nux. lia. Qed.
Lemma PL_ext Lp Ln Ln' p : AG (S p) Ln Ln' -> PL qp Lp Ln p -> PL qp Lp Ln' p.
Proof.
  intros A (P1 & P2). split.
  - intros r c H. rewrite P1 by exact H. f_equal. apply rsum_ext. intros l Hl. apply rsum_ext. intros m Hm. rewrite (AG_Pm _ _ _ l m A Hl Hm). reflexivity.
  - intros c H. rewrite P2 by exact H. f_equal. apply rsum_ext. intros l Hl. rewrite (AG_pv _ _ _ l A Hl). f_equal. f_equal. apply rsum_ext. intros m Hm. rewrite (AG_Pm _ _ _ l m A Hl Hm). reflexivity.
Qed.
Lemma PL_det Lp Ln Lp' Ln' p : AG (S p) Ln Ln' -> PL qp Lp Ln p -> PL qp Lp' Ln' p -> AG p Lp Lp'.
Proof. intros A P P'. apply (PL_ext _ _ _ _ A) in P. destruct P as (P1 & P2), P' as (Q1 & Q2). split; intros; [rewrite P1, Q1|rewrite P2, Q2]; auto. Qed.
Lemma PLlast_det L L' : PLlast qp M L -> PLlast qp M L' -> AG M L L'.
Proof. intros (P1 & P2) (Q1 & Q2). split; intros; [rewrite P1, Q1|rewrite P2, Q2]; auto. Qed.

Lemma ursq_prop_R p s : fresh qp s p -> PD (nx (S p)) (Pm qp (rs_L s (S p)) (S p)) -> prop_post qp p s (ursq_prop qp (S p) s).
Proof.
  intros F HP. unfold ursq_prop. destruct (POTRF_L_MN _ _ _ _ _ _ _ _ _) as [Lx dA] eqn:E.
  eapply rsq_prop_sqrt_R; [exact F|exact E|].
  set (C := fun i j => rs_L s (S p) (nu (S p) + i)%nat (nu (S p) + j)%nat).
  change (POTRF_L_MN (nx (S p) + 1) (nx (S p)) C 0 0 (rs_Lx s) 0 0 (rs_dA s) = (Lx, dA)) in E. eapply potrf_pd; [|  |exact E]; [lia|].
  intros v Hv. rewrite (quadf_ext _ (symL C) (Pm qp (rs_L s (S p)) (S p)) v v); [apply HP; exact Hv| |reflexivity].
  intros l m _ _. unfold Pm, symL, C. destruct (Nat.leb_spec m l), (Nat.leb_spec (nu (S p) + m) (nu (S p) + l)); try reflexivity; lia.
Qed.
(** rsq_emit touches the columns of its stage only *)
Lemma rsq_emit_cols m s r c : (1 <= m <= M)%nat -> rs_nuf s = uo m -> (uo m + nu m <= c)%nat -> rs_H (rsq_emit qp Gm (nu2_of qp M) m s) r c = rs_H s r c.
Proof.
  intros Hm Hf Hc. unfold rsq_emit. rewrite Hf. cbn [rs_H]. unfold GEAD. rewrite mblk_o by lia. unfold GEMM_NN. rewrite mblk_o by lia. unfold TRCP_L. rewrite mupd_out by lia. reflexivity.
Qed.

Lemma ursq_step_R n s : (2 <= n <= M)%nat -> RI qp M Gm n s -> PD (nx n) (Pm qp (rs_L s n) n) -> Qpd (n - 1) ->
  let s' := rsq_emit qp Gm (nu2_of qp M) (n - 1) (ursq_prop qp n s) in RI qp M Gm (n - 1) s' /\ PD (nx (n - 1)) (Pm qp (rs_L s' (n - 1)) (n - 1)).
Proof.
  intros Hn (I1 & I2 & I3 & I4 & I5 & I6) HP HQ. destruct (I6 ltac:(lia)) as (If & Ib).
  destruct n as [|p]; [lia|]. replace (S p - 1)%nat with p in * by lia.
  pose proof (ursq_prop_R p s (I5 p) HP) as PP. set (s1 := ursq_prop qp (S p) s) in *. clearbody s1. cbv zeta.
  destruct PP as (P1 & P2 & P3 & P4 & P5 & P6 & P7).
  assert (F1 : forall i, fresh qp s1 i). { intros i. destruct (Nat.eq_dec i p) as [->|Hi]; [exact P7|]. destruct (P6 i Hi) as (E1 & E2). unfold fresh. rewrite E1, E2. apply I5. }
  assert (PLs : forall m, (p <= m < M)%nat -> PL qp (rs_L s1 m) (rs_L s1 (S m)) m).
  { intros m Hm. destruct (Nat.eq_dec m p) as [->|Hne]; [rewrite (P2 (S p)) by lia; exact P1|]. rewrite (P2 m), (P2 (S m)) by lia. apply I3. lia. }
  assert (Plast : PLlast qp M (rs_L s1 M)) by (rewrite P2 by lia; exact I4).
  assert (Eu : uo p = (uo (S p) + nu (S p))%nat) by (apply uoff_S; lia).
  pose proof (rsq_emit_R qp M Gm p s1 ltac:(lia) ltac:(rewrite P5, If; lia) ltac:(rewrite P4, Ib; reflexivity)) as E. cbv zeta in E. set (s2 := rsq_emit qp Gm (nu2_of qp M) p s1) in *. clearbody s2. destruct E as (E1 & E2 & E3 & E4 & E5 & E6 & E7).
  split; [split; [|split; [|split; [|split; [|split]]]]|].
  + intros m Hm Hm1. rewrite E3. destruct (Nat.eq_dec m p) as [->|Hne]; [exact E1|]. rewrite P2 by lia. eapply (EM_frame qp M Gm (rs_H s1) _ _ m (uo p)); [apply uo_mono; lia|exact E2|]. rewrite P3. apply I1; lia.
  + lia.
  + intros m Hm. rewrite E3. apply PLs. lia.
  + rewrite E3. exact Plast.
  + intros i. unfold fresh. rewrite E4, E5. apply F1.
  + intros _. split; assumption.
  + rewrite E3. apply (Pm_pd _ _ p P1 HQ). apply PD_PSD. exact HP.
Qed.
Lemma ursq_first_R s : (1 <= M)%nat -> RI qp M Gm 1 s -> PD (nx 1) (Pm qp (rs_L s 1%nat) 1) -> RI qp M Gm 0 (rsq_emit0 qp (ursq_prop qp 1 s)).
Proof.
  intros HM (I1 & I2 & I3 & I4 & I5 & I6) HP. destruct (I6 ltac:(lia)) as (If & Ib).
  pose proof (ursq_prop_R 0 s (I5 0%nat) HP) as PP. set (s1 := ursq_prop qp 1 s) in *. clearbody s1. cbv zeta.
  destruct PP as (P1 & P2 & P3 & P4 & P5 & P6 & P7).
  assert (F1 : forall i, fresh qp s1 i). { intros i. destruct (Nat.eq_dec i 0) as [->|Hi]; [exact P7|]. destruct (P6 i Hi) as (E1 & E2). unfold fresh. rewrite E1, E2. apply I5. }
  assert (PLs : forall m, (0 <= m < M)%nat -> PL qp (rs_L s1 m) (rs_L s1 (S m)) m).
  { intros m Hm. destruct (Nat.eq_dec m 0) as [->|Hne]; [rewrite (P2 1%nat) by lia; exact P1|]. rewrite (P2 m), (P2 (S m)) by lia. apply I3. lia. }
  assert (Plast : PLlast qp M (rs_L s1 M)) by (rewrite P2 by lia; exact I4).
  assert (Eu : uo 0 = (uo 1 + nu 1)%nat) by (apply uoff_S; lia).
  pose proof (rsq_emit0_R qp M s1 ltac:(rewrite P5, If; lia)) as E. cbv zeta in E. set (s2 := rsq_emit0 qp s1) in *. clearbody s2. destruct E as (E1 & E2 & E3 & E4 & E5).
  split; [|split; [|split; [|split; [|split]]]].
  + intros m Hm Hm1. rewrite E3, P2 by lia. eapply (EM_frame qp M Gm (rs_H s1) _ _ m (uo 0)); [apply uo_mono; lia|exact E2|]. rewrite P3. apply I1; lia.
  + intros _. rewrite E3. exact E1.
  + intros m Hm. rewrite E3. apply PLs. lia.
  + rewrite E3. exact Plast.
  + intros i. unfold fresh. rewrite E4, E5. apply F1.
  + lia.
Qed.

(** ** the stages that are kept: what the previous call left there *)
Variables (Lo : nat -> rmat) (Ho : rmat) (idx : nat).
Notation kp := (fun m => nsum m nu - nsum idx nu)%nat.
Definition KH (m : nat) : Prop :=
  PL qp (Lo m) (Lo (S m)) m /\
  (forall r c, (c <= r < nu m)%nat -> Ho (uo m + r)%nat (uo m + c)%nat = Lo m r c) /\
  (forall r c, (r < kp m)%nat -> (c < nu m)%nat -> Ho (uo m + nu m + r)%nat (uo m + c)%nat = rsum (nx m) (fun l => Gm (m - 1)%nat r l * Lo m (nu m + l)%nat c)).
Definition RK (n : nat) (s : rst (F := R)) : Prop :=
  RI qp M Gm n s /\ PD (nx n) (Pm qp (rs_L s n) n) /\ (forall k, (k < n)%nat -> rs_L s k = Lo k) /\ (forall r c, (uo n + nu n <= c)%nat -> rs_H s r c = Ho r c) /\
  (PLlast qp M (Lo M) -> AG n (Lo n) (rs_L s n)).
Lemma nsum_mono a b (f : nat -> nat) : (a <= b)%nat -> (nsum a f <= nsum b f)%nat.
Proof. induction 1; cbn [nsum]; lia. Qed.
Lemma ursq_last_R s : (1 <= M)%nat -> (forall i, fresh qp s i) -> rs_L s = Lo -> rs_H s = Ho -> Qpd M -> RK M (ursq_last qp Gm M (nu2_of qp M) s).
Proof.
  intros HM HF HL HH HQ. unfold ursq_last. change (nu M + nx M)%nat with (nux M). set (L1 := ROWIN _ _ _ _ _ _ _). set (s1 := mkrst _ _ _ _ _ _ _ _ _).
  pose proof (rsq_emit_R qp M Gm M s1 ltac:(lia)) as E. cbv zeta in E. cbn [rs_nuf rs_nub s1] in E. specialize (E ltac:(rewrite uoff_M; reflexivity)).
  specialize (E ltac:(unfold nu2_of; rewrite Nat.add_1_r; reflexivity)).
  pose proof (fun r c => rsq_emit_cols M s1 r c ltac:(lia) ltac:(cbn [s1 rs_nuf]; rewrite uoff_M; reflexivity)) as EC.
  set (s2 := rsq_emit qp Gm (nu2_of qp M) M s1) in *. clearbody s2. destruct E as (E1 & E2 & E3 & E4 & E5 & E6 & E7).
  assert (PLl : PLlast qp M (rs_L s2 M)).
  { rewrite E3. cbn [s1 rs_L]. rewrite upd_same. split.
      + intros r c H. unfold L1, ROWIN. rewrite mblk_o by lia. unfold GECP. rewrite mblk_i by lia. rewrite !Nat.sub_0_r. cbn [Nat.add]. apply HF. lia.
      + intros c H. unfold L1, ROWIN. rewrite mblk_i by lia. rewrite Nat.sub_0_r. cbn [Nat.add]. rsimp. rewrite R_lit11. lra. }
  split; [split; [|split; [|split; [|split; [|split]]]]|split; [|split; [|split]]].
  - intros m Hm _. replace m with M by lia. rewrite E3. exact E1.
  - lia.
  - lia.
  - exact PLl.
  - intros i. unfold fresh. rewrite E4, E5. apply HF.
  - intros _. split; assumption.
  - apply Pm_last; assumption.
  - intros k Hk. rewrite E3. cbn [s1 rs_L]. rewrite upd_other by lia. rewrite HL. reflexivity.
  - intros r c Hc. rewrite EC by exact Hc. cbn [s1 rs_H]. rewrite HH. reflexivity.
  - intros Hl. apply PLlast_det; assumption.
Qed.
Lemma ursq_keep_R m s : (1 <= m < M)%nat -> (idx <= m)%nat -> PLlast qp M (Lo M) -> KH m -> Qpd m -> RK (S m) s -> RK m (ursq_keep qp Gm (nu2_of qp M) (nsum idx nu) m s).
Proof.
  intros Hm Hi HLl (K1 & K2 & K3) HQ ((I1 & I2 & I3 & I4 & I5 & I6) & I7 & I8 & I9 & I10). destruct (I6 ltac:(lia)) as (If & Ib).
  assert (Eu : uo m = (uo (S m) + nu (S m))%nat) by (apply uoff_S; lia).
  assert (LmE : rs_L s m = Lo m) by (apply I8; lia).
  pose proof (I10 HLl) as A. pose proof (PL_ext _ _ _ _ A K1) as PLm.
  pose proof (nh_uo qp M m ltac:(lia)) as Enh. pose proof (nsum_mono idx m nu Hi) as Hn.
  assert (Eb : (nsum (S m) nu - nu m = nsum m nu)%nat) by (cbn [nsum]; lia).
  unfold ursq_keep. rewrite If, Ib, <- Eu, Eb. rewrite <- n_hard_eq. rewrite LmE.
  set (H2 := GEMM_NN _ _ _ _ _ _ _ _ _ _ _ _ _ _ _ _ _). set (H3 := GEAD _ _ _ _ _ _ _ _ _).
  assert (E2 : forall r c, (kp m <= r <= nsum m nu + nx 0)%nat -> (c < nu m)%nat -> H2 (uo m + nu m + r)%nat (uo m + c)%nat = rsum (nx m) (fun l => Gm (m - 1)%nat r l * Lo m (nu m + l)%nat c)).
  { intros r c Hr Hc. unfold H2, GEMM_NN. rewrite mblk_i by lia. rewrite fsum_R. rsimp. rewrite R_lit01, R_lit11.
    replace (nsum m nu - nsum idx nu + (uo m + nu m + r - (uo m + nu m + nsum m nu - nsum idx nu)))%nat with r by lia. replace (uo m + c - uo m)%nat with c by lia. cbn [Nat.add]. lra. }
  assert (E2o : forall r c, (c < uo m \/ uo m + nu m <= c \/ r < uo m + nu m + kp m)%nat -> H2 r c = rs_H s r c).
  { intros r c Hc. unfold H2, GEMM_NN. rewrite mblk_o by lia. reflexivity. }
  assert (E3o : forall r c, (c < uo m \/ uo m + nu m <= c \/ r < uo m + nu m + kp m)%nat -> H3 r c = rs_H s r c).
  { intros r c Hc. unfold H3, GEAD. rewrite mblk_o by lia. apply E2o. exact Hc. }
  assert (EMm : EM qp M Gm H3 (Lo m) m).
  { split; [|split].
    - intros r c H. rewrite E3o by lia. rewrite I9 by lia. apply K2. exact H.
    - intros r c Hr Hc. destruct (Nat.lt_ge_cases r (kp m)) as [Hl|Hl].
      + rewrite E3o by lia. rewrite I9 by lia. apply K3; assumption.
      + unfold H3, GEAD. rewrite mblk_o by lia. apply E2; lia.
    - intros c Hc. unfold H3, GEAD. rewrite mblk_i by lia. rewrite Nat.sub_diag, Nat.add_0_r. replace (uo m + (uo m + c - uo m))%nat with (uo m + c)%nat by lia.
      rewrite Enh at 1. rewrite E2 by lia. rsimp. rewrite R_lit11. replace (uo m + c - uo m)%nat with c by lia. rewrite Nat.add_0_r. cbn [Nat.add]. change (nu m + nx m)%nat with (nux m). lra. }
  clearbody H3. clear H2 E2 E2o.
  split; [split; [|split; [|split; [|split; [|split]]]]|split; [|split; [|split]]]; cbn [rs_H rs_L rs_nub rs_nuf].
  - intros k Hk Hk1. destruct (Nat.eq_dec k m) as [->|Hne]; [rewrite LmE; exact EMm|].
    eapply (EM_frame qp M Gm (rs_H s) _ _ k (uo m)); [apply uo_mono; lia| |apply I1; lia]. intros r c Hc. apply E3o. left. exact Hc.
  - lia.
  - intros k Hk. destruct (Nat.eq_dec k m) as [->|Hne]; [rewrite LmE; exact PLm|apply I3; lia].
  - exact I4.
  - exact I5.
  - intros _. split; reflexivity.
  - rewrite LmE. apply (Pm_pd _ _ m PLm HQ). apply PD_PSD. exact I7.
  - intros k Hk. apply I8. lia.
  - intros r c Hc. rewrite E3o by lia. apply I9. lia.
  - intros _. rewrite LmE. apply AG_refl.
Qed.

Lemma ursq_main_R s : (1 <= M)%nat -> (idx <= M)%nat -> (forall i, fresh qp s i) -> rs_L s = Lo -> rs_H s = Ho -> (forall n, (1 <= n <= M)%nat -> Qpd n) ->
  (forall m, (1 <= m < M)%nat -> (idx <= m)%nat -> PLlast qp M (Lo M) /\ KH m) ->
  RI qp M Gm 0 (ursq_main qp Gm M (nu2_of qp M) idx s).
Proof.
  intros HM Hidx HF HL HH HQ HK. unfold ursq_main. set (c := n_keep M idx).
  assert (Hc : (c <= M - 1)%nat) by (unfold c, n_keep; lia).
  pose proof (ursq_last_R s HM HF HL HH (HQ M ltac:(lia))) as B. set (s1 := ursq_last _ _ _ _ _) in *. clearbody s1.
  pose proof (loop_ind (fun k x => RK (M - k) x) c (fun nn x => ursq_keep qp Gm (nu2_of qp M) (nsum idx nu) (M - nn - 1) x) s1) as L1. cbv beta in L1. rewrite Nat.sub_0_r in L1. specialize (L1 B).
  set (s2 := loop c _ s1) in *. clearbody s2.
  assert (B2 : RK (M - c) s2).
  { apply L1. intros k x Hk Hx. assert (Hk2 : (k < M - idx)%nat) by (unfold c, n_keep in Hk; lia). replace (M - S k)%nat with (M - k - 1)%nat by lia.
    destruct (HK (M - k - 1)%nat ltac:(lia) ltac:(lia)) as (HP & HK1). apply ursq_keep_R; try assumption; try lia; [apply HQ; lia|]. replace (S (M - k - 1)) with (M - k)%nat by lia. exact Hx. }
  clear L1. destruct B2 as (B2 & B3 & _).
  pose proof (loop_ind (fun k x => RI qp M Gm (M - c - k) x /\ PD (nx (M - c - k)) (Pm qp (rs_L x (M - c - k)%nat) (M - c - k))) (M - 1 - c)
    (fun k x => let nn := (c + k)%nat in rsq_emit qp Gm (nu2_of qp M) (M - nn - 1) (ursq_prop qp (M - nn) x)) s2) as L2. cbv beta in L2. rewrite Nat.sub_0_r in L2. specialize (L2 (conj B2 B3)).
  set (s3 := loop _ _ s2) in *. clearbody s3. destruct L2 as (L2 & L3).
  { intros k x Hk (X1 & X2). cbv zeta. replace (M - (c + k))%nat with (M - c - k)%nat by lia. replace (M - c - S k)%nat with (M - c - k - 1)%nat by lia.
    apply ursq_step_R; [lia|exact X1|exact X2|apply HQ; lia]. }
  replace (M - c - (M - 1 - c))%nat with 1%nat in * by lia. apply ursq_first_R; assumption.
Qed.
End Cost.
