(** CondCost.v -- COND_RSQRQ, cond_alg 0 (N^2 nx^3): recursion of the stage matrices and blocks of the condensed Hessian. *)
From Coq Require Import ZArith Bool Arith Lia Reals Lra.
From Verif Require Import Base ArithF RSum Blas Blas2 OcpModel ResSpec ResProofs CholProofs KktModel KktProofs KktProofs2 DenModel DenSpec CondModel CondSpec CondProofs.
Local Open Scope R_scope.

Section Alg0.
Variables (qp : oqp R) (M : nat) (Gm : nat -> rmat) (sq : bool).
Notation D := (q_dim qp).
Notation nu := (dnu D).
Notation nx := (dnx D).
Notation uo := (uoff qp M).
Notation nux := (nux qp).
Notation nh := (n_hard qp M).

(** value function of stage n, read off the stage matrix L *)
Definition Pm (L : rmat) (n l m : nat) : R := symL L (nu n + l)%nat (nu n + m)%nat.
Definition pv (L : rmat) (n l : nat) : R := L (nux n) (nu n + l)%nat.
(** stage matrix of stage p = stage cost + value function of stage p+1 composed with the dynamics *)
Definition PL (Lp Ln : rmat) (p : nat) : Prop :=
  (forall r c, (c <= r < nux p)%nat -> Lp r c = q_RSQ qp p r c + rsum (nx (S p)) (fun l => rsum (nx (S p)) (fun m => q_BAbt qp p r l * Pm Ln (S p) l m * q_BAbt qp p c m))) /\
  (forall c, (c < nux p)%nat -> Lp (nux p) c = q_rqz qp p c + rsum (nx (S p)) (fun l => q_BAbt qp p c l * (rsum (nx (S p)) (fun m => Pm Ln (S p) l m * q_b qp p m) + pv Ln (S p) l))).
Definition PLlast (L : rmat) : Prop :=
  (forall r c, (c <= r < nux M)%nat -> L r c = q_RSQ qp M r c) /\ (forall c, (c < nux M)%nat -> L (nux M) c = q_rqz qp M c).

Lemma Pm_sym L n l m : Pm L n l m = Pm L n m l.
Proof. unfold Pm, symL. destruct (Nat.leb_spec (nu n + m) (nu n + l)), (Nat.leb_spec (nu n + l) (nu n + m)); try reflexivity; try lia. replace l with m by lia. reflexivity. Qed.

(** the part of the state that matters while stage p = n-1 is built: untouched data *)
Definition fresh (s : rst) (p : nat) : Prop :=
  (forall r c, (r < nux p)%nat -> rs_BA s p r c = q_BAbt qp p r c) /\ (forall r c, (r < nux p)%nat -> rs_RSQ s p r c = q_RSQ qp p r c).

Definition prop_post (p : nat) (s s' : rst (F := R)) : Prop :=
  PL (rs_L s' p) (rs_L s (S p)) p /\ (forall k, k <> p -> rs_L s' k = rs_L s k) /\ rs_H s' = rs_H s /\ rs_nub s' = rs_nub s /\ rs_nuf s' = rs_nuf s /\
  (forall k, k <> p -> rs_BA s' k = rs_BA s k /\ rs_RSQ s' k = rs_RSQ s k) /\ fresh s' p.

Lemma rsq_prop_cls_R p s : fresh s p -> prop_post p s (rsq_prop_cls qp (S p) s).
Proof.
  intros (FB & FQ). unfold rsq_prop_cls. replace (S p - 1)%nat with p by lia. change (nu p + nx p)%nat with (nux p).
  set (Lx0 := TRCP_L _ _ _ _ _ _ _). set (Lx := TRTR_L _ Lx0 _ _ _ _ _). set (BA := ROWIN _ _ _ _ (rs_BA s p) _ _). set (AL0 := GEMM_NT _ _ _ _ _ _ _ _ _ _ _ _ _ _ _ _ _).
  set (AL := GEAD _ _ _ _ _ _ _ _ _). set (MM := ROWIN _ _ _ _ (rs_RSQ s p) _ _). set (Lp := SYRK_LN_MN _ _ _ _ _ _ _ _ _ _ _ _ _ _ _ _ _).
  assert (ELx0 : forall i j, (j <= i < nx (S p))%nat -> Lx0 i j = rs_L s (S p) (nu (S p) + i)%nat (nu (S p) + j)%nat).
  { intros i j H. unfold Lx0, TRCP_L. rewrite mupd_i by (try lia; unfold low; apply Nat.leb_le; lia). rewrite !Nat.sub_0_r. reflexivity. }
  assert (ELx : forall i j, (i < nx (S p))%nat -> (j < nx (S p))%nat -> Lx i j = Pm (rs_L s (S p)) (S p) i j).
  { intros i j Hi Hj. unfold Lx, TRTR_L. rewrite mupd_at. cbn [Nat.add]. rewrite !Nat.sub_0_r.
    destruct (Nat.ltb_spec i (nx (S p))); [|lia]. destruct (Nat.ltb_spec j (nx (S p))); [|lia]. cbn [Nat.leb andb].
    unfold Pm, symL. destruct (Nat.leb_spec i j).
    - rewrite ELx0 by lia. destruct (Nat.leb_spec (nu (S p) + j) (nu (S p) + i)); [|reflexivity]. replace j with i by lia. reflexivity.
    - rewrite ELx0 by lia. destruct (Nat.leb_spec (nu (S p) + j) (nu (S p) + i)); [reflexivity|lia]. }
  assert (EBA : forall r c, (r < nux p)%nat -> BA r c = q_BAbt qp p r c). { intros r c Hr. unfold BA, ROWIN. rewrite mblk_o by lia. apply FB. exact Hr. }
  assert (EBAb : forall c, (c < nx (S p))%nat -> BA (nux p) c = q_b qp p c). { intros c Hc. unfold BA, ROWIN. rewrite mblk_i by lia. rsimp. rewrite R_lit11, Nat.sub_0_r. cbn [Nat.add]. lra. }
  assert (EAL0 : forall r c, (r <= nux p)%nat -> (c < nx (S p))%nat -> AL0 r c = rsum (nx (S p)) (fun m => BA r m * Pm (rs_L s (S p)) (S p) c m)).
  { intros r c Hr Hc. unfold AL0, GEMM_NT. rewrite mblk_i by lia. rewrite fsum_R. rsimp. rewrite R_lit01, R_lit11, !Nat.sub_0_r. cbn [Nat.add].
    rewrite Rmult_0_l, Rplus_0_l, Rmult_1_l. apply rsum_ext. intros m Hm. rewrite ELx by lia. reflexivity. }
  assert (EAL : forall r c, (r < nux p)%nat -> (c < nx (S p))%nat -> AL r c = rsum (nx (S p)) (fun m => q_BAbt qp p r m * Pm (rs_L s (S p)) (S p) c m)).
  { intros r c Hr Hc. unfold AL, GEAD. rewrite mblk_o by lia. rewrite EAL0 by lia. apply rsum_ext. intros m Hm. rewrite EBA by lia. reflexivity. }
  assert (EALb : forall c, (c < nx (S p))%nat -> AL (nux p) c = rsum (nx (S p)) (fun m => Pm (rs_L s (S p)) (S p) c m * q_b qp p m) + pv (rs_L s (S p)) (S p) c).
  { intros c Hc. unfold AL, GEAD. rewrite mblk_i by lia. rewrite Nat.sub_diag, !Nat.add_0_r, Nat.sub_0_r. cbn [Nat.add]. rewrite EAL0 by lia. rsimp. rewrite R_lit11, Rmult_1_l. unfold pv.
    f_equal. apply rsum_ext. intros m Hm. rewrite EBAb by lia. lra. }
  unfold prop_post. cbn [rs_L rs_H rs_nub rs_nuf rs_BA rs_RSQ].
  split; [|split; [|split; [|split; [|split; [|split]]]]]; try reflexivity.
  - rewrite upd_same. split.
    + intros r c H. unfold Lp. rewrite SYRK_R by lia. unfold MM, ROWIN. cbn [Nat.add]. rewrite mblk_o by lia. rewrite FQ by lia. rsimp. rewrite R_lit11, !Rmult_1_l. f_equal.
      rewrite rsum_swap. apply rsum_ext. intros l Hl. rewrite EAL by lia. rewrite EBA by lia. rewrite <- rsum_scal_r. apply rsum_ext. intros m Hm. rewrite (Pm_sym _ _ l m). reflexivity.
    + intros c H. unfold Lp. rewrite SYRK_R by lia. unfold MM, ROWIN. cbn [Nat.add]. rewrite mblk_i by lia. rewrite Nat.sub_0_r. rsimp. rewrite R_lit11, !Rmult_1_l. f_equal.
      apply rsum_ext. intros l Hl. rewrite EALb by lia. rewrite EBA by lia. lra.
  - intros k Hk. rewrite upd_other by assumption. reflexivity.
  - intros k Hk. rewrite !upd_other by assumption. split; reflexivity.
  - split; cbn [rs_BA rs_RSQ]; rewrite upd_same; intros r c Hr; [apply EBA; lia|]. unfold MM, ROWIN. rewrite mblk_o by lia. apply FQ. exact Hr.
Qed.

Lemma rsq_prop_sqrt_R p s Lx dA Lx0 dA0 : fresh s p ->
  POTRF_L_MN (nx (S p) + 1) (nx (S p)) (rs_L s (S p)) (nu (S p)) (nu (S p)) Lx0 0 0 dA0 = (Lx, dA) -> singular (nx (S p)) dA = false ->
  prop_post p s (rsq_prop_sqrt qp (S p) Lx dA s).
Proof.
  intros (FB & FQ) HP Hs. unfold rsq_prop_sqrt. replace (S p - 1)%nat with p by lia. change (nu p + nx p)%nat with (nux p).
  set (C := fun i j => rs_L s (S p) (nu (S p) + i)%nat (nu (S p) + j)%nat).
  change (POTRF_L_MN (nx (S p) + 1) (nx (S p)) C 0 0 Lx0 0 0 dA0 = (Lx, dA)) in HP.
  pose proof (potrf_FR (nx (S p)) (nx (S p)) C Lx0 dA0 (le_n _)) as F. rewrite HP in F. destruct (F Hs) as (F1 & F2 & _ & _). clear F.
  assert (EP : forall l m, (l < nx (S p))%nat -> (m < nx (S p))%nat -> Pm (rs_L s (S p)) (S p) l m = rsum (nx (S p)) (fun k => lt Lx l k * lt Lx m k)).
  { intros l m Hl Hm. rewrite <- F1 by lia. unfold Pm, symL, C. destruct (Nat.leb_spec m l), (Nat.leb_spec (nu (S p) + m) (nu (S p) + l)); try reflexivity; lia. }
  assert (Ep : forall l, (l < nx (S p))%nat -> pv (rs_L s (S p)) (S p) l = rsum (nx (S p)) (fun k => Lx (nx (S p)) k * lt Lx l k)).
  { intros l Hl. rewrite <- F2 by lia. reflexivity. }
  set (BA := ROWIN _ _ _ _ (rs_BA s p) _ _). set (AL0 := TRMM_RLNN _ _ _ _ _ _ _ _ _ _ _ _).
  set (AL := GEAD _ _ _ _ _ _ _ _ _). set (MM := ROWIN _ _ _ _ (rs_RSQ s p) _ _). set (Lp := SYRK_LN_MN _ _ _ _ _ _ _ _ _ _ _ _ _ _ _ _ _).
  assert (EBA : forall r c, (r < nux p)%nat -> BA r c = q_BAbt qp p r c). { intros r c Hr. unfold BA, ROWIN. rewrite mblk_o by lia. apply FB. exact Hr. }
  assert (EBAb : forall c, (c < nx (S p))%nat -> BA (nux p) c = q_b qp p c). { intros c Hc. unfold BA, ROWIN. rewrite mblk_i by lia. rsimp. rewrite R_lit11, Nat.sub_0_r. cbn [Nat.add]. lra. }
  assert (EAL0 : forall r c, (r <= nux p)%nat -> (c < nx (S p))%nat -> AL0 r c = rsum (nx (S p)) (fun m => BA r m * lt Lx m c)).
  { intros r c Hr Hc. unfold AL0, TRMM_RLNN. rewrite mblk_i by lia. rewrite fsum_R. rsimp. rewrite R_lit11, !Nat.sub_0_r, Rmult_1_l. cbn [Nat.add].
    rewrite <- (rsum_high (nx (S p)) c (fun m => BA r m * Lx m c)) by lia. apply rsum_ext. intros m Hm. unfold lt. destruct (Nat.leb_spec c m); lra. }
  assert (EAL : forall r c, (r < nux p)%nat -> (c < nx (S p))%nat -> AL r c = rsum (nx (S p)) (fun m => q_BAbt qp p r m * lt Lx m c)).
  { intros r c Hr Hc. unfold AL, GEAD. rewrite mblk_o by lia. rewrite EAL0 by lia. apply rsum_ext. intros m Hm. rewrite EBA by lia. reflexivity. }
  assert (EALb : forall c, (c < nx (S p))%nat -> AL (nux p) c = rsum (nx (S p)) (fun m => q_b qp p m * lt Lx m c) + Lx (nx (S p)) c).
  { intros c Hc. unfold AL, GEAD. rewrite mblk_i by lia. rewrite Nat.sub_diag, !Nat.add_0_r, Nat.sub_0_r. cbn [Nat.add]. rewrite EAL0 by lia. rsimp. rewrite R_lit11, Rmult_1_l.
    f_equal. apply rsum_ext. intros m Hm. rewrite EBAb by lia. reflexivity. }
  unfold prop_post. cbn [rs_L rs_H rs_nub rs_nuf rs_BA rs_RSQ].
  split; [|split; [|split; [|split; [|split; [|split]]]]]; try reflexivity.
  - rewrite upd_same. split.
    + intros r c H. unfold Lp. rewrite SYRK_R by lia. unfold MM, ROWIN. cbn [Nat.add]. rewrite mblk_o by lia. rewrite FQ by lia. rsimp. rewrite R_lit11, !Rmult_1_l. f_equal.
      rewrite (rsum_ext _ _ (fun l => rsum (nx (S p)) (fun m => q_BAbt qp p r m * lt Lx m l) * rsum (nx (S p)) (fun m => q_BAbt qp p c m * lt Lx m l))).
      2:{ intros l Hl. rewrite !EAL by lia. reflexivity. }
      rewrite quad_factor. apply rsum_ext. intros l Hl. apply rsum_ext. intros m Hm. rewrite EP by assumption. reflexivity.
    + intros c H. unfold Lp. rewrite SYRK_R by lia. unfold MM, ROWIN. cbn [Nat.add]. rewrite mblk_i by lia. rewrite Nat.sub_0_r. rsimp. rewrite R_lit11, !Rmult_1_l. f_equal.
      rewrite (rsum_ext _ _ (fun l => rsum (nx (S p)) (fun m => q_BAbt qp p c m * lt Lx m l) * rsum (nx (S p)) (fun m => q_b qp p m * lt Lx m l)
         + rsum (nx (S p)) (fun m => q_BAbt qp p c m * (Lx (nx (S p)) l * lt Lx m l)))).
      2:{ intros l Hl. rewrite EALb, EAL by lia. rewrite (rsum_ext _ (fun m => q_BAbt qp p c m * (Lx (nx (S p)) l * lt Lx m l)) (fun m => q_BAbt qp p c m * lt Lx m l * Lx (nx (S p)) l)) by (intros; lra).
          rewrite rsum_scal_r. lra. }
      rewrite rsum_add. rewrite quad_factor. rewrite (rsum_swap _ _ (fun l m => q_BAbt qp p c m * (Lx (nx (S p)) l * lt Lx m l))). rewrite <- rsum_add. apply rsum_ext. intros l Hl.
      rewrite Ep by assumption. rewrite rsum_scal. rewrite Rmult_plus_distr_l. f_equal. rewrite <- rsum_scal. apply rsum_ext. intros m Hm. rewrite EP by assumption. lra.
  - intros k Hk. rewrite upd_other by assumption. reflexivity.
  - intros k Hk. rewrite !upd_other by assumption. split; reflexivity.
  - split; cbn [rs_BA rs_RSQ]; rewrite upd_same; intros r c Hr; [apply EBA; lia|]. unfold MM, ROWIN. rewrite mblk_o by lia. apply FQ. exact Hr.
Qed.
Lemma rsq_prop_R p s : fresh s p -> prop_post p s (rsq_prop sq qp (S p) s).
Proof.
  intros F. unfold rsq_prop. destruct sq; [|apply rsq_prop_cls_R; exact F].
  destruct (POTRF_L_MN _ _ _ _ _ _ _ _ _) as [Lx dA] eqn:HP. destruct (singular (nx (S p)) dA) eqn:Hs.
  - pose proof (rsq_prop_cls_R p (mkrst (rs_BA s) (rs_RSQ s) (rs_L s) Lx dA (rs_AL s) (rs_H s) (rs_nub s) (rs_nuf s))) as H. apply H. exact F.
  - eapply rsq_prop_sqrt_R; [exact F|exact HP|exact Hs].
Qed.

(** blocks of the condensed Hessian belonging to the inputs of stage m >= 1 *)
Definition EM (H L : rmat) (m : nat) : Prop :=
  (forall r c, (c <= r < nu m)%nat -> H (uo m + r)%nat (uo m + c)%nat = L r c) /\
  (forall r c, (r < nsum m nu + nx 0)%nat -> (c < nu m)%nat -> H (uo m + nu m + r)%nat (uo m + c)%nat = rsum (nx m) (fun l => Gm (m - 1)%nat r l * L (nu m + l)%nat c)) /\
  (forall c, (c < nu m)%nat -> H nh (uo m + c)%nat = rsum (nx m) (fun l => Gm (m - 1)%nat (nsum m nu + nx 0)%nat l * L (nu m + l)%nat c) + L (nux m) c).
Definition EM0 (H L : rmat) : Prop :=
  (forall r c, (c <= r < nux 0)%nat -> H (uo 0 + r)%nat (uo 0 + c)%nat = L r c) /\ (forall c, (c < nux 0)%nat -> H nh (uo 0 + c)%nat = L (nux 0) c).

Lemma nh_uo m : (1 <= m <= M)%nat -> nh = (uo m + nu m + (nsum m nu + nx 0))%nat.
Proof. intros H. rewrite n_hard_eq. unfold nu2_of. rewrite Nat.add_1_r, <- (uoff_sum qp M m) by lia. cbn [nsum]. lia. Qed.

Lemma rsq_emit_R m s : (1 <= m <= M)%nat -> rs_nuf s = uo m -> rs_nub s = nsum (S m) nu ->
  let s' := rsq_emit qp Gm (nu2_of qp M) m s in
  EM (rs_H s') (rs_L s m) m /\ (forall r c, (c < uo m)%nat -> rs_H s' r c = rs_H s r c) /\ rs_L s' = rs_L s /\ rs_BA s' = rs_BA s /\ rs_RSQ s' = rs_RSQ s /\
  rs_nuf s' = (uo m + nu m)%nat /\ rs_nub s' = nsum m nu.
Proof.
  intros Hm Hf Hb s'. unfold s', rsq_emit. rewrite Hf, Hb. cbn [rs_L rs_H rs_nub rs_nuf rs_BA rs_RSQ].
  assert (Eb : (nsum (S m) nu - nu m = nsum m nu)%nat) by (cbn [nsum]; lia). rewrite Eb.
  pose proof (nh_uo m Hm) as Enh. rewrite <- n_hard_eq.
  set (H1 := TRCP_L _ _ _ _ _ _ _). set (H2 := GEMM_NN _ _ _ _ _ _ _ _ _ _ _ _ _ _ _ _ _). set (H3 := GEAD _ _ _ _ _ _ _ _ _).
  assert (E2 : forall r c, (r <= nsum m nu + nx 0)%nat -> (c < nu m)%nat -> H2 (uo m + nu m + r)%nat (uo m + c)%nat = rsum (nx m) (fun l => Gm (m - 1)%nat r l * rs_L s m (nu m + l)%nat c)).
  { intros r c Hr Hc. unfold H2, GEMM_NN. rewrite mblk_i by lia. rewrite fsum_R. rsimp. rewrite R_lit01, R_lit11.
    replace (uo m + nu m + r - (uo m + nu m))%nat with r by lia. replace (uo m + c - uo m)%nat with c by lia. cbn [Nat.add]. lra. }
  split; [split; [|split]|split; [|split; [|split; [|split; [|split]]]]]; try reflexivity.
  - intros r c H. unfold H3, GEAD. rewrite mblk_o by lia. unfold H2, GEMM_NN. rewrite mblk_o by lia. unfold H1, TRCP_L. rewrite mupd_i by (try lia; unfold low; apply Nat.leb_le; lia).
    cbn [Nat.add]. f_equal; lia.
  - intros r c Hr Hc. unfold H3, GEAD. rewrite mblk_o by lia. apply E2; lia.
  - intros c Hc. unfold H3, GEAD. rewrite mblk_i by lia. rewrite Nat.sub_diag, Nat.add_0_r. replace (uo m + (uo m + c - uo m))%nat with (uo m + c)%nat by lia.
    rewrite Enh at 1. rewrite E2 by lia. rsimp. rewrite R_lit11. replace (uo m + c - uo m)%nat with c by lia. rewrite Nat.add_0_r. cbn [Nat.add]. change (nu m + nx m)%nat with (nux m). lra.
  - intros r c Hc. unfold H3, GEAD. rewrite mblk_o by lia. unfold H2, GEMM_NN. rewrite mblk_o by lia. unfold H1, TRCP_L. rewrite mupd_out by lia. reflexivity.
Qed.
Lemma rsq_emit0_R s : rs_nuf s = uo 0 -> let s' := rsq_emit0 qp s in
  EM0 (rs_H s') (rs_L s 0%nat) /\ (forall r c, (c < uo 0)%nat -> rs_H s' r c = rs_H s r c) /\ rs_L s' = rs_L s /\ rs_BA s' = rs_BA s /\ rs_RSQ s' = rs_RSQ s.
Proof.
  intros Hf s'. unfold s', rsq_emit0. rewrite Hf. cbn [rs_L rs_H rs_nub rs_nuf rs_BA rs_RSQ]. change (nu 0 + nx 0)%nat with (nux 0).
  assert (Enh : nh = (uo 0 + nux 0)%nat) by (unfold n_hard, ResSpec.nux; lia).
  set (H1 := TRCP_L _ _ _ _ _ _ _). set (H2 := GECP _ _ _ _ _ _ _ _).
  split; [split|split; [|split; [|split]]]; try reflexivity.
  - intros r c H. unfold H2, GECP. rewrite mblk_o by lia. unfold H1, TRCP_L. rewrite mupd_i by (try lia; unfold low; apply Nat.leb_le; lia). cbn [Nat.add]. f_equal; lia.
  - intros c H. unfold H2, GECP. rewrite Enh. rewrite mblk_i by lia. rewrite Nat.sub_diag, Nat.add_0_r. cbn [Nat.add]. f_equal; lia.
  - intros r c H. unfold H2, GECP. rewrite mblk_o by lia. unfold H1, TRCP_L. rewrite mupd_out by lia. reflexivity.
Qed.

(** the invariant before the propagation from stage n to n-1 (stages n..M are done) *)
Definition RI (n : nat) (s : rst (F := R)) : Prop :=
  (forall m, (n <= m <= M)%nat -> (1 <= m)%nat -> EM (rs_H s) (rs_L s m) m) /\ (n = 0%nat -> EM0 (rs_H s) (rs_L s 0%nat)) /\
  (forall m, (n <= m < M)%nat -> PL (rs_L s m) (rs_L s (S m)) m) /\ PLlast (rs_L s M) /\
  (forall i, fresh s i) /\ ((1 <= n)%nat -> rs_nuf s = (uo n + nu n)%nat /\ rs_nub s = nsum n nu).

Lemma EM_frame H H' L m u : (uo m + nu m <= u)%nat -> (forall r c, (c < u)%nat -> H' r c = H r c) -> EM H L m -> EM H' L m.
Proof.
  intros Hu E (E1 & E2 & E3). split; [|split].
  - intros r c Hr. rewrite E by lia. apply E1. exact Hr.
  - intros r c Hr Hc. rewrite E by lia. apply E2; assumption.
  - intros c Hc. rewrite E by lia. apply E3; assumption.
Qed.
Lemma uo_mono a b : (a < b)%nat -> (b <= M)%nat -> (uo b + nu b <= uo a)%nat.
Proof.
  intros H HM. replace a with (b - 1 - (b - 1 - a))%nat by lia. assert (Hk : (b - 1 - a <= b - 1)%nat) by lia. revert Hk. generalize (b - 1 - a)%nat. intros k. induction k as [|k IH]; intros Hk.
  - rewrite Nat.sub_0_r, (uoff_S qp M (b - 1)) by lia. replace (S (b - 1)) with b by lia. lia.
  - specialize (IH ltac:(lia)). rewrite (uoff_S qp M (b - 1 - S k)) by lia. replace (S (b - 1 - S k)) with (b - 1 - k)%nat by lia. lia.
Qed.

Lemma rsq_step_R n s : (1 <= n <= M)%nat -> RI n s ->
  RI (n - 1) (let s := rsq_prop sq qp n s in if Nat.eqb (n - 1) 0 then rsq_emit0 qp s else rsq_emit qp Gm (nu2_of qp M) (n - 1) s).
Proof.
  intros Hn (I1 & I2 & I3 & I4 & I5 & I6). destruct (I6 ltac:(lia)) as (If & Ib).
  destruct n as [|p]; [lia|]. replace (S p - 1)%nat with p by lia.
  pose proof (rsq_prop_R p s (I5 p)) as PP. set (s1 := rsq_prop sq qp (S p) s) in *. clearbody s1. cbv zeta.
  destruct PP as (P1 & P2 & P3 & P4 & P5 & P6 & P7).
  assert (F1 : forall i, fresh s1 i). { intros i. destruct (Nat.eq_dec i p) as [->|Hi]; [exact P7|]. destruct (P6 i Hi) as (E1 & E2). unfold fresh. rewrite E1, E2. apply I5. }
  assert (PLs : forall m, (p <= m < M)%nat -> PL (rs_L s1 m) (rs_L s1 (S m)) m).
  { intros m Hm. destruct (Nat.eq_dec m p) as [->|Hne]; [rewrite (P2 (S p)) by lia; exact P1|]. rewrite (P2 m), (P2 (S m)) by lia. apply I3. lia. }
  assert (Plast : PLlast (rs_L s1 M)) by (rewrite P2 by lia; exact I4).
  assert (Eu : uo p = (uo (S p) + nu (S p))%nat) by (apply uoff_S; lia).
  destruct (Nat.eqb_spec p 0) as [->|Hp].
  - pose proof (rsq_emit0_R s1 ltac:(rewrite P5, If; lia)) as E. cbv zeta in E. set (s2 := rsq_emit0 qp s1) in *. clearbody s2. destruct E as (E1 & E2 & E3 & E4 & E5).
    split; [|split; [|split; [|split; [|split]]]].
    + intros m Hm Hm1. rewrite E3, P2 by lia. eapply (EM_frame (rs_H s1) _ _ m (uo 0)); [apply uo_mono; lia|exact E2|]. rewrite P3. apply I1; lia.
    + intros _. rewrite E3. exact E1.
    + intros m Hm. rewrite E3. apply PLs. lia.
    + rewrite E3. exact Plast.
    + intros i. unfold fresh. rewrite E4, E5. apply F1.
    + lia.
  - pose proof (rsq_emit_R p s1 ltac:(lia) ltac:(rewrite P5, If; lia) ltac:(rewrite P4, Ib; reflexivity)) as E. cbv zeta in E. set (s2 := rsq_emit qp Gm (nu2_of qp M) p s1) in *. clearbody s2. destruct E as (E1 & E2 & E3 & E4 & E5 & E6 & E7).
    split; [|split; [|split; [|split; [|split]]]].
    + intros m Hm Hm1. rewrite E3. destruct (Nat.eq_dec m p) as [->|Hne]; [exact E1|]. rewrite P2 by lia. eapply (EM_frame (rs_H s1) _ _ m (uo p)); [apply uo_mono; lia|exact E2|]. rewrite P3. apply I1; lia.
    + lia.
    + intros m Hm. rewrite E3. apply PLs. lia.
    + rewrite E3. exact Plast.
    + intros i. unfold fresh. rewrite E4, E5. apply F1.
    + intros _. split; assumption.
Qed.
Lemma rsq_alg0_R s : (1 <= M)%nat -> (forall i, fresh s i) -> RI 0 (rsq_alg0 sq qp Gm M (nu2_of qp M) s).
Proof.
  intros HM HF. unfold rsq_alg0. change (nu M + nx M)%nat with (nux M).
  set (L1 := ROWIN _ _ _ _ _ _ _). set (s1 := mkrst _ _ _ _ _ _ _ _ _).
  assert (B : RI M (rsq_emit qp Gm (nu2_of qp M) M s1)).
  { pose proof (rsq_emit_R M s1 ltac:(lia)) as E. cbv zeta in E. cbn [rs_nuf rs_nub s1] in E. specialize (E ltac:(rewrite uoff_M; reflexivity)).
    specialize (E ltac:(unfold nu2_of; rewrite Nat.add_1_r; reflexivity)). set (s2 := rsq_emit qp Gm (nu2_of qp M) M s1) in *. clearbody s2. destruct E as (E1 & E2 & E3 & E4 & E5 & E6 & E7).
    split; [|split; [|split; [|split; [|split]]]].
    - intros m Hm _. replace m with M by lia. rewrite E3. exact E1.
    - lia.
    - lia.
    - rewrite E3. cbn [s1 rs_L]. rewrite upd_same. split.
      + intros r c H. unfold L1, ROWIN. rewrite mblk_o by lia. unfold GECP. rewrite mblk_i by lia. rewrite !Nat.sub_0_r. cbn [Nat.add]. apply HF. lia.
      + intros c H. unfold L1, ROWIN. rewrite mblk_i by lia. rewrite Nat.sub_0_r. cbn [Nat.add]. rsimp. rewrite R_lit11. lra.
    - intros i. unfold fresh. rewrite E4, E5. apply HF.
    - intros _. split; assumption. }
  set (s2 := rsq_emit _ _ _ _ s1) in *. clearbody s2.
  pose proof (loop_ind (fun k s => RI (M - k) s) M (fun nn s => let s := rsq_prop sq qp (M - nn) s in if Nat.eqb nn (M - 1) then rsq_emit0 qp s else rsq_emit qp Gm (nu2_of qp M) (M - nn - 1) s) s2) as L.
  cbv beta in L. rewrite Nat.sub_diag, Nat.sub_0_r in L. apply L; [exact B|].
  intros k x Hk Hx. pose proof (rsq_step_R (M - k) x ltac:(lia) Hx) as S1. cbv zeta in *. replace (M - S k)%nat with (M - k - 1)%nat by lia.
  replace (Nat.eqb k (M - 1)) with (Nat.eqb (M - k - 1) 0). 2:{ destruct (Nat.eqb_spec (M - k - 1) 0), (Nat.eqb_spec k (M - 1)); try reflexivity; lia. }
  exact S1.
Qed.
End Alg0.
