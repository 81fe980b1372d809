(** CondCon2.v -- COND_DCTD, the loops over the stages. *)
From Coq Require Import ZArith Bool Arith Lia Reals Lra.
From Verif Require Import Base ArithF RSum Blas Blas2 OcpModel ResSpec ResProofs CholProofs KktModel KktProofs KktProofs2 DenModel DenSpec CondModel CondSpec CondProofs CondCon.
Local Open Scope R_scope.

Section Con2.
Variables (qp : oqp R) (M : nat) (Gm : nat -> rmat) (Gb : nat -> rvec).
Notation D := (q_dim qp).
Notation nu := (dnu D).
Notation nx := (dnx D).
Notation nb := (dnb D).
Notation ng := (dng D).
Notation ns := (dns D).
Notation uo := (uoff qp M).
Notation so := (soff qp M).
Notation nux := (nux qp).
Notation nh := (n_hard qp M).
Notation nsf := (n_soft qp M).
Notation nb2 := (count_nbb qp M).
Notation nbg := (count_nbg qp M).
Notation ng2 := (count_nbg qp M + ngg_of qp M)%nat.
Notation CF := (CF qp M Gm Gb).
Notation US := (US qp M).
Notation valid := (valid qp M).
Notation same_at := (same_at qp M).
Notation posl := (posl qp M).
Notation ctr := (ctr qp M).
Notation box := (box qp).
Notation nbox := (nbox qp).

Lemma same_refl s i j : same_at s s i j.
Proof. unfold CondCon.same_at. repeat split; reflexivity. Qed.
Lemma same_trans s1 s2 s3 i j : same_at s1 s2 i j -> same_at s2 s3 i j -> same_at s1 s3 i j.
Proof.
  intros ((A1 & A2) & (A3 & A4) & (A5 & A6) & A7 & A8 & A9) ((C1 & C2) & (C3 & C4) & (C5 & C6) & C7 & C8 & C9).
  unfold CondCon.same_at. rewrite C1, C2, C3, C4, C5, C6, C7, C8. repeat (split; [split; assumption|]). split; [assumption|]. split; [assumption|]. intros B k. rewrite C9 by assumption. apply A9; assumption.
Qed.
(** s' treats the constraints in P and nothing else *)
Definition does (P : nat -> nat -> Prop) (s s' : dcs (F := R)) : Prop :=
  (forall i j, valid i j -> P i j -> CF s' i j) /\ (forall i j, valid i j -> ~ P i j -> same_at s s' i j) /\ (US s -> US s').
Lemma does_none s : does (fun _ _ => False) s s.
Proof. split; [intros; contradiction|]. split; [intros; apply same_refl|auto]. Qed.
Lemma does_ext P Q s s' : (forall i j, valid i j -> (P i j <-> Q i j)) -> does P s s' -> does Q s s'.
Proof. intros H (A & B & C). split; [|split; [|exact C]]; intros i j V HQ; [apply A|apply B]; try assumption; [apply H; assumption|]. intros HP. apply HQ. apply H; assumption. Qed.
Lemma does_seq P Q s1 s2 s3 : (forall i j, Q i j \/ ~ Q i j) -> does P s1 s2 -> does Q s2 s3 -> does (fun i j => P i j \/ Q i j) s1 s3.
Proof.
  intros Dq (A1 & B1 & C1) (A2 & B2 & C2). split; [|split; [|auto]].
  - intros i j V [HP|HQ]; [|apply A2; assumption]. destruct (Dq i j) as [HQ|HQ]; [apply A2; assumption|]. eapply CF_same; [apply B2; eassumption|apply A1; assumption].
  - intros i j V HN. apply (same_trans s1 s2 s3); [apply B1|apply B2]; try assumption; tauto.
Qed.

(** bounds of one stage *)
Definition PB (i : nat) : nat -> nat -> Prop := fun i' j' => i' = i /\ (j' < nb i)%nat.
Lemma PB_dec i i' j' : PB i i' j' \/ ~ PB i i' j'.
Proof. unfold PB. lia. Qed.
Lemma bounds_stage_R i s : (1 <= i <= M)%nat -> ctr s i 0 ->
  let s' := loop (nb i) (dctd_bound qp M Gm Gb i (uo (i - 1)) (so i) (nx 0 + nsum i nu)) s in does (PB i) s s' /\ ctr s' (i - 1) 0.
Proof.
  intros Hi Hc s'.
  assert (X : does (PB i) s s' /\ ctr s' i (nb i)).
  { unfold s'.
    pose proof (loop_ind (fun k s' => does (fun i' j' => i' = i /\ (j' < k)%nat) s s' /\ ctr s' i k) (nb i) (dctd_bound qp M Gm Gb i (uo (i - 1)) (so i) (nx 0 + nsum i nu)) s) as L.
    apply L; clear L.
    - split; [|exact Hc]. eapply does_ext; [|apply does_none]. intros; lia.
    - intros k x Hk (I1 & I2). pose proof (dctd_bound_R qp M Gm Gb i k x Hi Hk I2) as B. cbv zeta in B. destruct B as (B1 & B2 & B3 & B4). split; [|exact B4].
      eapply does_ext; [|eapply (does_seq _ (fun i' j' => i' = i /\ j' = k)); [|exact I1|]].
      + intros i' j' _. cbv beta. lia.
      + intros; lia.
      + split; [|split; [|exact B3]].
        * intros i' j' V (-> & ->). exact B1.
        * intros i' j' V H. apply B2; [exact V|]. intros E. apply H. split; congruence. }
  destruct X as (X1 & X2). split; [exact X1|]. destruct X2 as (C1 & C2). split.
  - rewrite C1. rewrite (roff_S M (cb qp) (i - 1)) by lia. replace (S (i - 1)) with i by lia. unfold cnt at 2. cbn [nsum]. unfold cb at 3. lia.
  - rewrite C2. rewrite (roff_S M (cg qp) (i - 1)) by lia. replace (S (i - 1)) with i by lia. unfold cnt at 2. cbn [nsum]. unfold cg at 3. lia.
Qed.
(** bounds of the initial stage *)
Definition bound0 (is : nat) (jj : nat) (s : dcs (F := R)) : dcs :=
  let ib := x_ib s in
  let s := put_con qp 0 jj ib (nb2 + ng2 + ib) (fun v => v) (fun v => v) s in
  let s := mkdcs (x_d s) (x_mask s) (x_m s) (upd (x_idxb s) ib (uo 0 + q_idxb qp 0%nat jj)%nat) (x_idxs s) (x_Ct s) ib (x_ig s) in
  let s := put_idxs ib is (q_idxs_rev qp 0%nat jj) s in
  mkdcs (x_d s) (x_mask s) (x_m s) (x_idxb s) (x_idxs s) (x_Ct s) (S ib) (x_ig s).
Lemma bound0_R jj s : (jj < nb 0)%nat -> ctr s 0 jj ->
  let s' := bound0 (so 0) jj s in CF s' 0 jj /\ (forall i' j', valid i' j' -> (i', j') <> (0%nat, jj) -> same_at s s' i' j') /\ (US s -> US s') /\ ctr s' 0 (S jj).
Proof.
  intros Hj (C1 & C2) s'. assert (V : valid 0 jj) by (split; lia).
  assert (NE : forall i' j', valid i' j' -> (i', j') <> (0%nat, jj) -> posl i' j' <> posl 0 jj).
  { intros i' j' V' Hne E. destruct (posl_inj qp M i' j' 0 jj V' V E) as (-> & ->). apply Hne. reflexivity. }
  assert (Hlt := posl_lt qp M 0 jj V).
  assert (Ej : (jj <? nb 0)%nat = true) by (apply Nat.ltb_lt; exact Hj).
  assert (Eb : box 0 jj = true) by reflexivity.
  assert (Ep : x_ib s = posl 0 jj). { unfold CondCon.posl. rewrite Ej, Eb. exact C1. }
  assert (Bx : isbox qp 0 jj = true) by (unfold isbox; rewrite Ej, Eb; reflexivity).
  unfold s', bound0. clear s'.
  cbn [put_con put_idxs x_d x_mask x_m x_idxb x_idxs x_Ct x_ib x_ig]. rewrite Ep. set (p := posl 0 jj) in *. set (s' := mkdcs _ _ _ _ _ _ _ _).
  assert (F : x_d s' = upd (upd (x_d s) p (q_d qp 0 jj)) (nb2 + ng2 + p) (q_d qp 0 (nb 0 + ng 0 + jj)%nat) /\ x_mask s' = upd (upd (x_mask s) p (q_mask qp 0 jj)) (nb2 + ng2 + p) (q_mask qp 0 (nb 0 + ng 0 + jj)%nat) /\
     x_m s' = upd (upd (x_m s) p (q_m qp 0 jj)) (nb2 + ng2 + p) (q_m qp 0 (nb 0 + ng 0 + jj)%nat) /\ x_idxb s' = upd (x_idxb s) p (uo 0 + q_idxb qp 0 jj)%nat /\
     x_idxs s' = (if Z.leb 0 (q_idxs_rev qp 0 jj) then upd (x_idxs s) p (Z.of_nat (so 0) + q_idxs_rev qp 0 jj)%Z else x_idxs s) /\ x_Ct s' = x_Ct s /\ x_ib s' = S p /\ x_ig s' = x_ig s).
  { unfold s'. unfold put_idxs. cbn [x_d x_mask x_m x_idxb x_idxs x_Ct x_ib x_ig]. destruct (Z.leb 0 (q_idxs_rev qp 0 jj)); cbn [x_d x_mask x_m x_idxb x_idxs x_Ct x_ib x_ig]; repeat split; reflexivity. }
  clearbody s'. destruct F as (F1 & F2 & F3 & F4 & F5 & F6 & F7 & F8).
  assert (FR : forall i' j', valid i' j' -> (i', j') <> (0%nat, jj) -> same_at s s' i' j').
  { intros i' j' V' Hne. specialize (NE i' j' V' Hne). pose proof (posl_lt qp M i' j' V'). unfold CondCon.same_at. rewrite F1, F2, F3, F4, F5, F6.
    rewrite !upd_other by lia. repeat split; try reflexivity. destruct (Z.leb 0 _); [rewrite upd_other by lia|]; reflexivity. }
  split; [|split; [exact FR|split]].
  - unfold CondCon.CF. fold p. rewrite F1, F2, F3, F4, F5. change (shift qp Gb 0 jj) with 0. rewrite !upd_same. rewrite !(upd_other _ (nb2 + ng2 + p) _ p) by lia. rewrite !upd_same.
    split; [split; lra|]. split; [split; reflexivity|]. split; [split; reflexivity|]. split; [|split; [|rewrite Bx; discriminate]].
    + intros Hz. destruct (Z.leb_spec 0 (q_idxs_rev qp 0 jj)); [rewrite upd_same; reflexivity|lia].
    + intros _. reflexivity.
  - intros HU. apply (US_same qp M s s' HU). intros i' j' V'. destruct (Nat.eq_dec i' 0) as [->|Ni]; [destruct (Nat.eq_dec j' jj) as [->|Nj]|]; [right|left; apply FR; [assumption|congruence]|left; apply FR; [assumption|congruence]].
    split; [|rewrite Bx; discriminate]. intros Hz. rewrite F5. destruct (Z.leb_spec 0 (q_idxs_rev qp 0 jj)); [lia|reflexivity].
  - unfold CondCon.ctr. rewrite F7, F8. unfold cnt in *. cbn [nsum]. unfold CondCon.nbox at 2. rewrite Eb. cbn [negb]. split; [|lia].
    rewrite <- Ep, C1. lia.
Qed.
Definition PBall : nat -> nat -> Prop := fun i' j' => (j' < nb i')%nat.
Lemma dctd_bounds_R s : ctr s M 0 -> does PBall s (dctd_bounds qp M Gm Gb s).
Proof.
  intros Hc. unfold dctd_bounds.
  pose proof (loop_ind (fun ii (x : dcs * nat * nat * nat) => let '(s', nt, is, ig) := x in does (fun i' j' => (M - ii < i')%nat /\ (j' < nb i')%nat) s s' /\ ctr s' (M - ii) 0 /\ nt = uo (M - ii) /\ is = so (M - ii) /\ ig = (nx 0 + nsum (M - ii) nu)%nat) M
     (fun ii '(s, nu_tmp, is, idx_gammab) => let i := (M - ii)%nat in let nu_tmp := (nu_tmp + nu i)%nat in
      let s := loop (nb i) (dctd_bound qp M Gm Gb i nu_tmp is idx_gammab) s in (s, nu_tmp, is + ns i, idx_gammab - nu (M - 1 - ii))%nat) (s, 0, 0, nx 0 + nsum M nu)%nat) as L.
  destruct (loop _ _ _) as [[[s1 nt] is] ig].
  destruct L as (L1 & L2 & L3 & L4 & L5).
  - rewrite Nat.sub_0_r. split; [|split; [exact Hc|split; [symmetry; apply roff_M|split; [symmetry; apply roff_M|reflexivity]]]].
    eapply does_ext; [|apply does_none]. intros i j (V1 & V2). lia.
  - intros k [[[x nt1] is1] ig1] Hk (I1 & I2 & I3 & I4 & I5). cbv zeta.
    assert (Eu : (nt1 + nu (M - k))%nat = uo (M - k - 1)). { rewrite I3. symmetry. apply uo_pred. lia. }
    rewrite Eu, I4, I5. pose proof (bounds_stage_R (M - k) x ltac:(lia) I2) as B. cbv zeta in B. destruct B as (B1 & B2).
    replace (M - S k)%nat with (M - k - 1)%nat by lia. split; [|split; [exact B2|split; [reflexivity|split]]].
    + eapply does_ext; [|eapply (does_seq _ (PB (M - k))); [intros; apply PB_dec|exact I1|exact B1]]. intros i' j' (V1 & V2). cbv beta. unfold PB.
      destruct (Nat.eq_dec i' (M - k)) as [->|]; lia.
    + symmetry. change (so (M - k - 1)) with (roff M ns (M - k - 1)). rewrite (roff_S M ns (M - k - 1)) by lia. replace (S (M - k - 1)) with (M - k)%nat by lia. reflexivity.
    + replace (M - 1 - k)%nat with (M - k - 1)%nat by lia. replace (M - k)%nat with (S (M - k - 1)) at 1 by lia. cbn [nsum]. lia.
  - rewrite Nat.sub_diag in *. subst nt is ig.
    pose proof (loop_ind (fun k s' => does (fun i' j' => i' = 0%nat /\ (j' < k)%nat) s1 s' /\ ctr s' 0 k) (nb 0%nat) (bound0 (so 0)) s1) as L0.
    rewrite (loop_ext (nb 0%nat) _ (bound0 (so 0))). 2:{ intros k x Hk. unfold bound0. replace (uo 0 + nu 0 - nu 0)%nat with (uo 0) by lia. reflexivity. }
    destruct L0 as (L0 & _).
    + split; [|exact L2]. eapply does_ext; [|apply does_none]. intros; lia.
    + intros k x Hk (I1 & I2). pose proof (bound0_R k x Hk I2) as B. cbv zeta in B. destruct B as (B1 & B2 & B3 & B4). split; [|exact B4].
      eapply does_ext; [|eapply (does_seq _ (fun i' j' => i' = 0%nat /\ j' = k)); [|exact I1|]].
      * intros i' j' _. cbv beta. lia.
      * intros; lia.
      * split; [|split; [|exact B3]].
        -- intros i' j' V (-> & ->). exact B1.
        -- intros i' j' V H. apply B2; [exact V|]. intros E. apply H. split; congruence.
    + eapply does_ext; [|eapply (does_seq _ (fun i' j' => i' = 0%nat /\ (j' < nb 0)%nat)); [|exact L1|exact L0]]; [|intros; lia].
      intros i' j' _. cbv beta. unfold PBall. destruct (Nat.eq_dec i' 0) as [->|]; lia.
Qed.

(** ** general constraints *)
Definition PG (i : nat) : nat -> nat -> Prop := fun i' j' => i' = i /\ (nb i <= j')%nat.
Lemma PG_dec i i' j' : PG i i' j' \/ ~ PG i i' j'.
Proof. unfold PG. lia. Qed.
Lemma put_loop n o is (ix : nat -> Z) (s : dcs (F := R)) : let s' := loop n (fun ig s => put_idxs (o + ig) is (ix ig) s) s in
  x_d s' = x_d s /\ x_mask s' = x_mask s /\ x_m s' = x_m s /\ x_idxb s' = x_idxb s /\ x_Ct s' = x_Ct s /\
  (forall l, (l < n)%nat -> (0 <= ix l)%Z -> x_idxs s' (o + l)%nat = (Z.of_nat is + ix l)%Z) /\
  (forall p, (forall l, (l < n)%nat -> (0 <= ix l)%Z -> p <> (o + l)%nat) -> x_idxs s' p = x_idxs s p).
Proof.
  induction n as [|n IH]; cbv zeta in *.
  - cbn [loop]. repeat split; try reflexivity. intros; lia.
  - rewrite loop_S. set (s1 := loop n _ s) in *. clearbody s1. destruct IH as (I1 & I2 & I3 & I4 & I5 & I6 & I7). unfold put_idxs.
    destruct (Z.leb_spec 0 (ix n)) as [Hz|Hz]; cbn [x_d x_mask x_m x_idxb x_idxs x_Ct x_ib x_ig].
    + repeat (split; [assumption|]). split.
      * intros l Hl Hx. destruct (Nat.eq_dec l n) as [->|]; [rewrite upd_same; reflexivity|rewrite upd_other by lia; apply I6; [lia|exact Hx]].
      * intros p Hp. rewrite upd_other by (apply Hp; [lia|exact Hz]). apply I7. intros l Hl. apply Hp. lia.
    + repeat (split; [assumption|]). split.
      * intros l Hl Hx. destruct (Nat.eq_dec l n) as [->|]; [lia|]. apply I6; [lia|exact Hx].
      * intros p Hp. apply I7. intros l Hl. apply Hp. lia.
Qed.
Lemma posl_g i l : (posl i (nb i + l) = nb2 + nbg + roff M ng i + l)%nat.
Proof. unfold CondCon.posl. destruct (Nat.ltb_spec (nb i + l) (nb i)); [lia|]. lia. Qed.
Lemma posl_not_g i i' j' : (i <= M)%nat -> valid i' j' -> ~ PG i i' j' -> forall l, (l < ng i)%nat -> posl i' j' <> (nb2 + nbg + roff M ng i + l)%nat.
Proof.
  intros Hi V HN l Hl E. rewrite <- posl_g in E. assert (Vg : valid i (nb i + l)) by (split; lia). destruct (posl_inj qp M _ _ _ _ V Vg E) as (-> & ->). apply HN. unfold PG. lia.
Qed.
Lemma goff_fit i : (i <= M)%nat -> (nb2 + nbg + roff M ng i + ng i <= nb2 + ng2)%nat.
Proof. intros Hi. rewrite ngg_eq. destruct (Nat.eq_dec (ng i) 0) as [E|E]; [|pose proof (roff_lt M ng i (ng i - 1) Hi ltac:(lia)); lia]. destruct (Nat.eq_dec i 0) as [->|]; [lia|]. pose proof (roff_mono M ng 0 i ltac:(lia) Hi). lia. Qed.
(** a state obtained by treating the general constraints of stage i *)
Lemma gen_step i s s' (sh : nat -> R) : (i <= M)%nat ->
  let o := (nb2 + nbg + roff M ng i)%nat in let ou := (nb2 + ng2 + o)%nat in
  (forall l, (l < ng i)%nat -> sh l = shift qp Gb i (nb i + l)) ->
  (forall l, (l < ng i)%nat -> x_d s' (o + l)%nat = q_d qp i (nb i + l)%nat - sh l /\ x_d s' (ou + l)%nat = q_d qp i (2 * nb i + ng i + l)%nat + sh l) ->
  (forall l, (l < ng i)%nat -> x_mask s' (o + l)%nat = q_mask qp i (nb i + l)%nat /\ x_mask s' (ou + l)%nat = q_mask qp i (2 * nb i + ng i + l)%nat) ->
  (forall l, (l < ng i)%nat -> x_m s' (o + l)%nat = q_m qp i (nb i + l)%nat /\ x_m s' (ou + l)%nat = q_m qp i (2 * nb i + ng i + l)%nat) ->
  (forall p, (p < o \/ o + ng i <= p)%nat -> (p < ou \/ ou + ng i <= p)%nat -> x_d s' p = x_d s p /\ x_mask s' p = x_mask s p /\ x_m s' p = x_m s p) ->
  (forall l, (l < ng i)%nat -> (0 <= q_idxs_rev qp i (nb i + l)%nat)%Z -> x_idxs s' (o + l)%nat = (Z.of_nat (so i) + q_idxs_rev qp i (nb i + l)%nat)%Z) ->
  (forall p, (forall l, (l < ng i)%nat -> (0 <= q_idxs_rev qp i (nb i + l)%nat)%Z -> p <> (o + l)%nat) -> x_idxs s' p = x_idxs s p) ->
  x_idxb s' = x_idxb s ->
  (forall k l, (uo i <= k < nh)%nat -> (l < ng i)%nat -> x_Ct s' k (nbg + roff M ng i + l)%nat = colv qp M Gm i (nb i + l) k) ->
  (forall k c, (k < uo i \/ c < nbg + roff M ng i \/ nbg + roff M ng i + ng i <= c)%nat -> x_Ct s' k c = x_Ct s k c) ->
  does (PG i) s s'.
Proof.
  intros Hi o ou Esh Hd Hm Hmm Hfr Hx Hxf Hib Hct Hctf.
  assert (FR : forall i' j', valid i' j' -> ~ PG i i' j' -> same_at s s' i' j').
  { intros i' j' V HN. pose proof (posl_not_g i i' j' Hi V HN) as P. pose proof (posl_lt qp M i' j' V) as Pl.
    assert (Q : (posl i' j' < o \/ o + ng i <= posl i' j')%nat).
    { destruct (Nat.lt_ge_cases (posl i' j') o) as [|Ho]; [left; assumption|]. destruct (Nat.lt_ge_cases (posl i' j') (o + ng i)) as [Ho2|]; [|right; assumption].
      exfalso. apply (P (posl i' j' - o)%nat); unfold o in *; lia. }
    destruct (Hfr (posl i' j') Q ltac:(unfold ou, o in *; lia)) as (A1 & A2 & A3). destruct (Hfr (nb2 + ng2 + posl i' j')%nat ltac:(right; unfold o in *; pose proof (goff_fit i Hi); lia) ltac:(unfold ou; lia)) as (B1 & B2 & B3).
    unfold CondCon.same_at. rewrite A1, A2, A3, B1, B2, B3, Hib. rewrite Hxf. 2:{ intros l Hl _. apply P. exact Hl. }
    repeat split. intros Bx k. apply Hctf. pose proof (posl_gen qp M i' j' V Bx). unfold o in Q. lia. }
  split; [|split; [exact FR|]].
  - intros i' j' V (-> & Hj). destruct V as (_ & V). set (l := (j' - nb i)%nat). assert (Hl : (l < ng i)%nat) by lia. replace j' with (nb i + l)%nat by lia.
    unfold CondCon.CF. rewrite posl_g. fold o. fold ou. replace (nb i + ng i + (nb i + l))%nat with (2 * nb i + ng i + l)%nat by lia. replace (nb2 + ng2 + (o + l))%nat with (ou + l)%nat by (unfold ou; lia).
    rewrite <- Esh by assumption. split; [apply Hd; assumption|]. split; [apply Hm; assumption|]. split; [apply Hmm; assumption|]. split; [apply Hx; assumption|].
    assert (Bx : isbox qp i (nb i + l) = false). { unfold isbox. destruct (Nat.ltb_spec (nb i + l) (nb i)); [lia|reflexivity]. }
    split; [rewrite Bx; discriminate|]. intros _ k Hk. unfold lows in Hk. destruct (Nat.ltb_spec (nb i + l) (nb i)); [lia|]. replace (o + l - nb2)%nat with (nbg + roff M ng i + l)%nat by (unfold o; lia). apply Hct; lia.
  - intros HU. apply (US_same qp M s s' HU). intros i' j' V. destruct (PG_dec i i' j') as [HP|HP]; [right|left; apply FR; assumption].
    destruct HP as (-> & Hj). destruct V as (_ & V). set (l := (j' - nb i)%nat). assert (Hl : (l < ng i)%nat) by lia. replace j' with (nb i + l)%nat by lia. rewrite posl_g. fold o. split.
    + intros Hz. apply Hxf. intros l' Hl' Hz' E. replace l' with l in Hz' by lia. lia.
    + intros _ k Hk _. unfold lows in Hk. destruct (Nat.ltb_spec (nb i + l) (nb i)); [lia|]. apply Hctf. lia.
Qed.
Lemma VECCP2 n (src dst : rvec) a b o ou : (o + n <= ou)%nat -> let v := VECCP n src b (VECCP n src a dst o) ou in
  (forall l, (l < n)%nat -> v (o + l)%nat = src (a + l)%nat /\ v (ou + l)%nat = src (b + l)%nat) /\ (forall p, (p < o \/ o + n <= p)%nat -> (p < ou \/ ou + n <= p)%nat -> v p = dst p).
Proof.
  intros H v. unfold v, VECCP. split.
  - intros l Hl. split; [rewrite vset_out by lia|]; rewrite vset_in by exact Hl; reflexivity.
  - intros p H1 H2. rewrite !vset_out by lia. reflexivity.
Qed.

Lemma dctd_gen_mid_R i s tbg : (1 <= i <= M)%nat -> does (PG i) s (fst (dctd_gen_mid qp M Gm Gb i (uo i) (roff M ng i) (so i) (s, tbg))).
Proof.
  intros Hi. unfold dctd_gen_mid. destruct (Nat.ltb_spec 0 (ng i)) as [Hg|Hg].
  2:{ cbn [fst]. eapply does_ext; [|apply does_none]. intros i' j' (V1 & V2). unfold PG. split; [tauto|]. intros (-> & H). lia. }
  set (s1 := dctd_gen_copy qp M i (roff M ng i) (so i) s). set (Ct1 := GECP _ _ _ _ _ _ _ _). set (Ct2 := GEMM_NN _ _ _ _ _ _ _ _ _ _ _ _ _ _ _ _ _). set (tb := GEMV_T _ _ _ _ _ _ _ _ _ _ _ _ _). set (d2 := AXPY _ _ _ _ _ _ _ _). cbv zeta.
  cbn [fst].
  set (o := (nb2 + nbg + roff M ng i)%nat) in *. set (ou := (nb2 + ng2 + o)%nat). assert (Eou : (2 * nb2 + ng2 + nbg + roff M ng i)%nat = ou) by (unfold ou, o; lia).
  assert (Hou : (o + ng i <= ou)%nat). { unfold ou, o. pose proof (goff_fit i ltac:(lia)). lia. }
  assert (Etb : forall l, (l < ng i)%nat -> tb l = rsum (nx i) (fun r => q_DCt qp i (nu i + r)%nat l * Gb (i - 1)%nat r)).
  { intros l Hl. unfold tb, GEMV_T. rewrite vset_in' by lia. rewrite fsum_R. rsimp. rewrite R_lit01, R_lit11, Nat.sub_0_r. cbn [Nat.add]. lra. }
  pose proof (uo_pred qp M i Hi) as Eu. pose proof (nh_pred qp M i Hi) as En.
  (* the copies *)
  assert (S1 : (forall l, (l < ng i)%nat -> x_d s1 (o + l)%nat = q_d qp i (nb i + l)%nat /\ x_d s1 (ou + l)%nat = q_d qp i (2 * nb i + ng i + l)%nat) /\
     (forall l, (l < ng i)%nat -> x_mask s1 (o + l)%nat = q_mask qp i (nb i + l)%nat /\ x_mask s1 (ou + l)%nat = q_mask qp i (2 * nb i + ng i + l)%nat) /\
     (forall l, (l < ng i)%nat -> x_m s1 (o + l)%nat = q_m qp i (nb i + l)%nat /\ x_m s1 (ou + l)%nat = q_m qp i (2 * nb i + ng i + l)%nat) /\
     (forall p, (p < o \/ o + ng i <= p)%nat -> (p < ou \/ ou + ng i <= p)%nat -> x_d s1 p = x_d s p /\ x_mask s1 p = x_mask s p /\ x_m s1 p = x_m s p) /\
     (forall l, (l < ng i)%nat -> (0 <= q_idxs_rev qp i (nb i + l)%nat)%Z -> x_idxs s1 (o + l)%nat = (Z.of_nat (so i) + q_idxs_rev qp i (nb i + l)%nat)%Z) /\
     (forall p, (forall l, (l < ng i)%nat -> (0 <= q_idxs_rev qp i (nb i + l)%nat)%Z -> p <> (o + l)%nat) -> x_idxs s1 p = x_idxs s p) /\ x_idxb s1 = x_idxb s /\ x_Ct s1 = x_Ct s).
  { unfold s1, dctd_gen_copy. fold o. rewrite Eou. set (sl := loop _ _ s). pose proof (put_loop (ng i) o (so i) (fun ig => q_idxs_rev qp i (nb i + ig)%nat) s) as P. cbv zeta in P. match type of P with (x_d ?L = _) /\ _ => change L with sl in P end. clearbody sl. destruct P as (P1 & P2 & P3 & P4 & P5 & P6 & P7).
    cbn [x_d x_mask x_m x_idxb x_idxs x_Ct x_ib x_ig].
    pose proof (VECCP2 (ng i) (q_d qp i) (x_d sl) (nb i) (2 * nb i + ng i) o ou Hou) as (Q1 & Q2). pose proof (VECCP2 (ng i) (q_mask qp i) (x_mask sl) (nb i) (2 * nb i + ng i) o ou Hou) as (Q3 & Q4). pose proof (VECCP2 (ng i) (q_m qp i) (x_m sl) (nb i) (2 * nb i + ng i) o ou Hou) as (Q5 & Q6).
    split; [exact Q1|]. split; [exact Q3|]. split; [exact Q5|]. split; [|split; [exact P6|split; [exact P7|split; [exact P4|exact P5]]]].
    intros p A B. rewrite Q2, Q4, Q6 by assumption. rewrite P1, P2, P3. repeat split; reflexivity. }
  clearbody s1. destruct S1 as (A1 & A2 & A3 & A4 & A5 & A6 & A7 & A8).
  assert (Ed : (forall l, (l < ng i)%nat -> d2 (o + l)%nat = q_d qp i (nb i + l)%nat - tb l /\ d2 (ou + l)%nat = q_d qp i (2 * nb i + ng i + l)%nat + tb l) /\ (forall p, (p < o \/ o + ng i <= p)%nat -> (p < ou \/ ou + ng i <= p)%nat -> d2 p = x_d s1 p)).
  { unfold d2, AXPY. rewrite Eou. split.
    - intros l Hl. split.
      + rewrite vset_out by lia. rewrite vset_in by assumption. rsimp. rewrite R_lit11. cbn [Nat.add]. rewrite (proj1 (A1 l Hl)). lra.
      + rewrite vset_in by assumption. rewrite vset_out by lia. rsimp. rewrite R_lit11. cbn [Nat.add]. rewrite (proj2 (A1 l Hl)). lra.
    - intros p B1 B2. rewrite !vset_out by lia. reflexivity. }
  destruct Ed as (Ed1 & Ed2). clearbody d2.
  assert (Hgm := gen_step i s (mkdcs d2 (x_mask s1) (x_m s1) (x_idxb s1) (x_idxs s1) Ct2 (x_ib s1) (x_ig s1)) tb). cbv zeta in Hgm. cbn [x_d x_mask x_m x_idxb x_idxs x_Ct x_ib x_ig] in Hgm. fold o in Hgm. fold ou in Hgm.
  apply Hgm; clear Hgm; try assumption; try lia.
  - intros l Hl. rewrite Etb by assumption. unfold shift. destruct (Nat.eqb_spec i 0); [lia|]. destruct (Nat.ltb_spec (nb i + l) (nb i)); [lia|]. apply rsum_ext. intros r _. repeat f_equal. lia.
  - intros p B1 B2. rewrite Ed2 by assumption. apply A4; assumption.
  - intros k l Hk Hl. unfold colv. destruct (Nat.ltb_spec (nb i + l) (nb i)); [lia|]. destruct (Nat.eqb_spec i 0); [lia|]. replace (nb i + l - nb i)%nat with l by lia.
    assert (Enh2 : (nu2_of qp M + nx 0 = nh)%nat) by (symmetry; apply n_hard_eq).
    destruct (Nat.ltb_spec k (uo (i - 1))).
    + unfold Ct2, GEMM_NN. rewrite mblk_o by lia. unfold Ct1, GECP. rewrite mblk_i by lia. cbn [Nat.add]. f_equal; lia.
    + unfold Ct2, GEMM_NN. rewrite mblk_i by lia. rewrite fsum_R. rsimp. rewrite R_lit01, R_lit11. cbn [Nat.add]. rewrite Rmult_0_l, Rplus_0_l, Rmult_1_l. apply rsum_ext. intros r _. f_equal; f_equal; lia.
  - intros k c H. unfold Ct2, GEMM_NN. rewrite mblk_o by lia. unfold Ct1, GECP. rewrite mblk_o by lia. rewrite A8. reflexivity.
Qed.
Lemma dctd_gen0_R s Ct' : (0 < ng 0)%nat -> let s1 := dctd_gen_copy qp M 0 (roff M ng 0) (so 0) s in
  Ct' = GECP (nu 0 + nx 0) (ng 0) (q_DCt qp 0%nat) 0 0 (x_Ct s1) (uo 0) (nbg + roff M ng 0) ->
  does (PG 0) s (mkdcs (x_d s1) (x_mask s1) (x_m s1) (x_idxb s1) (x_idxs s1) Ct' (x_ib s1) (x_ig s1)).
Proof.
  intros Hg s1 EC. set (o := (nb2 + nbg + roff M ng 0)%nat) in *. set (ou := (nb2 + ng2 + o)%nat). assert (Eou : (2 * nb2 + ng2 + nbg + roff M ng 0)%nat = ou) by (unfold ou, o; lia).
  assert (Hou : (o + ng 0 <= ou)%nat). { unfold ou, o. pose proof (goff_fit 0 ltac:(lia)). lia. }
  assert (Hgm := gen_step 0 s (mkdcs (x_d s1) (x_mask s1) (x_m s1) (x_idxb s1) (x_idxs s1) Ct' (x_ib s1) (x_ig s1)) (fun _ => 0)). cbv zeta in Hgm. cbn [x_d x_mask x_m x_idxb x_idxs x_Ct x_ib x_ig] in Hgm. fold o in Hgm. fold ou in Hgm.
  revert EC Hgm. unfold s1, dctd_gen_copy. fold o. rewrite Eou. set (sl := loop _ _ s). pose proof (put_loop (ng 0%nat) o (so 0) (fun ig => q_idxs_rev qp 0 (nb 0%nat + ig)%nat) s) as P. cbv zeta in P. match type of P with (x_d ?L = _) /\ _ => change L with sl in P end. clearbody sl. destruct P as (P1 & P2 & P3 & P4 & P5 & P6 & P7).
  cbn [x_d x_mask x_m x_idxb x_idxs x_Ct x_ib x_ig]. intros EC Hgm.
  pose proof (VECCP2 (ng 0%nat) (q_d qp 0) (x_d sl) (nb 0%nat) (2 * nb 0%nat + ng 0%nat) o ou Hou) as (Q1 & Q2). pose proof (VECCP2 (ng 0%nat) (q_mask qp 0) (x_mask sl) (nb 0%nat) (2 * nb 0%nat + ng 0%nat) o ou Hou) as (Q3 & Q4). pose proof (VECCP2 (ng 0%nat) (q_m qp 0) (x_m sl) (nb 0%nat) (2 * nb 0%nat + ng 0%nat) o ou Hou) as (Q5 & Q6).
  apply Hgm; clear Hgm; try assumption; try lia.
  - intros l Hl. reflexivity.
  - intros l Hl. destruct (Q1 l Hl) as (E1 & E2). rewrite E1, E2. split; lra.
  - intros p A B. rewrite Q2, Q4, Q6 by assumption. rewrite P1, P2, P3. repeat split; reflexivity.
  - intros k l Hk Hl. rewrite EC. unfold GECP, colv. destruct (Nat.ltb_spec (nb 0%nat + l) (nb 0%nat)); [lia|]. unfold n_hard in Hk. rewrite mblk_i by lia. cbn [Nat.add Nat.eqb]. f_equal; lia.
  - intros k c H. rewrite EC. unfold GECP. rewrite mblk_o by lia. rewrite P5. reflexivity.
Qed.
Definition PGall : nat -> nat -> Prop := fun i' j' => (nb i' <= j')%nat.
Lemma dctd_gens_R s tbg : does PGall s (fst (dctd_gens qp M Gm Gb (s, tbg))).
Proof.
  unfold dctd_gens.
  pose proof (loop_ind (fun ii (x : dcs * rvec * nat * nat * nat) => let '(s', tb, nt, nt2, is) := x in does (fun i' j' => (M - ii < i')%nat /\ (nb i' <= j')%nat) s s' /\ nt = uo (M - ii) /\ nt2 = roff M ng (M - ii) /\ is = so (M - ii)) M
     (fun ii '(st, nu_tmp, ng_tmp, is) => let i := (M - ii)%nat in (dctd_gen_mid qp M Gm Gb i nu_tmp ng_tmp is st, nu_tmp + nu i, ng_tmp + ng i, is + ns i)%nat) (s, tbg, 0, 0, 0)%nat) as L.
  destruct (loop _ _ _) as [[[[s1 tb] nt] nt2] is].
  destruct L as (L1 & L2 & L3 & L4).
  - rewrite Nat.sub_0_r. split; [|split; [symmetry; apply roff_M|split; symmetry; apply roff_M]].
    eapply does_ext; [|apply does_none]. intros i j (V1 & V2). lia.
  - intros k [[[[x tb1] nt1] nt3] is1] Hk (I1 & I2 & I3 & I4). cbv zeta. rewrite I2, I3, I4.
    pose proof (dctd_gen_mid_R (M - k) x tb1 ltac:(lia)) as B. destruct (dctd_gen_mid qp M Gm Gb (M - k) (uo (M - k)) (roff M ng (M - k)) (so (M - k)) (x, tb1)) as [x2 tb2]. cbn [fst] in B.
    replace (M - S k)%nat with (M - k - 1)%nat by lia. split; [|split; [|split]].
    + eapply does_ext; [|eapply (does_seq _ (PG (M - k))); [intros; apply PG_dec|exact I1|exact B]]. intros i' j' (V1 & V2). cbv beta. unfold PG.
      destruct (Nat.eq_dec i' (M - k)) as [->|]; lia.
    + symmetry. apply uo_pred. lia.
    + rewrite (roff_S M ng (M - k - 1)) by lia. replace (S (M - k - 1)) with (M - k)%nat by lia. reflexivity.
    + change (so (M - k - 1)) with (roff M ns (M - k - 1)). rewrite (roff_S M ns (M - k - 1)) by lia. replace (S (M - k - 1)) with (M - k)%nat by lia. reflexivity.
  - rewrite Nat.sub_diag in *. subst nt nt2 is. destruct (Nat.ltb_spec 0 (ng 0)) as [Hg|Hg]; cbn [fst].
    + eapply does_ext; [|eapply (does_seq _ (PG 0)); [intros; apply PG_dec|exact L1|apply dctd_gen0_R; [exact Hg|reflexivity]]].
      intros i' j' _. cbv beta. unfold PG, PGall. destruct (Nat.eq_dec i' 0) as [->|]; lia.
    + eapply does_ext; [|exact L1]. intros i' j' (V1 & V2). cbv beta. unfold PGall. destruct (Nat.eq_dec i' 0) as [->|]; lia.
Qed.
End Con2.
