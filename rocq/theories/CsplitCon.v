(** CsplitCon.v -- condensing in two calls: the constraints (COND_DCT, COND_D), by comparison with COND_DCTD. *)
From Coq Require Import ZArith Bool Arith Lia Reals Lra.
From Verif Require Import Base ArithF RSum Blas Blas2 OcpModel ResSpec ResProofs CholProofs KktModel KktProofs KktProofs2 DenModel DenSpec CondModel CondSpec CondProofs CondCost CondCost2 CondCon CondCon2 CondCon3 CondSem CsplitModel CsplitSpec CsplitProofs.
Local Open Scope R_scope.

Section Sim.
Variables (qp : oqp R) (M : nat) (Gm : nat -> rmat) (Gb : nat -> rvec).
Notation D := (q_dim qp).
Notation nu := (dnu D).
Notation nx := (dnx D).
Notation nb := (dnb D).
Notation ng := (dng D).
Notation ns := (dns D).
Notation uo := (uoff qp M).
Notation so := (soff qp M).
Notation nux := (nux qp).
Notation nh := (n_hard qp M).
Notation nsf := (n_soft qp M).
Notation nb2 := (count_nbb qp M).
Notation nbg := (count_nbg qp M).
Notation ng2 := (count_nbg qp M + ngg_of qp M)%nat.
Notation valid := (valid qp M).
Notation oc2 := (2 * nb2 + 2 * ng2)%nat.
Notation oc := (fun i => 2 * nb i + 2 * ng i)%nat.
Notation sft := (softened qp).
Hypothesis Hwf : wfM qp M.
Hypothesis HO : slack_order qp M.

(** counter of the soft constraints at bound j, general constraint l of stage i *)
Definition sb (i j : nat) : nat := (roff M (n_sb qp) i + cnt (sft i) j)%nat.
Definition sg (i l : nat) : nat := (nsum (S M) (n_sb qp) + (roff M (n_sg qp) i + cnt (fun l => sft i (nb i + l)) l))%nat.
Lemma sb_S i j : sb i (S j) = (if sft i j then S (sb i j) else sb i j).
Proof. unfold sb, cnt. cbn [nsum]. destruct (sft i j); lia. Qed.
Lemma sg_S i l : sg i (S l) = (if sft i (nb i + l) then S (sg i l) else sg i l).
Proof. unfold sg, cnt. cbn [nsum]. destruct (sft i (nb i + l)); lia. Qed.
Lemma sb_next i : (1 <= i <= M)%nat -> sb i (nb i) = sb (i - 1) 0.
Proof. intros H. unfold sb. rewrite (roff_S M (n_sb qp) (i - 1)) by lia. replace (S (i - 1)) with i by lia. unfold cnt at 2. cbn [nsum]. unfold n_sb at 3, cnt. lia. Qed.
Lemma sg_next i : (1 <= i <= M)%nat -> sg i (ng i) = sg (i - 1) 0.
Proof. intros H. unfold sg. rewrite (roff_S M (n_sg qp) (i - 1)) by lia. replace (S (i - 1)) with i by lia. unfold cnt at 2. cbn [nsum]. unfold n_sg at 3, cnt. lia. Qed.
Lemma sb_M : sb M 0 = 0%nat.
Proof. unfold sb, cnt. rewrite roff_M. reflexivity. Qed.
Lemma sb_end : sb 0 (nb 0) = sg M 0.
Proof. unfold sb, sg. rewrite roff_M. unfold cnt at 2. cbn [nsum]. pose proof (roff_sum M (n_sb qp) 0 ltac:(lia)) as E. cbn [nsum] in E. cbn [nsum]. unfold n_sb at 2 in E. unfold cnt. lia. Qed.
Lemma sg_end : sg 0 (ng 0) = nsf.
Proof. destruct HO as (_ & <-). unfold sg. pose proof (roff_sum M (n_sg qp) 0 ltac:(lia)) as E. cbn [nsum] in E. cbn [nsum]. unfold n_sg at 2 in E. unfold cnt. lia. Qed.
(** where the slack of a soft constraint goes *)
Lemma sb_slot i j : (i <= M)%nat -> (j < nb i)%nat -> sft i j = true -> exists k, q_idxs_rev qp i j = Z.of_nat k /\ (k < ns i)%nat /\ sb i j = (so i + k)%nat.
Proof.
  intros Hi Hj Hs. destruct HO as (H & _). specialize (H i j Hi ltac:(lia) Hs). unfold scan in H. destruct (Nat.ltb_spec j (nb i)); [|lia].
  change (nsum (M - i) (fun k => n_sb qp (M - k)) + _)%nat with (sb i j) in H. destruct (Hwf i Hi) as (_ & W). specialize (W j ltac:(lia)). unfold softened in Hs. apply Z.leb_le in Hs. destruct W as [W|W]; [lia|].
  exists (Z.to_nat (q_idxs_rev qp i j)). rewrite Z2Nat.id by lia. split; [reflexivity|]. lia.
Qed.
Lemma sg_slot i l : (i <= M)%nat -> (l < ng i)%nat -> sft i (nb i + l) = true -> exists k, q_idxs_rev qp i (nb i + l)%nat = Z.of_nat k /\ (k < ns i)%nat /\ sg i l = (so i + k)%nat.
Proof.
  intros Hi Hj Hs. destruct HO as (H & _). specialize (H i (nb i + l)%nat Hi ltac:(lia) Hs). unfold scan in H. destruct (Nat.ltb_spec (nb i + l) (nb i)); [lia|]. replace (nb i + l - nb i)%nat with l in H by lia.
  change (nsum (S M) (n_sb qp) + (nsum (M - i) (fun k => n_sg qp (M - k)) + _))%nat with (sg i l) in H. destruct (Hwf i Hi) as (_ & W). specialize (W (nb i + l)%nat ltac:(lia)). unfold softened in Hs. apply Z.leb_le in Hs. destruct W as [W|W]; [lia|].
  exists (Z.to_nat (q_idxs_rev qp i (nb i + l)%nat)). rewrite Z2Nat.id by lia. split; [reflexivity|]. lia.
Qed.
(** the slack data of the first c slots *)
Definition slot (c o : nat) (os : nat -> nat) (src : nat -> rvec) (v : rvec) : Prop :=
  forall i l, (i <= M)%nat -> (l < ns i)%nat -> (so i + l < c)%nat -> v (o + (so i + l))%nat = src i (os i + l)%nat /\ v (o + nsf + (so i + l))%nat = src i (os i + ns i + l)%nat.
Lemma slot_put i k c o os src v : (i <= M)%nat -> (k < ns i)%nat -> c = (so i + k)%nat -> slot c o os src v ->
  slot (S c) o os src (upd (upd v (o + c)%nat (src i (os i + k)%nat)) (o + nsf + c)%nat (src i (os i + ns i + k)%nat)).
Proof.
  intros Hi Hk Hc HS i' l' Hi' Hl' H. pose proof (so_fit qp M i Hi). pose proof (so_fit qp M i' Hi'). destruct (Nat.eq_dec (so i' + l') c) as [E|E].
  - destruct (roff_inj M ns i' i l' k Hi' Hi Hl' Hk) as (-> & ->); [change (roff M ns) with so; lia|]. rewrite <- Hc. rewrite upd_same. rewrite upd_other by lia. rewrite upd_same. split; reflexivity.
  - rewrite !upd_other by lia. apply HS; try assumption. lia.
Qed.
Lemma slot_ext c o os src v v' : (forall p, (o <= p)%nat -> v' p = v p) -> slot c o os src v -> slot c o os src v'.
Proof. intros E HS i l Hi Hl H. rewrite !E by lia. apply HS; assumption. Qed.
Lemma slot_all o os src v : slot nsf o os src v -> SCall qp M o os src v v.
Proof.
  intros HS. split; [|reflexivity]. intros i l Hi Hl. pose proof (so_fit qp M i Hi). destruct (HS i l Hi Hl ltac:(lia)) as (A & B). rewrite <- !Nat.add_assoc. rewrite <- !Nat.add_assoc in B. split; assumption.
Qed.

(** ** COND_DCT against COND_DCTD *)
Definition RM (c : nat) (y : mst (F := R)) (x : dcs (F := R)) : Prop :=
  y_idxb y = x_idxb x /\ y_idxs y = x_idxs x /\ y_Ct y = x_Ct x /\ y_ib y = x_ib x /\ y_ig y = x_ig x /\ y_is y = c /\ slot c 0 (fun _ => 0%nat) (q_Z qp) (y_Z y).
Lemma RM_soft i j p c y x : (i <= M)%nat -> (sft i j = true -> exists k, q_idxs_rev qp i j = Z.of_nat k /\ (k < ns i)%nat /\ c = (so i + k)%nat) -> RM c y x ->
  RM (if sft i j then S c else c) (dct_soft qp M i j p y) (put_idxs p (so i) (q_idxs_rev qp i j) x).
Proof.
  intros Hi Hk (E1 & E2 & E3 & E4 & E5 & E6 & E7). unfold dct_soft, put_idxs. change (Z.leb 0 (q_idxs_rev qp i j)) with (sft i j). destruct (sft i j); [|unfold RM; repeat (split; [assumption|]); assumption].
  destruct (Hk eq_refl) as (k & Ek & Hlt & Ec). unfold RM. cbn [y_idxb y_idxs y_Ct y_Z y_ib y_ig y_is x_idxb x_idxs x_Ct x_ib x_ig]. rewrite Ek, Nat2Z.id, E6, ns2_eq.
  split; [exact E1|]. split; [rewrite E2; f_equal; lia|]. split; [exact E3|]. split; [exact E4|]. split; [exact E5|]. split; [reflexivity|].
  exact (slot_put i k c 0 (fun _ => 0%nat) (q_Z qp) (y_Z y) Hi Hlt Ec E7).
Qed.
Ltac proj := cbn [y_idxb y_idxs y_Ct y_Z y_ib y_ig y_is x_d x_mask x_m x_idxb x_idxs x_Ct x_ib x_ig t_d t_mask t_gz t_tbg t_ib t_ig t_is].
Lemma RM_wrapb c y x ib d m mm : RM c y x -> RM c (mkmst (y_idxb y) (y_idxs y) (y_Ct y) (y_Z y) ib (y_ig y) (y_is y)) (mkdcs d m mm (x_idxb x) (x_idxs x) (x_Ct x) ib (x_ig x)).
Proof. intros (E1 & E2 & E3 & E4 & E5 & E6 & E7). unfold RM. proj. repeat (split; [assumption || reflexivity|]). exact E7. Qed.
Lemma RM_wrapg c y x ig d m mm : RM c y x -> RM c (mkmst (y_idxb y) (y_idxs y) (y_Ct y) (y_Z y) (y_ib y) ig (y_is y)) (mkdcs d m mm (x_idxb x) (x_idxs x) (x_Ct x) (x_ib x) ig).
Proof. intros (E1 & E2 & E3 & E4 & E5 & E6 & E7). unfold RM. proj. repeat (split; [assumption || reflexivity|]). exact E7. Qed.
Lemma RM_bound i nt ig0 jj y x : (i <= M)%nat -> (jj < nb i)%nat -> RM (sb i jj) y x -> RM (sb i (S jj)) (dct_bound qp M Gm i nt ig0 jj y) (dctd_bound qp M Gm Gb i nt (so i) ig0 jj x).
Proof.
  intros Hi Hj (E1 & E2 & E3 & E4 & E5 & E6 & E7). rewrite sb_S. unfold dct_bound, dctd_bound. destruct (Nat.ltb (q_idxb qp i jj) (nu i)); cbv zeta; [rewrite E4; apply RM_wrapb|rewrite E5; apply RM_wrapg].
  - apply RM_soft; [exact Hi|apply sb_slot; assumption|]. unfold RM, put_con. proj. rewrite E1. repeat (split; [assumption || reflexivity|]). exact E7.
  - apply RM_soft; [exact Hi|apply sb_slot; assumption|]. unfold RM, put_con. proj. rewrite E3. repeat (split; [assumption || reflexivity|]). exact E7.
Qed.
Lemma RM_bounds y x : RM 0 y x -> RM (sg M 0) (dct_bounds qp M Gm y) (dctd_bounds qp M Gm Gb x).
Proof.
  intros H0. unfold dct_bounds, dctd_bounds.
  match goal with |- RM _ (let '(_, _) := loop M ?f ?a in _) (let '(_, _) := loop M ?g ?b in _) =>
    pose proof (loop_rel (fun k (u : mst * nat * nat) (w : dcs * nat * nat * nat) => let '(y, n1, g1) := u in let '(x, n2, is, g2) := w in
      RM (sb (M - k) 0) y x /\ n1 = n2 /\ g1 = g2 /\ is = so (M - k)) M f g a b) as L; destruct (loop M f a) as [[y1 n1] g1]; destruct (loop M g b) as [[[x1 n2] is] g2] end.
  destruct L as (L1 & <- & _ & ->).
  - rewrite Nat.sub_0_r, sb_M. split; [exact H0|]. split; [reflexivity|]. split; [reflexivity|]. symmetry. apply roff_M.
  - intros k [[y2 m1] h1] [[[x2 m2] is2] h2] Hk (I1 & <- & <- & ->). cbv zeta. split; [|split; [reflexivity|split; [reflexivity|]]].
    + replace (M - S k)%nat with (M - k - 1)%nat by lia. rewrite <- sb_next by lia.
      apply (loop_rel (fun j y x => RM (sb (M - k) j) y x)); [exact I1|]. intros j y3 x3 Hj. apply RM_bound; [lia|exact Hj].
    + change (so (M - S k)) with (roff M ns (M - S k)). rewrite (roff_S M ns (M - S k)) by lia. replace (S (M - S k)) with (M - k)%nat by lia. reflexivity.
  - rewrite Nat.sub_diag in *. cbv zeta. rewrite <- sb_end. apply (loop_rel (fun j y x => RM (sb 0 j) y x)); [exact L1|].
    intros jj y2 x2 Hj (E1 & E2 & E3 & E4 & E5 & E6 & E7). rewrite sb_S. cbv zeta. rewrite E4. apply RM_wrapb. apply RM_soft; [lia|apply sb_slot; [lia|exact Hj]|]. unfold RM, put_con. proj. rewrite E1. repeat (split; [assumption || reflexivity|]). exact E7.
Qed.
Lemma RM_gsoft i nt y x : (i <= M)%nat -> RM (sg i 0) y x -> RM (sg i (ng i)) (dct_gsoft qp M i nt y) (dctd_gen_copy qp M i nt (so i) x).
Proof.
  intros Hi H. unfold dct_gsoft, dctd_gen_copy. set (y1 := loop _ _ y). set (x1 := loop _ _ x). assert (R1 : RM (sg i (ng i)) y1 x1).
  { unfold y1, x1. apply (loop_rel (fun l y x => RM (sg i l) y x)); [exact H|]. intros l y2 x2 Hl R2. rewrite sg_S. apply RM_soft; [exact Hi| |exact R2]. apply sg_slot; assumption. }
  exact R1.
Qed.
Lemma RM_gens y x tb : RM (sg M 0) y x -> RM nsf (dct_gens qp M Gm y) (fst (dctd_gens qp M Gm Gb (x, tb))).
Proof.
  intros H0. unfold dct_gens, dctd_gens.
  match goal with |- RM _ (let '(_, _) := loop M ?f ?a in _) (fst (let '(_, _) := loop M ?g ?b in _)) =>
    pose proof (loop_rel (fun k (u : mst * nat * nat) (w : dcs * rvec * nat * nat * nat) => let '(y, n1, g1) := u in let '(x, tb, n2, g2, is) := w in
      RM (sg (M - k) 0) y x /\ n1 = n2 /\ g1 = g2 /\ is = so (M - k)) M f g a b) as L; destruct (loop M f a) as [[y1 n1] g1]; destruct (loop M g b) as [[[[x1 tb1] n2] g2] is] end.
  destruct L as (L1 & <- & <- & ->).
  - rewrite Nat.sub_0_r. split; [exact H0|]. split; [reflexivity|]. split; [reflexivity|]. symmetry. apply roff_M.
  - intros k [[y2 m1] h1] [[[[x2 tb2] m2] h2] is2] Hk (I1 & <- & <- & ->). cbv zeta. unfold dct_gen_mid, dctd_gen_mid. replace (M - S k)%nat with (M - k - 1)%nat by lia. rewrite <- sg_next by lia.
    assert (Es : (so (M - k) + ns (M - k) = so (M - k - 1))%nat). { change (so (M - k - 1)) with (roff M ns (M - k - 1)). rewrite (roff_S M ns (M - k - 1)) by lia. replace (S (M - k - 1)) with (M - k)%nat by lia. reflexivity. }
    destruct (Nat.ltb_spec 0 (ng (M - k))) as [Hg|Hg].
    + split; [|split; [reflexivity|split; [reflexivity|exact Es]]].
      pose proof (RM_gsoft (M - k) h1 y2 x2 ltac:(lia) I1) as (F1 & F2 & F3 & F4 & F5 & F6 & F7). unfold RM. proj. rewrite F3. repeat (split; [assumption || reflexivity|]). exact F7.
    + split; [|split; [reflexivity|split; [reflexivity|exact Es]]]. replace (ng (M - k)) with 0%nat by lia. exact I1.
  - rewrite Nat.sub_diag in *. cbv zeta. rewrite <- sg_end. destruct (Nat.ltb_spec 0 (ng 0)) as [Hg|Hg]; cbn [fst].
    + pose proof (RM_gsoft 0 g1 y1 x1 ltac:(lia) L1) as (F1 & F2 & F3 & F4 & F5 & F6 & F7). unfold RM. proj. rewrite F3. repeat (split; [assumption || reflexivity|]). exact F7.
    + replace (ng 0%nat) with 0%nat by lia. exact L1.
Qed.
Lemma dct_sim q0 tb y0 : y_idxb y0 = d_idxb q0 -> y_idxs y0 = d_idxs_rev q0 -> y_Ct y0 = d_Ct q0 ->
  let y := dct_main qp M Gm y0 in let q := fst (dctd_main qp M Gm Gb q0 tb) in
  y_idxb y = d_idxb q /\ y_idxs y = d_idxs_rev q /\ y_Ct y = d_Ct q /\ slot nsf 0 (fun _ => 0%nat) (q_Z qp) (y_Z y).
Proof.
  intros E1 E2 E3. cbv zeta. unfold dct_main, dctd_main. set (y1 := mkmst _ _ _ _ _ _ _). set (x1 := mkdcs _ _ _ _ _ _ _ _).
  assert (R1 : RM 0 y1 x1). { unfold y1, x1, RM. proj. rewrite E3. repeat (split; [assumption || reflexivity|]). intros i l _ _ H. lia. }
  pose proof (RM_gens _ _ tb (RM_bounds _ _ R1)) as R2. set (y2 := dct_gens _ _ _ _) in *. destruct (dctd_gens qp M Gm Gb (dctd_bounds qp M Gm Gb x1, tb)) as [x2 tb2]. cbn [fst] in R2. clearbody y2.
  pose proof (dctd_soft_R qp M x2 (d_Z q0) (d_gz q0)) as B3. destruct (dctd_soft qp M (x2, d_Z q0, d_gz q0)) as [[s3 Z2] gz]. destruct B3 as (_ & _ & _ & _ & _ & S6 & S7 & S8).
  cbn [fst d_idxb d_idxs_rev d_Ct]. rewrite S6, S7, S8. destruct R2 as (F1 & F2 & F3 & F4 & F5 & F6 & F7). repeat (split; [assumption|]). exact F7.
Qed.

(** ** COND_D against COND_DCTD *)
Definition agree (v x : rvec) : Prop := forall p, (p < oc2)%nat -> v p = x p.
Definition RD (c : nat) (g0 : rvec) (t : dst (F := R)) (x : dcs (F := R)) (tb : rvec) : Prop :=
  (agree (t_d t) (x_d x) /\ agree (t_mask t) (x_mask x)) /\ t_ib t = x_ib x /\ t_ig t = x_ig x /\ t_tbg t = tb /\ t_is t = c /\
  slot c oc2 oc (q_d qp) (t_d t) /\ slot c oc2 oc (q_mask qp) (t_mask t) /\ slot c nh nux (q_rqz qp) (t_gz t) /\ (forall p, (p < nh)%nat -> t_gz t p = g0 p).
Lemma agree_upd v x p a : agree v x -> agree (upd v p a) (upd x p a).
Proof. intros H k Hk. unfold upd. destruct (Nat.eqb k p); [reflexivity|apply H; exact Hk]. Qed.
Lemma agree_far v x p a : (oc2 <= p)%nat -> agree v x -> agree (upd v p a) x.
Proof. intros Hp H k Hk. rewrite upd_other by lia. apply H. exact Hk. Qed.
Lemma slot_upd c os src v p a : (p < oc2)%nat -> slot c oc2 os src v -> slot c oc2 os src (upd v p a).
Proof. intros Hp. apply slot_ext. intros k Hk. apply upd_other. lia. Qed.
Lemma RD_soft i j p c g0 t x tb : (i <= M)%nat -> (sft i j = true -> exists k, q_idxs_rev qp i j = Z.of_nat k /\ (k < ns i)%nat /\ c = (so i + k)%nat) -> RD c g0 t x tb ->
  RD (if sft i j then S c else c) g0 (d_soft qp M true i j t) (put_idxs p (so i) (q_idxs_rev qp i j) x) tb.
Proof.
  intros Hi Hk ((E1 & E1') & E2 & E3 & E4 & E5 & E6 & E7 & E8 & E9). unfold d_soft, put_idxs. change (Z.leb 0 (q_idxs_rev qp i j)) with (sft i j).
  destruct (sft i j); [|unfold RD; split; [split; assumption|]; repeat (split; [assumption|]); assumption].
  destruct (Hk eq_refl) as (k & Ek & Hlt & Ec). rewrite Ek, Nat2Z.id, E5, ns2_eq. rewrite <- n_hard_eq. unfold RD. proj.
  split; [split; repeat (apply agree_far; [lia|]); assumption|]. repeat (split; [assumption || reflexivity|]).
  split; [exact (slot_put i k c oc2 oc (q_d qp) (t_d t) Hi Hlt Ec E6)|]. split; [exact (slot_put i k c oc2 oc (q_mask qp) (t_mask t) Hi Hlt Ec E7)|].
  split; [exact (slot_put i k c nh nux (q_rqz qp) (t_gz t) Hi Hlt Ec E8)|]. intros p' Hp'. rewrite !upd_other by lia. apply E9. exact Hp'.
Qed.
Lemma RD_put i j pl pu tl tu c g0 t x tb : (pl < oc2)%nat -> (pu < oc2)%nat -> RD c g0 t x tb -> RD c g0 (d_put qp true i j pl pu tl tu t) (put_con qp i j pl pu tl tu x) tb.
Proof.
  intros H1 H2 ((E1 & E1') & E2 & E3 & E4 & E5 & E6 & E7 & E8 & E9). unfold d_put, put_con, RD. proj. split; [split; repeat apply agree_upd; assumption|]. repeat (split; [assumption|]).
  split; [repeat (apply slot_upd; [assumption|]); assumption|]. split; [repeat (apply slot_upd; [assumption|]); assumption|]. split; assumption.
Qed.
Lemma RD_wrapb c g0 t x tb ib mm : RD c g0 t x tb -> RD c g0 (mkdst (t_d t) (t_mask t) (t_gz t) (t_tbg t) ib (t_ig t) (t_is t)) (mkdcs (x_d x) (x_mask x) mm (x_idxb x) (x_idxs x) (x_Ct x) ib (x_ig x)) tb.
Proof. intros ((E1 & E1') & E2 & E3 & E4 & E5 & E6 & E7 & E8 & E9). unfold RD. proj. split; [split; assumption|]. repeat (split; [assumption || reflexivity|]). exact E9. Qed.
Lemma RD_wrapg c g0 t x tb ig mm : RD c g0 t x tb -> RD c g0 (mkdst (t_d t) (t_mask t) (t_gz t) (t_tbg t) (t_ib t) ig (t_is t)) (mkdcs (x_d x) (x_mask x) mm (x_idxb x) (x_idxs x) (x_Ct x) (x_ib x) ig) tb.
Proof. intros ((E1 & E1') & E2 & E3 & E4 & E5 & E6 & E7 & E8 & E9). unfold RD. proj. split; [split; assumption|]. repeat (split; [assumption || reflexivity|]). exact E9. Qed.
Lemma RD_mid c g0 t x tb idxb Ct idxs ib ig : ib = x_ib x -> ig = x_ig x -> RD c g0 t x tb -> RD c g0 t (mkdcs (x_d x) (x_mask x) (x_m x) idxb idxs Ct ib ig) tb.
Proof. intros -> -> ((E1 & E1') & E2 & E3 & E4 & E5 & E6 & E7 & E8 & E9). unfold RD. proj. split; [split; assumption|]. repeat (split; [assumption || reflexivity|]). exact E9. Qed.
Lemma RD_bound i nt ig0 jj g0 t x tb : (1 <= i <= M)%nat -> (jj < nb i)%nat -> ctr qp M x i jj -> RD (sb i jj) g0 t x tb -> RD (sb i (S jj)) g0 (d_bound qp M Gb true i jj t) (dctd_bound qp M Gm Gb i nt (so i) ig0 jj x) tb.
Proof.
  intros Hi Hj (C1 & C2) H. assert (V : valid i jj) by (split; lia). pose proof (posl_lt qp M i jj V) as Pl. rewrite sb_S. unfold d_bound, dctd_bound. fold (is_input qp i jj).
  assert (Eb : box qp i jj = is_input qp i jj). { unfold box. replace (Nat.eqb i 0) with false by (symmetry; apply Nat.eqb_neq; lia). reflexivity. }
  assert (Ej : (jj <? nb i)%nat = true) by (apply Nat.ltb_lt; exact Hj). pose proof H as (_ & Hib & Hig & _). unfold posl in Pl. rewrite Ej, Eb in Pl. destruct (is_input qp i jj) eqn:Hin.
  - rewrite <- C1 in Pl. rewrite Hib. cbv zeta. apply RD_wrapb. apply RD_soft; [lia|apply sb_slot; [lia|exact Hj]|]. apply RD_mid; [reflexivity|reflexivity|]. apply RD_put; [lia|lia|exact H].
  - rewrite <- C2 in Pl. rewrite Hig. cbv zeta. apply RD_wrapg. apply RD_soft; [lia|apply sb_slot; [lia|exact Hj]|]. apply RD_mid; [reflexivity|reflexivity|]. apply RD_put; [lia|lia|exact H].
Qed.
Lemma RD_bounds g0 t x tb : ctr qp M x M 0 -> RD 0 g0 t x tb -> RD (sg M 0) g0 (d_bounds qp M Gb true t) (dctd_bounds qp M Gm Gb x) tb.
Proof.
  intros Hc H0. unfold d_bounds, dctd_bounds.
  match goal with |- RD _ _ _ (let '(_, _) := loop M ?g ?b in _) _ =>
    pose proof (loop_rel (fun k (u : dst) (w : dcs * nat * nat * nat) => let '(x, n2, is, g2) := w in
      RD (sb (M - k) 0) g0 u x tb /\ ctr qp M x (M - k) 0 /\ n2 = uo (M - k) /\ is = so (M - k) /\ g2 = (nx 0 + nsum (M - k) nu)%nat) M (fun ii s => loop (nb (M - ii)%nat) (d_bound qp M Gb true (M - ii)) s) g t b) as L; destruct (loop M g b) as [[[x1 n2] is] g2] end.
  destruct L as (L1 & L2 & -> & -> & _).
  - rewrite Nat.sub_0_r, sb_M. split; [exact H0|]. split; [exact Hc|]. split; [symmetry; apply roff_M|split; [symmetry; apply roff_M|reflexivity]].
  - intros k t2 [[[x2 m2] is2] h2] Hk (I1 & I2 & -> & -> & ->). cbv zeta.
    assert (Eu : (uo (M - k) + nu (M - k))%nat = uo (M - k - 1)) by (symmetry; apply uo_pred; lia). rewrite Eu.
    pose proof (bounds_stage_R qp M Gm Gb (M - k) x2 ltac:(lia) I2) as B. cbv zeta in B. destruct B as (_ & B2). replace (M - S k)%nat with (M - k - 1)%nat by lia.
    split; [|split; [exact B2|split; [reflexivity|split]]].
    + rewrite <- sb_next by lia.
      apply (proj1 (loop_rel (fun j t x => RD (sb (M - k) j) g0 t x tb /\ ctr qp M x (M - k) j) (nb (M - k)) _ _ t2 x2 (conj I1 I2) (fun j t3 x3 Hj HH =>
        conj (RD_bound (M - k) (uo (M - k - 1)) (nx 0 + nsum (M - k) nu) j g0 t3 x3 tb ltac:(lia) Hj (proj2 HH) (proj1 HH))
          (proj2 (proj2 (proj2 (dctd_bound_R qp M Gm Gb (M - k) j x3 ltac:(lia) Hj (proj2 HH)))))))).
    + change (so (M - k - 1)) with (roff M ns (M - k - 1)). rewrite (roff_S M ns (M - k - 1)) by lia. replace (S (M - k - 1)) with (M - k)%nat by lia. reflexivity.
    + replace (M - 1 - k)%nat with (M - k - 1)%nat by lia. replace (M - k)%nat with (S (M - k - 1)) at 1 by lia. cbn [nsum]. lia.
  - rewrite Nat.sub_diag in *. cbv zeta. rewrite <- sb_end. rewrite (loop_ext (nb 0%nat) _ (bound0 qp M (so 0))). 2:{ intros k x2 Hk. unfold bound0. replace (uo 0 + nu 0 - nu 0)%nat with (uo 0) by lia. reflexivity. }
    match goal with |- RD _ _ (loop _ ?f ?t1) _ _ =>
      refine (proj1 (loop_rel (fun j t x => RD (sb 0 j) g0 t x tb /\ ctr qp M x 0 j) (nb 0%nat) f (bound0 qp M (so 0)) t1 x1 (conj L1 L2) _)) end.
    intros jj t2 x2 Hj (R2 & C2). pose proof (bound0_R qp M Gm Gb jj x2 Hj C2) as B. cbv zeta in B. destruct B as (_ & _ & _ & B4). split; [|exact B4].
    destruct C2 as (C1 & _). assert (V : valid 0 jj) by (split; lia). pose proof (posl_lt qp M 0 jj V) as Pl. assert (Ej : (jj <? nb 0)%nat = true) by (apply Nat.ltb_lt; exact Hj).
    unfold posl in Pl. rewrite Ej in Pl. change (box qp 0 jj) with true in Pl. cbv iota in Pl. rewrite <- C1 in Pl.
    pose proof R2 as (_ & Hib & _). rewrite sb_S. unfold bound0. rewrite Hib. cbv zeta. apply RD_wrapb. apply RD_soft; [lia|apply sb_slot; [lia|exact Hj]|]. apply RD_mid; [reflexivity|reflexivity|]. apply RD_put; [lia|lia|exact R2].
Qed.
Lemma agree_VECCP n s a v x o : agree v x -> agree (VECCP n s a v o) (VECCP n s a x o).
Proof. intros H p Hp. unfold VECCP, vset. destruct (_ && _)%bool; [reflexivity|apply H; exact Hp]. Qed.
Lemma agree_AXPY n al u v x o : (o + n <= oc2)%nat -> agree v x -> agree (AXPY n al u 0 v o v o) (AXPY n al u 0 x o x o).
Proof. intros Ho H p Hp. unfold AXPY, vset. destruct (_ && _)%bool eqn:E; [apply andb_true_iff in E; destruct E as (E1 & E2); apply Nat.leb_le in E1; rewrite (H (o + (p - o))%nat) by lia; reflexivity|apply H; exact Hp]. Qed.
Lemma slot_vset c os src v n o f : (o + n <= oc2)%nat -> slot c oc2 os src v -> slot c oc2 os src (vset v o n f).
Proof. intros Ho. apply slot_ext. intros k Hk. apply vset_out. lia. Qed.
Lemma RD_gen_copy i g0 t x tb : (i <= M)%nat -> RD (sg i 0) g0 t x tb -> RD (sg i (ng i)) g0 (d_gen_copy qp M true i (roff M ng i) t) (dctd_gen_copy qp M i (roff M ng i) (so i) x) tb.
Proof.
  intros Hi H. unfold d_gen_copy, dctd_gen_copy. set (t1 := loop _ _ t). set (x1 := loop _ _ x).
  assert (R1 : RD (sg i (ng i)) g0 t1 x1 tb).
  { unfold t1, x1. apply (loop_rel (fun l t x => RD (sg i l) g0 t x tb)); [exact H|]. intros l y2 x2 Hl R2. rewrite sg_S. apply RD_soft; [exact Hi| |exact R2]. apply sg_slot; assumption. }
  clearbody t1 x1. destruct R1 as ((E1 & E1') & E2 & E3 & E4 & E5 & E6 & E7 & E8 & E9). pose proof (goff_fit qp M i Hi) as Gf. unfold RD. proj.
  split; [split; repeat apply agree_VECCP; assumption|]. repeat (split; [assumption|]).
  split; [unfold VECCP; apply slot_vset; [lia|]; apply slot_vset; [lia|exact E6]|]. split; [unfold VECCP; apply slot_vset; [lia|]; apply slot_vset; [lia|exact E7]|]. split; assumption.
Qed.
Lemma RD_gen_mid i nt g0 t x tb : (1 <= i <= M)%nat -> RD (sg i 0) g0 t x tb ->
  let r := dctd_gen_mid qp M Gm Gb i nt (roff M ng i) (so i) (x, tb) in RD (sg i (ng i)) g0 (d_gen_mid qp M Gb true i (roff M ng i) t) (fst r) (snd r).
Proof.
  intros Hi H. cbv zeta. unfold d_gen_mid, dctd_gen_mid. destruct (Nat.ltb_spec 0 (ng i)) as [Hg|Hg]; cbn [fst snd].
  2:{ replace (ng i) with 0%nat by lia. exact H. }
  pose proof (RD_gen_copy i g0 t x tb ltac:(lia) H) as R1. set (t1 := d_gen_copy _ _ _ _ _ t) in *. set (x1 := dctd_gen_copy _ _ _ _ _ x) in *. clearbody t1 x1.
  destruct R1 as ((E1 & E1') & E2 & E3 & E4 & E5 & E6 & E7 & E8 & E9). pose proof (goff_fit qp M i ltac:(lia)) as Gf. cbv zeta. rewrite E4. unfold RD. proj.
  split; [split; [apply agree_AXPY; [lia|]; apply agree_AXPY; [lia|exact E1]|exact E1']|]. repeat (split; [assumption || reflexivity|]).
  split; [unfold AXPY; apply slot_vset; [lia|]; apply slot_vset; [lia|exact E6]|]. split; [exact E7|]. split; assumption.
Qed.
Lemma RD_gens g0 t x tb : RD (sg M 0) g0 t x tb -> let r := dctd_gens qp M Gm Gb (x, tb) in RD nsf g0 (d_gens qp M Gb true t) (fst r) (snd r).
Proof.
  intros H0. cbv zeta. unfold d_gens, dctd_gens.
  match goal with |- RD _ _ (let '(_, _) := loop M ?f ?a in _) (fst (let '(_, _) := loop M ?g ?b in _)) _ =>
    pose proof (loop_rel (fun k (u : dst * nat) (w : dcs * rvec * nat * nat * nat) => let '(t, g1) := u in let '(x, tb, n2, g2, is) := w in
      RD (sg (M - k) 0) g0 t x tb /\ g1 = roff M ng (M - k) /\ g2 = roff M ng (M - k) /\ is = so (M - k)) M f g a b) as L; destruct (loop M f a) as [t1 g1]; destruct (loop M g b) as [[[[x1 tb1] n2] g2] is] end.
  destruct L as (L1 & -> & -> & ->).
  - rewrite Nat.sub_0_r. split; [exact H0|]. repeat (split; [symmetry; apply roff_M|]). symmetry. apply roff_M.
  - intros k [t2 h1] [[[[x2 tb2] m2] h2] is2] Hk (I1 & -> & -> & ->). cbv zeta.
    pose proof (RD_gen_mid (M - k) m2 g0 t2 x2 tb2 ltac:(lia) I1) as B. cbv zeta in B. destruct (dctd_gen_mid qp M Gm Gb (M - k) m2 (roff M ng (M - k)) (so (M - k)) (x2, tb2)) as [x3 tb3]. cbn [fst snd] in B.
    replace (M - S k)%nat with (M - k - 1)%nat by lia. rewrite <- sg_next by lia. split; [exact B|].
    change (so (M - k - 1)) with (roff M ns (M - k - 1)). rewrite (roff_S M ns (M - k - 1)), (roff_S M ng (M - k - 1)) by lia. replace (S (M - k - 1)) with (M - k)%nat by lia. repeat split; reflexivity.
  - rewrite Nat.sub_diag in *. cbv zeta. rewrite <- sg_end. destruct (Nat.ltb_spec 0 (ng 0)) as [Hg|Hg]; cbn [fst snd].
    + apply RD_mid; [reflexivity|reflexivity|]. apply RD_gen_copy; [lia|exact L1].
    + replace (ng 0%nat) with 0%nat by lia. exact L1.
Qed.
(** the dense constraints assembled by the two functions, up to the vector m (which neither writes) *)
Definition setm (q : dqp R) (md : rvec) : dqp R :=
  mkdqp (d_nv q) (d_ne q) (d_nb q) (d_ng q) (d_ns q) (d_H q) (d_A q) (d_Ct q) (d_gz q) (d_b q) (d_d q) (d_mask q) md (d_Z q) (d_idxb q) (d_idxs_rev q).
Lemma con_main y0 t0 q : (forall p, (p < nb2 + ng2)%nat -> y_idxs y0 p = (-1)%Z) ->
  let y := dct_main qp M Gm y0 in let t := d_main qp M Gb true t0 in
  d_idxb q = y_idxb y -> d_idxs_rev q = y_idxs y -> d_Ct q = y_Ct y -> d_Z q = y_Z y -> d_d q = t_d t -> d_mask q = t_mask t ->
  (exists md, CQ qp M Gm Gb (setm q md)) /\ SCall qp M nh nux (q_rqz qp) (t_gz t) (t_gz t) /\ (forall p, (p < nh)%nat -> t_gz t p = t_gz t0 p).
Proof.
  intros H0 y t E1 E2 E3 E4 E5 E6.
  set (q0 := mkdqp 0 0 0 0 0 (fun _ _ => 0) (fun _ _ => 0) (y_Ct y0) (t_gz t0) (fun _ => 0) (t_d t0) (t_mask t0) (fun _ => 0) (y_Z y0) (y_idxb y0) (y_idxs y0)).
  pose proof (dct_sim q0 (t_tbg t0) y0 eq_refl eq_refl eq_refl) as Y. cbv zeta in Y. fold y in Y. destruct Y as (Y1 & Y2 & Y3 & Y4).
  destruct (dctd_main_R qp M Gm Gb q0 (t_tbg t0) H0) as (HC & _).
  assert (T : RD nsf (t_gz t0) t (fst (dctd_gens qp M Gm Gb (dctd_bounds qp M Gm Gb (mkdcs (d_d q0) (d_mask q0) (d_m q0) (d_idxb q0) (d_idxs_rev q0) (GESE (nu2_of qp M + nx 0) ng2 f0 (d_Ct q0) 0 0) 0 0), t_tbg t0)))
     (snd (dctd_gens qp M Gm Gb (dctd_bounds qp M Gm Gb (mkdcs (d_d q0) (d_mask q0) (d_m q0) (d_idxb q0) (d_idxs_rev q0) (GESE (nu2_of qp M + nx 0) ng2 f0 (d_Ct q0) 0 0) 0 0), t_tbg t0)))).
  { unfold t, d_main. apply RD_gens. apply RD_bounds.
    - unfold ctr. cbn [x_ib x_ig]. rewrite !roff_M. split; reflexivity.
    - unfold RD. proj. split; [split; intros p _; reflexivity|]. repeat (split; [reflexivity|]). repeat (split; [intros i l _ _ H; lia|]). reflexivity. }
  unfold dctd_main in HC, Y1, Y2, Y3. destruct (dctd_gens qp M Gm Gb _) as [x2 tb2]. cbn [fst snd] in T.
  pose proof (dctd_soft_R qp M x2 (d_Z q0) (d_gz q0)) as B3. destruct (dctd_soft qp M (x2, d_Z q0, d_gz q0)) as [[s3 Z2] gz]. destruct B3 as (S1 & S2 & S3 & S4 & S5 & S6 & S7 & S8).
  cbn [fst d_idxb d_idxs_rev d_Ct] in Y1, Y2, Y3. cbn [fst] in HC.
  destruct T as ((A1 & A2) & _ & _ & _ & _ & T1 & T2 & T3 & T4). split; [|split; [exact (slot_all nh nux (q_rqz qp) (t_gz t) T3)|exact T4]].
  exists (x_m s3). destruct HC as (C & _ & _ & CM & _). split; [|cbn [setm d_d d_mask d_m d_Z] in *].
  - intros i j V. specialize (C i j V). cbv zeta in C |- *. cbn [setm d_d d_mask d_m d_idxs_rev d_idxb d_Ct] in *. pose proof (posl_lt qp M i j V) as Pl.
    rewrite E1, E2, E3, E5, E6, Y1, Y2, Y3. rewrite !A1, !A2 by lia. rewrite <- !(proj2 S1), <- !(proj2 S2) by lia. exact C.
  - rewrite E4, E5, E6. split; [exact (slot_all oc2 oc (q_d qp) (t_d t) T1)|]. split; [exact (slot_all oc2 oc (q_mask qp) (t_mask t) T2)|]. split; [exact CM|]. exact (slot_all 0 (fun _ => 0%nat) (q_Z qp) (y_Z y) Y4).
Qed.
End Sim.
(** N = 0 *)
Lemma con_one qp Gm Gb y0 t0 q : stage_wf (nux qp 0) (dnb (q_dim qp) 0) (dng (q_dim qp) 0) (dns (q_dim qp) 0) (q_idxb qp 0%nat) (q_idxs_rev qp 0%nat) ->
  let y := dct_one qp y0 in let t := d_one true qp t0 in
  d_idxb q = y_idxb y -> d_idxs_rev q = y_idxs y -> d_Ct q = y_Ct y -> d_Z q = y_Z y -> d_d q = t_d t -> d_mask q = t_mask t ->
  (exists md, CQ qp 0 Gm Gb (setm q md)) /\ SCall qp 0 (n_hard qp 0) (nux qp) (q_rqz qp) (t_gz t) (t_gz t) /\ (forall p, (p < n_hard qp 0)%nat -> t_gz t p = t_gz t0 p).
Proof.
  intros W y t E1 E2 E3 E4 E5 E6.
  set (q0 := mkdqp (d_nv q) (d_ne q) (d_nb q) (d_ng q) (d_ns q) (d_H q) (d_A q) (y_Ct y0) (t_gz t0) (d_b q) (t_d t0) (t_mask t0) (fun _ => 0) (y_Z y0) (y_idxb y0) (y_idxs y0)).
  destruct (dctd_one_R qp Gm Gb q0 W) as (HC & (S1 & S2) & _). split; [|split].
  - exists (d_m (dctd_one qp q0)). unfold CQ in *. cbn [setm d_d d_mask d_m d_idxs_rev d_idxb d_Ct d_Z]. rewrite E1, E2, E3, E4, E5, E6. exact HC.
  - split; [exact S1|reflexivity].
  - exact S2.
Qed.
(** the constant terms may be appended to Gamma as a last row: the constraints do not see it *)
Lemma CQ_virt qp M Gm Gb q : CQ qp M Gm Gb q -> CQ qp M (virtG qp Gm Gb) Gb q.
Proof.
  intros (C & R). split; [|exact R]. intros i j V. specialize (C i j V). cbv zeta in C |- *. destruct C as (A1 & A2 & A3 & A4 & A5 & A6). repeat (split; [assumption|]). intros B k Hk. rewrite (A6 B k Hk). destruct (Nat.ltb_spec k (lows qp M i j)); [reflexivity|].
  destruct V as (V1 & V2). assert (I : i = 0%nat \/ (1 <= i)%nat) by lia. unfold colv, lows in *. destruct I as [->|I].
  - destruct (Nat.ltb_spec j (dnb (q_dim qp) 0)); [|reflexivity]. unfold isbox in B. destruct (Nat.ltb_spec j (dnb (q_dim qp) 0)); [|lia]. discriminate.
  - assert (X : (uoff qp M (i - 1) <= k)%nat -> (k - uoff qp M (i - 1) =? nuf qp (i - 1) + dnx (q_dim qp) 0)%nat = false).
    { intros Hu. apply Nat.eqb_neq. pose proof (nh_pred qp M i ltac:(lia)) as En. unfold nuf. replace (S (i - 1)) with i by lia. lia. }
    unfold virtG. destruct (Nat.ltb_spec j (dnb (q_dim qp) i)); [rewrite X by lia; reflexivity|]. destruct (Nat.eqb_spec i 0); [reflexivity|]. destruct (Nat.ltb_spec k (uoff qp M (i - 1))); [reflexivity|].
    apply rsum_ext. intros l _. rewrite X by lia. reflexivity.
Qed.
