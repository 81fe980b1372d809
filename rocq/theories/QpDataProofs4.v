(** QpDataProofs4.v -- readings after set_all, selection matrices, index maps, duplicated rows. *)
From Coq Require Import ZArith Bool Arith List Reals Lia Lra.
From Verif Require Import Base ArithF Blas RSum OcpModel QpDataModel QpDataSpec QpDataProofs QpDataProofs2 QpDataProofs3.
Import ListNotations.

Section P.
Context {F : Type} {AF : Arith F}.
Notation vec := (nat -> F).
Notation mat := (nat -> nat -> F).
Variable D : xdim.
Notation nx := (xnx D). Notation nu := (xnu D). Notation nb := (xnb D). Notation nbx := (xnbx D). Notation nbu := (xnbu D).
Notation ng := (xng D). Notation ns := (xns D).

(** fields that are arguments of set_all *)
Definition all_arg (f : rfield) : bool := negb (is_mask f) && negb (is_m f) && match f with Flb | Fub => false | _ => true end.
Definition in_stage (f : rfield) (s : nat) : Prop := match f with FA | FB | Fb => s < xN D | _ => s <= xN D end.
(** entry (r,c) of a row-major matrix argument sits at c + r*ncols; index of the column-major position k in that array *)
Definition rm_index (rm : bool) (f : rfield) (s k : nat) : nat :=
  if rm then match f with
    | FA => k / nx (s+1) + (k mod nx (s+1)) * nx s | FB => k / nx (s+1) + (k mod nx (s+1)) * nu s | FS => k / nu s + (k mod nu s) * nx s
    | FC => k / ng s + (k mod ng s) * nx s | FD => k / ng s + (k mod ng s) * nu s | _ => k end
  else k.
Lemma sall_get rm u ibx ibu idxs idxs_rev p f s out k : all_arg f = true -> in_stage f s -> k < flen D f s ->
  get_r D f s (set_all D rm u ibx ibu idxs idxs_rev p) out k = if is_upper f then fopp (fmul (fopp f1) (u f s k)) else u f s (rm_index rm f s k).
Proof.
  intros Ha Hs Hk. unfold in_stage in Hs.
  destruct f; try discriminate Ha; unfold get_r, flen, rm_index, UNPACK_VEC in *; unfold xnb in *; cbn [is_upper];
  rewrite ?neg_loop_in by lia; rewrite ?CVT_in by lia; rewrite ?CVTT_in by lia; rewrite ?(vset0_in out) by lia.
  - rewrite sall_BAbt by assumption. destruct (divmod_bound _ _ _ Hk) as (Hm & Hd & He). unfold PACK_TRAN_MAT at 1. rewrite mblk_out by lia.
    unfold pk at 1. destruct rm; [unfold PACK_MAT|unfold PACK_TRAN_MAT]; rewrite mblk_in by lia; f_equal; lia.
  - rewrite sall_BAbt by assumption. destruct (divmod_bound _ _ _ Hk) as (Hm & Hd & He). unfold PACK_TRAN_MAT at 1. rewrite mblk_out by lia.
    unfold pk at 1. destruct rm; [unfold PACK_MAT|unfold PACK_TRAN_MAT]; rewrite mblk_out by lia; unfold pk; [unfold PACK_MAT|unfold PACK_TRAN_MAT]; rewrite mblk_in by lia; f_equal; lia.
  - rewrite sall_b by assumption. unfold PACK_VEC. rewrite vset0_in by lia. destruct rm; reflexivity.
  - rewrite sall_RSQ by assumption. destruct (divmod_bound _ _ _ Hk) as (Hm & Hd & He).
    unfold PACK_TRAN_MAT at 1. rewrite mblk_out by lia. unfold PACK_TRAN_MAT at 1. rewrite mblk_out by lia. unfold PACK_MAT at 1. rewrite mblk_in by lia.
    destruct rm; f_equal; lia.
  - rewrite sall_RSQ by assumption. destruct (divmod_bound _ _ _ Hk) as (Hm & Hd & He).
    unfold PACK_TRAN_MAT at 1. rewrite mblk_out by lia. unfold PACK_TRAN_MAT at 1. rewrite mblk_out by lia. unfold PACK_MAT at 1. rewrite mblk_out by lia.
    unfold pk. destruct rm; [unfold PACK_MAT at 1|unfold PACK_TRAN_MAT]; rewrite mblk_in by lia; f_equal; lia.
  - rewrite sall_RSQ by assumption. destruct (divmod_bound _ _ _ Hk) as (Hm & Hd & He).
    unfold PACK_TRAN_MAT at 1. rewrite mblk_out by lia. unfold PACK_TRAN_MAT at 1. rewrite mblk_out by lia. unfold PACK_MAT at 1. rewrite mblk_out by lia.
    unfold pk. destruct rm; [unfold PACK_MAT at 1|unfold PACK_TRAN_MAT at 1]; rewrite mblk_out by lia; unfold PACK_MAT; rewrite mblk_in by lia; f_equal; lia.
  - rewrite sall_rqz by assumption. cbv zeta. unfold PACK_VEC.
    destruct (Nat.ltb_spec 0 (ns s)); rewrite ?vset_out by lia; rewrite ?vset_in by lia; destruct rm; reflexivity.
  - rewrite sall_rqz by assumption. cbv zeta. unfold PACK_VEC.
    destruct (Nat.ltb_spec 0 (ns s)); rewrite !vset_out by lia; rewrite vset0_in by lia; destruct rm; reflexivity.
  - rewrite sall_DCt by assumption. destruct (divmod_bound _ _ _ Hk) as (Hm & Hd & He). destruct (Nat.ltb_spec 0 (ng s)); [|lia].
    unfold pk at 1. destruct rm; [unfold PACK_MAT|unfold PACK_TRAN_MAT]; rewrite mblk_in by lia; f_equal; lia.
  - rewrite sall_DCt by assumption. destruct (divmod_bound _ _ _ Hk) as (Hm & Hd & He). destruct (Nat.ltb_spec 0 (ng s)); [|lia].
    unfold pk at 1. destruct rm; [unfold PACK_MAT|unfold PACK_TRAN_MAT]; rewrite mblk_out by lia; unfold pk; [unfold PACK_MAT|unfold PACK_TRAN_MAT]; rewrite mblk_in by lia; f_equal; lia.
  - rewrite sall_d by assumption. unfold hd1, hd2, hd3, PACK_VEC, VECSC, xnb in *. cbv zeta.
    destruct (Nat.ltb_spec 0 (nbu s)); [|lia]. destruct (Nat.ltb_spec 0 (nbx s + nbu s)); [|lia].
    destruct (Nat.ltb_spec 0 (nbx s)); destruct (Nat.ltb_spec 0 (ng s)); destruct (Nat.ltb_spec 0 (ns s));
    repeat rewrite vset_out by lia; rewrite ?vset0_in by lia; destruct rm; reflexivity.
  - rewrite sall_d by assumption. unfold hd1, hd2, hd3, PACK_VEC, VECSC, xnb in *. cbv zeta.
    destruct (Nat.ltb_spec 0 (nbx s)); [|lia]. destruct (Nat.ltb_spec 0 (nbx s + nbu s)); [|lia].
    destruct (Nat.ltb_spec 0 (nbu s)); destruct (Nat.ltb_spec 0 (ng s)); destruct (Nat.ltb_spec 0 (ns s));
    repeat rewrite vset_out by lia; rewrite vset_in by lia; destruct rm; reflexivity.
  - rewrite sall_d by assumption. unfold hd1, hd2, hd3, PACK_VEC, VECSC, xnb in *. cbv zeta.
    destruct (Nat.ltb_spec 0 (nbu s)); [|lia]. destruct (Nat.ltb_spec 0 (nbx s + nbu s)); [|lia].
    destruct (Nat.ltb_spec 0 (nbx s)); destruct (Nat.ltb_spec 0 (ng s)); destruct (Nat.ltb_spec 0 (ns s));
    repeat rewrite vset_out by lia; rewrite vset_in by lia; repeat rewrite vset_out by lia; rewrite vset_in by lia; destruct rm; reflexivity.
  - rewrite sall_d by assumption. unfold hd1, hd2, hd3, PACK_VEC, VECSC, xnb in *. cbv zeta.
    destruct (Nat.ltb_spec 0 (nbx s)); [|lia]. destruct (Nat.ltb_spec 0 (nbx s + nbu s)); [|lia].
    destruct (Nat.ltb_spec 0 (nbu s)); destruct (Nat.ltb_spec 0 (ng s)); destruct (Nat.ltb_spec 0 (ns s));
    replace (nbx s + nbu s + ng s + nbu s + k) with (nbx s + nbu s + ng s + (nbu s + k)) by lia;
    repeat rewrite vset_out by lia; rewrite vset_in by lia; repeat rewrite vset_out by lia;
    replace (nbx s + nbu s + ng s + (nbu s + k)) with (nbx s + nbu s + ng s + nbu s + k) by lia; rewrite vset_in by lia; destruct rm; reflexivity.
  - rewrite sall_d by assumption. unfold hd2, hd3, PACK_VEC, VECSC, xnb in *. cbv zeta.
    destruct (Nat.ltb_spec 0 (ng s)); [|lia]. destruct (Nat.ltb_spec 0 (ns s));
    repeat rewrite vset_out by lia; rewrite vset_in by lia; destruct rm; reflexivity.
  - rewrite sall_d by assumption. unfold hd2, hd3, PACK_VEC, VECSC, xnb in *. cbv zeta.
    destruct (Nat.ltb_spec 0 (ng s)); [|lia]. destruct (Nat.ltb_spec 0 (ns s));
    repeat rewrite vset_out by lia; rewrite vset_in by lia; rewrite vset_in by lia; destruct rm; reflexivity.
  - rewrite sall_d by assumption. unfold hd3, PACK_VEC, xnb in *. destruct (Nat.ltb_spec 0 (ns s)); [|lia].
    rewrite vset_out by lia; rewrite vset_in by lia; destruct rm; reflexivity.
  - rewrite sall_d by assumption. unfold hd3, PACK_VEC, xnb in *. destruct (Nat.ltb_spec 0 (ns s)); [|lia].
    rewrite vset_in by lia; destruct rm; reflexivity.
  - rewrite sall_Z by assumption. unfold PACK_VEC. destruct (Nat.ltb_spec 0 (ns s)); [|lia]. rewrite vset_out by lia. rewrite vset0_in by lia. destruct rm; reflexivity.
  - rewrite sall_Z by assumption. unfold PACK_VEC. destruct (Nat.ltb_spec 0 (ns s)); [|lia]. rewrite vset_in by lia. destruct rm; reflexivity.
  - rewrite sall_rqz by assumption. cbv zeta. unfold PACK_VEC. destruct (Nat.ltb_spec 0 (ns s)); [|lia]. rewrite vset_out by lia. rewrite vset_in by lia. destruct rm; reflexivity.
  - rewrite sall_rqz by assumption. cbv zeta. unfold PACK_VEC. destruct (Nat.ltb_spec 0 (ns s)); [|lia]. rewrite vset_in by lia. destruct rm; reflexivity.
Qed.
Lemma sall_m_zero rm u ibx ibu idxs idxs_rev p s c : s <= xN D -> c < xnct D s -> p_m (set_all D rm u ibx ibu idxs idxs_rev p) s c = f0.
Proof.
  intros Hs Hc. rewrite sall_m by assumption. unfold hm1, hm2, hm3, VECSE, xnct, xnb in *.
  destruct (Nat.ltb_spec 0 (nbx s + nbu s)); destruct (Nat.ltb_spec 0 (ng s)); destruct (Nat.ltb_spec 0 (ns s));
  unfold vset; repeat match goal with |- context [if ?b then _ else _] => destruct b eqn:? end; try reflexivity; exfalso;
  repeat match goal with H : _ && _ = false |- _ => apply andb_false_iff in H; destruct H | H : Nat.leb _ _ = false |- _ => apply Nat.leb_gt in H | H : Nat.ltb _ _ = false |- _ => apply Nat.ltb_ge in H end; lia.
Qed.

(** selection matrices *)
Lemma scan_inv n nz (w : nat -> (nat -> Z) -> nat -> Z) x :
  let r := loop n (fun jj '(jj0, x) => if andb (Z.eqb jj0 (-1)) (nz jj) then (Z.of_nat jj, w jj x) else (jj0, x)) ((-1)%Z, x) in
  (fst r = (-1)%Z /\ snd r = x /\ forall j, j < n -> nz j = false) \/
  (exists j0, j0 < n /\ nz j0 = true /\ (forall j, j < j0 -> nz j = false) /\ fst r = Z.of_nat j0 /\ snd r = w j0 x).
Proof.
  cbv zeta. induction n as [|n IH]; [left; cbn; repeat split; intros; lia|]. cbn [loop].
  destruct IH as [(E1 & E2 & E3)|(j0 & H1 & H2 & H3 & E1 & E2)].
  - destruct (loop n _ _) as [a b]. cbn [fst snd] in *. subst a b. cbn [Z.eqb].
    replace ((-1 =? -1)%Z) with true by reflexivity. cbn [andb]. destruct (nz n) eqn:En.
    + right. exists n. cbn [fst snd]. repeat split; auto; lia.
    + left. cbn [fst snd]. repeat split; auto. intros j Hj. destruct (Nat.eq_dec j n) as [->|]; [exact En|apply E3; lia].
  - destruct (loop n _ _) as [a b]. cbn [fst snd] in *. subst a b.
    destruct (Z.eqb_spec (Z.of_nat j0) (-1)); [lia|]. cbn [andb]. right. exists j0. cbn [fst snd]. repeat split; auto. 
Qed.
Lemma scan_some n nz w x j0 : j0 < n -> nz j0 = true -> (forall j, j < j0 -> nz j = false) -> scan_row n nz w x = w j0 x.
Proof.
  intros H1 H2 H3. unfold scan_row. destruct (scan_inv n nz w x) as [(_ & _ & E)|(j & A & B & C & _ & E)].
  - rewrite E in H2 by assumption. discriminate.
  - rewrite E. destruct (Nat.lt_trichotomy j j0) as [L|[->|L]]; [|reflexivity|].
    + rewrite H3 in B by assumption. discriminate.
    + rewrite C in H2 by assumption. discriminate.
Qed.
Lemma scan_none n nz w x : (forall j, j < n -> nz j = false) -> scan_row n nz w x = x.
Proof.
  intros H. unfold scan_row. destruct (scan_inv n nz w x) as [(_ & E & _)|(j & A & B & C & _ & E)]; [exact E|].
  rewrite H in B by assumption. discriminate.
Qed.
(** all the rows: [sel ii] = the selected column of row ii *)
Lemma scan_rows nr n (nz : nat -> nat -> bool) off (val : nat -> Z) (sel : nat -> option nat) x k :
  (forall ii jj, ii < nr -> jj < n -> (nz ii jj = true <-> sel ii = Some jj)) ->
  (forall ii jj, ii < nr -> sel ii = Some jj -> jj < n) ->
  loop nr (fun ii => scan_row n (nz ii) (fun jj x => upd x (off + ii) (val jj))) x k =
  if andb (Nat.leb off k) (Nat.ltb k (off + nr)) then match sel (k - off) with Some jj => val jj | None => x k end else x k.
Proof.
  intros Hn Hr. induction nr as [|nr IH]; cbn [loop].
  - destruct (Nat.leb_spec off k); destruct (Nat.ltb_spec k (off + 0)); try reflexivity. lia.
  - assert (IH' := IH (fun ii jj H => Hn ii jj (Nat.lt_lt_succ_r _ _ H)) (fun ii jj H => Hr ii jj (Nat.lt_lt_succ_r _ _ H))). clear IH.
    set (y := loop nr _ x) in *.
    destruct (sel nr) as [jj|] eqn:Es.
    + assert (Hj : jj < n) by (apply (Hr nr); [lia|exact Es]).
      rewrite (scan_some _ _ _ _ jj Hj).
      * destruct (Nat.eq_dec k (off + nr)) as [->|Hne].
        -- rewrite upd_same. destruct (Nat.leb_spec off (off + nr)); [|lia]. destruct (Nat.ltb_spec (off + nr) (off + S nr)); [|lia]. cbn [andb].
           replace (off + nr - off) with nr by lia. rewrite Es. reflexivity.
        -- rewrite upd_other, IH' by assumption. destruct (Nat.leb_spec off k); destruct (Nat.ltb_spec k (off + nr)); destruct (Nat.ltb_spec k (off + S nr)); cbn [andb]; try reflexivity; lia.
      * apply Hn; [lia|exact Hj|exact Es].
      * intros j Hj'. destruct (nz nr j) eqn:E; [|reflexivity]. apply Hn in E; [|lia|lia]. rewrite Es in E. injection E as ->. lia.
    + rewrite scan_none.
      * rewrite IH'. destruct (Nat.leb_spec off k); destruct (Nat.ltb_spec k (off + nr)); destruct (Nat.ltb_spec k (off + S nr)); cbn [andb]; try reflexivity; try lia.
        replace (k - off) with nr by lia. rewrite Es. reflexivity.
      * intros j Hj. destruct (nz nr j) eqn:E; [|reflexivity]. apply Hn in E; [|lia|lia]. rewrite Es in E. discriminate.
Qed.

(** inverse map written by idxs *)
Lemma idxs_loop n (v : nat -> Z) (x : nat -> Z) k :
  (forall a b, a < n -> b < n -> Z.to_nat (v a) = Z.to_nat (v b) -> a = b) ->
  (forall a, a < n -> Z.to_nat (v a) = k -> loop n (fun ii x => upd x (Z.to_nat (v ii)) (Z.of_nat ii)) x k = Z.of_nat a) /\
  ((forall a, a < n -> Z.to_nat (v a) <> k) -> loop n (fun ii x => upd x (Z.to_nat (v ii)) (Z.of_nat ii)) x k = x k).
Proof.
  intros Hinj. induction n as [|n IH]; cbn [loop]; [split; intros; [lia|reflexivity]|].
  assert (IH' := IH (fun a b Ha Hb => Hinj a b (Nat.lt_lt_succ_r _ _ Ha) (Nat.lt_lt_succ_r _ _ Hb))). clear IH. destruct IH' as [I1 I2].
  split.
  - intros a Ha Hv. destruct (Nat.eq_dec a n) as [->|Hne].
    + rewrite Hv. apply upd_same.
    + rewrite upd_other; [apply I1; [lia|exact Hv]|]. intros Hk. apply Hne. apply Hinj; [lia|lia|congruence].
  - intros H. rewrite upd_other by (intros E; apply (H n); [lia|congruence]). apply I2. intros a Ha. apply H. lia.
Qed.
Lemma get_idxs_loop n (r : nat -> Z) (out : nat -> Z) s :
  (forall a b, a < n -> b < n -> r a = r b -> r a <> (-1)%Z -> a = b) ->
  (forall a, a < n -> r a = (-1)%Z \/ (0 <= r a)%Z) ->
  forall a, a < n -> r a = Z.of_nat s ->
  loop n (fun ii y => let t := r ii in if Z.eqb t (-1) then y else upd y (Z.to_nat t) (Z.of_nat ii)) out s = Z.of_nat a.
Proof.
  intros Hinj Hr a Ha Hs.
  enough (forall m, m <= n -> loop m (fun ii y => let t := r ii in if Z.eqb t (-1) then y else upd y (Z.to_nat t) (Z.of_nat ii)) out s = if Nat.ltb a m then Z.of_nat a else out s) as E.
  { rewrite E by lia. destruct (Nat.ltb_spec a n); [reflexivity|lia]. }
  induction m as [|m IH]; intros Hm; cbn [loop]; [reflexivity|]. cbv zeta.
  destruct (Nat.eq_dec m a) as [->|Hne].
  - destruct (Z.eqb_spec (r a) (-1)); [lia|]. rewrite Hs, Nat2Z.id, upd_same. destruct (Nat.ltb_spec a (S a)); [reflexivity|lia].
  - destruct (Z.eqb_spec (r m) (-1)) as [E1|E1].
    + cbv zeta in IH. rewrite IH by lia. destruct (Nat.ltb_spec a m); destruct (Nat.ltb_spec a (S m)); try reflexivity; lia.
    + rewrite upd_other. { cbv zeta in IH. rewrite IH by lia. destruct (Nat.ltb_spec a m); destruct (Nat.ltb_spec a (S m)); try reflexivity; lia. }
      intros E. apply Hne. apply (Hinj m a); try lia. destruct (Hr m); lia.
Qed.

(** the last rows of BAbt and RSQrq duplicate b and [r;q] *)
Definition rows_ok (p : qpd F) : Prop :=
  (forall i j, i < xN D -> j < nx (i+1) -> p_BAbt p i (nu i + nx i) j = p_b p i j) /\
  (forall i j, i <= xN D -> j < nu i + nx i -> p_RSQ p i (nu i + nx i) j = p_rqz p i j).
Lemma rows_ext p p' : p_BAbt p = p_BAbt p' -> p_b p = p_b p' -> p_RSQ p = p_RSQ p' -> p_rqz p = p_rqz p' -> rows_ok p -> rows_ok p'.
Proof. intros E1 E2 E3 E4 [H1 H2]. split; intros; [rewrite <- E1, <- E2; apply H1|rewrite <- E3, <- E4; apply H2]; assumption. Qed.
Lemma rows_set_r f s v p : rows_ok p -> rows_ok (set_r D f s v p).
Proof.
  intros [H1 H2]. split; intros i j Hi Hj.
  - destruct (Nat.eq_dec i s) as [->|Hne].
    2:{ destruct (set_other_stage D f s v p i ltac:(congruence)) as (E1 & _ & _ & E4 & _). rewrite E1, E4. apply H1; assumption. }
    destruct f; try (apply (H1 s j Hi Hj)); cbn [set_r w_BAbt w_b p_BAbt p_b]; rewrite ?upd_same; unfold PACK_TRAN_MAT, PACK_VEC.
    + rewrite mblk_out by lia. apply H1; assumption.
    + rewrite mblk_out by lia. apply H1; assumption.
    + rewrite mblk_in' by lia. rewrite vset0_in by lia. f_equal. lia.
  - destruct (Nat.eq_dec i s) as [->|Hne].
    2:{ destruct (set_other_stage D f s v p i ltac:(congruence)) as (_ & E2 & _ & _ & E5 & _). rewrite E2, E5. apply H2; assumption. }
    destruct f; try (apply (H2 s j Hi Hj)); cbn [set_r w_RSQ w_rqz p_RSQ p_rqz]; rewrite ?upd_same; unfold PACK_TRAN_MAT, PACK_MAT, PACK_VEC.
    + rewrite mblk_out by lia. apply H2; assumption.
    + rewrite mblk_out by lia. apply H2; assumption.
    + rewrite mblk_out by lia. apply H2; assumption.
    + destruct (Nat.lt_ge_cases j (nu s)).
      * rewrite mblk_out, vset_out by lia. apply H2; assumption.
      * rewrite mblk_in', vset_in' by lia. f_equal. lia.
    + destruct (Nat.lt_ge_cases j (nu s)).
      * rewrite mblk_in', vset_in' by lia. f_equal. lia.
      * rewrite mblk_out, vset_out by lia. apply H2; assumption.
    + rewrite vset_out by lia. apply H2; assumption.
    + rewrite vset_out by lia. apply H2; assumption.
Qed.
Lemma rows_do_op o p : o <> OpRhsZero -> rows_ok p -> rows_ok (do_op D o p).
Proof.
  intros Ho Hp. destruct o as [g s' v|g s' v|g s' v|s' j e|s' j e|s' v|e| | ]; cbn [do_op].
  - apply rows_set_r; assumption.
  - destruct g; exact Hp.
  - destruct g; exact Hp.
  - exact Hp.
  - exact Hp.
  - exact Hp.
  - destruct (mall_rest D e p) as (E1 & E2 & E3 & E4 & E5 & _). apply (rows_ext p); auto.
  - congruence.
  - split; intros i j Hi Hj.
    + destruct (all_zero_stageN D p i Hi) as [-> ->]. unfold GESE, VECSE. rewrite mblk_in', vset_in' by lia. reflexivity.
    + destruct (all_zero_stage D p i Hi) as (-> & _ & -> & _). unfold GESE, VECSE. rewrite mblk_in', vset_in' by lia. reflexivity.
Qed.
Lemma rows_run h p : ~ In OpRhsZero h -> rows_ok p -> rows_ok (run D h p).
Proof.
  revert p. induction h as [|o h IH]; intros p Hh Hp; [exact Hp|]. cbn [run fold_left]. change (rows_ok (run D h (do_op D o p))).
  apply IH; [intros H; apply Hh; right; exact H|]. apply rows_do_op; [|exact Hp]. intros ->. apply Hh. left. reflexivity.
Qed.
End P.
