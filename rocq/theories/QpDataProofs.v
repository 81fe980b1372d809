(** QpDataProofs.v *)
From Coq Require Import ZArith Bool Arith List Reals Lia Lra.
From Verif Require Import Base ArithF Blas RSum OcpModel QpDataModel QpDataSpec.
Import ListNotations.

Section P.
Context {F : Type} {AF : Arith F}.
Notation vec := (nat -> F).
Notation mat := (nat -> nat -> F).

Lemma mblk_in (B : mat) bi bj m n g i j : i < m -> j < n -> mblk B bi bj m n g (bi + i) (bj + j) = g i j.
Proof.
  intros. unfold mblk. repeat (match goal with |- context [Nat.leb ?a ?b] => destruct (Nat.leb_spec a b); [|lia] | |- context [Nat.ltb ?a ?b] => destruct (Nat.ltb_spec a b); [|lia] end).
  cbn [andb]. f_equal; lia.
Qed.
Lemma mblk_in' (B : mat) bi bj m n g r c : bi <= r -> r < bi + m -> bj <= c -> c < bj + n -> mblk B bi bj m n g r c = g (r - bi) (c - bj).
Proof.
  intros. unfold mblk. repeat (match goal with |- context [Nat.leb ?a ?b] => destruct (Nat.leb_spec a b); [|lia] | |- context [Nat.ltb ?a ?b] => destruct (Nat.ltb_spec a b); [|lia] end).
  reflexivity.
Qed.
Lemma mblk_out (B : mat) bi bj m n g r c : r < bi \/ bi + m <= r \/ c < bj \/ bj + n <= c -> mblk B bi bj m n g r c = B r c.
Proof.
  intros. unfold mblk.
  destruct (Nat.leb_spec bi r); destruct (Nat.ltb_spec r (bi+m)); destruct (Nat.leb_spec bj c); destruct (Nat.ltb_spec c (bj+n)); cbn [andb]; try reflexivity; lia.
Qed.
Lemma divmod_bound p n m : p < n * m -> p mod n < n /\ p / n < m /\ p = p mod n + p / n * n.
Proof.
  intros H. assert (n <> 0) by (intros ->; cbn in H; lia).
  split; [apply Nat.mod_upper_bound; assumption|]. split; [apply Nat.div_lt_upper_bound; lia|].
  rewrite (Nat.div_mod p n) at 1 by assumption. lia.
Qed.
Lemma CVT_in m n (A : mat) ai aj B ldb p : p < ldb * n -> ldb = m -> CVT_STRMAT2MAT m n A ai aj B ldb p = A (ai + p mod ldb) (aj + p / ldb).
Proof.
  intros H ->. destruct (divmod_bound _ _ _ H) as (H1 & H2 & H3). unfold CVT_STRMAT2MAT.
  destruct (Nat.ltb_spec (p mod m) m); [|lia]. destruct (Nat.ltb_spec (p / m) n); [|lia]. reflexivity.
Qed.
Lemma CVTT_in m n (A : mat) ai aj B ldb p : p < ldb * m -> ldb = n -> CVT_TRAN_STRMAT2MAT m n A ai aj B ldb p = A (ai + p / ldb) (aj + p mod ldb).
Proof.
  intros H ->. destruct (divmod_bound _ _ _ H) as (H1 & H2 & H3). unfold CVT_TRAN_STRMAT2MAT.
  destruct (Nat.ltb_spec (p / n) m); [|lia]. destruct (Nat.ltb_spec (p mod n) n); [|lia]. reflexivity.
Qed.
Lemma CVT_out m n (A : mat) ai aj B ldb p : ldb * n <= p -> ldb = m -> CVT_STRMAT2MAT m n A ai aj B ldb p = B p.
Proof.
  intros H ->. unfold CVT_STRMAT2MAT.
  destruct (Nat.ltb_spec (p mod m) m); destruct (Nat.ltb_spec (p / m) n); cbn [andb]; try reflexivity.
  exfalso. assert (m <> 0) by lia. pose proof (Nat.div_mod p m H2). nia.
Qed.
Lemma CVTT_out m n (A : mat) ai aj B ldb p : ldb * m <= p -> ldb = n -> CVT_TRAN_STRMAT2MAT m n A ai aj B ldb p = B p.
Proof.
  intros H ->. unfold CVT_TRAN_STRMAT2MAT.
  destruct (Nat.ltb_spec (p / n) m); destruct (Nat.ltb_spec (p mod n) n); cbn [andb]; try reflexivity.
  exfalso. assert (n <> 0) by lia. pose proof (Nat.div_mod p n H2). nia.
Qed.
Lemma neg_loop_in n (y : vec) k : k < n -> neg_loop n y k = fopp (y k).
Proof.
  unfold neg_loop. intros Hk.
  enough (forall m, m <= n -> loop m (fun i y => upd y i (fopp (y i))) y k = if Nat.ltb k m then fopp (y k) else y k) as E.
  { rewrite E by lia. destruct (Nat.ltb_spec k n); [reflexivity|lia]. }
  induction m as [|m IH]; intros Hm; cbn [loop]; [reflexivity|].
  destruct (Nat.eq_dec k m) as [->|Hne].
  - rewrite upd_same, IH by lia. destruct (Nat.ltb_spec m m); [lia|]. destruct (Nat.ltb_spec m (S m)); [reflexivity|lia].
  - rewrite upd_other, IH by lia. destruct (Nat.ltb_spec k m); destruct (Nat.ltb_spec k (S m)); try reflexivity; lia.
Qed.
Lemma neg_loop_out n (y : vec) k : n <= k -> neg_loop n y k = y k.
Proof.
  unfold neg_loop. intros Hk. revert Hk. induction n as [|n IH]; intros Hk; cbn [loop]; [reflexivity|].
  rewrite upd_other by lia. apply IH. lia.
Qed.

Variable D : xdim.
Ltac unf := unfold set_r, get_r, flen, w_BAbt, w_RSQ, w_DCt, w_b, w_rqz, w_d, w_mask, w_m, w_Z, PACK_VEC, VECSC, UNPACK_VEC, PACK_MAT, PACK_TRAN_MAT in *;
  cbn [p_BAbt p_RSQ p_DCt p_b p_rqz p_d p_mask p_m p_Z] in *.

Lemma get_set_same f s v p out k : k < flen D f s ->
  get_r D f s (set_r D f s v p) out k = if is_upper f then fopp (fmul (fopp f1) (v k)) else v k.
Proof.
  intros Hk.
  destruct f; unf; unfold xnb in *; cbn [is_upper]; rewrite ?upd_same; rewrite ?neg_loop_in by lia; rewrite ?CVT_in by lia; rewrite ?CVTT_in by lia;
  try (pose proof (divmod_bound _ _ _ Hk) as (Hm & Hd & He); rewrite mblk_in by lia; f_equal; lia);
  unfold xnb in *;
  repeat (rewrite vset_in' by lia; rewrite ?Nat.sub_0_r; try (replace (_ + k - _) with k by lia));
  try reflexivity; try (f_equal; f_equal; try f_equal; lia).
Qed.
Lemma get_len f s p out k : flen D f s <= k -> get_r D f s p out k = out k.
Proof.
  intros Hk. unfold xnb in *.
  destruct f; unf; unfold xnb in *; rewrite ?neg_loop_out by lia; rewrite ?CVT_out by lia; rewrite ?CVTT_out by lia; rewrite ?vset_out by lia; reflexivity.
Qed.
Definition sharesb (f g : rfield) : bool :=
  match f, g with
  | FA,FA|FB,FB|Fb,Fb|FQ,FQ|FS,FS|FR,FR|Fq,Fq|Fr,Fr|FC,FC|FD,FD|Flb,Flb|Flbu,Flbu|Flbx,Flbx|Fub,Fub|Fubu,Fubu|Fubx,Fubx|Flg,Flg|Fug,Fug|Flls,Flls|Flus,Flus
  | Flb_mask,Flb_mask|Flbu_mask,Flbu_mask|Flbx_mask,Flbx_mask|Fub_mask,Fub_mask|Fubu_mask,Fubu_mask|Fubx_mask,Fubx_mask|Flg_mask,Flg_mask|Fug_mask,Fug_mask|Flls_mask,Flls_mask|Flus_mask,Flus_mask
  | FZl,FZl|FZu,FZu|Fzl,Fzl|Fzu,Fzu|Fm_lb,Fm_lb|Fm_lbu,Fm_lbu|Fm_lbx,Fm_lbx|Fm_ub,Fm_ub|Fm_ubu,Fm_ubu|Fm_ubx,Fm_ubx|Fm_lg,Fm_lg|Fm_ug,Fm_ug|Fm_lls,Fm_lls|Fm_lus,Fm_lus
  | Flb,Flbu|Flb,Flbx|Flbu,Flb|Flbx,Flb|Fub,Fubu|Fub,Fubx|Fubu,Fub|Fubx,Fub
  | Flb_mask,Flbu_mask|Flb_mask,Flbx_mask|Flbu_mask,Flb_mask|Flbx_mask,Flb_mask|Fub_mask,Fubu_mask|Fub_mask,Fubx_mask|Fubu_mask,Fub_mask|Fubx_mask,Fub_mask
  | Fm_lb,Fm_lbu|Fm_lb,Fm_lbx|Fm_lbu,Fm_lb|Fm_lbx,Fm_lb|Fm_ub,Fm_ubu|Fm_ub,Fm_ubx|Fm_ubu,Fm_ub|Fm_ubx,Fm_ub => true
  | _, _ => false
  end.
Lemma sharesb_true f g : sharesb f g = true -> shares f g.
Proof.
  unfold shares. destruct f; destruct g; cbn [sharesb]; intros H; try discriminate H; try (left; reflexivity);
  first [right; left; eexists; eexists; split; [reflexivity|]; (left; reflexivity) || (right; reflexivity)
        |right; right; eexists; eexists; split; [reflexivity|]; (left; reflexivity) || (right; reflexivity)].
Qed.
Lemma shares_refl f : shares f f. Proof. left. reflexivity. Qed.
Lemma sharesb_false f g : ~ shares f g -> sharesb f g = false.
Proof. intros H. destruct (sharesb f g) eqn:E; [|reflexivity]. exfalso. apply H, sharesb_true, E. Qed.

Lemma vset0_in (x : vec) n (g : nat -> F) k : k < n -> vset x 0 n g k = g k.
Proof. intros. rewrite vset_in' by lia. f_equal. lia. Qed.
Lemma vset_sh (x y : vec) o n (g : nat -> F) k : x k = y k -> vset x o n g k = vset y o n g k.
Proof. intros. unfold vset. destruct (_ && _); [reflexivity|assumption]. Qed.
(** two states that agree on the stage's arrays give the same reading *)
Lemma get_ext f s (p p' : qpd F) out k :
  (forall r c, p_BAbt p s r c = p_BAbt p' s r c) -> (forall r c, p_RSQ p s r c = p_RSQ p' s r c) -> (forall r c, p_DCt p s r c = p_DCt p' s r c) ->
  (forall r, p_b p s r = p_b p' s r) -> (forall r, p_rqz p s r = p_rqz p' s r) -> (forall r, p_d p s r = p_d p' s r) ->
  (forall r, p_mask p s r = p_mask p' s r) -> (forall r, p_m p s r = p_m p' s r) -> (forall r, p_Z p s r = p_Z p' s r) ->
  get_r D f s p out k = get_r D f s p' out k.
Proof.
  intros. destruct (Nat.lt_ge_cases k (flen D f s)) as [Hk|Hk]; [|rewrite !get_len by assumption; reflexivity].
  destruct f; unf; unfold xnb in *; rewrite ?neg_loop_in by lia; rewrite ?CVT_in by lia; rewrite ?CVTT_in by lia; rewrite ?vset_in' by lia; auto; f_equal; auto.
Qed.
Lemma set_other_stage f s v p s' : s <> s' ->
  p_BAbt (set_r D f s v p) s' = p_BAbt p s' /\ p_RSQ (set_r D f s v p) s' = p_RSQ p s' /\ p_DCt (set_r D f s v p) s' = p_DCt p s' /\
  p_b (set_r D f s v p) s' = p_b p s' /\ p_rqz (set_r D f s v p) s' = p_rqz p s' /\ p_d (set_r D f s v p) s' = p_d p s' /\
  p_mask (set_r D f s v p) s' = p_mask p s' /\ p_m (set_r D f s v p) s' = p_m p s' /\ p_Z (set_r D f s v p) s' = p_Z p s'.
Proof.
  intros H. destruct f; unf; rewrite ?upd_other by congruence; repeat split; reflexivity.
Qed.
Lemma get_set_frame f s v p g s' out k : (s <> s' \/ sharesb f g = false) ->
  get_r D g s' (set_r D f s v p) out k = get_r D g s' p out k.
Proof.
  intros H. destruct (Nat.eq_dec s s') as [<-|Hs].
  2:{ destruct (set_other_stage f s v p s' Hs) as (? & ? & ? & ? & ? & ? & ? & ? & ?).
      apply get_ext; intros; congruence. }
  destruct H as [H|H]; [congruence|].
  destruct (Nat.lt_ge_cases k (flen D g s)) as [Hk|Hk]; [|rewrite !get_len by assumption; reflexivity].
  destruct f; destruct g; try discriminate H; try reflexivity; unf; rewrite ?upd_same; unfold xnb in *;
  rewrite ?neg_loop_in by lia; rewrite ?CVT_in by lia; rewrite ?CVTT_in by lia;
  try (pose proof (divmod_bound _ _ _ Hk) as (Hm & Hd & He); rewrite mblk_out by lia; reflexivity);
  rewrite ?(vset0_in out) by lia; rewrite ?vset_out by lia;
  try reflexivity.
Qed.
End P.
