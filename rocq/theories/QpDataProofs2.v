(** QpDataProofs2.v -- loops over stages, histories, copy, set_all, index maps. *)
From Coq Require Import ZArith Bool Arith List Reals Lia Lra.
From Verif Require Import Base ArithF Blas RSum OcpModel QpDataModel QpDataSpec QpDataProofs.
Import ListNotations.

(** effect of a loop over the stages on one array *)
Lemma loop_stage {S A : Type} (P : S -> nat -> A) (h : nat -> A -> A) (g : nat -> S -> S) n (p : S) s :
  (forall ii p, P (g ii p) = upd (P p) ii (h ii (P p ii))) ->
  P (loop n g p) s = if Nat.ltb s n then h s (P p s) else P p s.
Proof.
  intros H. induction n as [|n IH]; cbn [loop]; [reflexivity|].
  rewrite H. destruct (Nat.eq_dec s n) as [->|Hne].
  - rewrite upd_same, IH. destruct (Nat.ltb_spec n n); [lia|]. destruct (Nat.ltb_spec n (Datatypes.S n)); [reflexivity|lia].
  - rewrite upd_other, IH by assumption. destruct (Nat.ltb_spec s n); destruct (Nat.ltb_spec s (Datatypes.S n)); try reflexivity; lia.
Qed.
Lemma loop_same {S A : Type} (P : S -> A) (g : nat -> S -> S) n (p : S) :
  (forall ii p, P (g ii p) = P p) -> P (loop n g p) = P p.
Proof. intros H. induction n as [|n IH]; cbn [loop]; [reflexivity|]. rewrite H. exact IH. Qed.

Section P.
Context {F : Type} {AF : Arith F}.
Notation vec := (nat -> F).
Notation mat := (nat -> nat -> F).
Variable D : xdim.

(** everything at once: the arrays after a stage loop *)
Tactic Notation "st" constr(P) constr(h) := match goal with |- context [P (loop ?n ?g ?p) ?s] => rewrite (loop_stage P h g n p s) by (intros; reflexivity) end.

Lemma mall_m (e : F) (p : qpd F) s : s <= xN D -> p_m (set_m_all D e p) s = VECSE (xnct D s) e (p_m p s) 0.
Proof.
  intros H. unfold set_m_all. st (@p_m F) (fun ii (x : vec) => VECSE (xnct D ii) e x 0).
  destruct (Nat.ltb_spec s (xN D + 1)); [reflexivity|lia].
Qed.
Definition same_but_m (p p' : qpd F) : Prop :=
  p_BAbt p = p_BAbt p' /\ p_RSQ p = p_RSQ p' /\ p_DCt p = p_DCt p' /\ p_b p = p_b p' /\ p_rqz p = p_rqz p' /\ p_d p = p_d p' /\ p_mask p = p_mask p' /\ p_Z p = p_Z p'
  /\ p_idxb p = p_idxb p' /\ p_idxs_rev p = p_idxs_rev p' /\ p_idxe p = p_idxe p' /\ p_diag p = p_diag p'.
Lemma mall_rest (e : F) (p : qpd F) : same_but_m (set_m_all D e p) p.
Proof. unfold set_m_all, same_but_m. repeat split; (rewrite loop_same by (intros; reflexivity); reflexivity). Qed.

(** set_rhs_zero *)
Lemma rhs_zero_mats (p : qpd F) : p_BAbt (set_rhs_zero D p) = p_BAbt p /\ p_RSQ (set_rhs_zero D p) = p_RSQ p /\ p_DCt (set_rhs_zero D p) = p_DCt p
  /\ p_mask (set_rhs_zero D p) = p_mask p /\ p_Z (set_rhs_zero D p) = p_Z p /\ p_idxb (set_rhs_zero D p) = p_idxb p
  /\ p_idxs_rev (set_rhs_zero D p) = p_idxs_rev p /\ p_idxe (set_rhs_zero D p) = p_idxe p /\ p_diag (set_rhs_zero D p) = p_diag p.
Proof. unfold set_rhs_zero. repeat split; (rewrite loop_same by (intros; reflexivity); rewrite loop_same by (intros; reflexivity); reflexivity). Qed.
Lemma rhs_zero_b (p : qpd F) s : s < xN D -> p_b (set_rhs_zero D p) s = VECSE (xnx D (s+1)) f0 (p_b p s) 0.
Proof.
  intros H. unfold set_rhs_zero. rewrite (loop_same (@p_b F)) by (intros; reflexivity).
  st (@p_b F) (fun ii (x : vec) => VECSE (xnx D (ii+1)) f0 x 0). destruct (Nat.ltb_spec s (xN D)); [reflexivity|lia].
Qed.
Lemma rhs_zero_vecs (p : qpd F) s : s <= xN D ->
  p_rqz (set_rhs_zero D p) s = VECSE (xnu D s + xnx D s + 2 * xns D s) f0 (p_rqz p s) 0
  /\ p_d (set_rhs_zero D p) s = VECSE (xnct D s) f0 (p_d p s) 0 /\ p_m (set_rhs_zero D p) s = VECSE (xnct D s) f0 (p_m p s) 0.
Proof.
  intros H. unfold set_rhs_zero. repeat split.
  - st (@p_rqz F) (fun ii (x : vec) => VECSE (xnu D ii + xnx D ii + 2 * xns D ii) f0 x 0).
    rewrite (loop_same (@p_rqz F)) by (intros; reflexivity). destruct (Nat.ltb_spec s (xN D + 1)); [reflexivity|lia].
  - st (@p_d F) (fun ii (x : vec) => VECSE (xnct D ii) f0 x 0).
    rewrite (loop_same (@p_d F)) by (intros; reflexivity). destruct (Nat.ltb_spec s (xN D + 1)); [reflexivity|lia].
  - st (@p_m F) (fun ii (x : vec) => VECSE (xnct D ii) f0 x 0).
    rewrite (loop_same (@p_m F)) by (intros; reflexivity). destruct (Nat.ltb_spec s (xN D + 1)); [reflexivity|lia].
Qed.

(** set_all_zero *)
Lemma all_zero_stageN (p : qpd F) s : s < xN D ->
  p_BAbt (set_all_zero D p) s = GESE (xnu D s + xnx D s + 1) (xnx D (s+1)) f0 (p_BAbt p s) 0 0
  /\ p_b (set_all_zero D p) s = VECSE (xnx D (s+1)) f0 (p_b p s) 0.
Proof.
  intros H. unfold set_all_zero. split.
  - rewrite (loop_same (@p_BAbt F)) by (intros; reflexivity).
    st (@p_BAbt F) (fun ii (x : mat) => GESE (xnu D ii + xnx D ii + 1) (xnx D (ii+1)) f0 x 0 0). destruct (Nat.ltb_spec s (xN D)); [reflexivity|lia].
  - rewrite (loop_same (@p_b F)) by (intros; reflexivity).
    st (@p_b F) (fun ii (x : vec) => VECSE (xnx D (ii+1)) f0 x 0). destruct (Nat.ltb_spec s (xN D)); [reflexivity|lia].
Qed.
Lemma all_zero_stage (p : qpd F) s : s <= xN D ->
  p_RSQ (set_all_zero D p) s = GESE (xnu D s + xnx D s + 1) (xnu D s + xnx D s) f0 (p_RSQ p s) 0 0
  /\ p_DCt (set_all_zero D p) s = GESE (xnu D s + xnx D s) (xng D s) f0 (p_DCt p s) 0 0
  /\ p_rqz (set_all_zero D p) s = VECSE (xnu D s + xnx D s + 2 * xns D s) f0 (p_rqz p s) 0
  /\ p_d (set_all_zero D p) s = VECSE (xnct D s) f0 (p_d p s) 0
  /\ p_mask (set_all_zero D p) s = VECSE (xnct D s) f1 (p_mask p s) 0
  /\ p_m (set_all_zero D p) s = VECSE (xnct D s) f0 (p_m p s) 0
  /\ p_Z (set_all_zero D p) s = VECSE (2 * xns D s) f0 (p_Z p s) 0
  /\ p_idxb (set_all_zero D p) s = loop (xnb D s) (fun jj x => upd x jj 0%Z) (p_idxb p s)
  /\ p_idxs_rev (set_all_zero D p) s = loop (xns D s) (fun jj x => upd x jj (-1)%Z) (p_idxs_rev p s)
  /\ p_idxe (set_all_zero D p) s = loop (xnbue D s + xnbxe D s + xnge D s) (fun jj x => upd x jj 0%Z) (p_idxe p s)
  /\ p_diag (set_all_zero D p) s = 0%Z.
Proof.
  intros H. assert (Hl : Nat.ltb s (xN D + 1) = true) by (apply Nat.ltb_lt; lia). unfold set_all_zero. repeat split.
  - st (@p_RSQ F) (fun ii (x : mat) => GESE (xnu D ii + xnx D ii + 1) (xnu D ii + xnx D ii) f0 x 0 0). rewrite Hl, (loop_same (@p_RSQ F)) by (intros; reflexivity). reflexivity.
  - st (@p_DCt F) (fun ii (x : mat) => GESE (xnu D ii + xnx D ii) (xng D ii) f0 x 0 0). rewrite Hl, (loop_same (@p_DCt F)) by (intros; reflexivity). reflexivity.
  - st (@p_rqz F) (fun ii (x : vec) => VECSE (xnu D ii + xnx D ii + 2 * xns D ii) f0 x 0). rewrite Hl, (loop_same (@p_rqz F)) by (intros; reflexivity). reflexivity.
  - st (@p_d F) (fun ii (x : vec) => VECSE (xnct D ii) f0 x 0). rewrite Hl, (loop_same (@p_d F)) by (intros; reflexivity). reflexivity.
  - st (@p_mask F) (fun ii (x : vec) => VECSE (xnct D ii) f1 x 0). rewrite Hl, (loop_same (@p_mask F)) by (intros; reflexivity). reflexivity.
  - st (@p_m F) (fun ii (x : vec) => VECSE (xnct D ii) f0 x 0). rewrite Hl, (loop_same (@p_m F)) by (intros; reflexivity). reflexivity.
  - st (@p_Z F) (fun ii (x : vec) => VECSE (2 * xns D ii) f0 x 0). rewrite Hl, (loop_same (@p_Z F)) by (intros; reflexivity). reflexivity.
  - st (@p_idxb F) (fun ii (x : nat -> Z) => loop (xnb D ii) (fun jj x => upd x jj 0%Z) x). rewrite Hl, (loop_same (@p_idxb F)) by (intros; reflexivity). reflexivity.
  - st (@p_idxs_rev F) (fun ii (x : nat -> Z) => loop (xns D ii) (fun jj x => upd x jj (-1)%Z) x). rewrite Hl, (loop_same (@p_idxs_rev F)) by (intros; reflexivity). reflexivity.
  - st (@p_idxe F) (fun ii (x : nat -> Z) => loop (xnbue D ii + xnbxe D ii + xnge D ii) (fun jj x => upd x jj 0%Z) x). rewrite Hl, (loop_same (@p_idxe F)) by (intros; reflexivity). reflexivity.
  - st (@p_diag F) (fun (ii : nat) (x : Z) => 0%Z). rewrite Hl. reflexivity.
Qed.

(** copy_all *)
Lemma copy_stageN (o p : qpd F) s : s < xN D ->
  p_BAbt (copy_all D o p) s = GECP (xnu D s + xnx D s + 1) (xnx D (s+1)) (p_BAbt o s) 0 0 (p_BAbt p s) 0 0
  /\ p_b (copy_all D o p) s = VECCP (xnx D (s+1)) (p_b o s) 0 (p_b p s) 0.
Proof.
  intros H. unfold copy_all. split.
  - rewrite (loop_same (@p_BAbt F)) by (intros; reflexivity).
    st (@p_BAbt F) (fun ii (x : mat) => GECP (xnu D ii + xnx D ii + 1) (xnx D (ii+1)) (p_BAbt o ii) 0 0 x 0 0). destruct (Nat.ltb_spec s (xN D)); [reflexivity|lia].
  - rewrite (loop_same (@p_b F)) by (intros; reflexivity).
    st (@p_b F) (fun ii (x : vec) => VECCP (xnx D (ii+1)) (p_b o ii) 0 x 0). destruct (Nat.ltb_spec s (xN D)); [reflexivity|lia].
Qed.
Lemma copy_stage (o p : qpd F) s : s <= xN D ->
  p_RSQ (copy_all D o p) s = GECP (xnu D s + xnx D s + 1) (xnu D s + xnx D s) (p_RSQ o s) 0 0 (p_RSQ p s) 0 0
  /\ p_DCt (copy_all D o p) s = GECP (xnu D s + xnx D s) (xng D s) (p_DCt o s) 0 0 (p_DCt p s) 0 0
  /\ p_rqz (copy_all D o p) s = VECCP (xnu D s + xnx D s + 2 * xns D s) (p_rqz o s) 0 (p_rqz p s) 0
  /\ p_d (copy_all D o p) s = VECCP (xnct D s) (p_d o s) 0 (p_d p s) 0
  /\ p_mask (copy_all D o p) s = VECCP (xnct D s) (p_mask o s) 0 (p_mask p s) 0
  /\ p_m (copy_all D o p) s = VECCP (xnct D s) (p_m o s) 0 (p_m p s) 0
  /\ p_Z (copy_all D o p) s = VECCP (2 * xns D s) (p_Z o s) 0 (p_Z p s) 0
  /\ p_idxb (copy_all D o p) s = loop (xnb D s) (fun jj x => upd x jj (p_idxb o s jj)) (p_idxb p s)
  /\ p_idxs_rev (copy_all D o p) s = loop (xnb D s + xng D s) (fun jj x => upd x jj (p_idxs_rev o s jj)) (p_idxs_rev p s)
  /\ p_idxe (copy_all D o p) s = loop (xnbue D s + xnbxe D s + xnge D s) (fun jj x => upd x jj (p_idxe o s jj)) (p_idxe p s)
  /\ p_diag (copy_all D o p) s = p_diag o s.
Proof.
  intros H. assert (Hl : Nat.ltb s (xN D + 1) = true) by (apply Nat.ltb_lt; lia). unfold copy_all. repeat split.
  - st (@p_RSQ F) (fun ii (x : mat) => GECP (xnu D ii + xnx D ii + 1) (xnu D ii + xnx D ii) (p_RSQ o ii) 0 0 x 0 0). rewrite Hl, (loop_same (@p_RSQ F)) by (intros; reflexivity). reflexivity.
  - st (@p_DCt F) (fun ii (x : mat) => GECP (xnu D ii + xnx D ii) (xng D ii) (p_DCt o ii) 0 0 x 0 0). rewrite Hl, (loop_same (@p_DCt F)) by (intros; reflexivity). reflexivity.
  - st (@p_rqz F) (fun ii (x : vec) => VECCP (xnu D ii + xnx D ii + 2 * xns D ii) (p_rqz o ii) 0 x 0). rewrite Hl, (loop_same (@p_rqz F)) by (intros; reflexivity). reflexivity.
  - st (@p_d F) (fun ii (x : vec) => VECCP (xnct D ii) (p_d o ii) 0 x 0). rewrite Hl, (loop_same (@p_d F)) by (intros; reflexivity). reflexivity.
  - st (@p_mask F) (fun ii (x : vec) => VECCP (xnct D ii) (p_mask o ii) 0 x 0). rewrite Hl, (loop_same (@p_mask F)) by (intros; reflexivity). reflexivity.
  - st (@p_m F) (fun ii (x : vec) => VECCP (xnct D ii) (p_m o ii) 0 x 0). rewrite Hl, (loop_same (@p_m F)) by (intros; reflexivity). reflexivity.
  - st (@p_Z F) (fun ii (x : vec) => VECCP (2 * xns D ii) (p_Z o ii) 0 x 0). rewrite Hl, (loop_same (@p_Z F)) by (intros; reflexivity). reflexivity.
  - st (@p_idxb F) (fun ii (x : nat -> Z) => loop (xnb D ii) (fun jj x => upd x jj (p_idxb o ii jj)) x). rewrite Hl, (loop_same (@p_idxb F)) by (intros; reflexivity). reflexivity.
  - st (@p_idxs_rev F) (fun ii (x : nat -> Z) => loop (xnb D ii + xng D ii) (fun jj x => upd x jj (p_idxs_rev o ii jj)) x). rewrite Hl, (loop_same (@p_idxs_rev F)) by (intros; reflexivity). reflexivity.
  - st (@p_idxe F) (fun ii (x : nat -> Z) => loop (xnbue D ii + xnbxe D ii + xnge D ii) (fun jj x => upd x jj (p_idxe o ii jj)) x). rewrite Hl, (loop_same (@p_idxe F)) by (intros; reflexivity). reflexivity.
  - st (@p_diag F) (fun (ii : nat) (x : Z) => p_diag o ii). rewrite Hl. reflexivity.
Qed.

(** loop_upd_vset for offset-free index writes *)
Lemma loop_upd_at {A} n (g : nat -> A) (x : nat -> A) k : loop n (fun jj x => upd x jj (g jj)) x k = if Nat.ltb k n then g k else x k.
Proof.
  pose proof (loop_upd_vset x 0 n g k) as E. cbn [Nat.add] in E. rewrite E. unfold vset. destruct (Nat.leb_spec 0 k); [|lia]. cbn [andb Nat.add].
  destruct (Nat.ltb k n); [|reflexivity]. f_equal. lia.
Qed.

(** a reading only looks at the field's own entries: two states agreeing on the entries in range give the same reading *)
Lemma get_range f s (p p' : qpd F) out k :
  (forall r c, (f = FA \/ f = FB) -> r < xnu D s + xnx D s + 1 -> c < xnx D (s+1) -> p_BAbt p s r c = p_BAbt p' s r c) ->
  (forall r c, r < xnu D s + xnx D s + 1 -> c < xnu D s + xnx D s -> p_RSQ p s r c = p_RSQ p' s r c) ->
  (forall r c, r < xnu D s + xnx D s -> c < xng D s -> p_DCt p s r c = p_DCt p' s r c) ->
  (forall r, f = Fb -> r < xnx D (s+1) -> p_b p s r = p_b p' s r) -> (forall r, r < xnu D s + xnx D s + 2 * xns D s -> p_rqz p s r = p_rqz p' s r) ->
  (forall r, r < xnct D s -> p_d p s r = p_d p' s r) ->
  (forall r, r < xnct D s -> p_mask p s r = p_mask p' s r) -> (forall r, r < xnct D s -> p_m p s r = p_m p' s r) ->
  (forall r, r < 2 * xns D s -> p_Z p s r = p_Z p' s r) ->
  get_r D f s p out k = get_r D f s p' out k.
Proof.
  intros HB HR HD Hb Hq Hd Hma Hm HZ. destruct (Nat.lt_ge_cases k (flen D f s)) as [Hk|Hk]; [|rewrite !get_len by assumption; reflexivity].
  unfold xnct in *.
  destruct f; unfold get_r, flen in *; unfold UNPACK_VEC in *; unfold xnb in *;
  rewrite ?neg_loop_in by lia; rewrite ?CVT_in by lia; rewrite ?CVTT_in by lia;
  rewrite ?(vset0_in out) by lia; try (match goal with |- fopp _ = fopp _ => apply (f_equal fopp) end);
  try (pose proof (divmod_bound _ _ _ Hk) as (Hmo & Hdi & He));
  first [apply HB|apply HR|apply HD|apply Hb|apply Hq|apply Hd|apply Hma|apply Hm|apply HZ]; try lia; auto.
Qed.

Lemma do_op_leaves o f s p out k : legal D o -> leaves f s o -> get_r D f s (do_op D o p) out k = get_r D f s p out k.
Proof.
  intros Hlg Hl. destruct o as [g s' v|g s' v|g s' v|s' j e|s' j e|s' v|e| | ]; cbn [leaves do_op legal] in *.
  - apply get_set_frame. destruct Hl as [H|H]; [left; exact H|right; apply sharesb_false; exact H].
  - destruct g; reflexivity.
  - destruct g; reflexivity.
  - unfold set_el_lbx, w_d. destruct (Nat.eq_dec s' s) as [->|Hs].
    + destruct Hl as [Hl|Hl]; [congruence|]. apply sharesb_false in Hl.
      destruct (Nat.lt_ge_cases k (flen D f s)) as [Hk|Hk]; [|rewrite !get_len by assumption; reflexivity].
      destruct f; try discriminate Hl; try reflexivity; unfold get_r, flen, UNPACK_VEC in *; cbn [p_d] in *; rewrite upd_same; unfold xnb in *;
      rewrite ?neg_loop_in by lia; rewrite ?(vset0_in out) by lia; rewrite upd_other by lia; reflexivity.
    + apply get_ext; intros; cbn [p_BAbt p_RSQ p_DCt p_b p_rqz p_d p_mask p_m p_Z]; rewrite ?upd_other by congruence; reflexivity.
  - unfold set_el_ubx, w_d. destruct (Nat.eq_dec s' s) as [->|Hs].
    + destruct Hl as [Hl|Hl]; [congruence|]. apply sharesb_false in Hl.
      destruct (Nat.lt_ge_cases k (flen D f s)) as [Hk|Hk]; [|rewrite !get_len by assumption; reflexivity].
      destruct f; try discriminate Hl; try reflexivity; unfold get_r, flen, UNPACK_VEC in *; cbn [p_d] in *; rewrite upd_same; unfold xnb in *;
      rewrite ?neg_loop_in by lia; rewrite ?(vset0_in out) by lia; rewrite upd_other by lia; reflexivity.
    + apply get_ext; intros; cbn [p_BAbt p_RSQ p_DCt p_b p_rqz p_d p_mask p_m p_Z]; rewrite ?upd_other by congruence; reflexivity.
  - reflexivity.
  - destruct (mall_rest e p) as (E1 & E2 & E3 & E4 & E5 & E6 & E7 & E8 & _).
    destruct f; try discriminate Hl; unfold get_r; rewrite ?E1, ?E2, ?E3, ?E4, ?E5, ?E6, ?E7, ?E8; reflexivity.
  - destruct (rhs_zero_mats p) as (E1 & E2 & E3 & E4 & E5 & _).
    destruct Hl as [Hl|Hl].
    + decompose [or] Hl; subst f; unfold get_r; rewrite ?E1, ?E2, ?E3, ?E5; reflexivity.
    + destruct f; try discriminate Hl; unfold get_r; rewrite ?E4; reflexivity.
  - destruct Hl.
Qed.
Lemma run_leaves h f s p out k : Forall (legal D) h -> Forall (leaves f s) h -> get_r D f s (run D h p) out k = get_r D f s p out k.
Proof.
  revert p. induction h as [|o h IH]; intros p H1 H2; [reflexivity|]. inversion H1; subst. inversion H2; subst.
  cbn [run fold_left]. change (get_r D f s (run D h (do_op D o p)) out k = get_r D f s p out k).
  rewrite IH by assumption. apply do_op_leaves; assumption.
Qed.

(** masks *)
Definition mask_ok (P : F -> Prop) (p : qpd F) : Prop := forall i c, i <= xN D -> c < xnct D i -> P (p_mask p i c).
Definition mask_payload (P : F -> Prop) (o : op F) : Prop :=
  match o with OpR f s v => is_mask f = true -> forall k, k < flen D f s -> P (v k) | _ => True end.
Lemma create_mask : mask_ok (fun x => x = f1) (qp_create D).
Proof. intros i c Hi Hc. unfold qp_create; cbn [p_mask]; unfold VECSE. rewrite vset_in' by lia. reflexivity. Qed.
Lemma do_op_mask (P : F -> Prop) o p : P f1 -> mask_payload P o -> mask_ok P p -> mask_ok P (do_op D o p).
Proof.
  intros P1 Ho Hp i c Hi Hc. destruct o as [g s' v|g s' v|g s' v|s' j e|s' j e|s' v|e| | ]; cbn [do_op mask_payload] in *.
  - destruct (is_mask g) eqn:Eg.
    2:{ replace (p_mask (set_r D g s' v p)) with (p_mask p); [apply Hp; assumption|]. destruct g; try discriminate Eg; reflexivity. }
    specialize (Ho eq_refl).
    destruct g; try discriminate Eg; cbn [set_r w_mask p_mask]; unfold PACK_VEC; unfold flen in Ho; unfold xnb in *;
    (destruct (Nat.eq_dec i s') as [->|Hne]; [rewrite upd_same|rewrite upd_other by assumption; apply Hp; assumption]);
    unfold vset; match goal with |- context [if ?b then _ else _] => destruct b eqn:Eb end; try (apply Hp; assumption);
    apply andb_prop in Eb; destruct Eb as [E1 E2]; apply Nat.leb_le in E1; apply Nat.ltb_lt in E2; apply Ho; lia.
  - destruct g; apply Hp; assumption.
  - destruct g; apply Hp; assumption.
  - apply Hp; assumption.
  - apply Hp; assumption.
  - apply Hp; assumption.
  - destruct (mall_rest e p) as (_ & _ & _ & _ & _ & _ & E7 & _). rewrite E7. apply Hp; assumption.
  - destruct (rhs_zero_mats p) as (_ & _ & _ & E4 & _). rewrite E4. apply Hp; assumption.
  - destruct (all_zero_stage p i Hi) as (_ & _ & _ & _ & E & _). rewrite E. unfold VECSE. rewrite vset_in' by lia. exact P1.
Qed.
Lemma run_mask (P : F -> Prop) h p : P f1 -> Forall (mask_payload P) h -> mask_ok P p -> mask_ok P (run D h p).
Proof.
  intros P1. revert p. induction h as [|o h IH]; intros p H Hp; [exact Hp|]. inversion H; subst.
  cbn [run fold_left]. change (mask_ok P (run D h (do_op D o p))). apply IH; [assumption|]. apply do_op_mask; assumption.
Qed.
End P.
