(** SolProofs.v -- proofs about the solution object. *)
From Coq Require Import ZArith Bool Arith List String Lia.
From Verif Require Import Base ArithF Blas AuxModel AuxProofs NamesAux QpDataModel QpDataSpec QpDataProofs SolModel.
Import ListNotations.

(** * specification *)
(** Number of entries of each field. *)
Definition slen (D : xdim) (f : sfield) (s : nat) : nat :=
  match f with
  | Su => xnu D s | Sx => xnx D s | Ssl | Ssu => xns D s | Spi => xnx D (s+1)
  | Slam_lb | Slam_ub => xnbu D s + xnbx D s | Slam_lbu | Slam_ubu => xnbu D s | Slam_lbx | Slam_ubx => xnbx D s
  | Slam_lg | Slam_ug => xng D s | Slam_ls | Slam_us => xns D s end.
(** The only fields that share storage: lam_lb with its parts lam_lbu, lam_lbx, and lam_ub with lam_ubu, lam_ubx. *)
Definition sshares (f g : sfield) : bool :=
  match f, g with
  | Su, Su | Sx, Sx | Ssl, Ssl | Ssu, Ssu | Spi, Spi | Slam_lg, Slam_lg | Slam_ug, Slam_ug | Slam_ls, Slam_ls | Slam_us, Slam_us
  | Slam_lb, (Slam_lb | Slam_lbu | Slam_lbx) | (Slam_lbu | Slam_lbx), Slam_lb | Slam_lbu, Slam_lbu | Slam_lbx, Slam_lbx
  | Slam_ub, (Slam_ub | Slam_ubu | Slam_ubx) | (Slam_ubu | Slam_ubx), Slam_ub | Slam_ubu, Slam_ubu | Slam_ubx, Slam_ubx => true
  | _, _ => false end.
(** Fields that are arguments of set_all / get_all. *)
Definition sall (f : sfield) : bool := match f with Slam_lbu | Slam_lbx | Slam_ubu | Slam_ubx => false | _ => true end.

Section P.
Context {F : Type} {AF : Arith F}.
Notation vec := (nat -> F).
Variable D : xdim.

Lemma sget_len f s (p : solv F) out k : slen D f s <= k -> sol_get_f D f s p out k = out k.
Proof. destruct f; unfold sol_get_f, slen, UNPACK_VEC; intros; rewrite vset_out; try reflexivity; unfold xnb; lia. Qed.

(** where a field lives *)
Definition sarr (f : sfield) (p : solv F) (s : nat) : vec := match f with Su | Sx | Ssl | Ssu => s_ux p s | Spi => s_pi p s | _ => s_lam p s end.
Definition soff (f : sfield) (s : nat) : nat :=
  let nb := xnb D s in let ng := xng D s in
  match f with
  | Su => 0 | Sx => xnu D s | Ssl => xnu D s + xnx D s | Ssu => xnu D s + xnx D s + xns D s | Spi => 0
  | Slam_lb | Slam_lbu => 0 | Slam_lbx => xnbu D s | Slam_ub | Slam_ubu => nb + ng | Slam_ubx => nb + ng + xnbu D s
  | Slam_lg => nb | Slam_ug => 2 * nb + ng | Slam_ls => 2 * nb + 2 * ng | Slam_us => 2 * nb + 2 * ng + xns D s end.
Lemma sget_at f s (p : solv F) out k : k < slen D f s -> sol_get_f D f s p out k = sarr f p s (soff f s + k).
Proof. destruct f; unfold sol_get_f, slen, soff, sarr, UNPACK_VEC, xnb; intros; rewrite vset0_in by lia; reflexivity. Qed.
Lemma sset_same f s v (p : solv F) k : k < slen D f s -> sarr f (sol_set_f D f s v p) s (soff f s + k) = v k.
Proof.
  destruct f; unfold sol_set_f, slen, soff, sarr, PACK_VEC, w_ux, w_pi, w_lam, xnb; cbn [s_ux s_pi s_lam]; intros; rewrite upd_same;
  rewrite vset_in' by lia; f_equal; lia.
Qed.
Lemma sset_frame f g s s' v (p : solv F) k : s <> s' \/ sshares f g = false -> k < slen D g s' ->
  sarr g (sol_set_f D f s v p) s' (soff g s' + k) = sarr g p s' (soff g s' + k).
Proof.
  intros [H|H] Hk.
  - destruct f, g; unfold sol_set_f, sarr, w_ux, w_pi, w_lam; cbn [s_ux s_pi s_lam]; try reflexivity; rewrite upd_other by congruence; reflexivity.
  - destruct (Nat.eq_dec s' s) as [->|Hs]; [|destruct f, g; unfold sol_set_f, sarr, w_ux, w_pi, w_lam; cbn [s_ux s_pi s_lam]; try reflexivity; rewrite upd_other by congruence; reflexivity].
    destruct f, g; try discriminate H; unfold sol_set_f, slen, soff, sarr, PACK_VEC, w_ux, w_pi, w_lam, xnb in *; cbn [s_ux s_pi s_lam]; try reflexivity;
    rewrite upd_same; rewrite vset_out by lia; reflexivity.
Qed.
Lemma sget_ext f s (p q : solv F) out : (forall k, k < slen D f s -> sarr f p s (soff f s + k) = sarr f q s (soff f s + k)) ->
  forall k, sol_get_f D f s p out k = sol_get_f D f s q out k.
Proof.
  intros H k. destruct (Nat.lt_ge_cases k (slen D f s)) as [Hk|Hk]; [rewrite !sget_at by exact Hk; apply H; exact Hk|rewrite !sget_len by exact Hk; reflexivity].
Qed.

(** stagewise loops *)
Lemma w_loop n (body : nat -> solv F -> solv F) (p : solv F) (proj : solv F -> nat -> vec) (g : nat -> vec -> vec) :
  (forall i q s, proj (body i q) s = if s =? i then g i (proj q i) else proj q s) ->
  forall s, proj (loop n body p) s = if s <? n then g s (proj p s) else proj p s.
Proof.
  intros Hb s. induction n as [|n IH]; cbn [loop]; [reflexivity|]. rewrite Hb.
  destruct (Nat.eqb_spec s n) as [->|Hne].
  - rewrite IH. destruct (Nat.ltb_spec n n); [lia|]. destruct (Nat.ltb_spec n (S n)); [reflexivity|lia].
  - rewrite IH. destruct (Nat.ltb_spec s n); destruct (Nat.ltb_spec s (S n)); try reflexivity; lia.
Qed.

Lemma pux_ux i g (p : solv F) s : s_ux (w_ux i g p) s = if s =? i then g (s_ux p i) else s_ux p s. Proof. reflexivity. Qed.
Lemma pux_pi i g (p : solv F) : s_ux (w_pi i g p) = s_ux p. Proof. reflexivity. Qed.
Lemma pux_lam i g (p : solv F) : s_ux (w_lam i g p) = s_ux p. Proof. reflexivity. Qed.
Lemma pux_t i g (p : solv F) : s_ux (w_t i g p) = s_ux p. Proof. reflexivity. Qed.
Lemma ppi_pi i g (p : solv F) s : s_pi (w_pi i g p) s = if s =? i then g (s_pi p i) else s_pi p s. Proof. reflexivity. Qed.
Lemma ppi_ux i g (p : solv F) : s_pi (w_ux i g p) = s_pi p. Proof. reflexivity. Qed.
Lemma ppi_lam i g (p : solv F) : s_pi (w_lam i g p) = s_pi p. Proof. reflexivity. Qed.
Lemma ppi_t i g (p : solv F) : s_pi (w_t i g p) = s_pi p. Proof. reflexivity. Qed.
Lemma plam_lam i g (p : solv F) s : s_lam (w_lam i g p) s = if s =? i then g (s_lam p i) else s_lam p s. Proof. reflexivity. Qed.
Lemma plam_ux i g (p : solv F) : s_lam (w_ux i g p) = s_lam p. Proof. reflexivity. Qed.
Lemma plam_pi i g (p : solv F) : s_lam (w_pi i g p) = s_lam p. Proof. reflexivity. Qed.
Lemma plam_t i g (p : solv F) : s_lam (w_t i g p) = s_lam p. Proof. reflexivity. Qed.
Lemma pt_t i g (p : solv F) s : s_t (w_t i g p) s = if s =? i then g (s_t p i) else s_t p s. Proof. reflexivity. Qed.
Lemma pt_ux i g (p : solv F) : s_t (w_ux i g p) = s_t p. Proof. reflexivity. Qed.
Lemma pt_pi i g (p : solv F) : s_t (w_pi i g p) = s_t p. Proof. reflexivity. Qed.
Lemma pt_lam i g (p : solv F) : s_t (w_lam i g p) = s_t p. Proof. reflexivity. Qed.
Ltac pj := cbv zeta; repeat (rewrite ?pux_pi, ?pux_lam, ?pux_t, ?ppi_ux, ?ppi_lam, ?ppi_t, ?plam_ux, ?plam_pi, ?plam_t, ?pt_ux, ?pt_pi, ?pt_lam, ?pux_ux, ?ppi_pi, ?plam_lam, ?pt_t, ?Nat.eqb_refl).
Ltac wsolve := intros; pj; try reflexivity;
  match goal with |- context [?s =? ?i] => destruct (Nat.eqb_spec s i) as [->|]; reflexivity end.

(** set_zero *)
Lemma szero_ux s (p : solv F) : s_ux (sol_set_zero D p) s = if s <? xN D + 1 then VECSE (xnu D s + xnx D s + 2 * xns D s) f0 (s_ux p s) 0 else s_ux p s.
Proof.
  unfold sol_set_zero.
  rewrite (w_loop _ _ _ s_ux (fun _ v => v)) by wsolve. rewrite (w_loop _ _ _ s_ux (fun _ v => v)) by wsolve. rewrite (w_loop _ _ _ s_ux (fun _ v => v)) by wsolve.
  rewrite (w_loop _ _ _ s_ux (fun ii x => VECSE (xnu D ii + xnx D ii + 2 * xns D ii) f0 x 0)) by wsolve.
  repeat match goal with |- context [?a <? ?b] => destruct (a <? b) end; reflexivity.
Qed.
Lemma szero_pi s (p : solv F) : s_pi (sol_set_zero D p) s = if s <? xN D then VECSE (xnx D (s+1)) f0 (s_pi p s) 0 else s_pi p s.
Proof.
  unfold sol_set_zero.
  rewrite (w_loop _ _ _ s_pi (fun _ v => v)) by wsolve. rewrite (w_loop _ _ _ s_pi (fun _ v => v)) by wsolve.
  rewrite (w_loop _ _ _ s_pi (fun ii x => VECSE (xnx D (ii+1)) f0 x 0)) by wsolve. rewrite (w_loop _ _ _ s_pi (fun _ v => v)) by wsolve.
  repeat match goal with |- context [?a <? ?b] => destruct (a <? b) end; reflexivity.
Qed.
Lemma szero_lam s (p : solv F) : s_lam (sol_set_zero D p) s = if s <? xN D + 1 then VECSE (2 * xnb D s + 2 * xng D s + 2 * xns D s) f0 (s_lam p s) 0 else s_lam p s.
Proof.
  unfold sol_set_zero.
  rewrite (w_loop _ _ _ s_lam (fun _ v => v)) by wsolve.
  rewrite (w_loop _ _ _ s_lam (fun ii x => VECSE (2 * xnb D ii + 2 * xng D ii + 2 * xns D ii) f0 x 0)) by wsolve.
  rewrite (w_loop _ _ _ s_lam (fun _ v => v)) by wsolve. rewrite (w_loop _ _ _ s_lam (fun _ v => v)) by wsolve.
  repeat match goal with |- context [?a <? ?b] => destruct (a <? b) end; reflexivity.
Qed.
Lemma szero_t s (p : solv F) : s_t (sol_set_zero D p) s = if s <? xN D + 1 then VECSE (2 * xnb D s + 2 * xng D s + 2 * xns D s) f0 (s_t p s) 0 else s_t p s.
Proof.
  unfold sol_set_zero.
  rewrite (w_loop _ _ _ s_t (fun ii x => VECSE (2 * xnb D ii + 2 * xng D ii + 2 * xns D ii) f0 x 0)) by wsolve.
  rewrite (w_loop _ _ _ s_t (fun _ v => v)) by wsolve.
  rewrite (w_loop _ _ _ s_t (fun _ v => v)) by wsolve. rewrite (w_loop _ _ _ s_t (fun _ v => v)) by wsolve.
  repeat match goal with |- context [?a <? ?b] => destruct (a <? b) end; reflexivity.
Qed.

(** copy_all *)
Definition cpn (n : nat) (v x : vec) : vec := VECCP n v 0 x 0.
Lemma scopy_ux s (o d : solv F) : s_ux (sol_copy_all D o d) s = if s <? xN D + 1 then cpn (xnu D s + xnx D s + 2 * xns D s) (s_ux o s) (s_ux d s) else s_ux d s.
Proof.
  unfold sol_copy_all. pj.
  rewrite !(w_loop _ _ _ s_ux (fun ii x => cpn (xnu D ii + xnx D ii + 2 * xns D ii) (s_ux o ii) x)) by (unfold sol_copy_stage; wsolve).
  destruct (Nat.eqb_spec s (xN D)) as [->|]; repeat match goal with |- context [?a <? ?b] => destruct (Nat.ltb_spec a b) end; try reflexivity; lia.
Qed.
Lemma scopy_pi s (o d : solv F) : s_pi (sol_copy_all D o d) s = if s <? xN D then cpn (xnx D (s+1)) (s_pi o s) (s_pi d s) else s_pi d s.
Proof.
  unfold sol_copy_all. pj.
  rewrite !(w_loop _ _ _ s_pi (fun ii x => cpn (xnx D (ii+1)) (s_pi o ii) x)) by (unfold sol_copy_stage; wsolve). reflexivity.
Qed.
Lemma scopy_lam s (o d : solv F) : s_lam (sol_copy_all D o d) s = if s <? xN D + 1 then cpn (2 * xnb D s + 2 * xng D s + 2 * xns D s) (s_lam o s) (s_lam d s) else s_lam d s.
Proof.
  unfold sol_copy_all. pj.
  rewrite !(w_loop _ _ _ s_lam (fun ii x => cpn (2 * xnb D ii + 2 * xng D ii + 2 * xns D ii) (s_lam o ii) x)) by (unfold sol_copy_stage; wsolve).
  destruct (Nat.eqb_spec s (xN D)) as [->|]; repeat match goal with |- context [?a <? ?b] => destruct (Nat.ltb_spec a b) end; try reflexivity; lia.
Qed.
Lemma scopy_t s (o d : solv F) : s_t (sol_copy_all D o d) s = if s <? xN D + 1 then cpn (2 * xnb D s + 2 * xng D s + 2 * xns D s) (s_t o s) (s_t d s) else s_t d s.
Proof.
  unfold sol_copy_all. pj.
  rewrite !(w_loop _ _ _ s_t (fun ii x => cpn (2 * xnb D ii + 2 * xng D ii + 2 * xns D ii) (s_t o ii) x)) by (unfold sol_copy_stage; wsolve).
  destruct (Nat.eqb_spec s (xN D)) as [->|]; repeat match goal with |- context [?a <? ?b] => destruct (Nat.ltb_spec a b) end; try reflexivity; lia.
Qed.

(** set_all *)
Definition sa_ux (a : usr) ii (x : vec) : vec :=
  let x := PACK_VEC (xnx D ii) (a Sx ii) (PACK_VEC (xnu D ii) (a Su ii) x 0) (xnu D ii) in
  if 0 <? xns D ii then PACK_VEC (xns D ii) (a Ssu ii) (PACK_VEC (xns D ii) (a Ssl ii) x (xnu D ii + xnx D ii)) (xnu D ii + xnx D ii + xns D ii) else x.
Definition sa_lam (a : usr) ii (x : vec) : vec :=
  let nb := xnb D ii in let ng := xng D ii in let ns := xns D ii in
  let x := if 0 <? nb then PACK_VEC nb (a Slam_ub ii) (PACK_VEC nb (a Slam_lb ii) x 0) (nb + ng) else x in
  let x := if 0 <? ng then PACK_VEC ng (a Slam_ug ii) (PACK_VEC ng (a Slam_lg ii) x nb) (2 * nb + ng) else x in
  if 0 <? ns then PACK_VEC ns (a Slam_us ii) (PACK_VEC ns (a Slam_ls ii) x (2 * nb + 2 * ng)) (2 * nb + 2 * ng + ns) else x.
Lemma sset_all_ux s (a : usr) (p : solv F) : s_ux (sol_set_all D a p) s = if s <? xN D + 1 then sa_ux a s (s_ux p s) else s_ux p s.
Proof.
  unfold sol_set_all. rewrite (w_loop _ _ _ s_ux (sa_ux a)).
  - rewrite (w_loop _ _ _ s_ux (fun _ v => v)) by wsolve. destruct (s <? xN D); reflexivity.
  - intros i q s'. unfold sol_set_all_stage, sa_ux. cbv zeta; destruct (0 <? xnb D i), (0 <? xng D i), (0 <? xns D i);
    pj; destruct (Nat.eqb_spec s' i); reflexivity.
Qed.
Lemma sset_all_lam s (a : usr) (p : solv F) : s_lam (sol_set_all D a p) s = if s <? xN D + 1 then sa_lam a s (s_lam p s) else s_lam p s.
Proof.
  unfold sol_set_all. rewrite (w_loop _ _ _ s_lam (sa_lam a)).
  - rewrite (w_loop _ _ _ s_lam (fun _ v => v)) by wsolve. destruct (s <? xN D); reflexivity.
  - intros i q s'. unfold sol_set_all_stage, sa_lam. cbv zeta; destruct (0 <? xnb D i), (0 <? xng D i), (0 <? xns D i);
    pj; destruct (Nat.eqb_spec s' i) as [->|]; reflexivity.
Qed.
Lemma sset_all_pi s (a : usr) (p : solv F) : s_pi (sol_set_all D a p) s = if s <? xN D then PACK_VEC (xnx D (s+1)) (a Spi s) (s_pi p s) 0 else s_pi p s.
Proof.
  unfold sol_set_all. rewrite (w_loop _ _ _ s_pi (fun _ v => v)).
  - rewrite (w_loop _ _ _ s_pi (fun s x => PACK_VEC (xnx D (s+1)) (a Spi s) x 0)) by wsolve. destruct (s <? xN D + 1); reflexivity.
  - intros i q s'. unfold sol_set_all_stage. cbv zeta; destruct (0 <? xnb D i), (0 <? xng D i), (0 <? xns D i); pj;
    destruct (Nat.eqb_spec s' i) as [->|]; reflexivity.
Qed.
Lemma sset_all_t s (a : usr) (p : solv F) : s_t (sol_set_all D a p) s = s_t p s.
Proof.
  unfold sol_set_all. rewrite (w_loop _ _ _ s_t (fun _ v => v)).
  - rewrite (w_loop _ _ _ s_t (fun _ v => v)) by wsolve. destruct (s <? xN D + 1), (s <? xN D); reflexivity.
  - intros i q s'. unfold sol_set_all_stage. cbv zeta; destruct (0 <? xnb D i), (0 <? xng D i), (0 <? xns D i); pj;
    destruct (Nat.eqb_spec s' i) as [->|]; reflexivity.
Qed.
Ltac vs := repeat first [rewrite vset_out by lia | rewrite vset_in' by lia].
Lemma sset_all_at f s (a : usr) (p : solv F) k : sall f = true -> s <= xN D -> (f = Spi -> s < xN D) -> k < slen D f s ->
  sarr f (sol_set_all D a p) s (soff f s + k) = a f s k.
Proof.
  intros Hf Hs Hpi Hk. destruct f; try discriminate Hf; unfold sarr;
  rewrite ?sset_all_ux, ?sset_all_lam, ?sset_all_pi;
  try (destruct (Nat.ltb_spec s (xN D + 1)); [|lia]); try (specialize (Hpi eq_refl); destruct (Nat.ltb_spec s (xN D)); [|lia]);
  unfold sa_ux, sa_lam, slen, soff, PACK_VEC in *; cbv zeta; unfold xnb in *;
  repeat (match goal with |- context [0 <? ?n] => destruct (Nat.ltb_spec 0 n) end); try lia; vs;
  match goal with |- a _ _ ?e = a _ _ _ => replace e with k by lia; reflexivity end.
Qed.

(** get_all *)
Lemma get_all_loop n (body : nat -> usr (F:=F) -> usr) (o : usr) f (g : nat -> vec -> vec) :
  (forall i q s, body i q f s = if s =? i then g i (q f i) else q f s) ->
  forall s, loop n body o f s = if s <? n then g s (o f s) else o f s.
Proof.
  intros Hb s. induction n as [|n IH]; cbn [loop]; [reflexivity|]. rewrite Hb.
  destruct (Nat.eqb_spec s n) as [->|Hne].
  - rewrite IH. destruct (Nat.ltb_spec n n); [lia|]. destruct (Nat.ltb_spec n (S n)); [reflexivity|lia].
  - rewrite IH. destruct (Nat.ltb_spec s n); destruct (Nat.ltb_spec s (S n)); try reflexivity; lia.
Qed.
Lemma sget_all_at f s (p : solv F) (o : usr) : sall f = true -> s <= xN D -> (f = Spi -> s < xN D) -> forall k,
  sol_get_all D p o f s k = sol_get_f D f s p (o f s) k.
Proof.
  intros Hf Hs Hpi k. unfold sol_get_all.
  assert (Hst : forall n q s k, f <> Spi -> loop n (sol_get_all_stage D p) q f s k = (if s <? n then sol_get_f D f s p (q f s) k else q f s k)).
  { intros n q s' k' Hne. induction n as [|n IH]; cbn [loop]; [reflexivity|].
    set (q' := loop n _ q) in *. clearbody q'.
    assert (E : sol_get_all_stage D p n q' f s' k' = if s' =? n then sol_get_f D f n p (q' f n) k' else q' f s' k').
    { unfold sol_get_all_stage; cbv zeta.
      destruct (Nat.ltb_spec 0 (xnb D n)), (Nat.ltb_spec 0 (xng D n)), (Nat.ltb_spec 0 (xns D n)); destruct f; try congruence; try discriminate Hf;
      cbn [usr_w]; unfold upd; destruct (Nat.eqb_spec s' n) as [->|]; try reflexivity; cbn [sol_get_f]; unfold UNPACK_VEC; rewrite vset_out by lia; reflexivity. }
    rewrite E. destruct (Nat.eqb_spec s' n) as [->|].
    - destruct (Nat.ltb_spec n (S n)); [|lia]. destruct (Nat.ltb_spec n n); [lia|].
      unfold sol_get_f, UNPACK_VEC, vset; destruct f; rewrite ?IH; reflexivity.
    - rewrite IH. destruct (Nat.ltb_spec s' n); destruct (Nat.ltb_spec s' (S n)); try reflexivity; lia. }
  assert (Hpis : forall n q s k, loop n (fun ii o => usr_w Spi ii (fun y => UNPACK_VEC (xnx D (ii + 1)) (s_pi p ii) 0 y) o) q f s k =
    if match f with Spi => s <? n | _ => false end then UNPACK_VEC (xnx D (s + 1)) (s_pi p s) 0 (q f s) k else q f s k).
  { intros n q s' k'. destruct f; try (rewrite (get_all_loop _ _ _ _ (fun _ v => v)) by (intros i ? s''; cbn [usr_w]; destruct (Nat.eqb_spec s'' i) as [->|]; reflexivity); destruct (s' <? n); reflexivity).
    rewrite (get_all_loop _ _ _ _ (fun ii y => UNPACK_VEC (xnx D (ii + 1)) (s_pi p ii) 0 y)) by reflexivity. destruct (s' <? n); reflexivity. }
  destruct f; try discriminate Hf;
  try (rewrite Hst by congruence; destruct (Nat.ltb_spec s (xN D + 1)); [|lia]; unfold sol_get_f, UNPACK_VEC at 1 2, vset; rewrite ?Hpis; reflexivity).
  rewrite (get_all_loop _ _ _ _ (fun _ v => v)).
  - specialize (Hpi eq_refl). destruct (s <? xN D + 1); cbv beta; rewrite Hpis; (destruct (Nat.ltb_spec s (xN D)); [reflexivity|lia]).
  - intros i q s'. unfold sol_get_all_stage. cbv zeta. destruct (0 <? xnb D i), (0 <? xng D i), (0 <? xns D i); cbn [usr_w]; destruct (Nat.eqb_spec s' i) as [->|]; reflexivity.
Qed.
End P.
