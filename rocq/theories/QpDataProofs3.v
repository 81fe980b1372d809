(** QpDataProofs3.v -- set_all, index maps, duplicated right-hand-side rows. *)
From Coq Require Import ZArith Bool Arith List Reals Lia Lra.
From Verif Require Import Base ArithF Blas RSum OcpModel QpDataModel QpDataSpec QpDataProofs QpDataProofs2.
Import ListNotations.

Lemma loop_stage' {S A : Type} (P : S -> nat -> A) (h : nat -> A -> A) (g : nat -> S -> S) n (p : S) s :
  (forall ii p s, P (g ii p) s = if Nat.eqb s ii then h ii (P p ii) else P p s) ->
  P (loop n g p) s = if Nat.ltb s n then h s (P p s) else P p s.
Proof.
  intros H. induction n as [|n IH]; cbn [loop]; [reflexivity|].
  rewrite H. destruct (Nat.eqb_spec s n) as [->|Hne].
  - rewrite IH. destruct (Nat.ltb_spec n n); [lia|]. destruct (Nat.ltb_spec n (Datatypes.S n)); [reflexivity|lia].
  - rewrite IH. destruct (Nat.ltb_spec s n); destruct (Nat.ltb_spec s (Datatypes.S n)); try reflexivity; lia.
Qed.

Section P.
Context {F : Type} {AF : Arith F}.
Notation vec := (nat -> F).
Notation mat := (nat -> nat -> F).
Variable D : xdim.
Notation nx := (xnx D). Notation nu := (xnu D). Notation nb := (xnb D). Notation nbx := (xnbx D). Notation nbu := (xnbu D).
Notation ng := (xng D). Notation ns := (xns D).
Variables (rm : bool) (u : rfield -> nat -> vec) (ibx ibu : nat -> nat -> Z) (idxs idxs_rev : option (nat -> nat -> Z)).
Notation sall := (set_all D rm u ibx ibu idxs idxs_rev).

Lemma ws_BAbt i g (p : qpd F) : p_BAbt (w_BAbt i g p) i = g (p_BAbt p i). Proof. apply upd_same. Qed.
Lemma wo_BAbt i g (p : qpd F) s : s <> i -> p_BAbt (w_BAbt i g p) s = p_BAbt p s. Proof. intros. unfold w_BAbt. cbn [p_BAbt]. apply upd_other. assumption. Qed.
Lemma ws_RSQ i g (p : qpd F) : p_RSQ (w_RSQ i g p) i = g (p_RSQ p i). Proof. apply upd_same. Qed.
Lemma wo_RSQ i g (p : qpd F) s : s <> i -> p_RSQ (w_RSQ i g p) s = p_RSQ p s. Proof. intros. unfold w_RSQ. cbn [p_RSQ]. apply upd_other. assumption. Qed.
Lemma ws_DCt i g (p : qpd F) : p_DCt (w_DCt i g p) i = g (p_DCt p i). Proof. apply upd_same. Qed.
Lemma wo_DCt i g (p : qpd F) s : s <> i -> p_DCt (w_DCt i g p) s = p_DCt p s. Proof. intros. unfold w_DCt. cbn [p_DCt]. apply upd_other. assumption. Qed.
Lemma ws_b i g (p : qpd F) : p_b (w_b i g p) i = g (p_b p i). Proof. apply upd_same. Qed.
Lemma wo_b i g (p : qpd F) s : s <> i -> p_b (w_b i g p) s = p_b p s. Proof. intros. unfold w_b. cbn [p_b]. apply upd_other. assumption. Qed.
Lemma ws_rqz i g (p : qpd F) : p_rqz (w_rqz i g p) i = g (p_rqz p i). Proof. apply upd_same. Qed.
Lemma wo_rqz i g (p : qpd F) s : s <> i -> p_rqz (w_rqz i g p) s = p_rqz p s. Proof. intros. unfold w_rqz. cbn [p_rqz]. apply upd_other. assumption. Qed.
Lemma ws_d i g (p : qpd F) : p_d (w_d i g p) i = g (p_d p i). Proof. apply upd_same. Qed.
Lemma wo_d i g (p : qpd F) s : s <> i -> p_d (w_d i g p) s = p_d p s. Proof. intros. unfold w_d. cbn [p_d]. apply upd_other. assumption. Qed.
Lemma ws_mask i g (p : qpd F) : p_mask (w_mask i g p) i = g (p_mask p i). Proof. apply upd_same. Qed.
Lemma wo_mask i g (p : qpd F) s : s <> i -> p_mask (w_mask i g p) s = p_mask p s. Proof. intros. unfold w_mask. cbn [p_mask]. apply upd_other. assumption. Qed.
Lemma ws_m i g (p : qpd F) : p_m (w_m i g p) i = g (p_m p i). Proof. apply upd_same. Qed.
Lemma wo_m i g (p : qpd F) s : s <> i -> p_m (w_m i g p) s = p_m p s. Proof. intros. unfold w_m. cbn [p_m]. apply upd_other. assumption. Qed.
Lemma ws_Z i g (p : qpd F) : p_Z (w_Z i g p) i = g (p_Z p i). Proof. apply upd_same. Qed.
Lemma wo_Z i g (p : qpd F) s : s <> i -> p_Z (w_Z i g p) s = p_Z p s. Proof. intros. unfold w_Z. cbn [p_Z]. apply upd_other. assumption. Qed.
Lemma ws_idxb i g (p : qpd F) : p_idxb (w_idxb i g p) i = g (p_idxb p i). Proof. apply upd_same. Qed.
Lemma wo_idxb i g (p : qpd F) s : s <> i -> p_idxb (w_idxb i g p) s = p_idxb p s. Proof. intros. unfold w_idxb. cbn [p_idxb]. apply upd_other. assumption. Qed.
Lemma ws_idxs i g (p : qpd F) : p_idxs_rev (w_idxs i g p) i = g (p_idxs_rev p i). Proof. apply upd_same. Qed.
Lemma wo_idxs i g (p : qpd F) s : s <> i -> p_idxs_rev (w_idxs i g p) s = p_idxs_rev p s. Proof. intros. unfold w_idxs. cbn [p_idxs_rev]. apply upd_other. assumption. Qed.
Lemma ws_idxe i g (p : qpd F) : p_idxe (w_idxe i g p) i = g (p_idxe p i). Proof. apply upd_same. Qed.
Lemma wo_idxe i g (p : qpd F) s : s <> i -> p_idxe (w_idxe i g p) s = p_idxe p s. Proof. intros. unfold w_idxe. cbn [p_idxe]. apply upd_other. assumption. Qed.
Ltac ifs := repeat match goal with |- context [if ?b then _ else _] => destruct b eqn:? | |- context [match idxs with _ => _ end] => destruct idxs end.
(** one projection of nested updates, outermost first *)
Ltac pj := repeat match goal with
  | |- context [?P (?w ?i ?g ?p)] =>
      match type of p with qpd _ => idtac end;
      match P with p_BAbt => idtac | p_RSQ => idtac | p_DCt => idtac | p_b => idtac | p_rqz => idtac | p_d => idtac | p_mask => idtac | p_m => idtac | p_Z => idtac | p_idxb => idtac | p_idxs_rev => idtac | p_idxe => idtac end;
      match constr:((P, w)) with
      | (p_BAbt, w_BAbt) => first [rewrite (ws_BAbt i g p) | rewrite (wo_BAbt i g p) by congruence]
      | (p_RSQ, w_RSQ) => first [rewrite (ws_RSQ i g p) | rewrite (wo_RSQ i g p) by congruence]
      | (p_DCt, w_DCt) => first [rewrite (ws_DCt i g p) | rewrite (wo_DCt i g p) by congruence]
      | (p_b, w_b) => first [rewrite (ws_b i g p) | rewrite (wo_b i g p) by congruence]
      | (p_rqz, w_rqz) => first [rewrite (ws_rqz i g p) | rewrite (wo_rqz i g p) by congruence]
      | (p_d, w_d) => first [rewrite (ws_d i g p) | rewrite (wo_d i g p) by congruence]
      | (p_mask, w_mask) => first [rewrite (ws_mask i g p) | rewrite (wo_mask i g p) by congruence]
      | (p_m, w_m) => first [rewrite (ws_m i g p) | rewrite (wo_m i g p) by congruence]
      | (p_Z, w_Z) => first [rewrite (ws_Z i g p) | rewrite (wo_Z i g p) by congruence]
      | (p_idxb, w_idxb) => first [rewrite (ws_idxb i g p) | rewrite (wo_idxb i g p) by congruence]
      | (p_idxs_rev, w_idxs) => first [rewrite (ws_idxs i g p) | rewrite (wo_idxs i g p) by congruence]
      | (p_idxe, w_idxe) => first [rewrite (ws_idxe i g p) | rewrite (wo_idxe i g p) by congruence]
      | _ => let E := constr:(eq_refl : P (w i g p) = P p) in rewrite E
      end
  end.
Ltac sd := intros; cbv zeta; ifs; pj; reflexivity.
Ltac sd2 := intros; cbv zeta; match goal with |- _ = (if Nat.eqb ?s ?i then _ else _) => destruct (Nat.eqb_spec s i) as [->|?] end; ifs; pj; reflexivity.
Tactic Notation "same" constr(P) := match goal with |- context [P (loop ?n ?g ?p)] => rewrite (loop_same P g n p) by sd end.
Tactic Notation "stg" constr(P) constr(h) := match goal with |- context [P (loop ?n ?g ?p) ?s] => rewrite (loop_stage' P h g n p s) by sd2 end.

Lemma sall_head (P : qpd F -> nat -> nat -> nat -> F) p s : (forall ii g p, P (w_idxs ii g p) = P p) ->
  P (sall p) s = P (set_all D rm u ibx ibu idxs None p) s.
Proof. intros H. unfold set_all. destruct idxs_rev as [ir|]; [|reflexivity]. cbv zeta. rewrite (loop_same P) by (intros; apply H). reflexivity. Qed.
Lemma sall_headv (P : qpd F -> nat -> nat -> F) p s : (forall ii g p, P (w_idxs ii g p) = P p) ->
  P (sall p) s = P (set_all D rm u ibx ibu idxs None p) s.
Proof. intros H. unfold set_all. destruct idxs_rev as [ir|]; [|reflexivity]. cbv zeta. rewrite (loop_same P) by (intros; apply H). reflexivity. Qed.

Lemma sall_BAbt p s : s < xN D -> p_BAbt (sall p) s =
  PACK_TRAN_MAT (nx (s+1)) 1 (u Fb s) (nx (s+1)) (pk rm (nx (s+1)) (nx s) (u FA s) (pk rm (nx (s+1)) (nu s) (u FB s) (p_BAbt p s) 0 0) (nu s) 0) (nu s + nx s) 0.
Proof.
  intros H. rewrite (sall_head (@p_BAbt F)) by reflexivity. unfold set_all. cbv beta iota zeta.
  same (@p_BAbt F). same (@p_BAbt F). same (@p_BAbt F). same (@p_BAbt F).
  stg (@p_BAbt F) (fun (s : nat) (x : mat) => PACK_TRAN_MAT (nx (s+1)) 1 (u Fb s) (nx (s+1)) (pk rm (nx (s+1)) (nx s) (u FA s) (pk rm (nx (s+1)) (nu s) (u FB s) x 0 0) (nu s) 0) (nu s + nx s) 0).
  destruct (Nat.ltb_spec s (xN D)); [reflexivity|lia].
Qed.
Lemma sall_b p s : s < xN D -> p_b (sall p) s = PACK_VEC (nx (s+1)) (u Fb s) (p_b p s) 0.
Proof.
  intros H. rewrite (sall_headv (@p_b F)) by reflexivity. unfold set_all. cbv beta iota zeta.
  same (@p_b F). same (@p_b F). same (@p_b F). same (@p_b F).
  stg (@p_b F) (fun (s : nat) (x : vec) => PACK_VEC (nx (s+1)) (u Fb s) x 0).
  destruct (Nat.ltb_spec s (xN D)); [reflexivity|lia].
Qed.
Lemma sall_RSQ p s : s <= xN D -> p_RSQ (sall p) s =
  PACK_TRAN_MAT (nx s) 1 (u Fq s) (nx s) (PACK_TRAN_MAT (nu s) 1 (u Fr s) (nu s) (PACK_MAT (nx s) (nx s) (u FQ s) (nx s)
   (pk rm (nu s) (nx s) (u FS s) (PACK_MAT (nu s) (nu s) (u FR s) (nu s) (p_RSQ p s) 0 0) (nu s) 0) (nu s) (nu s)) (nu s + nx s) 0) (nu s + nx s) (nu s).
Proof.
  intros H. rewrite (sall_head (@p_RSQ F)) by reflexivity. unfold set_all. cbv beta iota zeta.
  same (@p_RSQ F). same (@p_RSQ F). same (@p_RSQ F).
  stg (@p_RSQ F) (fun (s : nat) (x : mat) => PACK_TRAN_MAT (nx s) 1 (u Fq s) (nx s) (PACK_TRAN_MAT (nu s) 1 (u Fr s) (nu s) (PACK_MAT (nx s) (nx s) (u FQ s) (nx s)
   (pk rm (nu s) (nx s) (u FS s) (PACK_MAT (nu s) (nu s) (u FR s) (nu s) x 0 0) (nu s) 0) (nu s) (nu s)) (nu s + nx s) 0) (nu s + nx s) (nu s)).
  same (@p_RSQ F). destruct (Nat.ltb_spec s (xN D + 1)); [reflexivity|lia].
Qed.
Lemma sall_rqz p s : s <= xN D -> p_rqz (sall p) s =
  let x := PACK_VEC (nx s) (u Fq s) (PACK_VEC (nu s) (u Fr s) (p_rqz p s) 0) (nu s) in
  if Nat.ltb 0 (ns s) then PACK_VEC (ns s) (u Fzu s) (PACK_VEC (ns s) (u Fzl s) x (nu s + nx s)) (nu s + nx s + ns s) else x.
Proof.
  intros H. rewrite (sall_headv (@p_rqz F)) by reflexivity. unfold set_all. cbv beta iota zeta.
  stg (@p_rqz F) (fun (s : nat) (x : vec) => if Nat.ltb 0 (ns s) then PACK_VEC (ns s) (u Fzu s) (PACK_VEC (ns s) (u Fzl s) x (nu s + nx s)) (nu s + nx s + ns s) else x).
  same (@p_rqz F). same (@p_rqz F).
  stg (@p_rqz F) (fun (s : nat) (x : vec) => PACK_VEC (nx s) (u Fq s) (PACK_VEC (nu s) (u Fr s) x 0) (nu s)).
  same (@p_rqz F). destruct (Nat.ltb_spec s (xN D + 1)); [reflexivity|lia].
Qed.
Lemma sall_Z p s : s <= xN D -> p_Z (sall p) s =
  if Nat.ltb 0 (ns s) then PACK_VEC (ns s) (u FZu s) (PACK_VEC (ns s) (u FZl s) (p_Z p s) 0) (ns s) else p_Z p s.
Proof.
  intros H. rewrite (sall_headv (@p_Z F)) by reflexivity. unfold set_all. cbv beta iota zeta.
  stg (@p_Z F) (fun (s : nat) (x : vec) => if Nat.ltb 0 (ns s) then PACK_VEC (ns s) (u FZu s) (PACK_VEC (ns s) (u FZl s) x 0) (ns s) else x).
  same (@p_Z F). same (@p_Z F). same (@p_Z F). same (@p_Z F). destruct (Nat.ltb_spec s (xN D + 1)); [reflexivity|lia].
Qed.
Lemma sall_DCt p s : s <= xN D -> p_DCt (sall p) s =
  if Nat.ltb 0 (ng s) then pk rm (ng s) (nx s) (u FC s) (pk rm (ng s) (nu s) (u FD s) (p_DCt p s) 0 0) (nu s) 0 else p_DCt p s.
Proof.
  intros H. rewrite (sall_head (@p_DCt F)) by reflexivity. unfold set_all. cbv beta iota zeta.
  same (@p_DCt F).
  stg (@p_DCt F) (fun (s : nat) (x : mat) => if Nat.ltb 0 (ng s) then pk rm (ng s) (nx s) (u FC s) (pk rm (ng s) (nu s) (u FD s) x 0 0) (nu s) 0 else x).
  same (@p_DCt F). same (@p_DCt F). same (@p_DCt F). destruct (Nat.ltb_spec s (xN D + 1)); [reflexivity|lia].
Qed.
Lemma sall_mask p : p_mask (sall p) = p_mask p.
Proof.
  unfold set_all. destruct idxs_rev; cbv beta iota zeta; [same (@p_mask F)|]; same (@p_mask F); same (@p_mask F); same (@p_mask F); same (@p_mask F); same (@p_mask F); reflexivity.
Qed.
Definition hd1 (s : nat) (x : vec) : vec :=
  let x := if Nat.ltb 0 (nbu s) then PACK_VEC (nbu s) (u Fubu s) (PACK_VEC (nbu s) (u Flbu s) x 0) (nb s + ng s) else x in
  let x := if Nat.ltb 0 (nbx s) then PACK_VEC (nbx s) (u Fubx s) (PACK_VEC (nbx s) (u Flbx s) x (nbu s)) (nb s + ng s + nbu s) else x in
  if Nat.ltb 0 (nb s) then VECSC (nb s) (fopp f1) x (nb s + ng s) else x.
Definition hd2 (s : nat) (x : vec) : vec :=
  if Nat.ltb 0 (ng s) then VECSC (ng s) (fopp f1) (PACK_VEC (ng s) (u Fug s) (PACK_VEC (ng s) (u Flg s) x (nb s)) (2 * nb s + ng s)) (2 * nb s + ng s) else x.
Definition hd3 (s : nat) (x : vec) : vec :=
  if Nat.ltb 0 (ns s) then PACK_VEC (ns s) (u Flus s) (PACK_VEC (ns s) (u Flls s) x (2 * nb s + 2 * ng s)) (2 * nb s + 2 * ng s + ns s) else x.
Lemma sall_d p s : s <= xN D -> p_d (sall p) s = hd3 s (hd2 s (hd1 s (p_d p s))).
Proof.
  intros H. rewrite (sall_headv (@p_d F)) by reflexivity. unfold set_all. cbv beta iota zeta.
  rewrite (loop_stage' (@p_d F) hd3) by (unfold hd3; sd2).
  rewrite (loop_stage' (@p_d F) hd2) by (unfold hd2; sd2).
  rewrite (loop_stage' (@p_d F) hd1) by (unfold hd1; sd2).
  same (@p_d F). same (@p_d F). destruct (Nat.ltb_spec s (xN D + 1)); [reflexivity|lia].
Qed.
Definition hm1 (s : nat) (x : vec) : vec := if Nat.ltb 0 (nb s) then VECSE (nb s) f0 (VECSE (nb s) f0 x 0) (nb s + ng s) else x.
Definition hm2 (s : nat) (x : vec) : vec := if Nat.ltb 0 (ng s) then VECSE (ng s) f0 (VECSE (ng s) f0 x (nb s)) (2 * nb s + ng s) else x.
Definition hm3 (s : nat) (x : vec) : vec := if Nat.ltb 0 (ns s) then VECSE (ns s) f0 (VECSE (ns s) f0 x (2 * nb s + 2 * ng s)) (2 * nb s + 2 * ng s + ns s) else x.
Lemma sall_m p s : s <= xN D -> p_m (sall p) s = hm3 s (hm2 s (hm1 s (p_m p s))).
Proof.
  intros H. rewrite (sall_headv (@p_m F)) by reflexivity. unfold set_all. cbv beta iota zeta.
  rewrite (loop_stage' (@p_m F) hm3) by (unfold hm3; sd2).
  rewrite (loop_stage' (@p_m F) hm2) by (unfold hm2; sd2).
  rewrite (loop_stage' (@p_m F) hm1) by (unfold hm1; sd2).
  same (@p_m F). same (@p_m F). destruct (Nat.ltb_spec s (xN D + 1)); [reflexivity|lia].
Qed.
Definition hi1 (s : nat) (x : nat -> Z) : nat -> Z :=
  let x := if Nat.ltb 0 (nbu s) then loop (nbu s) (fun jj x => upd x jj (ibu s jj)) x else x in
  if Nat.ltb 0 (nbx s) then loop (nbx s) (fun jj x => upd x (nbu s + jj) (Z.of_nat (nu s) + ibx s jj)%Z) x else x.
Lemma sall_idxb p s : s <= xN D -> p_idxb (sall p) s = hi1 s (p_idxb p s).
Proof.
  intros H. unfold set_all. destruct idxs_rev; cbv beta iota zeta; [same (@p_idxb F)|];
  same (@p_idxb F); same (@p_idxb F);
  rewrite (loop_stage' (@p_idxb F) hi1) by (unfold hi1; sd2);
  same (@p_idxb F); same (@p_idxb F); (destruct (Nat.ltb_spec s (xN D + 1)); [reflexivity|lia]).
Qed.
Lemma sall_idxs p s : s <= xN D -> p_idxs_rev (sall p) s =
  let x := match idxs with Some ix => if Nat.ltb 0 (ns s) then loop (ns s) (fun jj x => upd x (Z.to_nat (ix s jj)) (Z.of_nat jj)) (p_idxs_rev p s) else p_idxs_rev p s | None => p_idxs_rev p s end in
  match idxs_rev with Some ir => loop (nb s + ng s) (fun jj x => upd x jj (ir s jj)) x | None => x end.
Proof.
  intros H.
  assert (E : forall q, p_idxs_rev (loop (xN D + 1) (fun ii p => if Nat.ltb 0 (ns ii) then
      let p := match idxs with Some ix => w_idxs ii (loop (ns ii) (fun jj x => upd x (Z.to_nat (ix ii jj)) (Z.of_nat jj))) p | None => p end in
      let p := w_Z ii (fun x => PACK_VEC (ns ii) (u FZl ii) x 0) p in
      let p := w_Z ii (fun x => PACK_VEC (ns ii) (u FZu ii) x (ns ii)) p in
      let p := w_rqz ii (fun x => PACK_VEC (ns ii) (u Fzl ii) x (nu ii + nx ii)) p in
      let p := w_rqz ii (fun x => PACK_VEC (ns ii) (u Fzu ii) x (nu ii + nx ii + ns ii)) p in
      let p := w_d ii (fun x => PACK_VEC (ns ii) (u Flls ii) x (2 * nb ii + 2 * ng ii)) p in
      let p := w_d ii (fun x => PACK_VEC (ns ii) (u Flus ii) x (2 * nb ii + 2 * ng ii + ns ii)) p in
      let p := w_m ii (fun x => VECSE (ns ii) f0 x (2 * nb ii + 2 * ng ii)) p in
      w_m ii (fun x => VECSE (ns ii) f0 x (2 * nb ii + 2 * ng ii + ns ii)) p else p) q) s =
      match idxs with Some ix => if Nat.ltb 0 (ns s) then loop (ns s) (fun jj x => upd x (Z.to_nat (ix s jj)) (Z.of_nat jj)) (p_idxs_rev q s) else p_idxs_rev q s | None => p_idxs_rev q s end).
  { intros q. rewrite (loop_stage' (@p_idxs_rev F) (fun ii x => match idxs with Some ix => if Nat.ltb 0 (ns ii) then loop (ns ii) (fun jj x => upd x (Z.to_nat (ix ii jj)) (Z.of_nat jj)) x else x | None => x end)) by sd2.
    destruct (Nat.ltb_spec s (xN D + 1)); [reflexivity|lia]. }
  unfold set_all. destruct idxs_rev as [ir|]; cbv beta iota zeta.
  - rewrite (loop_stage' (@p_idxs_rev F) (fun ii x => loop (nb ii + ng ii) (fun jj x => upd x jj (ir ii jj)) x)) by sd2.
    cbv zeta in E. rewrite E. same (@p_idxs_rev F). same (@p_idxs_rev F). same (@p_idxs_rev F). same (@p_idxs_rev F).
    destruct (Nat.ltb_spec s (xN D + 1)); [reflexivity|lia].
  - cbv zeta in E. rewrite E. same (@p_idxs_rev F). same (@p_idxs_rev F). same (@p_idxs_rev F). same (@p_idxs_rev F). reflexivity.
Qed.
End P.
