(** SolProps.v -- property theorems C33 (OCP QP solution object).
    Specification: [slen] (length of each field) and [sshares] (the documented overlaps lam_lb = lam_lbu ++ lam_lbx, lam_ub = lam_ubu ++ lam_ubx)
    in SolProofs.v.  All the theorems hold in any arithmetic, hence bit by bit in floating point, NaN included. *)
From Coq Require Import ZArith Bool Arith List String Reals Lia Lra.
From Verif Require Import Base ArithF Blas AuxModel AuxProofs NamesAux OcpModel ResSpec QpDataModel QpDataSpec QpDataProofs SolModel SolProofs.
Import ListNotations.

(** get after set returns the values set, and nothing is written past the field's length in the user's array *)
Theorem C33_roundtrip {F} (D : xdim) (f : sfield) (s : nat) (v : nat -> F) (p : solv F) (out : nat -> F) :
  (forall k, k < slen D f s -> sol_get_f D f s (sol_set_f D f s v p) out k = v k) /\
  (forall k, slen D f s <= k -> sol_get_f D f s (sol_set_f D f s v p) out k = out k).
Proof. split; intros k Hk; [rewrite sget_at by exact Hk; apply sset_same; exact Hk|apply sget_len; exact Hk]. Qed.
Print Assumptions C33_roundtrip.
(** a set changes no other field and no other stage (up to the documented overlaps), nor the slack values t *)
Theorem C33_frame {F} (D : xdim) (f g : sfield) (s s' : nat) (v : nat -> F) (p : solv F) (out : nat -> F) k :
  s <> s' \/ sshares f g = false -> sol_get_f D g s' (sol_set_f D f s v p) out k = sol_get_f D g s' p out k.
Proof. intros H. apply sget_ext. intros k' Hk'. apply sset_frame; assumption. Qed.
Print Assumptions C33_frame.
Theorem C33_frame_t {F} (D : xdim) (f : sfield) (s : nat) (v : nat -> F) (p : solv F) : s_t (sol_set_f D f s v p) = s_t p.
Proof. destruct f; reflexivity. Qed.
Print Assumptions C33_frame_t.
(** lam_lb is lam_lbu followed by lam_lbx, lam_ub is lam_ubu followed by lam_ubx *)
Theorem C33_whole_parts {F} (D : xdim) (s : nat) (p : solv F) (out : nat -> F) k : k < xnbu D s + xnbx D s ->
  sol_get_f D Slam_lb s p out k = (if k <? xnbu D s then sol_get_f D Slam_lbu s p out k else sol_get_f D Slam_lbx s p out (k - xnbu D s)) /\
  sol_get_f D Slam_ub s p out k = (if k <? xnbu D s then sol_get_f D Slam_ubu s p out k else sol_get_f D Slam_ubx s p out (k - xnbu D s)).
Proof.
  intros Hk. split; destruct (Nat.ltb_spec k (xnbu D s)); rewrite !sget_at by (cbn [slen]; lia); cbn [sarr soff]; f_equal; unfold xnb; lia.
Qed.
Print Assumptions C33_whole_parts.
(** histories of setter calls: the last value set to (f,s) is what get returns, whatever was called before, and whatever calls to
    other fields or stages followed *)
Definition sol_run {F} (D : xdim) (h : list (sfield * nat * (nat -> F))) (p : solv F) : solv F :=
  fold_left (fun p o => sol_set_f D (fst (fst o)) (snd (fst o)) (snd o) p) h p.
Theorem C33_history {F} (D : xdim) (f : sfield) (s : nat) (v : nat -> F) (before after : list (sfield * nat * (nat -> F))) (p : solv F) (out : nat -> F) k :
  (forall g s' w, In (g, s', w) after -> s' <> s \/ sshares g f = false) -> k < slen D f s ->
  sol_get_f D f s (sol_run D (before ++ (f, s, v) :: after) p) out k = v k.
Proof.
  intros Ha Hk. unfold sol_run. rewrite fold_left_app. cbn [fold_left fst snd].
  set (q := fold_left _ before p). clearbody q. rewrite <- (proj1 (C33_roundtrip D f s v q out) k Hk).
  generalize (sol_set_f D f s v q). clear q. induction after as [|[[g s'] w] r IH]; intros q; cbn [fold_left fst snd]; [reflexivity|].
  rewrite IH by (intros ? ? ? Hin; apply (Ha _ _ _ (or_intror Hin))). apply C33_frame. apply (Ha g s' w). left. reflexivity.
Qed.
Print Assumptions C33_history.
(** set_all / get_all are the per-field calls: after set_all every getter returns the corresponding argument; get_all fills every
    argument with what the getter returns; get_all after set_all gives the arguments back *)
Theorem C33_set_all {F} (D : xdim) (a : usr (F:=F)) (p : solv F) f s out k : sall f = true -> s <= xN D -> (f = Spi -> s < xN D) -> k < slen D f s ->
  sol_get_f D f s (sol_set_all D a p) out k = a f s k.
Proof. intros. rewrite sget_at by assumption. apply sset_all_at; assumption. Qed.
Print Assumptions C33_set_all.
Theorem C33_get_all {F} (D : xdim) (p : solv F) (o : usr (F:=F)) f s k : sall f = true -> s <= xN D -> (f = Spi -> s < xN D) ->
  sol_get_all D p o f s k = sol_get_f D f s p (o f s) k.
Proof. intros. apply sget_all_at; assumption. Qed.
Print Assumptions C33_get_all.
Theorem C33_get_all_set_all {F} (D : xdim) (a o : usr (F:=F)) (p : solv F) f s k : sall f = true -> s <= xN D -> (f = Spi -> s < xN D) -> k < slen D f s ->
  sol_get_all D (sol_set_all D a p) o f s k = a f s k.
Proof. intros. rewrite C33_get_all, C33_set_all by assumption. reflexivity. Qed.
Print Assumptions C33_get_all_set_all.
(** set_zero: every field of every stage reads 0, and t is 0 *)
Theorem C33_set_zero {F} {AF : Arith F} (D : xdim) (p : solv F) f s out k : s <= xN D -> (f = Spi -> s < xN D) ->
  (k < slen D f s -> sol_get_f D f s (sol_set_zero D p) out k = f0) /\ (k < xnct D s -> s_t (sol_set_zero D p) s k = f0).
Proof.
  intros Hs Hpi. split; intros Hk.
  - rewrite sget_at by exact Hk. unfold sarr. destruct f; rewrite ?szero_ux, ?szero_pi, ?szero_lam;
    try (destruct (Nat.ltb_spec s (xN D + 1)); [|lia]); try (specialize (Hpi eq_refl); destruct (Nat.ltb_spec s (xN D)); [|lia]);
    unfold slen, soff, VECSE, xnb in *; rewrite vset_in' by lia; reflexivity.
  - rewrite szero_t. destruct (Nat.ltb_spec s (xN D + 1)); [|lia]. unfold VECSE, xnct in *. rewrite vset_in' by lia. reflexivity.
Qed.
Print Assumptions C33_set_zero.
(** copy_all: every field of every stage of the destination reads like the source's, t included *)
Theorem C33_copy_all {F} (D : xdim) (o d : solv F) f s out k : s <= xN D -> (f = Spi -> s < xN D) ->
  sol_get_f D f s (sol_copy_all D o d) out k = sol_get_f D f s o out k /\ (k < xnct D s -> s_t (sol_copy_all D o d) s k = s_t o s k).
Proof.
  intros Hs Hpi. split.
  - apply sget_ext. intros k' Hk. unfold sarr. destruct f; rewrite ?scopy_ux, ?scopy_pi, ?scopy_lam;
    try (destruct (Nat.ltb_spec s (xN D + 1)); [|lia]); try (specialize (Hpi eq_refl); destruct (Nat.ltb_spec s (xN D)); [|lia]);
    unfold slen, soff, cpn, VECCP, xnb in *; rewrite vset_in' by lia; f_equal; lia.
  - intros Hk. rewrite scopy_t. destruct (Nat.ltb_spec s (xN D + 1)); [|lia]. unfold cpn, VECCP, xnct in *. rewrite vset_in' by lia. f_equal; lia.
Qed.
Print Assumptions C33_copy_all.
(** the field names, for get and set alike; any other string ends in exit(1) *)
Definition sol_names : list (string * sfield) :=
  [("u",Su); ("x",Sx); ("sl",Ssl); ("su",Ssu); ("pi",Spi); ("lam_lb",Slam_lb); ("lam_lbu",Slam_lbu); ("lam_lbx",Slam_lbx); ("lam_ub",Slam_ub);
   ("lam_ubu",Slam_ubu); ("lam_ubx",Slam_ubx); ("lam_lg",Slam_lg); ("lam_ug",Slam_ug); ("lam_ls",Slam_ls); ("lam_us",Slam_us)]%string.
Theorem C33_names {F} (D : xdim) (n : string) (s : nat) (p : solv F) (v : nat -> F) : nonul n = true ->
  (forall f, In (n, f) sol_names -> sol_get D n s p v = Ok (sol_get_f D f s p v) /\ sol_set D n s v p = Ok (sol_set_f D f s v p)) /\
  ((forall f, ~ In (n, f) sol_names) -> sol_get D n s p v = Exit /\ sol_set D n s v p = Exit).
Proof.
  intros Hn.
  assert (E1 : sol_get_name n = chain (hpipm_strcmp n) sol_names) by reflexivity.
  assert (E2 : sol_set_name n = chain (hpipm_strcmp n) sol_names) by reflexivity.
  unfold sol_get, sol_set. rewrite E1, E2. split.
  - intros f Hf. apply (chain_In n sol_names f Hn eq_refl eq_refl) in Hf. rewrite Hf. split; reflexivity.
  - intros H. destruct (chain (hpipm_strcmp n) sol_names) as [f|] eqn:E; [|split; reflexivity].
    apply (chain_In n sol_names f Hn eq_refl eq_refl) in E. destruct (H f E).
Qed.
Print Assumptions C33_names.
(** Meaning: the layout agrees with the constraint numbering of the solver (C13_meaning_constraints): lam_lb[j] is the multiplier of
    lower bound j, lam_lg[j] of general constraint j's lower side, and so on; u, x, sl, su are the parts of the stage vector that the
    cost, the dynamics and the constraints (C13_meaning_xxx) use. *)
Theorem C33_meaning (D : xdim) (p : solv R) s j : let g f := sol_get_f D f s p (fun _ => 0%R) in
  let nb := xnb D s in let ng := xng D s in let ns := xns D s in let nv := xnu D s + xnx D s in
  (j < xnu D s -> g Su j = s_ux p s j) /\ (j < xnx D s -> g Sx j = s_ux p s (xnu D s + j)) /\
  (j < ns -> g Ssl j = s_ux p s (nv + j) /\ g Ssu j = s_ux p s (nv + ns + j)) /\
  (j < nb -> g Slam_lb j = s_lam p s j /\ g Slam_ub j = s_lam p s (nb + ng + j)) /\
  (j < ng -> g Slam_lg j = s_lam p s (nb + j) /\ g Slam_ug j = s_lam p s (2 * nb + ng + j)) /\
  (j < ns -> g Slam_ls j = s_lam p s (2 * nb + 2 * ng + j) /\ g Slam_us j = s_lam p s (2 * nb + 2 * ng + ns + j)) /\
  (j < xnx D (s + 1) -> g Spi j = s_pi p s j).
Proof.
  cbv zeta. repeat split; try intros Hj; rewrite ?sget_at by (unfold slen, xnb in *; lia); try reflexivity.
Qed.
Print Assumptions C33_meaning.
(** non-vacuity: a two-stage object with every kind of field *)
Example C33_case : let D := mkxdim 1 (fun _ => 2) (fun _ => 1) (fun _ => 1) (fun _ => 1) (fun _ => 1) (fun _ => 1) (fun _ => 0) (fun _ => 0) (fun _ => 0) in
  let z := mksol (fun _ _ => 0) (fun _ _ => 0) (fun _ _ => 0) (fun _ _ => 0) in
  sshares Slam_ug Slam_us = false /\ slen D Slam_ubx 1 = 1 /\
  sol_get_f D Slam_ubx 1 (sol_run D [(Slam_ub, 1, fun k => 10 + k); (Slam_us, 1, fun k => 20 + k); (Slam_lg, 1, fun k => 30 + k)] z) (fun _ => 99) 0 = 11.
Proof. repeat split; vm_compute; reflexivity. Qed.
