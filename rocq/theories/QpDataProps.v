(** QpDataProps.v -- property theorems C13-C17, C36-C38 (OCP QP data object). *)
From Coq Require Import ZArith Bool Arith List String Reals Lia Lra.
From Verif Require Import Base ArithF Blas AuxModel AuxProofs NamesAux RSum OcpModel ResSpec QpDataModel QpDataSpec QpDataProofs QpDataProofs2 QpDataProofs3 QpDataProofs4 QpDataProofs5.
Import ListNotations.

(** * C13: set/get round trip, frame, histories, names, meaning *)
(** get after set returns the values set, entry by entry, and does not write past the field's length. *)
Theorem C13_roundtrip (D : xdim) (f : rfield) (s : nat) (v : nat -> R) (p : qpd R) (out : nat -> R) :
  (forall k, k < flen D f s -> get_r D f s (set_r D f s v p) out k = v k) /\
  (forall k, flen D f s <= k -> get_r D f s (set_r D f s v p) out k = out k).
Proof.
  split; intros k Hk; [|apply get_len; exact Hk]. rewrite get_set_same by exact Hk. rsimp. destruct (is_upper f); lra.
Qed.
Print Assumptions C13_roundtrip.
(** In any arithmetic (in particular IEEE floating point, NaN included) every field but the upper bounds comes back unchanged;
    an upper bound comes back as -(-1.0*v). *)
Theorem C13_roundtrip_any_arith {F} {AF : Arith F} (D : xdim) (f : rfield) (s : nat) (v : nat -> F) (p : qpd F) (out : nat -> F) k :
  k < flen D f s ->
  get_r D f s (set_r D f s v p) out k = if is_upper f then fopp (fmul (fopp f1) (v k)) else v k.
Proof. apply get_set_same. Qed.
Print Assumptions C13_roundtrip_any_arith.
(** A set changes no other field and no other stage (except the documented sharing of lb with lbu/lbx etc.). *)
Theorem C13_frame {F} {AF : Arith F} (D : xdim) (f g : rfield) (s s' : nat) (v : nat -> F) (p : qpd F) (out : nat -> F) k :
  s <> s' \/ ~ shares f g -> get_r D g s' (set_r D f s v p) out k = get_r D g s' p out k.
Proof. intros [H|H]; apply get_set_frame; [left; exact H|right; apply sharesb_false; exact H]. Qed.
Print Assumptions C13_frame.
(** ... and no index data, nor the Hessian-diagonal flag. *)
Theorem C13_frame_indices {F} {AF : Arith F} (D : xdim) (f : rfield) (s : nat) (v : nat -> F) (p : qpd F) :
  p_idxb (set_r D f s v p) = p_idxb p /\ p_idxs_rev (set_r D f s v p) = p_idxs_rev p /\ p_idxe (set_r D f s v p) = p_idxe p /\ p_diag (set_r D f s v p) = p_diag p.
Proof. destruct f; repeat split; reflexivity. Qed.
(** The shared storage is what one expects: "lb" is "lbu" followed by "lbx" (same for ub, the masks, m). *)
Theorem C13_whole_parts (D : xdim) (w fu fx : rfield) (s : nat) (p : qpd R) (out : nat -> R) k :
  whole w = Some (fu, fx) -> k < flen D w s ->
  get_r D w s p out k = if k <? xnbu D s then get_r D fu s p out k else get_r D fx s p out (k - xnbu D s).
Proof.
  intros Hw Hk. destruct w; try discriminate Hw; injection Hw as <- <-; unfold get_r, flen, UNPACK_VEC, xnb in *;
  destruct (Nat.ltb_spec k (xnbu D s)); rewrite ?neg_loop_in by lia; rewrite !vset0_in by lia;
  try match goal with |- fopp _ = fopp _ => apply f_equal end; match goal with |- ?f ?a = ?f ?b => replace b with a by lia; reflexivity end.
Qed.
Print Assumptions C13_whole_parts.
(** Histories: whatever data-API calls happened before and whatever calls that do not concern (f,s) happened after,
    get returns the last value set. *)
Theorem C13_history (D : xdim) (f : rfield) (s : nat) (v : nat -> R) (before after : list (op R)) (p : qpd R) (out : nat -> R) k :
  Forall (legal D) after -> Forall (leaves f s) after -> k < flen D f s ->
  get_r D f s (run D (before ++ OpR f s v :: after) p) out k = v k.
Proof.
  intros Hl Hv Hk. unfold run. rewrite fold_left_app. cbn [fold_left]. change (get_r D f s (run D after (do_op D (OpR f s v) (run D before p))) out k = v k).
  rewrite run_leaves by assumption. cbn [do_op]. apply (proj1 (C13_roundtrip D f s v _ out)). exact Hk.
Qed.
Print Assumptions C13_history.
(** Single elements: OCP_QP_SET_EL writes exactly the chosen entry of lbx / ubx. *)
Theorem C13_set_el (D : xdim) (s j : nat) (e : R) (p : qpd R) (out : nat -> R) k : j < xnbx D s -> k < xnbx D s ->
  get_r D Flbx s (set_el_lbx D s j e p) out k = (if k =? j then e else get_r D Flbx s p out k) /\
  get_r D Fubx s (set_el_ubx D s j e p) out k = (if k =? j then e else get_r D Fubx s p out k).
Proof.
  intros Hj Hk. unfold set_el_lbx, set_el_ubx, w_d, get_r, UNPACK_VEC, xnb in *. cbn [p_d]. rewrite !upd_same.
  rewrite !neg_loop_in by lia. rewrite !vset0_in by lia. unfold upd.
  split.
  - destruct (Nat.eqb_spec (xnbu D s + k) (xnbu D s + j)); destruct (Nat.eqb_spec k j); try lia; reflexivity.
  - destruct (Nat.eqb_spec (xnbx D s + xnbu D s + xng D s + xnbu D s + k) (xnbx D s + xnbu D s + xng D s + xnbu D s + j)); destruct (Nat.eqb_spec k j); try lia; rsimp; lra.
Qed.
Print Assumptions C13_set_el.

(** The field names: each name selects the setter it names, the short aliases included, any other string is rejected. *)
Definition set_names : list (string * target) :=
  [("A",TR FA); ("B",TR FB); ("Q",TR FQ); ("S",TR FS); ("R",TR FR); ("C",TR FC); ("D",TR FD); ("b",TR Fb);
   ("q",TR Fq); ("r",TR Fr); ("lb",TR Flb); ("lb_mask",TR Flb_mask); ("lbu",TR Flbu); ("lu",TR Flbu); ("lbu_mask",TR Flbu_mask); ("lbx",TR Flbx);
   ("lx",TR Flbx); ("lbx_mask",TR Flbx_mask); ("ub",TR Fub); ("ub_mask",TR Fub_mask); ("ubu",TR Fubu); ("uu",TR Fubu); ("ubu_mask",TR Fubu_mask); ("ubx",TR Fubx);
   ("ux",TR Fubx); ("ubx_mask",TR Fubx_mask); ("lg",TR Flg); ("lg_mask",TR Flg_mask); ("ug",TR Fug); ("ug_mask",TR Fug_mask); ("Zl",TR FZl); ("Zu",TR FZu);
   ("zl",TR Fzl); ("zu",TR Fzu); ("lls",TR Flls); ("lls_mask",TR Flls_mask); ("lus",TR Flus); ("lus_mask",TR Flus_mask); ("idxb",TI Iidxb); ("idxbx",TI Iidxbx);
   ("Jbx",TJ Jbx); ("Jx",TJ Jbx); ("idxbu",TI Iidxbu); ("Jbu",TJ Jbu); ("Ju",TJ Jbu); ("idxs",TI Iidxs); ("idxs_rev",TI Iidxs_rev); ("Jsbu",TJ Jsbu);
   ("Jsu",TJ Jsbu); ("Jsbx",TJ Jsbx); ("Jsx",TJ Jsbx); ("Jsg",TJ Jsg); ("idxe",TI Iidxe); ("idxbue",TI Iidxbue); ("idxbxe",TI Iidxbxe); ("idxge",TI Iidxge);
   ("Jbue",TJ Jbue); ("Jbxe",TJ Jbxe); ("Jge",TJ Jge); ("diag_H_flag",TDiag); ("m_all",TMall); ("m_lb",TR Fm_lb); ("m_lbu",TR Fm_lbu); ("m_lbx",TR Fm_lbx);
   ("m_ub",TR Fm_ub); ("m_ubu",TR Fm_ubu); ("m_ubx",TR Fm_ubx); ("m_lg",TR Fm_lg); ("m_ug",TR Fm_ug); ("m_lls",TR Fm_lls); ("m_lus",TR Fm_lus)]%string.
Theorem C13_names (n : string) (t : target) : nonul n = true ->
  set_dispatch n = Some t <-> In (n, t) set_names.
Proof.
  intros Hn. rewrite <- (chain_In n set_names t Hn) by reflexivity.
  assert (E : set_dispatch n = chain (hpipm_strcmp n) set_names) by (unfold set_dispatch, set_names; cbn [chain]; rewrite !orb_if; reflexivity).
  rewrite E. reflexivity.
Qed.
Print Assumptions C13_names.
Theorem C13_get_names (n : string) (f : rfield) : nonul n = true ->
  get_dispatch n = Some f <-> In (n, f) [("A",FA);("lbx",Flbx);("lx",Flbx);("ubx",Fubx);("ux",Fubx)]%string.
Proof.
  intros Hn. rewrite <- chain_In by (assumption || reflexivity). cbn [chain]. unfold get_dispatch. rewrite !orb_if. reflexivity.
Qed.
Print Assumptions C13_get_names.
(** The string API: a set call with a known real-valued field name is the setter of that field, an unknown name exits. *)
Theorem C13_api_set {F} {AF : Arith F} (D : xdim) (n : string) (s : nat) (v : nat -> F) (p : qpd F) : nonul n = true ->
  (forall f, In (n, TR f) set_names -> qp_set D n s (VR v) p = Ok (set_r D f s v p)) /\
  ((forall t, ~ In (n, t) set_names) -> forall x, qp_set D n s x p = Exit).
Proof.
  intros Hn. split.
  - intros f H. apply C13_names in H; [|exact Hn]. unfold qp_set. rewrite H. reflexivity.
  - intros H x. unfold qp_set. destruct (set_dispatch n) as [t|] eqn:E; [|reflexivity]. apply C13_names in E; [|exact Hn]. destruct (H t E).
Qed.
Print Assumptions C13_api_set.
(** set_all (column major, [rm=false]) and set_all_rowmaj: every argument is what the getter returns afterwards (for the row-major
    variant A,B,S,C,D are given by rows); m is zeroed, the masks are untouched. *)
Theorem C13_set_all (D : xdim) rm (u : rfield -> nat -> nat -> R) ibx ibu idxs idxs_rev (p : qpd R) (f : rfield) s out k :
  is_mask f = false -> is_m f = false -> f <> Flb -> f <> Fub -> s <= xN D -> (f = FA \/ f = FB \/ f = Fb -> s < xN D) -> k < flen D f s ->
  get_r D f s (set_all D rm u ibx ibu idxs idxs_rev p) out k = u f s (rm_index D rm f s k).
Proof.
  intros H1 H2 H3 H4 H5 H6 Hk. rewrite sall_get; [| |destruct f; cbn; auto|exact Hk].
  - rsimp. destruct f; try reflexivity; try congruence; destruct rm; cbn [is_upper rm_index]; lra.
  - unfold all_arg. rewrite H1, H2. destruct f; try reflexivity; congruence.
Qed.
Print Assumptions C13_set_all.
Theorem C13_set_all_rest (D : xdim) rm (u : rfield -> nat -> nat -> R) ibx ibu idxs idxs_rev (p : qpd R) s :
  s <= xN D -> let p' := set_all D rm u ibx ibu idxs idxs_rev p in
  p_mask p' = p_mask p /\ (forall c, c < xnct D s -> p_m p' s c = 0%R) /\
  (forall k, k < xnbu D s -> p_idxb p' s k = ibu s k) /\ (forall k, k < xnbx D s -> p_idxb p' s (xnbu D s + k) = (Z.of_nat (xnu D s) + ibx s k)%Z).
Proof.
  intros Hs p'. split; [apply sall_mask|]. split.
  - intros c Hc. unfold p'. rewrite sall_m_zero by assumption. rsimp. apply R_lit01.
  - unfold p'. rewrite sall_idxb by assumption. unfold hi1. split; intros k Hk.
    + destruct (Nat.ltb_spec 0 (xnbu D s)); [|lia]. destruct (Nat.ltb_spec 0 (xnbx D s)); [rewrite loop_upd_vset, vset_out by lia|]; rewrite loop_upd_at; (destruct (Nat.ltb_spec k (xnbu D s)); [reflexivity|lia]).
    + destruct (Nat.ltb_spec 0 (xnbx D s)); [|lia]. rewrite loop_upd_vset, vset_in by lia. reflexivity.
Qed.
Print Assumptions C13_set_all_rest.

(** Meaning: the QP the residuals and the optimality certificate (C18-C20) talk about is the textbook QP written with the
    arrays the user gave (column-major A, B, Q, S, R, C, D; only the lower triangles of Q and R matter). *)
Theorem C13_meaning_dynamics (D : xdim) (p : qpd R) (z : nat -> nat -> R) i j : j < xnx D (i + 1) ->
  let A := get_r D FA i p (fun _ => 0%R) in let B := get_r D FB i p (fun _ => 0%R) in let b := get_r D Fb i p (fun _ => 0%R) in
  (dyn (to_oqp D p) z i j = rsum (xnx D i) (fun c => A (j + c * xnx D (i+1))%nat * z i (xnu D i + c)%nat)
    + rsum (xnu D i) (fun c => B (j + c * xnx D (i+1))%nat * z i c) + b j - z (i+1)%nat (xnu D (i+1) + j)%nat)%R.
Proof. apply mean_dyn. Qed.
Print Assumptions C13_meaning_dynamics.
Theorem C13_meaning_cost (D : xdim) (p : qpd R) (z : nat -> nat -> R) i :
  let get f := get_r D f i p (fun _ => 0%R) in let nu := xnu D i in let nx := xnx D i in let ns := xns D i in
  let u k := z i k in let x k := z i (nu + k) in let sl k := z i (nu + nx + k) in let su k := z i (nu + nx + ns + k) in
  (stage_cost (to_oqp D p) z i =
    1/2 * rsum nu (fun a => rsum nu (fun b => u a * lowsym nu (get FR) a b * u b))
    + rsum nu (fun a => rsum nx (fun b => u a * get FS (a + b * nu)%nat * x b))
    + 1/2 * rsum nx (fun a => rsum nx (fun b => x a * lowsym nx (get FQ) a b * x b))
    + rsum nu (fun a => get Fr a * u a) + rsum nx (fun a => get Fq a * x a)
    + 1/2 * rsum ns (fun a => get FZl a * (sl a * sl a)) + 1/2 * rsum ns (fun a => get FZu a * (su a * su a))
    + rsum ns (fun a => get Fzl a * sl a) + rsum ns (fun a => get Fzu a * su a))%R.
Proof. apply mean_cost. Qed.
Print Assumptions C13_meaning_cost.
Theorem C13_meaning_constraints (D : xdim) (p : qpd R) (z : nat -> nat -> R) i :
  stage_wf (xnu D i + xnx D i) (xnb D i) (xng D i) (xns D i) (fun j => Z.to_nat (p_idxb p i j)) (p_idxs_rev p i) ->
  let get f := get_r D f i p (fun _ => 0%R) in let nb := xnb D i in let ng := xng D i in let ns := xns D i in
  let qp := to_oqp D p in let v j := z i (Z.to_nat (p_idxb p i j)) in
  let holds c := (con qp z i c >= q_d qp i c)%R in
  let off := xnu D i + xnx D i in
  (forall j, j < nb -> (holds j <-> get Flb j <= v j + slack_lo D p z i j)%R /\ (holds (nb + ng + j)%nat <-> v j - slack_up D p z i j <= get Fub j)%R) /\
  (forall j, j < ng -> (holds (nb + j)%nat <-> get Flg j <= gen_val D p z i j + slack_lo D p z i (nb + j)%nat)%R /\
                       (holds (2 * nb + ng + j)%nat <-> gen_val D p z i j - slack_up D p z i (nb + j) <= get Fug j)%R) /\
  (forall j, j < ns -> (holds (2 * nb + 2 * ng + j)%nat <-> get Flls j <= z i (off + j)%nat)%R /\ (holds (2 * nb + 2 * ng + ns + j)%nat <-> get Flus j <= z i (off + ns + j)%nat)%R).
Proof.
  intros Hwf; cbv zeta; split; [|split]; intros j Hj; split;
  [apply mean_lb|apply mean_ub|apply mean_lg|apply mean_ug|apply mean_lls|apply mean_lus]; assumption.
Qed.
Print Assumptions C13_meaning_constraints.

(** * C14: sign convention and masks *)
(** Upper bounds are stored with the opposite sign (the solver's one-sided form -v >= -ub), lower bounds verbatim. *)
Theorem C14_upper_bounds_negated (D : xdim) (s : nat) (v : nat -> R) (p : qpd R) k :
  let nb := xnb D s in let ng := xng D s in
  (k < nb -> q_d (to_oqp D (set_r D Fub s v p)) s (nb + ng + k) = (- v k)%R /\ q_d (to_oqp D (set_r D Flb s v p)) s k = v k) /\
  (k < ng -> q_d (to_oqp D (set_r D Fug s v p)) s (2 * nb + ng + k) = (- v k)%R /\ q_d (to_oqp D (set_r D Flg s v p)) s (nb + k) = v k).
Proof.
  cbv zeta. cbn [q_d to_oqp set_r w_d p_d]. rewrite !upd_same. unfold VECSC, PACK_VEC. rsimp.
  split; intros Hk; split; repeat (rewrite vset_in' by lia);
  repeat match goal with |- context [v ?e] => tryif constr_eq e k then fail else replace e with k by lia end; lra.
Qed.
Print Assumptions C14_upper_bounds_negated.
(** Every constraint is active (mask 1) until a mask setter is called, whatever else is called (bounds included). *)
Theorem C14_masks_default (D : xdim) (h : list (op R)) : (forall f s v, In (OpR f s v) h -> is_mask f = false) ->
  forall i c, i <= xN D -> c < xnct D i -> q_mask (to_oqp D (run D h (qp_create D))) i c = 1%R.
Proof.
  intros H i c Hi Hc. cbn [q_mask to_oqp].
  apply (run_mask D (fun x => x = 1%R) h (qp_create D)); auto.
  - rsimp. lra.
  - apply Forall_forall. intros o Ho. destruct o; cbn [mask_payload]; auto. intros E. rewrite (H _ _ _ Ho) in E. discriminate.
  - intros i' c' Hi' Hc'. rewrite (create_mask D i' c' Hi' Hc'). rsimp. lra.
Qed.
Print Assumptions C14_masks_default.
(** If the user only gives masks made of 0 and 1, the masks are 0/1 after any history (the hypothesis mask01 of C18-C20). *)
Theorem C14_masks_01 (D : xdim) (h : list (op R)) :
  (forall f s v k, In (OpR f s v) h -> is_mask f = true -> k < flen D f s -> v k = 0%R \/ v k = 1%R) ->
  mask01 (to_oqp D (run D h (qp_create D))).
Proof.
  intros H i c Hi Hc. cbn [q_mask to_oqp q_dim dN] in *.
  apply (run_mask D (fun x => x = 0%R \/ x = 1%R) h (qp_create D)); auto.
  - right. rsimp. lra.
  - apply Forall_forall. intros o Ho. destruct o; cbn [mask_payload]; auto. intros E k Hk. eapply H; eassumption.
  - intros i' c' Hi' Hc'. right. rewrite (create_mask D i' c' Hi' Hc'). rsimp. lra.
Qed.
Print Assumptions C14_masks_01.
(** A bound value never changes a mask and a mask never changes a bound value. *)
Theorem C14_mask_independent {F} {AF : Arith F} (D : xdim) f s (v : nat -> F) (p : qpd F) :
  (is_mask f = false -> p_mask (set_r D f s v p) = p_mask p) /\ (is_mask f = true -> p_d (set_r D f s v p) = p_d p).
Proof. split; intros E; destruct f; try discriminate E; reflexivity. Qed.
Print Assumptions C14_mask_independent.

(** * C15: soft-constraint index maps *)
Section C15.
Context {F : Type} {AF : Arith F}.
Variable D : xdim.
Variable s : nat.
Notation nb := (xnb D s). Notation nbu := (xnbu D s). Notation nbx := (xnbx D s). Notation ng := (xng D s). Notation ns := (xns D s).
(** [sel j] = the slack of constraint j (numbering: input bounds, state bounds, general constraints) *)
Variable sel : nat -> option nat.
Hypothesis sel_range : forall j a, j < nb + ng -> sel j = Some a -> a < ns.
(** the map as an integer array, -1 = hard *)
Definition sel_rev (j : nat) : Z := match sel j with Some a => Z.of_nat a | None => (-1)%Z end.
(** no constraint of the stage softened yet *)
Definition all_hard (p : qpd F) : Prop := forall j, j < nb + ng -> p_idxs_rev p s j = (-1)%Z.
(** idxs lists, slack by slack, the softened constraint (one constraint per slack) *)
Definition is_idxs (v : nat -> Z) : Prop := (forall a, a < ns -> (0 <= v a < Z.of_nat (nb + ng))%Z) /\ (forall j a, j < nb + ng -> a < ns -> (sel j = Some a <-> v a = Z.of_nat j)).
(** 0/1 selection matrices, column-major, n rows starting at constraint off *)
Definition is_J (off n : nat) (J : nat -> F) : Prop := forall ii a, ii < n -> a < ns -> (nonzero (J (ii + a * n)) = true <-> sel (off + ii) = Some a).

Theorem C15_idxs_rev_set (v : nat -> Z) (p : qpd F) j : j < nb + ng -> p_idxs_rev (set_i D Iidxs_rev s v p) s j = v j.
Proof.
  intros Hj. cbn [set_i w_idxs p_idxs_rev]. rewrite upd_same, loop_upd_at. destruct (Nat.ltb_spec j (nb + ng)); [reflexivity|lia].
Qed.
Theorem C15_idxs_agrees (v : nat -> Z) (p : qpd F) : all_hard p -> is_idxs v ->
  forall j, j < nb + ng -> p_idxs_rev (set_i D Iidxs s v p) s j = sel_rev j.
Proof.
  intros Hp [Hr Hv] j Hj. cbn [set_i w_idxs p_idxs_rev]. rewrite upd_same. unfold sel_rev.
  assert (Hinj : forall a b, a < ns -> b < ns -> Z.to_nat (v a) = Z.to_nat (v b) -> a = b).
  { intros a b Ha Hb E. pose proof (Hr a Ha). pose proof (Hr b Hb).
    assert (E1 : v a = Z.of_nat (Z.to_nat (v a))) by lia. assert (E2 : v b = Z.of_nat (Z.to_nat (v a))) by lia.
    apply Hv in E1; [|lia|exact Ha]. apply Hv in E2; [|lia|exact Hb]. congruence. }
  destruct (idxs_loop ns v (p_idxs_rev p s) j Hinj) as [I1 I2].
  destruct (sel j) as [a|] eqn:Es.
  - pose proof (sel_range j a Hj Es) as Ha. apply I1; [exact Ha|]. apply Hv in Es; [|exact Hj|exact Ha]. rewrite Es. apply Nat2Z.id.
  - rewrite I2; [apply Hp; exact Hj|]. intros a Ha E. pose proof (Hr a Ha). assert (E' : v a = Z.of_nat j) by lia. apply Hv in E'; [|exact Hj|exact Ha]. congruence.
Qed.
Theorem C15_J_agrees (Ju Jx Jg : nat -> F) (p : qpd F) : all_hard p ->
  is_J 0 nbu Ju -> is_J nbu nbx Jx -> is_J nb ng Jg ->
  forall j, j < nb + ng -> p_idxs_rev (set_j D Jsg s Jg (set_j D Jsbx s Jx (set_j D Jsbu s Ju p))) s j = sel_rev j.
Proof.
  intros Hp Hu Hx Hg j Hj. cbn [set_j w_idxs p_idxs_rev]. rewrite !upd_same.
  rewrite (scan_rows ng ns (fun ii jj => nonzero (Jg (ii + jj * ng)%nat)) nb (fun jj => Z.of_nat jj) (fun ii => sel (nb + ii))); [|intros; apply Hg; assumption|intros; eapply sel_range; [|eassumption]; lia].
  rewrite (scan_rows nbx ns (fun ii jj => nonzero (Jx (ii + jj * nbx)%nat)) nbu (fun jj => Z.of_nat jj) (fun ii => sel (nbu + ii))); [|intros; apply Hx; assumption|intros; eapply sel_range; [|eassumption]; unfold xnb; lia].
  rewrite (scan_rows nbu ns (fun ii jj => nonzero (Ju (ii + jj * nbu)%nat)) 0 (fun jj => Z.of_nat jj) sel); [|intros; apply Hu; assumption|intros; eapply sel_range; [|eassumption]; unfold xnb; lia].
  rewrite (Hp j Hj). unfold sel_rev. unfold xnb in *.
  destruct (Nat.leb_spec (nbx + nbu) j); destruct (Nat.ltb_spec j (nbx + nbu + ng)); try lia; cbn [andb].
  - replace (nbx + nbu + (j - (nbx + nbu))) with j by lia. destruct (sel j); [reflexivity|].
    destruct (Nat.leb_spec nbu j); destruct (Nat.ltb_spec j (nbu + nbx)); try lia; cbn [andb]; destruct (Nat.leb_spec 0 j); destruct (Nat.ltb_spec j (0 + nbu)); try lia; reflexivity.
  - destruct (Nat.leb_spec nbu j); destruct (Nat.ltb_spec j (nbu + nbx)); try lia; cbn [andb].
    + replace (nbu + (j - nbu)) with j by lia. destruct (sel j); [reflexivity|]. destruct (Nat.leb_spec 0 j); destruct (Nat.ltb_spec j (0 + nbu)); try lia; reflexivity.
    + destruct (Nat.leb_spec 0 j); destruct (Nat.ltb_spec j (0 + nbu)); try lia; cbn [andb]. rewrite Nat.sub_0_r. reflexivity.
Qed.
(** get idxs after set idxs returns idxs; get idxs_rev returns the inverse map *)
Theorem C15_idxs_roundtrip (v : nat -> Z) (p : qpd F) (out : nat -> Z) : all_hard p -> is_idxs v ->
  (forall a, a < ns -> get_idxs D s (set_i D Iidxs s v p) out a = v a) /\
  (forall j, j < nb + ng -> get_idxs_rev D s (set_i D Iidxs s v p) out j = sel_rev j).
Proof.
  intros Hp Hv. pose proof (C15_idxs_agrees v p Hp Hv) as E. destruct Hv as [Hr Hv]. split.
  - intros a Ha. unfold get_idxs. pose proof (Hr a Ha).
    assert (Hs : forall j, j < nb + ng -> sel_rev j = Z.of_nat a -> sel j = Some a).
    { unfold sel_rev. intros j Hj Ej. destruct (sel j) as [b|]; [f_equal; lia|lia]. }
    rewrite (loop_ext _ _ (fun ii y => let t := sel_rev ii in if Z.eqb t (-1) then y else upd y (Z.to_nat t) (Z.of_nat ii))) by (intros; rewrite E by assumption; reflexivity).
    rewrite (get_idxs_loop (nb + ng) sel_rev out a) with (a := Z.to_nat (v a)); try lia.
    + intros x y Hx Hy Exy Hne. unfold sel_rev in *. destruct (sel x) as [b|] eqn:Ex; [|lia]. destruct (sel y) as [c|] eqn:Ey; [|lia].
      assert (b = c) by lia. subst c. pose proof (sel_range x b Hx Ex) as Hb. apply Hv in Ex; [|exact Hx|exact Hb]. apply Hv in Ey; [|exact Hy|exact Hb]. lia.
    + intros x Hx. unfold sel_rev. destruct (sel x); lia.
    + unfold sel_rev. assert (Es : sel (Z.to_nat (v a)) = Some a) by (apply Hv; lia). rewrite Es. reflexivity.
  - intros j Hj. unfold get_idxs_rev. rewrite loop_upd_at. destruct (Nat.ltb_spec j (nb + ng)); [|lia]. apply E. exact Hj.
Qed.
End C15.
Print Assumptions C15_idxs_agrees.
Print Assumptions C15_J_agrees.
Print Assumptions C15_idxs_roundtrip.
(** A freshly created QP is all hard; concrete instance of the hypotheses. *)
Theorem C15_created_all_hard {F} {AF : Arith F} (D : xdim) s : all_hard D s (qp_create (F := F) D).
Proof. intros j Hj. unfold qp_create. cbn [p_idxs_rev]. rewrite vset_in' by lia. reflexivity. Qed.
Definition D_ex : xdim := mkxdim 1 (fun _ => 2) (fun _ => 1) (fun _ => 2) (fun _ => 1) (fun _ => 1) (fun _ => 2) (fun _ => 0) (fun _ => 0) (fun _ => 0).
Example C15_hypotheses_met :
  let sel j := if j =? 1 then Some 0 else if j =? 3 then Some 1 else None in
  (forall j a, j < xnb D_ex 0 + xng D_ex 0 -> sel j = Some a -> a < xns D_ex 0) /\ is_idxs D_ex 0 sel (fun a => if a =? 0 then 1%Z else 3%Z).
Proof.
  cbv zeta. split; [intros j a Hj; cbn in *; destruct (Nat.eqb_spec j 1); [intros E; injection E as <-; lia|]; destruct (Nat.eqb_spec j 3); [intros E; injection E as <-; lia|discriminate]|].
  split; cbn.
  - intros a Ha. destruct (Nat.eqb_spec a 0); lia.
  - intros j a Hj Ha. destruct (Nat.eqb_spec j 1); destruct (Nat.eqb_spec j 3); destruct (Nat.eqb_spec a 0); subst; try (split; [discriminate || congruence|lia]);
    split; intros H; try (injection H as <-); try lia; try reflexivity; try discriminate; try (f_equal; lia).
Qed.
(** Setting idxs a second time does NOT replace the map: entries of the first call survive (ocp_qp/x_ocp_qp.c 1559-1571). *)
Theorem C15_reset_idxs_refuted :
  exists (D : xdim) (v w : nat -> Z), let p := set_i D Iidxs 0 w (set_i D Iidxs 0 v (qp_create (F := R) D)) in
  xns D 0 = 1 /\ w 0 = 1%Z /\ p_idxs_rev p 0 1 = 0%Z /\ p_idxs_rev p 0 0 = 0%Z /\ get_idxs_rev D 0 p (fun _ => 0%Z) 0 <> (-1)%Z.
Proof.
  exists (mkxdim 0 (fun _ => 2) (fun _ => 0) (fun _ => 2) (fun _ => 0) (fun _ => 0) (fun _ => 1) (fun _ => 0) (fun _ => 0) (fun _ => 0)), (fun _ => 0%Z), (fun _ => 1%Z).
  cbv zeta. repeat split; try reflexivity. cbn. discriminate.
Qed.
Print Assumptions C15_reset_idxs_refuted.

(** * C36: bound selection: idxb, idxbu/idxbx and Jbu/Jbx describe the same thing *)
Theorem C36_bound_selection {F} {AF : Arith F} (D : xdim) s (selu selx : nat -> nat) (Ju Jx : nat -> F) (p : qpd F) (out : nat -> Z) :
  (forall ii, ii < xnbu D s -> selu ii < xnu D s) -> (forall ii, ii < xnbx D s -> selx ii < xnx D s) ->
  (forall ii jj, ii < xnbu D s -> jj < xnu D s -> (nonzero (Ju (ii + jj * xnbu D s)%nat) = true <-> jj = selu ii)) ->
  (forall ii jj, ii < xnbx D s -> jj < xnx D s -> (nonzero (Jx (ii + jj * xnbx D s)%nat) = true <-> jj = selx ii)) ->
  forall k, k < xnbu D s + xnbx D s ->
  let want := if k <? xnbu D s then Z.of_nat (selu k) else Z.of_nat (xnu D s + selx (k - xnbu D s)) in
  get_idxb D s (set_j D Jbx s Jx (set_j D Jbu s Ju p)) out k = want /\
  get_idxb D s (set_i D Iidxbx s (fun i => Z.of_nat (selx i)) (set_i D Iidxbu s (fun i => Z.of_nat (selu i)) p)) out k = want.
Proof.
  intros Hu Hx HJu HJx k Hk. cbv zeta. unfold get_idxb. rewrite !loop_upd_at. unfold xnb. destruct (Nat.ltb_spec k (xnbx D s + xnbu D s)); [|lia].
  split.
  - cbn [set_j w_idxb p_idxb]. rewrite !upd_same.
    rewrite (scan_rows (xnbx D s) (xnx D s) (fun ii jj => nonzero (Jx (ii + jj * xnbx D s)%nat)) (xnbu D s) (fun jj => Z.of_nat (xnu D s + jj)) (fun ii => Some (selx ii))).
    2:{ intros ii jj Hi Hj. rewrite HJx by assumption. split; [intros ->; reflexivity|intros E; congruence]. }
    2:{ intros ii jj Hi E. injection E as <-. apply Hx; exact Hi. }
    pose proof (scan_rows (xnbu D s) (xnu D s) (fun ii jj => nonzero (Ju (ii + jj * xnbu D s)%nat)) 0 (fun jj => Z.of_nat jj) (fun ii => Some (selu ii)) (p_idxb p s) k) as E.
    cbn [Nat.add] in E. rewrite E.
    2:{ intros ii jj Hi Hj. rewrite HJu by assumption. split; [intros ->; reflexivity|intros E'; congruence]. }
    2:{ intros ii jj Hi E'. injection E' as <-. apply Hu; exact Hi. }
    destruct (Nat.leb_spec (xnbu D s) k); destruct (Nat.ltb_spec k (xnbu D s + xnbx D s)); try lia; cbn [andb]; destruct (Nat.ltb_spec k (xnbu D s)); try lia; try reflexivity.
    destruct (Nat.leb_spec 0 k); destruct (Nat.ltb_spec k (0 + xnbu D s)); try lia; cbn [andb]. rewrite Nat.sub_0_r. reflexivity.
  - cbn [set_i w_idxb p_idxb]. rewrite !upd_same. rewrite loop_upd_vset. destruct (Nat.ltb_spec k (xnbu D s)).
    + rewrite vset_out by lia. rewrite loop_upd_at. destruct (Nat.ltb_spec k (xnbu D s)); [reflexivity|lia].
    + rewrite vset_in' by lia. lia.
Qed.
Print Assumptions C36_bound_selection.
Theorem C36_idxb_roundtrip {F} {AF : Arith F} (D : xdim) s (v : nat -> Z) (p : qpd F) (out : nat -> Z) k :
  k < xnbu D s + xnbx D s -> get_idxb D s (set_i D Iidxb s v p) out k = v k.
Proof.
  intros Hk. unfold get_idxb. rewrite loop_upd_at. unfold xnb. destruct (Nat.ltb_spec k (xnbx D s + xnbu D s)); [|lia].
  cbn [set_i w_idxb p_idxb]. rewrite upd_same, loop_upd_at. unfold xnb. destruct (Nat.ltb_spec k (xnbx D s + xnbu D s)); [reflexivity|lia].
Qed.

(** * C37: equality-constraint marks *)
(** idxbue, idxbxe, idxge together write what idxe holds (in the numbering of the constraints of the stage). *)
Theorem C37_idxe_parts {F} {AF : Arith F} (D : xdim) s (vu vx vg : nat -> Z) (p : qpd F) (out : nat -> Z) k :
  k < xnbue D s + xnbxe D s + xnge D s ->
  get_idxe D s (set_i D Iidxge s vg (set_i D Iidxbxe s vx (set_i D Iidxbue s vu p))) out k =
  if k <? xnbue D s then vu k else if k <? xnbue D s + xnbxe D s then (Z.of_nat (xnbu D s) + vx (k - xnbue D s)%nat)%Z
  else (Z.of_nat (xnbu D s) + Z.of_nat (xnbx D s) + vg (k - (xnbue D s + xnbxe D s))%nat)%Z.
Proof.
  intros Hk. unfold get_idxe. rewrite loop_upd_at. destruct (Nat.ltb_spec k (xnbxe D s + xnbue D s + xnge D s)); [|lia].
  cbn [set_i w_idxe p_idxe]. rewrite !upd_same, loop_upd_vset.
  destruct (Nat.ltb_spec k (xnbue D s)); [|destruct (Nat.ltb_spec k (xnbue D s + xnbxe D s))].
  - rewrite vset_out, loop_upd_vset, vset_out by lia. rewrite loop_upd_at. destruct (Nat.ltb_spec k (xnbue D s)); [reflexivity|lia].
  - rewrite vset_out, loop_upd_vset, vset_in' by lia. reflexivity.
  - rewrite vset_in' by lia. reflexivity.
Qed.
Print Assumptions C37_idxe_parts.
(** The selection-vector setters Jbue/Jbxe/Jge do not do what idxbue/idxbxe/idxge do: the test is "idx<nbue | J!=0" instead of
    "&", so the first nbue bounds are marked whatever J says (x_ocp_qp.c 1817, 1839, 1863), and a nonzero beyond writes past nbue. *)
Theorem C37_J_marks_refuted :
  exists (D : xdim) (J : nat -> R), let p := set_j D Jbue 0 J (qp_create D) in
  xnbu D 0 = 3 /\ xnbue D 0 = 1 /\ (forall ii, J ii = if ii =? 2 then 1%R else 0%R) /\
  p_idxe p 0 0 = 0%Z (* should be 2 *) /\ p_idxe p 0 1 = 2%Z (* written outside the nbue entries *).
Proof.
  exists (mkxdim 0 (fun _ => 0) (fun _ => 3) (fun _ => 0) (fun _ => 3) (fun _ => 0) (fun _ => 0) (fun _ => 0) (fun _ => 1) (fun _ => 0)), (fun ii => if ii =? 2 then 1%R else 0%R).
  cbv zeta. repeat split; try reflexivity; cbn [set_j w_idxe p_idxe xnbu xnbue]; rewrite upd_same; unfold sel_loop, nonzero; cbn [loop Nat.ltb Nat.leb orb Nat.eqb]; rsimp;
  (destruct (Reqb_spec 0 (0/1)); [|exfalso; lra]); (destruct (Reqb_spec 1 (0/1)); [exfalso; lra|]); cbn; reflexivity.
Qed.
Print Assumptions C37_J_marks_refuted.

(** * C16: set_all_zero versus create *)
Definition zero_field_ok (f : rfield) (s : nat) (D : xdim) : Prop := s <= xN D /\ (f = FA \/ f = FB \/ f = Fb -> s < xN D).
(** everything except the soft-constraint map is back to its just-created value, after any history *)
Theorem C16_set_all_zero_partial (D : xdim) (p : qpd R) (out : nat -> R) (iout : nat -> Z) s : s <= xN D ->
  let p' := set_all_zero D p in let c := qp_create D in
  (forall f k, zero_field_ok f s D -> get_r D f s p' out k = get_r D f s c out k) /\
  (forall k, get_idxb D s p' iout k = get_idxb D s c iout k) /\ (forall k, get_idxe D s p' iout k = get_idxe D s c iout k) /\ p_diag p' s = p_diag c s /\
  (forall k, k < xns D s -> k < xnb D s + xng D s -> get_idxs_rev D s p' iout k = get_idxs_rev D s c iout k).
Proof.
  intros Hs. cbv zeta. destruct (all_zero_stage D p s Hs) as (E1 & E2 & E3 & E4 & E5 & E6 & E7 & E8 & E9 & E10 & E11).
  split; [|split; [|split; [|split]]].
  - intros f k [_ Hf]. apply get_range; unfold qp_create; cbn [p_BAbt p_RSQ p_DCt p_b p_rqz p_d p_mask p_m p_Z].
    + intros r c Hfa Hr Hc. destruct (all_zero_stageN D p s) as [Ea _]; [apply Hf; tauto|]. rewrite Ea. unfold GESE. rewrite mblk_in' by lia. reflexivity.
    + intros r c Hr Hc. rewrite E1. unfold GESE. rewrite mblk_in' by lia. reflexivity.
    + intros r c Hr Hc. rewrite E2. unfold GESE. rewrite mblk_in' by lia. reflexivity.
    + intros r Hfa Hr. destruct (all_zero_stageN D p s) as [_ Eb]; [apply Hf; tauto|]. rewrite Eb. unfold VECSE. rewrite vset_in' by lia. reflexivity.
    + intros r Hr. rewrite E3. unfold VECSE. rewrite vset_in' by lia. reflexivity.
    + intros r Hr. rewrite E4. unfold VECSE. rewrite vset_in' by lia. reflexivity.
    + intros r Hr. rewrite E5. unfold VECSE. rewrite !vset_in' by lia. reflexivity.
    + intros r Hr. rewrite E6. unfold VECSE. rewrite vset_in' by lia. reflexivity.
    + intros r Hr. rewrite E7. unfold VECSE. rewrite vset_in' by lia. reflexivity.
  - intros k. unfold get_idxb. rewrite !loop_upd_at. destruct (Nat.ltb_spec k (xnb D s)); [|reflexivity]. rewrite E8, loop_upd_at. destruct (Nat.ltb_spec k (xnb D s)); [reflexivity|lia].
  - intros k. unfold get_idxe. rewrite !loop_upd_at. destruct (Nat.ltb_spec k (xnbxe D s + xnbue D s + xnge D s)); [|reflexivity].
    rewrite E10, loop_upd_at. destruct (Nat.ltb_spec k (xnbue D s + xnbxe D s + xnge D s)); [reflexivity|lia].
  - rewrite E11. reflexivity.
  - intros k Hk Hk2. unfold get_idxs_rev. rewrite !loop_upd_at. destruct (Nat.ltb_spec k (xnb D s + xng D s)); [|lia].
    rewrite E9, loop_upd_at. destruct (Nat.ltb_spec k (xns D s)); [|lia]. rewrite C15_created_all_hard by lia. reflexivity.
Qed.
Print Assumptions C16_set_all_zero_partial.
(** The soft-constraint map is not reset beyond its first ns entries (x_ocp_qp.c 466-467: the loop runs to ns, not nb+ng): after set_all_zero
    a constraint is still softened. *)
Theorem C16_soft_map_refuted :
  exists (D : xdim) (h : list (op R)), let p := run D (h ++ [OpAllZero]) (qp_create D) in
  xns D 0 = 1 /\ get_idxs_rev D 0 p (fun _ => 0%Z) 1 = 0%Z /\ get_idxs_rev D 0 (qp_create (F := R) D) (fun _ => 0%Z) 1 = (-1)%Z.
Proof.
  exists (mkxdim 0 (fun _ => 2) (fun _ => 0) (fun _ => 2) (fun _ => 0) (fun _ => 0) (fun _ => 1) (fun _ => 0) (fun _ => 0) (fun _ => 0)), [OpI Iidxs 0 (fun _ => 1%Z)].
  cbv zeta. repeat split; reflexivity.
Qed.
Print Assumptions C16_soft_map_refuted.

(** * C17: copy is complete *)
Theorem C17_copy_all {F} {AF : Arith F} (D : xdim) (o p : qpd F) (out : nat -> F) (iout : nat -> Z) s : s <= xN D ->
  let p' := copy_all D o p in
  (forall f k, zero_field_ok f s D -> get_r D f s p' out k = get_r D f s o out k) /\
  (forall k, get_idxb D s p' iout k = get_idxb D s o iout k) /\ (forall k, get_idxs_rev D s p' iout k = get_idxs_rev D s o iout k) /\
  (forall k, get_idxs D s p' iout k = get_idxs D s o iout k) /\
  (forall k, get_idxe D s p' iout k = get_idxe D s o iout k) /\ p_diag p' s = p_diag o s.
Proof.
  intros Hs. cbv zeta. destruct (copy_stage D o p s Hs) as (E1 & E2 & E3 & E4 & E5 & E6 & E7 & E8 & E9 & E10 & E11).
  assert (Er : forall k, k < xnb D s + xng D s -> p_idxs_rev (copy_all D o p) s k = p_idxs_rev o s k).
  { intros k Hk. rewrite E9, loop_upd_at. destruct (Nat.ltb_spec k (xnb D s + xng D s)); [reflexivity|lia]. }
  split; [|split; [|split; [|split; [|split]]]].
  - intros f k [_ Hf]. apply get_range.
    + intros r c Hfa Hr Hc. destruct (copy_stageN D o p s) as [Ea _]; [apply Hf; tauto|]. rewrite Ea. unfold GECP. rewrite mblk_in' by lia. f_equal; lia.
    + intros r c Hr Hc. rewrite E1. unfold GECP. rewrite mblk_in' by lia. f_equal; lia.
    + intros r c Hr Hc. rewrite E2. unfold GECP. rewrite mblk_in' by lia. f_equal; lia.
    + intros r Hfa Hr. destruct (copy_stageN D o p s) as [_ Eb]; [apply Hf; tauto|]. rewrite Eb. unfold VECCP. rewrite vset_in' by lia. f_equal; lia.
    + intros r Hr. rewrite E3. unfold VECCP. rewrite vset_in' by lia. f_equal; lia.
    + intros r Hr. rewrite E4. unfold VECCP. rewrite vset_in' by lia. f_equal; lia.
    + intros r Hr. rewrite E5. unfold VECCP. rewrite !vset_in' by lia. f_equal; lia.
    + intros r Hr. rewrite E6. unfold VECCP. rewrite vset_in' by lia. f_equal; lia.
    + intros r Hr. rewrite E7. unfold VECCP. rewrite vset_in' by lia. f_equal; lia.
  - intros k. unfold get_idxb. rewrite !loop_upd_at. destruct (Nat.ltb_spec k (xnb D s)); [|reflexivity]. rewrite E8, loop_upd_at. destruct (Nat.ltb_spec k (xnb D s)); [reflexivity|lia].
  - intros k. unfold get_idxs_rev. rewrite !loop_upd_at. destruct (Nat.ltb_spec k (xnb D s + xng D s)); [|reflexivity]. apply Er. assumption.
  - intros k. unfold get_idxs. rewrite (loop_ext _ _ (fun ii y => let t := p_idxs_rev o s ii in if Z.eqb t (-1) then y else upd y (Z.to_nat t) (Z.of_nat ii))); [reflexivity|].
    intros ii y Hi. rewrite Er by assumption. reflexivity.
  - intros k. unfold get_idxe. rewrite !loop_upd_at. destruct (Nat.ltb_spec k (xnbxe D s + xnbue D s + xnge D s)); [|reflexivity].
    rewrite E10, loop_upd_at. destruct (Nat.ltb_spec k (xnbue D s + xnbxe D s + xnge D s)); [reflexivity|lia].
  - exact E11.
Qed.
Print Assumptions C17_copy_all.

(** * C13 (continued): right-hand sides are stored twice, consistently *)
(** b is also the last row of the dynamics matrix and [r;q] the last row of the cost matrix; every history of data-API calls
    without set_rhs_zero keeps the two copies equal. *)
Theorem C13_duplicated_rows (D : xdim) (h : list (op R)) : ~ In OpRhsZero h ->
  let p := run D h (qp_create D) in
  (forall i j, i < xN D -> j < xnx D (i + 1) -> p_BAbt p i (xnu D i + xnx D i)%nat j = get_r D Fb i p (fun _ => 0%R) j) /\
  (forall i j, i <= xN D -> j < xnu D i -> p_RSQ p i (xnu D i + xnx D i)%nat j = get_r D Fr i p (fun _ => 0%R) j) /\
  (forall i j, i <= xN D -> j < xnx D i -> p_RSQ p i (xnu D i + xnx D i)%nat (xnu D i + j)%nat = get_r D Fq i p (fun _ => 0%R) j).
Proof.
  intros Hh. cbv zeta. destruct (rows_run D h (qp_create D) Hh) as [H1 H2]; [split; intros; reflexivity|].
  split; [|split]; intros i j Hi Hj; unfold get_r, UNPACK_VEC; rewrite vset0_in by lia; [apply H1|apply H2|apply H2]; lia.
Qed.
Print Assumptions C13_duplicated_rows.
(** set_rhs_zero clears only the vector copies: the rows keep the old values (x_ocp_qp.c 479-508). Every consumer of the rows in
    x_ocp_qp_kkt.c and x_cond_aux.c first overwrites them with ROWIN, so this is not visible to the user. *)
Theorem C13_duplicated_rows_refuted :
  exists (D : xdim) (v : nat -> R), let p := run D [OpR Fq 0 v; OpRhsZero] (qp_create D) in
  get_r D Fq 0 p (fun _ => 7%R) 0 = 0%R /\ p_RSQ p 0 (xnu D 0 + xnx D 0) 0 = 1%R.
Proof.
  exists (mkxdim 0 (fun _ => 1) (fun _ => 0) (fun _ => 0) (fun _ => 0) (fun _ => 0) (fun _ => 0) (fun _ => 0) (fun _ => 0) (fun _ => 0)), (fun _ => 1%R).
  cbv zeta. split; [|reflexivity]. cbn. lra.
Qed.
Print Assumptions C13_duplicated_rows_refuted.

(** * C38: set_rhs_zero zeroes the gradients, bounds and affine terms and nothing else *)
Theorem C38_rhs_zero (D : xdim) (p : qpd R) (out : nat -> R) f s k : zero_field_ok f s D -> k < flen D f s ->
  get_r D f s (set_rhs_zero D p) out k =
  match f with
  | FA | FB | FQ | FS | FR | FC | FD | FZl | FZu => get_r D f s p out k
  | Flb_mask | Flbu_mask | Flbx_mask | Fub_mask | Fubu_mask | Fubx_mask | Flg_mask | Fug_mask | Flls_mask | Flus_mask => get_r D f s p out k
  | _ => 0%R
  end.
Proof.
  intros [Hs Hf] Hk.
  destruct (is_mask f) eqn:Em.
  { change (set_rhs_zero D p) with (do_op D OpRhsZero p). rewrite (do_op_leaves D OpRhsZero) by (cbn; auto). destruct f; try discriminate Em; reflexivity. }
  destruct (rhs_zero_vecs D p s Hs) as (E1 & E2 & E3). unfold VECSE in *. unfold flen, xnct, xnb in *.
  destruct f; try discriminate Em; try (apply (do_op_leaves D OpRhsZero); cbn; tauto);
  unfold get_r, UNPACK_VEC, xnb in *; rewrite ?E1, ?E2, ?E3; rewrite ?(rhs_zero_b D p s) by (apply Hf; tauto); unfold VECSE;
  rewrite ?neg_loop_in by lia; rewrite ?(vset0_in out) by lia; rewrite ?vset_in' by lia; rsimp; lra.
Qed.
Print Assumptions C38_rhs_zero.
