(** ArgProps.v -- property theorems C34 (solver arguments). *)
From Coq Require Import ZArith Bool Arith List String Reals Lia Lra.
From Verif Require Import Base ArithF AuxModel AuxProofs NamesAux ArgModel.
Import ListNotations.
Local Open Scope Z_scope.

(** Specification: what each API setter is for: the argument it names (a REAL or an int one). *)
Definition target_of (s : setter) : rarg + iarg :=
  match s with
  | S_iter_max => inr iter_max | S_alpha_min => inl alpha_min | S_mu0 => inl mu0 | S_tol_stat => inl res_g_max | S_tol_eq => inl res_b_max
  | S_tol_ineq => inl res_d_max | S_tol_comp => inl res_m_max | S_tol_dual_gap => inl dual_gap_max | S_reg_prim => inl reg_prim | S_warm_start => inr warm_start
  | S_pred_corr => inr pred_corr | S_cond_pred_corr => inr cond_pred_corr | S_ric_alg => inr square_root_alg | S_comp_dual_sol_eq => inr comp_dual_sol_eq
  | S_comp_res_exit => inr comp_res_exit | S_comp_res_pred => inr comp_res_pred | S_lam_min => inl lam_min | S_t_min => inl t_min | S_tau_min => inl tau_min
  | S_lam0_min => inl lam0_min | S_t0_min => inl t0_min | S_split_step => inr split_step | S_m_safe => inl m_safe | S_var_init_scheme => inr var_init_scheme
  | S_t_lam_min => inr t_lam_min | S_t0_init => inr t0_init | S_update_fact_exit => inr update_fact_exit end.

Lemma rarg_eqb_spec a b : reflect (a = b) (rarg_eqb a b). Proof. destruct a, b; constructor; congruence. Qed.
Lemma iarg_eqb_spec a b : reflect (a = b) (iarg_eqb a b). Proof. destruct a, b; constructor; congruence. Qed.

(** A setter stores its value in its argument and changes nothing else, the documented coupling excepted: asking for residuals on
    exit (comp_res_exit <> 0) also switches on the equality multipliers they need. *)
Theorem C34_setter {F} (s : setter) (vr : F) (vi : Z) (a : arg F) :
  (forall g, ar (arg_setter s vr vi a) g = match target_of s with inl f => if rarg_eqb g f then vr else ar a g | inr _ => ar a g end) /\
  (forall g, ai (arg_setter s vr vi a) g =
     match target_of s with
     | inr f => if iarg_eqb g f then vi else if (match s with S_comp_res_exit => true | _ => false end && negb (vi =? 0) && iarg_eqb g comp_dual_sol_eq)%bool then 1 else ai a g
     | inl _ => ai a g end).
Proof.
  destruct s; split; intros g; cbn [target_of arg_setter andb]; try reflexivity; destruct (vi =? 0); destruct g; reflexivity.
Qed.
Print Assumptions C34_setter.
(** After the call the argument has the value given; all other arguments but possibly comp_dual_sol_eq are as before. *)
Corollary C34_set_get {F} (s : setter) (vr : F) (vi : Z) (a : arg F) :
  (forall f, target_of s = inl f -> ar (arg_setter s vr vi a) f = vr) /\ (forall f, target_of s = inr f -> ai (arg_setter s vr vi a) f = vi) /\
  (forall g, target_of s <> inl g -> ar (arg_setter s vr vi a) g = ar a g) /\
  (forall g, target_of s <> inr g -> g <> comp_dual_sol_eq \/ s <> S_comp_res_exit \/ vi = 0 -> ai (arg_setter s vr vi a) g = ai a g).
Proof.
  repeat split; intros f H; [destruct s; inversion H; subst; reflexivity|destruct s; inversion H; subst; cbn [arg_setter]; destruct (vi =? 0); reflexivity|destruct s, f; cbn in *; try reflexivity; try congruence; destruct (vi =? 0); reflexivity|].
  intros H1. rewrite (proj2 (C34_setter s vr vi a) f). destruct (target_of s) as [r|i] eqn:E; [reflexivity|].
  destruct (iarg_eqb_spec f i) as [->|_]; [congruence|]. destruct s; try reflexivity. cbn [andb].
  destruct (Z.eqb_spec vi 0); cbn [negb andb]; [reflexivity|]. destruct (iarg_eqb_spec f comp_dual_sol_eq); [|reflexivity]. destruct H1 as [H1|[H1|H1]]; congruence.
Qed.
Print Assumptions C34_set_get.

(** The names of the API; any other string ends in exit(1). *)
Definition arg_names : list (string * setter) :=
  [("iter_max",S_iter_max); ("alpha_min",S_alpha_min); ("mu0",S_mu0); ("tol_stat",S_tol_stat); ("tol_eq",S_tol_eq); ("tol_ineq",S_tol_ineq);
   ("tol_comp",S_tol_comp); ("tol_dual_gap",S_tol_dual_gap); ("reg_prim",S_reg_prim); ("warm_start",S_warm_start); ("pred_corr",S_pred_corr);
   ("cond_pred_corr",S_cond_pred_corr); ("ric_alg",S_ric_alg); ("comp_dual_sol_eq",S_comp_dual_sol_eq); ("comp_res_exit",S_comp_res_exit);
   ("comp_res_pred",S_comp_res_pred); ("lam_min",S_lam_min); ("t_min",S_t_min); ("tau_min",S_tau_min); ("lam0_min",S_lam0_min); ("t0_min",S_t0_min);
   ("split_step",S_split_step); ("m_safe",S_m_safe); ("var_init_scheme",S_var_init_scheme); ("t_lam_min",S_t_lam_min); ("t0_init",S_t0_init);
   ("update_fact_exit",S_update_fact_exit)]%string.
Theorem C34_names {F} (n : string) (vr : F) (vi : Z) (a : arg F) : nonul n = true ->
  (forall s, In (n, s) arg_names -> arg_set n vr vi a = Ok (arg_setter s vr vi a)) /\
  ((forall s, ~ In (n, s) arg_names) -> arg_set n vr vi a = Exit).
Proof.
  intros Hn. assert (E1 : arg_set_name n = chain (hpipm_strcmp n) arg_names) by reflexivity. unfold arg_set. rewrite E1. split.
  - intros f Hf. apply (chain_In n arg_names f Hn eq_refl eq_refl) in Hf. rewrite Hf. reflexivity.
  - intros H. destruct (chain (hpipm_strcmp n) arg_names) as [f|] eqn:E; [|reflexivity].
    apply (chain_In n arg_names f Hn eq_refl eq_refl) in E. destruct (H f E).
Qed.
Print Assumptions C34_names.
(** every setter is reachable by exactly one name *)
Theorem C34_names_complete (s : setter) : exists n, In (n, s) arg_names /\ forall n', In (n', s) arg_names -> n' = n.
Proof. destruct s; (eexists; split; [cbn; tauto|]); cbn; intros n' H; repeat (destruct H as [H|H]; [inversion H; reflexivity|]); destruct H. Qed.
Print Assumptions C34_names_complete.
(** the two getters return the current values, other names are rejected *)
Theorem C34_get {F} (n : string) (a : arg F) : nonul n = true ->
  arg_get n a = if String.eqb n "lam0_min" then Ok (ar a lam0_min) else if String.eqb n "t0_min" then Ok (ar a t0_min) else Exit.
Proof. intros Hn. unfold arg_get. rewrite !hpipm_strcmp_eqb by (exact Hn || reflexivity). reflexivity. Qed.
Print Assumptions C34_get.

(** Histories of setter calls: the last value given to an argument is the one in force. *)
Definition arg_run {F} (h : list (setter * F * Z)) (a : arg F) : arg F := fold_left (fun a c => arg_setter (fst (fst c)) (snd (fst c)) (snd c) a) h a.
Theorem C34_history {F} (s : setter) (vr : F) (vi : Z) (before after : list (setter * F * Z)) (a : arg F) :
  (forall s' x y, In (s', x, y) after -> target_of s' <> target_of s /\ (s' = S_comp_res_exit -> s = S_comp_dual_sol_eq -> y = 0)) ->
  (forall f, target_of s = inl f -> ar (arg_run (before ++ (s, vr, vi) :: after) a) f = vr) /\
  (forall f, target_of s = inr f -> ai (arg_run (before ++ (s, vr, vi) :: after) a) f = vi).
Proof.
  intros Ha. unfold arg_run. rewrite fold_left_app. cbn [fold_left fst snd]. set (q := fold_left _ before a). clearbody q.
  destruct (C34_set_get s vr vi q) as (H1 & H2 & _). generalize dependent (arg_setter s vr vi q). clear q.
  induction after as [|[[s' x] y] r IH]; intros q H1 H2; cbn [fold_left fst snd]; [split; assumption|].
  destruct (Ha s' x y (or_introl eq_refl)) as [N1 N2].
  destruct (C34_set_get s' x y q) as (_ & _ & H3 & H4). apply IH.
  - intros s2 x2 y2 Hin. apply (Ha s2 x2 y2 (or_intror Hin)).
  - intros f Hf. rewrite H3; [apply H1; exact Hf|congruence].
  - intros f Hf. rewrite H4; [apply H2; exact Hf|congruence|].
    destruct (iarg_eqb_spec f comp_dual_sol_eq) as [->|]; [|left; assumption]. right.
    assert (Es : s = S_comp_dual_sol_eq) by (destruct s; cbn in Hf; congruence).
    assert (D : {s' = S_comp_res_exit} + {s' <> S_comp_res_exit}) by (destruct s'; (left; congruence) || (right; congruence)).
    destruct D as [->|]; [right; apply N2; [reflexivity|exact Es]|left; assumption].
Qed.
Print Assumptions C34_history.

(** Presets: the result of a preset does not depend on what was in the structure before (every argument is set) and is the table below. *)
Theorem C34_default {F} {AF : Arith F} (m : hmode) (a : arg F) :
  (forall f, ar (arg_set_default m a) f = dflt_r m f) /\ (forall f, ai (arg_set_default m a) f = dflt_i m f).
Proof. split; intros f; destruct m, f; vm_compute; reflexivity. Qed.
Print Assumptions C34_default.
Corollary C34_default_total {F} {AF : Arith F} (m : hmode) (a b : arg F) :
  (forall f, ar (arg_set_default m a) f = ar (arg_set_default m b) f) /\ (forall f, ai (arg_set_default m a) f = ai (arg_set_default m b) f).
Proof.
  destruct (C34_default m a) as [A1 A2]. destruct (C34_default m b) as [B1 B2].
  split; intros f; [exact (eq_trans (A1 f) (eq_sym (B1 f)))|exact (eq_trans (A2 f) (eq_sym (B2 f)))].
Qed.
Print Assumptions C34_default_total.
(** ... and is sane: positive tolerances, barrier and clipping values, room in the statistics table for every iteration,
    the residual options consistent with the equality multipliers. *)
Theorem C34_default_sane (m : hmode) (a : arg R) : let d := arg_set_default m a in
  (forall f, 0 < ar d f)%R /\ (ar d m_safe <= 1)%R /\ 0 < ai d iter_max <= ai d stat_max /\ (ai d comp_res_exit <> 0 -> ai d comp_dual_sol_eq = 1).
Proof.
  cbv zeta. rewrite !(proj2 (C34_default m a)). split; [|split; [|destruct m; cbn [dflt_i]; split; intros; lia]].
  - intros f. rewrite (proj1 (C34_default m a)). destruct m, f; cbn [dflt_r]; rsimp; apply Rdiv_lt_0_compat; apply IZR_lt; lia.
  - rewrite (proj1 (C34_default m a)). destruct m; cbn [dflt_r]; rsimp; lra.
Qed.
Print Assumptions C34_default_sane.
(** The consistency of residuals-on-exit with the equality multipliers survives every setter call but an explicit request to drop
    the multipliers. *)
Theorem C34_exit_invariant {F} (s : setter) (vr : F) (vi : Z) (a : arg F) :
  (s = S_comp_dual_sol_eq -> vi = 1) -> (ai a comp_res_exit <> 0 -> ai a comp_dual_sol_eq = 1) ->
  ai (arg_setter s vr vi a) comp_res_exit <> 0 -> ai (arg_setter s vr vi a) comp_dual_sol_eq = 1.
Proof.
  intros Hs Ha. rewrite !(proj2 (C34_setter s vr vi a)). destruct s; cbn; try exact Ha.
  - intros _. apply Hs. reflexivity.
  - destruct (Z.eqb_spec vi 0); cbn; congruence.
Qed.
Print Assumptions C34_exit_invariant.

(** Deep copy: full statement: the copy equals the source.  Proved for every argument but t0_init ... *)
Definition C34_deepcopy_full {F} (src dst : arg F) : Prop :=
  (forall f, ar (arg_deepcopy src dst) f = ar src f) /\ (forall f, ai (arg_deepcopy src dst) f = ai src f).
Theorem C34_deepcopy_partial {F} (src dst : arg F) :
  (forall f, ar (arg_deepcopy src dst) f = ar src f) /\ (forall f, f <> t0_init -> ai (arg_deepcopy src dst) f = ai src f).
Proof. split; intros f; destruct f; intros; try reflexivity; congruence. Qed.
Print Assumptions C34_deepcopy_partial.
(** ... and false for t0_init (member missing from OCP_QP_IPM_ARG_DEEPCOPY): the copy keeps whatever the destination held. *)
Theorem C34_deepcopy_t0_init_refuted {F} (src dst : arg F) : ai (arg_deepcopy src dst) t0_init = ai dst t0_init.
Proof. reflexivity. Qed.
Print Assumptions C34_deepcopy_t0_init_refuted.
Example C34_deepcopy_witness : let dst := mkarg (fun _ => 0%R) (fun _ => 0) in ~ C34_deepcopy_full (arg_set_default SPEED dst) dst.
Proof. intros dst [_ H]. specialize (H t0_init). rewrite C34_deepcopy_t0_init_refuted, (proj2 (C34_default SPEED dst)) in H. discriminate H. Qed.
