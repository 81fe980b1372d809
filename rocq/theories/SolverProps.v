(** SolverProps.v -- C49: the OCP QP solver object (arguments, workspace, solve with the optional removal of fixed variables) in exact arithmetic. *)
From Coq Require Import ZArith Bool Arith List Lia Reals Lra String.
From Verif Require Import Base ArithF RSum Blas AuxModel AuxProofs NamesAux OcpModel ResSpec ResProofs ResProofs2 CondSpec CondProps RedModel RedSpec RedSem RedProofs RedProps.
From Verif Require Import CoreModel ArgModel ArgProps IpmModel IpmProofs IpmProofs2 IpmProps IpmReal KktModel SolveModel SensModel SolverModel SolverSpec SolverProofs.
Import ListNotations.
Local Open Scope R_scope.

(** *** the states of a solver object a program can be in *)
(** argument structs: set to the defaults of a mode, then any accepted OCP_QP_SOLVER_ARG_SET *)
Inductive made {F} {AF : Arith F} (N : nat) (m : hmode) : sarg F -> Prop :=
| made_default : made N m (sarg_default m (sarg_create N))
| made_set a field vr vi a' : made N m a -> sarg_set field vr vi a = Ok a' -> made N m a'.
(** solver objects for the dimensions D (with the equality bounds e): created from such arguments, then any accepted OCP_QP_SOLVER_SET and any solve of
    a QP of these dimensions (whatever its data, its initial solution, and the contents of the IPM workspace after the call) *)
Inductive live {F} {AF : Arith F} {K} (OP : kops (F := F) K) (D : dims) (e : eqd) : sws F K -> Prop :=
| live_create m a ist0 : made (dN D) m a -> live OP D e (snd (solver_create D e ist0 a))
| live_set w field vr vi w' : live OP D e w -> solver_set field vr vi w = Ok w' -> live OP D e w'
| live_solve w qp sol ist' : live OP D e w -> q_dim qp = D -> live OP D e (snd (solver_solve OP qp e sol ist' w)).

Section Inv.
Context {F} {AF : Arith F}.
Definition def_red : redarg F := mkra (lit 1 (10^16)) (lit 1 (10^16)) 1 1 1 1.
Lemma made_inv N m (a : sarg F) : made N m a -> sa_red a = def_red /\ sa_valid a = 0%Z /\ sa_dim a = zero_dim N.
Proof.
  induction 1 as [|a field vr vi a' _ IH H]; [repeat split|]. unfold sarg_set in H. destruct (hpipm_strcmp field _); [injection H as <-; exact IH|].
  destruct (arg_set field vr vi (sa_ipm a)); [|discriminate|discriminate]. injection H as <-. exact IH.
Qed.
Lemma q_dim_reduce al (qp : oqp F) e r0 w : q_dim (fst (reduce_eq_dof al qp e (r0, w))) = q_dim r0.
Proof.
  unfold reduce_eq_dof. apply (loop_ind (fun _ s => q_dim (fst s) = q_dim r0)); [reflexivity|]. intros i [r w'] _ IH. cbn [fst] in IH.
  unfold red_rhs_stage, red_lhs_stage. destruct (Nat.ltb 0 (ne_thr e i)); [exact IH|]. destruct al; exact IH.
Qed.
Context {K : Type} (OP : kops (F := F) K).
Lemma live_inv D e w : live OP D e w -> sa_red (w_arg w) = def_red /\ (Z.odd (sa_reduce (w_arg w)) = true -> q_dim (w_rqp w) = dim_reduce D e).
Proof.
  induction 1 as [m a ist0 Hm|w field vr vi w' _ IH H|w qp sol ist' _ IH H].
  - destruct (made_inv _ _ _ Hm) as (E1 & E2 & E3). unfold solver_create. cbn [snd w_arg w_rqp zero_qp q_dim].
    assert (X : sa_red (sarg_memsize D e a) = def_red /\ sa_reduce (sarg_memsize D e a) = sa_reduce a /\ (Z.odd (sa_reduce a) = true -> sa_dim (sarg_memsize D e a) = dim_reduce D e)).
    { unfold sarg_memsize. rewrite E2. change (0 =? 0)%Z with true. cbv iota. destruct (Z.eqb_spec (Z.land (sa_reduce a) 1) 0) as [E|E]; cbn [negb sa_red sa_reduce sa_dim].
      - split; [exact E1|]. split; [reflexivity|]. intros Ho. rewrite <- Z.bit0_odd in Ho. assert (Z.testbit (Z.land (sa_reduce a) 1) 0 = false) by (rewrite E; reflexivity). rewrite Z.land_spec, Ho in H. discriminate.
      - split; [exact E1|]. split; reflexivity. }
    destruct X as (X1 & X2 & X3). split; [cbn [sa_red sarg_deepcopy red_deepcopy]; unfold red_deepcopy; rewrite X1; reflexivity|]. cbn [sarg_deepcopy sa_reduce]. rewrite X2. exact X3.
  - unfold solver_set in H. destruct (solver_set_name field); [|discriminate]. injection H as <-. exact IH.
  - unfold solver_solve. destruct IH as (E1 & E2). destruct (zb (sa_reduce (w_arg w))) eqn:Z.
    + pose proof (q_dim_reduce (zb (ra_alias (sa_red (w_arg w)))) qp e (w_rqp w) (w_rw w)) as X. destruct (reduce_eq_dof _ qp e _) as [r rw]. cbn [fst] in X.
      destruct (restore_eq_dof _ _ _ _ _ _ _ _ _ _) as [s rw']. cbn [snd w_arg w_rqp]. rewrite X. split; assumption.
    + cbn [snd w_arg w_rqp]. split; assumption.
Qed.
End Inv.

(** *** C49: SUCCESS means the returned point is approximately optimal for the QP the user passed *)
Section Cert.
Context {K : Type} (OP : kops (F := R) K).
Variables (D : dims) (e : eqd) (w : sws R K) (qp : oqp R) (sol : vars R) (ist' : @ist R K).
Hypothesis LV : live OP D e w.
Hypothesis ED : q_dim qp = D.
Let A := sa_ipm (w_arg w).
Let res := solver_solve OP qp e sol ist' w.
Let s := view D (fst (fst res)).
Let st := o_status (snd (fst res)).
(** the arguments in force are those under which the interior point method keeps its iterates strictly interior (the defaults do), in delta form *)
Definition sound_args (A : arg R) : Prop := good_start A /\ ai A t_lam_min = 2%Z /\ 0 < ar A lam_min /\ 0 < ar A t_min /\ ai A abs_form = 0%Z /\ (0 <= ai A iter_max)%Z.
(** some constraint that the reduction keeps is imposed *)
Definition keeps_constraint : Prop := exists i c, (i <= dN D)%nat /\ (c < nct D i)%nat /\ removedc qp e i c = false /\ q_mask qp i c <> 0.
Theorem C49_success_certificate : sound_args A -> mask01 qp -> qp_wf qp -> st = SUCCESS ->
  (sa_reduce (w_arg w) = 0%Z -> constrained qp -> certified qp s (ar A res_g_max) (ar A res_b_max) (ar A res_d_max) (ar A res_m_max) (ar A tau_min)) /\
  (sa_reduce (w_arg w) = 1%Z -> eq_wf qp e -> bounds_first qp e -> eq_bounds qp e -> eq_imposed qp e -> keeps_constraint ->
     certified_red qp e s (ar A res_g_max) (ar A res_b_max) (ar A res_d_max) (ar A res_m_max) (ar A tau_min) (1 / 10^16)).
Proof.
  intros (G1 & G2 & G3 & G4 & G5 & G6) HM WF H. revert H. unfold st, s, res, solver_solve. fold A. destruct (live_inv OP D e w LV) as (ER & EQ). rewrite ED. intros H. split.
  - intros E HC. revert H. rewrite E. change (zb 0) with false. cbv iota. cbn [fst snd]. intros HS. rewrite <- ED.
    exact (C41_success_certificate OP A (w_lq w) (w_smax w) qp sol (w_ipm w) HM HC G1 G2 G3 G4 G5 G6 WF HS).
  - intros E EW BF HB HI HK. revert H. rewrite E in EQ |- *. specialize (EQ eq_refl). change (zb 1) with true. cbv iota. rewrite ER. cbn [ra_alias ra_prim ra_deq ra_dineq ra_lmin ra_tmin def_red]. change (zb 1) with true.
    assert (HP : red_pre qp e (w_rqp w)) by (split; [exact WF|split; [exact EW|split; [exact BF|rewrite ED; exact EQ]]]).
    destruct (C30_restriction_partial true qp e (w_rqp w) (w_rw w) HP) as (RR & WFr).
    pose proof (transfer true qp e (w_rqp w) (w_rw w) HP HB HI) as TR. destruct (reduce_eq_dof true qp e (w_rqp w, w_rw w)) as [r rw]. cbn [fst] in RR, WFr, TR. cbv zeta in WFr.
    set (o := ipm_solve OP A (w_lq w) (w_smax w) r (w_rsol w) (w_ipm w)) in *.
    match goal with |- context [restore_eq_dof ?a ?b ?c ?l ?t ?q ?Dr ?ee ?x ?y] => set (X := restore_eq_dof a b c l t q Dr ee x y) end.
    assert (EX : X = (fst X, snd X)) by (destruct X; reflexivity). rewrite EX. cbn [fst snd]. intros HS.
    pose proof (r_mask01 qp e r RR HM) as HMr.
    assert (HCr : constrained r).
    { destruct HK as (i & c & Hi & Hc & Hr & Hmk). rewrite <- ED in Hi, Hc. exists i, (cplace qp e i c). destruct RR as (RN & RA & _ & _ & RB). split; [rewrite RN; exact Hi|].
      split; [destruct (RA i Hi) as (_ & _ & _ & -> & _); apply rk_lt; assumption|]. destruct (RB i c Hi Hc Hr) as (_ & _ & -> & _). rsimp. rewrite ?R_lit01. destruct (Reqb_spec (q_mask qp i c) 0); [contradiction|reflexivity]. }
    pose proof (C41_success_certificate OP A (w_lq w) (w_smax w) r (w_rsol w) (w_ipm w) HMr HCr G1 G2 G3 G4 G5 G6 WFr HS) as CE. fold o in CE. cbv zeta in CE.
    assert (ML : olam_masked r (s_lam (view (q_dim r) (o_x o)))).
    { intros i c Hi Hc. pose proof (C42_strictly_interior OP A (w_lq w) (w_smax w) r (w_rsol w) (w_ipm w) HMr HCr G1 G2 G3 G4 i c Hi Hc) as (_ & _ & P3). destruct (HMr i c Hi Hc) as [H0|H0]; [left; split; [exact H0|apply P3; exact H0]|right; exact H0]. }
    assert (EL : @lit R _ 1 (10 ^ 16) = 1 / 10 ^ 16) by (rsimp; rewrite pow_IZR; reflexivity).
    assert (AB : Rabs (1 / 10 ^ 16) = 1 / 10 ^ 16) by (apply Rabs_right; left; apply Rdiv_lt_0_compat; [lra|apply pow_lt; lra]).
    rewrite <- AB.
    apply (TR (ar A res_g_max) (ar A res_b_max) (ar A res_d_max) (ar A res_m_max) (ar A tau_min) (1 / 10 ^ 16) (1 / 10 ^ 16) (view (q_dim r) (o_x o)) (view D sol) rw ML CE).
    + rewrite <- EL. fold X. rewrite <- ED. intros i k Hi Hk. apply vf_ux; assumption.
    + rewrite <- EL. fold X. rewrite <- ED. intros i k Hi Hk. apply vf_pi; assumption.
    + rewrite <- EL. fold X. rewrite <- ED. intros i k Hi Hk. split; [apply vf_lam; assumption|apply vf_t; assumption].
Qed.
End Cert.
Print Assumptions C49_success_certificate.

(** *** the arguments in force after creation, whatever the caller set: those of the argument struct, except t0_init (its copy is forgotten, see below) *)
Theorem C49_args {F} {AF : Arith F} {K} (D : dims) (e : eqd) (ist0 : @ist F K) (a : sarg F) : let '(a', w) := solver_create D e ist0 a in
  (forall f, ar (sa_ipm (w_arg w)) f = ar (sa_ipm a) f) /\ (forall f, f <> t0_init -> ai (sa_ipm (w_arg w)) f = ai (sa_ipm a) f) /\
  sa_reduce (w_arg w) = sa_reduce a /\ sa_red (w_arg w) = sa_red a /\ w_lq w = ai (sa_ipm a) lq_fact /\ w_smax w = ai (sa_ipm a) stat_max /\
  sa_ipm a' = sa_ipm a /\ sa_reduce a' = sa_reduce a.
Proof.
  assert (E : sa_ipm (sarg_memsize D e a) = sa_ipm a /\ sa_reduce (sarg_memsize D e a) = sa_reduce a /\ sa_red (sarg_memsize D e a) = sa_red a) by (unfold sarg_memsize; destruct (negb _); repeat split).
  destruct E as (E1 & E2 & E3). unfold solver_create. cbn [w_arg sarg_deepcopy sa_ipm sa_reduce sa_red w_lq w_smax]. rewrite E1, E2, E3.
  destruct (C34_deepcopy_partial (sa_ipm a) zero_arg) as (P1 & P2). repeat split; auto. destruct (sa_red a); reflexivity.
Qed.
Print Assumptions C49_args.
(** *** setting an argument after creation has the effect it has before creation, and no other; the other names end in exit(1) *)
Definition solver_names : list (string * setter) :=
  [("iter_max",S_iter_max); ("alpha_min",S_alpha_min); ("mu0",S_mu0); ("tol_stat",S_tol_stat); ("tol_eq",S_tol_eq); ("tol_ineq",S_tol_ineq);
   ("tol_comp",S_tol_comp); ("pred_corr",S_pred_corr); ("split_step",S_split_step); ("reg_prim",S_reg_prim); ("t0_init",S_t0_init); ("tau_min",S_tau_min); ("m_safe",S_m_safe)]%string.
Theorem C49_set {F} {AF : Arith F} {K} (n : string) (vr : F) (vi : Z) (w : sws F K) : nonul n = true ->
  (forall s, In (n, s) solver_names -> exists w', solver_set n vr vi w = Ok w' /\ sarg_set n vr vi (w_arg w) = Ok (w_arg w') /\ sa_ipm (w_arg w') = arg_setter s vr vi (sa_ipm (w_arg w)) /\
     sa_reduce (w_arg w') = sa_reduce (w_arg w) /\ w_lq w' = w_lq w /\ w_smax w' = w_smax w /\ w_ipm w' = w_ipm w /\ w_rw w' = w_rw w /\ w_rqp w' = w_rqp w /\ w_rsol w' = w_rsol w) /\
  ((forall s, ~ In (n, s) solver_names) -> solver_set n vr vi w = Exit).
Proof.
  intros Hn. assert (E1 : solver_set_name n = chain (hpipm_strcmp n) solver_names) by reflexivity. unfold solver_set. rewrite E1. split.
  - intros f Hf. pose proof (proj2 (chain_In n solver_names f Hn eq_refl eq_refl) Hf) as E. rewrite E. eexists. split; [reflexivity|]. cbn [w_arg w_setarg sa_ipm sa_reduce w_lq w_smax w_ipm w_rw w_rqp w_rsol]. split; [|repeat split].
    assert (H : In (n, f) arg_names) by (cbn in Hf; repeat (destruct Hf as [Hf|Hf]; [injection Hf as <- <-; cbn; tauto|]); destruct Hf).
    unfold sarg_set. rewrite hpipm_strcmp_eqb by (exact Hn || reflexivity).
    destruct (String.eqb_spec n "reduce_eq_dof") as [->|_]; [cbn in Hf; repeat (destruct Hf as [Hf|Hf]; [discriminate|]); destruct Hf|].
    rewrite (proj1 (C34_names n vr vi (sa_ipm (w_arg w)) Hn) f H). reflexivity.
  - intros H. destruct (chain (hpipm_strcmp n) solver_names) as [f|] eqn:E; [|reflexivity].
    apply (chain_In n solver_names f Hn eq_refl eq_refl) in E. destruct (H f E).
Qed.
Print Assumptions C49_set.
(** before creation: the names of the IPM arguments and reduce_eq_dof *)
Theorem C49_arg_set {F} {AF : Arith F} (n : string) (vr : F) (vi : Z) (a : sarg F) : nonul n = true ->
  (n = "reduce_eq_dof"%string -> sarg_set n vr vi a = Ok (mksa (sa_ipm a) (sa_red a) (sa_dim a) vi (sa_valid a))) /\
  (forall s, In (n, s) arg_names -> sarg_set n vr vi a = Ok (mksa (arg_setter s vr vi (sa_ipm a)) (sa_red a) (sa_dim a) (sa_reduce a) (sa_valid a))) /\
  (n <> "reduce_eq_dof"%string -> (forall s, ~ In (n, s) arg_names) -> sarg_set n vr vi a = Exit).
Proof.
  intros Hn. unfold sarg_set. rewrite hpipm_strcmp_eqb by (exact Hn || reflexivity). destruct (C34_names n vr vi (sa_ipm a) Hn) as (P1 & P2).
  destruct (String.eqb_spec n "reduce_eq_dof") as [->|Hne].
  - split; [reflexivity|]. split; [|intros H; congruence]. intros s H. cbn in H. repeat (destruct H as [H|H]; [discriminate|]). destruct H.
  - split; [intros H; congruence|]. split; [intros s H; rewrite (P1 s H); reflexivity|]. intros _ H. rewrite (P2 H). reflexivity.
Qed.
Print Assumptions C49_arg_set.
(** *** GET returns what the last solve computed *)
Definition get_names : list (string * getter) :=
  [("status",Q_status); ("iter",Q_iter); ("stat_m",Q_stat_m); ("stat",Q_stat); ("reduce_eq_dof",Q_reduce); ("max_res_stat",Q_res_stat); ("max_res_eq",Q_res_eq);
   ("max_res_ineq",Q_res_ineq); ("max_res_comp",Q_res_comp); ("dual_gap",Q_gap); ("obj",Q_obj); ("tau_iter",Q_tau)]%string.
Theorem C49_get {F} {AF : Arith F} {K} (n : string) (w : sws F K) (o : @out F K) (tau : F) : nonul n = true ->
  (forall q, In (n, q) get_names -> exists v, solver_get n w o tau = Ok v /\
     match q with
     | Q_status => v = Vz (match o_status o with SUCCESS => 0 | MAX_ITER => 1 | MIN_STEP => 2 | NAN_SOL => 3 | INCONS_EQ => 4 end)%Z
     | Q_iter => v = Vz (o_iter o) | Q_stat_m => v = Vz 21 | Q_reduce => v = Vz (sa_reduce (w_arg w)) | Q_stat => v = Va (wk_stat (o_w o)) | Q_tau => v = Vr tau
     | Q_res_stat => v = Vr (fst (fst (fst (o_max o)))) | Q_res_eq => v = Vr (snd (fst (fst (o_max o)))) | Q_res_ineq => v = Vr (snd (fst (o_max o))) | Q_res_comp => v = Vr (snd (o_max o))
     | Q_gap => v = Vr (r_gap (wk_res (o_w o))) | Q_obj => v = Vr (r_obj (wk_res (o_w o))) end) /\
  ((forall q, ~ In (n, q) get_names) -> solver_get n w o tau = Exit).
Proof.
  intros Hn.
  assert (E1 : solver_get_name n = chain (hpipm_strcmp n) get_names).
  { unfold solver_get_name, ipm_get_name. cbn [chain get_names]. rewrite !hpipm_strcmp_eqb by (exact Hn || reflexivity).
    repeat match goal with |- context [String.eqb n ?x] => destruct (String.eqb_spec n x) as [->|]; [reflexivity|] end. reflexivity. }
  unfold solver_get. rewrite E1. destruct (o_max o) as [[[a b] c] d]. split.
  - intros f Hf. rewrite (proj2 (chain_In n get_names f Hn eq_refl eq_refl) Hf). destruct f; eexists; (split; [reflexivity|]); reflexivity.
  - intros H. destruct (chain (hpipm_strcmp n) get_names) as [f|] eqn:E; [|reflexivity]. apply (chain_In n get_names f Hn eq_refl eq_refl) in E. destruct (H f E).
Qed.
Print Assumptions C49_get.
(** *** with the default arguments of SPEED, BALANCE and ROBUST the certificate applies, with these tolerances *)
Theorem C49_default {K} (D : dims) (e : eqd) (ist0 : @ist R K) (m : hmode) (z : Z) : m <> SPEED_ABS ->
  exists a, sarg_set "reduce_eq_dof" 0 z (sarg_default m (sarg_create (dN D))) = Ok a /\ made (dN D) m a /\
  let w := snd (solver_create D e ist0 a) in let A := sa_ipm (w_arg w) in
  sound_args A /\ sa_reduce (w_arg w) = z /\ ar A res_g_max = 1 / 10^6 /\ ar A res_b_max = 1 / 10^8 /\ ar A res_d_max = 1 / 10^8 /\ ar A res_m_max = 1 / 10^8 /\ ar A tau_min = 1 / 10^16.
Proof.
  intros Hm. eexists. split; [reflexivity|]. split; [exact (made_set (dN D) m _ "reduce_eq_dof" 0 z _ (made_default (dN D) m) eq_refl)|]. cbv zeta. match goal with |- context [solver_create D e ist0 ?x] => set (a := x) end.
  pose proof (C49_args D e ist0 a) as X. destruct (solver_create D e ist0 a) as [a' w]. cbn [snd]. destruct X as (X1 & X2 & X3 & _). unfold sound_args, good_start. rewrite X3, !X1, !X2 by discriminate.
  change (sa_ipm a) with (arg_set_default m (@zero_arg R _)). change (sa_reduce a) with z. rewrite !(proj1 (C34_default m _)), !(proj2 (C34_default m _)).
  assert (P : forall k, @lit R _ 1 (10 ^ Z.of_nat k) = 1 / 10 ^ k) by (intros k; rsimp; rewrite pow_IZR; reflexivity).
  pose proof (P 6%nat) as P6. pose proof (P 8%nat) as P8. pose proof (P 16%nat) as P16. change (Z.of_nat 6) with 6%Z in P6. change (Z.of_nat 8) with 8%Z in P8. change (Z.of_nat 16) with 16%Z in P16.
  assert (Q : 0 < 1 / 10 ^ 16) by (apply Rdiv_lt_0_compat; [lra|apply pow_lt; lra]).
  assert (T : forall n, (0 < n)%Z -> 0 < @lit R _ n 1) by (intros n Hn; rsimp; apply Rdiv_lt_0_compat; apply IZR_lt; lia).
  split; [|split; [reflexivity|]]; destruct m; try congruence; cbn [dflt_r dflt_i]; rewrite ?P6, ?P8, ?P16; repeat split; try (intros; lia); try exact Q; intros _; apply T; lia.
Qed.
Print Assumptions C49_default.

(** *** what a caller may not rely on *)
(** t0_init set by the caller before creation is not in force: the created object always has t0_init = 0 (default 2) *)
Theorem C49_t0_init_refuted {F} {AF : Arith F} {K} (D : dims) (e : eqd) (ist0 : @ist F K) (m : hmode) (v : Z) :
  exists a, sarg_set "t0_init" f0 v (sarg_default m (sarg_create (dN D))) = Ok a /\ ai (sa_ipm a) t0_init = v /\ ai (sa_ipm (w_arg (snd (solver_create D e ist0 a)))) t0_init = 0%Z.
Proof.
  eexists. split; [reflexivity|]. split; [reflexivity|]. unfold solver_create. cbn [snd w_arg sarg_deepcopy sa_ipm]. rewrite C34_deepcopy_t0_init_refuted. reflexivity.
Qed.
Print Assumptions C49_t0_init_refuted.
(** reduce_eq_dof = 2 (any even value but 0) makes the solve take the reducing path with a reduced QP whose dimensions were never computed (all 0) *)
Theorem C49_reduce_flag_refuted {F} {AF : Arith F} {K} (D : dims) (e : eqd) (ist0 : @ist F K) (m : hmode) (v : Z) : v <> 0%Z -> Z.odd v = false ->
  exists a, sarg_set "reduce_eq_dof" f0 v (sarg_default m (sarg_create (dN D))) = Ok a /\ zb (sa_reduce (w_arg (snd (solver_create D e ist0 a)))) = true /\ q_dim (w_rqp (snd (solver_create D e ist0 a))) = zero_dim (dN D).
Proof.
  intros Hv Ho. eexists. split; [reflexivity|]. match goal with |- context [solver_create D e ist0 ?x] => set (a := x) end.
  assert (E : sarg_memsize D e a = a).
  { unfold sarg_memsize. change (sa_valid a) with 0%Z. change (0 =? 0)%Z with true. cbv iota. change (sa_reduce a) with v. replace (Z.land v 1) with 0%Z; [reflexivity|]. change 1%Z with (Z.ones 1). rewrite Z.land_ones by lia. change (2 ^ 1)%Z with 2%Z. rewrite Zmod_odd, Ho. reflexivity. }
  unfold solver_create. rewrite E. split; [|reflexivity]. cbn [snd w_arg sarg_deepcopy sa_reduce]. change (sa_reduce a) with v. unfold zb. destruct (Z.eqb_spec v 0); [contradiction|reflexivity].
Qed.
Print Assumptions C49_reduce_flag_refuted.
(** the argument struct cannot be used for a second problem: the reduced dimensions of the first are kept *)
Theorem C49_arg_reuse_refuted {F} {AF : Arith F} {K} (D D' : dims) (e e' : eqd) (ist0 ist1 : @ist F K) (m : hmode) :
  exists a, sarg_set "reduce_eq_dof" f0 1 (sarg_default m (sarg_create (dN D))) = Ok a /\
  q_dim (w_rqp (snd (solver_create D' e' ist1 (fst (solver_create D e ist0 a))))) = dim_reduce D e.
Proof. eexists. split; reflexivity. Qed.
Print Assumptions C49_arg_reuse_refuted.
(** with reduce_eq_dof the initial solution the caller passes has no effect: outcome and returned solution are the same whatever it is (warm starts use
    the solution of the previous call instead) *)
Theorem C49_warm_start_refuted {K} (OP : kops (F := R) K) (D : dims) (e : eqd) (w : sws R K) (qp : oqp R) (sol sol' : vars R) (ist' : @ist R K) : live OP D e w -> q_dim qp = D ->
  sa_reduce (w_arg w) = 1%Z -> qp_wf qp -> eq_wf qp e ->
  let r := solver_solve OP qp e sol ist' w in let r' := solver_solve OP qp e sol' ist' w in
  snd (fst r) = snd (fst r') /\ same_point qp (s_ux (view D (fst (fst r)))) (s_ux (view D (fst (fst r')))).
Proof.
  intros LV ED E WF EW. cbv zeta. unfold solver_solve. destruct (live_inv OP D e w LV) as (ER & EQ). rewrite E in EQ |- *. specialize (EQ eq_refl). change (zb 1) with true. cbv iota. rewrite ER, ED. cbn [ra_alias ra_prim ra_deq ra_dineq ra_lmin ra_tmin def_red]. change (zb 1) with true.
  pose proof (q_dim_reduce true qp e (w_rqp w) (w_rw w)) as X. destruct (reduce_eq_dof true qp e (w_rqp w, w_rw w)) as [r rw]. cbn [fst] in X. rewrite EQ in X. rewrite X.
  set (o := ipm_solve OP _ _ _ r _ _). set (l := lit 1 (10 ^ 16)).
  destruct (C30_restore_copies qp e l l true true true (view (dim_reduce D e) (o_x o)) (view D sol) rw WF EW) as (C1 & _). destruct (C30_restore_copies qp e l l true true true (view (dim_reduce D e) (o_x o)) (view D sol') rw WF EW) as (C2 & _). rewrite ED in C1, C2.
  destruct (restore_eq_dof _ _ _ _ _ _ _ _ _ (view D sol, rw)) as [s1 w1]. destruct (restore_eq_dof _ _ _ _ _ _ _ _ _ (view D sol', rw)) as [s2 w2]. cbn [fst snd] in *. split; [reflexivity|].
  intros i k Hi Hk. rewrite ED in Hi, Hk. rewrite !vf_ux by assumption. rewrite (C1 eq_refl), (C2 eq_refl) by (rewrite ED; assumption). reflexivity.
Qed.
Print Assumptions C49_warm_start_refuted.

(** *** the hypotheses of C49_success_certificate are met: SPEED with the tolerances set to the residuals of the initial iterate, so that the solve stops there *)
Lemma success_at_start {K} (OP : kops (F := R) K) (A0 : arg R) lq smax qp sol (ws : @ist R K) : constrained qp -> ai A0 abs_form = 0%Z -> ai A0 iter_max <> 0%Z -> ar A0 alpha_min < 1 ->
  exists a b c d g, forall A, ai A = ai A0 -> ar A mu0 = ar A0 mu0 -> ar A lam0_min = ar A0 lam0_min -> ar A t0_min = ar A0 t0_min -> ar A alpha_min = ar A0 alpha_min -> ar A tau_min = ar A0 tau_min ->
    ar A res_g_max = a -> ar A res_b_max = b -> ar A res_d_max = c -> ar A res_m_max = d -> ar A dual_gap_max = g -> o_status (ipm_solve OP A lq smax qp sol ws) = SUCCESS.
Proof.
  intros Hc Ha Hi Hal0. set (C := mk_ctx lq smax qp). set (s0 := delta_init C (start A0 C sol ws)).
  assert (E : exists a b c e, i_max s0 = (a, b, c, e)) by (destruct (i_max s0) as [[[a b] c] e]; eauto). destruct E as (a & b & c & e & E).
  exists a, b, c, (res_m_tau A0 C (wk_res (i_w s0))), (r_gap (wk_res (i_w s0))). intros A Ex E1 E2 E3 E4 E5 Ev1 Ev2 Ev3 Ev4 Ev5.
  assert (Es : start A C sol ws = start A0 C sol ws) by (apply start_ext; assumption).
  assert (Et : res_m_tau A C (wk_res (i_w s0)) = res_m_tau A0 C (wk_res (i_w s0))) by (unfold res_m_tau; rewrite E5; reflexivity).
  unfold ipm_solve. fold C. pose proof (proj1 (constrained_count qp lq smax) Hc) as Hcc. fold C in Hcc. rewrite Hcc.
  rewrite Ex, Ha. change (negb (Z.eqb 0 0)) with false. cbv iota. rewrite solve_delta_eq, Es. fold s0.
  assert (Hgo : delta_go A C 0 s0 = false).
  { unfold delta_go. rewrite E. assert (I : forall x y : R, x = y -> fltb x y = false) by (intros x y ->; rsimp; destruct (Rltb_spec y y); [lra|reflexivity]).
    rewrite (I _ _ (eq_sym (eq_sym Ev1))), (I _ _ Ev2), (I _ _ Ev3), (I _ _ Ev5). rewrite Et, (I _ _ Ev4). cbn [orb]. rewrite !andb_false_r. reflexivity. }
  assert (Hfor : forall n, ipm_for (delta_go A C) (delta_body OP A C) n 0 s0 = (0%Z, s0)) by (intros [|n]; cbn [ipm_for]; rewrite ?Hgo; reflexivity).
  rewrite Hfor. destruct (finish_same OP A C 0 s0) as (_ & _ & Hst & _). rewrite Hst.
  unfold final_status. rewrite Ex. destruct (Z.eqb_spec 0 (ai A0 iter_max)) as [H|_]; [congruence|].
  destruct (delta_init_al C (start A0 C sol ws)) as [F1 F2]. fold s0 in F1, F2. rewrite F1, F2, E4.
  assert (Hal : fleb (wk_ap (i_w (start A0 C sol ws))) (ar A0 alpha_min) = false /\ fleb (wk_ad (i_w (start A0 C sol ws))) (ar A0 alpha_min) = false).
  { change (wk_ap (i_w (start A0 C sol ws))) with (1 / 1). change (wk_ad (i_w (start A0 C sol ws))) with (1 / 1).
    rsimp. split; destruct (Rleb_spec (1 / 1) (ar A0 alpha_min)); try reflexivity; lra. }
  destruct Hal as [-> ->]. cbn [orb]. unfold isnan. rsimp. destruct (Reqb_spec (i_mu s0) (i_mu s0)); [reflexivity|contradiction].
Qed.
Section Ex.
Context {K : Type} (OP : kops (F := R) K) (ist0 ist' : @ist R K) (sol : vars R).
Fixpoint sets (l : list (string * R * Z)) (a : sarg R) : outcome (sarg R) :=
  match l with [] => Ok a | (n, vr, vi) :: r => match sarg_set n vr vi a with Ok a' => sets r a' | Exit => Exit | UB => UB end end.
Lemma sets_made N m l : forall a a', made N m a -> sets l a = Ok a' -> made N m a'.
Proof.
  induction l as [|[[n vr] vi] l IH]; cbn [sets]; intros a a' Ha H; [injection H as <-; exact Ha|]. destruct (sarg_set n vr vi a) as [a1| |] eqn:E; try discriminate. apply (IH a1); [eapply made_set; eassumption|exact H].
Qed.
(** the user's program: defaults, removal of fixed variables, five tolerances, create, solve *)
Definition ex_calls (a b c d g : R) : list (string * R * Z) :=
  [("reduce_eq_dof", 0, 1%Z); ("tol_stat", a, 0%Z); ("tol_eq", b, 0%Z); ("tol_ineq", c, 0%Z); ("tol_comp", d, 0%Z); ("tol_dual_gap", g, 0%Z)]%string.
Example C49_hypotheses_met : exists w, live OP rx_dims rx_eq w /\ sound_args (sa_ipm (w_arg w)) /\ sa_reduce (w_arg w) = 1%Z /\ mask01 rx_qp /\ qp_wf rx_qp /\ eq_wf rx_qp rx_eq /\ bounds_first rx_qp rx_eq /\
  eq_bounds rx_qp rx_eq /\ eq_imposed rx_qp rx_eq /\ keeps_constraint rx_dims rx_eq rx_qp /\ o_status (snd (fst (solver_solve OP rx_qp rx_eq sol ist' w))) = SUCCESS.
Proof.
  destruct ex_red_pre as ((WF & EW & BF & _) & HB & HI & _).
  set (ar0 a b c d g := match sets (ex_calls a b c d g) (sarg_default SPEED (sarg_create 1)) with Ok x => x | _ => sarg_create 1 end).
  assert (Emade : forall a b c d g, made (dN rx_dims) SPEED (ar0 a b c d g)).
  { intros. apply (sets_made _ _ (ex_calls a b c d g) (sarg_default SPEED (sarg_create 1))); [apply (made_default 1 SPEED)|reflexivity]. }
  assert (HM : mask01 rx_qp) by (intros i c _ _; right; reflexivity).
  assert (HK : keeps_constraint rx_dims rx_eq rx_qp) by (exists 0%nat, 0%nat; cbn; repeat split; try lia; lra).
  set (w0 a b c d g := snd (solver_create rx_dims rx_eq ist0 (ar0 a b c d g))).
  set (r := fst (reduce_eq_dof true rx_qp rx_eq (w_rqp (w0 0 0 0 0 0), w_rw (w0 0 0 0 0 0)))).
  assert (HP : red_pre rx_qp rx_eq (w_rqp (w0 0 0 0 0 0))) by (split; [exact WF|split; [exact EW|split; [exact BF|reflexivity]]]).
  assert (Hcr : constrained r).
  { destruct (C30_restriction_partial true rx_qp rx_eq _ (w_rw (w0 0 0 0 0 0)) HP) as ((RN & RA & _ & _ & RB) & _). fold r in RN, RA, RB.
    exists 0%nat, (cplace rx_qp rx_eq 0 0). split; [lia|]. destruct (RA 0%nat ltac:(lia)) as (_ & _ & _ & -> & _). split; [cbn; lia|]. destruct (RB 0%nat 0%nat) as (_ & _ & -> & _); [lia|cbn; lia|reflexivity|].
    rsimp. rewrite ?R_lit01. cbn. destruct (Reqb_spec 1 0); [lra|reflexivity]. }
  destruct (success_at_start OP (sa_ipm (w_arg (w0 0 0 0 0 0))) (w_lq (w0 0 0 0 0 0)) (w_smax (w0 0 0 0 0 0)) r (w_rsol (w0 0 0 0 0 0)) (w_ipm (w0 0 0 0 0 0)) Hcr) as (a & b & c & d & g & HS).
  - reflexivity.
  - vm_compute. discriminate.
  - change (1 / 1000000000000 < 1). lra.
  - exists (w0 a b c d g). split; [apply (live_create OP rx_dims rx_eq SPEED); apply Emade|].
    assert (Q : 0 < @lit R _ 1 (10 ^ 16)) by (rsimp; apply Rdiv_lt_0_compat; apply IZR_lt; lia).
    split; [|split; [reflexivity|repeat (split; [assumption|])]].
    + split; [split; [intros _; change (0 < @lit R _ 10 1); rsimp; lra|intros X; change (3 <= 0)%Z in X; lia]|]. split; [reflexivity|]. split; [exact Q|]. split; [exact Q|]. split; [reflexivity|]. change (0 <= 15)%Z. lia.
    + unfold solver_solve. change (zb (sa_reduce (w_arg (w0 a b c d g)))) with true. cbv iota. change (zb (ra_alias (sa_red (w_arg (w0 a b c d g))))) with true.
      assert (W1 : w_rqp (w0 a b c d g) = w_rqp (w0 0 0 0 0 0)) by (vm_compute; reflexivity). assert (W2 : w_rw (w0 a b c d g) = w_rw (w0 0 0 0 0 0)) by (vm_compute; reflexivity).
      rewrite W1, W2. unfold r in HS. destruct (reduce_eq_dof true rx_qp rx_eq _) as [r' rw']. cbn [fst] in HS. destruct (restore_eq_dof _ _ _ _ _ _ _ _ _ _) as [s' rw'']. cbn [fst snd].
      assert (W3 : w_lq (w0 a b c d g) = w_lq (w0 0 0 0 0 0)) by (vm_compute; reflexivity). assert (W4 : w_smax (w0 a b c d g) = w_smax (w0 0 0 0 0 0)) by (vm_compute; reflexivity).
      assert (W5 : w_rsol (w0 a b c d g) = w_rsol (w0 0 0 0 0 0)) by (vm_compute; reflexivity). assert (W6 : w_ipm (w0 a b c d g) = w_ipm (w0 0 0 0 0 0)) by (vm_compute; reflexivity).
      rewrite W3, W4, W5, W6. apply HS; vm_compute; reflexivity.
Qed.
End Ex.
