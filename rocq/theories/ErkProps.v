(** ErkProps.v -- C32: the explicit Runge-Kutta integrator (sim_core). *)
From Coq Require Import ZArith Lia List Bool Arith String Reals Lra.
From Verif Require Import Base ArithF AuxModel RSum ErkModel ErkSpec ErkProofs ErkSens ErkApi ErkLin.
Local Open Scope R_scope.

(** C32 (tableau).  Setting a tableau stores it; the built-in tableaux are the classical method of order 4 and the midpoint
    rule of order 2 (and not 3); another number of stages or another name exits. *)
Theorem C32_tableau ns mem e expl (A B C : rv) :
  exists rk, rk_set_all expl A B C (rk_create ns mem e) = Ok rk /\
    rk_is rk (mktab ns (fun s r => A (s + ns * r)%nat) B C) /\ rk_expl rk = expl.
Proof. destruct (set_all_rk ns mem e expl A B C) as [rk (H1 & H2 & H3 & _)]. eauto. Qed.
Theorem C32_builtin mem e :
  (exists rk, rk_init_default "ERK4" (rk_create 4 mem e) = Ok rk /\ rk_is rk T4 /\ order4 T4 /\ row_sums T4 /\ explicit T4) /\
  (exists rk, rk_init_default "ERK2" (rk_create 2 mem e) = Ok rk /\ rk_is rk T2 /\ order2 T2 /\ row_sums T2 /\ explicit T2 /\ ~ order3 T2).
Proof.
  split.
  - destruct (init4 mem e) as [rk (H1 & H2 & _)]. exists rk. repeat (split; [assumption|]). exact T4_order.
  - destruct (init2 mem e) as [rk (H1 & H2 & _)]. exists rk. repeat (split; [assumption|]). exact T2_order.
Qed.
Theorem C32_builtin_exit (rk : rkd R) :
  (rk_ns rk <> 4%nat -> rk_init_default "ERK4" rk = Exit) /\ (rk_ns rk <> 2%nat -> rk_init_default "ERK2" rk = Exit) /\
  (forall name, hpipm_strcmp name "ERK4" = false -> hpipm_strcmp name "ERK2" = false -> rk_init_default name rk = Exit).
Proof.
  unfold rk_init_default. split; [|split].
  - intros H. change (hpipm_strcmp "ERK4" "ERK4") with true. cbv iota. apply Nat.eqb_neq in H. rewrite H. reflexivity.
  - intros H. change (hpipm_strcmp "ERK2" "ERK4") with false. change (hpipm_strcmp "ERK2" "ERK2") with true. cbv iota.
    apply Nat.eqb_neq in H. rewrite H. reflexivity.
  - intros name H1 H2. rewrite H1, H2. reflexivity.
Qed.

(** C32 (steps).  After any history of calls on a workspace, a solve stays inside the workspace memory, returns, and the state
    and sensitivities the getters then return are those reached by the given number of steps of the explicit method from the
    ones they returned before, for the callback in use (which gets the time converted to int); parameters and settings stay. *)
Theorem C32_solve toint arg T nx np nfm nam w X P :
  rk_holds (e_rk arg) T ->
  erk_reach toint arg nx np nfm nam w -> w_na w = 0%nat -> ws_state w X P ->
  exists w' X', erk_solve toint arg w = Ok w' /\
    erk_run (nx * (1 + w_nf w)) T (e_h arg) (fun t x => (if (0 <? w_nf w)%nat then w_vde w else w_ode w) (toint t) x (pad np P)) (e_steps arg) X X' /\
    ws_state w' X' P /\ w_nf w' = w_nf w /\ w_na w' = 0%nat /\ w_ode w' = w_ode w /\ w_vde w' = w_vde w.
Proof.
  intros HT HR Hna HX. apply reach_ok in HR. destruct (solve_ok toint arg nx np nfm nam T w X P HT HR Hna HX) as [w' [E [S R]]].
  exists w', (runf (nx * (1 + w_nf w)) T (e_h arg) (rhs_of toint np w P) (e_steps arg) X). split; [exact E|]. split; [|split; [exact S|exact R]].
  apply erk_run_fn. intros i _. reflexivity.
Qed.
(** the steps determine the result *)
Theorem C32_unique n T h f m x x' x'' : erk_run n T h f m x x' -> erk_run n T h f m x x'' -> eqv n x' x''.
Proof. intros H1 H2. apply erk_run_fn in H1. apply erk_run_fn in H2. intros i Hi. rewrite H1, H2 by assumption. reflexivity. Qed.
(** for an explicit tableau this is the Runge-Kutta method of the whole tableau *)
Theorem C32_explicit_full n T h f t x x' : explicit T -> (erk_step n T h f t x x' <-> rk_step n T h f t x x').
Proof.
  intros HE. assert (E : forall (k : nat -> rv) s i, (s < t_ns T)%nat ->
    rsum (t_ns T) (fun r => t_A T s r * k r i) = rsum s (fun r => t_A T s r * k r i)).
  { intros k s i Hs. replace (t_ns T) with (s + (t_ns T - s))%nat at 1 by lia. rewrite rsum_split.
    rewrite (rsum_0 (t_ns T - s)); [lra|]. intros r Hr. rewrite (HE s (s + r)%nat Hs ltac:(lia)). lra. }
  split; intros [k [Hk Hx]]; exists k; (split; [|exact Hx]); intros s Hs i Hi; rewrite (Hk s Hs i Hi); f_equal; apply pad_ext; intros q Hq; rewrite E by assumption; reflexivity.
Qed.
(** a solve with adjoint seeds exits *)
Theorem C32_adjoint_exits toint arg (w : ews R) : (0 < w_na w)%nat -> erk_solve toint arg w = Exit.
Proof. intros H. unfold erk_solve. destruct (Nat.ltb_spec 0 (w_na w)); [reflexivity|lia]. Qed.

(** C32 (setters).  In every reachable workspace the setters succeed and change exactly what they name. *)
Theorem C32_setters toint arg nx np nfm nam w X P :
  erk_reach toint arg nx np nfm nam w -> ws_state w X P ->
  (forall x, exists w', erk_set_x x w = Ok w' /\ ws_state w' (cat nx x (fun i => X (nx + i)%nat)) P /\
     w_nf w' = w_nf w /\ w_na w' = w_na w /\ w_ode w' = w_ode w /\ w_vde w' = w_vde w) /\
  (forall fs, exists w', erk_set_fs fs w = Ok w' /\ ws_state w' (cat nx X fs) P /\
     w_nf w' = w_nf w /\ w_na w' = w_na w /\ w_ode w' = w_ode w /\ w_vde w' = w_vde w) /\
  (forall p, exists w', erk_set_p p w = Ok w' /\ ws_state w' X p /\
     w_nf w' = w_nf w /\ w_na w' = w_na w /\ w_ode w' = w_ode w /\ w_vde w' = w_vde w) /\
  (forall nf x fs bs p ode vde, (nf <= nfm)%nat -> exists w', erk_set_all nf 0 x fs bs p ode vde w = Ok w' /\ ws_state w' (cat nx x fs) p /\
     w_nf w' = nf /\ w_na w' = 0%nat /\ w_ode w' = ode /\ w_vde w' = vde) /\
  (forall nf na x fs bs p ode vde, (nfm < nf \/ nam < na)%nat -> erk_set_all nf na x fs bs p ode vde w = Exit).
Proof.
  intros HR HX. apply reach_ok in HR. split; [|split; [|split; [|split]]].
  - intros x. exact (set_x_ok arg nx np nfm nam w X P x HR HX).
  - intros fs. exact (set_fs_ok arg nx np nfm nam w X P fs HR HX).
  - intros p. exact (set_p_ok arg nx np nfm nam w X P p HR HX).
  - intros nf x fs bs p ode vde Hnf. exact (set_all_ok arg nx np nfm nam w nf x fs bs p ode vde HR Hnf).
  - intros nf na x fs bs p ode vde H. destruct HR as (B1 & B2 & B3 & B4 & B5 & B6 & _). unfold erk_set_all. rewrite B5, B6.
    destruct (Nat.ltb_spec nfm nf); [reflexivity|]. cbn [orb]. destruct (Nat.ltb_spec nam na); [reflexivity|lia].
Qed.

(** C32 (forward sensitivities).  Let [vde] compute the right-hand side f and, per column, the variational equation with the true
    partial derivatives of f.  Then column j of the sensitivities returned after a solve is the derivative, at 0, of the state
    returned by solves started from any curve of initial states and parameters through the given point whose derivative is column
    j of the initial sensitivities, resp. the direction dp j. *)
Theorem C32_forward_sensitivities toint arg T nx np nf nfm nam f Jx Jp vde dp wv X P j (wo : R -> ews R) nfo nao (xs ps : R -> rv) :
  rk_holds (e_rk arg) T ->
  is_jacobian nx np f Jx Jp ->
  (forall t Y p i, (i < nx)%nat -> vde t Y p i = f t (pad nx Y) p i) ->
  (forall t Y p c i, (c < nf)%nat -> (i < nx)%nat ->
     vde t Y p (nx + c * nx + i)%nat =
       rsum nx (fun k => Jx t (pad nx Y) p i k * Y (nx + c * nx + k)%nat) + rsum np (fun k => Jp t (pad nx Y) p i k * dp c k)) ->
  erk_reach toint arg nx np nfm nam wv -> w_na wv = 0%nat -> w_nf wv = nf -> w_vde wv = vde -> ws_state wv X P ->
  (j < nf)%nat ->
  (forall th, erk_reach toint arg nx np nfo nao (wo th) /\ w_na (wo th) = 0%nat /\ w_nf (wo th) = 0%nat /\ w_ode (wo th) = f /\
              ws_state (wo th) (xs th) (ps th)) ->
  eqv nx (xs 0) X -> eqv np (ps 0) P ->
  (forall i, (i < nx)%nat -> derivable_pt_lim (fun th => xs th i) 0 (X (nx + j * nx + i)%nat)) ->
  (forall i, (i < np)%nat -> derivable_pt_lim (fun th => ps th i) 0 (dp j i)) ->
  exists wv' (phi : R -> rv) (sens : rv),
    erk_solve toint arg wv = Ok wv' /\
    (forall th, exists wo', erk_solve toint arg (wo th) = Ok wo' /\ forall i, (i < nx)%nat -> erk_get_x wo' i = Ok (phi th i)) /\
    (forall i, (i < nx)%nat -> erk_get_x wv' i = Ok (phi 0 i)) /\
    (forall i, (i < nx)%nat -> erk_get_fs wv' (j * nx + i) = Ok (sens i)) /\
    (forall i, (i < nx)%nat -> derivable_pt_lim (fun th => phi th i) 0 (sens i)).
Proof.
  intros HT HJ V0 V1 HRv Hnav Hnfv Hvde HXv Hj Ho Hx0 Hp0 Hxd Hpd.
  pose proof (reach_ok _ _ _ _ _ _ _ HRv) as HOv.
  destruct (solve_ok toint arg nx np nfm nam T wv X P HT HOv Hnav HXv) as [wv' [Ev [Sv [Nv _]]]].
  rewrite Hnfv in *.
  assert (Enf : (0 <? nf)%nat = true) by (destruct (Nat.ltb_spec 0 nf); [reflexivity|lia]).
  assert (Erv : rhs_of toint np wv P = fun t Y => vde (toint t) Y (pad np P)).
  { unfold rhs_of. rewrite Hnfv, Enf, Hvde. reflexivity. }
  rewrite Erv in Sv.
  pose proof (runf_tangent toint nx np nf T (e_h arg) f Jx Jp vde dp HJ V0 V1 j Hj ps P Hpd Hp0 (e_steps arg) xs X (conj Hx0 Hxd)) as [T0 T1].
  exists wv', (fun th => runf nx T (e_h arg) (fun t x => f (toint t) x (pad np (ps th))) (e_steps arg) (xs th)).
  eexists (fun i => runf (nx * (1 + nf)) T (e_h arg) (fun t Y => vde (toint t) Y (pad np P)) (e_steps arg) X (nx + j * nx + i)%nat).
  assert (Enx : w_nx wv' = nx).
  { assert (HOv' : ok_ws arg nx np nfm nam wv') by (eapply (reach_ok toint); eapply er_solve; [exact HRv|exact Ev]). apply HOv'. }
  destruct Sv as (S1 & S2 & S3). rewrite Enx in S1. rewrite Enx, Nv in S2.
  split; [exact Ev|]. split; [|split; [|split]].
  - intros th. destruct (Ho th) as (HRo & Hnao & Hnfo & Hode & HXo). pose proof (reach_ok _ _ _ _ _ _ _ HRo) as HOo.
    destruct (solve_ok toint arg nx np nfo nao T (wo th) (xs th) (ps th) HT HOo Hnao HXo) as [wo' [Eo [So [No _]]]].
    exists wo'. split; [exact Eo|]. intros i Hi.
    assert (Enxo : w_nx wo' = nx).
    { assert (HOo' : ok_ws arg nx np nfo nao wo') by (eapply (reach_ok toint); eapply er_solve; [exact HRo|exact Eo]). apply HOo'. }
    destruct So as (So1 & _). rewrite Enxo in So1. rewrite (So1 i Hi). f_equal. unfold rhs_of. rewrite Hnfo, Hode.
    replace (nx * (1 + 0))%nat with nx by lia. reflexivity.
  - intros i Hi. rewrite (S1 i Hi). f_equal. symmetry. apply T0. assumption.
  - intros i Hi. rewrite S2.
    + f_equal. f_equal. lia.
    + assert ((j + 1) * nx <= nf * nx)%nat by (apply Nat.mul_le_mono_r; lia). lia.
  - intros i Hi. apply T1. assumption.
Qed.

Lemma exp_taylor_ext n M d h x y : eqv n x y -> eqv n (exp_taylor n M d h x) (exp_taylor n M d h y).
Proof.
  intros H i Hi. unfold exp_taylor. apply rsum_ext. intros k _. f_equal. revert i Hi. induction k as [|k IH]; intros i Hi; [apply H; assumption|].
  cbn [lpow]. unfold lin. apply rsum_ext. intros q Hq. f_equal. apply IH. assumption.
Qed.
(** C32 (linear systems).  For x' = M x the built-in methods apply, per step, the Taylor polynomial of exp(hM) of degree 4, resp. 2. *)
Theorem C32_linear n M h m x x' :
  (erk_run n T4 h (fun _ => lin n M) m x x' -> eqv n x' (iter m (exp_taylor n M 4 h) x)) /\
  (erk_run n T2 h (fun _ => lin n M) m x x' -> eqv n x' (iter m (exp_taylor n M 2 h) x)).
Proof.
  split; intros H; apply erk_run_fn in H; intros i Hi; rewrite (H i Hi); clear H; revert i Hi; induction m as [|m IH]; intros i Hi; try reflexivity;
    cbn [runf iter]; [rewrite step4_lin|rewrite step2_lin]; apply exp_taylor_ext; assumption.
Qed.

(** C32 (resuming).  When the callback ignores the time, two solves in a row are one run of twice as many steps. *)
Theorem C32_resume n T h (g : rv -> rv) a b x y z :
  erk_run n T h (fun _ => g) a x y -> erk_run n T h (fun _ => g) b y z -> erk_run n T h (fun _ => g) (a + b) x z.
Proof.
  intros H1 H2. apply erk_run_fn in H1. apply erk_run_fn in H2. apply erk_run_fn.
  assert (Ht : forall t t' u, stepf n T h (fun _ => g) t u = stepf n T h (fun _ => g) t' u).
  { intros t t' u. assert (Hk : forall s, ktab n T h (fun _ => g) t u s = ktab n T h (fun _ => g) t' u s).
    { induction s as [|s IH]; [reflexivity|]. cbn [ktab]. rewrite IH. reflexivity. }
    unfold stepf. rewrite Hk. reflexivity. }
  intros i Hi. rewrite (H2 i Hi). transitivity (runf n T h (fun _ => g) b (runf n T h (fun _ => g) a x) i).
  - apply runf_ext; assumption.
  - clear H1 H2 Hi. apply (f_equal (fun u : rv => u i)). clear i. induction b as [|b IH]; [rewrite Nat.add_0_r; reflexivity|].
    rewrite Nat.add_succ_r. cbn [runf]. rewrite IH. apply Ht.
Qed.

(** The callbacks declare the time as int: for  x' = t  one step of size 1/2 of the order-4 method from 0 returns 0, not 1/8. *)
Definition c_trunc (r : R) : Z := if Rle_dec 0 r then Int_part r else (- Int_part (- r))%Z.
Lemma c_trunc_0 r : 0 <= r < 1 -> c_trunc r = 0%Z.
Proof.
  intros [H1 H2]. unfold c_trunc. destruct (Rle_dec 0 r); [|contradiction].
  unfold Int_part. replace (up r) with 1%Z; [reflexivity|]. apply tech_up; simpl; lra.
Qed.
Theorem C32_time_refuted :
  exists arg w w', rk_holds (e_rk arg) T4 /\ e_h arg = 1/2 /\ e_steps arg = 1%nat /\
    erk_reach c_trunc arg 1 0 0 0 w /\ w_ode w = (fun t _ _ _ => IZR t) /\ erk_get_x w 0 = Ok 0 /\
    erk_solve c_trunc arg w = Ok w' /\ erk_get_x w' 0 = Ok 0 /\
    forall x', erk_run 1 T4 (1/2) (fun t _ _ => t) 1 (fun _ => 0) x' -> x' 0%nat = 1/8.
Proof.
  destruct (init4 (fun _ => 0) 0%Z) as [rk (_ & [HT _] & _)].
  set (arg := mkearg rk (1/2) 1). set (ode := fun (t : Z) (_ _ : rv) (_ : nat) => IZR t).
  set (w := erk_create arg 1 0 0 0 ode).
  assert (HR : erk_reach c_trunc arg 1 0 0 0 w) by constructor.
  pose proof (reach_ok _ _ _ _ _ _ _ HR) as HO.
  assert (HX : ws_state w (fun _ => 0) (fun _ => 0)).
  { apply (state_cells arg 1 0 0 0 w _ _ HO). split; intros i _; cbn; apply R_lit01. }
  destruct (solve_ok c_trunc arg 1 0 0 0 T4 w (fun _ => 0) (fun _ => 0) HT HO eq_refl HX) as [w' [E [S _]]].
  exists arg, w, w'. repeat (split; [assumption || reflexivity|]). split; [apply HX; cbn; lia|]. split; [exact E|]. split.
  - destruct S as (S1 & _). specialize (S1 0%nat).
    assert (HN : w_nx w' = 1%nat).
    { assert (HO' : ok_ws arg 1 0 0 0 w') by (eapply (reach_ok c_trunc); eapply er_solve; [exact HR|exact E]). apply HO'. }
    rewrite HN in S1. rewrite S1 by lia. f_equal. unfold rhs_of. cbn [w_nf w erk_create Nat.ltb Nat.leb w_ode].
    change (e_h arg) with (1/2). change (e_steps arg) with 1%nat. cbn [runf]. unfold stepf. cbn [t_ns T4 rsum ktab Nat.eqb].
    unfold T4, lst, ode. cbn [t_A t_B t_C nth]. change (INR 0) with 0. rewrite !c_trunc_0 by lra. lra.
  - intros x' H. apply erk_run_fn in H. rewrite (H 0%nat) by lia. cbn [runf]. unfold stepf. cbn [t_ns T4 rsum ktab Nat.eqb].
    unfold T4, lst. cbn [t_A t_B t_C nth]. change (INR 0) with 0. lra.
Qed.

(** An implicit tableau is accepted (with expl=0) and silently integrated with its strictly lower part: implicit Euler for x'=-x. *)
Theorem C32_implicit_refuted :
  exists rk arg w w', rk_set_all 0 (fun _ => 1) (fun _ => 1) (fun _ => 1) (rk_create 1 (fun _ => 0) 0) = Ok rk /\ rk_expl rk = 0%Z /\
    e_rk arg = rk /\ e_h arg = 1 /\ e_steps arg = 1%nat /\
    erk_reach c_trunc arg 1 0 0 0 w /\ w_ode w = (fun _ x _ i => - x i) /\ erk_get_x w 0 = Ok 1 /\
    erk_solve c_trunc arg w = Ok w' /\ erk_get_x w' 0 = Ok 0 /\
    forall x', rk_step 1 (mktab 1 (fun _ _ => 1) (fun _ => 1) (fun _ => 1)) 1 (fun _ x i => - x i) 0 (fun _ => 1) x' -> x' 0%nat = 1/2.
Proof.
  destruct (set_all_rk 1 (fun _ => 0) 0 0 (fun _ => 1) (fun _ => 1) (fun _ => 1)) as [rk (E0 & [HT _] & HE & _)].
  set (arg := mkearg rk 1 1). set (ode := fun (_ : Z) (x _ : rv) (i : nat) => - x i).
  set (w0 := erk_create arg 1 0 0 0 ode).
  assert (HR0 : erk_reach c_trunc arg 1 0 0 0 w0) by constructor.
  assert (HX0 : ws_state w0 (fun _ => 0) (fun _ => 0)).
  { apply (state_cells arg 1 0 0 0 w0 _ _ (reach_ok _ _ _ _ _ _ _ HR0)). split; intros i _; cbn; apply R_lit01. }
  destruct (set_x_ok arg 1 0 0 0 w0 _ _ (fun _ => 1) (reach_ok _ _ _ _ _ _ _ HR0) HX0) as [w (E1 & S1 & N1 & N2 & N3 & N4)].
  assert (HR : erk_reach c_trunc arg 1 0 0 0 w) by (eapply er_set_x; [exact HR0|exact E1]).
  pose proof (reach_ok _ _ _ _ _ _ _ HR) as HO.
  destruct (solve_ok c_trunc arg 1 0 0 0 _ w _ _ HT HO N2 S1) as [w' [E [S _]]].
  assert (HN : w_nx w = 1%nat) by apply HO.
  assert (HN' : w_nx w' = 1%nat).
  { assert (HO' : ok_ws arg 1 0 0 0 w') by (eapply (reach_ok c_trunc); eapply er_solve; [exact HR|exact E]). apply HO'. }
  exists rk, arg, w, w'. split; [exact E0|]. split; [exact HE|]. repeat (split; [assumption || reflexivity|]).
  split; [destruct S1 as (S1 & _); rewrite S1 by lia; reflexivity|]. split; [exact E|]. split.
  - destruct S as (S & _). rewrite S by lia. f_equal. unfold rhs_of. rewrite N1, N3. cbn [w_nf w0 erk_create Nat.ltb Nat.leb w_ode].
    change (e_h arg) with 1. change (e_steps arg) with 1%nat. cbn [runf]. unfold stepf. cbn [t_ns rsum ktab Nat.eqb t_B t_A t_C]. unfold ode, sarg, pad, cat. cbn. lra.
  - intros x' [k [Hk Hx]]. rewrite (Hx 0%nat) by lia. specialize (Hk 0%nat ltac:(cbn; lia) 0%nat ltac:(lia)). cbn in Hk. cbn. unfold pad in Hk. cbn in Hk. lra.
Qed.

(** sim_erk_ws_set_nf does not check against nf_max: the next solve leaves the workspace memory. *)
Theorem C32_set_nf_refuted toint ode :
  let rk := rk_create 1 (fun _ : nat => 0) 1 in let arg := mkearg rk 1 1 in
  erk_solve toint arg (erk_set_nf 2 (erk_create arg 1 0 0 0 ode)) = UB.
Proof. reflexivity. Qed.
(** setting an adjoint seed (allowed by na_max=1) writes outside the workspace memory, which reserves nf_max entries per step, not np+nx. *)
Theorem C32_adjoint_seed_refuted (x fs bs p : rv) ode vde :
  let rk := rk_create 1 (fun _ : nat => 0) 1 in let arg := mkearg rk 1 1 in
  erk_set_all 0 1 x fs bs p ode vde (erk_create arg 1 0 0 1 ode) = UB.
Proof. reflexivity. Qed.

(** the hypotheses of the sensitivity theorem can be met: the nonlinear system x0' = x1, x1' = p0 x0^2, sensitivity wrt the parameter *)
Definition ex_f (t : Z) (x p : rv) : rv := fun i => if Nat.eqb i 0 then x 1%nat else p 0%nat * (x 0%nat * x 0%nat).
Definition ex_Jx (t : Z) (x p : rv) (i k : nat) : R :=
  if Nat.eqb i 0 then (if Nat.eqb k 1 then 1 else 0) else (if Nat.eqb k 0 then 2 * p 0%nat * x 0%nat else 0).
Definition ex_Jp (t : Z) (x p : rv) (i k : nat) : R := if Nat.eqb i 0 then 0 else x 0%nat * x 0%nat.
Definition ex_vde (t : Z) (Y p : rv) : rv := fun i =>
  if Nat.ltb i 2 then ex_f t (pad 2 Y) p i
  else rsum 2 (fun k => ex_Jx t (pad 2 Y) p (i - 2) k * Y (2 + k)%nat) + rsum 1 (fun k => ex_Jp t (pad 2 Y) p (i - 2) k * 1).
Example ex_jac : is_jacobian 2 1 ex_f ex_Jx ex_Jp.
Proof.
  intros t y q v w Hy Hq i Hi. destruct i as [|[|]]; [| |lia].
  - unfold ex_f, ex_Jx, ex_Jp, pad. cbn [Nat.eqb Nat.ltb Nat.leb rsum].
    replace (0 + 0 * v 0%nat + 1 * v 1%nat + (0 + 0 * w 0%nat)) with (v 1%nat) by lra. apply Hy. lia.
  - unfold ex_f, ex_Jx, ex_Jp, pad. cbn [Nat.eqb Nat.ltb Nat.leb rsum].
    pose proof (deriv_mult _ _ _ _ _ (Hq 0%nat ltac:(lia)) (deriv_mult _ _ _ _ _ (Hy 0%nat ltac:(lia)) (Hy 0%nat ltac:(lia)))) as HD. cbv beta in HD.
    match type of HD with derivable_pt_lim _ _ ?d => match goal with |- derivable_pt_lim _ _ ?e => replace e with d by lra end end. exact HD.
Qed.
Example ex_vde_ok :
  (forall t Y p i, (i < 2)%nat -> ex_vde t Y p i = ex_f t (pad 2 Y) p i) /\
  (forall t Y p c i, (c < 1)%nat -> (i < 2)%nat ->
     ex_vde t Y p (2 + c * 2 + i)%nat =
       rsum 2 (fun k => ex_Jx t (pad 2 Y) p i k * Y (2 + c * 2 + k)%nat) + rsum 1 (fun k => ex_Jp t (pad 2 Y) p i k * 1)).
Proof.
  split.
  - intros t Y p i Hi. unfold ex_vde. destruct (Nat.ltb_spec i 2); [reflexivity|lia].
  - intros t Y p c i Hc Hi. assert (c = 0)%nat by lia. subst c. destruct i as [|[|]]; [reflexivity|reflexivity|lia].
Qed.
(** reachable workspaces: a family with the parameter th, and one with the sensitivity *)
Example ex_runs : exists arg, rk_holds (e_rk arg) T4 /\ e_steps arg = 3%nat /\
  (exists wv, erk_reach c_trunc arg 2 1 1 0 wv /\ w_na wv = 0%nat /\ w_nf wv = 1%nat /\ w_vde wv = ex_vde /\ ws_state wv (cat 2 (fun _ => 1) (fun _ => 0)) (fun _ => 5)) /\
  (forall th, exists wo, erk_reach c_trunc arg 2 1 0 0 wo /\ w_na wo = 0%nat /\ w_nf wo = 0%nat /\ w_ode wo = ex_f /\ ws_state wo (cat 2 (fun _ => 1) (fun _ => 0)) (fun _ => 5 + th)) /\
  derivable_pt_lim (fun th => 5 + th) 0 1.
Proof.
  destruct (init4 (fun _ => 0) 0%Z) as [rk (_ & [HT _] & _)].
  exists (mkearg rk (1/10) 3). split; [exact HT|]. split; [reflexivity|]. split; [|split].
  - set (arg := mkearg rk (1/10) 3).
    assert (HR : erk_reach c_trunc arg 2 1 1 0 (erk_create arg 2 1 1 0 ex_f)) by constructor.
    destruct (set_all_ok arg 2 1 1 0 _ 1 (fun _ => 1) (fun _ => 0) (fun _ => 0) (fun _ => 5) ex_f ex_vde (reach_ok _ _ _ _ _ _ _ HR) ltac:(lia))
      as [w (E & S & N1 & N2 & N3 & N4)]. exists w. split; [eapply er_set_all; [exact HR|exact E]|]. auto.
  - intros th. set (arg := mkearg rk (1/10) 3).
    assert (HR : erk_reach c_trunc arg 2 1 0 0 (erk_create arg 2 1 0 0 ex_f)) by constructor.
    destruct (set_all_ok arg 2 1 0 0 _ 0 (fun _ => 1) (fun _ => 0) (fun _ => 0) (fun _ => 5 + th) ex_f ex_vde (reach_ok _ _ _ _ _ _ _ HR) ltac:(lia))
      as [w (E & S & N1 & N2 & N3 & N4)]. exists w. split; [eapply er_set_all; [exact HR|exact E]|]. auto.
  - replace 1 with (0 + 1) by lra. apply deriv_plus; [apply derivable_pt_lim_const|apply derivable_pt_lim_id].
Qed.

Print Assumptions C32_tableau.
Print Assumptions C32_builtin.
Print Assumptions C32_builtin_exit.
Print Assumptions C32_solve.
Print Assumptions C32_unique.
Print Assumptions C32_explicit_full.
Print Assumptions C32_adjoint_exits.
Print Assumptions C32_setters.
Print Assumptions C32_forward_sensitivities.
Print Assumptions C32_linear.
Print Assumptions C32_resume.
Print Assumptions C32_time_refuted.
Print Assumptions C32_implicit_refuted.
Print Assumptions C32_set_nf_refuted.
Print Assumptions C32_adjoint_seed_refuted.
