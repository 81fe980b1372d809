(** ErkApi.v -- workspaces reachable through the API of the integrator, what their getters return, and the effect of the calls. *)
From Coq Require Import ZArith Lia List Bool Arith String Reals Lra.
From Verif Require Import Base ArithF AuxModel RSum ErkModel ErkSpec ErkProofs ErkSens.
Local Open Scope R_scope.

(** the tableau data structure holds the (strictly lower triangular part of the) tableau T *)
Definition rk_holds (rk : rkd R) (T : tableau) : Prop :=
  rk_fits rk /\ t_ns T = rk_ns rk /\
  forall s, (s < rk_ns rk)%nat ->
    rk_mem rk (rk_B rk + s)%nat = t_B T s /\ rk_mem rk (rk_C rk + s)%nat = t_C T s /\
    forall r, (r < s)%nat -> rk_mem rk (rk_A rk + (s + rk_ns rk * r))%nat = t_A T s r.

Section Api.
Variable toint : R -> Z.
Variable arg : earg R.
Variables nx np nfm nam : nat.

(** every history of calls on one workspace *)
Inductive erk_reach : ews R -> Prop :=
| er_create ode0 : erk_reach (erk_create arg nx np nfm nam ode0)
| er_set_all nf na x fs bs p ode vde w w' : erk_reach w -> erk_set_all nf na x fs bs p ode vde w = Ok w' -> erk_reach w'
| er_set_nf nf w : (nf <= nfm)%nat -> erk_reach w -> erk_reach (erk_set_nf nf w)
| er_set_x x w w' : erk_reach w -> erk_set_x x w = Ok w' -> erk_reach w'
| er_set_fs fs w w' : erk_reach w -> erk_set_fs fs w = Ok w' -> erk_reach w'
| er_set_p p w w' : erk_reach w -> erk_set_p p w = Ok w' -> erk_reach w'
| er_set_ode ode w : erk_reach w -> erk_reach (erk_set_ode ode w)
| er_set_vde vde w : erk_reach w -> erk_reach (erk_set_vde_for vde w)
| er_solve w w' : erk_reach w -> erk_solve toint arg w = Ok w' -> erk_reach w'.

(** what the getters return: X = state followed by the sensitivities; P = the parameters *)
Definition ws_state (w : ews R) (X P : rv) : Prop :=
  (forall i, (i < w_nx w)%nat -> erk_get_x w i = Ok (X i)) /\
  (forall i, (i < w_nx w * w_nf w)%nat -> erk_get_fs w i = Ok (X (w_nx w + i)%nat)) /\
  (forall i, (i < w_np w)%nat -> w_mem w (w_p w + i)%nat = P i).

Definition ok_ws (w : ews R) : Prop :=
  w_arg w = arg /\ w_nx w = nx /\ w_np w = np /\ (w_nf w <= nfm)%nat /\ w_nfmax w = nfm /\ w_namax w = nam /\
  w_size w = erk_memsize arg nx np nfm nam /\
  w_p w = 0%nat /\ w_xfor w = np /\ w_K w = (np + nx * (1 + nfm))%nat /\
  w_xtmp w = (np + nx * (1 + nfm) + rk_ns (e_rk arg) * (nx * (1 + nfm)))%nat.

Lemma erk_create_ok ode0 : ok_ws (erk_create arg nx np nfm nam ode0).
Proof. unfold ok_ws, erk_create. destruct (0 <? nam)%nat; cbn; repeat (split; [reflexivity || lia|]); reflexivity. Qed.

Lemma obind_ok {A B} (x : outcome A) (g : A -> outcome B) b : obind x g = Ok b -> exists a, x = Ok a /\ g a = Ok b.
Proof. destruct x; cbn; intros H; try discriminate. eauto. Qed.

Lemma ok_set_mem w m : ok_ws w -> ok_ws (set_mem w m).
Proof. intros H. exact H. Qed.

Lemma reach_ok w : erk_reach w -> ok_ws w.
Proof.
  intros H. induction H.
  - apply erk_create_ok.
  - unfold erk_set_all in H0. destruct (Nat.ltb_spec (w_nfmax w) nf); [discriminate|].
    destruct (_ || _)%bool; [discriminate|]. apply obind_ok in H0. destruct H0 as [m1 [_ H0]].
    apply obind_ok in H0. destruct H0 as [m2 [_ H0]]. apply obind_ok in H0. destruct H0 as [m3 [_ H0]].
    apply obind_ok in H0. destruct H0 as [m4 [_ H0]]. injection H0 as <-.
    destruct IHerk_reach as (B1 & B2 & B3 & B4 & B5 & B6 & B7 & B8 & B9 & B10 & B11). rewrite B5 in H1.
    unfold ok_ws. cbn. repeat (split; [assumption|]). assumption.
  - destruct IHerk_reach as (B1 & B2 & B3 & B4 & B5 & B6 & B7 & B8 & B9 & B10 & B11).
    unfold ok_ws. cbn. repeat (split; [assumption|]). assumption.
  - apply obind_ok in H0. destruct H0 as [m [_ H0]]. injection H0 as <-. apply ok_set_mem. assumption.
  - apply obind_ok in H0. destruct H0 as [m [_ H0]]. injection H0 as <-. apply ok_set_mem. assumption.
  - apply obind_ok in H0. destruct H0 as [m [_ H0]]. injection H0 as <-. apply ok_set_mem. assumption.
  - exact IHerk_reach.
  - exact IHerk_reach.
  - unfold erk_solve in H0. destruct (0 <? w_na w)%nat; [discriminate|]. apply obind_ok in H0. destruct H0 as [mt [_ H0]]. injection H0 as <-.
    apply ok_set_mem. assumption.
Qed.

Lemma ok_size w : ok_ws w -> (w_xtmp w + nx * (1 + nfm) <= w_size w)%nat.
Proof.
  intros (B1 & B2 & B3 & B4 & B5 & B6 & B7 & B8 & B9 & B10 & B11). rewrite B7, B11. unfold erk_memsize.
  destruct (0 <? nam)%nat; lia.
Qed.
Lemma nX_le w : ok_ws w -> (nx * (1 + w_nf w) <= nx * (1 + nfm))%nat.
Proof. intros (B1 & B2 & B3 & B4 & _). apply Nat.mul_le_mono_l. lia. Qed.
Lemma nX_split nf : (nx * (1 + nf) = nx + nx * nf)%nat.
Proof. rewrite Nat.mul_add_distr_l, Nat.mul_1_r. reflexivity. Qed.

Lemma ok_lay w : ok_ws w -> lay w (rk_ns (e_rk arg)) (nx * (1 + w_nf w)).
Proof.
  intros H. pose proof (ok_size w H) as HS. pose proof (nX_le w H) as HX. destruct H as (B1 & B2 & B3 & B4 & B5 & B6 & B7 & B8 & B9 & B10 & B11).
  assert (rk_ns (e_rk arg) * (nx * (1 + w_nf w)) <= rk_ns (e_rk arg) * (nx * (1 + nfm)))%nat by (apply Nat.mul_le_mono_l; assumption).
  unfold lay. rewrite B8, B3, B9, B10 in *. rewrite B11 in *.
  repeat split; lia.
Qed.

(** the memory cells behind the getters *)
Lemma state_cells w X P : ok_ws w ->
  (ws_state w X P <-> eqv (nx * (1 + w_nf w)) (fun i => w_mem w (w_xfor w + i)%nat) X /\ eqv np (fun i => w_mem w (w_p w + i)%nat) P).
Proof.
  intros H. pose proof (ok_lay w H) as (L1 & L2 & L3 & L4). pose proof (nX_split (w_nf w)) as HS.
  destruct H as (B1 & B2 & B3 & B4 & B5 & B6 & B7 & B8 & B9 & B10 & B11). unfold ws_state. rewrite B2, B3. split.
  - intros (Hx & Hf & Hp). split; [|exact Hp]. intros i Hi. destruct (Nat.lt_ge_cases i nx) as [Hlt|Hge].
    + specialize (Hx i Hlt). unfold erk_get_x in Hx. rewrite B2 in Hx. destruct (Nat.ltb_spec i nx); [|lia].
      rewrite rdm_ok in Hx by lia. injection Hx as ->. reflexivity.
    + specialize (Hf (i - nx)%nat ltac:(lia)). unfold erk_get_fs in Hf. rewrite B2 in Hf.
      destruct (Nat.ltb_spec (i - nx) (nx * w_nf w)); [|lia].
      rewrite rdm_ok in Hf by lia. injection Hf as Hf. replace (w_xfor w + nx + (i - nx))%nat with (w_xfor w + i)%nat in Hf by lia.
      rewrite Hf. f_equal. lia.
  - intros [HX HP]. repeat split.
    + intros i Hi. unfold erk_get_x. rewrite B2. destruct (Nat.ltb_spec i nx); [|lia]. rewrite rdm_ok by lia. f_equal. apply HX. lia.
    + intros i Hi. unfold erk_get_fs. rewrite B2. destruct (Nat.ltb_spec i (nx * w_nf w)); [|lia]. rewrite rdm_ok by lia. f_equal.
      rewrite <- Nat.add_assoc. apply HX. lia.
    + exact HP.
Qed.

Lemma state_exists w : ok_ws w -> exists X P, ws_state w X P.
Proof. intros H. do 2 eexists. apply state_cells; [exact H|]. split; intros i _; reflexivity. Qed.

(** replacing the tableau by an equal one *)
Lemma run_tab n (T T' : tableau) h f m x :
  t_ns T = t_ns T' ->
  (forall s, (s < t_ns T)%nat -> t_B T s = t_B T' s /\ t_C T s = t_C T' s /\ forall r, (r < s)%nat -> t_A T s r = t_A T' s r) ->
  runf n T h f m x = runf n T' h f m x.
Proof.
  intros Hn H. assert (Hk : forall t x s, (s <= t_ns T)%nat -> ktab n T h f t x s = ktab n T' h f t x s).
  { intros t y s. induction s as [|s IH]; intros Hs; [reflexivity|]. cbn [ktab]. rewrite IH by lia.
    destruct (H s ltac:(lia)) as (_ & HC & HA).
    apply FunctionalExtensionality.functional_extensionality. intros r. destruct (Nat.eqb r s); [|reflexivity].
    rewrite HC. f_equal. apply pad_ext. intros i Hi. unfold sarg. f_equal. f_equal. apply rsum_ext. intros q Hq. rewrite HA by assumption. reflexivity. }
  induction m as [|m IH]; [reflexivity|]. cbn [runf]. rewrite IH. unfold stepf.
  apply FunctionalExtensionality.functional_extensionality. intros i. rewrite <- Hn. f_equal. f_equal. apply rsum_ext. intros s Hs.
  rewrite Hk by lia. destruct (H s Hs) as (-> & _). reflexivity.
Qed.

(** the right-hand side integrated by the code: the callback in use, which gets the time converted to int *)
Definition rhs_of (w : ews R) (P : rv) : R -> rv -> rv :=
  fun t x => (if (0 <? w_nf w)%nat then w_vde w else w_ode w) (toint t) x (pad np P).

Lemma solve_ok T w X P :
  rk_holds (e_rk arg) T -> ok_ws w -> w_na w = 0%nat -> ws_state w X P ->
  exists w', erk_solve toint arg w = Ok w' /\
    ws_state w' (runf (nx * (1 + w_nf w)) T (e_h arg) (rhs_of w P) (e_steps arg) X) P /\
    w_nf w' = w_nf w /\ w_na w' = 0%nat /\ w_ode w' = w_ode w /\ w_vde w' = w_vde w.
Proof.
  intros HT HW Hna HX. pose proof HT as (HF & Hns & HTt).
  pose proof (ok_lay w HW) as HL. pose proof (proj1 (state_cells w X P HW) HX) as [C1 C2].
  pose proof HW as (B1 & B2 & B3 & B4 & B5 & B6 & B7 & B8 & B9 & B10 & B11).
  unfold erk_solve. rewrite Hna. cbn [Nat.ltb Nat.leb]. rewrite B1, B2.
  destruct (steps_ok toint (e_rk arg) (e_h arg) w (nx * (1 + w_nf w)) HL HF (e_steps arg) (w_mem w)) as [m' [E [V Rn]]].
  rsimp. rewrite R_lit01, E. cbn [obind fst]. eexists. split; [reflexivity|].
  split; [|cbn; repeat split; assumption].
  apply state_cells; [exact HW|]. cbn. split.
  - apply erk_run_fn in Rn.
    assert (E1 : code_ode toint w (fun i => w_mem w (w_p w + i)%nat) = rhs_of w P).
    { unfold code_ode, rhs_of. rewrite B3. apply FunctionalExtensionality.functional_extensionality. intros t.
      apply FunctionalExtensionality.functional_extensionality. intros x. rewrite (pad_ext _ _ _ C2). reflexivity. }
    rewrite E1 in Rn.
    assert (E2 : eqv (nx * (1 + w_nf w)) (runf (nx * (1 + w_nf w)) (tab (e_rk arg)) (e_h arg) (rhs_of w P) (e_steps arg) (fun i => w_mem w (w_xfor w + i)%nat))
                   (runf (nx * (1 + w_nf w)) (tab (e_rk arg)) (e_h arg) (rhs_of w P) (e_steps arg) X)) by (apply runf_ext; exact C1).
    intros i Hi. rewrite (Rn i Hi), (E2 i Hi). rewrite (run_tab _ (tab (e_rk arg)) T); [reflexivity|symmetry; exact Hns|].
    intros s Hs. destruct (HTt s Hs) as (Q1 & Q2 & Q3). split; [exact Q1|]. split; [exact Q2|]. intros r Hr. apply Q3. assumption.
  - destruct HL as (L1 & L2 & L3 & L4). intros i Hi. rewrite V by lia. apply C2. assumption.
Qed.

(** setters *)
Definition cat (k : nat) (a b : rv) : rv := fun i => if Nat.ltb i k then a i else b (i - k)%nat.

Lemma set_x_ok w X P x : ok_ws w -> ws_state w X P ->
  exists w', erk_set_x x w = Ok w' /\ ws_state w' (cat nx x (fun i => X (nx + i)%nat)) P /\
    w_nf w' = w_nf w /\ w_na w' = w_na w /\ w_ode w' = w_ode w /\ w_vde w' = w_vde w.
Proof.
  intros HW HX. pose proof (proj1 (state_cells w X P HW) HX) as [C1 C2]. pose proof (ok_lay w HW) as (L1 & L2 & L3 & L4).
  pose proof (nX_split (w_nf w)). pose proof HW as (B1 & B2 & B3 & B4 & B5 & B6 & B7 & B8 & B9 & B10 & B11).
  unfold erk_set_x. rewrite B2. destruct (wr_vec_ok (w_size w) (w_xfor w) nx x (w_mem w) ltac:(lia)) as [m [E V]].
  rewrite E. cbn [obind]. eexists. split; [reflexivity|]. split; [|cbn; repeat split].
  apply state_cells; [exact HW|]. cbn. split.
  - intros i Hi. rewrite V. unfold cat. destruct (Nat.ltb_spec i nx).
    + rewrite vset_in by lia. reflexivity.
    + rewrite vset_out by lia. replace (nx + (i - nx))%nat with i by lia. apply C1. assumption.
  - intros i Hi. rewrite V, vset_out by lia. apply C2. assumption.
Qed.
Lemma set_fs_ok w X P fs : ok_ws w -> ws_state w X P ->
  exists w', erk_set_fs fs w = Ok w' /\ ws_state w' (cat nx X fs) P /\
    w_nf w' = w_nf w /\ w_na w' = w_na w /\ w_ode w' = w_ode w /\ w_vde w' = w_vde w.
Proof.
  intros HW HX. pose proof (proj1 (state_cells w X P HW) HX) as [C1 C2]. pose proof (ok_lay w HW) as (L1 & L2 & L3 & L4).
  pose proof (nX_split (w_nf w)). pose proof HW as (B1 & B2 & B3 & B4 & B5 & B6 & B7 & B8 & B9 & B10 & B11).
  unfold erk_set_fs. rewrite B2. destruct (wr_vec_ok (w_size w) (w_xfor w + nx) (nx * w_nf w) fs (w_mem w) ltac:(lia)) as [m [E V]].
  rewrite E. cbn [obind]. eexists. split; [reflexivity|]. split; [|cbn; repeat split].
  apply state_cells; [exact HW|]. cbn. split.
  - intros i Hi. rewrite V. unfold cat. destruct (Nat.ltb_spec i nx).
    + rewrite vset_out by lia. apply C1. assumption.
    + rewrite vset_in' by lia. f_equal. lia.
  - intros i Hi. rewrite V, vset_out by lia. apply C2. assumption.
Qed.
Lemma set_p_ok w X P p : ok_ws w -> ws_state w X P ->
  exists w', erk_set_p p w = Ok w' /\ ws_state w' X p /\
    w_nf w' = w_nf w /\ w_na w' = w_na w /\ w_ode w' = w_ode w /\ w_vde w' = w_vde w.
Proof.
  intros HW HX. pose proof (proj1 (state_cells w X P HW) HX) as [C1 C2]. pose proof (ok_lay w HW) as (L1 & L2 & L3 & L4).
  pose proof HW as (B1 & B2 & B3 & B4 & B5 & B6 & B7 & B8 & B9 & B10 & B11).
  unfold erk_set_p. rewrite B3 in *. destruct (wr_vec_ok (w_size w) (w_p w) np p (w_mem w) ltac:(lia)) as [m [E V]].
  rewrite E. cbn [obind]. eexists. split; [reflexivity|]. split; [|cbn; repeat split].
  apply state_cells; [exact HW|]. cbn. split.
  - intros i Hi. rewrite V, vset_out by lia. apply C1. assumption.
  - intros i Hi. rewrite V, vset_in by lia. reflexivity.
Qed.
Lemma set_all_ok w nf x fs bs p ode vde : ok_ws w -> (nf <= nfm)%nat ->
  exists w', erk_set_all nf 0 x fs bs p ode vde w = Ok w' /\ ws_state w' (cat nx x fs) p /\
    w_nf w' = nf /\ w_na w' = 0%nat /\ w_ode w' = ode /\ w_vde w' = vde.
Proof.
  intros HW Hnf.
  assert (HW1 : ok_ws (set_n w nf 0)).
  { destruct HW as (B1 & B2 & B3 & B4 & B5 & B6 & B7 & B8 & B9 & B10 & B11). unfold ok_ws. cbn. repeat (split; [assumption|]). assumption. }
  pose proof (ok_lay _ HW1) as (L1 & L2 & L3 & L4). cbn in L1, L2, L3, L4.
  assert (HS : (nx * S nf = nx + nx * nf)%nat) by lia.
  pose proof HW as (B1 & B2 & B3 & B4 & B5 & B6 & B7 & B8 & B9 & B10 & B11). rewrite B3 in L1.
  unfold erk_set_all. rewrite B5, B6. destruct (Nat.ltb_spec nfm nf); [lia|]. cbn [orb].
  assert (E0 : (nam <? 0)%nat = false) by (destruct (Nat.ltb_spec nam 0); [lia|reflexivity]). rewrite E0. cbn [set_n w_nx w_np w_arg w_size w_xfor w_p w_l w_mem].
  rewrite B2, B3.
  destruct (wr_vec_ok (w_size w) (w_xfor w) nx x (w_mem w) ltac:(lia)) as [m1 [E1 V1]]. rewrite E1. cbn [obind].
  destruct (oloop_vset (w_xfor w + nx) (nx * nf) fs (fun ii m => wrm (w_size w) m (w_xfor w + (nx + ii)) (fs ii)) m1) as [m2 [E2 V2]].
  { intros ii m0 Hi _. rewrite wrm_ok by lia. rewrite Nat.add_assoc. reflexivity. }
  rewrite E2. cbn [obind].
  destruct (wr_vec_ok (w_size w) (w_p w) np p m2 ltac:(lia)) as [m3 [E3 V3]]. rewrite E3. cbn [obind Nat.ltb Nat.leb].
  eexists. split; [reflexivity|]. split; [|cbn; repeat split].
  apply state_cells; [exact HW1|]. cbn. split.
  - intros i Hi. rewrite V3, vset_out by lia. rewrite V2. unfold cat. destruct (Nat.ltb_spec i nx).
    + rewrite vset_out by lia. rewrite V1, vset_in by lia. reflexivity.
    + rewrite vset_in' by lia. f_equal. lia.
  - intros i Hi. rewrite V3, vset_in by lia. reflexivity.
Qed.
End Api.
