(** SensProofs.v -- proofs for SensProps.v *)
From Coq Require Import ZArith Bool Arith Lia Reals Lra.
From Verif Require Import Base ArithF RSum Blas CoreModel CoreProofs OcpModel ResSpec KktSpec ResProofs ResProofs2 KktModel KktProofs KktProofs4 SolveModel SolveProofs SolveProofs2 SolveProofs3 SolveProofs4 NewtonUniq SolveProps SensModel.

Section Gen.
Context {F : Type} {AF : Arith F}.
Notation vec := (nat -> F).
Local Open Scope F_scope.

(** the in-place computation reads every multiplier before overwriting it *)
Lemma lam_t_alias nc (tinv rd rm lam dt : vec) c :
  fst (compute_lam_t_alias nc tinv rd rm (lam, dt)) c = fst (compute_lam_t nc lam tinv rd rm (lam, dt)) c /\
  snd (compute_lam_t_alias nc tinv rd rm (lam, dt)) c = snd (compute_lam_t nc lam tinv rd rm (lam, dt)) c.
Proof.
  unfold compute_lam_t_alias, compute_lam_t. revert c.
  apply (loop_rel (fun k (x y : vec * vec) => (forall c, fst x c = fst y c /\ snd x c = snd y c) /\ forall c, (k <= c)%nat -> fst x c = lam c) nc); [split; auto|].
  intros k [l1 t1] [l2 t2] Hk (H & Hl). cbn [fst snd] in *. split.
  - intros c. destruct (H k) as (_ & E). rewrite (Hl k ltac:(lia)), E. split; unfold upd; destruct (Nat.eqb c k); try reflexivity; apply H.
  - intros c Hc. rewrite upd_other by lia. apply Hl. lia.
Qed.
Lemma solve_alias sq a (qp : oqp F) tinv Gam gam0 x w :
  let s1 := fst (solve_kkt_alias sq a qp tinv Gam gam0 x w) in let s2 := fst (solve_kkt sq false (alias_args a x) qp tinv Gam gam0 x w) in
  (forall ss k, s_ux s1 ss k = s_ux s2 ss k) /\ (forall ss k, s_pi s1 ss k = s_pi s2 ss k) /\ (forall ss k, s_lam s1 ss k = s_lam s2 ss k) /\ (forall ss k, s_t s1 ss k = s_t s2 ss k).
Proof.
  cbv zeta. unfold solve_kkt_alias, solve_kkt. cbn [fst s_ux s_pi s_lam s_t]. split; [reflexivity|]. split; [reflexivity|].
  split; intros ss k; unfold sol_lt; apply lam_t_alias.
Qed.
Lemma solve_alias_ws sq a (qp : oqp F) tinv Gam gam0 x w : snd (solve_kkt_alias sq a qp tinv Gam gam0 x w) = snd (solve_kkt sq false (alias_args a x) qp tinv Gam gam0 x w).
Proof. reflexivity. Qed.

Lemma load_ux D (b o : osol F) i k : (k < nvt D i)%nat -> s_ux (load D b o) i k = s_ux b i k.
Proof. intros. cbn [load s_ux]. unfold VECCP. rewrite vset_in' by lia. f_equal. lia. Qed.
Lemma load_pi D (b o : osol F) i k : (i < dN D)%nat -> (k < dnx D (i + 1))%nat -> s_pi (load D b o) i k = s_pi b i k.
Proof. intros Hi Hk. cbn [load s_pi]. apply Nat.ltb_lt in Hi. rewrite Hi. unfold VECCP. rewrite vset_in' by lia. f_equal. lia. Qed.
Lemma load_lam D (b o : osol F) i k : (k < nct D i)%nat -> s_lam (load D b o) i k = s_lam b i k.
Proof. intros. cbn [load s_lam]. unfold VECCP. rewrite vset_in' by lia. f_equal. lia. Qed.
Lemma load_t D (b o : osol F) i k : (k < nct D i)%nat -> s_t (load D b o) i k = s_t b i k.
Proof. intros. cbn [load s_t]. unfold VECCP. rewrite vset_in' by lia. f_equal. lia. Qed.

Lemma scale_m_val nc (t tmp m : vec) c : fst (scale_m nc t (tmp, m)) c = (if Nat.ltb c nc then m c else tmp c) /\ snd (scale_m nc t (tmp, m)) c = (if Nat.ltb c nc then m c * t c else m c).
Proof.
  unfold scale_m. revert c. apply (loop_ind (fun k (x : vec * vec) => forall c, fst x c = (if Nat.ltb c k then m c else tmp c) /\ snd x c = (if Nat.ltb c k then m c * t c else m c))).
  - intros c. split; reflexivity.
  - intros k [a b] Hk IH c. cbn [fst snd] in *. destruct (IH k) as (_ & E). rewrite Nat.ltb_irrefl in E. rewrite E. destruct (IH c) as (E1 & E2).
    unfold upd. destruct (Nat.eqb_spec c k) as [->|Hne].
    + assert ((k <? S k)%nat = true) as -> by (apply Nat.ltb_lt; lia). split; reflexivity.
    + rewrite E1, E2. assert ((c <? S k)%nat = (c <? k)%nat) as -> by (destruct (Nat.ltb_spec c (S k)), (Nat.ltb_spec c k); lia || reflexivity). split; reflexivity.
Qed.
Lemma scale_t_val nc (tinv t : vec) c : scale_t nc tinv t c = if Nat.ltb c nc then t c * tinv c else t c.
Proof.
  unfold scale_t. revert c. apply (loop_ind (fun k (x : vec) => forall c, x c = if Nat.ltb c k then t c * tinv c else t c)); [reflexivity|].
  intros k x Hk IH c. pose proof (IH k) as E. rewrite Nat.ltb_irrefl in E. rewrite E. unfold upd. destruct (Nat.eqb_spec c k) as [->|Hne].
  - assert ((k <? S k)%nat = true) as -> by (apply Nat.ltb_lt; lia). reflexivity.
  - rewrite IH. assert ((c <? S k)%nat = (c <? k)%nat) as -> by (destruct (Nat.ltb_spec c (S k)), (Nat.ltb_spec c k); lia || reflexivity). reflexivity.
Qed.
Lemma restore_m_val nc (tmp m : vec) c : restore_m nc tmp m c = if Nat.ltb c nc then tmp c else m c.
Proof.
  unfold restore_m. revert c. apply (loop_ind (fun k (x : vec) => forall c, x c = if Nat.ltb c k then tmp c else m c)); [reflexivity|].
  intros k x Hk IH c. unfold upd. destruct (Nat.eqb_spec c k) as [->|Hne].
  - assert ((k <? S k)%nat = true) as -> by (apply Nat.ltb_lt; lia). reflexivity.
  - rewrite IH. assert ((c <? S k)%nat = (c <? k)%nat) as -> by (destruct (Nat.ltb_spec c (S k)), (Nat.ltb_spec c k); lia || reflexivity). reflexivity.
Qed.
(** the adjoint call leaves the seed as it was, in any arithmetic *)
Lemma adj_seed sq a (qp : oqp F) sd bkp tinv Gam gam0 tmp out w :
  let sd' := snd (fst (sens_adj sq a qp sd bkp tinv Gam gam0 tmp out w)) in
  sd_g sd' = sd_g sd /\ sd_b sd' = sd_b sd /\ sd_d sd' = sd_d sd /\ forall ss c, sd_m sd' ss c = sd_m sd ss c.
Proof.
  cbv zeta. unfold sens_adj. destruct (solve_kkt_alias _ _ _ _ _ _ _ _) as [s w']. cbn [fst snd sd_g sd_b sd_d sd_m]. repeat (split; [reflexivity|]).
  intros ss c. rewrite restore_m_val. destruct (scale_m_val (nct (q_dim qp) ss) (s_t (load (q_dim qp) bkp out) ss) (tmp ss) (sd_m sd ss) c) as (E1 & E2). rewrite E1, E2.
  destruct (Nat.ltb c _); reflexivity.
Qed.
End Gen.

Local Open Scope R_scope.
(** entries beyond the problem do not matter *)
Definition at_point (a a' : kargs R) (D : dims) : Prop := a_reg a' = a_reg a /\ a_dual a' = a_dual a /\ a_tlm a' = a_tlm a /\ a_lam_min a' = a_lam_min a /\ a_t_min a' = a_t_min a /\
  (forall i c, (i <= dN D)%nat -> (c < nct D i)%nat -> a_lam a' i c = a_lam a i c /\ a_t a' i c = a_t a i c).
Lemma wgt_at a a' D i c : at_point a a' D -> (i <= dN D)%nat -> (c < nct D i)%nat -> wgt a' i c = wgt a i c.
Proof. intros (_ & _ & _ & _ & _ & H) Hi Hc. destruct (H i c Hi Hc) as (E1 & E2). unfold wgt. rewrite E1, E2. reflexivity. Qed.
Lemma piv_at a a' (qp : oqp R) i k : at_point a a' (q_dim qp) -> (i <= dN (q_dim qp))%nat -> (k < 2 * dns (q_dim qp) i)%nat -> slack_pivot qp (a_reg a') (wgt a' i) i k = slack_pivot qp (a_reg a) (wgt a i) i k.
Proof.
  intros H Hi Hk. destruct H as (E & H'). pose proof (conj E H') as H. rewrite E. unfold slack_pivot. f_equal.
  - f_equal. apply (wgt_at a a' (q_dim qp)); [exact H|exact Hi|unfold nct; lia].
  - apply rsum_ext. intros j Hj. f_equal; f_equal; apply (wgt_at a a' (q_dim qp)); try assumption; unfold nct; lia.
Qed.
Lemma ip_at a a' (qp : oqp R) : at_point a a' (q_dim qp) -> ipm_point a qp -> ipm_point a' qp.
Proof.
  intros H Hp. destruct H as (E & E1 & E2 & E3 & E4 & H'). assert (H : at_point a a' (q_dim qp)) by (repeat split; auto; apply H'; assumption). split.
  - intros i c Hi Hc. destruct (H' i c Hi Hc) as (_ & ->). apply (ip_t _ _ Hp); assumption.
  - destruct (ip_clip _ _ Hp) as [C|C]; [left; rewrite E2; exact C|right]. intros i c Hi Hc. destruct (H' i c Hi Hc) as (-> & ->). rewrite E3, E4. apply C; assumption.
  - intros i c Hi Hc Em. destruct (H' i c Hi Hc) as (-> & _). apply (ip_mask _ _ Hp); assumption.
  - intros i k Hi Hk. rewrite (piv_at a a' qp i k H Hi Hk). apply (ip_piv _ _ Hp); assumption.
Qed.
Lemma newton_at a a' (qp : oqp R) preg s : at_point a a' (q_dim qp) -> newton_solution a' qp preg s -> newton_solution a qp preg s.
Proof.
  intros (E & _ & _ & _ & _ & H) (A & B & C & M). split; [|split; [exact B|split; [exact C|]]].
  - intros i k Hi Hk. rewrite <- E. apply A; assumption.
  - intros i c Hi Hc. destruct (H i c Hi Hc) as (<- & <-). apply M; assumption.
Qed.
Lemma alias_at (a : kargs R) D x bkp out : (forall i c, (i <= dN D)%nat -> (c < nct D i)%nat -> s_lam bkp i c = a_lam a i c /\ s_t bkp i c = a_t a i c) -> x = load D bkp out -> at_point a (alias_args a x) D.
Proof.
  intros H ->. unfold alias_args. repeat split. cbn [a_lam]. intros. rewrite load_lam by assumption. apply H; assumption.
  cbn [a_t]. rewrite load_t by assumption. apply H; assumption.
Qed.
Lemma rhs_m (qp : oqp R) g b d m m' preg a s : (forall i c, (i <= dN (q_dim qp))%nat -> (c < nct (q_dim qp) i)%nat -> m i c = m' i c) ->
  newton_solution a (with_rhs qp g b d m) preg s -> newton_solution a (with_rhs qp g b d m') preg s.
Proof.
  intros H (A & B & C & M). split; [exact A|split; [exact B|split; [exact C|]]]. intros i c Hi Hc. cbn [q_m with_rhs]. rewrite <- H by assumption. apply M; assumption.
Qed.
Lemma newton_same a (qp : oqp R) preg s s' : (forall i k, s_ux s i k = s_ux s' i k) -> (forall i k, s_pi s i k = s_pi s' i k) -> (forall i k, s_lam s i k = s_lam s' i k) -> (forall i k, s_t s i k = s_t s' i k) ->
  newton_solution a qp preg s -> newton_solution a qp preg s'.
Proof.
  intros Eu Ep El Et (A & B & C & M). split; [|split; [|split]].
  - intros i k Hi Hk. rewrite <- Eu. rewrite <- (A i k Hi Hk). f_equal. unfold kkt_g. repeat match goal with |- _ - _ = _ - _ => f_equal | |- _ + _ = _ + _ => f_equal | |- rsum _ _ = rsum _ _ => apply rsum_ext; intros | |- (if ?b then _ else _) = (if ?b then _ else _) => destruct b end; rewrite ?Eu, ?Ep, ?El; reflexivity.
  - intros i j Hi Hj. rewrite <- (B i j Hi Hj). unfold dyn. rewrite Eu. f_equal. f_equal. apply rsum_ext. intros. rewrite Eu. reflexivity.
  - intros i c Hi Hc. rewrite <- (C i c Hi Hc). rewrite Et. f_equal. unfold con. apply rsum_ext. intros. rewrite Eu. reflexivity.
  - intros i c Hi Hc. rewrite <- (M i c Hi Hc), El, Et. reflexivity.
Qed.

(** duality of the two calls *)
Section Dual.
Variables (a : kargs R) (qp : oqp R) (preg : R).
Notation D := (q_dim qp).
Notation N := (dN D).
Variables (r c : seed R) (sf sa : osol R).
Hypothesis Hm : mask01 qp.
Hypothesis Ht : forall i k, (i <= N)%nat -> (k < nct D i)%nat -> a_t a i k <> 0.
Hypothesis Hl : forall i k, (i <= N)%nat -> (k < nct D i)%nat -> q_mask qp i k = 0 -> a_lam a i k = 0 /\ sd_m r i k = 0 /\ sd_m c i k = 0.
Hypothesis HF : newton_solution a (seed_qp qp r) preg sf.
Hypothesis HA : newton_solution a (with_rhs qp (sd_g c) (sd_b c) (sd_d c) (fun i k => sd_m c i k * a_t a i k)) preg sa.

Definition HH (x y : nat -> nat -> R) : R := rsum (N + 1) (fun i => rsum (nvt D i) (fun k => rsum (nvt D i) (fun l => Hess qp i k l * x i l) * y i k)).
Definition RR (x y : nat -> nat -> R) : R := rsum (N + 1) (fun i => rsum (nvt D i) (fun k => reg_diag qp (a_reg a) preg i k * x i k * y i k)).
Lemma HH_sym x y : HH x y = HH y x.
Proof.
  unfold HH. apply rsum_ext. intros i Hi.
  rewrite (rsum_ext _ _ (fun k => rsum (nvt D i) (fun l => Hess qp i k l * x i l * y i k))) by (intros; rewrite rsum_scal_r; reflexivity).
  rewrite rsum_swap. apply rsum_ext. intros l Hl'. rewrite <- rsum_scal_r. apply rsum_ext. intros k Hk. unfold Hess. rewrite (H_co_sym (nux qp i) (q_RSQ qp i) (q_Z qp i) k l). ring.
Qed.
Lemma RR_sym x y : RR x y = RR y x.
Proof. unfold RR. apply rsum_ext. intros. apply rsum_ext. intros. ring. Qed.
(** stationarity of one solution tested against the other *)
Lemma half (u : seed R) mm (s : osol R) (y : nat -> nat -> R) : newton_solution a (with_rhs qp (sd_g u) (sd_b u) (sd_d u) mm) preg s ->
  dot2 (N + 1) (nvt D) (sd_g u) y = - HH (s_ux s) y - RR (s_ux s) y
    - rsum N (fun i => rsum (dnx D (S i)) (fun j => s_pi s i j * (rsum (nux qp i) (fun k => q_BAbt qp i k j * y i k) - y (S i) (dnu D (S i) + j)%nat)))
    + rsum (N + 1) (fun i => rsum (nct D i) (fun k => q_mask qp i k * s_lam s i k * con qp y i k)).
Proof.
  intros (A & _). pose proof (kkt_g_dot (with_rhs qp (sd_g u) (sd_b u) (sd_d u) mm) (s_ux s) (s_pi s) (s_lam s) y) as K. unfold dot2 in *.
  change (q_dim (with_rhs qp (sd_g u) (sd_b u) (sd_d u) mm)) with D in *. change (Hess (with_rhs qp (sd_g u) (sd_b u) (sd_d u) mm)) with (Hess qp) in K.
  change (q_rqz (with_rhs qp (sd_g u) (sd_b u) (sd_d u) mm)) with (sd_g u) in K. change (nux (with_rhs qp (sd_g u) (sd_b u) (sd_d u) mm)) with (nux qp) in K.
  change (q_BAbt (with_rhs qp (sd_g u) (sd_b u) (sd_d u) mm)) with (q_BAbt qp) in K. change (q_mask (with_rhs qp (sd_g u) (sd_b u) (sd_d u) mm)) with (q_mask qp) in K.
  change (con (with_rhs qp (sd_g u) (sd_b u) (sd_d u) mm)) with (con qp) in K. rewrite rsum_add in K. fold (HH (s_ux s) y) in K.
  rewrite (rsum_ext (N + 1) _ (fun i => - rsum (nvt D i) (fun k => reg_diag qp (a_reg a) preg i k * s_ux s i k * y i k))) in K.
  2:{ intros i Hi. rewrite <- rsum_opp. apply rsum_ext. intros k Hk. specialize (A i k ltac:(change (dN (q_dim (with_rhs qp (sd_g u) (sd_b u) (sd_d u) mm))) with N; lia) Hk).
      change (reg_diag (with_rhs qp (sd_g u) (sd_b u) (sd_d u) mm)) with (reg_diag qp) in A. replace (kkt_g _ _ _ _ i k) with (- (reg_diag qp (a_reg a) preg i k * s_ux s i k)) by lra. ring. }
  rewrite rsum_opp in K. fold (RR (s_ux s) y) in K. lra.
Qed.
Lemma test_dyn u mm s v i j : newton_solution a (with_rhs qp (sd_g u) (sd_b u) (sd_d u) mm) preg s -> (i < N)%nat -> (j < dnx D (S i))%nat -> v = s_ux s ->
  rsum (nux qp i) (fun k => q_BAbt qp i k j * v i k) - v (S i) (dnu D (S i) + j)%nat = - sd_b u i j.
Proof. intros (_ & B & _) Hi Hj ->. specialize (B i j Hi Hj). unfold dyn in B. cbn [q_dim q_b q_BAbt with_rhs] in B. change (nux (with_rhs qp (sd_g u) (sd_b u) (sd_d u) mm)) with (nux qp) in B. lra. Qed.
Lemma test_con u mm s i k : newton_solution a (with_rhs qp (sd_g u) (sd_b u) (sd_d u) mm) preg s -> (i <= N)%nat -> (k < nct D i)%nat -> con qp (s_ux s) i k = sd_d u i k + s_t s i k.
Proof. intros (_ & _ & C & _) Hi Hk. specialize (C i k Hi Hk). cbn [q_d with_rhs] in C. change (con (with_rhs qp (sd_g u) (sd_b u) (sd_d u) mm)) with (con qp) in C. lra. Qed.
Lemma F_masked i k : (i <= N)%nat -> (k < nct D i)%nat -> q_mask qp i k * s_lam sf i k = s_lam sf i k /\ q_mask qp i k * s_lam sa i k = s_lam sa i k.
Proof.
  intros Hi Hk. destruct (Hm i k Hi Hk) as [E|E]; rewrite E; [|split; ring]. destruct (Hl i k Hi Hk E) as (E1 & E2 & E3). pose proof (Ht i k Hi Hk) as T.
  destruct HF as (_ & _ & _ & M1). destruct HA as (_ & _ & _ & M2). specialize (M1 i k Hi Hk). specialize (M2 i k Hi Hk). cbn [q_m seed_qp with_rhs] in M1, M2. rewrite E1, E2 in M1. rewrite E1, E3 in M2.
  assert (s_lam sf i k = 0) as -> by (apply (Rmult_eq_reg_r (a_t a i k)); lra). assert (s_lam sa i k = 0) as -> by (apply (Rmult_eq_reg_r (a_t a i k)); lra). split; ring.
Qed.
Lemma dual_identity :
  dot2 (N + 1) (nvt D) (sd_g c) (s_ux sf) + dot2 N (fun i => dnx D (S i)) (sd_b c) (s_pi sf) + dot2 (N + 1) (nct D) (sd_d c) (s_lam sf) + dot2 (N + 1) (nct D) (sd_m c) (s_t sf)
  = dot2 (N + 1) (nvt D) (sd_g r) (s_ux sa) + dot2 N (fun i => dnx D (S i)) (sd_b r) (s_pi sa) + dot2 (N + 1) (nct D) (sd_d r) (s_lam sa) + dot2 (N + 1) (nct D) (sd_m r) (fun i k => s_t sa i k / a_t a i k).
Proof.
  rewrite (half c _ sa (s_ux sf) HA), (half r _ sf (s_ux sa) HF). rewrite (HH_sym (s_ux sf)), (RR_sym (s_ux sf)).
  rewrite (rsum_ext N (fun i => rsum (dnx D (S i)) (fun j => s_pi sa i j * _)) (fun i => - rsum (dnx D (S i)) (fun j => sd_b r i j * s_pi sa i j))).
  2:{ intros i Hi. rewrite <- rsum_opp. apply rsum_ext. intros j Hj. rewrite (test_dyn r _ sf (s_ux sf) i j HF Hi Hj eq_refl). ring. }
  rewrite (rsum_ext N (fun i => rsum (dnx D (S i)) (fun j => s_pi sf i j * _)) (fun i => - rsum (dnx D (S i)) (fun j => sd_b c i j * s_pi sf i j))).
  2:{ intros i Hi. rewrite <- rsum_opp. apply rsum_ext. intros j Hj. rewrite (test_dyn c _ sa (s_ux sa) i j HA Hi Hj eq_refl). ring. }
  rewrite !rsum_opp.
  assert (E : rsum (N + 1) (fun i => rsum (nct D i) (fun k => q_mask qp i k * s_lam sa i k * con qp (s_ux sf) i k)) + dot2 (N + 1) (nct D) (sd_d c) (s_lam sf) + dot2 (N + 1) (nct D) (sd_m c) (s_t sf)
    = rsum (N + 1) (fun i => rsum (nct D i) (fun k => q_mask qp i k * s_lam sf i k * con qp (s_ux sa) i k)) + dot2 (N + 1) (nct D) (sd_d r) (s_lam sa) + dot2 (N + 1) (nct D) (sd_m r) (fun i k => s_t sa i k / a_t a i k)).
  { unfold dot2. rewrite <- !rsum_add. apply rsum_ext. intros i Hi. rewrite <- !rsum_add. apply rsum_ext. intros k Hk. destruct (F_masked i k ltac:(lia) Hk) as (-> & ->).
    rewrite (test_con r _ sf i k HF ltac:(lia) Hk), (test_con c _ sa i k HA ltac:(lia) Hk).
    pose proof (Ht i k ltac:(lia) Hk) as T. destruct HF as (_ & _ & _ & M1). destruct HA as (_ & _ & _ & M2). specialize (M1 i k ltac:(cbn; lia) Hk). specialize (M2 i k ltac:(cbn; lia) Hk). cbn [q_m seed_qp with_rhs] in M1, M2.
    assert (E1 : s_lam sf i k = - (sd_m r i k + a_lam a i k * s_t sf i k) / a_t a i k) by (field_simplify_eq; [lra|exact T]).
    assert (E2 : s_lam sa i k = - (sd_m c i k * a_t a i k + a_lam a i k * s_t sa i k) / a_t a i k) by (field_simplify_eq; [lra|exact T]).
    rewrite E1, E2. field. exact T. }
  unfold dot2 in *. lra.
Qed.
End Dual.
