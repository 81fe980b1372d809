(** LayoutProofs.v -- sequential allocation is disjoint and bounded; memsize covers the cost of each create. *)
From Coq Require Import ZArith Lia List Bool Arith String.
From Verif Require Import Base LayoutModel LayoutSpec.
Import ListNotations.

(** ** Sequential allocation *)
Fixpoint psum (ps : list (nat * nat)) : nat := match ps with [] => 0 | (_, b) :: r => b + psum r end.
Definition cost1 (o : aop) : nat := match o with AReg _ _ b => b | AAlign a => a - 1 | APart _ T _ => T end.
Fixpoint cost (ops : list aop) : nat := match ops with [] => 0 | o :: r => cost1 o + cost r end.
Definition wf1 (o : aop) : Prop := match o with AReg _ _ _ => True | AAlign a => 0 < a | APart _ T ps => psum ps <= T end.
Definition before (r1 r2 : region) : Prop := r_start r1 + r_len r1 <= r_start r2.

Lemma align_bounds c a : 0 < a -> c <= (c + (a - 1)) / a * a <= c + (a - 1).
Proof.
  intros Ha. pose proof (Nat.div_mod (c + (a - 1)) a ltac:(lia)) as E.
  pose proof (Nat.mod_upper_bound (c + (a - 1)) a ltac:(lia)). nia.
Qed.

Lemma FOP_app {A} (R : A -> A -> Prop) l1 l2 :
  ForallOrdPairs R l1 -> ForallOrdPairs R l2 -> (forall x y, In x l1 -> In y l2 -> R x y) -> ForallOrdPairs R (l1 ++ l2).
Proof.
  intros H1 H2 H. induction H1 as [|x l Hx Hl IH]; cbn [app]; [assumption|].
  constructor.
  - apply Forall_app. split; [assumption|]. apply Forall_forall. intros y Hy. apply H; [left; reflexivity|assumption].
  - apply IH. intros a b Ha Hb. apply H; [right; assumption|assumption].
Qed.

Lemma parts_spec t ps : forall c,
  Forall (fun r => c <= r_start r /\ r_start r + r_len r <= c + psum ps) (parts t c ps) /\ ForallOrdPairs before (parts t c ps).
Proof.
  induction ps as [|[s b] r IH]; intros c; cbn [parts psum].
  - split; constructor.
  - destruct (IH (c + b)) as [H1 H2]. split; constructor.
    + cbn. lia.
    + eapply Forall_impl; [|exact H1]. cbn. intros; lia.
    + eapply Forall_impl; [|exact H1]. unfold before. cbn. intros; lia.
    + assumption.
Qed.

Lemma run_spec ops : Forall wf1 ops -> forall c,
  c <= snd (run c ops) <= c + cost ops /\
  Forall (fun r => c <= r_start r /\ r_start r + r_len r <= snd (run c ops)) (fst (run c ops)) /\
  ForallOrdPairs before (fst (run c ops)).
Proof.
  intros Hwf. induction Hwf as [|o r Ho _ IH]; intros c; cbn [run cost cost1 fst snd].
  - split; [lia|]. split; constructor.
  - destruct o as [t s b|a|t T ps]; cbn [cost1 wf1] in *.
    + specialize (IH (c + b)). destruct (run (c + b) r) as [l e]. cbn [fst snd] in *.
      destruct IH as (H1 & H2 & H3). split; [lia|]. split; constructor; try assumption.
      * cbn. lia.
      * eapply Forall_impl; [|exact H2]. cbn. intros; lia.
      * eapply Forall_impl; [|exact H2]. unfold before. cbn. intros; lia.
    + pose proof (align_bounds c a Ho) as Ha. specialize (IH ((c + (a - 1)) / a * a)).
      destruct (run ((c + (a - 1)) / a * a) r) as [l e]. cbn [fst snd] in *.
      destruct IH as (H1 & H2 & H3). split; [lia|]. split; [|assumption].
      eapply Forall_impl; [|exact H2]. cbn. intros; lia.
    + specialize (IH (c + T)). destruct (run (c + T) r) as [l e]. cbn [fst snd] in *.
      destruct IH as (H1 & H2 & H3). destruct (parts_spec t ps c) as [P1 P2].
      split; [lia|]. split.
      * apply Forall_app. split.
        -- eapply Forall_impl; [|exact P1]. cbn. intros; lia.
        -- eapply Forall_impl; [|exact H2]. cbn. intros; lia.
      * apply FOP_app; [assumption|assumption|]. intros x y Hx Hy.
        rewrite Forall_forall in P1, H2. specialize (P1 x Hx). specialize (H2 y Hy). cbn in *. unfold before. lia.
Qed.

Lemma run_ok mem size ops : Forall wf1 ops -> cost ops <= size ->
  Forall (inside mem size) (fst (run mem ops)) /\ ForallOrdPairs apart (fst (run mem ops)).
Proof.
  intros Hwf Hc. destruct (run_spec ops Hwf mem) as (H1 & H2 & H3). split.
  - eapply Forall_impl; [|exact H2]. unfold inside. cbn. intros; lia.
  - clear -H3. induction H3 as [|x l Hx _ IH]; constructor; [|assumption].
    eapply Forall_impl; [|exact Hx]. unfold before, apart. intros; lia.
Qed.

Lemma run_reg t s b ops : In (AReg t s b) ops -> forall c, gets (fst (run c ops)) t s b.
Proof.
  induction ops as [|o r IH]; intros Hin c; [destruct Hin|]. cbn [run].
  destruct Hin as [->|Hin].
  - destruct (run (c + b) r) as [l e]. cbn. eexists. split; [left; reflexivity|]. cbn. auto.
  - destruct o as [t' s' b'|a|t' T ps].
    + destruct (IH Hin (c + b')) as (x & Hx & H). destruct (run (c + b') r) as [l e]. cbn [fst] in *. exists x. split; [right; exact Hx|exact H].
    + exact (IH Hin _).
    + destruct (IH Hin (c + T)) as (x & Hx & H). destruct (run (c + T) r) as [l e]. cbn [fst] in *. exists x. split; [apply in_or_app; right; exact Hx|exact H].
Qed.
Lemma parts_in t s b ps : In (s, b) ps -> forall c, gets (parts t c ps) t s b.
Proof.
  induction ps as [|[s' b'] r IH]; intros Hin c; [destruct Hin|]. cbn [parts]. destruct Hin as [E|Hin].
  - injection E as -> ->. eexists. split; [left; reflexivity|]. cbn. auto.
  - destruct (IH Hin (c + b')) as (x & Hx & H). exists x. split; [right; exact Hx|exact H].
Qed.
Lemma run_part t T ps s b ops : In (APart t T ps) ops -> In (s, b) ps -> forall c, gets (fst (run c ops)) t s b.
Proof.
  intros Hin Hp. induction ops as [|o r IH]; intros c; [destruct Hin|]. cbn [run].
  destruct Hin as [->|Hin].
  - destruct (parts_in t s b ps Hp c) as (x & Hx & H). destruct (run (c + T) r) as [l e]. cbn [fst]. exists x. split; [apply in_or_app; left; exact Hx|exact H].
  - destruct o as [t' s' b'|a|t' T' ps'].
    + destruct (IH Hin (c + b')) as (x & Hx & H). destruct (run (c + b') r) as [l e]. cbn [fst] in *. exists x. split; [right; exact Hx|exact H].
    + exact (IH Hin _).
    + destruct (IH Hin (c + T')) as (x & Hx & H). destruct (run (c + T') r) as [l e]. cbn [fst] in *. exists x. split; [apply in_or_app; right; exact Hx|exact H].
Qed.

Lemma in_stages n f i x : i < n -> In x (f i) -> In x (stages n f).
Proof. intros Hi Hx. unfold stages. apply in_flat_map. exists i. split; [apply in_seq; lia|assumption]. Qed.
Lemma in_spart n f i : i < n -> In (i, f i) (spart n f).
Proof. intros Hi. unfold spart. apply in_map_iff. exists i. split; [reflexivity|apply in_seq; lia]. Qed.

Lemma cost_app a b : cost (a ++ b) = cost a + cost b.
Proof. induction a as [|o a IH]; cbn [cost app]; [reflexivity|]. rewrite IH. lia. Qed.
Lemma nsum_seq_shift n f k : nsum (S n) (fun i => f (k + i)) = f k + nsum n (fun i => f (S k + i)).
Proof.
  induction n as [|n IH]; [cbn; rewrite Nat.add_0_r; lia|].
  change (nsum (S (S n)) ?g) with (nsum (S n) g + g (S n)). rewrite IH. cbn [nsum]. replace (k + S n) with (S k + n) by lia. lia.
Qed.
Lemma cost_flat n f : forall k, cost (flat_map f (seq k n)) = nsum n (fun i => cost (f (k + i))).
Proof.
  induction n as [|n IH]; intros k; [reflexivity|].
  cbn [seq flat_map]. rewrite cost_app, IH, (nsum_seq_shift n (fun i => cost (f i)) k). reflexivity.
Qed.
Lemma cost_stages n f : cost (stages n f) = nsum n (fun i => cost (f i)).
Proof. unfold stages. rewrite cost_flat. reflexivity. Qed.
Lemma psum_map n f : forall k, psum (map (fun i => (i, f i)) (seq k n)) = nsum n (fun i => f (k + i)).
Proof.
  induction n as [|n IH]; intros k; [reflexivity|]. cbn [seq map psum]. rewrite IH, nsum_seq_shift. reflexivity.
Qed.
Lemma psum_spart n f : psum (spart n f) = nsum n f.
Proof. unfold spart. rewrite psum_map. reflexivity. Qed.
Lemma wf_stages n f : (forall i, i < n -> Forall wf1 (f i)) -> Forall wf1 (stages n f).
Proof.
  intros H. apply Forall_forall. intros o Ho. apply in_flat_map in Ho. destruct Ho as (i & Hi & Ho).
  apply in_seq in Hi. specialize (H i ltac:(lia)). rewrite Forall_forall in H. auto.
Qed.
Lemma round64_ge n : n <= round64 n.
Proof. unfold round64. pose proof (align_bounds n 64 ltac:(lia)). replace (n + 63) with (n + (64 - 1)) by lia. lia. Qed.
Lemma nsum_Sr n f : nsum (n + 1) f = nsum n f + f n.
Proof. rewrite Nat.add_1_r. reflexivity. Qed.
Lemma nsum_mulr n c f : nsum n (fun i => f i * c) = nsum n f * c.
Proof. induction n as [|n IH]; cbn [nsum]; [reflexivity|]. rewrite IH. lia. Qed.

(** The stage-wise parts of a partitioned vector fit in the vector. *)
Lemma part_fit A n f g : abi_ok A -> (forall i, i < n -> f i = g i * zreal A) -> nsum n f <= SVEC A (nsum n g).
Proof. intros HA E. rewrite (nsum_ext _ _ _ E), nsum_mulr. apply HA. Qed.

Ltac find_in :=
  match goal with
  | |- In _ (_ ++ _)%list => apply in_or_app; first [left; find_in | right; find_in]
  | |- In _ (stages _ _) => eapply in_stages; [eassumption|]; find_in
  | |- In _ (_ :: _)%list => first [left; reflexivity | right; find_in]
  end.
(** gets is monotone in the bytes, so requirements can be stated independently of how create spells the sum. *)
Lemma gets_le rs t s b b' : b' <= b -> gets rs t s b -> gets rs t s b'.
Proof. intros H (r & H1 & H2 & H3 & H4). exists r. repeat split; auto; lia. Qed.
Ltac nlia := cbn beta; rewrite ?Nat.add_1_r; try (apply le_n); lia.
Ltac zero_stage s Hs := try match type of Hs with s < 1 => assert (s = 0) by (clear -Hs; lia); subst s end.
Ltac meet :=
  repeat (apply Forall_cons; [ unfold meets; let s := fresh "s" in let Hs := fresh "Hs" in intros s Hs; zero_stage s Hs;
     first [ solve [eapply gets_le; [|eapply run_reg; find_in]; nlia]
           | solve [eapply gets_le; [|eapply run_part; [find_in|eapply in_spart; eassumption]]; cbn beta; nlia]
           | solve [repeat (destruct s as [|s]; [eapply gets_le; [|eapply run_reg; find_in]; nlia|]); exfalso; lia] ] | ]);
  try apply Forall_nil.
Ltac wf_all :=
  repeat first [ apply Forall_nil | apply Forall_app; split | apply Forall_cons
               | apply wf_stages; intros ].
Ltac costs := rewrite ?cost_app, ?cost_stages; cbn [cost cost1]; rewrite ?cost_app, ?cost_stages; cbn [cost cost1].


Lemma nsum_zero n : nsum n (fun _ => 0) = 0.
Proof. induction n as [|n IH]; cbn [nsum]; lia. Qed.
Ltac gather :=
  repeat match goal with
  | |- context [nsum ?n (fun i => @?f i + @?g i)] => rewrite (nsum_add n f g); cbn beta
  | |- context [nsum ?n (fun i => 1 * @?f i)] => rewrite (nsum_ext n (fun i => 1 * f i) f (fun k _ => Nat.mul_1_l (f k))); cbn beta
  | |- context [nsum ?n (fun _ => 0)] => rewrite (nsum_zero n)
  | |- context [nsum (?n + 1) ?f] => rewrite (nsum_Sr n f); cbn beta
  end.

Lemma layout_intro mem size ops needs :
  Forall wf1 ops -> cost ops <= size -> Forall (meets (fst (run mem ops))) needs ->
  layout_ok mem size (fst (run mem ops)) needs.
Proof. intros H1 H2 H3. unfold layout_ok. rewrite <- and_assoc. split; [apply run_ok; assumption|assumption]. Qed.

Lemma meets_flat rs n (f : nat -> list need) : (forall i, i < n -> Forall (meets rs) (f i)) -> Forall (meets rs) (flat_map f (seq 0 n)).
Proof.
  intros H. apply Forall_forall. intros q Hq. apply in_flat_map in Hq. destruct Hq as (i & Hi & Hq).
  apply in_seq in Hi. specialize (H i ltac:(lia)). rewrite Forall_forall in H. auto.
Qed.
Lemma nmax_ge n f i : i < n -> f i <= nmax n f.
Proof.
  induction n as [|n IH]; intros Hi; [lia|]. cbn [nmax]. destruct (Nat.ltb_spec (nmax n f) (f n)).
  - destruct (Nat.eq_dec i n) as [->|]; [lia|]. specialize (IH ltac:(lia)). lia.
  - destruct (Nat.eq_dec i n) as [->|]; [lia|]. apply IH. lia.
Qed.
Lemma svec_le A n m : abi_ok A -> n <= m -> n * zreal A <= SVEC A m.
Proof. intros H L. pose proof (H m). nia. Qed.

Theorem core_layout A nv ne nc mem :
  layout_ok mem (core_memsize A nv ne nc) (fst (run mem (core_create A nv ne nc))) (core_needs A nv ne nc).
Proof.
  apply layout_intro.
  - unfold core_create. wf_all; exact I.
  - unfold core_memsize. eapply Nat.le_trans; [|apply round64_ge]. unfold core_create. cbn [cost cost1]. lia.
  - unfold core_needs, core_create, one. cbn [map app]. meet.
Qed.

Theorem ocp_qp_layout A d mem : abi_ok A ->
  layout_ok mem (ocp_qp_memsize A d) (fst (run mem (ocp_qp_create A d))) (ocp_qp_needs A d).
Proof.
  intros HA. apply layout_intro.
  - unfold ocp_qp_create. wf_all; cbn [wf1]; try exact I; try lia;
    rewrite psum_spart; unfold nvt, net, nct; rewrite ?Nat.add_1_r; apply part_fit; auto; intros; unfold snv, snc; lia.
  - unfold ocp_qp_memsize. eapply Nat.le_trans; [|apply Nat.add_le_mono_r; apply round64_ge].
    unfold ocp_qp_create. costs. gather. lia.
  - unfold ocp_qp_needs, ocp_qp_create, one, bux, bpi, bct. meet.
Qed.

Theorem ocp_sol_layout A d mem : abi_ok A ->
  layout_ok mem (ocp_sol_memsize A d) (fst (run mem (ocp_sol_create A d))) (ocp_sol_needs A d).
Proof.
  intros HA. apply layout_intro.
  - unfold ocp_sol_create. wf_all; cbn [wf1]; try exact I; try lia;
    rewrite psum_spart; unfold nvt, net, nct; rewrite ?Nat.add_1_r; apply part_fit; auto; intros; unfold snv, snc; lia.
  - unfold ocp_sol_memsize. eapply Nat.le_trans; [|apply Nat.add_le_mono_r; apply round64_ge].
    unfold ocp_sol_create. costs. gather. lia.
  - unfold ocp_sol_needs, ocp_sol_create, one, bux, bpi, bct. meet.
Qed.
Theorem ocp_res_layout A d mem : abi_ok A ->
  layout_ok mem (ocp_res_memsize A d) (fst (run mem (ocp_res_create A d))) (ocp_res_needs A d).
Proof.
  intros HA. apply layout_intro.
  - unfold ocp_res_create. wf_all; cbn [wf1]; try exact I; try lia;
    rewrite psum_spart; unfold nvt, net, nct; rewrite ?Nat.add_1_r; apply part_fit; auto; intros; unfold snv, snc; lia.
  - unfold ocp_res_memsize. eapply Nat.le_trans; [|apply Nat.add_le_mono_r; apply round64_ge].
    unfold ocp_res_create. costs. gather. lia.
  - unfold ocp_res_needs, ocp_res_create, one, bux, bpi, bct. meet.
Qed.

(** Temporaries dimensioned by maxima over the stages. *)
Ltac maxes d i Hi :=
  pose proof (nmax_ge _ (onu d) i Hi); pose proof (nmax_ge _ (onx d) i Hi); pose proof (nmax_ge _ (onb d) i Hi);
  pose proof (nmax_ge _ (ong d) i Hi); pose proof (nmax_ge _ (ons d) i Hi).
Ltac vmeet HA :=
  repeat (apply Forall_cons; [ unfold meets; let s := fresh "s" in let Hs := fresh "Hs" in intros s Hs; zero_stage s Hs;
     first [ solve [eapply gets_le; [|eapply run_reg; find_in]; first [nlia | apply svec_le; [exact HA|lia]]]
           | solve [repeat (destruct s as [|s]; [eapply gets_le; [|eapply run_reg; find_in]; first [nlia | apply svec_le; [exact HA|lia]]|]); exfalso; lia] ] | ]);
  try apply Forall_nil.

Theorem ocp_res_ws_layout A d mem : abi_ok A ->
  layout_ok mem (ocp_res_ws_memsize A d) (fst (run mem (ocp_res_ws_create A d))) (ocp_res_ws_needs A d).
Proof.
  intros HA. apply layout_intro.
  - unfold ocp_res_ws_create. wf_all; cbn [wf1]; try exact I; lia.
  - unfold ocp_res_ws_memsize. eapply Nat.le_trans; [|apply Nat.add_le_mono_r; apply round64_ge].
    unfold ocp_res_ws_create. costs. lia.
  - unfold ocp_res_ws_needs. apply Forall_app. split.
    + unfold ocp_res_ws_create, one. meet.
    + apply meets_flat. intros i Hi. maxes d i Hi. unfold ocp_res_ws_create, one, bct. vmeet HA.
Qed.
Theorem red_ws_layout A d mem : abi_ok A ->
  layout_ok mem (red_ws_memsize A d) (fst (run mem (red_ws_create A d))) (red_ws_needs A d).
Proof.
  intros HA. apply layout_intro.
  - unfold red_ws_create. wf_all; cbn [wf1]; try exact I; lia.
  - unfold red_ws_memsize. eapply Nat.le_trans; [|apply Nat.add_le_mono_r; apply round64_ge].
    unfold red_ws_create. costs. lia.
  - unfold red_ws_needs. apply Forall_app. split.
    + unfold red_ws_create, one. meet.
    + apply meets_flat. intros i Hi.
      pose proof (nmax_ge _ (fun i => onu d i + onx d i) i Hi) as H1. pose proof (nmax_ge _ (fun i => onb d i + ong d i) i Hi) as H2. cbn beta in H1, H2.
      unfold red_ws_create, one. 
      apply Forall_cons. { intros s Hs. assert (s = 0) by lia. subst s. eapply gets_le; [|eapply run_reg; find_in]. apply Nat.mul_le_mono_r. exact H1. }
      apply Forall_cons. { intros s Hs. assert (s = 0) by lia. subst s. eapply gets_le; [|eapply run_reg; find_in]. apply Nat.mul_le_mono_r. exact H2. }
      vmeet HA.
Qed.
Theorem dense_qp_layout A d mem : abi_ok A ->
  layout_ok mem (dense_qp_memsize A d) (fst (run mem (dense_qp_create A d))) (dense_qp_needs A d).
Proof.
  intros HA. apply layout_intro.
  - unfold dense_qp_create. wf_all; cbn [wf1]; try exact I; lia.
  - unfold dense_qp_memsize. eapply Nat.le_trans; [|apply Nat.add_le_mono_r; apply round64_ge].
    unfold dense_qp_create. costs. lia.
  - unfold dense_qp_needs, dense_qp_create, one. unfold xnc. vmeet HA.
Qed.
Theorem dense_sol_layout A d mem : abi_ok A ->
  layout_ok mem (dense_sol_memsize A d) (fst (run mem (dense_sol_create A d))) (dense_sol_needs A d).
Proof.
  intros HA. apply layout_intro.
  - unfold dense_sol_create. wf_all; cbn [wf1]; try exact I; lia.
  - unfold dense_sol_memsize. eapply Nat.le_trans; [|apply Nat.add_le_mono_r; apply round64_ge].
    unfold dense_sol_create. costs. lia.
  - unfold dense_sol_needs, dense_sol_create, one. unfold xnc. vmeet HA.
Qed.
Theorem dense_res_layout A d mem : abi_ok A ->
  layout_ok mem (dense_res_memsize A d) (fst (run mem (dense_res_create A d))) (dense_res_needs A d).
Proof.
  intros HA. apply layout_intro.
  - unfold dense_res_create. wf_all; cbn [wf1]; try exact I; lia.
  - unfold dense_res_memsize. eapply Nat.le_trans; [|apply Nat.add_le_mono_r; apply round64_ge].
    unfold dense_res_create. costs. lia.
  - unfold dense_res_needs, dense_res_create, one. unfold xnc. vmeet HA.
Qed.
Theorem dense_res_ws_layout A d mem : abi_ok A ->
  layout_ok mem (dense_res_ws_memsize A d) (fst (run mem (dense_res_ws_create A d))) (dense_res_ws_needs A d).
Proof.
  intros HA. apply layout_intro.
  - unfold dense_res_ws_create. wf_all; cbn [wf1]; try exact I; lia.
  - unfold dense_res_ws_memsize. eapply Nat.le_trans; [|apply Nat.add_le_mono_r; apply round64_ge].
    unfold dense_res_ws_create. costs. lia.
  - unfold dense_res_ws_needs, dense_res_ws_create, one. unfold xnc. vmeet HA.
Qed.
Theorem ocp_dim_layout A N mem :
  layout_ok mem (ocp_dim_memsize A N) (fst (run mem (ocp_dim_create A N))) (ocp_dim_needs A N).
Proof.
  apply layout_intro.
  - unfold ocp_dim_create. cbn [map]. wf_all; exact I.
  - unfold ocp_dim_create, ocp_dim_memsize. cbn [map cost cost1]. pose proof (align_bounds (10 * (N + 1) * zint A) 8 ltac:(lia)) as H.
    change (8 - 1) with 7 in H. lia.
  - unfold ocp_dim_needs, ocp_dim_create, one. cbn [map]. meet.
Qed.

Theorem cond_ws_layout A d cond_alg mem : abi_ok A ->
  layout_ok mem (cond_ws_memsize A d cond_alg) (fst (run mem (cond_ws_create A d cond_alg))) (cond_ws_needs A d cond_alg).
Proof.
  intros HA. unfold cond_ws_memsize, cond_ws_create, cond_ws_needs. destruct (Nat.eqb cond_alg 0).
  - apply layout_intro.
    + wf_all; cbn [wf1]; try exact I; lia.
    + eapply Nat.le_trans; [|apply round64_ge]. costs. gather. lia.
    + apply Forall_app; split; [unfold one; meet|]. apply Forall_app; split; [unfold one; meet|].
      apply meets_flat. intros i Hi. maxes d i Hi. unfold one. vmeet HA.
  - apply layout_intro.
    + wf_all; cbn [wf1]; try exact I; lia.
    + eapply Nat.le_trans; [|apply round64_ge]. costs. gather. lia.
    + apply Forall_app; split; [unfold one; meet|]. apply Forall_app; split; [unfold one; meet|].
      apply meets_flat. intros i Hi. maxes d i Hi. unfold one. vmeet HA.
Qed.
