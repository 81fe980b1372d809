(** CupdProps.v -- property C65: updating a condensed QP (COND_QP_UPDATE) after some stages of the OCP QP changed. *)
From Coq Require Import ZArith Bool Arith List Lia Reals Lra SpecFloat.
From Verif Require Import Base ArithF RSum Blas Blas2 OcpModel ResSpec ResProofs ResProofs2 CholProofs KktModel DenModel DenSpec CondModel CondSpec CondProofs CondCost CondCost2 CondCost3 CondCon CondCon2 CondCon3 CondSem CondFull CondProps.
From Verif Require Import CupdModel CupdSpec CupdProofs CupdCost CupdCon CupdFull CupdDet.
Local Open Scope R_scope.

(** the caller: condense once (cond_alg 0), then call COND_QP_UPDATE each time the QP has changed *)
Fixpoint run_updates (l : list ((nat -> bool) * oqp R)) (q : dqp R) (w : cws R) : dqp R * cws R :=
  match l with
  | nil => (q, w)
  | (idxc, qp') :: l => let '(q', w', _, _) := update_qp idxc qp' q w in run_updates l q' w'
  end.
Definition condense_and_update (sq : bool) (diag : nat -> bool) (qp0 : oqp R) (q0 : dqp R) (w : cws R) (l : list ((nat -> bool) * oqp R)) : dqp R :=
  let '(q, w, _, _) := cond_qp true sq diag qp0 q0 w in fst (run_updates l q w).

Lemma ok_pd idxc qp qp' : update_ok idxc qp qp' -> forall n, (1 <= n <= dN (q_dim qp))%nat -> Qpd qp' n.
Proof.
  intros ((E & _) & _ & _ & H) n Hn x Hx. rewrite <- E in Hn. exact (H n Hn x Hx).
Qed.
Lemma run_inv l : forall qp q w, qp_wf qp -> no_slacks qp -> updates_ok qp l -> condensed qp q w ->
  let '(q', w') := run_updates l q w in qp_wf (last_qp qp l) /\ no_slacks (last_qp qp l) /\ condensed (last_qp qp l) q' w'.
Proof.
  induction l as [|[idxc qp'] l IH]; intros qp q w W Hn Hok HC; cbn [run_updates last_qp]; [split; [exact W|split; [exact Hn|exact HC]]|].
  destruct Hok as (Ho & Hok). pose proof (ok_pd _ _ _ Ho) as Hpd. destruct Ho as (Hl & Hm & Hp & _).
  pose proof (update_inv qp qp' idxc q w Hl Hm Hp Hpd W Hn HC) as U. destruct (update_qp idxc qp' q w) as [[[q1 w1] BA] RSQ]. destruct U as (U & _).
  apply IH; [apply (u_wf qp qp'); assumption|apply (u_ns qp qp'); assumption|exact Hok|exact U].
Qed.
Lemma condense_and_update_R sq diag qp0 q0 w l : cond_pre true diag qp0 q0 -> no_slacks qp0 -> updates_ok qp0 l ->
  qp_wf (last_qp qp0 l) /\ no_slacks (last_qp qp0 l) /\ exists w', condensed (last_qp qp0 l) (condense_and_update sq diag qp0 q0 w l) w'.
Proof.
  intros (P1 & P2 & P3 & _) Hn Hok. unfold condense_and_update. pose proof (cond_inv sq diag qp0 q0 w P1 Hn (size_ddims qp0 q0 P2) P3) as C.
  destruct (cond_qp true sq diag qp0 q0 w) as [[[q w1] BA] RSQ]. pose proof (run_inv l qp0 q w1 P1 Hn Hok C) as Q. destruct (run_updates l q w1) as [q' w']. cbn [fst]. destruct Q as (Q1 & Q2 & Q3). split; [exact Q1|]. split; [exact Q2|]. exists w'. exact Q3.
Qed.

(** After any number of updates the objective of the dense QP is that of the present OCP QP along the trajectory, up to a constant *)
Theorem C65_objective : forall sq diag qp0 q0 w l, cond_pre true diag qp0 q0 -> no_slacks qp0 -> updates_ok qp0 l ->
  let qp := last_qp qp0 l in let q := condense_and_update sq diag qp0 q0 w l in
  exists K, forall v, den_cost q v = cost qp (traj qp (dN (q_dim qp)) v) + K.
Proof.
  intros sq diag qp0 q0 w l HP Hn Hok. destruct (condense_and_update_R sq diag qp0 q0 w l HP Hn Hok) as (W & S & w' & C). exact (proj1 (proj2 (proj2 (condensed_post _ _ _ W S C)))).
Qed.
(** ... its constraints are, one to one, those of the present OCP QP: same distance to the bound, same mask, same complementarity target *)
Theorem C65_constraints : forall sq diag qp0 q0 w l, cond_pre true diag qp0 q0 -> no_slacks qp0 -> updates_ok qp0 l ->
  let qp := last_qp qp0 l in let q := condense_and_update sq diag qp0 q0 w l in
  dense_size qp (dN (q_dim qp)) q /\ den_wf q /\
  exists pos, numbering qp q pos /\ forall v i c, (i <= dN (q_dim qp))%nat -> (c < nct (q_dim qp) i)%nat ->
    den_con q v (pos i c) - d_d q (pos i c) = con qp (traj qp (dN (q_dim qp)) v) i c - q_d qp i c /\ d_mask q (pos i c) = q_mask qp i c /\ d_m q (pos i c) = q_m qp i c.
Proof.
  intros sq diag qp0 q0 w l HP Hn Hok qp q. destruct (condense_and_update_R sq diag qp0 q0 w l HP Hn Hok) as (P1 & S & w' & C). fold qp q in P1, S, C.
  destruct (condensed_post _ _ _ P1 S C) as (Q1 & (Gm & Gb & Q2 & Q3) & _).
  assert (W : wfM qp (dN (q_dim qp))) by (intros i Hi; apply P1; exact Hi).
  split; [|split; [exact (den_wf_ok qp _ Gm Gb q Q1 W Q2)|]].
  { destruct Q1 as (E1 & E2 & E3 & E4 & E5). unfold dense_size. rewrite n_box_eq, n_gen_eq. repeat split; assumption. }
  exists (pos qp (dN (q_dim qp))). split.
  - destruct Q1 as (E1 & E2 & E3 & E4 & E5). unfold numbering, d_nct. rewrite E3, E4, E5. split; [|split].
    + intros i c Hi Hc. apply pos_lt; assumption.
    + intros i c i' c'. apply pos_inj.
    + intros p Hp. apply pos_surj. exact Hp.
  - intros v i c Hi Hc. exact (con_traj qp _ Gm Gb q Q1 W Q2 Q3 v i c Hi Hc).
Qed.
(** ... and so the two problems have the same feasible points and the same minimisers *)
Theorem C65_equivalent : forall sq diag qp0 q0 w l, cond_pre true diag qp0 q0 -> no_slacks qp0 -> updates_ok qp0 l ->
  let qp := last_qp qp0 l in let q := condense_and_update sq diag qp0 q0 w l in
  (forall v, den_feasible q v <-> feasible qp (traj qp (dN (q_dim qp)) v)) /\
  (forall v, den_optimal q v <-> ocp_optimal qp (traj qp (dN (q_dim qp)) v)) /\
  (forall z, ocp_optimal qp z -> exists v, same_point qp (traj qp (dN (q_dim qp)) v) z /\ den_optimal q v).
Proof.
  intros sq diag qp0 q0 w l HP Hn Hok. pose proof (C65_constraints sq diag qp0 q0 w l HP Hn Hok) as C. pose proof (C65_objective sq diag qp0 q0 w l HP Hn Hok) as O. cbv zeta in *.
  set (qp := last_qp qp0 l) in *. set (q := condense_and_update sq diag qp0 q0 w l) in *. destruct C as (S & _ & pos & (N1 & N2 & N3) & C). destruct O as (K & O).
  set (N := dN (q_dim qp)) in *. pose proof (C28_trajectories qp) as T. cbv zeta in T. fold N in T. destruct T as (T1 & _ & _ & T4).
  assert (F : forall v, den_feasible q v <-> feasible qp (traj qp N v)).
  { intros v. split.
    - intros (_ & H). split; [intros i j; apply T1|]. intros i c Hi Hc Hm. destruct (C v i c Hi Hc) as (C1 & C2 & _). specialize (H (pos i c) (N1 i c Hi Hc)). rewrite C2 in H. specialize (H Hm). lra.
    - intros (_ & H). split; [destruct S as (_ & S & _); rewrite S; intros; lia|]. intros p Hp Hm. destruct (N3 p Hp) as (i & c & Hi & Hc & <-). destruct (C v i c Hi Hc) as (C1 & C2 & _). rewrite C2 in Hm. specialize (H i c Hi Hc Hm). lra. }
  assert (P : forall z, feasible qp z -> exists v, same_point qp (traj qp N v) z /\ den_feasible q v).
  { intros z (Hz1 & Hz2). destruct (T4 z Hz1) as (v & Hv). exists v. split; [exact Hv|]. apply F. split; [intros i j; apply T1|]. intros i c Hi Hc Hm. rewrite (same_con qp _ z i c Hv Hi). apply Hz2; assumption. }
  assert (Opt : forall v, den_optimal q v <-> ocp_optimal qp (traj qp N v)).
  { intros v. split.
    - intros (H1 & H2). split; [apply F; exact H1|]. intros y Hy. destruct (P y Hy) as (vy & E1 & E2). rewrite <- (same_cost qp _ _ E1). specialize (H2 vy E2). rewrite !O in H2. lra.
    - intros (H1 & H2). split; [apply F; exact H1|]. intros y Hy. apply F in Hy. specialize (H2 _ Hy). rewrite !O. lra. }
  split; [exact F|]. split; [exact Opt|]. intros z (Hz1 & Hz2). destruct (P z Hz1) as (v & E1 & E2). exists v. split; [exact E1|]. apply Opt. split; [apply F; exact E2|]. intros y Hy. rewrite (same_cost qp _ _ E1). apply Hz2. exact Hy.
Qed.
(** ... it is, entry by entry, the dense QP a fresh COND_QP_COND of the present OCP QP writes, into whatever object and with whatever workspace *)
Theorem C65_same_as_fresh : forall sq diag qp0 q0 w l, cond_pre true diag qp0 q0 -> no_slacks qp0 -> updates_ok qp0 l ->
  let qp := last_qp qp0 l in forall sq' diag' q1 w1, cond_pre true diag' qp q1 ->
  same_dense (fst (fst (fst (cond_qp true sq' diag' qp q1 w1)))) (condense_and_update sq diag qp0 q0 w l).
Proof.
  intros sq diag qp0 q0 w l HP Hn Hok qp sq' diag' q1 w1 (P1 & P2 & P3 & _). destruct (condense_and_update_R sq diag qp0 q0 w l HP Hn Hok) as (W & S & w' & C). fold qp in W, S, C.
  pose proof (cond_inv sq' diag' qp q1 w1 P1 S (size_ddims qp q1 P2) P3) as C'. destruct (cond_qp true sq' diag' qp q1 w1) as [[[q2 w2] BA] RSQ]. cbn [fst].
  exact (condensed_det qp q2 _ w2 w' C' C W S).
Qed.
(** no call changes the dynamics or the cost of the OCP QP it is given (it only overwrites rows that carry no data) *)
Theorem C65_ocp_qp_unchanged : forall sq diag qp0 q0 w l idxc qp', cond_pre true diag qp0 q0 -> no_slacks qp0 -> updates_ok qp0 l -> update_ok idxc (last_qp qp0 l) qp' ->
  let '(q, w1, _, _) := cond_qp true sq diag qp0 q0 w in let '(q1, w2) := run_updates l q w1 in
  let '(_, _, BA, RSQ) := update_qp idxc qp' q1 w2 in
  let qp'' := mkqp (q_dim qp') BA RSQ (q_DCt qp') (q_b qp') (q_rqz qp') (q_d qp') (q_mask qp') (q_m qp') (q_Z qp') (q_idxb qp') (q_idxs_rev qp') in
  (forall z i j, dyn qp'' z i j = dyn qp' z i j) /\ (forall z i, stage_cost qp'' z i = stage_cost qp' z i) /\ (forall i, same_stage qp' qp'' i).
Proof.
  intros sq diag qp0 q0 w l idxc qp' (P1 & P2 & P3 & _) Hn Hok Ho. pose proof (cond_inv sq diag qp0 q0 w P1 Hn (size_ddims qp0 q0 P2) P3) as C.
  destruct (cond_qp true sq diag qp0 q0 w) as [[[q w1] BA0] RSQ0]. pose proof (run_inv l qp0 q w1 P1 Hn Hok C) as Q. destruct (run_updates l q w1) as [q1 w2]. destruct Q as (Q1 & Q2 & Q3).
  pose proof (ok_pd _ _ _ Ho) as Hpd. destruct Ho as (Hl & Hm & Hp & _). pose proof (update_inv _ qp' idxc q1 w2 Hl Hm Hp Hpd Q1 Q2 Q3) as U. destruct (update_qp idxc qp' q1 w2) as [[[q3 w3] BA] RSQ]. destruct U as (_ & U1 & U2).
  cbv zeta. set (qp'' := mkqp _ _ _ _ _ _ _ _ _ _ _ _). split; [|split].
  - intros z i j. unfold dyn. cbn [q_BAbt q_b q_dim qp'']. f_equal. f_equal. change (nux qp'' i) with (nux qp' i). apply rsum_ext. intros k Hk. rewrite U1 by exact Hk. reflexivity.
  - intros z i. unfold stage_cost. cbn [q_dim q_rqz qp'']. f_equal. f_equal. apply rsum_ext. intros k _. apply rsum_ext. intros m _. f_equal. f_equal. unfold Hess. cbn [q_RSQ q_Z qp''].
    change (nux qp'' i) with (nux qp' i). unfold H_co. destruct (Nat.ltb_spec k (nux qp' i)); [|reflexivity]. destruct (Nat.ltb_spec m (nux qp' i)); [|reflexivity]. destruct (Nat.leb_spec m k); apply U2; lia.
  - intros i. split; [intros; apply U1; assumption|]. split; [reflexivity|]. split; [intros; apply U2; assumption|]. repeat split; reflexivity.
Qed.

(** *** the hypotheses are met: three stages with bounds on inputs and states and a general constraint; first the data of stage 0 change, then those of stages 1 and 2 *)
Definition ux_dims : dims := mkdims 2 (fun _ => 1%nat) (fun i => if (i =? 2)%nat then 0%nat else 1%nat) (fun i => if (i =? 2)%nat then 1%nat else 2%nat) (fun i => i) (fun _ => 0%nat).
Definition ux_qp (a b : R) : oqp R := mkqp ux_dims (fun i r _ => if (i =? 0)%nat then a else INR r + b) (fun i r c => if (r =? c)%nat then if (i =? 2)%nat then 1 + b * b else 2 else 0) (fun _ _ _ => 3) (fun i _ => if (i =? 0)%nat then a else b)
  (fun i _ => if (i =? 0)%nat then a else b) (fun i _ => if (i =? 0)%nat then a else b) (fun _ _ => 1) (fun _ _ => 0) (fun _ _ => 10) (fun i j => j) (fun i j => (-1)%Z).
Definition ux_den : dqp R := mkdqp 3 0 3 5 0 (fun _ _ => 0) (fun _ _ => 0) (fun _ _ => 0) (fun _ => 0) (fun _ => 0) (fun _ => 0) (fun _ => 1) (fun _ => 0) (fun _ => 0) (fun _ => 0%nat) (fun _ => (-1)%Z).
Definition ux_hist : list ((nat -> bool) * oqp R) := ((fun i => (i =? 0)%nat), ux_qp 5 2) :: ((fun i => (1 <=? i)%nat), ux_qp 5 7) :: nil.
Example ux_pd a b n : (1 <= n <= 2)%nat -> state_cost_pd (ux_qp a b) n.
Proof.
  intros Hn x (k & Hk & Hx). assert (E : n = 1%nat \/ n = 2%nat) by lia. destruct E as [-> | ->]; cbn in Hk; replace k with 0%nat in Hx by lia;
  cbv -[Rplus Rmult Rminus Ropp IZR Rinv Rdiv Rlt]; pose proof (Rsqr_pos_lt _ Hx) as Hs; unfold Rsqr in Hs; pose proof (Rle_0_sqr b) as Hb; unfold Rsqr in Hb; nra.
Qed.
Example ux_hyps : cond_pre true (fun _ => true) (ux_qp 1 2) ux_den /\ no_slacks (ux_qp 1 2) /\ updates_ok (ux_qp 1 2) ux_hist.
Proof.
  split; [|split].
  - split; [|split; [|split; [reflexivity|left; reflexivity]]].
    + intros i Hi. assert (E : i = 0%nat \/ i = 1%nat \/ i = 2%nat) by (cbn in Hi; lia). split; [|intros j Hj; left; reflexivity]. intros j Hj. destruct E as [-> | [-> | ->]]; cbn in *; lia.
    + unfold dense_size. repeat split; reflexivity.
  - intros i _. reflexivity.
  - cbn [updates_ok ux_hist]. split; [|split; [|exact I]].
    + split; [repeat split; reflexivity|]. split; [|split; [intros E; cbn in E; discriminate|intros n Hn; apply ux_pd; exact Hn]].
      intros i Hi E. apply Nat.eqb_neq in E. unfold same_stage. cbn [ux_qp q_BAbt q_b q_RSQ q_rqz q_DCt q_d]. destruct (Nat.eqb_spec i 0); [lia|]. repeat split; reflexivity.
    + split; [repeat split; reflexivity|]. split; [|split; [intros E; right; reflexivity|intros n Hn; apply ux_pd; exact Hn]].
      intros i Hi E. apply Nat.leb_gt in E. replace i with 0%nat by lia. repeat split; reflexivity.
Qed.

(** ** what the call does not do *)
(** the masks and the complementarity targets of the dense QP are never updated, whatever is marked and whatever changed in them *)
Theorem C65_masks_not_updated : forall (F : Type) (AF : Arith F) idxc (qp : oqp F) q w, let q' := fst (fst (fst (update_qp idxc qp q w))) in d_mask q' = d_mask q /\ d_m q' = d_m q.
Proof.
  intros F AF idxc qp q w. unfold update_qp. destruct (update_babt _ _ _ _ _ _) as [[w1 x1] x2]. destruct (update_rsqrq _ _ _ _ _ _) as [[[[BA RSQ] w2] H] g]. unfold update_dctd. cbn [q_dim].
  destruct (andb _ _); [split; reflexivity|]. destruct (andb _ _); [split; reflexivity|]. unfold u_dctd_main. destruct (u_gens _ _ _ _ _) as [s t]. split; reflexivity.
Qed.

(** The last stage marked alone: the cost of x_2 changes from 1/2 x^2 to x^2 and only stage 2 is marked; x_2 = u_1.  The Hessian entry of u_1 keeps the old cost. *)
Definition la_dims : dims := mkdims 2 (fun i => if (i =? 2)%nat then 1%nat else 0%nat) (fun i => if (i =? 1)%nat then 1%nat else 0%nat) (fun _ => 0%nat) (fun _ => 0%nat) (fun _ => 0%nat).
Definition la_qp (Q : R) : oqp R := mkqp la_dims (fun _ r _ => if (r =? 0)%nat then 1 else 0) (fun i r c => if (i =? 2)%nat then Q else 0) (fun _ _ _ => 0) (fun _ _ => 0) (fun _ _ => 0) (fun _ _ => 0) (fun _ _ => 1) (fun _ _ => 0) (fun _ _ => 0) (fun _ _ => 0%nat) (fun _ _ => (-1)%Z).
Definition la_den : dqp R := mkdqp 1 0 0 0 0 (fun _ _ => 0) (fun _ _ => 0) (fun _ _ => 0) (fun _ => 0) (fun _ => 0) (fun _ => 0) (fun _ => 1) (fun _ => 0) (fun _ => 0) (fun _ => 0%nat) (fun _ => (-1)%Z).
Definition la_idxc (i : nat) : bool := (i =? 2)%nat.
Theorem C65_last_stage_alone_refuted :
  let q := condense_and_update false (fun _ => false) (la_qp 1) la_den w0 ((la_idxc, la_qp 2) :: nil) in
  cond_pre true (fun _ => false) (la_qp 1) la_den /\ no_slacks (la_qp 1) /\ same_layout (la_qp 1) (la_qp 2) /\ marked la_idxc (la_qp 1) (la_qp 2) /\ (forall n, (1 <= n <= 2)%nat -> state_cost_pd (la_qp 2) n) /\
  ~ (exists K, forall v, den_cost q v = cost (la_qp 2) (traj (la_qp 2) 2 v) + K).
Proof.
  cbv zeta. split; [|split; [|split; [|split; [|split]]]].
  - split; [|split; [repeat split; reflexivity|split; [reflexivity|left; reflexivity]]]. intros i Hi. split; intros j Hj; cbn in Hj; lia.
  - intros i _. reflexivity.
  - repeat split; reflexivity.
  - intros i Hi E. apply Nat.eqb_neq in E. unfold same_stage. cbn [la_qp q_BAbt q_b q_RSQ q_rqz q_DCt q_d]. destruct (Nat.eqb_spec i 2); [lia|]. repeat split; reflexivity.
  - intros n Hn x (k & Hk & Hx). assert (E : n = 1%nat \/ n = 2%nat) by lia. destruct E as [-> | ->]; cbn in Hk; [lia|]. replace k with 0%nat in Hx by lia.
    cbv -[Rplus Rmult Rminus Ropp IZR Rinv Rdiv Rlt]; pose proof (Rsqr_pos_lt _ Hx) as Hs; unfold Rsqr in Hs; nra.
  - intros (K & HK). pose proof (HK (fun _ => 0)) as A. pose proof (HK (fun k => if (k =? 0)%nat then 1 else 0)) as B. clear HK.
    cbv -[Rplus Rmult Rminus Ropp IZR Rinv Rdiv] in A, B. lra.
Qed.

(** Witnesses in IEEE double precision *)
Section Wit.
Notation F := spec_float.
Local Definition uv0 : nat -> F := fun _ => lit 0 1. Local Definition um0 : nat -> nat -> F := fun _ _ => lit 0 1.
Local Definition uw0 : cws F := mkcws (fun _ => um0) (fun _ => uv0) (fun _ => um0) um0 uv0 um0 um0 uv0 uv0.
(** A linear state cost: min 1/2 u^2 + x_1 with x_1 = u.  COND_QP_COND gives the gradient 1; an update of the same QP with stage 0 marked gives 0
    (COND_QP_COND falls back to a formula without Cholesky factor when the state cost is singular, COND_QP_UPDATE does not). *)
Definition sg_dims : dims := mkdims 1 (fun i => i) (fun i => (1 - i)%nat) (fun _ => 0%nat) (fun _ => 0%nat) (fun _ => 0%nat).
Definition sg_qp : oqp F := mkqp sg_dims (fun _ r _ => if (r =? 0)%nat then lit 1 1 else lit 0 1) (fun i r c => if (i =? 0)%nat then lit 1 1 else lit 0 1) (fun _ => um0) (fun _ => uv0) (fun i _ => if (i =? 0)%nat then lit 0 1 else lit 1 1) (fun _ => uv0) (fun _ => uv0) (fun _ => uv0) (fun _ => uv0) (fun _ _ => 0%nat) (fun _ _ => (-1)%Z).
Definition sg_den : dqp F := mkdqp 1 0 0 0 0 um0 um0 um0 uv0 uv0 uv0 uv0 uv0 uv0 (fun _ => 0%nat) (fun _ => (-1)%Z).
Theorem C65_linear_state_cost_refuted :
  let '(q, w, _, _) := cond_qp true true (fun _ => false) sg_qp sg_den uw0 in let '(q', _, _, _) := update_qp (fun i => (i =? 0)%nat) sg_qp q w in
  d_gz q 0%nat = lit 1 1 /\ feqb (d_gz q' 0%nat) (lit 0 1) = true.
Proof. vm_compute. split; reflexivity. Qed.
(** Soft constraints: a horizon of one stage pair with two softened input bounds, the first using slack 1 and the second slack 0.  COND_QP_COND keeps this order of the
    slacks (and so does the expansion of the solution); COND_QP_UPDATE of the same QP renumbers the slacks and permutes their weights, while the masks of the slack bounds stay. *)
Definition sf_dims : dims := mkdims 1 (fun _ => 0%nat) (fun i => if (i =? 0)%nat then 2%nat else 0%nat) (fun i => if (i =? 0)%nat then 2%nat else 0%nat) (fun _ => 0%nat) (fun i => if (i =? 0)%nat then 2%nat else 0%nat).
Definition sf_qp : oqp F := mkqp sf_dims (fun _ => um0) (fun i r c => if (r =? c)%nat then lit 1 1 else lit 0 1) (fun _ => um0) (fun _ => uv0) (fun i _ => lit 0 1) (fun _ => uv0) (fun _ c => if (c =? 4)%nat then lit 0 1 else lit 1 1) (fun _ => uv0)
  (fun _ l => if (l =? 0)%nat then lit 3 1 else lit 7 1) (fun _ j => j) (fun _ j => if (j =? 0)%nat then 1%Z else 0%Z).
Definition sf_den : dqp F := mkdqp 2 0 2 0 2 um0 um0 um0 uv0 uv0 uv0 uv0 uv0 uv0 (fun _ => 0%nat) (fun _ => (-1)%Z).
Theorem C65_soft_order_refuted :
  let '(q, w, _, _) := cond_qp true true (fun _ => false) sf_qp sf_den uw0 in let '(q', _, _, _) := update_qp (fun i => (i =? 0)%nat) sf_qp q w in
  d_idxs_rev q 0%nat = 1%Z /\ d_Z q 0%nat = lit 3 1 /\ d_idxs_rev q' 0%nat = 0%Z /\ d_Z q' 0%nat = lit 7 1 /\ d_mask q 4%nat = lit 0 1 /\ d_mask q' 4%nat = lit 0 1.
Proof. vm_compute. repeat split; reflexivity. Qed.
End Wit.
Print Assumptions C65_objective.
Print Assumptions C65_constraints.
Print Assumptions C65_equivalent.
Print Assumptions C65_same_as_fresh.
Print Assumptions C65_ocp_qp_unchanged.
Print Assumptions C65_masks_not_updated.
Print Assumptions C65_last_stage_alone_refuted.
Print Assumptions C65_linear_state_cost_refuted.
Print Assumptions C65_soft_order_refuted.
