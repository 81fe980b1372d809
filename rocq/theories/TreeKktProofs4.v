(** TreeKktProofs4.v -- the tree Riccati solver returns the interior-point Newton step of the tree-structured OCP QP. *)
From Coq Require Import ZArith Bool Arith Lia Reals Lra.
From Verif Require Import Base ArithF RSum Blas Blas2 CoreModel CoreProofs OcpModel ResSpec KktSpec ResProofs CholProofs CholPD KktModel KktProofs KktProofs2 KktProofs3 KktProofs4 KktProofs5 KktProofs6 KktProofs7
  SolveModel SolveProofs SolveProofs2 SolveProofs3 TreeModel TreeSpec TreeProofs TreeKktModel TreeKktProofs TreeKktProofs2 TreeKktProofs3.
Local Open Scope R_scope.

(** ** one node: from the eliminated system to the full one.  A node is a stage without dynamics whose gradient has the kids' terms added. *)
Definition leafD (D : dims) (i : nat) : dims := mkdims i (dnx D) (dnu D) (dnb D) (dng D) (dns D).
Definition leafq (qp : oqp R) (i : nat) (e : rvec) : oqp R :=
  mkqp (leafD (q_dim qp) i) (q_BAbt qp) (q_RSQ qp) (q_DCt qp) (q_b qp)
    (upd (q_rqz qp) i (fun v => if (v <? nux qp i)%nat then q_rqz qp i v + e v else q_rqz qp i v)) (q_d qp) (q_mask qp) (q_m qp) (q_Z qp) (q_idxb qp) (q_idxs_rev qp).

Lemma leaf_Rq qp i e gam k : Rq (leafq qp i e) i gam k = Rq qp i gam k.
Proof.
  unfold Rq, sl_rhs, leafq. cbn [q_rqz q_idxs_rev q_dim leafD dnb dng dns dnu dnx]. rewrite upd_same. unfold nux at 1. cbn [q_dim leafD dnu dnx].
  change (dnu (q_dim qp) i + dnx (q_dim qp) i)%nat with (nux qp i). destruct (Nat.ltb_spec (nux qp i + k) (nux qp i)); [lia|reflexivity].
Qed.
Lemma leaf_T1q qp i e reg Ga ga c : T1q (leafq qp i e) i reg Ga ga c = T1q qp i reg Ga ga c.
Proof.
  unfold T1q, T1, r_lo, r_up. cbn [leafq q_dim leafD q_idxs_rev q_Z dnb dng dns].
  pose proof (leaf_Rq qp i e ga) as E. unfold Rq in E. cbn [leafq q_dim leafD q_idxs_rev q_Z dnb dng dns] in E.
  destruct (Z.eqb _ _); [reflexivity|]. rewrite !E. reflexivity.
Qed.
Lemma leaf_sth qp i e reg Gam gam r : (r < nux qp i)%nat -> sth (leafq qp i e) reg Gam gam i r = sth qp reg Gam gam i r + e r.
Proof.
  intros Hr. unfold sth. cbn [leafq q_dim leafD q_rqz dnb dng]. rewrite upd_same. apply Nat.ltb_lt in Hr. rewrite Hr.
  rewrite (rsum_ext _ (fun c => rowq (leafq qp i e) i c r * T1q (leafq qp i e) i reg (Gam i) (gam i) c) (fun c => rowq qp i c r * T1q qp i reg (Gam i) (gam i) c)); [lra|].
  intros c _. rewrite leaf_T1q. reflexivity.
Qed.

Section Node.
Variables (T : ttree) (qp : oqp R).
Notation D := (q_dim qp).
Notation N := (dN D).
Definition kpi (pi : nat -> rvec) (i v : nat) : R := rsum (t_nk T i) (fun jj => let k := t_kid T i jj in rsum (dnx D k) (fun j => q_BAbt qp (k - 1)%nat v j * pi (k - 1)%nat j)).
Lemma tnewton_stage (reg : R) (Gam gam : nat -> rvec) i (z t0 Zs : rvec) (pi : nat -> rvec) (lamv : rvec) :
  (i <= N)%nat -> qp_wf qp -> soft_inj qp ->
  (forall k, (k < 2 * dns D i)%nat -> slack_pivot qp reg (Gam i) i k <> 0) ->
  (forall k, (k < 2 * dns D i)%nat -> Zs k = Zq qp i reg (Gam i) k /\ z (nux qp i + k)%nat = Rq qp i (gam i) k) ->
  (forall r, (r < nux qp i)%nat ->
     rsum (nux qp i) (fun j => stH qp reg Gam (fun _ => reg) i r j * z j) + sth qp reg Gam gam i r + kpi pi i r
     - (if ((0 <? i) && (dnu D i <=? r))%nat then pi (i - 1)%nat (r - dnu D i)%nat else 0) = 0) ->
  let '(u, t) := lin_stage qp (Gam i) Zs i (z, t0) in
  (forall c, (c < nct D i)%nat -> lamv c = - (Gam i c * t c + gam i c)) ->
  forall k, (k < nvt D i)%nat ->
  rsum (nvt D i) (fun l => Hess qp i k l * u l) + q_rqz qp i k
  + (if (k <? nux qp i)%nat then kpi pi i k else 0)
  - (if ((0 <? i) && (dnu D i <=? k) && (k <? nux qp i))%nat then pi (i - 1)%nat (k - dnu D i)%nat else 0)
  - rsum (nct D i) (fun c => G qp i c k * lamv c) = - reg * u k.
Proof.
  intros Hi Hwf Hinj Hpiv HZ Hst.
  pose proof (newton_stage (leafq qp i (kpi pi i)) reg Gam gam (fun _ => reg) i z t0 Zs pi lamv (le_n _)) as NS.
  specialize (NS ltac:(intros s Hs; cbn [leafq q_dim leafD dN] in Hs; apply Hwf; lia) ltac:(intros s j j' Hs; cbn [leafq q_dim leafD dN] in Hs; apply Hinj; lia) Hpiv).
  specialize (NS ltac:(intros k Hk; rewrite leaf_Rq; apply HZ; exact Hk)).
  specialize (NS ltac:(intros r Hr; change (nux (leafq qp i (kpi pi i)) i) with (nux qp i) in *; rewrite leaf_sth by exact Hr; cbn [leafq q_dim leafD dN dnu]; rewrite Nat.ltb_irrefl, Rplus_0_r;
    specialize (Hst r Hr); rewrite <- Rplus_assoc; exact Hst)).
  change (lin_stage (leafq qp i (kpi pi i)) (Gam i) Zs i (z, t0)) with (lin_stage qp (Gam i) Zs i (z, t0)) in NS.
  destruct (lin_stage qp (Gam i) Zs i (z, t0)) as [u t]. intros Hlam k Hk. specialize (NS Hlam k Hk).
  change (nux (leafq qp i (kpi pi i)) i) with (nux qp i) in NS. cbn [leafq q_dim leafD dN dnu q_rqz] in NS. rewrite upd_same, Nat.ltb_irrefl in NS. cbn [andb] in NS. rewrite Rplus_0_r in NS.
  change (Hess (leafq qp i (kpi pi i))) with (Hess qp) in NS. change (G (leafq qp i (kpi pi i))) with (G qp) in NS.
  change (nvt (leafD D i) i) with (nvt D i) in NS. change (nct (leafD D i) i) with (nct D i) in NS.
  destruct (k <? nux qp i)%nat; rewrite ?andb_true_r, ?andb_false_r in *; lra.
Qed.
End Node.

(** ** the epilogue *)
Section Comb.
Variables (a : kargs R) (T : ttree) (qp : oqp R).
Notation D := (q_dim qp).
Notation N := (dN D).
Hypothesis Hwf : qp_wf qp.
Hypothesis HT : tree_ok (N + 1) T.
Hypothesis Hinj : soft_inj qp.
Hypothesis Hip : ipm_point a qp.
Hypothesis Hm : mask01 qp.
Variables (tinv Gam gam : nat -> rvec).
Hypothesis HG : forall ss c, (ss <= N)%nat -> (c < nct D ss)%nat -> tinv ss c = 1 / a_t a ss c /\ Gam ss c = wgt a ss c /\ gam ss c = 1 / a_t a ss c * (q_m qp ss c - a_lam a ss c * q_d qp ss c).

Definition tsolved (w : kws R) : Prop :=
  (forall i k, (i <= N)%nat -> (k < 2 * dns D i)%nat -> k_Zs w i k = Zq qp i (a_reg a) (Gam i) k /\ k_ux w i (nux qp i + k)%nat = Rq qp i (gam i) k) /\
  (forall i jj j, (i <= N)%nat -> (jj < t_nk T i)%nat -> let k := t_kid T i jj in (j < dnx D k)%nat -> k_ux w k (dnu D k + j)%nat = rsum (nux qp i) (fun r => q_BAbt qp (k - 1)%nat r j * k_ux w i r) + q_b qp (k - 1)%nat j) /\
  (forall i r, (i <= N)%nat -> (r < nux qp i)%nat ->
     rsum (nux qp i) (fun c => stH qp (a_reg a) Gam (fun _ => a_reg a) i r c * k_ux w i c) + sth qp (a_reg a) Gam gam i r + kpi T qp (k_pi w) i r
     - (if ((0 <? i) && (dnu D i <=? r))%nat then k_pi w (i - 1)%nat (r - dnu D i)%nat else 0) = 0).

Lemma tcomb w stp (ut lt : nat -> rvec * rvec) : tsolved w ->
  (forall ss, lt ss = compute_lam_t (nct D ss) (a_lam a ss) (tinv ss) (q_d qp ss) (q_m qp ss) (s_lam stp ss, snd (ut ss))) ->
  (forall ss, ut ss = lin_stage qp (Gam ss) (k_Zs w ss) ss (k_ux w ss, s_t stp ss)) ->
  let zx := fun ss => fst (ut ss) in let pi := k_pi w in let lam := fun ss => fst (lt ss) in let t := fun ss => snd (lt ss) in
  (forall i v, (i <= N)%nat -> (v < nvt D i)%nat -> tkkt_g T qp zx pi lam i v = - a_reg a * zx i v) /\
  (forall i jj j, (i <= N)%nat -> (jj < t_nk T i)%nat -> (j < dnx D (t_kid T i jj))%nat -> tdyn qp zx i (t_kid T i jj) j = 0) /\
  (forall i c, (i <= N)%nat -> (c < nct D i)%nat -> q_d qp i c + t i c - con qp zx i c = 0) /\
  (forall i c, (i <= N)%nat -> (c < nct D i)%nat -> q_m qp i c + a_lam a i c * t i c + lam i c * a_t a i c = 0).
Proof.
  intros (S1 & S2 & S3) Elt Eut. cbv zeta.
  assert (LT : forall ss c, (ss <= N)%nat -> (c < nct D ss)%nat -> fst (lt ss) c = - (Gam ss c * snd (ut ss) c + gam ss c) /\ snd (lt ss) c = snd (ut ss) c - q_d qp ss c).
  { intros ss c Hss Hc. rewrite Elt. pose proof (compute_lam_t_spec (nct D ss) (a_lam a ss) (tinv ss) (q_d qp ss) (q_m qp ss) (s_lam stp ss) (snd (ut ss)) c) as HC.
    destruct (compute_lam_t _ _ _ _ _ _) as [dl dt]. cbn [fst snd]. apply Nat.ltb_lt in Hc as Hc'. rewrite Hc' in HC. destruct HC as (L1 & L2). split; [|exact L2]. rewrite L1.
    destruct (HG ss c Hss Hc) as (E1 & E2 & E3). rewrite E1, E2, E3. unfold wgt. rsimp. unfold Rdiv. ring. }
  assert (UL : forall ss, (ss <= N)%nat -> (forall i, (i < nux qp ss)%nat -> fst (ut ss) i = k_ux w ss i) /\ (forall c, (c < nct D ss)%nat -> snd (ut ss) c = con qp (fun s => fst (ut s)) ss c)).
  { intros ss Hss. pose proof (lin_stage_R qp (Gam ss) (k_Zs w ss) ss (k_ux w ss) (s_t stp ss) (Hwf ss Hss)) as HC. rewrite <- Eut in HC. unfold con. destruct (ut ss) as [u t]. cbn [fst snd]. destruct HC as (U & _ & TT). split; assumption. }
  split; [|split; [|split]].
  - intros i k Hi Hk. unfold tkkt_g.
    pose proof (tnewton_stage T qp (a_reg a) Gam gam i (k_ux w i) (s_t stp i) (k_Zs w i) (k_pi w) (fst (lt i)) Hi Hwf Hinj) as NS.
    assert (Epiv : forall l, (l < 2 * dns D i)%nat -> slack_pivot qp (a_reg a) (Gam i) i l = slack_pivot qp (a_reg a) (wgt a i) i l).
    { intros l Hl. unfold slack_pivot. f_equal; [f_equal|].
      - apply HG; [exact Hi|unfold nct; lia].
      - apply rsum_ext. intros j Hj. assert (E1 : Gam i j = wgt a i j) by (apply HG; [exact Hi|unfold nct; lia]). assert (E2 : Gam i (dnb D i + dng D i + j)%nat = wgt a i (dnb D i + dng D i + j)%nat) by (apply HG; [exact Hi|unfold nct; lia]). rewrite E1, E2. reflexivity. }
    specialize (NS ltac:(intros l Hl; rewrite Epiv by exact Hl; apply Hip; assumption) (fun l Hl => S1 i l Hi Hl) (fun l Hl => S3 i l Hi Hl)).
    rewrite <- Eut in NS. pose proof (fun c Hc => proj1 (LT i c Hi Hc)) as LTi. destruct (ut i) as [u t] eqn:EU. cbn [fst snd] in LTi. specialize (NS LTi k Hk).
    cbn [fst snd]. rewrite <- NS. unfold kpi. f_equal. apply rsum_ext. intros c Hc. f_equal.
    destruct (Req_EM_T (q_mask qp i c) 0) as [E|E].
    + destruct (ip_mask _ _ Hip i c Hi Hc E) as (M1 & M2). rewrite E, Rmult_0_l. rewrite LTi by exact Hc. destruct (HG i c Hi Hc) as (_ & E2 & E3). rewrite E2, E3. unfold wgt. rewrite M1, M2. unfold Rdiv. ring.
    + destruct (Hm i c Hi Hc) as [E0|E0]; [contradiction|]. rewrite E0. lra.
  - intros i jj j Hi Hjj Hj. unfold tdyn. destruct (UL i ltac:(lia)) as (U & _). pose proof (proj1 HT i jj ltac:(lia) Hjj) as Hk. destruct (UL (t_kid T i jj) ltac:(lia)) as (U' & _). rewrite U' by (unfold nux; lia). rewrite (S2 i jj j) by assumption.
    rewrite (rsum_ext _ (fun r => q_BAbt qp (t_kid T i jj - 1)%nat r j * fst (ut i) r) (fun r => q_BAbt qp (t_kid T i jj - 1)%nat r j * k_ux w i r)); [lra|]. intros k Hk'. rewrite U by exact Hk'. reflexivity.
  - intros i c Hi Hc. destruct (LT i c Hi Hc) as (_ & ->). destruct (UL i Hi) as (_ & TT). rewrite TT by exact Hc. lra.
  - intros i c Hi Hc. destruct (LT i c Hi Hc) as (L1 & L2). rewrite L1, L2. destruct (HG i c Hi Hc) as (_ & E2 & E3). rewrite E2, E3. unfold wgt. field. apply Hip; assumption.
Qed.
End Comb.

(** ** the sweeps *)
Section Sweeps.
Variables (a : kargs R) (T : ttree) (qp : oqp R) (Gam gam : nat -> rvec).
Notation D := (q_dim qp).
Notation N := (dN D).
Notation reg := (a_reg a).
Hypothesis Hwf : qp_wf qp.
Hypothesis HT : tree_ok (N + 1) T.
Notation ns i := (nsolve qp i).

(** all nodes factorised, stored products of the same right-hand side *)
Definition tlhs (w : kws R) : Prop := forall i, (i <= N)%nat -> nd_lhs T qp reg Gam w i.
Definition tPb (w : kws R) : Prop := forall i, (i <= N)%nat -> nd_Pb T qp w i.

Lemma tsolved_of w0 w l p : tlhs w0 -> same_lhs w0 w -> (forall i, (i <= N)%nat -> fpost T qp w0 l p w i) ->
  (forall i r, (i <= N)%nat -> (r < nux qp i)%nat -> sth qp reg Gam gam i r + kx T qp (k_L w0) p i r = rsum (ns i) (fun k => l i k * lt (k_L w0 i) r k) + (if (r <? ns i)%nat then 0 else p i (r - dnu D i)%nat)) ->
  (forall i k, (i <= N)%nat -> (k < 2 * dns D i)%nat -> k_ux w i (nux qp i + k)%nat = Rq qp i (gam i) k) ->
  tsolved a T qp Gam gam w.
Proof.
  intros HL (_ & EL & _ & EZ & _) HF HB HR. split; [|split].
  - intros i k Hi Hk. rewrite EZ. split; [apply (HL i Hi); exact Hk|apply HR; assumption].
  - intros i jj j Hi Hjj. cbv zeta. intros Hj. apply (HF i Hi); assumption.
  - intros i r Hi Hr. unfold kpi. apply (tstat T qp reg Gam gam (k_L w0) l p (k_ux w) (k_pi w) i Hi).
    + apply (HL i Hi).
    + intros r' Hr'. apply HB; assumption.
    + apply (HF i Hi).
    + apply (HF i Hi).
    + apply (HF i Hi).
    + intros H0 j Hj. destruct HT as (_ & H2 & _). destruct (H2 i ltac:(lia)) as (q & jj & Hq & Hjj & E). pose proof (proj2 (proj2 (HF q ltac:(lia))) jj j Hjj) as HP. cbv zeta in HP. rewrite E in HP. apply HP. exact Hj.
    + exact Hr.
Qed.

Hypothesis Hpd : forall i, (i <= N)%nat -> PD (nux qp i) (stH qp reg Gam (fun _ => reg) i).

Lemma tfactor_R w : let wf := tfact reg T qp Gam gam w in let w' := tfwd true T qp wf in
  tsolved a T qp Gam gam w' /\ tlhs w' /\ tPb w'.
Proof.
  cbv zeta. pose proof (tfact_R T qp reg Gam gam Hwf HT Hpd w) as HF. cbv zeta in HF. set (w0 := tfact reg T qp Gam gam w) in *. clearbody w0.
  assert (HL : tlhs w0) by (intros i Hi; apply (HF i Hi)).
  assert (Hd : forall i k, (i <= N)%nat -> (k < ns i)%nat -> k_L w0 i k k <> 0). { intros i k Hi Hk. apply Rgt_not_eq. apply (HL i Hi). pose proof (ns_le qp i). lia. }
  destruct (tforward T qp HT w0 (fun i k => k_L w0 i (nux qp i) k) (pvec qp (k_L w0)) (tfwd_node true T qp)) as (F1 & F2 & F3).
  { intros i w1 Hi HS _ _. apply tfwd_node_R; [exact HT|exact Hi|exact HS|]. intros k Hk. apply Hd; assumption. }
  fold (tfwd true T qp w0) in F1, F2, F3. set (w' := tfwd true T qp w0) in *. clearbody w'.
  split; [|split].
  - apply (tsolved_of w0 w' (fun i k => k_L w0 i (nux qp i) k) (pvec qp (k_L w0)) HL F1 F2).
    + intros i r Hi Hr. destruct (HF i Hi) as (_ & (R1 & _) & _). rewrite R1 by exact Hr. unfold nsolve. destruct (Nat.ltb_spec 0 i) as [Hp|Hp].
      * unfold nux at 1. rewrite rsum_split. f_equal. unfold pvec, vps. destruct (Nat.ltb_spec r (dnu D i)).
        -- apply rsum_0. intros k Hk. rewrite (lt_out _ r) by lia. lra.
        -- apply rsum_ext. intros k Hk. replace (dnu D i + (r - dnu D i))%nat with r by lia. reflexivity.
      * change (dnu D i + dnx D i)%nat with (nux qp i). apply Nat.ltb_lt in Hr. rewrite Hr. lra.
    + intros i k Hi Hk. rewrite F3 by (try exact Hi; lia). apply (HF i Hi). exact Hk.
  - intros i Hi. eapply nd_lhs_same; [exact F1|]. apply (HF i Hi).
  - intros i Hi. eapply nd_Pb_same; [exact F1|]. apply (HF i Hi).
Qed.
End Sweeps.

Section Solve.
Variables (a : kargs R) (T : ttree) (qp : oqp R) (Gam gam : nat -> rvec).
Notation D := (q_dim qp).
Notation N := (dN D).
Notation reg := (a_reg a).
Hypothesis Hwf : qp_wf qp.
Hypothesis HT : tree_ok (N + 1) T.
Notation ns i := (nsolve qp i).
Lemma tsweeps_R (usePb : bool) w : tlhs a T qp Gam w -> (usePb = true -> tPb T qp w) ->
  let w' := tfwds true T qp (tbwd usePb T qp Gam gam w) in
  tsolved a T qp Gam gam w' /\ same_lhs w w'.
Proof.
  intros HL HPb. cbv zeta. destruct (tbwd_R T qp reg Gam gam usePb Hwf HT w HL HPb) as (B1 & B2). set (w0 := tbwd usePb T qp Gam gam w) in *. clearbody w0.
  assert (HL0 : tlhs a T qp Gam w0) by (intros i Hi; eapply nd_lhs_same; [exact B1|apply HL; exact Hi]).
  assert (Hd : forall i k, (i <= N)%nat -> (k < ns i)%nat -> k_L w0 i k k <> 0). { intros i k Hi Hk. apply Rgt_not_eq. apply (HL0 i Hi). pose proof (ns_le qp i). lia. }
  destruct (tforward T qp HT w0 (k_ux w0) (nxt qp w0) (tfwds_node true T qp)) as (F1 & F2 & F3).
  { intros i w1 Hi HS H1 H2. apply tfwds_node_R; [exact HT|exact Hi|exact HS| |exact H1|exact H2]. intros k Hk. apply Hd; assumption. }
  fold (tfwds true T qp w0) in F1, F2, F3. set (w' := tfwds true T qp w0) in *. clearbody w'.
  split; [|eapply same_trans; eassumption].
  apply (tsolved_of a T qp Gam gam HT w0 w' (k_ux w0) (nxt qp w0) HL0 F1 F2).
  - intros i r Hi Hr. destruct (B2 i Hi) as (R1 & _). pose proof B1 as (_ & EL & _). rewrite EL. rewrite R1 by exact Hr. f_equal.
    unfold nsolve. destruct (Nat.ltb_spec 0 i) as [Hp|Hp].
    + destruct (Nat.ltb_spec r (dnu D i)); [reflexivity|]. unfold nxt. f_equal. lia.
    + change (dnu D i + dnx D i)%nat with (nux qp i). apply Nat.ltb_lt in Hr. rewrite Hr. reflexivity.
  - intros i k Hi Hk. rewrite F3 by (try exact Hi; lia). apply (B2 i Hi). exact Hk.
Qed.
End Solve.
