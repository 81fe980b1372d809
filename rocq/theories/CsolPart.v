(** CsolPart.v -- condensing a solution: places are onto, multipliers of the dynamics are determined, all blocks. *)
From Coq Require Import ZArith Bool Arith Lia Reals Lra.
From Verif Require Import Base ArithF RSum Blas Blas2 OcpModel ResSpec ResProofs ResProofs2 CholProofs KktModel DenModel DenSpec CondModel ExpModel CondSpec CondProofs CondCost CondCost2 CondCon CondCon2 CondCon3 CondSem CondFull ExpProofs ExpKkt CondProps ExpProps PartModel PartSpec PartProofs PartSem PartProps PartExp PartKkt CsplitSpec CsolModel CsolProofs.
Local Open Scope R_scope.

Lemma roff_find M (n : nat -> nat) c : (c < roff M n 0 + n 0%nat)%nat -> exists i l, (i <= M)%nat /\ (l < n i)%nat /\ c = (roff M n i + l)%nat.
Proof.
  enough (X : forall k, (k <= M)%nat -> (c < roff M n (M - k) + n (M - k)%nat)%nat -> exists i l, (i <= M)%nat /\ (l < n i)%nat /\ c = (roff M n i + l)%nat).
  { intros H. apply (X M); [lia|]. rewrite Nat.sub_diag. exact H. }
  induction k as [|k IH]; intros Hk Hc.
  - rewrite Nat.sub_0_r, roff_M in Hc. exists M, c. rewrite roff_M. split; [lia|]. split; [lia|reflexivity].
  - destruct (Nat.lt_ge_cases c (roff M n (M - S k))) as [L|L].
    + rewrite (roff_S M n (M - S k)) in L by lia. replace (S (M - S k)) with (M - k)%nat in L by lia. apply IH; [lia|exact L].
    + exists (M - S k)%nat, (c - roff M n (M - S k))%nat. split; [lia|]. split; [lia|lia].
Qed.
Lemma slot_surj (qp : oqp R) p : let M := dN (q_dim qp) in (p < n_hard qp M + 2 * n_soft qp M)%nat -> exists i k, free qp i k /\ slot qp i k = p.
Proof.
  cbv zeta. set (D := q_dim qp). set (M := dN D). intros Hp. destruct (Nat.lt_ge_cases p (n_hard qp M)) as [L|L].
  - unfold n_hard in L. fold D in L. destruct (Nat.lt_ge_cases p (uoff qp M 0 + dnu D 0)) as [L1|L1].
    + destruct (roff_find M (dnu D) p) as (i & l & A1 & A2 & A3); [exact L1|]. exists i, l. split; [split; [exact A1|split; [unfold nvt; fold D; lia|right; left; exact A2]]|]. unfold slot. fold D M. destruct (Nat.ltb_spec l (dnu D i)); [|lia]. symmetry. exact A3.
    + exists 0%nat, (p - uoff qp M 0)%nat. split; [split; [lia|split; [unfold nvt; fold D; lia|left; reflexivity]]|]. unfold slot, nux. fold D M. destruct (Nat.ltb_spec (p - uoff qp M 0) (dnu D 0)); [lia|]. destruct (Nat.ltb_spec (p - uoff qp M 0) (dnu D 0 + dnx D 0)); [lia|lia].
  - assert (X : exists b, (b < n_soft qp M)%nat /\ (p = n_hard qp M + b \/ p = n_hard qp M + n_soft qp M + b)%nat).
    { destruct (Nat.lt_ge_cases p (n_hard qp M + n_soft qp M)); [exists (p - n_hard qp M)%nat|exists (p - n_hard qp M - n_soft qp M)%nat]; lia. }
    destruct X as (b & Hb & E). destruct (roff_find M (dns D) b) as (i & l & A1 & A2 & A3); [exact Hb|]. change (roff M (dns D)) with (soff qp M) in A3.
    destruct E as [E|E]; [exists i, (nux qp i + l)%nat|exists i, (nux qp i + dns D i + l)%nat]; (split; [split; [exact A1|split; [unfold nvt, nux; fold D; lia|right; right; lia]]|]); unfold slot; fold D M; unfold nux; fold D.
    + destruct (Nat.ltb_spec (dnu D i + dnx D i + l) (dnu D i)); [lia|]. destruct (Nat.ltb_spec (dnu D i + dnx D i + l) (dnu D i + dnx D i)); [lia|]. destruct (Nat.ltb_spec (dnu D i + dnx D i + l) (dnu D i + dnx D i + dns D i)); lia.
    + destruct (Nat.ltb_spec (dnu D i + dnx D i + dns D i + l) (dnu D i)); [lia|]. destruct (Nat.ltb_spec (dnu D i + dnx D i + dns D i + l) (dnu D i + dnx D i)); [lia|]. destruct (Nat.ltb_spec (dnu D i + dnx D i + dns D i + l) (dnu D i + dnx D i + dns D i)); lia.
Qed.
(** [holds_vars] in terms of [slot] *)
Lemma holds_slot (qp : oqp R) ux v i k : holds_vars qp (dN (q_dim qp)) ux v -> free qp i k -> v (slot qp i k) = ux i k.
Proof.
  intros (H1 & H2 & H3) (F1 & F2 & F3). unfold nvt in F2. unfold slot. destruct (Nat.ltb_spec k (dnu (q_dim qp) i)) as [L|L]; [apply H1; assumption|]. destruct (Nat.ltb_spec k (nux qp i)) as [L2|L2].
  - assert (i = 0%nat) by lia. subst i. apply H2. exact L2.
  - destruct (Nat.ltb_spec k (nux qp i + dns (q_dim qp) i)) as [L3|L3]; rewrite <- Nat.add_assoc.
    + rewrite (proj1 (H3 i (k - nux qp i)%nat F1 ltac:(lia))). f_equal. lia.
    + unfold nux in *. rewrite (proj2 (H3 i (k - (dnu (q_dim qp) i + dnx (q_dim qp) i) - dns (q_dim qp) i)%nat F1 ltac:(lia))). f_equal. lia.
Qed.
(** stationarity with respect to a state determines the multiplier of the dynamics into its stage *)
Lemma kkt_g_pi (qp : oqp R) z z' pi pi' lam lam' i j : let D := q_dim qp in (1 <= i <= dN D)%nat -> (j < dnx D i)%nat ->
  (forall k, (k < nvt D i)%nat -> z i k = z' i k) -> (forall c, (c < nct D i)%nat -> lam i c = lam' i c) -> ((i < dN D)%nat -> forall l, (l < dnx D (S i))%nat -> pi i l = pi' i l) ->
  kkt_g qp z pi lam i (dnu D i + j) = 0 -> kkt_g qp z' pi' lam' i (dnu D i + j) = 0 -> pi (i - 1)%nat j = pi' (i - 1)%nat j.
Proof.
  cbv zeta. intros Hi Hj Hz Hl Hp. unfold kkt_g.
  rewrite (rsum_ext (nvt (q_dim qp) i) _ (fun l => Hess qp i (dnu (q_dim qp) i + j) l * z' i l)) by (intros l L; rewrite Hz by exact L; reflexivity).
  rewrite (rsum_ext (nct (q_dim qp) i) _ (fun c => G qp i c (dnu (q_dim qp) i + j)%nat * (q_mask qp i c * lam' i c))) by (intros c L; rewrite Hl by exact L; reflexivity).
  replace (0 <? i)%nat with true by (symmetry; apply Nat.ltb_lt; lia). replace (dnu (q_dim qp) i <=? dnu (q_dim qp) i + j)%nat with true by (symmetry; apply Nat.leb_le; lia).
  replace (dnu (q_dim qp) i + j <? nux qp i)%nat with true by (symmetry; apply Nat.ltb_lt; unfold nux; lia). rewrite !andb_true_r. cbn [andb]. replace (dnu (q_dim qp) i + j - dnu (q_dim qp) i)%nat with j by lia.
  destruct (Nat.ltb_spec i (dN (q_dim qp))) as [L|L]; [|intros; lra].
  rewrite (rsum_ext (dnx (q_dim qp) (S i)) _ (fun l => q_BAbt qp i (dnu (q_dim qp) i + j)%nat l * pi' i l)) by (intros l Ll; rewrite (Hp L) by exact Ll; reflexivity). intros; lra.
Qed.

(** ** all blocks *)
Section Part.
Variables (qp : oqp R) (N2 : nat) (bs : nat -> nat) (dineq deq : bool) (sol ps0 : osol R).
Notation N := (dN (q_dim qp)).
Notation D := (q_dim qp).
Notation start := (start bs).
Notation blen := (blen N2 bs).
Notation B := (block qp bs).
Notation last := (last_default N2).
Hypothesis HB : blocks_ok N N2 bs.
Hypothesis Hwf : qp_wf qp.
Hypothesis HO : forall ii, (ii <= N2)%nat -> slack_order (B ii) (blen ii).
Definition ps_ok (ps : osol R) (ii : nat) : Prop :=
  holds_vars (B ii) (blen ii) (from (start ii) (s_ux sol)) (s_ux ps ii) /\
  (dineq = true -> forall i c, (i <= blen ii)%nat -> (c < nct D (start ii + i))%nat -> s_lam ps ii (pos (B ii) (blen ii) i c) = s_lam sol (start ii + i)%nat c /\ s_t ps ii (pos (B ii) (blen ii) i c) = s_t sol (start ii + i)%nat c) /\
  (deq = true -> (ii < N2)%nat -> forall j, (j < dnx D (start (S ii)))%nat -> s_pi ps ii j = s_pi sol (start (S ii) - 1)%nat j).
Lemma part_sol_R : forall ii, (ii <= N2)%nat -> ps_ok (part_cond_sol last yes (fun _ => dineq) (fun _ => deq) bs N2 qp sol ps0) ii.
Proof.
  unfold part_cond_sol. rewrite Nat.add_1_r.
  pose proof (loop_ind (fun k '(ps, o) => o = start k /\ forall ii, (ii < k)%nat -> (ii <= N2)%nat -> ps_ok ps ii) (S N2) (fun ii '(ps, o) =>
    (put_stage_sol ps ii (cond_sol (last ii) (yes ii) dineq deq (sub_qp qp o (bs ii)) (sub_sol sol o) (stage_sol ps ii)), o + bs ii)%nat) (ps0, 0%nat)) as L. cbv beta in L.
  destruct (loop (S N2) _ _) as [ps o]. destruct L as (_ & L).
  - split; [reflexivity|intros; lia].
  - intros k [ps1 o1] Hk (E & I). subst o1. split; [reflexivity|]. intros ii Hii Hi2. destruct (Nat.eq_dec ii k) as [->|Hn].
    + change (sub_qp qp (start k) (bs k)) with (B k).
      pose proof (cond_sol_R (last k) (B k) (sub_sol sol (start k)) (stage_sol ps1 k) dineq deq) as X. cbv zeta in X. change (last_stage (last k) (dN (q_dim (B k)))) with (blen k) in X.
      change (yes k) with true. set (s := cond_sol _ _ _ _ _ _ _) in *. clearbody s. destruct X as (X1 & X2 & X3).
      { intros E. apply Nat.eqb_neq in E. apply (proj1 HB). lia. }
      { intros i Hi. pose proof (in_le N N2 bs HB k i ltac:(lia) Hi) as Hle. exact (Hwf (start k + i)%nat Hle). }
      { apply HO. lia. }
      unfold ps_ok, put_stage_sol. cbn [s_ux s_pi s_lam s_t]. rewrite !upd_same. split; [exact X1|]. split; [exact X2|].
      intros He L j Hj. assert (Eb : (1 <= bs k)%nat) by (apply (proj1 HB); exact L). specialize (X3 He ltac:(unfold last_default; apply Nat.eqb_neq; lia) j Hj). rewrite X3. unfold sub_sol, from. cbn [s_pi]. f_equal. unfold PartSpec.start. cbn [nsum block window q_dim dN]. lia.
    + specialize (I ii ltac:(lia) Hi2). unfold ps_ok, put_stage_sol in *. cbn [s_ux s_pi s_lam s_t]. rewrite !upd_other by exact Hn. exact I.
  - intros ii Hii. apply L; lia.
Qed.
End Part.
