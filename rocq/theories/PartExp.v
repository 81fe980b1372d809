(** PartExp.v -- expansion of a solution of the partially condensed QP: what one block, and the loop over the blocks, write. *)
From Coq Require Import ZArith Bool Arith Lia Reals Lra.
From Verif Require Import Base ArithF RSum Blas Blas2 OcpModel ResSpec ResProofs ResProofs2 CholProofs KktModel DenModel DenSpec CondModel ExpModel CondSpec CondProofs CondCost CondCost2 CondCon CondCon2 CondCon3 CondSem CondFull ExpProofs ExpKkt CondProps ExpProps PartModel PartSpec PartProofs PartSem.
Local Open Scope R_scope.

(** multipliers of the dynamics when the last stage is not condensed: the last one is given, the others follow *)
Lemma exp_pi_R' (qp : oqp R) ux lam pic s : let N := dN (q_dim qp) in (1 <= N)%nat -> let '(pi, _, _) := exp_pi qp false N pic ux lam s in
  (forall j, (j < dnx (q_dim qp) N)%nat -> pi (N - 1)%nat j = pic j) /\
  (forall i j, (1 <= i < N)%nat -> (j < dnx (q_dim qp) i)%nat -> pi (i - 1)%nat j = pif qp true i ux lam (pi i) j).
Proof.
  cbv zeta. set (D := q_dim qp). set (N := dN D). intros HN. unfold exp_pi. fold D. destruct s as [[p0 a0] b0].
  set (s1 := (upd p0 (N - 1)%nat _, a0, b0)).
  pose proof (loop_ind (fun n '(pi, _, _) => (forall j, (j < dnx D N)%nat -> pi (N - 1)%nat j = pic j) /\ (forall i j, (N - n <= i < N)%nat -> (1 <= i)%nat -> (j < dnx D i)%nat -> pi (i - 1)%nat j = pif qp true i ux lam (pi i) j)) (N - 1)
     (fun ii s => exp_pi_stage qp true (N - 1 - ii) ux lam s) s1) as L. cbv beta in L.
  destruct (loop _ _ _) as [[pi a] b]. destruct L as (L1 & L2).
  - unfold s1. split; [|intros; lia]. intros j Hj. rewrite upd_same. unfold VECCP. rewrite vset_in' by lia. f_equal. lia.
  - intros n s2 Hn I. pose proof (exp_pi_stage_R qp true (N - 1 - n) ux lam s2) as S2. destruct s2 as [[p2 a2] b2]. destruct I as (I1 & I2). destruct (exp_pi_stage qp true (N - 1 - n) ux lam (p2, a2, b2)) as [[p3 a3] b3]. destruct S2 as (S2 & S3). split.
    + intros j Hj. rewrite S3 by lia. apply I1. exact Hj.
    + intros i j Hi Hi1 Hj. destruct (Nat.eq_dec i (N - 1 - n)) as [->|].
      * rewrite (S3 (N - 1 - n)%nat) by lia. exact (S2 j Hj).
      * rewrite !S3 by lia. apply I2; lia.
  - split; [exact L1|]. intros i j Hi Hj. apply L2; try lia; exact Hj.
Qed.

(** one block *)
Lemma block_expand last qp ds sol w dineq deq : let N := dN (q_dim qp) in let M := last_stage last N in let s := fst (expand_sol last true dineq deq qp ds sol w) in
  (last = false -> (1 <= N)%nat) ->
  (forall i k, (i <= M)%nat -> (k < nvt (q_dim qp) i)%nat -> s_ux s i k = traj qp M (ds_v ds) i k) /\
  (dineq = true -> forall i c, (i <= M)%nat -> (c < nct (q_dim qp) i)%nat -> s_lam s i c = ds_lam ds (pos qp M i c) /\ s_t s i c = ds_t ds (pos qp M i c)) /\
  (deq = true -> (last = false -> forall j, (j < dnx (q_dim qp) N)%nat -> s_pi s (N - 1)%nat j = ds_pi ds j) /\
     (forall i j, (1 <= i <= M)%nat -> (j < dnx (q_dim qp) i)%nat -> s_pi s (i - 1)%nat j = pif qp (i <? N)%nat i (s_ux s) (s_lam s) (s_pi s i) j)).
Proof.
  cbv zeta. set (D := q_dim qp). set (N := dN D). intros HN. destruct last.
  - pose proof (expand_facts qp ds sol w dineq deq) as X. cbv zeta in X. fold D N in X. destruct X as (X1 & X2 & X3). cbn [last_stage]. split; [exact X1|]. split; [exact X2|]. intros E. split; [discriminate|]. exact (X3 E).
  - specialize (HN eq_refl). unfold expand_sol, last_stage. fold D. fold N. rewrite andb_false_r.
    assert (P : forall i k, (i <= N - 1)%nat -> (k < nvt D i)%nat -> exp_prim qp (N - 1) (ds_v ds) (s_ux sol) i k = traj qp (N - 1) (ds_v ds) i k) by (intros i k; apply exp_prim_R).
    assert (L : forall src x i c, (i <= N - 1)%nat -> (c < nct D i)%nat -> exp_ineq qp (N - 1) src x i c = src (pos qp (N - 1) i c)) by (intros src x i c; apply exp_ineq_R).
    destruct deq.
    + set (ux := exp_prim qp (N - 1) (ds_v ds) (s_ux sol)) in *. clearbody ux. set (lam := if dineq then exp_ineq qp (N - 1) (ds_lam ds) (s_lam sol) else s_lam sol) in *.
      pose proof (exp_pi_R' qp ux lam (ds_pi ds) (s_pi sol, cw_nux w, cw_nbg w)) as X. cbv zeta in X. fold D N in X. specialize (X HN).
      destruct (exp_pi qp false N (ds_pi ds) ux lam (s_pi sol, cw_nux w, cw_nbg w)) as [[pi a] b]. destruct X as (X1 & X2). cbn [fst s_ux s_pi s_lam s_t]. split; [exact P|]. split.
      * intros ->. unfold lam. intros i c Hi Hc. rewrite !L by assumption. split; reflexivity.
      * intros _. split; [intros _; exact X1|]. intros i j Hi Hj. destruct (Nat.ltb_spec i N); [|lia]. apply X2; [lia|exact Hj].
    + cbn [fst s_ux s_pi s_lam s_t]. split; [exact P|]. split; [|discriminate]. intros ->. intros i c Hi Hc. rewrite !L by assumption. split; reflexivity.
Qed.

Section Loop.
Variables (qp : oqp R) (N2 : nat) (bs : nat -> nat) (dineq deq : bool) (ps sol0 : osol R) (ws : nat -> cws R).
Notation N := (dN (q_dim qp)).
Notation D := (q_dim qp).
Notation start := (start bs).
Notation blen := (blen N2 bs).
Notation B := (block qp bs).
Notation last := (last_default N2).
Hypothesis HB : blocks_ok N N2 bs.
Definition yes (_ : nat) : bool := true.

(** what holds of the stages of block ii *)
Definition blk_ok (s : osol R) (ii : nat) : Prop :=
  (forall i k, (i <= blen ii)%nat -> (k < nvt D (start ii + i))%nat -> s_ux s (start ii + i)%nat k = traj (B ii) (blen ii) (s_ux ps ii) i k) /\
  (dineq = true -> forall i c, (i <= blen ii)%nat -> (c < nct D (start ii + i))%nat -> s_lam s (start ii + i)%nat c = s_lam ps ii (pos (B ii) (blen ii) i c) /\ s_t s (start ii + i)%nat c = s_t ps ii (pos (B ii) (blen ii) i c)) /\
  (deq = true -> ((ii < N2)%nat -> forall j, (j < dnx D (start (S ii)))%nat -> s_pi s (start (S ii) - 1)%nat j = s_pi ps ii j) /\
     (forall i j, (1 <= i <= blen ii)%nat -> (j < dnx D (start ii + i))%nat -> s_pi s (start ii + i - 1)%nat j = pif qp (start ii + i <? N)%nat (start ii + i) (s_ux s) (s_lam s) (s_pi s (start ii + i)%nat) j)).
Lemma pif_B ii mid i ux lam p j : pif (B ii) mid i (from (start ii) ux) (from (start ii) lam) p j = pif qp mid (start ii + i) ux lam p j.
Proof. unfold pif, from. cbn [block window q_dim dnu dnx dnb dng q_RSQ q_rqz q_BAbt q_idxb q_DCt]. rewrite Nat.add_succ_r. reflexivity. Qed.
Lemma pif_ext mid i ux lam ux' lam' p p' j : ux i = ux' i -> lam i = lam' i -> p = p' -> pif qp mid i ux lam p j = pif qp mid i ux' lam' p' j.
Proof. intros E1 E2 ->. unfold pif. rewrite E1, E2. reflexivity. Qed.
Lemma blk_ok_ext s s' ii : (ii <= N2)%nat -> (forall i, (i <= start ii + blen ii)%nat -> s_ux s' i = s_ux s i /\ s_lam s' i = s_lam s i /\ s_t s' i = s_t s i) ->
  (forall i, (i < start ii + blen ii + (if ii =? N2 then 0 else 1))%nat -> s_pi s' i = s_pi s i) -> blk_ok s ii -> blk_ok s' ii.
Proof.
  intros Hii E EP (A1 & A2 & A3). split; [|split].
  - intros i k Hi Hk. destruct (E (start ii + i)%nat ltac:(lia)) as (-> & _). apply A1; assumption.
  - intros Hd i c Hi Hc. destruct (E (start ii + i)%nat ltac:(lia)) as (_ & -> & ->). apply A2; assumption.
  - intros He. destruct (A3 He) as (A4 & A5). split.
    + intros L j Hj. pose proof (start_S N N2 bs HB ii L). rewrite EP; [apply A4; assumption|]. destruct (Nat.eqb_spec ii N2); lia.
    + intros i j Hi Hj. destruct (E (start ii + i)%nat ltac:(lia)) as (E1 & E2 & _). rewrite EP by lia. rewrite A5 by assumption.
      destruct (Nat.eqb_spec ii N2) as [->|Hn]; cbn [Nat.add] in *.
      * destruct (Nat.ltb_spec (start N2 + i) N) as [L|L].
        -- apply pif_ext; [symmetry; exact E1|symmetry; exact E2|]. symmetry. apply EP. pose proof (start_N N N2 bs HB). lia.
        -- unfold pif. rewrite E1, E2. reflexivity.
      * apply pif_ext; [symmetry; exact E1|symmetry; exact E2|]. symmetry. apply EP. lia.
Qed.
Definition EINV (k : nat) (e : est R) : Prop := e_o e = start k /\ forall ii, (ii < k)%nat -> blk_ok (e_sol e) ii.
Lemma part_exp_step_R k e : (k <= N2)%nat -> EINV k e -> EINV (S k) (part_exp_step last yes (fun _ => dineq) (fun _ => deq) bs qp ps k e).
Proof.
  intros Hk (I1 & I2). unfold part_exp_step. rewrite I1. change (sub_qp qp (start k) (bs k)) with (B k).
  pose proof (block_expand (last k) (B k) (stage_sol ps k) (sub_sol (e_sol e) (start k)) (e_ws e k) dineq deq) as X. cbv zeta in X.
  change (last_stage (last k) (dN (q_dim (B k)))) with (blen k) in X. change (dN (q_dim (B k))) with (bs k) in X.
  change (yes k) with true. destruct (expand_sol (last k) true dineq deq (B k) (stage_sol ps k) (sub_sol (e_sol e) (start k)) (e_ws e k)) as [s w]. cbn [fst] in X.
  destruct X as (X1 & X2 & X3). { intros E. apply Nat.eqb_neq in E. apply (proj1 HB). lia. }
  split; [reflexivity|]. cbn [e_sol]. intros ii Hii. destruct (Nat.eq_dec ii k) as [->|Hn].
  - assert (MG : forall (new old : nat -> rvec) i, merge (start k) new old (start k + i)%nat = new i).
    { intros new old i. unfold merge. destruct (Nat.leb_spec (start k) (start k + i)); [|lia]. f_equal. lia. }
    unfold blk_ok, merge_sol. cbn [s_ux s_pi s_lam s_t]. split; [|split].
    + intros i c Hi Hc. rewrite MG. apply X1; assumption.
    + intros Hd i c Hi Hc. rewrite !MG. apply (X2 Hd); assumption.
    + intros He. destruct (X3 He) as (X4 & X5). split.
      * intros L j Hj. assert (Eb : (1 <= bs k)%nat) by (apply (proj1 HB); exact L). replace (start (S k) - 1)%nat with (start k + (bs k - 1))%nat by (unfold PartSpec.start; cbn [nsum]; lia). rewrite MG. apply X4; [unfold last_default; apply Nat.eqb_neq; lia|exact Hj].
      * intros i j Hi Hj. replace (start k + i - 1)%nat with (start k + (i - 1))%nat by lia. rewrite !MG. rewrite X5 by assumption.
        assert (EL : (start k + i <? N)%nat = (i <? bs k)%nat).
        { destruct (Nat.eq_dec k N2) as [->|Hn2]; [pose proof (start_N N N2 bs HB) as E; unfold PartSpec.blen in *; rewrite Nat.eqb_refl in *; destruct (Nat.ltb_spec (start N2 + i) N), (Nat.ltb_spec i (bs N2)); try reflexivity; lia|].
          pose proof (start_S N N2 bs HB k ltac:(lia)) as E. pose proof (in_le N N2 bs HB (S k) 0 ltac:(lia) ltac:(lia)) as E2. unfold PartSpec.blen in Hi, E. destruct (Nat.eqb_spec k N2); [lia|]. assert (1 <= bs k)%nat by (apply (proj1 HB); lia). destruct (Nat.ltb_spec (start k + i) N), (Nat.ltb_spec i (bs k)); try reflexivity; lia. }
        rewrite EL. rewrite <- pif_B. unfold pif, from. rewrite !MG. reflexivity.
  - assert (L : (ii < k)%nat) by lia. pose proof (start_S N N2 bs HB ii ltac:(lia)) as Es. pose proof (start_mono bs (S ii) k ltac:(lia)) as Em.
    apply (blk_ok_ext (e_sol e)); [lia| | |apply I2; exact L].
    + intros i Hi. unfold merge_sol, merge. cbn [s_ux s_lam s_t]. destruct (Nat.leb_spec (start k) i); [lia|]. repeat split; reflexivity.
    + intros i Hi. unfold merge_sol, merge. cbn [s_pi]. destruct (Nat.eqb_spec ii N2); [lia|]. destruct (Nat.leb_spec (start k) i); [lia|]. reflexivity.
Qed.
Lemma part_expand_R : forall ii, (ii <= N2)%nat -> blk_ok (e_sol (part_expand last yes (fun _ => dineq) (fun _ => deq) bs N2 qp ps sol0 ws)) ii.
Proof.
  unfold part_expand. rewrite Nat.add_1_r.
  assert (X : EINV (S N2) (loop (S N2) (part_exp_step last yes (fun _ => dineq) (fun _ => deq) bs qp ps) (mkest sol0 ws 0))).
  { apply (loop_ind EINV); [split; [reflexivity|intros; lia]|]. intros k e Hk. apply part_exp_step_R. lia. }
  intros ii Hii. apply (proj2 X). lia.
Qed.
End Loop.
