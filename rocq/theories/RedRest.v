(** RedRest.v -- OCP_QP_RESTORE_EQ_DOF and OCP_QP_REDUCE_EQ_DOF_SOL. *)
From Coq Require Import ZArith Bool Arith List Lia Reals Lra.
From Verif Require Import Base ArithF RSum Blas OcpModel ResSpec ResProofs ResProofs2 KktProofs CondSpec RedModel RedSpec RedSem RedProofs RedFull.
Local Open Scope R_scope.

Lemma scat_ind n m (u x : rvec) k : (k < n)%nat -> m k = false ->
  fst (loop n (fun jj '(u, idx0) => if m jj then (u, idx0) else (upd u jj (x idx0), S idx0)) (u, 0%nat)) k = x (rk m k).
Proof.
  assert (X : forall q, (q <= n)%nat -> let '(u', p) := loop q (fun jj '(u, idx0) => if m jj then (u, idx0) else (upd u jj (x idx0), S idx0)) (u, 0%nat) in
    p = rk m q /\ forall k, (k < q)%nat -> m k = false -> u' k = x (rk m k)).
  { induction q as [|q IH]; intros Hq; [cbn [loop]; split; [reflexivity|lia]|]. rewrite loop_S. specialize (IH ltac:(lia)). destruct (loop q _ _) as [u' p]. destruct IH as (E & IH). rewrite rk_S. destruct (m q) eqn:M.
    - split; [lia|]. intros l Hl Ml. destruct (Nat.eq_dec l q) as [->|N]; [congruence|]. apply IH; [lia|exact Ml].
    - split; [lia|]. intros l Hl Ml. destruct (Nat.eq_dec l q) as [->|N]; [rewrite upd_same, E; reflexivity|]. rewrite upd_other by exact N. apply IH; [lia|exact Ml]. }
  intros Hk Hm. specialize (X n (le_n _)). destruct (loop n _ _) as [u' p]. apply X; assumption.
Qed.
Lemma res_bnd_R nb ng nbr ngr md c (x v : rvec) j : (j < nb)%nat ->
  (res_bnd nb ng nbr ngr md c x v j = if md j then c else x (rk md j)) /\ (res_bnd nb ng nbr ngr md c x v (nb + ng + j)%nat = if md j then c else x (nbr + ngr + rk md j)%nat).
Proof.
  unfold res_bnd. set (f := fun jj '(v, idx0) => _).
  assert (X : forall q, (q <= nb)%nat -> let '(v', p) := loop q f (v, 0%nat) in p = rk md q /\
    forall j, (j < q)%nat -> (v' j = if md j then c else x (rk md j)) /\ (v' (nb + ng + j)%nat = if md j then c else x (nbr + ngr + rk md j)%nat)).
  { induction q as [|q IH]; intros Hq; [cbn [loop]; split; [reflexivity|lia]|]. rewrite loop_S. specialize (IH ltac:(lia)). destruct (loop q f _) as [v' p]. destruct IH as (E & IH). unfold f at 1. rewrite rk_S. destruct (md q) eqn:M.
    - split; [lia|]. intros l Hl. destruct (Nat.eq_dec l q) as [->|N]; [rewrite M; split; [rewrite upd_other by lia|]; apply upd_same|]. rewrite !upd_other by lia. apply IH. lia.
    - split; [lia|]. intros l Hl. destruct (Nat.eq_dec l q) as [->|N]; [rewrite M, E; split; [rewrite upd_other by lia|]; apply upd_same|]. rewrite !upd_other by lia. apply IH. lia. }
  intros Hj. specialize (X nb (le_n _)). destruct (loop nb f _) as [v' p]. apply X. exact Hj.
Qed.

Section Stage.
Variables (qp : oqp R) (e : eqd) (i : nat).
Let D := q_dim qp.
Let Dr := dim_reduce D e.
Let n := nux qp i.
Let nb := dnb D i.
Let ng := dng D i.
Let ns := dns D i.
Let nbr := dnb Dr i.
Hypothesis Hi : (i <= dN D)%nat.
Hypothesis WF : qp_wf qp.
Hypothesis EW : eq_wf qp e.
Notation fx := (fixed qp e i).
Notation rm := (removed e i).
Notation vp := (vplace qp e i).
Notation cp := (cplace qp e i).
Notation rmc := (removedc qp e i).
Notation fv := (fixval qp e i).
Notation ne := (ne_thr e i).
Notation ib q := (q_idxb qp i (e_idxe e i q)).
Notation row := (row_co nb (q_idxb qp i) (q_DCt qp i)).

(** inequality entries: kept ones copied, removed ones set to c *)
Lemma res_cp_R md c (x v : rvec) : (forall j, (j < nb)%nat -> md j = rm j) -> forall k, (k < nct D i)%nat ->
  res_gen nb ng ns nbr ng x (res_bnd nb ng nbr ng md c x v) k = if rmc k then c else x (cp k).
Proof.
  intros Hmd k Hk. unfold nct in Hk. fold nb ng ns in Hk.
  assert (RK : forall j, (j <= nb)%nat -> rk md j = rk rm j) by (intros j Hj; apply rk_ext; intros l Hl; apply Hmd; lia).
  pose proof (nbr_eq qp e i Hi EW) as EN. fold D Dr nb in EN. change (dnb Dr i) with nbr in EN.
  unfold res_gen, VECCP. destruct (Nat.lt_ge_cases k nb) as [L1|L1]; [|destruct (Nat.lt_ge_cases k (nb + ng)) as [L2|L2]; [|destruct (Nat.lt_ge_cases k (2 * nb + ng)) as [L3|L3]]].
  - rewrite !vset_out by lia. rewrite (rm_rmc_lo qp e i Hi) by exact L1. rewrite (cp_lo qp e i Hi) by (fold D nb; lia). rewrite (proj1 (res_bnd_R nb ng nbr ng md c x v k L1)), Hmd, RK by lia. reflexivity.
  - rewrite vset_out by lia. rewrite vset_in' by lia. rewrite (rmc_gen qp e i Hi) by (fold D nb ng; lia). f_equal. replace k with (nb + (k - nb))%nat at 2 by lia. symmetry. apply (cp_g qp e i Hi EW). fold D ng. lia.
  - rewrite !vset_out by lia. assert (E : k = (nb + ng + (k - (nb + ng)))%nat) by lia. rewrite E. rewrite (proj2 (res_bnd_R nb ng nbr ng md c x v (k - (nb + ng)) ltac:(lia))). pose proof (rm_rmc_up qp e i Hi (k - (nb + ng)) ltac:(fold D nb; lia)) as X. fold D nb ng in X. rewrite X, Hmd, RK by lia.
    pose proof (cp_up qp e i Hi EW (k - (nb + ng)) ltac:(fold D nb; lia)) as Y. fold D nb ng Dr nbr in Y. rewrite Y. reflexivity.
  - rewrite vset_in' by lia. rewrite (rmc_gen qp e i Hi) by (fold D nb ng; lia). f_equal. replace k with (2 * nb + ng + (k - (2 * nb + ng)))%nat at 2 by lia. symmetry. apply (cp_rest qp e i Hi EW).
Qed.
(** gradient of the Lagrangian before the multipliers of the removed bounds are set *)
Definition gr (ux pir lam : rvec) (k : nat) : R := rsum n (fun l => symL (q_RSQ qp i) k l * ux l) + q_rqz qp i k
  + (if (i <? dN D)%nat then rsum (dnx D (S i)) (fun j => q_BAbt qp i k j * pir j) else 0) + rsum (nb + ng) (fun j => row j k * (lam (nb + ng + j)%nat - lam j)).
Lemma res_mult_R md (pir ux lam x0 bg : rvec) : (forall j, (j < nb)%nat -> md j = rm j) -> let lam' := fst (fst (res_mult qp i md pir ux lam x0 bg)) in
  forall c, (lam' c = lam c \/ exists j, (j < nb)%nat /\ rm j = true /\ (c = j \/ c = (nb + ng + j)%nat)) /\
  forall j, (j < nb)%nat -> rm j = true -> let g := gr ux pir lam (q_idxb qp i j) in
    (0 <= g /\ lam' j = g /\ lam' (nb + ng + j)%nat = lam (nb + ng + j)%nat) \/ (g < 0 /\ lam' j = lam j /\ lam' (nb + ng + j)%nat = - g).
Proof.
  intros Hmd. cbv zeta. unfold res_mult. fold D. change (dnu D i + dnx D i)%nat with n. fold nb ng. replace (i + 1)%nat with (S i) by lia.
  set (b1 := AXPY (nb + ng) (- f1)%F lam 0 lam (nb + ng) bg 0).
  assert (B1 : forall j, (j < nb + ng)%nat -> b1 j = lam (nb + ng + j)%nat - lam j).
  { intros j Hj. unfold b1, AXPY. rewrite vset_in' by lia. rsimp. rewrite R_lit11. rewrite Nat.sub_0_r. cbn [Nat.add]. ring. }
  set (y0 := VECCP n (q_rqz qp i) 0 x0 0). set (y1 := VECAD_SP nb f1 b1 0 (q_idxb qp i) y0 0). set (y2 := SYMV_L n f1 (q_RSQ qp i) 0 0 ux 0 f1 y1 0 y1 0).
  set (y3 := if (i <? dN D)%nat then _ else y2). set (y4 := GEMV_N n ng f1 (q_DCt qp i) 0 0 b1 nb f1 y3 0 y3 0).
  assert (E : forall k, (k < n)%nat -> y4 k = gr ux pir lam k).
  { intros k Hk. unfold y4, GEMV_N. rewrite vset_in' by lia. rsimp. rewrite fsum_R, !R_lit11, Nat.sub_0_r. cbn [Nat.add].
    assert (E3 : y3 k = y2 k + (if (i <? dN D)%nat then rsum (dnx D (S i)) (fun j => q_BAbt qp i k j * pir j) else 0)).
    { unfold y3. destruct (i <? dN D)%nat; [|ring]. unfold GEMV_N. rewrite vset_in' by lia. rsimp. rewrite fsum_R, !R_lit11, Nat.sub_0_r. cbn [Nat.add]. ring. }
    assert (E2 : y2 k = y1 k + rsum n (fun l => symL (q_RSQ qp i) k l * ux l)).
    { unfold y2, SYMV_L. rewrite vset_in' by lia. rsimp. rewrite fsum_R, !R_lit11, Nat.sub_0_r. cbn [Nat.add]. rewrite (rsum_ext n _ (fun l => symL (q_RSQ qp i) k l * ux l)) by reflexivity. ring. }
    assert (E1 : y1 k = q_rqz qp i k + rsum nb (fun j => row j k * (lam (nb + ng + j)%nat - lam j))).
    { unfold y1. rewrite VECAD_SP_R. unfold y0, VECCP. rewrite vset_in' by lia. rewrite Nat.sub_0_r. cbn [Nat.add]. f_equal. apply rsum_ext. intros j Hj. rewrite B1 by lia. unfold row_co. destruct (Nat.ltb_spec j nb); [|lia]. rsimp. rewrite R_lit11. destruct (q_idxb qp i j =? k)%nat; ring. }
    rewrite E3, E2, E1. unfold gr. rewrite (rsum_split nb ng). rewrite (rsum_ext ng _ (fun j => row (nb + j)%nat k * (lam (nb + ng + (nb + j))%nat - lam (nb + j)%nat))); [ring|].
    intros j Hj. rewrite B1 by lia. unfold row_co. destruct (Nat.ltb_spec (nb + j) nb); [lia|]. replace (nb + j - nb)%nat with j by lia. reflexivity. }
  clearbody y4. cbn [fst].
  set (f := fun jj (lam : rvec) => if md jj then _ else lam).
  assert (X : forall q, (q <= nb)%nat -> let L := loop q f lam in
    (forall c, (forall j, (j < q)%nat -> rm j = true -> c <> j /\ c <> (nb + ng + j)%nat) -> L c = lam c) /\
    forall j, (j < q)%nat -> rm j = true -> let g := gr ux pir lam (q_idxb qp i j) in
      (0 <= g /\ L j = g /\ L (nb + ng + j)%nat = lam (nb + ng + j)%nat) \/ (g < 0 /\ L j = lam j /\ L (nb + ng + j)%nat = - g)).
  { induction q as [|q IH]; intros Hq; [cbn [loop]; split; [reflexivity|lia]|]. cbv zeta. rewrite loop_S. specialize (IH ltac:(lia)). cbv zeta in IH. set (L := loop q f lam) in *. clearbody L. destruct IH as (I1 & I2). unfold f. cbv zeta. rewrite Hmd by lia. destruct (rm q) eqn:Rq.
    - assert (Hq' : (q_idxb qp i q < n)%nat) by (apply (WF i Hi); fold D nb; lia). rewrite (E _ Hq'). rsimp. rewrite R_lit01. set (g := gr ux pir lam (q_idxb qp i q)).
      destruct (Rleb_spec 0 g) as [P|P].
      + split.
        * intros c Hc. destruct (Hc q ltac:(lia) Rq) as (C1 & C2). rewrite upd_other by exact C1. apply I1. intros j Hj. apply Hc. lia.
        * intros j Hj Rj. destruct (Nat.eq_dec j q) as [->|N].
          -- left. fold g. split; [exact P|]. rewrite upd_same. split; [reflexivity|]. rewrite upd_other by lia. apply I1. intros j Hj' _. lia.
          -- rewrite !upd_other by lia. apply I2; [lia|exact Rj].
      + split.
        * intros c Hc. destruct (Hc q ltac:(lia) Rq) as (C1 & C2). rewrite upd_other by exact C2. apply I1. intros j Hj. apply Hc. lia.
        * intros j Hj Rj. destruct (Nat.eq_dec j q) as [->|N].
          -- right. fold g. split; [lra|]. rewrite upd_same. split; [|reflexivity]. rewrite upd_other by lia. apply I1. intros j Hj' _. lia.
          -- rewrite !upd_other by lia. apply I2; [lia|exact Rj].
    - split.
      + intros c Hc. apply I1. intros j Hj. apply Hc. lia.
      + intros j Hj Rj. destruct (Nat.eq_dec j q) as [->|N]; [congruence|]. apply I2; [lia|exact Rj]. }
  specialize (X nb (le_n _)). cbv zeta in X. destruct X as (X1 & X2). intros c. split; [|exact X2].
  destruct (existsb (fun j => (rm j && ((c =? j)%nat || (c =? nb + ng + j)%nat))%bool) (seq 0 nb)) eqn:EX.
  - right. apply existsb_exists in EX. destruct EX as (j & A & B). apply in_seq in A. apply andb_prop in B. destruct B as (B1' & B2). exists j. split; [lia|]. split; [exact B1'|]. apply orb_prop in B2. destruct B2 as [B2|B2]; apply Nat.eqb_eq in B2; auto.
  - left. apply X1. intros j Hj Rj. rewrite <- not_true_iff_false in EX. split; intros C; apply EX; apply existsb_exists; exists j; (split; [apply in_seq; lia|]); rewrite Rj, C, Nat.eqb_refl; rewrite ?orb_true_r; reflexivity.
Qed.
(** *** what the restoration leaves at stage i *)
Definition rest_prim (y : nat -> nat -> R) (z : nat -> nat -> R) : Prop := forall k, (k < nvt D i)%nat -> z i k = lift qp e y i k.
Definition rest_pi (pir pi : nat -> nat -> R) : Prop := (i < dN D)%nat -> forall j, (j < dnx D (S i))%nat -> pi i j = pir i j.
Definition rest_ineq (lmin tmin : R) (r : osol R) (z pi lam t : nat -> nat -> R) : Prop :=
  (forall c, (c < nct D i)%nat -> rmc c = false -> lam i c = s_lam r i (cp c) /\ t i c = s_t r i (cp c)) /\
  (forall j, (j < nb)%nat -> rm j = true -> t i j = tmin /\ t i (nb + ng + j)%nat = tmin /\
     exists g lt, (forall c, (c < nct D i)%nat -> lt c = if rmc c then lmin else lam i c) /\ g = gr (z i) (pi i) lt (q_idxb qp i j) /\
       ((0 <= g /\ lam i j = g /\ lam i (nb + ng + j)%nat = lmin) \/ (g < 0 /\ lam i j = lmin /\ lam i (nb + ng + j)%nat = - g))).

Lemma lift_slack y s : lift qp e y i (n + s)%nat = y i (vp n + s)%nat.
Proof. unfold lift. rewrite (fixed_big qp e i Hi) by (unfold n; lia). rewrite (vp_slack qp e i Hi). reflexivity. Qed.
Lemma restore_stage_R pr du dq lmin tmin (r o : osol R) w : let o' := fst (restore_stage pr du dq lmin tmin qp Dr e r i (o, w)) in
  (pr = true -> rest_prim (s_ux r) (s_ux o')) /\ (dq = true -> rest_pi (s_pi r) (s_pi o')) /\ (du = true -> rest_ineq lmin tmin r (s_ux o') (s_pi r) (s_lam o') (s_t o')).
Proof.
  cbv zeta. unfold restore_stage. fold D. change (dnu D i + dnx D i)%nat with n. fold nb ng ns. change (dnb Dr i) with nbr. change (dng Dr i) with ng. replace (i + 1)%nat with (S i) by lia.
  pose proof (nuxr_eq qp e i Hi WF EW) as ENX. fold D Dr n in ENX.
  set (pi := if dq then _ else s_pi o).
  assert (PI : dq = true -> rest_pi (s_pi r) pi).
  { intros Edq HN j Hj. unfold pi. rewrite Edq. destruct (Nat.ltb_spec i (dN D)); [|lia]. rewrite upd_same. unfold VECCP. rewrite vset_in' by lia. f_equal. lia. }
  clearbody pi.
  destruct (Nat.ltb_spec 0 ne) as [Hne|Hne].
  - pose proof (red_marks_R qp e i Hi EW nb w eq_refl) as M. cbv zeta in M. fold n in M. set (w' := red_marks n nb _ _ _ _ w) in *. clearbody w'. destruct M as (M1 & M2). fold D nb in M2.
    assert (RK : forall k, (k <= n)%nat -> vp k = rk (rw_mx w') k) by (intros k Hk; apply rk_ext; intros l Hl; symmetry; apply M1; lia).
    set (ux := if pr then _ else s_ux o).
    assert (PR : pr = true -> rest_prim (s_ux r) ux).
    { intros Epr k Hk. unfold ux. rewrite Epr, upd_same. rewrite ENX. assert (EV : nvt D i = (n + 2 * ns)%nat) by (unfold nvt, n, nux, ns; fold D; lia). rewrite EV in Hk. unfold VECCP. destruct (Nat.lt_ge_cases k n) as [L|L].
      - rewrite vset_out by lia. set (u0 := fst (loop n _ _)).
        assert (U0 : fx k = false -> u0 k = s_ux r i (vp k)). { intros F. unfold u0. rewrite scat_ind; [rewrite RK by lia; reflexivity|exact L|rewrite (proj2 (M1 k L)); exact F]. }
        clearbody u0.
        assert (X : forall q, (q <= ne)%nat -> loop q (fun jj u => upd u (ib jj) (q_d qp i (e_idxe e i jj))) u0 k = if existsb (fun q => (k =? ib q)%nat) (seq 0 q) then rsum q (fun q => if (k =? ib q)%nat then q_d qp i (e_idxe e i q) else 0) else u0 k).
        { induction q as [|q IH]; intros Hq; [reflexivity|]. rewrite loop_S, existsb_seq_S. cbn [rsum]. specialize (IH ltac:(lia)). destruct (Nat.eqb_spec k (ib q)) as [E|E].
          - rewrite orb_true_r, E, upd_same. rewrite rsum_0; [ring|]. intros q' Hq'. destruct (Nat.eqb_spec (ib q) (ib q')) as [E2|_]; [|reflexivity]. pose proof (ew_inj qp e i Hi EW q q' ltac:(lia) ltac:(lia) E2). lia.
          - rewrite orb_false_r, upd_other by exact E. rewrite IH. rewrite Rplus_0_r. reflexivity. }
        rewrite (X ne (le_n _)). unfold lift. pose proof (fixed_eq qp e i Hi k L) as FE. unfold fixval. rewrite <- FE. destruct (fx k) eqn:F; [reflexivity|apply U0; reflexivity].
      - rewrite vset_in' by lia. replace k with (n + (k - n))%nat at 2 by lia. symmetry. apply lift_slack. }
    clearbody ux. destruct du.
    + set (lt := res_gen _ _ _ _ _ (s_lam r i) _). set (tt := res_gen _ _ _ _ _ (s_t r i) _).
      assert (LT : forall c, (c < nct D i)%nat -> lt c = if rmc c then lmin else s_lam r i (cp c)) by exact (res_cp_R (rw_md w') lmin (s_lam r i) (s_lam o i) M2).
      assert (TT : forall c, (c < nct D i)%nat -> tt c = if rmc c then tmin else s_t r i (cp c)) by exact (res_cp_R (rw_md w') tmin (s_t r i) (s_t o i) M2).
      clearbody lt tt. set (x0 := VECSE n f0 (rw_x0 w) 0). clearbody x0.
      pose proof (res_mult_R (rw_md w') (s_pi r i) (ux i) lt x0 (rw_bg w) M2) as RM. cbv zeta in RM. destruct (res_mult qp i (rw_md w') (s_pi r i) (ux i) lt x0 (rw_bg w)) as [[lam y0] bg]. cbn [fst] in RM |- *. cbn [s_ux s_pi s_lam s_t].
      split; [exact PR|]. split; [exact PI|]. intros _.
      assert (KEPT : forall c, (c < nct D i)%nat -> rmc c = false -> lam c = s_lam r i (cp c)).
      { intros c Hc Hr. destruct (RM c) as ([E|(j & Hj & Rj & Ej)] & _); [rewrite E, LT by exact Hc; rewrite Hr; reflexivity|]. exfalso. destruct Ej as [->| ->]; [rewrite (rm_rmc_lo qp e i Hi) in Hr by exact Hj|pose proof (rm_rmc_up qp e i Hi j Hj) as Q; fold D nb ng in Q; rewrite Q in Hr]; congruence. }
      unfold rest_ineq. rewrite !upd_same. split.
      * intros c Hc Hr. split; [apply KEPT; assumption|]. rewrite TT by exact Hc. rewrite Hr. reflexivity.
      * intros j Hj Rj. assert (J1 : (j < nct D i)%nat) by (unfold nct; fold nb; lia). assert (J2 : (nb + ng + j < nct D i)%nat) by (unfold nct; fold nb ng; lia).
        pose proof (rm_rmc_lo qp e i Hi j Hj) as Q1. pose proof (rm_rmc_up qp e i Hi j Hj) as Q2. fold D nb ng in Q2. rewrite Rj in Q1, Q2. rewrite !TT by assumption. rewrite Q1, Q2. split; [reflexivity|]. split; [reflexivity|].
        exists (gr (ux i) (s_pi r i) lt (q_idxb qp i j)), lt. split; [|split; [reflexivity|]].
        -- intros c Hc. rewrite LT by exact Hc. destruct (rmc c) eqn:Rc; [reflexivity|]. symmetry. apply KEPT; assumption.
        -- pose proof (proj2 (RM 0%nat) j Hj Rj) as X. cbv zeta in X. rewrite !LT in X by assumption. rewrite Q1, Q2 in X. exact X.
    + cbn [fst s_ux s_pi s_lam s_t]. split; [exact PR|]. split; [exact PI|]. discriminate.
  - assert (Z0 : ne = 0%nat) by lia. cbn [fst s_ux s_pi s_lam s_t]. split; [|split; [exact PI|]].
    + intros -> k Hk. rewrite upd_same. unfold VECCP. assert (EV : nvt D i = (n + 2 * ns)%nat) by (unfold nvt, n, nux, ns; fold D; lia). rewrite vset_in' by lia. unfold lift. rewrite (none_fx qp e i Z0). f_equal. symmetry. rewrite Nat.sub_0_r. apply rk_none, none_fx, Z0.
    + intros ->. unfold rest_ineq. rewrite !upd_same. split.
      * intros c Hc _. unfold VECCP. unfold nct in Hc. fold nb ng ns in Hc. rewrite !vset_in' by lia. rewrite Nat.sub_0_r. cbn [Nat.add]. assert (EC : cp c = c) by (apply rk_none, none_rmc, Z0). rewrite EC. split; reflexivity.
      * intros j Hj Rj. rewrite (none_rm e i Z0) in Rj. discriminate.
Qed.
End Stage.
