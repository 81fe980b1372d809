(** IpmProofs2.v -- the solve as a whole. *)
From Coq Require Import ZArith Bool Arith List Lia.
From Verif Require Import Base ArithF Blas Blas2 OcpModel ResProofs2 CoreModel CoreProofs ArgModel IpmModel IpmProofs.

Section P.
Context {F : Type} {AF : Arith F} {K : Type} (OP : kops (F := F) K) (A : arg F).
Notation vec := (nat -> F).
Notation ist := (@ist F K). Notation wk := (@wk F K).

Lemma count_mask_0 n (mask : vec) : count_mask n mask = 0%nat <-> forall i, (i < n)%nat -> feqb (mask i) f0 = true.
Proof.
  unfold count_mask. induction n as [|n IH]; cbn [loop]; [split; [intros; lia|reflexivity]|].
  set (c := loop n _ 0%nat) in *. split.
  - intros H i Hi. destruct (feqb (mask n) f0) eqn:E; cbn [negb] in H; [|discriminate].
    destruct (Nat.eq_dec i n) as [->|Hn]; [exact E|]. apply IH; [exact H|lia].
  - intros H. rewrite (H n) by lia. cbn [negb]. apply IH. intros i Hi. apply H. lia.
Qed.
Lemma count_mask_full n (mask : vec) : (count_mask n mask <= n)%nat /\ (count_mask n mask = n -> forall i, (i < n)%nat -> feqb (mask i) f0 = false).
Proof.
  unfold count_mask. induction n as [|n IH]; cbn [loop]; [split; [lia|intros; lia]|].
  set (c := loop n _ 0%nat) in *. destruct IH as [I1 I2]. destruct (feqb (mask n) f0) eqn:E; cbn [negb].
  - split; [lia|]. intros H. lia.
  - split; [lia|]. intros H i Hi. destruct (Nat.eq_dec i n) as [->|Hn]; [exact E|]. apply I2; lia.
Qed.
Lemma tot_c_nsum D : tot_c D = nsum (dN D + 1) (nct D).
Proof. unfold tot_c. replace (dN D + 1)%nat with (S (dN D)) by lia. reflexivity. Qed.
Lemma tot_v_nsum D : tot_v D = nsum (dN D + 1) (nvt D).
Proof. unfold tot_v. replace (dN D + 1)%nat with (S (dN D)) by lia. reflexivity. Qed.
Lemma win_off_lt n len i c : (i < n)%nat -> (c < len i)%nat -> (nsum i len + c < nsum n len)%nat.
Proof. intros Hi Hc. pose proof (nsum_mono (S i) n len ltac:(lia)) as H. cbn [nsum] in H. lia. Qed.

(** *** unfolding of the solve *)
Definition constrained (qp : oqp F) : Prop := exists i c, (i <= dN (q_dim qp))%nat /\ (c < nct (q_dim qp) i)%nat /\ feqb (q_mask qp i c) f0 = false.
Lemma constrained_count qp lq smax : constrained qp <->
  orb (Nat.eqb (tot_c (q_dim qp)) 0) (Nat.eqb (count_mask (tot_c (q_dim qp)) (c_mask (mk_ctx lq smax qp))) 0) = false.
Proof.
  set (D := q_dim qp). change (c_mask (mk_ctx lq smax qp)) with (flatc D (q_mask qp)). split.
  - intros (i & c & Hi & Hc & E). fold D in Hi, Hc.
    assert (Hlt : (nsum i (nct D) + c < tot_c D)%nat) by (rewrite tot_c_nsum; apply win_off_lt; [lia|exact Hc]).
    apply orb_false_intro; apply Nat.eqb_neq; [lia|]. intros H0. apply count_mask_0 with (i := (nsum i (nct D) + c)%nat) in H0; [|exact Hlt].
    unfold flatc in H0. rewrite cat_at in H0 by (first [lia|exact Hc]). rewrite E in H0. discriminate.
  - intros H. apply orb_false_elim in H. destruct H as [_ H]. apply Nat.eqb_neq in H.
    assert (Hex : exists k, (k < tot_c D)%nat /\ feqb (flatc D (q_mask qp) k) f0 = false).
    { assert (G : forall n, count_mask n (flatc D (q_mask qp)) <> 0%nat -> exists k, (k < n)%nat /\ feqb (flatc D (q_mask qp) k) f0 = false).
      { induction n as [|n IH]; [cbn; intros Hx; contradiction|]. unfold count_mask. cbn [loop]. destruct (feqb (flatc D (q_mask qp) n) f0) eqn:E; cbn [negb].
        - intros Hx. destruct (IH Hx) as (k & Hk & Ek). exists k. split; [lia|exact Ek].
        - intros _. exists n. split; [lia|exact E]. }
      apply G; exact H. }
    destruct Hex as (k & Hk & Ek). rewrite tot_c_nsum in Hk. destruct (nsum_locate _ _ _ Hk) as (i & j & Hi & Hj & ->).
    unfold flatc in Ek. rewrite cat_at in Ek by assumption. exists i, j. fold D. split; [lia|]. split; assumption.
Qed.

Variable C : ctx (F := F).
Let D := q_dim (c_qp C).

(** the residual object of the workspace is the residual of the iterate *)
Definition reported (x : vars F) (w : wk) (q : F * F * F * F) (mu : F) : Prop :=
  (exists r0 rw0, wk_res w = fst (res_compute (valid_of C) (c_qp C) (view D x) r0 rw0)) /\ q = res_inf_norm D (wk_res w) /\ mu = r_mu (wk_res w).
Lemma call_res_rep x (w : wk) f : let '(w1, q) := call_res C x w in reported x (put_stat f w1) q (r_mu (wk_res w1)).
Proof.
  unfold call_res. destruct (res_compute (valid_of C) (c_qp C) (view (q_dim (c_qp C)) x) (wk_res w) (wk_rw w)) as [r rw] eqn:E.
  split; [|split; reflexivity]. exists (wk_res w), (wk_rw w). unfold D. rewrite E. reflexivity.
Qed.
Lemma call_res_stat x (w : wk) : wk_stat (fst (call_res C x w)) = wk_stat w /\ wk_ap (fst (call_res C x w)) = wk_ap w /\ wk_ad (fst (call_res C x w)) = wk_ad w.
Proof. unfold call_res. destruct (res_compute _ _ _ _ _) as [r rw]. repeat split; reflexivity. Qed.

Lemma delta_body_rep kk (s : ist) : let s' := delta_body OP A C kk s in reported (i_x s') (i_w s') (i_max s') (i_mu s').
Proof.
  cbv zeta. unfold delta_body. set (mbk := copy_arr _ _ _). set (w := delta_dir _ _ _ _ _ _ _ _ _). clearbody w. destruct (take_step _ _ _ _ _) as [x bkp].
  pose proof (fun f => call_res_rep x w f) as H. destruct (call_res C x w) as [w1 q]. apply H.
Qed.
Lemma delta_body_stat kk (s : ist) : row_only C kk (wk_stat (i_w s)) (wk_stat (i_w (delta_body OP A C kk s))).
Proof.
  unfold delta_body. set (mbk := copy_arr _ _ _). pose proof (wfr_delta_dir OP A C kk (i_x s) (i_mu s) (i_max s) mbk (i_w s)) as H0.
  set (w := delta_dir _ _ _ _ _ _ _ _ _) in *. clearbody w. destruct (take_step _ _ _ _ _) as [x bkp].
  destruct (call_res_stat x w) as (E & _ & _). destruct (call_res C x w) as [w1 q]. cbn [fst] in E.
  cbn [i_w put_stat wk_stat]. eapply row_trans; [exact H0|]. rewrite E.
  eapply row_trans; [apply row_wstat|apply row_wstat_res]. lia.
Qed.
(** iterate, step and step lengths of one pass *)
Lemma delta_body_step kk (s : ist) : exists w : wk, alpha_ok A C (i_x s) w /\ (i_x (delta_body OP A C kk s), i_bkp (delta_body OP A C kk s)) = take_step A C (i_x s) (i_bkp s) w /\
  wk_ap (i_w (delta_body OP A C kk s)) = wk_ap w /\ wk_ad (i_w (delta_body OP A C kk s)) = wk_ad w.
Proof.
  unfold delta_body. set (mbk := copy_arr _ _ _). pose proof (alpha_delta_dir OP A C kk (i_x s) (i_mu s) (i_max s) mbk (i_w s)) as H0.
  set (w := delta_dir _ _ _ _ _ _ _ _ _) in *. clearbody w. exists w. split; [exact H0|]. destruct (take_step _ _ _ _ _) as [x bkp].
  destruct (call_res_stat x w) as (_ & E1 & E2). destruct (call_res C x w) as [w1 q]. cbn [fst] in *. repeat split; assumption.
Qed.
Lemma abs_body_stat kk (s : ist) : row_only C kk (wk_stat (i_w s)) (wk_stat (i_w (abs_body OP A C kk s))).
Proof.
  unfold abs_body. set (w0 := mkwk _ _ _ _ _ _ _ _ _ _ _). change (wk_stat (i_w s)) with (wk_stat w0). clearbody w0.
  set (mbk := copy_arr _ _ _). pose proof (wfr_abs_dir OP A C kk (i_x s) (i_mu s) mbk w0) as H0.
  set (w := abs_dir _ _ _ _ _ _ _ _) in *. clearbody w. destruct (take_step _ _ _ _ _) as [x bkp].
  unfold abs_mu. cbn [i_w put_stat wk_stat]. eapply row_trans; [exact H0|]. apply row_wstat. lia.
Qed.
Lemma abs_body_step kk (s : ist) : exists w : wk, alpha_ok A C (i_x s) w /\ (i_x (abs_body OP A C kk s), i_bkp (abs_body OP A C kk s)) = take_step A C (i_x s) (i_bkp s) w.
Proof.
  unfold abs_body. set (w0 := mkwk _ _ _ _ _ _ _ _ _ _ _). clearbody w0.
  set (mbk := copy_arr _ _ _). pose proof (alpha_abs_dir OP A C kk (i_x s) (i_mu s) mbk w0) as H0.
  set (w := abs_dir _ _ _ _ _ _ _ _) in *. clearbody w. exists w. split; [exact H0|]. destruct (take_step _ _ _ _ _) as [x bkp]. reflexivity.
Qed.

(** *** exit *)
Lemma exit_fact_same kk (s : ist) : let s' := exit_fact OP A C kk s in
  i_x s' = i_x s /\ i_mu s' = i_mu s /\ i_max s' = i_max s /\ wk_res (i_w s') = wk_res (i_w s) /\ wk_ap (i_w s') = wk_ap (i_w s) /\
  wk_ad (i_w s') = wk_ad (i_w s) /\ wk_stat (i_w s') = wk_stat (i_w s) /\ wk_stp (i_w s') = wk_stp (i_w s).
Proof. cbv zeta. unfold exit_fact. destruct (andb _ _); repeat split; reflexivity. Qed.
Lemma finish_same kk (s : ist) : let o := finish OP A C (kk, s) in
  o_x o = i_x s /\ o_iter o = kk /\ o_status o = final_status A kk (wk_ap (i_w s)) (wk_ad (i_w s)) (i_mu s) /\ o_mu o = i_mu s /\ o_max o = i_max s /\
  wk_res (o_w o) = wk_res (i_w s) /\ wk_ap (o_w o) = wk_ap (i_w s) /\ wk_ad (o_w o) = wk_ad (i_w s) /\ wk_stat (o_w o) = wk_stat (i_w s).
Proof.
  cbv zeta. unfold finish. destruct (exit_fact_same kk s) as (E1 & E2 & E3 & E4 & E5 & E6 & E7 & _).
  set (s' := exit_fact OP A C kk s) in *. cbn [o_x o_iter o_status o_mu o_max o_w]. rewrite E1, E2, E3, E4, E5, E6, E7. repeat split; reflexivity.
Qed.
(** the delta form: the returned state is a loop state at which the loop condition is false *)
Definition delta_init (s : ist) : ist :=
  let '(w, q) := call_res C (i_x s) (i_w s) in
  mkist (i_x s) (i_bkp s) (put_stat (wstat_res C (-1) q (wk_res w)) w) (r_mu (wk_res w)) (i_mbk s) q.
Lemma solve_delta_eq (s : ist) : solve_delta OP A C s = finish OP A C (ipm_for (delta_go A C) (delta_body OP A C) (Z.to_nat (ai A iter_max)) 0 (delta_init s)).
Proof. unfold solve_delta, delta_init. destruct (call_res C (i_x s) (i_w s)) as [w q]. reflexivity. Qed.
Lemma delta_init_rep (s : ist) : let s' := delta_init s in reported (i_x s') (i_w s') (i_max s') (i_mu s').
Proof. cbv zeta. unfold delta_init. pose proof (fun f => call_res_rep (i_x s) (i_w s) f) as H. destruct (call_res C (i_x s) (i_w s)) as [w q]. apply H. Qed.
Lemma delta_init_stat (s : ist) : row_only C (-1) (wk_stat (i_w s)) (wk_stat (i_w (delta_init s))).
Proof.
  unfold delta_init. destruct (call_res_stat (i_x s) (i_w s)) as (E & _ & _). destruct (call_res C (i_x s) (i_w s)) as [w q]. cbn [fst] in E.
  cbn [i_w put_stat wk_stat]. rewrite <- E. apply row_wstat_res.
Qed.
Lemma delta_init_x (s : ist) : i_x (delta_init s) = i_x s. Proof. unfold delta_init. destruct (call_res _ _ _). reflexivity. Qed.
Lemma delta_init_al (s : ist) : wk_ap (i_w (delta_init s)) = wk_ap (i_w s) /\ wk_ad (i_w (delta_init s)) = wk_ad (i_w s).
Proof. unfold delta_init. destruct (call_res_stat (i_x s) (i_w s)) as (_ & E1 & E2). destruct (call_res C (i_x s) (i_w s)) as [w q]. split; assumption. Qed.
(** [from_loop]: what holds of the state in which the loop stopped *)
Lemma solve_delta_loop (s : ist) (P : Z -> ist -> Prop) :
  P 0%Z (delta_init s) -> (forall kk (s : ist), (0 <= kk)%Z -> P kk s -> delta_go A C kk s = true -> P (kk + 1)%Z (delta_body OP A C kk s)) ->
  exists kk (s' : ist), solve_delta OP A C s = finish OP A C (kk, s') /\ P kk s' /\ delta_go A C kk s' = false /\ (0 <= kk <= Z.max 0 (ai A iter_max))%Z.
Proof.
  intros H0 HS. rewrite solve_delta_eq.
  pose proof (ipm_for_inv (delta_go A C) (delta_body OP A C) P (Z.to_nat (ai A iter_max)) 0 (delta_init s) H0 HS) as H. cbv zeta in H.
  pose proof (ipm_for_exit (delta_go A C) (delta_body OP A C) (ai A iter_max) (delta_init s) (delta_go_lt A C)) as G. cbv zeta in G.
  destruct (ipm_for _ _ _ _ _) as [kk s']. cbn [fst snd] in *. exists kk, s'. split; [reflexivity|]. split; [apply H|]. split; [exact G|lia].
Qed.
Definition abs_init (s : ist) : ist := let '(w, mu) := abs_mu C (i_x s) (i_w s) in mkist (i_x s) (i_bkp s) w mu (i_mbk s) (i_max s).
Definition abs_exit (kk : Z) (s : ist) : ist :=
  if andb (negb (Z.eqb (ai A comp_res_exit) 0)) (negb (Z.eqb (ai A comp_dual_sol_eq) 0)) then
    let '(w, q) := call_res C (i_x s) (i_w s) in mkist (i_x s) (i_bkp s) (put_stat (wstat_res C (kk - 1) q (wk_res w)) w) (i_mu s) (i_mbk s) q
  else s.
Lemma solve_abs_loop (s : ist) (P : Z -> ist -> Prop) :
  P 0%Z (abs_init s) -> (forall kk (s : ist), (0 <= kk)%Z -> P kk s -> abs_go A kk s = true -> P (kk + 1)%Z (abs_body OP A C kk s)) ->
  exists kk (s' : ist), solve_abs OP A C s = finish OP A C (kk, abs_exit kk s') /\ P kk s' /\ abs_go A kk s' = false /\ (0 <= kk <= Z.max 0 (ai A iter_max))%Z.
Proof.
  intros H0 HS. unfold solve_abs.
  change (let '(w, mu) := abs_mu C (i_x s) (i_w s) in mkist (i_x s) (i_bkp s) w mu (i_mbk s) (i_max s)) with (abs_init s).
  pose proof (ipm_for_inv (abs_go A) (abs_body OP A C) P (Z.to_nat (ai A iter_max)) 0 (abs_init s) H0 HS) as H. cbv zeta in H.
  pose proof (ipm_for_exit (abs_go A) (abs_body OP A C) (ai A iter_max) (abs_init s) (abs_go_lt A)) as G. cbv zeta in G.
  unfold abs_init in H, G. destruct (abs_mu C (i_x s) (i_w s)) as [w mu].
  destruct (ipm_for _ _ _ _ _) as [kk s']. cbn [fst snd] in *. exists kk, s'. split; [unfold abs_exit; destruct (andb _ _); [destruct (call_res _ _ _)|]; reflexivity|]. split; [apply H|]. split; [exact G|lia].
Qed.
Lemma abs_exit_same kk (s : ist) : let s' := abs_exit kk s in i_x s' = i_x s /\ i_mu s' = i_mu s /\ wk_ap (i_w s') = wk_ap (i_w s) /\ wk_ad (i_w s') = wk_ad (i_w s).
Proof.
  cbv zeta. unfold abs_exit. destruct (andb _ _); [|repeat split; reflexivity]. destruct (call_res_stat (i_x s) (i_w s)) as (_ & E1 & E2).
  destruct (call_res C (i_x s) (i_w s)) as [w q]. repeat split; assumption.
Qed.
Lemma abs_exit_stat kk (s : ist) : row_only C (kk - 1) (wk_stat (i_w s)) (wk_stat (i_w (abs_exit kk s))).
Proof.
  unfold abs_exit. destruct (andb _ _); [|apply row_refl]. destruct (call_res_stat (i_x s) (i_w s)) as (E & _ & _).
  destruct (call_res C (i_x s) (i_w s)) as [w q]. cbn [fst] in E. cbn [i_w put_stat wk_stat]. rewrite <- E. apply row_wstat_res.
Qed.
End P.
