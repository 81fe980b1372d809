(** QipmProofs.v -- the QCQP interior point solve as a whole, whatever the arithmetic and the linear algebra do. *)
From Coq Require Import ZArith Bool Arith List Lia.
From Verif Require Import Base ArithF Blas Blas2 QpDataProofs OcpModel ResProofs2 CoreModel CoreProofs ArgModel IpmModel IpmProofs IpmProofs2 QcqpModel QipmModel.

Section P.
Context {F : Type} {AF : Arith F} {K : Type} (OP : kops (F := F) K) (A QA : arg F).
Notation vec := (nat -> F).
Notation qst := (@qst F K). Notation wk := (@wk F K).

Lemma qfor_inv (go : Z -> qst -> bool) body (P : Z -> qst -> Prop) n : forall kk s,
  P kk s -> (forall k s, (kk <= k)%Z -> P k s -> go k s = true -> P (k + 1)%Z (body k s)) ->
  let r := qfor go body n kk s in P (fst r) (snd r) /\ (kk <= fst r <= kk + Z.of_nat n)%Z.
Proof.
  induction n as [|n IH]; intros kk s H0 HS; cbn [qfor].
  - cbn. split; [exact H0|lia].
  - destruct (go kk s) eqn:E; [|cbn; split; [exact H0|lia]].
    destruct (IH (kk + 1)%Z (body kk s)) as [H1 H2].
    + apply HS; [lia|exact H0|exact E].
    + intros k s' Hk. apply HS. lia.
    + cbv zeta. split; [exact H1|lia].
Qed.
Lemma qfor_exit (go : Z -> qst -> bool) body m s : (forall k s, go k s = true -> (k < m)%Z) ->
  let r := qfor go body (Z.to_nat m) 0 s in go (fst r) (snd r) = false.
Proof.
  intros Hgo. cbv zeta.
  assert (G : forall n kk s, (m <= kk + Z.of_nat n)%Z -> let r := qfor go body n kk s in go (fst r) (snd r) = false).
  { induction n as [|n IH]; intros kk s' Hle; cbn [qfor].
    - cbn. destruct (go kk s') eqn:E; [|reflexivity]. apply Hgo in E. lia.
    - destruct (go kk s') eqn:E; [|exact E]. apply IH. lia. }
  apply G. lia.
Qed.
Section Ctx.
Variables (qc : oqcqp F) (C0 : ctx (F := F)).
Let D := qcD qc.
Lemma qdelta_go_lt k (s : qst) : qdelta_go A QA qc C0 k s = true -> (k < ai QA iter_max)%Z.
Proof. unfold qdelta_go. destruct (qs_max s) as [[[a b] c] e]. intros H. apply andb_prop in H. destruct H as [H _]. apply Z.ltb_lt in H. exact H. Qed.
Lemma qabs_go_lt k (s : qst) : qabs_go A QA k s = true -> (k < ai QA iter_max)%Z.
Proof. unfold qabs_go. intros H. apply andb_prop in H. destruct H as [H _]. apply Z.ltb_lt in H. exact H. Qed.

(** what the solver reports is what it computed at its iterate: [lin a x]: the cache and QP in [a] were written by APPROX_QP or UPDATE_QP at x *)
Definition lin_at (x : osol F) (a : aws F) : Prop := exists a0, a = approx_qp qc x a0 \/ a = update_qp qc x a0.
Definition qreported (s : qst) : Prop :=
  (exists r0 rw0, qs_r s = fst (qcres_compute (Some (a_fun (qs_a s), a_adj (qs_a s))) None qc (view D (qs_x s)) r0 rw0)) /\
  qs_max s = qcres_inf_norm (c_dim qc) (c_nq qc) (qs_r s) /\ i_mu (qs_i s) = r_mu (qs_r s) /\ lin_at (view D (qs_x s)) (qs_a s).
Lemma qcall_res_rep (s : qst) : lin_at (view D (qs_x s)) (qs_a s) -> qreported (qcall_res qc s).
Proof.
  intros H. unfold qcall_res. fold D.
  destruct (qcres_compute (Some (a_fun (qs_a s), a_adj (qs_a s))) None qc (view D (qs_x s)) (qs_r s) (qs_rw s)) as [r rw] eqn:E.
  split; [|repeat split; exact H]. exists (qs_r s), (qs_rw s). cbn [qs_r qs_a qs_x]. rewrite E. reflexivity.
Qed.
Lemma qcall_res_same (s : qst) : let s' := qcall_res qc s in qs_x s' = qs_x s /\ qs_a s' = qs_a s /\ i_x (qs_i s') = i_x (qs_i s) /\ i_bkp (qs_i s') = i_bkp (qs_i s) /\
  wk_stat (i_w (qs_i s')) = wk_stat (i_w (qs_i s)) /\ wk_ap (i_w (qs_i s')) = wk_ap (i_w (qs_i s)) /\ wk_ad (i_w (qs_i s')) = wk_ad (i_w (qs_i s)).
Proof. cbv zeta. unfold qcall_res. destruct (qcres_compute _ _ _ _ _ _) as [r rw]. repeat split; reflexivity. Qed.

Definition qdelta_init (s : qst) : qst := let s := qcall_res qc s in qput_stat (wstat_res C0 (-1) (qs_max s) (qs_r s)) s.
Lemma qsolve_delta_loop (s : qst) (P : Z -> qst -> Prop) :
  P 0%Z (qdelta_init s) -> (forall kk (s : qst), (0 <= kk)%Z -> P kk s -> qdelta_go A QA qc C0 kk s = true -> P (kk + 1)%Z (qdelta_body OP A qc C0 kk s)) ->
  exists kk (s' : qst), qsolve_delta OP A QA qc C0 s = qfinish QA (kk, s') /\ P kk s' /\ qdelta_go A QA qc C0 kk s' = false /\ (0 <= kk <= Z.max 0 (ai QA iter_max))%Z.
Proof.
  intros H0 HS. unfold qsolve_delta. change (qput_stat _ (qcall_res qc s)) with (qdelta_init s).
  pose proof (qfor_inv (qdelta_go A QA qc C0) (qdelta_body OP A qc C0) P (Z.to_nat (ai QA iter_max)) 0 (qdelta_init s) H0 HS) as H. cbv zeta in H.
  pose proof (qfor_exit (qdelta_go A QA qc C0) (qdelta_body OP A qc C0) (ai QA iter_max) (qdelta_init s) qdelta_go_lt) as G. cbv zeta in G.
  destruct (qfor _ _ _ _ _) as [kk s']. cbn [fst snd] in *. exists kk, s'. split; [reflexivity|]. split; [apply H|]. split; [exact G|lia].
Qed.
Definition qabs_init (s : qst) : qst :=
  qabs_mu qc C0 (i_x (qs_i s)) (mkqst (qs_i s) (qs_x s) (update_qp_abs qc (view D (qs_x s)) (qs_a s)) (qs_r s) (qs_rw s) (qs_max s)).
Definition qabs_exit (kk : Z) (s : qst) : qst :=
  if andb (negb (Z.eqb (ai A comp_res_exit) 0)) (negb (Z.eqb (ai A comp_dual_sol_eq) 0)) then
    let '(r, rw) := qcres_compute (Some (a_fun (qs_a s), a_adj (qs_a s))) None qc (view D (qs_x s)) (qs_r s) (qs_rw s) in
    let q := qcres_inf_norm (c_dim qc) (c_nq qc) r in
    qput_stat (wstat_res C0 (kk - 1) q r) (mkqst (qs_i s) (qs_x s) (qs_a s) r rw q)
  else s.
Lemma qsolve_abs_loop (s : qst) (P : Z -> qst -> Prop) :
  P 0%Z (qabs_init s) -> (forall kk (s : qst), (0 <= kk)%Z -> P kk s -> qabs_go A QA kk s = true -> P (kk + 1)%Z (qabs_body OP A qc C0 kk s)) ->
  exists kk (s' : qst), qsolve_abs OP A QA qc C0 s = qfinish QA (kk, qabs_exit kk s') /\ P kk s' /\ qabs_go A QA kk s' = false /\ (0 <= kk <= Z.max 0 (ai QA iter_max))%Z.
Proof.
  intros H0 HS. unfold qsolve_abs.
  match goal with |- context [qfor _ _ _ _ ?x] => change x with (qabs_init s) end.
  pose proof (qfor_inv (qabs_go A QA) (qabs_body OP A qc C0) P (Z.to_nat (ai QA iter_max)) 0 (qabs_init s) H0 HS) as H. cbv zeta in H.
  pose proof (qfor_exit (qabs_go A QA) (qabs_body OP A qc C0) (ai QA iter_max) (qabs_init s) qabs_go_lt) as G. cbv zeta in G.
  destruct (qfor _ _ _ _ _) as [kk s']. cbn [fst snd] in *. exists kk, s'. split; [|split; [apply H|split; [exact G|lia]]].
  unfold qabs_exit. reflexivity.
Qed.
Lemma qabs_exit_same kk (s : qst) : let s' := qabs_exit kk s in qs_i s' = qs_i s \/ exists f, qs_i s' = qs_i (qput_stat f s) /\ forall st, row_only C0 (kk - 1) st (f st).
Proof.
  cbv zeta. unfold qabs_exit. destruct (andb _ _); [|left; reflexivity]. destruct (qcres_compute _ _ _ _ _ _) as [r rw]. right. eexists. split; [reflexivity|]. intros st. apply row_wstat_res.
Qed.
Lemma qabs_exit_x kk (s : qst) : qs_x (qabs_exit kk s) = qs_x s.
Proof. unfold qabs_exit. destruct (andb _ _); [|reflexivity]. destruct (qcres_compute _ _ _ _ _ _) as [r rw]. reflexivity. Qed.
Lemma qabs_exit_vals kk (s : qst) : let i' := qs_i (qabs_exit kk s) in i_mu i' = i_mu (qs_i s) /\ wk_ap (i_w i') = wk_ap (i_w (qs_i s)) /\ wk_ad (i_w i') = wk_ad (i_w (qs_i s)).
Proof. cbv zeta. destruct (qabs_exit_same kk s) as [E|(f & E & _)]; rewrite E; repeat split; reflexivity. Qed.
Lemma qabs_exit_stat kk (s : qst) : row_only C0 (kk - 1) (wk_stat (i_w (qs_i s))) (wk_stat (i_w (qs_i (qabs_exit kk s)))).
Proof. destruct (qabs_exit_same kk s) as [E|(f & E & H)]; rewrite E; [apply row_refl|]. apply H. Qed.

(** one pass *)
Lemma qdelta_body_rep kk (s : qst) : qreported (qdelta_body OP A qc C0 kk s).
Proof.
  unfold qdelta_body. set (s1 := qdelta_step OP A qc C0 kk s).
  assert (H : lin_at (view D (qs_x s1)) (qs_a s1)).
  { unfold s1, qdelta_step. destruct (take_step _ _ _ _ _) as [x bkp]. cbn [qs_x qs_a]. fold D. exists (qs_a s). right. reflexivity. }
  clearbody s1. pose proof (qcall_res_rep s1 H) as H1. exact H1.
Qed.
Lemma qdelta_body_step kk (s : qst) : exists w : wk, let C := set_qp C0 (a_qp (qs_a s)) in let s' := qdelta_body OP A qc C0 kk s in
  alpha_ok A C (i_x (qs_i s)) w /\ (i_x (qs_i s'), i_bkp (qs_i s')) = take_step A C (i_x (qs_i s)) (i_bkp (qs_i s)) w /\
  wk_ap (i_w (qs_i s')) = wk_ap w /\ wk_ad (i_w (qs_i s')) = wk_ad w /\
  qs_x s' = (let qx := conv_sol D (i_x (qs_i s')) (qs_x s) in mkvars (va_v qx) (va_pi qx) (VECMUL (tot_c D) (IpmModel.c_mask C0) 0 (va_lam qx) 0 (va_lam qx) 0) (va_t qx)) /\
  qs_a s' = update_qp qc (view D (qs_x s')) (qs_a s) /\
  row_only C0 kk (wk_stat (i_w (qs_i s))) (wk_stat w).
Proof.
  set (C := set_qp C0 (a_qp (qs_a s))).
  set (mbk := copy_arr (tot_c (qcD qc)) (resm C (wk_res (i_w (qs_i s)))) (i_mbk (qs_i s))).
  exists (delta_dir OP A C kk (i_x (qs_i s)) (i_mu (qs_i s)) (i_max (qs_i s)) mbk (i_w (qs_i s))). cbv zeta. fold C.
  pose proof (alpha_delta_dir OP A C kk (i_x (qs_i s)) (i_mu (qs_i s)) (i_max (qs_i s)) mbk (i_w (qs_i s))) as H0.
  pose proof (wfr_delta_dir OP A C kk (i_x (qs_i s)) (i_mu (qs_i s)) (i_max (qs_i s)) mbk (i_w (qs_i s))) as H1.
  split; [exact H0|]. unfold qdelta_body. destruct (qcall_res_same (qdelta_step OP A qc C0 kk s)) as (E1 & E2 & E3 & E4 & E5 & E6 & E7).
  set (s1 := qdelta_step OP A qc C0 kk s) in *. set (s2 := qcall_res qc s1) in *.
  cbn [qput_stat qs_i qs_x qs_a i_x i_bkp i_w put_stat wk_ap wk_ad]. rewrite E1, E2, E3, E4, E6, E7. clear E1 E2 E3 E4 E5 E6 E7 s2.
  unfold s1, qdelta_step. fold C. fold mbk. set (w := delta_dir OP A C kk _ _ _ _ _) in *. destruct (take_step A C (i_x (qs_i s)) (i_bkp (qs_i s)) w) as [x bkp].
  cbn [qs_i i_x i_bkp i_w qs_x qs_a]. repeat split; try reflexivity. exact H1.
Qed.
Lemma qdelta_body_stat kk (s : qst) : row_only C0 kk (wk_stat (i_w (qs_i s))) (wk_stat (i_w (qs_i (qdelta_body OP A qc C0 kk s)))).
Proof.
  unfold qdelta_body. destruct (qcall_res_same (qdelta_step OP A qc C0 kk s)) as (_ & _ & _ & _ & E5 & _).
  set (s2 := qcall_res qc _) in *. cbn [qput_stat qs_i i_w put_stat wk_stat]. rewrite E5. eapply row_trans; [|apply row_wstat_res]. eapply row_trans; [|apply row_wstat; lia].
  unfold qdelta_step. set (C := set_qp C0 _). set (mbk := copy_arr _ _ _). pose proof (wfr_delta_dir OP A C kk (i_x (qs_i s)) (i_mu (qs_i s)) (i_max (qs_i s)) mbk (i_w (qs_i s))) as H0.
  set (w := delta_dir _ _ _ _ _ _ _ _ _) in *. destruct (take_step _ _ _ _ _) as [x bkp]. exact H0.
Qed.
Lemma qabs_body_step kk (s : qst) : exists w : wk, let C := set_qp C0 (a_qp (qs_a s)) in let s' := qabs_body OP A qc C0 kk s in
  alpha_ok A C (i_x (qs_i s)) w /\ (i_x (qs_i s'), i_bkp (qs_i s')) = take_step A C (i_x (qs_i s)) (i_bkp (qs_i s)) w /\
  qs_x s' = conv_sol D (i_x (qs_i s')) (qs_x s) /\ qs_a s' = update_qp_abs qc (view D (qs_x s')) (qs_a s).
Proof.
  unfold qabs_body. set (C := set_qp C0 (a_qp (qs_a s))). set (w0 := mkwk _ _ _ _ _ _ _ _ _ _ _). clearbody w0.
  set (mbk := copy_arr _ _ _). pose proof (alpha_abs_dir OP A C kk (i_x (qs_i s)) (i_mu (qs_i s)) mbk w0) as H0.
  set (w := abs_dir _ _ _ _ _ _ _ _) in *. clearbody w. exists w. cbv zeta. split; [exact H0|]. destruct (take_step _ _ _ _ _) as [x bkp]. repeat split; reflexivity.
Qed.
Lemma qabs_body_stat kk (s : qst) : row_only C0 kk (wk_stat (i_w (qs_i s))) (wk_stat (i_w (qs_i (qabs_body OP A qc C0 kk s)))).
Proof.
  unfold qabs_body. set (C := set_qp C0 (a_qp (qs_a s))). set (w0 := mkwk _ _ _ _ _ _ _ _ _ _ _). change (wk_stat (i_w (qs_i s))) with (wk_stat w0). clearbody w0.
  set (mbk := copy_arr _ _ _). pose proof (wfr_abs_dir OP A C kk (i_x (qs_i s)) (i_mu (qs_i s)) mbk w0) as H0.
  set (w := abs_dir _ _ _ _ _ _ _ _) in *. clearbody w. destruct (take_step _ _ _ _ _) as [x bkp].
  cbn [qput_stat qabs_mu qs_i i_w put_stat wk_stat]. eapply row_trans; [exact H0|]. apply row_wstat. lia.
Qed.
Lemma qdelta_init_stat (s : qst) : row_only C0 (-1) (wk_stat (i_w (qs_i s))) (wk_stat (i_w (qs_i (qdelta_init s)))).
Proof.
  unfold qdelta_init. destruct (qcall_res_same s) as (_ & _ & _ & _ & E & _). cbv zeta. cbn [qput_stat qs_i i_w put_stat wk_stat]. rewrite E. apply row_wstat_res.
Qed.
Lemma qdelta_init_same (s : qst) : let s' := qdelta_init s in qs_x s' = qs_x s /\ qs_a s' = qs_a s /\ i_x (qs_i s') = i_x (qs_i s) /\ 
  wk_ap (i_w (qs_i s')) = wk_ap (i_w (qs_i s)) /\ wk_ad (i_w (qs_i s')) = wk_ad (i_w (qs_i s)).
Proof. cbv zeta. unfold qdelta_init. destruct (qcall_res_same s) as (E1 & E2 & E3 & _ & _ & E6 & E7). repeat split; assumption. Qed.
End Ctx.

(** *** dimensions and masks of the approximating QP *)
Lemma update_qp_const qc x n (a : aws F) : let a' := loop n (update_stage qc x) a in q_dim (a_qp a') = q_dim (a_qp a) /\ q_mask (a_qp a') = q_mask (a_qp a).
Proof.
  cbv zeta. apply (loop_ind (fun _ a' => q_dim (a_qp a') = q_dim (a_qp a) /\ q_mask (a_qp a') = q_mask (a_qp a))); [split; reflexivity|].
  intros k a' _ [E1 E2]. unfold update_stage. destruct (approx_loop _ _ _ _ _ _ _ _ _ _) as [[[[[[H C] d] adj] fn] x0] x1]. cbn [a_qp q_dim q_mask]. split; assumption.
Qed.
Lemma update_abs_const qc x n (a : aws F) : let a' := loop n (abs_stage qc x) a in q_dim (a_qp a') = q_dim (a_qp a) /\ q_mask (a_qp a') = q_mask (a_qp a).
Proof.
  cbv zeta. apply (loop_ind (fun _ a' => q_dim (a_qp a') = q_dim (a_qp a) /\ q_mask (a_qp a') = q_mask (a_qp a))); [split; reflexivity|].
  intros k a' _ [E1 E2]. unfold abs_stage. destruct (abs_loop _ _ _ _ _ _ _ _ _ _) as [[[[[[H C] d] adj] fn] x0] x1]. cbn [a_qp q_dim q_mask]. split; assumption.
Qed.
Lemma approx_qp_mask qc x (a : aws F) : let qp := a_qp (approx_qp qc x a) in q_dim qp = q_dim (a_qp a) /\
  forall i c, (i <= dN (c_dim qc))%nat -> (c < nct (qcD qc) i)%nat -> q_mask qp i c = QcqpModel.c_mask qc i c.
Proof.
  cbv zeta. unfold approx_qp.
  assert (H1 : forall n, let qp := a_qp (loop n (approx_stage qc x) a) in q_dim qp = q_dim (a_qp a) /\
     forall i c, (i < n)%nat -> (c < nct (qcD qc) i)%nat -> q_mask qp i c = QcqpModel.c_mask qc i c).
  { intros n. cbv zeta. apply (loop_ind (fun n a' => q_dim (a_qp a') = q_dim (a_qp a) /\ forall i c, (i < n)%nat -> (c < nct (qcD qc) i)%nat -> q_mask (a_qp a') i c = QcqpModel.c_mask qc i c)).
    - split; [reflexivity|intros; lia].
    - intros k a' _ [E1 E2]. unfold approx_stage.
      assert (U' : q_dim (a_qp (update_stage qc x k a')) = q_dim (a_qp a') /\ q_mask (a_qp (update_stage qc x k a')) = q_mask (a_qp a')).
      { unfold update_stage. destruct (approx_loop _ _ _ _ _ _ _ _ _ _) as [[[[[[H C] d] adj] fn] x0] x1]. split; reflexivity. }
      destruct U' as [U1 U2]. set (u := update_stage qc x k a') in *. cbn [a_qp q_dim q_mask]. split; [congruence|].
      intros i c Hi Hc. destruct (Nat.eq_dec i k) as [->|Hn].
      + rewrite upd_same. unfold VECCP. rewrite vset0_in; [reflexivity|]. unfold OcpModel.nct, qcD, qp_dims in Hc. cbn [dnb dng dns] in Hc.  lia.
      + rewrite upd_other by exact Hn. rewrite U2. apply E2; [lia|exact Hc]. }
  set (b := loop (dN (c_dim qc) + 1) (approx_stage qc x) a) in *.
  assert (H2 : forall n, let qp := a_qp (loop n (approx_dyn qc) b) in q_dim qp = q_dim (a_qp b) /\ q_mask qp = q_mask (a_qp b)).
  { intros n. cbv zeta. apply (loop_ind (fun n a' => q_dim (a_qp a') = q_dim (a_qp b) /\ q_mask (a_qp a') = q_mask (a_qp b))); [split; reflexivity|]. intros k a' _ [E1 E2]. split; assumption. }
  destruct (H2 (dN (c_dim qc))) as [E1 E2]. destruct (H1 (dN (c_dim qc) + 1)%nat) as [E3 E4]. cbv zeta in *. fold b in E3, E4. split; [congruence|].
  intros i c Hi Hc. rewrite E2. apply E4; [lia|exact Hc].
Qed.
End P.
