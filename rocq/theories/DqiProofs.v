(** DqiProofs.v -- the dense QCQP interior point solve as a whole, whatever the arithmetic and the linear algebra do. *)
From Coq Require Import ZArith Bool Arith List Lia.
From Verif Require Import Base ArithF Blas Blas2 QpDataProofs OcpModel ResProofs2 CoreModel CoreProofs ArgModel DenModel QcqpModel DqcModel DqlModel DenIpmModel DenIpmProofs DenIpmProofs2 DqiModel.

Section P.
Context {F : Type} {AF : Arith F} {K : Type} (OP : dkops (F := F) K) (A QA : arg F).
Notation vec := (nat -> F).
Notation dqst := (@dqst F K). Notation wk := (@wk F K).

Lemma dqfor_inv (go : Z -> dqst -> bool) body (P : Z -> dqst -> Prop) n : forall kk s,
  P kk s -> (forall k s, (kk <= k)%Z -> P k s -> go k s = true -> P (k + 1)%Z (body k s)) ->
  let r := dqi_for go body n kk s in P (fst r) (snd r) /\ (kk <= fst r <= kk + Z.of_nat n)%Z.
Proof.
  induction n as [|n IH]; intros kk s H0 HS; cbn [dqi_for].
  - cbn. split; [exact H0|lia].
  - destruct (go kk s) eqn:E; [|cbn; split; [exact H0|lia]].
    destruct (IH (kk + 1)%Z (body kk s)) as [H1 H2].
    + apply HS; [lia|exact H0|exact E].
    + intros k s' Hk. apply HS. lia.
    + cbv zeta. split; [exact H1|lia].
Qed.
Lemma dqfor_exit (go : Z -> dqst -> bool) body m s : (forall k s, go k s = true -> (k < m)%Z) ->
  let r := dqi_for go body (Z.to_nat m) 0 s in go (fst r) (snd r) = false.
Proof.
  intros Hgo. cbv zeta.
  assert (G : forall n kk s, (m <= kk + Z.of_nat n)%Z -> let r := dqi_for go body n kk s in go (fst r) (snd r) = false).
  { induction n as [|n IH]; intros kk s' Hle; cbn [dqi_for].
    - cbn. destruct (go kk s') eqn:E; [|reflexivity]. apply Hgo in E. lia.
    - destruct (go kk s') eqn:E; [|exact E]. apply IH. lia. }
  apply G. lia.
Qed.
Section Ctx.
Variables (qc : dqcqp F) (C0 : ctx (F := F)).
Lemma dqdelta_go_lt k (s : dqst) : dqi_go A QA qc C0 k s = true -> (k < ai QA iter_max)%Z.
Proof. unfold dqi_go. destruct (y_max s) as [[[a b] c] e]. intros H. apply andb_prop in H. destruct H as [H _]. apply Z.ltb_lt in H. exact H. Qed.
Lemma dqabs_go_lt k (s : dqst) : dqi_absgo A QA k s = true -> (k < ai QA iter_max)%Z.
Proof. unfold dqi_absgo. intros H. apply andb_prop in H. destruct H as [H _]. apply Z.ltb_lt in H. exact H. Qed.

(** what the solver reports is what it computed at its iterate: [lin a x]: the cache and QP in [a] were written by APPROX_QP or UPDATE_QP at x *)
Definition dlin_at (x : dsol F) (a : daws F) : Prop := exists a0, a = dqc_approx_qp qc x a0 \/ a = dqc_update_qp qc x a0.
Definition dqreported (s : dqst) : Prop :=
  (exists r0 rw0, y_r s = fst (dqc_res_compute (Some (da_fun (y_a s), da_adj (y_a s))) None qc (view (y_x s)) r0 rw0)) /\
  y_max s = dqc_inf_norm qc (y_r s) /\ i_mu (y_i s) = dr_mu (y_r s) /\ dlin_at (view (y_x s)) (y_a s).
Lemma dqcall_res_rep (s : dqst) : dlin_at (view (y_x s)) (y_a s) -> dqreported (dqi_res qc s).
Proof.
  intros H. unfold dqi_res.
  destruct (dqc_res_compute (Some (da_fun (y_a s), da_adj (y_a s))) None qc (view (y_x s)) (y_r s) (y_rw s)) as [r rw] eqn:E.
  split; [|repeat split; exact H]. exists (y_r s), (y_rw s). cbn [y_r y_a y_x]. rewrite E. reflexivity.
Qed.
Lemma dqcall_res_same (s : dqst) : let s' := dqi_res qc s in y_x s' = y_x s /\ y_a s' = y_a s /\ i_x (y_i s') = i_x (y_i s) /\ i_bkp (y_i s') = i_bkp (y_i s) /\
  wk_stat (i_w (y_i s')) = wk_stat (i_w (y_i s)) /\ wk_ap (i_w (y_i s')) = wk_ap (i_w (y_i s)) /\ wk_ad (i_w (y_i s')) = wk_ad (i_w (y_i s)).
Proof. cbv zeta. unfold dqi_res. destruct (dqc_res_compute _ _ _ _ _ _) as [r rw]. repeat split; reflexivity. Qed.

Definition dqdelta_init (s : dqst) : dqst := let s := dqi_res qc s in dqi_put (wstat_res C0 (-1) (y_max s) (y_r s)) s.
Lemma dqsolve_delta_loop (s : dqst) (P : Z -> dqst -> Prop) :
  P 0%Z (dqdelta_init s) -> (forall kk (s : dqst), (0 <= kk)%Z -> P kk s -> dqi_go A QA qc C0 kk s = true -> P (kk + 1)%Z (dqi_body OP A qc C0 kk s)) ->
  exists kk (s' : dqst), dqi_delta OP A QA qc C0 s = dqi_finish QA (kk, s') /\ P kk s' /\ dqi_go A QA qc C0 kk s' = false /\ (0 <= kk <= Z.max 0 (ai QA iter_max))%Z.
Proof.
  intros H0 HS. unfold dqi_delta. change (dqi_put _ (dqi_res qc s)) with (dqdelta_init s).
  pose proof (dqfor_inv (dqi_go A QA qc C0) (dqi_body OP A qc C0) P (Z.to_nat (ai QA iter_max)) 0 (dqdelta_init s) H0 HS) as H. cbv zeta in H.
  pose proof (dqfor_exit (dqi_go A QA qc C0) (dqi_body OP A qc C0) (ai QA iter_max) (dqdelta_init s) dqdelta_go_lt) as G. cbv zeta in G.
  destruct (dqi_for _ _ _ _ _) as [kk s']. cbn [fst snd] in *. exists kk, s'. split; [reflexivity|]. split; [apply H|]. split; [exact G|lia].
Qed.
Definition dqabs_init (s : dqst) : dqst :=
  dqi_absmu qc (i_x (y_i s)) (mkdqst (y_i s) (y_x s) (dqc_update_qp_abs qc (view (y_x s)) (y_a s)) (y_r s) (y_rw s) (y_max s)).
Definition dqabs_exit (kk : Z) (s : dqst) : dqst :=
  if negb (Z.eqb (ai A comp_res_exit) 0) then
    let '(r, rw) := dqc_res_compute (Some (da_fun (y_a s), da_adj (y_a s))) None qc (view (y_x s)) (y_r s) (y_rw s) in
    let q := dqc_inf_norm qc r in
    dqi_put (wstat_res C0 (kk - 1) q r) (mkdqst (y_i s) (y_x s) (y_a s) r rw q)
  else s.
Lemma dqsolve_abs_loop (s : dqst) (P : Z -> dqst -> Prop) :
  P 0%Z (dqabs_init s) -> (forall kk (s : dqst), (0 <= kk)%Z -> P kk s -> dqi_absgo A QA kk s = true -> P (kk + 1)%Z (dqi_absbody OP A qc C0 kk s)) ->
  exists kk (s' : dqst), dqi_abs OP A QA qc C0 s = dqi_finish QA (kk, dqabs_exit kk s') /\ P kk s' /\ dqi_absgo A QA kk s' = false /\ (0 <= kk <= Z.max 0 (ai QA iter_max))%Z.
Proof.
  intros H0 HS. unfold dqi_abs.
  match goal with |- context [dqi_for _ _ _ _ ?x] => change x with (dqabs_init s) end.
  pose proof (dqfor_inv (dqi_absgo A QA) (dqi_absbody OP A qc C0) P (Z.to_nat (ai QA iter_max)) 0 (dqabs_init s) H0 HS) as H. cbv zeta in H.
  pose proof (dqfor_exit (dqi_absgo A QA) (dqi_absbody OP A qc C0) (ai QA iter_max) (dqabs_init s) dqabs_go_lt) as G. cbv zeta in G.
  destruct (dqi_for _ _ _ _ _) as [kk s']. cbn [fst snd] in *. exists kk, s'. split; [|split; [apply H|split; [exact G|lia]]].
  unfold dqabs_exit. reflexivity.
Qed.
Lemma dqabs_exit_same kk (s : dqst) : let s' := dqabs_exit kk s in y_i s' = y_i s \/ exists f, y_i s' = y_i (dqi_put f s) /\ forall st, row_only C0 (kk - 1) st (f st).
Proof.
  cbv zeta. unfold dqabs_exit. destruct (negb _); [|left; reflexivity]. destruct (dqc_res_compute _ _ _ _ _ _) as [r rw]. right. eexists. split; [reflexivity|]. intros st. apply row_wstat_res.
Qed.
Lemma dqabs_exit_x kk (s : dqst) : y_x (dqabs_exit kk s) = y_x s.
Proof. unfold dqabs_exit. destruct (negb _); [|reflexivity]. destruct (dqc_res_compute _ _ _ _ _ _) as [r rw]. reflexivity. Qed.
Lemma dqabs_exit_vals kk (s : dqst) : let i' := y_i (dqabs_exit kk s) in i_mu i' = i_mu (y_i s) /\ wk_ap (i_w i') = wk_ap (i_w (y_i s)) /\ wk_ad (i_w i') = wk_ad (i_w (y_i s)).
Proof. cbv zeta. destruct (dqabs_exit_same kk s) as [E|(f & E & _)]; rewrite E; repeat split; reflexivity. Qed.
Lemma dqabs_exit_stat kk (s : dqst) : row_only C0 (kk - 1) (wk_stat (i_w (y_i s))) (wk_stat (i_w (y_i (dqabs_exit kk s)))).
Proof. destruct (dqabs_exit_same kk s) as [E|(f & E & H)]; rewrite E; [apply row_refl|]. apply H. Qed.

(** one pass *)
Lemma dqdelta_body_rep kk (s : dqst) : dqreported (dqi_body OP A qc C0 kk s).
Proof.
  unfold dqi_body. set (s1 := dqi_step OP A qc C0 kk s).
  assert (H : dlin_at (view (y_x s1)) (y_a s1)).
  { unfold s1, dqi_step. destruct (take_step _ _ _ _ _) as [x bkp]. cbn [y_x y_a]. exists (y_a s). right. reflexivity. }
  clearbody s1. pose proof (dqcall_res_rep s1 H) as H1. exact H1.
Qed.
Lemma dqdelta_body_step kk (s : dqst) : exists w : wk, let C := dqi_setqp C0 (da_qp (y_a s)) in let s' := dqi_body OP A qc C0 kk s in
  alpha_ok A C (i_x (y_i s)) w /\ (i_x (y_i s'), i_bkp (y_i s')) = take_step A C (i_x (y_i s)) (i_bkp (y_i s)) w /\
  wk_ap (i_w (y_i s')) = wk_ap w /\ wk_ad (i_w (y_i s')) = wk_ad w /\
  y_x s' = (let qx := dqi_conv qc (i_x (y_i s')) (y_x s) in mkvars (va_v qx) (va_pi qx) (VECMUL (dqi_nc qc) (c_mask C0) 0 (va_lam qx) 0 (va_lam qx) 0) (va_t qx)) /\
  y_a s' = dqc_update_qp qc (view (y_x s')) (y_a s) /\
  row_only C0 kk (wk_stat (i_w (y_i s))) (wk_stat w).
Proof.
  set (C := dqi_setqp C0 (da_qp (y_a s))).
  set (mbk := copy_arr (dqi_nc qc) (resm (wk_res (i_w (y_i s)))) (i_mbk (y_i s))).
  exists (delta_dir OP A C kk (i_x (y_i s)) (i_mu (y_i s)) (i_max (y_i s)) mbk (i_w (y_i s))). cbv zeta. fold C.
  pose proof (alpha_delta_dir OP A C kk (i_x (y_i s)) (i_mu (y_i s)) (i_max (y_i s)) mbk (i_w (y_i s))) as H0.
  pose proof (wfr_delta_dir OP A C kk (i_x (y_i s)) (i_mu (y_i s)) (i_max (y_i s)) mbk (i_w (y_i s))) as H1.
  split; [exact H0|]. unfold dqi_body. destruct (dqcall_res_same (dqi_step OP A qc C0 kk s)) as (E1 & E2 & E3 & E4 & E5 & E6 & E7).
  set (s1 := dqi_step OP A qc C0 kk s) in *. set (s2 := dqi_res qc s1) in *.
  cbn [dqi_put y_i y_x y_a i_x i_bkp i_w put_stat wk_ap wk_ad]. rewrite E1, E2, E3, E4, E6, E7. clear E1 E2 E3 E4 E5 E6 E7 s2.
  unfold s1, dqi_step. fold C. fold mbk. set (w := delta_dir OP A C kk _ _ _ _ _) in *. destruct (take_step A C (i_x (y_i s)) (i_bkp (y_i s)) w) as [x bkp].
  cbn [y_i i_x i_bkp i_w y_x y_a]. repeat split; try reflexivity. exact H1.
Qed.
Lemma dqdelta_body_stat kk (s : dqst) : row_only C0 kk (wk_stat (i_w (y_i s))) (wk_stat (i_w (y_i (dqi_body OP A qc C0 kk s)))).
Proof.
  unfold dqi_body. destruct (dqcall_res_same (dqi_step OP A qc C0 kk s)) as (_ & _ & _ & _ & E5 & _).
  set (s2 := dqi_res qc _) in *. cbn [dqi_put y_i i_w put_stat wk_stat]. rewrite E5. eapply row_trans; [|apply row_wstat_res]. eapply row_trans; [|apply row_wstat; lia].
  unfold dqi_step. set (C := dqi_setqp C0 _). set (mbk := copy_arr _ _ _). pose proof (wfr_delta_dir OP A C kk (i_x (y_i s)) (i_mu (y_i s)) (i_max (y_i s)) mbk (i_w (y_i s))) as H0.
  set (w := delta_dir _ _ _ _ _ _ _ _ _) in *. destruct (take_step _ _ _ _ _) as [x bkp]. exact H0.
Qed.
Lemma dqabs_body_step kk (s : dqst) : exists w : wk, let C := dqi_setqp C0 (da_qp (y_a s)) in let s' := dqi_absbody OP A qc C0 kk s in
  alpha_ok A C (i_x (y_i s)) w /\ (i_x (y_i s'), i_bkp (y_i s')) = take_step A C (i_x (y_i s)) (i_bkp (y_i s)) w /\
  y_x s' = dqi_conv qc (i_x (y_i s')) (y_x s) /\ y_a s' = dqc_update_qp_abs qc (view (y_x s')) (y_a s).
Proof.
  unfold dqi_absbody. set (C := dqi_setqp C0 (da_qp (y_a s))). set (w0 := mkwk _ _ _ _ _ _ _ _ _ _ _). clearbody w0.
  set (mbk := copy_arr _ _ _). pose proof (alpha_abs_dir OP A C kk (i_x (y_i s)) (i_mu (y_i s)) mbk w0) as H0.
  set (w := abs_dir _ _ _ _ _ _ _ _) in *. clearbody w. exists w. cbv zeta. split; [exact H0|]. destruct (take_step _ _ _ _ _) as [x bkp]. repeat split; reflexivity.
Qed.
Lemma dqabs_body_stat kk (s : dqst) : row_only C0 kk (wk_stat (i_w (y_i s))) (wk_stat (i_w (y_i (dqi_absbody OP A qc C0 kk s)))).
Proof.
  unfold dqi_absbody. set (C := dqi_setqp C0 (da_qp (y_a s))). set (w0 := mkwk _ _ _ _ _ _ _ _ _ _ _). change (wk_stat (i_w (y_i s))) with (wk_stat w0). clearbody w0.
  set (mbk := copy_arr _ _ _). pose proof (wfr_abs_dir OP A C kk (i_x (y_i s)) (i_mu (y_i s)) mbk w0) as H0.
  set (w := abs_dir _ _ _ _ _ _ _ _) in *. clearbody w. destruct (take_step _ _ _ _ _) as [x bkp].
  cbn [dqi_put dqi_absmu y_i i_w put_stat wk_stat]. eapply row_trans; [exact H0|]. apply row_wstat. lia.
Qed.
Lemma dqdelta_init_stat (s : dqst) : row_only C0 (-1) (wk_stat (i_w (y_i s))) (wk_stat (i_w (y_i (dqdelta_init s)))).
Proof.
  unfold dqdelta_init. destruct (dqcall_res_same s) as (_ & _ & _ & _ & E & _). cbv zeta. cbn [dqi_put y_i i_w put_stat wk_stat]. rewrite E. apply row_wstat_res.
Qed.
Lemma dqdelta_init_same (s : dqst) : let s' := dqdelta_init s in y_x s' = y_x s /\ y_a s' = y_a s /\ i_x (y_i s') = i_x (y_i s) /\ 
  wk_ap (i_w (y_i s')) = wk_ap (i_w (y_i s)) /\ wk_ad (i_w (y_i s')) = wk_ad (i_w (y_i s)).
Proof. cbv zeta. unfold dqdelta_init. destruct (dqcall_res_same s) as (E1 & E2 & E3 & _ & _ & E6 & E7). repeat split; assumption. Qed.
End Ctx.

End P.
