(** TipmProofs2.v -- the tree solve as a whole (adapted from IpmProofs2.v). *)
From Coq Require Import ZArith Bool Arith List Lia.
From Verif Require Import Base ArithF Blas Blas2 OcpModel ResProofs2 CoreModel CoreProofs ArgModel IpmModel IpmProofs IpmProofs2 TreeModel TipmModel TipmProofs.

Section P.
Context {F : Type} {AF : Arith F} {K : Type} (OP : kops (F := F) K) (A : arg F) (T : ttree).
Notation vec := (nat -> F).
Notation ist := (@ist F K). Notation wk := (@wk F K).

Variable C : ctx (F := F).
Let D := q_dim (c_qp C).

(** the residual object of the workspace is the residual of the iterate *)
Definition treported (x : vars F) (w : wk) (q : F * F * F * F) (mu : F) : Prop :=
  (exists r0 rw0, wk_res w = fst (tree_res_compute (valid_of C) T (c_qp C) (view D x) r0 rw0)) /\ q = tree_inf_norm D (wk_res w) /\ mu = r_mu (wk_res w).
Lemma tcall_res_rep x (w : wk) f : let '(w1, q) := tcall_res T C x w in treported x (put_stat f w1) q (r_mu (wk_res w1)).
Proof.
  unfold tcall_res. destruct (tree_res_compute (valid_of C) T (c_qp C) (view (q_dim (c_qp C)) x) (wk_res w) (wk_rw w)) as [r rw] eqn:E.
  split; [|split; reflexivity]. exists (wk_res w), (wk_rw w). unfold D. rewrite E. reflexivity.
Qed.
Lemma tcall_res_stat x (w : wk) : wk_stat (fst (tcall_res T C x w)) = wk_stat w /\ wk_ap (fst (tcall_res T C x w)) = wk_ap w /\ wk_ad (fst (tcall_res T C x w)) = wk_ad w.
Proof. unfold tcall_res. destruct (tree_res_compute _ _ _ _ _ _) as [r rw]. repeat split; reflexivity. Qed.

Lemma tdelta_body_rep kk (s : ist) : let s' := tdelta_body OP A T C kk s in treported (i_x s') (i_w s') (i_max s') (i_mu s').
Proof.
  cbv zeta. unfold tdelta_body. set (mbk := copy_arr _ _ _). set (w := tdelta_dir _ _ _ _ _ _ _ _ _ _). clearbody w. destruct (take_step _ _ _ _ _) as [x bkp].
  pose proof (fun f => tcall_res_rep x w f) as H. destruct (tcall_res T C x w) as [w1 q]. apply H.
Qed.
Lemma tdelta_body_stat kk (s : ist) : trow_only C kk (wk_stat (i_w s)) (wk_stat (i_w (tdelta_body OP A T C kk s))).
Proof.
  unfold tdelta_body. set (mbk := copy_arr _ _ _). pose proof (twfr_delta_dir OP A T C kk (i_x s) (i_mu s) (i_max s) mbk (i_w s)) as H0.
  set (w := tdelta_dir _ _ _ _ _ _ _ _ _ _) in *. clearbody w. destruct (take_step _ _ _ _ _) as [x bkp].
  destruct (tcall_res_stat x w) as (E & _ & _). destruct (tcall_res T C x w) as [w1 q]. cbn [fst] in E.
  cbn [i_w put_stat wk_stat]. eapply trow_trans; [exact H0|]. rewrite E.
  eapply trow_trans; [apply trow_wstat|apply trow_wstat_res]. lia.
Qed.
(** iterate, step and step lengths of one pass *)
Lemma tdelta_body_step kk (s : ist) : exists w : wk, alpha_ok A C (i_x s) w /\ (i_x (tdelta_body OP A T C kk s), i_bkp (tdelta_body OP A T C kk s)) = take_step A C (i_x s) (i_bkp s) w /\
  wk_ap (i_w (tdelta_body OP A T C kk s)) = wk_ap w /\ wk_ad (i_w (tdelta_body OP A T C kk s)) = wk_ad w.
Proof.
  unfold tdelta_body. set (mbk := copy_arr _ _ _). pose proof (talpha_delta_dir OP A T C kk (i_x s) (i_mu s) (i_max s) mbk (i_w s)) as H0.
  set (w := tdelta_dir _ _ _ _ _ _ _ _ _ _) in *. clearbody w. exists w. split; [exact H0|]. destruct (take_step _ _ _ _ _) as [x bkp].
  destruct (tcall_res_stat x w) as (_ & E1 & E2). destruct (tcall_res T C x w) as [w1 q]. cbn [fst] in *. repeat split; assumption.
Qed.
Lemma tabs_body_stat kk (s : ist) : trow_only C kk (wk_stat (i_w s)) (wk_stat (i_w (tabs_body OP A C kk s))).
Proof.
  unfold tabs_body. set (w0 := mkwk _ _ _ _ _ _ _ _ _ _ _). change (wk_stat (i_w s)) with (wk_stat w0). clearbody w0.
  set (mbk := copy_arr _ _ _). pose proof (twfr_abs_dir OP A C kk (i_x s) (i_mu s) mbk w0) as H0.
  set (w := tabs_dir _ _ _ _ _ _ _ _) in *. clearbody w. destruct (take_step _ _ _ _ _) as [x bkp].
  unfold abs_mu. cbn [i_w put_stat wk_stat]. eapply trow_trans; [exact H0|]. apply trow_wstat. lia.
Qed.
Lemma tabs_body_step kk (s : ist) : exists w : wk, alpha_ok A C (i_x s) w /\ (i_x (tabs_body OP A C kk s), i_bkp (tabs_body OP A C kk s)) = take_step A C (i_x s) (i_bkp s) w.
Proof.
  unfold tabs_body. set (w0 := mkwk _ _ _ _ _ _ _ _ _ _ _). clearbody w0.
  set (mbk := copy_arr _ _ _). pose proof (talpha_abs_dir OP A C kk (i_x s) (i_mu s) mbk w0) as H0.
  set (w := tabs_dir _ _ _ _ _ _ _ _) in *. clearbody w. exists w. split; [exact H0|]. destruct (take_step _ _ _ _ _) as [x bkp]. reflexivity.
Qed.

(** *** exit *)
Lemma tfinish_same kk (s : ist) : let o := tfinish A (kk, s) in
  o_x o = i_x s /\ o_iter o = kk /\ o_status o = final_status A kk (wk_ap (i_w s)) (wk_ad (i_w s)) (i_mu s) /\ o_mu o = i_mu s /\ o_max o = i_max s /\
  wk_res (o_w o) = wk_res (i_w s) /\ wk_ap (o_w o) = wk_ap (i_w s) /\ wk_ad (o_w o) = wk_ad (i_w s) /\ wk_stat (o_w o) = wk_stat (i_w s).
Proof. repeat split; reflexivity. Qed.
(** the delta form: the returned state is a loop state at which the loop condition is false *)
Definition tdelta_init (s : ist) : ist :=
  let '(w, q) := tcall_res T C (i_x s) (i_w s) in
  mkist (i_x s) (i_bkp s) (put_stat (twstat_res C (-1) q (wk_res w)) w) (r_mu (wk_res w)) (i_mbk s) q.
Lemma tsolve_delta_eq (s : ist) : tsolve_delta OP A T C s = tfinish A (ipm_for (delta_go A C) (tdelta_body OP A T C) (Z.to_nat (ai A iter_max)) 0 (tdelta_init s)).
Proof. unfold tsolve_delta, tdelta_init. destruct (tcall_res T C (i_x s) (i_w s)) as [w q]. reflexivity. Qed.
Lemma tdelta_init_rep (s : ist) : let s' := tdelta_init s in treported (i_x s') (i_w s') (i_max s') (i_mu s').
Proof. cbv zeta. unfold tdelta_init. pose proof (fun f => tcall_res_rep (i_x s) (i_w s) f) as H. destruct (tcall_res T C (i_x s) (i_w s)) as [w q]. apply H. Qed.
Lemma tdelta_init_stat (s : ist) : trow_only C (-1) (wk_stat (i_w s)) (wk_stat (i_w (tdelta_init s))).
Proof.
  unfold tdelta_init. destruct (tcall_res_stat (i_x s) (i_w s)) as (E & _ & _). destruct (tcall_res T C (i_x s) (i_w s)) as [w q]. cbn [fst] in E.
  cbn [i_w put_stat wk_stat]. rewrite <- E. apply trow_wstat_res.
Qed.
Lemma tdelta_init_x (s : ist) : i_x (tdelta_init s) = i_x s. Proof. unfold tdelta_init. destruct (tcall_res _ _ _ _). reflexivity. Qed.
Lemma tdelta_init_al (s : ist) : wk_ap (i_w (tdelta_init s)) = wk_ap (i_w s) /\ wk_ad (i_w (tdelta_init s)) = wk_ad (i_w s).
Proof. unfold tdelta_init. destruct (tcall_res_stat (i_x s) (i_w s)) as (_ & E1 & E2). destruct (tcall_res T C (i_x s) (i_w s)) as [w q]. split; assumption. Qed.
(** [from_loop]: what holds of the state in which the loop stopped *)
Lemma tsolve_delta_loop (s : ist) (P : Z -> ist -> Prop) :
  P 0%Z (tdelta_init s) -> (forall kk (s : ist), (0 <= kk)%Z -> P kk s -> delta_go A C kk s = true -> P (kk + 1)%Z (tdelta_body OP A T C kk s)) ->
  exists kk (s' : ist), tsolve_delta OP A T C s = tfinish A (kk, s') /\ P kk s' /\ delta_go A C kk s' = false /\ (0 <= kk <= Z.max 0 (ai A iter_max))%Z.
Proof.
  intros H0 HS. rewrite tsolve_delta_eq.
  pose proof (ipm_for_inv (delta_go A C) (tdelta_body OP A T C) P (Z.to_nat (ai A iter_max)) 0 (tdelta_init s) H0 HS) as H. cbv zeta in H.
  pose proof (ipm_for_exit (delta_go A C) (tdelta_body OP A T C) (ai A iter_max) (tdelta_init s) (delta_go_lt A C)) as G. cbv zeta in G.
  destruct (ipm_for _ _ _ _ _) as [kk s']. cbn [fst snd] in *. exists kk, s'. split; [reflexivity|]. split; [apply H|]. split; [exact G|lia].
Qed.
Definition abs_init (s : ist) : ist := let '(w, mu) := abs_mu C (i_x s) (i_w s) in mkist (i_x s) (i_bkp s) w mu (i_mbk s) (i_max s).
Definition tabs_exit (kk : Z) (s : ist) : ist :=
  if andb (negb (Z.eqb (ai A comp_res_exit) 0)) (negb (Z.eqb (ai A comp_dual_sol_eq) 0)) then
    let '(w, q) := tcall_res T C (i_x s) (i_w s) in mkist (i_x s) (i_bkp s) (put_stat (twstat_res C (kk - 1) q (wk_res w)) w) (i_mu s) (i_mbk s) q
  else s.
Lemma tsolve_abs_loop (s : ist) (P : Z -> ist -> Prop) :
  P 0%Z (abs_init s) -> (forall kk (s : ist), (0 <= kk)%Z -> P kk s -> abs_go A kk s = true -> P (kk + 1)%Z (tabs_body OP A C kk s)) ->
  exists kk (s' : ist), tsolve_abs OP A T C s = tfinish A (kk, tabs_exit kk s') /\ P kk s' /\ abs_go A kk s' = false /\ (0 <= kk <= Z.max 0 (ai A iter_max))%Z.
Proof.
  intros H0 HS. unfold tsolve_abs.
  change (let '(w, mu) := abs_mu C (i_x s) (i_w s) in mkist (i_x s) (i_bkp s) w mu (i_mbk s) (i_max s)) with (abs_init s).
  pose proof (ipm_for_inv (abs_go A) (tabs_body OP A C) P (Z.to_nat (ai A iter_max)) 0 (abs_init s) H0 HS) as H. cbv zeta in H.
  pose proof (ipm_for_exit (abs_go A) (tabs_body OP A C) (ai A iter_max) (abs_init s) (abs_go_lt A)) as G. cbv zeta in G.
  unfold abs_init in H, G. destruct (abs_mu C (i_x s) (i_w s)) as [w mu].
  destruct (ipm_for _ _ _ _ _) as [kk s']. cbn [fst snd] in *. exists kk, s'. split; [unfold tabs_exit; destruct (andb _ _); [destruct (tcall_res _ _ _ _)|]; reflexivity|]. split; [apply H|]. split; [exact G|lia].
Qed.
Lemma tabs_exit_same kk (s : ist) : let s' := tabs_exit kk s in i_x s' = i_x s /\ i_mu s' = i_mu s /\ wk_ap (i_w s') = wk_ap (i_w s) /\ wk_ad (i_w s') = wk_ad (i_w s).
Proof.
  cbv zeta. unfold tabs_exit. destruct (andb _ _); [|repeat split; reflexivity]. destruct (tcall_res_stat (i_x s) (i_w s)) as (_ & E1 & E2).
  destruct (tcall_res T C (i_x s) (i_w s)) as [w q]. repeat split; assumption.
Qed.
Lemma tabs_exit_stat kk (s : ist) : trow_only C (kk - 1) (wk_stat (i_w s)) (wk_stat (i_w (tabs_exit kk s))).
Proof.
  unfold tabs_exit. destruct (andb _ _); [|apply trow_refl]. destruct (tcall_res_stat (i_x s) (i_w s)) as (E & _ & _).
  destruct (tcall_res T C (i_x s) (i_w s)) as [w q]. cbn [fst] in E. cbn [i_w put_stat wk_stat]. rewrite <- E. apply trow_wstat_res.
Qed.
End P.
