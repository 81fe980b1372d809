(** UncProofs.v -- OCP_QP_FACT_SOLVE_KKT_UNCONSTR over the real numbers. *)
From Coq Require Import ZArith Bool Arith Lia Reals Lra.
From Verif Require Import Base ArithF RSum Blas Blas2 CoreModel CoreProofs OcpModel ResSpec KktSpec ResProofs CholProofs CholPD KktModel KktProofs KktProofs2 KktProofs3 KktProofs4 KktProofs7 UncModel.
Local Open Scope R_scope.

Section Unc.
Variables (qp : oqp R) (reg : R).
(** the same QP with the inequality constraints removed *)
Definition strip_dims (D : dims) : dims := mkdims (dN D) (dnx D) (dnu D) (fun _ => 0%nat) (fun _ => 0%nat) (fun _ => 0%nat).
Definition strip : oqp R := mkqp (strip_dims (q_dim qp)) (q_BAbt qp) (q_RSQ qp) (q_DCt qp) (q_b qp) (q_rqz qp) (q_d qp) (q_mask qp) (q_m qp) (q_Z qp) (q_idxb qp) (q_idxs_rev qp).
Notation q0 := strip.
Notation D := (q_dim qp).
Notation N := (dN D).
Notation z0 := (fun (_ _ : nat) => 0).
Notation FRq := (FR q0 0 z0 z0).

Lemma stH0 rho ss i j : stH q0 0 z0 rho ss i j = symL (q_RSQ qp ss) i j + if (i =? j)%nat then rho i else 0.
Proof. unfold stH. cbn [strip q_dim strip_dims dnb dng rsum Nat.add q_RSQ]. lra. Qed.
Lemma sth0 ss j : sth q0 0 z0 z0 ss j = q_rqz qp ss j.
Proof. unfold sth. cbn [strip q_dim strip_dims dnb dng rsum Nat.add q_rqz]. lra. Qed.

Definition RSQok (RSQ : nat -> rmat) : Prop := forall ss i j, (ss <= N)%nat -> (i < nux qp ss)%nat -> (j < nux qp ss)%nat -> RSQ ss i j = q_RSQ qp ss i j.

(** the regularised Hessian with the gradient row *)
Lemma M_R RSQ ss n0 r (HR : RSQok RSQ) : (ss <= N)%nat -> (n0 <= nux qp ss)%nat -> let n := nux qp ss in let M := DIARE n0 r (ROWIN n f1 (q_rqz qp ss) 0 (RSQ ss) n 0) 0 0 in
  (forall i j, (i < n)%nat -> (j < n)%nat -> M i j = q_RSQ qp ss i j + if (i =? j)%nat then (if (i <? n0)%nat then r else 0) else 0) /\
  (forall j, (j < n)%nat -> M n j = q_rqz qp ss j) /\
  (forall i j, (i < n)%nat -> (j < n)%nat -> DIARE n0 (- r) M 0 0 i j = q_RSQ qp ss i j).
Proof.
  intros Hss Hn0. cbv zeta. set (n := nux qp ss) in *.
  assert (A : forall i j, (i < n)%nat -> (j < n)%nat -> ROWIN n f1 (q_rqz qp ss) 0 (RSQ ss) n 0 i j = q_RSQ qp ss i j).
  { intros i j Hi Hj. unfold ROWIN. rewrite mblk_o by lia. apply HR; assumption. }
  assert (B : forall j, (j < n)%nat -> ROWIN n f1 (q_rqz qp ss) 0 (RSQ ss) n 0 n j = q_rqz qp ss j).
  { intros j Hj. unfold ROWIN. rewrite mblk_i by lia. rewrite Nat.sub_0_r. cbn [Nat.add]. rsimp. rewrite R_lit11. lra. }
  assert (C : forall i j, (i < n)%nat -> (j < n)%nat -> DIARE n0 r (ROWIN n f1 (q_rqz qp ss) 0 (RSQ ss) n 0) 0 0 i j = q_RSQ qp ss i j + if (i =? j)%nat then (if (i <? n0)%nat then r else 0) else 0).
  { intros i j Hi Hj. rewrite DIARE_R, A by assumption. cbn [Nat.leb Nat.add]. rewrite !andb_true_r. destruct (i =? j)%nat; cbn [andb]; [|lra]. destruct (i <? n0)%nat; lra. }
  split; [exact C|split].
  - intros j Hj. rewrite DIARE_R, B by assumption. destruct (Nat.eqb_spec n j); [lia|]. cbn [andb]. lra.
  - intros i j Hi Hj. rewrite DIARE_R, C by assumption. cbn [Nat.leb Nat.add]. rewrite !andb_true_r. destruct (i =? j)%nat; cbn [andb]; [|lra]. destruct (i <? n0)%nat; rsimp; lra.
Qed.

Definition ufr (ss : nat) (s s' : ust) : Prop :=
  (forall t, t <> ss -> k_L (snd s') t = k_L (snd s) t /\ k_P (snd s') t = k_P (snd s) t /\ k_dA (snd s') t = k_dA (snd s) t) /\
  (BAok q0 (snd s) -> BAok q0 (snd s')) /\ (RSQok (fst s) -> RSQok (fst s')).
Lemma RSQ_upd RSQ ss M : RSQok RSQ -> (forall i j, (i < nux qp ss)%nat -> (j < nux qp ss)%nat -> M i j = q_RSQ qp ss i j) -> RSQok (upd RSQ ss M).
Proof. intros H HM t i j Ht Hi Hj. destruct (Nat.eq_dec t ss) as [-> | Hne]; [rewrite upd_same; apply HM; assumption|rewrite upd_other by assumption; apply H; assumption]. Qed.
Lemma BA_upd w ss : (forall t i j, (i < nux qp t)%nat -> upd (k_BAbt w) ss (ROWIN (dnx D (S ss)) f1 (q_b qp ss) 0 (k_BAbt w ss) (nux qp ss) 0) t i j = k_BAbt w t i j).
Proof. intros t i j Hi. apply (upd_BA qp). exact Hi. Qed.

(** value functions *)
Definition VP sq (w : kws R) ss : rmat := if (sq : bool) then VPs (k_L w ss) (dnu D ss) (dnx D ss) else k_P w ss.
Definition Vp sq (w : kws R) ss : rvec := if (sq : bool) then vps (k_L w ss) (dnu D ss) (dnx D ss) else k_P w ss (dnx D ss).
(** regularisation *)
Definition urho sq ss : rvec := fun i => if (sq : bool) then reg else if (i <? dnu D ss)%nat then reg else 0.

(** sqrt *)
Lemma unc_sqrt_last_G s s' P p : RSQok (fst s) -> unc_sqrt_last reg qp s = s' ->
  ufr N s s' /\ (singular (nux qp N) (k_dA (snd s') N) = false -> FRq (urho true N) P p N (nux qp N) (k_L (snd s') N) z0 (fun _ => 0)) /\
  (PD (nux qp N) (stH q0 0 z0 (urho true N) N) -> singular (nux qp N) (k_dA (snd s') N) = false).
Proof.
  destruct s as [RSQ w]. cbn [fst snd]. intros HR H. unfold unc_sqrt_last in H. fold (nux qp N) in H.
  destruct (M_R RSQ N (nux qp N) reg HR (le_n _) (le_n _)) as (M1 & M2 & M3). set (M := DIARE (nux qp N) reg _ 0 0) in *. clearbody M.
  assert (C1 : forall i j, (j <= i < nux q0 N)%nat -> M i j = stH q0 0 z0 (urho true N) N i j + stX q0 P N i j).
  { change (nux q0 N) with (nux qp N). intros i j Hij. rewrite M1, stH0 by lia. unfold stX. change (dN (q_dim q0)) with N. rewrite Nat.ltb_irrefl. unfold symL, urho. destruct (Nat.leb_spec j i); [|lia]. destruct (Nat.ltb_spec i (nux qp N)); [|lia]. lra. }
  assert (C2 : forall j, (j < nux q0 N)%nat -> M (nux q0 N) j = sth q0 0 z0 z0 N j + stx q0 P p N j).
  { change (nux q0 N) with (nux qp N). intros j Hj. rewrite M2, sth0 by lia. unfold stx. change (dN (q_dim q0)) with N. rewrite Nat.ltb_irrefl. lra. }
  destruct (POTRF_L_MN _ _ _ _ _ _ _ _ _) as [L dA] eqn:E. subst s'. cbn [fst snd k_L k_dA k_P k_BAbt]. rewrite !upd_same.
  split; [|split].
  - split; [intros t Ht; cbn [snd k_L k_dA k_P]; rewrite !upd_other by exact Ht; auto|]. split; [intros HB; exact HB|]. intros _. cbn [fst]. apply RSQ_upd; assumption.
  - intros Hs. eapply (FR_last_any q0 0 z0 z0 (urho true N) z0 p P p).
    eapply (FR_full q0 0 z0 z0 (urho true N) z0 p N M); [reflexivity| | |exact E|exact Hs].
    + intros i j Hij. rewrite C1 by exact Hij. unfold stX. change (dN (q_dim q0)) with N. rewrite Nat.ltb_irrefl. reflexivity.
    + intros j Hj. rewrite C2 by exact Hj. unfold stx. change (dN (q_dim q0)) with N. rewrite Nat.ltb_irrefl. reflexivity.
  - intros HPD. eapply (chol_pd q0 0 z0 (urho true N) z0 N (nux qp N) M); [apply le_n|reflexivity| |exact E|].
    + intros i j Hij. rewrite C1 by exact Hij. unfold stX. change (dN (q_dim q0)) with N. rewrite Nat.ltb_irrefl. reflexivity.
    + eapply PD_ext; [|exact HPD]. intros i j _ _. cbv beta. unfold stX. change (dN (q_dim q0)) with N. rewrite Nat.ltb_irrefl. lra.
Qed.

Lemma unc_sqrt_mid_G ss s s' : (ss < N)%nat -> RSQok (fst s) -> BAok q0 (snd s) -> unc_sqrt_mid reg qp ss s = s' ->
  let P := VP true (snd s) (S ss) in let p := Vp true (snd s) (S ss) in
  ufr ss s s' /\ (singular (nux qp ss) (k_dA (snd s') ss) = false -> FRq (urho true ss) P p ss (nux qp ss) (k_L (snd s') ss) z0 (fun _ => 0)) /\
  (PD (nux qp ss) (fun i j => stH q0 0 z0 (urho true ss) ss i j + stX q0 P ss i j) -> singular (nux qp ss) (k_dA (snd s') ss) = false).
Proof.
  destruct s as [RSQ w]. cbn [fst snd]. intros Hss HR HBA H. unfold unc_sqrt_mid in H. rewrite (Nat.add_1_r ss) in H. fold (nux qp ss) in H. cbv zeta. unfold VP, Vp.
  set (L1 := k_L w (S ss)) in *. set (nu1 := dnu D (S ss)) in *. set (nx1 := dnx D (S ss)) in *.
  destruct (M_R RSQ ss (nux qp ss) reg HR ltac:(lia) (le_n _)) as (M1 & M2 & M3). set (M := DIARE (nux qp ss) reg _ 0 0) in *. clearbody M.
  set (n := nux qp ss) in *.
  set (BA := ROWIN nx1 f1 (q_b qp ss) 0 (k_BAbt w ss) n 0) in *.
  assert (HB1 : forall i l, (i < n)%nat -> (l < nx1)%nat -> BA i l = q_BAbt qp ss i l).
  { intros i l Hi Hl. unfold BA, ROWIN. rewrite mblk_o by lia. apply HBA; assumption. }
  assert (HB2 : forall l, (l < nx1)%nat -> BA n l = q_b qp ss l).
  { intros l Hl. unfold BA, ROWIN. rewrite mblk_i by lia. cbn [Nat.add]. rewrite Nat.sub_0_r. rsimp. rewrite R_lit11. lra. }
  assert (HBU : forall t i j, (i < nux qp t)%nat -> upd (k_BAbt w) ss BA t i j = k_BAbt w t i j) by (intros; apply BA_upd; assumption).
  set (A0 := TRMM_RLNN _ _ _ _ _ _ _ _ _ _ _ _) in *.
  set (A1 := GEAD 1 nx1 f1 L1 (nu1 + nx1) nu1 A0 n 0) in *.
  assert (H0 : forall i l, (i <= n)%nat -> (l < nx1)%nat -> A0 i l = rsum nx1 (fun k => BA i k * lt L1 (nu1 + k) (nu1 + l))).
  { intros i l Hi Hl. unfold A0, TRMM_RLNN. rewrite mblk_i by lia. rewrite !Nat.sub_0_r, fsum_R. cbn [Nat.add]. rsimp. rewrite R_lit11, Rmult_1_l.
    rewrite <- (rsum_high nx1 l (fun k => BA i k * L1 (nu1 + k)%nat (nu1 + l)%nat)) by lia. apply rsum_ext. intros k Hk. unfold lt.
    destruct (Nat.leb_spec l k), (Nat.leb_spec (nu1 + l) (nu1 + k)); try lia; lra. }
  assert (H1 : forall i l, (i < n)%nat -> (l < nx1)%nat -> A1 i l = rsum nx1 (fun k => q_BAbt qp ss i k * lt L1 (nu1 + k) (nu1 + l))).
  { intros i l Hi Hl. unfold A1, GEAD. rewrite mblk_o by lia. rewrite H0 by lia. apply rsum_ext. intros k Hk. rewrite HB1 by assumption. reflexivity. }
  assert (H2 : forall l, (l < nx1)%nat -> A1 n l = rsum nx1 (fun k => q_b qp ss k * lt L1 (nu1 + k) (nu1 + l)) + L1 (nu1 + nx1)%nat (nu1 + l)%nat).
  { intros l Hl. unfold A1, GEAD. rewrite mblk_i by lia. replace (n + (n - n))%nat with n by lia. replace (nu1 + nx1 + (n - n))%nat with (nu1 + nx1)%nat by lia. rewrite !Nat.sub_0_r. cbn [Nat.add].
    rewrite H0 by lia. rsimp. rewrite R_lit11, Rmult_1_l. f_equal. apply rsum_ext. intros k Hk. rewrite HB2 by assumption. reflexivity. }
  clearbody A1. clear H0. clearbody BA.
  set (P := VPs L1 nu1 nx1). set (p := vps L1 nu1 nx1).
  assert (Q1 : forall i j, (i < n)%nat -> (j < n)%nat -> rsum nx1 (fun l => A1 i l * A1 j l) = stX q0 P ss i j).
  { intros i j Hi Hj. unfold stX. change (dN (q_dim q0)) with N. apply Nat.ltb_lt in Hss. rewrite Hss. change (dnx (q_dim q0) (S ss)) with nx1.
    rewrite (rsum_ext nx1 _ (fun l => rsum nx1 (fun k => q_BAbt qp ss i k * lt L1 (nu1 + k) (nu1 + l)) * rsum nx1 (fun m => q_BAbt qp ss j m * lt L1 (nu1 + m) (nu1 + l)))).
    2:{ intros l Hl. rewrite !H1 by assumption. reflexivity. }
    exact (quad_factor nx1 nx1 (q_BAbt qp ss i) (q_BAbt qp ss j) (fun k l => lt L1 (nu1 + k) (nu1 + l))). }
  assert (Q2 : forall j, (j < n)%nat -> rsum nx1 (fun l => A1 n l * A1 j l) = stx q0 P p ss j).
  { intros j Hj. unfold stx. change (dN (q_dim q0)) with N. apply Nat.ltb_lt in Hss. rewrite Hss. change (dnx (q_dim q0) (S ss)) with nx1.
    rewrite (rsum_ext nx1 _ (fun l => rsum nx1 (fun k => q_b qp ss k * lt L1 (nu1 + k) (nu1 + l)) * rsum nx1 (fun m => q_BAbt qp ss j m * lt L1 (nu1 + m) (nu1 + l)) + L1 (nu1 + nx1)%nat (nu1 + l)%nat * rsum nx1 (fun m => q_BAbt qp ss j m * lt L1 (nu1 + m) (nu1 + l)))).
    2:{ intros l Hl. rewrite H2, (H1 j) by assumption. lra. }
    rewrite rsum_add. rewrite (quad_factor nx1 nx1 (q_b qp ss) (q_BAbt qp ss j) (fun k l => lt L1 (nu1 + k) (nu1 + l))).
    rewrite (rsum_ext nx1 (fun l => L1 _ _ * _) (fun l => rsum nx1 (fun m => q_BAbt qp ss j m * (L1 (nu1 + nx1)%nat (nu1 + l)%nat * lt L1 (nu1 + m) (nu1 + l))))).
    2:{ intros l _. rewrite <- rsum_scal. apply rsum_ext. intros; lra. }
    rewrite (rsum_swap nx1 nx1 (fun l m => q_BAbt qp ss j m * (L1 (nu1 + nx1)%nat (nu1 + l)%nat * lt L1 (nu1 + m) (nu1 + l)))).
    rewrite rsum_swap. rewrite <- rsum_add. apply rsum_ext. intros m Hm. rewrite rsum_scal. fold (vps L1 nu1 nx1 m). fold p. cbn [strip q_BAbt].
    rewrite Rmult_plus_distr_l. f_equal. rewrite <- rsum_scal. apply rsum_ext. intros k Hk. unfold P. rewrite (VPs_sym L1 nu1 nx1 m k). unfold VPs. cbv beta. cbn [strip q_b]. ring. }
  unfold SYRK_POTRF_LN_MN in H. set (C := SYRK_LN_MN _ _ _ _ _ _ _ _ _ _ _ _ _ _ _ _ _) in H.
  assert (C1 : forall i j, (j <= i < nux q0 ss)%nat -> C i j = stH q0 0 z0 (urho true ss) ss i j + stX q0 P ss i j).
  { change (nux q0 ss) with n. intros i j Hij. unfold C. rewrite SYRK_R by lia. cbn [Nat.add]. rsimp. rewrite R_lit11, !Rmult_1_l, Q1 by lia. f_equal.
    rewrite M1, stH0 by lia. unfold symL, urho. destruct (Nat.leb_spec j i); [|lia]. destruct (Nat.ltb_spec i n); [|lia]. reflexivity. }
  assert (C2 : forall j, (j < nux q0 ss)%nat -> C (nux q0 ss) j = sth q0 0 z0 z0 ss j + stx q0 P p ss j).
  { change (nux q0 ss) with n. intros j Hj. unfold C. rewrite SYRK_R by lia. cbn [Nat.add]. rsimp. rewrite R_lit11, !Rmult_1_l, Q2 by lia. f_equal. rewrite M2, sth0 by lia. reflexivity. }
  clearbody C.
  destruct (POTRF_L_MN _ _ _ _ _ _ _ _ _) as [L dA] eqn:E. subst s'. cbn [fst snd k_L k_dA k_P k_BAbt]. rewrite !upd_same.
  split; [|split].
  - split; [intros t Ht; cbn [snd k_L k_dA k_P]; rewrite !upd_other by exact Ht; auto|]. split.
    + intros HB t i j Ht Hi Hj. cbn [snd k_BAbt]. rewrite HBU by exact Hi. apply HB; assumption.
    + intros _. cbn [fst]. apply RSQ_upd; assumption.
  - intros Hs. eapply (FR_full q0 0 z0 z0 (urho true ss) P p ss C); [|exact C1|exact C2|exact E|exact Hs]. intros. apply VPs_sym.
  - intros HPD. eapply (chol_pd q0 0 z0 (urho true ss) P ss (nux q0 ss) C); [apply le_n|intros; apply VPs_sym|exact C1|exact E|exact HPD].
Qed.

(** classical: the value function stored in P *)
Lemma P_of_R (C : rmat) nu nx (L Ls P : rmat) : let Ls' := GECP (nx + 1) nu L nu 0 Ls 0 0 in
  let P' := TRTR_L nx (SYRK_LN_MN (nx + 1) nx nu (- f1)%F Ls' 0 0 Ls' 0 0 f1 C nu nu P 0 0) 0 0 (SYRK_LN_MN (nx + 1) nx nu (- f1)%F Ls' 0 0 Ls' 0 0 f1 C nu nu P 0 0) 0 0 in
  (forall l m, (l < nx)%nat -> (m < nx)%nat -> P' l m = symL C (nu + l) (nu + m) - rsum nu (fun k => L (nu + l)%nat k * L (nu + m)%nat k)) /\
  (forall m, (m < nx)%nat -> P' nx m = C (nu + nx)%nat (nu + m)%nat - rsum nu (fun k => L (nu + nx)%nat k * L (nu + m)%nat k)).
Proof.
  cbv zeta. set (Ls' := GECP _ _ _ _ _ _ _ _).
  assert (E : forall l k, (l <= nx)%nat -> (k < nu)%nat -> Ls' l k = L (nu + l)%nat k).
  { intros l k Hl Hk. unfold Ls', GECP. rewrite mblk_i by lia. rewrite !Nat.sub_0_r. reflexivity. }
  clearbody Ls'. set (P1 := SYRK_LN_MN _ _ _ _ _ _ _ _ _ _ _ _ _ _ _ _ _).
  assert (E1 : forall r c, (r <= nx)%nat -> (c < nx)%nat -> (c <= r)%nat -> P1 r c = C (nu + r)%nat (nu + c)%nat - rsum nu (fun k => L (nu + r)%nat k * L (nu + c)%nat k)).
  { intros r c Hr Hc Hrc. unfold P1. rewrite SYRK_R by lia. cbn [Nat.add]. rsimp. rewrite R_lit11.
    rewrite (rsum_ext nu (fun l => Ls' r l * Ls' c l) (fun k => L (nu + r)%nat k * L (nu + c)%nat k)); [lra|]. intros k Hk. rewrite !E by lia. reflexivity. }
  clearbody P1. unfold TRTR_L. split.
  - intros l m Hl Hm. rewrite mupd_at. rewrite !Nat.sub_0_r. cbn [Nat.add]. destruct (Nat.ltb_spec l nx); [|lia]. destruct (Nat.ltb_spec m nx); [|lia]. cbn [andb Nat.leb].
    unfold symL. destruct (Nat.leb_spec l m); destruct (Nat.leb_spec (nu + m) (nu + l)); try lia.
    + assert (m = l) as -> by lia. apply E1; lia.
    + rewrite E1 by lia. f_equal. apply rsum_ext. intros; lra.
    + apply E1; lia.
  - intros m Hm. rewrite mupd_out by lia. apply E1; lia.
Qed.
Lemma P_of_sym (C L P' : rmat) nu nx : (forall l m, (l < nx)%nat -> (m < nx)%nat -> P' l m = symL C (nu + l) (nu + m) - rsum nu (fun k => L (nu + l)%nat k * L (nu + m)%nat k)) -> Psym P' nx.
Proof.
  intros P1 l m Hl Hm. rewrite !P1 by assumption. f_equal; [|apply rsum_ext; intros; lra].
  unfold symL. destruct (Nat.leb_spec (nu + m) (nu + l)), (Nat.leb_spec (nu + l) (nu + m)); try reflexivity; try lia. replace m with l by lia. reflexivity.
Qed.

Lemma ucls_tail P p ss (C C' : rmat) D0 dA L0 dA' (P' : rmat) : (forall l m, (l < dnx D (S ss))%nat -> (m < dnx D (S ss))%nat -> P l m = P m l) ->
  (forall i j, (j <= i < nux qp ss)%nat -> C i j = stH q0 0 z0 (urho false ss) ss i j + stX q0 P ss i j) ->
  (forall j, (j < nux qp ss)%nat -> C (nux qp ss) j = sth q0 0 z0 z0 ss j + stx q0 P p ss j) ->
  POTRF_L_MN (nux qp ss + 1) (dnu D ss) C 0 0 D0 0 0 dA = (L0, dA') ->
  (forall i j, (dnu D ss <= i <= nux qp ss)%nat -> (dnu D ss <= j < nux qp ss)%nat -> (j <= i)%nat -> C' i j = C i j) ->
  (forall l m, (l < dnx D ss)%nat -> (m < dnx D ss)%nat -> P' l m = symL C' (dnu D ss + l) (dnu D ss + m) - rsum (dnu D ss) (fun k => L0 (dnu D ss + l)%nat k * L0 (dnu D ss + m)%nat k)) ->
  (forall m, (m < dnx D ss)%nat -> P' (dnx D ss) m = C' (dnu D ss + dnx D ss)%nat (dnu D ss + m)%nat - rsum (dnu D ss) (fun k => L0 (dnu D ss + dnx D ss)%nat k * L0 (dnu D ss + m)%nat k)) ->
  singular (dnu D ss) dA' = false -> FRq (urho false ss) P p ss (dnu D ss) L0 (embQ (dnu D ss) P') (embq (dnu D ss) (P' (dnx D ss))).
Proof.
  intros HP HC Hc E EC P1 P2 Hs. assert (En : nux qp ss = (dnu D ss + dnx D ss)%nat) by reflexivity.
  pose proof (FR_of_chol q0 0 z0 z0 (urho false ss) P p ss (dnu D ss) C D0 dA ltac:(change (nux q0 ss) with (nux qp ss); lia) HP HC Hc) as H. change (nux q0 ss) with (nux qp ss) in H. rewrite E in H. destruct (H Hs) as (HF & Hfr).
  eapply FR_ext; [exact HF| |]; change (nux q0 ss) with (nux qp ss).
  - intros i j Hi Hj. cbv beta. unfold embQ. destruct (Nat.ltb_spec i (dnu D ss)); [reflexivity|]. destruct (Nat.ltb_spec j (dnu D ss)); [reflexivity|]. cbn [orb].
    rewrite P1 by lia. replace (dnu D ss + (i - dnu D ss))%nat with i by lia. replace (dnu D ss + (j - dnu D ss))%nat with j by lia. f_equal.
    unfold symL. destruct (Nat.leb_spec j i); symmetry; apply EC; lia.
  - intros i Hi. cbv beta. unfold embq. destruct (Nat.ltb_spec i (dnu D ss)); [reflexivity|]. rewrite P2 by lia. replace (dnu D ss + (i - dnu D ss))%nat with i by lia. rewrite <- En. f_equal. symmetry. apply EC; lia.
Qed.

Lemma unc_cls_last_G s s' P p : RSQok (fst s) -> unc_cls_last reg qp s = s' ->
  ufr N s s' /\ Psym (k_P (snd s') N) (dnx D N) /\
  (singular (dnu D N) (k_dA (snd s') N) = false -> FRq (urho false N) P p N (dnu D N) (k_L (snd s') N) (embQ (dnu D N) (k_P (snd s') N)) (embq (dnu D N) (k_P (snd s') N (dnx D N)))) /\
  (PD (dnu D N) (stH q0 0 z0 (urho false N) N) -> singular (dnu D N) (k_dA (snd s') N) = false).
Proof.
  destruct s as [RSQ w]. cbn [fst snd]. intros HR H. unfold unc_cls_last in H. fold (nux qp N) in H.
  destruct (M_R RSQ N (dnu D N) reg HR (le_n _) ltac:(unfold nux; lia)) as (M1 & M2 & M3). set (M := DIARE (dnu D N) reg _ 0 0) in *. clearbody M.
  assert (M4 : forall j, (j < nux qp N)%nat -> DIARE (dnu D N) (- reg)%F M 0 0 (nux qp N) j = M (nux qp N) j).
  { intros j Hj. rewrite DIARE_R. destruct (Nat.eqb_spec (nux qp N) j); [lia|]. cbn [andb]. lra. }
  change (- reg) with (- reg)%F in M3. set (M' := DIARE (dnu D N) (- reg)%F M 0 0) in *. clearbody M'.
  assert (C1 : forall i j, (j <= i < nux qp N)%nat -> M i j = stH q0 0 z0 (urho false N) N i j + stX q0 z0 N i j).
  { intros i j Hij. rewrite M1, stH0 by lia. unfold stX. change (dN (q_dim q0)) with N. rewrite Nat.ltb_irrefl. unfold symL, urho. destruct (Nat.leb_spec j i); [|lia]. lra. }
  assert (C2 : forall j, (j < nux qp N)%nat -> M (nux qp N) j = sth q0 0 z0 z0 N j + stx q0 z0 p N j).
  { intros j Hj. rewrite M2, sth0 by lia. unfold stx. change (dN (q_dim q0)) with N. rewrite Nat.ltb_irrefl. lra. }
  destruct (POTRF_L_MN _ _ _ _ _ _ _ _ _) as [L dA] eqn:E. subst s'. cbn [fst snd k_L k_dA k_P k_BAbt]. rewrite !upd_same.
  destruct (P_of_R M' (dnu D N) (dnx D N) L (k_Ls w) (k_P w N)) as (P1 & P2). set (P' := TRTR_L _ _ _ _ _ _ _) in *. clearbody P'.
  split; [|split; [|split]].
  - split; [intros t Ht; cbn [snd k_L k_dA k_P]; rewrite !upd_other by exact Ht; auto|]. split; [intros HB; exact HB|]. intros _. cbn [fst]. apply RSQ_upd; assumption.
  - eapply P_of_sym; exact P1.
  - intros Hs. eapply (FR_last_any q0 0 z0 z0 (urho false N) z0 p P p). eapply (ucls_tail z0 p N M M'); try eassumption; [reflexivity|].
    intros i j Hi Hj Hij. assert (En : nux qp N = (dnu D N + dnx D N)%nat) by reflexivity. destruct (Nat.eq_dec i (nux qp N)) as [-> | Hne]; [apply M4; lia|]. rewrite M3, M1 by lia.
    destruct (Nat.ltb_spec i (dnu D N)); [lia|]. destruct (i =? j)%nat; lra.
  - intros HPD. eapply (chol_pd q0 0 z0 (urho false N) z0 N (dnu D N) M); [change (nux q0 N) with (nux qp N); unfold nux; lia|reflexivity|exact C1|exact E|].
    eapply PD_ext; [|exact HPD]. intros i j _ _. cbv beta. unfold stX. change (dN (q_dim q0)) with N. rewrite Nat.ltb_irrefl. lra.
Qed.

Lemma unc_cls_mid_G full ss s s' : (ss < N)%nat -> RSQok (fst s) -> BAok q0 (snd s) -> Psym (k_P (snd s) (S ss)) (dnx D (S ss)) -> unc_cls_mid full reg qp ss s = s' ->
  let P := k_P (snd s) (S ss) in let p := P (dnx D (S ss)) in
  ufr ss s s' /\
  (full = false -> Psym (k_P (snd s') ss) (dnx D ss) /\
    (singular (dnu D ss) (k_dA (snd s') ss) = false -> FRq (urho false ss) P p ss (dnu D ss) (k_L (snd s') ss) (embQ (dnu D ss) (k_P (snd s') ss)) (embq (dnu D ss) (k_P (snd s') ss (dnx D ss)))) /\
    (PD (dnu D ss) (fun i j => stH q0 0 z0 (urho false ss) ss i j + stX q0 P ss i j) -> singular (dnu D ss) (k_dA (snd s') ss) = false)) /\
  (full = true -> 
    (singular (nux qp ss) (k_dA (snd s') ss) = false -> FRq (urho false ss) P p ss (nux qp ss) (k_L (snd s') ss) z0 (fun _ => 0)) /\
    (PD (nux qp ss) (fun i j => stH q0 0 z0 (urho false ss) ss i j + stX q0 P ss i j) -> singular (nux qp ss) (k_dA (snd s') ss) = false)).
Proof.
  destruct s as [RSQ w]. cbn [fst snd]. intros Hss HR HBA HPs H. unfold unc_cls_mid in H. rewrite (Nat.add_1_r ss) in H. fold (nux qp ss) in H. cbv zeta.
  set (P := k_P w (S ss)) in *. set (nx1 := dnx D (S ss)) in *. set (p := P nx1).
  destruct (M_R RSQ ss (dnu D ss) reg HR ltac:(lia) ltac:(unfold nux; lia)) as (M1 & M2 & M3). set (M := DIARE (dnu D ss) reg _ 0 0) in *. clearbody M.
  set (n := nux qp ss) in *.
  set (BA := ROWIN nx1 f1 (q_b qp ss) 0 (k_BAbt w ss) n 0) in *.
  assert (HB1 : forall i l, (i < n)%nat -> (l < nx1)%nat -> BA i l = q_BAbt qp ss i l).
  { intros i l Hi Hl. unfold BA, ROWIN. rewrite mblk_o by lia. apply HBA; assumption. }
  assert (HB2 : forall l, (l < nx1)%nat -> BA n l = q_b qp ss l).
  { intros l Hl. unfold BA, ROWIN. rewrite mblk_i by lia. cbn [Nat.add]. rewrite Nat.sub_0_r. rsimp. rewrite R_lit11. lra. }
  assert (HBU : forall t i j, (i < nux qp t)%nat -> upd (k_BAbt w) ss BA t i j = k_BAbt w t i j) by (intros; apply BA_upd; assumption).
  set (A0 := GEMM_NT _ _ _ _ _ _ _ _ _ _ _ _ _ _ _ _ _) in *.
  set (A1 := GEAD 1 nx1 f1 P nx1 0 A0 n 0) in *.
  assert (H0 : forall i l, (i <= n)%nat -> (l < nx1)%nat -> A0 i l = rsum nx1 (fun m => BA i m * P l m)).
  { intros i l Hi Hl. unfold A0, GEMM_NT. rewrite mblk_i by lia. rewrite !Nat.sub_0_r, fsum_R. cbn [Nat.add]. rsimp. rewrite R_lit01, R_lit11. lra. }
  assert (H1 : forall i l, (i < n)%nat -> (l < nx1)%nat -> A1 i l = rsum nx1 (fun m => q_BAbt qp ss i m * P l m)).
  { intros i l Hi Hl. unfold A1, GEAD. rewrite mblk_o by lia. rewrite H0 by lia. apply rsum_ext. intros k Hk. rewrite HB1 by assumption. reflexivity. }
  assert (H2 : forall l, (l < nx1)%nat -> A1 n l = rsum nx1 (fun m => q_b qp ss m * P l m) + p l).
  { intros l Hl. unfold A1, GEAD. rewrite mblk_i by lia. replace (n + (n - n))%nat with n by lia. replace (nx1 + (n - n))%nat with nx1 by lia. rewrite !Nat.sub_0_r. cbn [Nat.add].
    rewrite H0 by lia. rsimp. rewrite R_lit11, Rmult_1_l. f_equal. apply rsum_ext. intros k Hk. rewrite HB2 by assumption. reflexivity. }
  clearbody A1. clear H0 HB2.
  assert (Q1 : forall i j, (i < n)%nat -> (j < n)%nat -> rsum nx1 (fun l => A1 i l * BA j l) = stX q0 P ss i j).
  { intros i j Hi Hj. rewrite (stX_sym q0 P ss i j HPs). unfold stX. change (dN (q_dim q0)) with N. apply Nat.ltb_lt in Hss. rewrite Hss. change (dnx (q_dim q0) (S ss)) with nx1. apply rsum_ext. intros l Hl. rewrite H1, HB1 by assumption.
    rewrite Rmult_comm, <- rsum_scal. apply rsum_ext. intros; cbn [strip q_BAbt]; lra. }
  assert (Q2 : forall j, (j < n)%nat -> rsum nx1 (fun l => A1 n l * BA j l) = stx q0 P p ss j).
  { intros j Hj. unfold stx. change (dN (q_dim q0)) with N. apply Nat.ltb_lt in Hss. rewrite Hss. change (dnx (q_dim q0) (S ss)) with nx1. apply rsum_ext. intros l Hl. rewrite H2, HB1 by assumption. cbn [strip q_BAbt q_b].
    rewrite Rmult_comm. f_equal. f_equal. apply rsum_ext. intros; lra. }
  assert (Y1 : forall D1 i j, (j <= i < n)%nat -> SYRK_LN_MN (n + 1) n nx1 f1 A1 0 0 BA 0 0 f1 M 0 0 D1 0 0 i j = stH q0 0 z0 (urho false ss) ss i j + stX q0 P ss i j).
  { intros D1 i j Hij. rewrite SYRK_R by lia. cbn [Nat.add]. rsimp. rewrite R_lit11, !Rmult_1_l, Q1 by lia. f_equal. rewrite M1, stH0 by lia. unfold symL, urho. destruct (Nat.leb_spec j i); [|lia]. reflexivity. }
  assert (Y2 : forall D1 j, (j < n)%nat -> SYRK_LN_MN (n + 1) n nx1 f1 A1 0 0 BA 0 0 f1 M 0 0 D1 0 0 n j = sth q0 0 z0 z0 ss j + stx q0 P p ss j).
  { intros D1 j Hj. rewrite SYRK_R by lia. cbn [Nat.add]. rsimp. rewrite R_lit11, !Rmult_1_l, Q2 by lia. f_equal. rewrite M2, sth0 by lia. reflexivity. }
  destruct full.
  - unfold SYRK_POTRF_LN_MN in H. set (C := SYRK_LN_MN _ _ _ _ _ _ _ _ _ _ _ _ _ _ _ _ _) in H.
    destruct (POTRF_L_MN _ _ _ _ _ _ _ _ _) as [L dA] eqn:E. subst s'. cbn [fst snd k_L k_dA k_P k_BAbt]. rewrite !upd_same.
    split; [|split; [discriminate|intros _; split]].
    + split; [intros t Ht; cbn [snd k_L k_dA k_P]; rewrite ?upd_other by exact Ht; auto|]. split.
      * intros HB t i j Ht Hi Hj. cbn [snd k_BAbt]. rewrite HBU by exact Hi. apply HB; assumption.
      * intros _. cbn [fst]. apply RSQ_upd; assumption.
    + intros Hs. eapply (FR_full q0 0 z0 z0 (urho false ss) P p ss C); [exact HPs|intros; apply Y1; assumption|intros; apply Y2; assumption|exact E|exact Hs].
    + intros HPD. eapply (chol_pd q0 0 z0 (urho false ss) P ss (nux q0 ss) C); [apply le_n|exact HPs|intros; apply Y1; assumption|exact E|exact HPD].
  - set (C := SYRK_LN_MN _ _ _ _ _ _ _ _ _ _ _ _ _ _ _ _ _) in H.
    destruct (POTRF_L_MN _ _ _ _ _ _ _ _ _) as [L dA] eqn:E.
    destruct (P_of_L _ _ _ _ _) as [Ls' P'] eqn:EP. pose proof (P_of_L_R (dnu D ss) (dnx D ss) L (k_Ls w) (k_P w ss)) as HPP. rewrite EP in HPP. destruct HPP as (P1 & P2).
    subst s'. cbn [fst snd k_L k_dA k_P k_BAbt]. rewrite !upd_same.
    split; [|split; [intros _; split; [|split]|discriminate]].
    + split; [intros t Ht; cbn [snd k_L k_dA k_P]; rewrite ?upd_other by exact Ht; auto|]. split.
      * intros HB t i j Ht Hi Hj. cbn [snd k_BAbt]. rewrite HBU by exact Hi. apply HB; assumption.
      * intros _. cbn [fst]. apply RSQ_upd; assumption.
    + eapply P_of_sym; exact P1.
    + intros Hs. eapply (ucls_tail P p ss C L C (k_dA w ss) L dA P'); [exact HPs|intros; apply Y1; assumption|intros; apply Y2; assumption|exact E| |exact P1|exact P2|exact Hs].
      intros i j Hi Hj Hij. pose proof (potrf_R (n + 1) (dnu D ss) C C (k_dA w ss) ltac:(unfold n, nux; lia)) as HX. rewrite E in HX. destruct (HX (singular_false _ _ Hs)) as (_ & _ & H3). apply H3. lia.
    + intros HPD. eapply (chol_pd q0 0 z0 (urho false ss) P ss (dnu D ss) C); [change (nux q0 ss) with (nux qp ss); unfold nux; lia|exact HPs|intros; apply Y1; assumption|exact E|exact HPD].
Qed.

(** ** sweeps *)
Lemma BA_ufr ss s s' : ufr ss s s' -> BAok q0 (snd s) -> BAok q0 (snd s').
Proof. intros (_ & H & _). exact H. Qed.
Definition sq_at (w : kws R) ss : Prop := singular (nux qp ss) (k_dA w ss) = false -> FRq (urho true ss) (VP true w (S ss)) (Vp true w (S ss)) ss (nux qp ss) (k_L w ss) z0 (fun _ => 0).
Definition cls_at (w : kws R) ss : Prop := Psym (k_P w ss) (dnx D ss) /\
  (singular (dnu D ss) (k_dA w ss) = false -> FRq (urho false ss) (k_P w (S ss)) (k_P w (S ss) (dnx D (S ss))) ss (dnu D ss) (k_L w ss) (embQ (dnu D ss) (k_P w ss)) (embq (dnu D ss) (k_P w ss (dnx D ss)))).
Definition Hpd sq : Prop := forall i, (i <= N)%nat -> PD (nux qp i) (fun k l => symL (q_RSQ qp i) k l + if (k =? l)%nat then urho sq i k else 0).
Lemma stH_Hpd sq ss : (ss <= N)%nat -> Hpd sq -> PD (nux qp ss) (stH q0 0 z0 (urho sq ss) ss).
Proof. intros Hss H. eapply PD_ext; [|exact (H ss Hss)]. intros i j _ _. cbv beta. rewrite stH0. reflexivity. Qed.

Lemma sq_at_frame ss t s s' : ufr ss s s' -> (ss < t)%nat -> sq_at (snd s) t -> sq_at (snd s') t.
Proof.
  intros (F & _) Hlt H. unfold sq_at, VP, Vp in *. destruct (F t ltac:(lia)) as (-> & _ & ->). destruct (F (S t) ltac:(lia)) as (-> & _). exact H.
Qed.
Lemma cls_at_frame ss t s s' : ufr ss s s' -> (ss < t)%nat -> cls_at (snd s) t -> cls_at (snd s') t.
Proof.
  intros (F & _) Hlt H. unfold cls_at in *. destruct (F t ltac:(lia)) as (-> & -> & ->). destruct (F (S t) ltac:(lia)) as (_ & -> & _). exact H.
Qed.

Lemma unc_sqrt_R s : RSQok (fst s) -> BAok q0 (snd s) -> let s' := unc_sqrt reg qp s in
  RSQok (fst s') /\ BAok q0 (snd s') /\ (forall ss, (ss <= N)%nat -> sq_at (snd s') ss) /\ (Hpd true -> forall ss, (ss <= N)%nat -> singular (nux qp ss) (k_dA (snd s') ss) = false).
Proof.
  intros HR HB. cbv zeta. unfold unc_sqrt.
  enough (G : forall K, (K <= N)%nat -> let s' := loop K (fun ii s => unc_sqrt_mid reg qp (N - ii - 1) s) (unc_sqrt_last reg qp s) in
    RSQok (fst s') /\ BAok q0 (snd s') /\ (forall ss, (N - K <= ss <= N)%nat -> sq_at (snd s') ss) /\ (Hpd true -> forall ss, (N - K <= ss <= N)%nat -> singular (nux qp ss) (k_dA (snd s') ss) = false)).
  { destruct (G N (le_n _)) as (A & B & C & E). split; [exact A|split; [exact B|split]]; intros; [apply C; lia|apply E; [assumption|lia]]. }
  induction K as [|K IH]; intros HK; cbn [loop]; cbv zeta.
  - set (s' := unc_sqrt_last reg qp s).
    destruct (unc_sqrt_last_G s s' (VP true (snd s') (S N)) (Vp true (snd s') (S N)) HR eq_refl) as (F & A & B).
    split; [apply F; exact HR|split; [apply F; exact HB|split]].
    + intros ss Hss. assert (ss = N) as -> by lia. exact A.
    + intros HH ss Hss. assert (ss = N) as -> by lia. apply B. apply stH_Hpd; [lia|exact HH].
  - specialize (IH ltac:(lia)). cbv zeta in IH. set (s1 := loop K _ _) in *. destruct IH as (R1 & B1 & A1 & H1). set (q := (N - K - 1)%nat). set (s' := unc_sqrt_mid reg qp q s1).
    destruct (unc_sqrt_mid_G q s1 s' ltac:(unfold q; lia) R1 B1 eq_refl) as (F & A & B).
    split; [apply F; exact R1|split; [apply F; exact B1|split]].
    + intros ss Hss. destruct (Nat.eq_dec ss q) as [-> | Hne].
      * unfold sq_at. intros Hs. destruct F as (F & _). unfold VP, Vp in *. destruct (F (S q) ltac:(lia)) as (-> & _). apply A. exact Hs.
      * eapply sq_at_frame; [exact F|unfold q in *; lia|]. apply A1. unfold q in *; lia.
    + intros HH ss Hss. destruct (Nat.eq_dec ss q) as [-> | Hne].
      * apply B. apply PD_plus; [apply stH_Hpd; [unfold q; lia|exact HH]|]. apply stX_psd. apply VPs_psd.
      * destruct F as (F & _). destruct (F ss Hne) as (_ & _ & ->). apply H1; [exact HH|unfold q in *; lia].
Qed.

Lemma unc_cls_R s : (1 <= N)%nat -> RSQok (fst s) -> BAok q0 (snd s) -> let s' := unc_cls reg qp s in
  RSQok (fst s') /\ BAok q0 (snd s') /\ (forall ss, (1 <= ss <= N)%nat -> cls_at (snd s') ss) /\
  (singular (nux qp 0) (k_dA (snd s') 0%nat) = false -> FRq (urho false 0) (k_P (snd s') 1%nat) (k_P (snd s') 1%nat (dnx D 1)) 0 (nux qp 0) (k_L (snd s') 0%nat) z0 (fun _ => 0)) /\
  (Hpd false -> singular (nux qp 0) (k_dA (snd s') 0%nat) = false /\ forall ss, (1 <= ss <= N)%nat -> singular (dnu D ss) (k_dA (snd s') ss) = false).
Proof.
  intros HN HR HB. cbv zeta. unfold unc_cls.
  assert (G : forall K, (K < N)%nat -> let s' := loop K (fun ii s => unc_cls_mid false reg qp (N - ii - 1) s) (unc_cls_last reg qp s) in
    RSQok (fst s') /\ BAok q0 (snd s') /\ (forall ss, (N - K <= ss <= N)%nat -> cls_at (snd s') ss) /\
    (Hpd false -> (forall ss, (N - K <= ss <= N)%nat -> singular (dnu D ss) (k_dA (snd s') ss) = false) /\ PSD (dnx D (N - K)) (k_P (snd s') (N - K)%nat))).
  { induction K as [|K IH]; intros HK; cbn [loop]; cbv zeta.
    - set (s' := unc_cls_last reg qp s).
      destruct (unc_cls_last_G s s' (k_P (snd s') (S N)) (k_P (snd s') (S N) (dnx D (S N))) HR eq_refl) as (F & Sy & A & B).
      split; [apply F; exact HR|split; [apply F; exact HB|split]].
      + intros ss Hss. assert (ss = N) as -> by lia. split; [exact Sy|exact A].
      + intros HH. rewrite Nat.sub_0_r. pose proof (stH_Hpd false N (le_n _) HH) as HP. assert (Hs : singular (dnu D N) (k_dA (snd s') N) = false).
        { apply B. eapply PD_lead; [|exact HP]. unfold nux; lia. }
        split; [intros ss Hss; assert (ss = N) as -> by lia; exact Hs|].
        eapply (cls_P_psd q0 0 z0 z0); [exact (A Hs)|]. change (nux q0 N) with (nux qp N). apply PD_PSD. eapply PD_ext; [|exact HP]. intros i j _ _. cbv beta. unfold stX. change (dN (q_dim q0)) with N. rewrite Nat.ltb_irrefl. lra.
    - specialize (IH ltac:(lia)). cbv zeta in IH. set (s1 := loop K _ _) in *. destruct IH as (R1 & B1 & A1 & H1). set (q := (N - K - 1)%nat). set (s' := unc_cls_mid false reg qp q s1).
      assert (Hq : S q = (N - K)%nat) by (unfold q; lia).
      destruct (unc_cls_mid_G false q s1 s' ltac:(unfold q; lia) R1 B1 ltac:(rewrite Hq; apply A1; lia) eq_refl) as (F & X & _). destruct (X eq_refl) as (Sy & A & B). clear X.
      split; [apply F; exact R1|split; [apply F; exact B1|split]].
      + intros ss Hss. destruct (Nat.eq_dec ss q) as [-> | Hne].
        * split; [exact Sy|]. intros Hs. destruct F as (F & _). destruct (F (S q) ltac:(lia)) as (_ & -> & _). apply A. exact Hs.
        * eapply cls_at_frame; [exact F|unfold q in *; lia|]. apply A1. unfold q in *; lia.
      + intros HH. destruct (H1 HH) as (H2 & H3). rewrite <- Hq in H3. pose proof (stH_Hpd false q ltac:(unfold q; lia) HH) as HP.
        assert (HPX : PD (nux qp q) (fun i j => stH q0 0 z0 (urho false q) q i j + stX q0 (k_P (snd s1) (S q)) q i j)).
        { apply PD_plus; [exact HP|]. apply stX_psd. exact H3. }
        assert (Hs : singular (dnu D q) (k_dA (snd s') q) = false). { apply B. eapply PD_lead; [|exact HPX]. unfold nux; lia. }
        split.
        * intros ss Hss. destruct (Nat.eq_dec ss q) as [-> | Hne]; [exact Hs|]. destruct F as (F & _). destruct (F ss Hne) as (_ & _ & ->). apply H2. unfold q in *; lia.
        * replace (N - S K)%nat with q by (unfold q; lia). eapply (cls_P_psd q0 0 z0 z0); [exact (A Hs)|]. change (nux q0 q) with (nux qp q). apply PD_PSD. exact HPX. }
  specialize (G (N - 1)%nat ltac:(lia)). cbv zeta in G. set (s1 := loop (N - 1) _ _) in *. destruct G as (R1 & B1 & A1 & H1). replace (N - (N - 1))%nat with 1%nat in * by lia.
  destruct (Nat.ltb_spec 0 N); [|lia]. set (s' := unc_cls_mid true reg qp 0 s1).
  destruct (unc_cls_mid_G true 0 s1 s' ltac:(lia) R1 B1 ltac:(apply A1; lia) eq_refl) as (F & _ & X). destruct (X eq_refl) as (A & B). clear X.
  split; [apply F; exact R1|split; [apply F; exact B1|split; [|split]]].
  - intros ss Hss. eapply cls_at_frame; [exact F|lia|]. apply A1. lia.
  - intros Hs. destruct F as (F & _). destruct (F 1%nat ltac:(lia)) as (_ & -> & _). apply A. exact Hs.
  - intros HH. destruct (H1 HH) as (H2 & H3). split.
    + apply B. apply PD_plus; [apply stH_Hpd; [lia|exact HH]|]. apply stX_psd. exact H3.
    + intros ss Hss. destruct F as (F & _). destruct (F ss ltac:(lia)) as (_ & _ & ->). apply H2. exact Hss.
Qed.

(** ** the solution *)
Definition unc_eqs sq (z pi : nat -> rvec) : Prop :=
  (forall ss j, (ss < N)%nat -> (j < dnx D (S ss))%nat -> z (S ss) (dnu D (S ss) + j)%nat = rsum (nux qp ss) (fun i => q_BAbt qp ss i j * z ss i) + q_b qp ss j) /\
  (forall ss i, (ss <= N)%nat -> (i < nux qp ss)%nat ->
    rsum (nux qp ss) (fun j => symL (q_RSQ qp ss) i j * z ss j) + urho sq ss i * z ss i + q_rqz qp ss i
    + (if (ss <? N)%nat then rsum (dnx D (S ss)) (fun l => q_BAbt qp ss i l * pi ss l) else 0)
    - (if ((0 <? ss) && (dnu D ss <=? i))%nat then pi (ss - 1)%nat (i - dnu D ss)%nat else 0) = 0).
Definition nbreak sq (w : kws R) : Prop := forall ss j, (ss <= N)%nat -> (j < if ((sq : bool) || (ss =? 0))%bool%nat then nux qp ss else dnu D ss)%nat -> k_dA w ss j <> 0.

Lemma unc_gen sq fwd w : (1 <= N)%nat ->
  (forall ss, (1 <= ss <= N)%nat -> FRq (urho sq ss) (VP sq w (S ss)) (Vp sq w (S ss)) ss (dnu D ss) (k_L w ss) (embQ (dnu D ss) (VP sq w ss)) (embq (dnu D ss) (Vp sq w ss))) ->
  FRq (urho sq 0) (VP sq w 1%nat) (Vp sq w 1%nat) 0 (nux qp 0) (k_L w 0%nat) z0 (fun _ => 0) ->
  (forall ss, (1 <= ss <= N)%nat -> Psym (VP sq w ss) (dnx D ss)) -> BAok q0 w -> fwd_ok q0 (VP sq w) (Vp sq w) fwd w ->
  unc_eqs sq (k_ux (forward fwd q0 w)) (k_pi (forward fwd q0 w)).
Proof.
  intros HN F1 F0 HP HB Hf.
  assert (FRall : forall ss, (ss <= N)%nat -> FRq (urho sq ss) (VP sq w (S ss)) (Vp sq w (S ss)) ss (nf q0 ss) (k_L w ss) (if (ss =? 0)%nat then fun _ _ => 0 else embQ (dnu D ss) (VP sq w ss)) (if (ss =? 0)%nat then fun _ => 0 else embq (dnu D ss) (Vp sq w ss))).
  { intros ss Hss. unfold nf. destruct (Nat.eqb_spec ss 0) as [->|Hne]; [exact F0|]. apply F1. lia. }
  assert (Hd : forall ss k, (ss <= N)%nat -> (k < nf q0 ss)%nat -> k_L w ss k k <> 0).
  { intros ss k Hss Hk. destruct (FRall ss Hss) as (_ & _ & H). specialize (H k Hk). lra. }
  pose proof (forward_R q0 (VP sq w) (Vp sq w) fwd w HN Hf HB Hd) as FP. pose proof FP as (_ & G2 & _ & G4 & G5).
  split; [exact G2|].
  intros ss i Hss Hi. pose proof (stat_elim q0 0 z0 z0 (VP sq w) (Vp sq w) (urho sq ss) w (forward fwd q0 w) ss Hss HN HP (FRall ss Hss) FP i Hi) as H.
  cbv zeta in H. change (nux q0 ss) with (nux qp ss) in H. rewrite sth0 in H. change (dN (q_dim q0)) with N in H. etransitivity; [|exact H]. set (u := k_ux _). f_equal. f_equal. f_equal.
  rewrite (rsum_ext _ (fun j => stH q0 0 z0 (urho sq ss) ss i j * u ss j) (fun j => symL (q_RSQ qp ss) i j * u ss j + if (j =? i)%nat then urho sq ss i * u ss i else 0)).
  - rewrite rsum_add. f_equal. symmetry. rewrite (rsum_one _ i (fun _ => urho sq ss i * u ss i) Hi). reflexivity.
  - intros j Hj. rewrite stH0, (Nat.eqb_sym j i). destruct (Nat.eqb_spec i j) as [-> | ]; ring.
Qed.

Lemma fwd_dA fwd (w : kws R) : (forall n ss w, k_dA (fwd n ss w) = k_dA w) -> k_dA (forward fwd qp w) = k_dA w.
Proof.
  intros H. unfold forward, fwd_last. cbn [k_dA]. generalize (dN D - 1)%nat. intros K. induction K as [|K IH]; cbn [loop]; [apply H|]. rewrite H. exact IH.
Qed.

Theorem unc_solve_R sq s : (1 <= N)%nat -> RSQok (fst s) -> BAok q0 (snd s) -> let s' := unc_solve sq reg true qp s in
  RSQok (fst s') /\ (nbreak sq (snd s') -> unc_eqs sq (k_ux (snd s')) (k_pi (snd s'))) /\ (Hpd sq -> nbreak sq (snd s')).
Proof.
  intros HN HR HB. cbv zeta. unfold unc_solve. destruct sq.
  - destruct (unc_sqrt_R s HR HB) as (R1 & B1 & A1 & H1). destruct (unc_sqrt reg qp s) as [RSQ w]. cbn [fst snd] in *.
    assert (EdA : k_dA (forward (fwd_sqrt true qp) qp w) = k_dA w) by (apply fwd_dA; reflexivity).
    split; [exact R1|]. split.
    + intros Hnb. unfold nbreak in Hnb. rewrite EdA in Hnb. cbn [orb] in Hnb.
      assert (A : forall ss, (ss <= N)%nat -> FRq (urho true ss) (VP true w (S ss)) (Vp true w (S ss)) ss (nux qp ss) (k_L w ss) z0 (fun _ => 0)).
      { intros ss Hss. apply A1; [exact Hss|]. apply singular_false_i. intros j Hj. apply Hnb; assumption. }
      change (forward (fwd_sqrt true qp) qp w) with (forward (fwd_sqrt true q0) q0 w). apply unc_gen; [exact HN| | | |exact B1|].
      * intros ss Hss. apply (FR_sqrt_nu q0 0 z0 z0). apply A. lia.
      * apply A. lia.
      * intros ss _ l m _ _. apply VPs_sym.
      * apply fwd_sqrt_ok; reflexivity.
    + intros HH. unfold nbreak. rewrite EdA. cbn [orb]. intros ss j Hss Hj. apply (singular_false _ _ (H1 HH ss Hss)). exact Hj.
  - destruct (unc_cls_R s HN HR HB) as (R1 & B1 & A1 & A0 & H1). destruct (unc_cls reg qp s) as [RSQ w]. cbn [fst snd] in *.
    assert (EdA : k_dA (forward (fwd_cls true qp) qp w) = k_dA w) by (apply fwd_dA; reflexivity).
    split; [exact R1|]. split.
    + intros Hnb. unfold nbreak in Hnb. rewrite EdA in Hnb. cbn [orb] in Hnb.
      change (forward (fwd_cls true qp) qp w) with (forward (fwd_cls true q0) q0 w). apply unc_gen; [exact HN| | | |exact B1|].
      * intros ss Hss. apply A1; [exact Hss|]. apply singular_false_i. intros j Hj. apply Hnb; [lia|]. destruct (Nat.eqb_spec ss 0); [lia|]. exact Hj.
      * apply A0. apply singular_false_i. intros j Hj. apply Hnb; [lia|]. cbn [Nat.eqb]. exact Hj.
      * intros ss Hss. apply A1. exact Hss.
      * apply fwd_cls_ok; reflexivity.
    + intros HH. unfold nbreak. rewrite EdA. cbn [orb]. destruct (H1 HH) as (H2 & H3). intros ss j Hss Hj. destruct (Nat.eqb_spec ss 0) as [-> | Hne].
      * apply (singular_false _ _ H2). exact Hj.
      * apply (singular_false _ _ (H3 ss ltac:(lia))). exact Hj.
Qed.
End Unc.
