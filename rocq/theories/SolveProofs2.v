(** SolveProofs2.v -- solution with a stored factorisation: backward and forward sweeps. *)
From Coq Require Import ZArith Bool Arith Lia Reals Lra.
From Verif Require Import Base ArithF RSum Blas Blas2 CoreModel CoreProofs OcpModel ResSpec KktSpec ResProofs CholProofs KktModel KktProofs KktProofs2 KktProofs3 KktProofs4 SolveModel SolveProofs.
Local Open Scope R_scope.

(** multiplication by a lower triangular block and its transpose *)
Lemma trmv_LLt n o (L : rmat) (x : rvec) xi (z : rvec) j : (j < n)%nat ->
  let v := TRMV_LTN n L o o x xi z 0 in TRMV_LNN n L o o v 0 v 0 j = rsum n (fun m => rsum n (fun k => lt L (o + j) (o + k) * lt L (o + m) (o + k)) * x (xi + m)%nat).
Proof.
  intros Hj. cbv zeta. set (q1 := TRMV_LTN _ _ _ _ _ _ _ _).
  assert (E1 : forall k, (k < n)%nat -> q1 k = rsum n (fun m => lt L (o + m) (o + k) * x (xi + m)%nat)).
  { intros k Hk. unfold q1, TRMV_LTN. rewrite vset0 by assumption. rewrite fsum_R. rsimp. rewrite <- (rsum_high n k (fun m => L (o + m)%nat (o + k)%nat * x (xi + m)%nat)) by lia.
    apply rsum_ext. intros m Hm. unfold lt. destruct (Nat.leb_spec k m), (Nat.leb_spec (o + k) (o + m)); try lia; lra. }
  clearbody q1. unfold TRMV_LNN. rewrite vset0 by assumption. rewrite fsum_R. cbn [Nat.add]. rsimp.
  rewrite <- (rsum_low n j (fun k => L (o + j)%nat (o + k)%nat * q1 k)) by assumption.
  rewrite (rsum_ext n _ (fun k => rsum n (fun m => lt L (o + j) (o + k) * lt L (o + m) (o + k) * x (xi + m)%nat))).
  2:{ intros k Hk. unfold lt at 1. destruct (Nat.leb_spec k j), (Nat.leb_spec (o + k) (o + j)); try lia.
      - rewrite E1 by assumption. rewrite <- rsum_scal. apply rsum_ext. intros; lra.
      - rewrite (rsum_0 n) by (intros; lra). lra. }
  rewrite rsum_swap. apply rsum_ext. intros m Hm. rewrite rsum_scal_r. reflexivity.
Qed.

(** the left-hand side data a solve relies on *)
Section Lhs.
Variables (qp : oqp R) (reg : R) (Gam : nat -> rvec).
Notation D := (q_dim qp).
Notation N := (dN D).
(** value function of stage ss stored in the workspace *)
Definition valP (sq : bool) (w : kws R) (ss : nat) : rmat := if sq then VPs (k_L w ss) (dnu D ss) (dnx D ss) else k_P w ss.
Definition lhs_ok (sq : bool) (rho : nat -> rvec) (w : kws R) : Prop :=
  (forall ss i j, (ss <= N)%nat -> (i < nux qp ss)%nat -> (j < nux qp ss)%nat ->
     stH qp reg Gam (rho ss) ss i j + stX qp (valP sq w (S ss)) ss i j = rsum (nf qp ss) (fun k => lt (k_L w ss) i k * lt (k_L w ss) j k) + (if (ss =? 0)%nat then 0 else embQ (dnu D ss) (valP sq w ss) i j)) /\
  (forall ss k, (ss <= N)%nat -> (k < nf qp ss)%nat -> 0 < k_L w ss k k) /\
  (forall ss k, (ss <= N)%nat -> (k < 2 * dns D ss)%nat -> k_Zs w ss k = Zq qp ss reg (Gam ss) k) /\
  (forall ss, (1 <= ss <= N)%nat -> Psym (valP sq w ss) (dnx D ss)) /\ BAok qp w.
Definition Pb_ok (sq : bool) (w : kws R) : Prop := forall ss m, (ss < N)%nat -> (m < dnx D (S ss))%nat -> k_Pb w ss m = rsum (dnx D (S ss)) (fun l => valP sq w (S ss) m l * q_b qp ss l).
End Lhs.

Section Swp.
Variables (qp : oqp R) (reg : R) (Gam gam : nat -> rvec).
Notation D := (q_dim qp).
Notation N := (dN D).
Hypothesis Hwf : qp_wf qp.
Hypothesis HN : (1 <= N)%nat.
Variables (sq usePb : bool) (rho : nat -> rvec).

Definition same_lhs (w w' : kws R) : Prop := k_BAbt w' = k_BAbt w /\ k_L w' = k_L w /\ k_P w' = k_P w /\ k_Zs w' = k_Zs w /\ k_Pb w' = k_Pb w.
Lemma same_refl w : same_lhs w w.
Proof. repeat split. Qed.
Lemma same_trans w w1 w2 : same_lhs w w1 -> same_lhs w1 w2 -> same_lhs w w2.
Proof. intros (A1 & A2 & A3 & A4 & A5) (B1 & B2 & B3 & B4 & B5). unfold same_lhs. rewrite B1, B2, B3, B4, B5. repeat split; assumption. Qed.
Lemma same_ok w w' : same_lhs w w' -> lhs_ok qp reg Gam sq rho w -> lhs_ok qp reg Gam sq rho w'.
Proof.
  intros (A1 & A2 & A3 & A4 & A5) (H1 & H2 & H3 & H4 & H5). unfold lhs_ok, BAok, valP. rewrite A1, A2, A3, A4. split; [exact H1|]. split; [exact H2|]. split; [exact H3|]. split; [exact H4|exact H5].
Qed.
Lemma same_Pb w w' : same_lhs w w' -> Pb_ok qp sq w -> Pb_ok qp sq w'.
Proof. intros (A1 & A2 & A3 & A4 & A5) H. unfold Pb_ok, valP. rewrite A2, A3, A5. exact H. Qed.

Definition nxt (w : kws R) ss : rvec := fun j => k_ux w ss (dnu D ss + j)%nat.

Lemma Pb_p_R w ss j : (ss < N)%nat -> (usePb = true -> Pb_ok qp sq w) -> (j < dnx D (S ss))%nat ->
  Pb_p sq usePb qp ss w j = rsum (dnx D (S ss)) (fun m => valP qp sq w (S ss) j m * q_b qp ss m) + nxt w (S ss) j.
Proof.
  intros Hss HPb Hj. unfold Pb_p, nxt. rewrite (Nat.add_1_r ss). destruct usePb.
  - unfold AXPY. rewrite vset0 by assumption. cbn [Nat.add]. rsimp. rewrite R_lit11. rewrite (HPb eq_refl) by assumption. lra.
  - destruct sq.
    + unfold AXPY. rewrite vset0 by assumption. cbn [Nat.add]. rsimp. rewrite R_lit11.
      pose proof (trmv_LLt (dnx D (S ss)) (dnu D (S ss)) (k_L w (S ss)) (q_b qp ss) 0 (k_nux w) j Hj) as T. cbv zeta in T. rewrite T. cbn [Nat.add]. unfold valP, VPs. lra.
    + unfold GEMV_N. rewrite vset0 by assumption. cbn [Nat.add]. rewrite fsum_R. rsimp. rewrite R_lit11. unfold valP. lra.
Qed.

(** one stage of the backward substitution *)
Definition bwd_eq (w w' : kws R) ss nsol : Prop :=
  (forall i, (i < nux qp ss)%nat -> sth qp reg Gam gam ss i + stx qp (valP qp sq w (S ss)) (nxt w (S ss)) ss i = rsum nsol (fun k => k_ux w' ss k * lt (k_L w ss) i k) + (if (i <? nsol)%nat then 0 else k_ux w' ss i)) /\
  (forall k, (k < 2 * dns D ss)%nat -> k_ux w' ss (nux qp ss + k)%nat = Rq qp ss (gam ss) k).
Definition bwd_fr (w w' : kws R) ss : Prop := same_lhs w w' /\ (forall t, t <> ss -> k_ux w' t = k_ux w t).

Lemma bwd_tail (L : rmat) ss nsol (d : rvec) : (nsol <= nux qp ss)%nat -> (forall k, (k < nsol)%nat -> L k k <> 0) ->
  let d' := TRSV_LNN_MN (nux qp ss) nsol L 0 0 d 0 d 0 in
  (forall i, (i < nux qp ss)%nat -> d i = rsum nsol (fun k => d' k * lt L i k) + (if (i <? nsol)%nat then 0 else d' i)) /\ (forall i, (nux qp ss <= i)%nat -> d' i = d i).
Proof. intros H1 H2. apply (trsv_lnn_R (nux qp ss) nsol L d d H1 H2). Qed.

Lemma bwd_last_R w : lhs_ok qp reg Gam sq rho w -> let w' := bwd_last qp Gam gam w in bwd_eq w w' N (dnu D N) /\ bwd_fr w w' N.
Proof.
  intros (L1 & L2 & L3 & L4 & L5). cbv zeta. unfold bwd_last. change (dnu D N + dnx D N)%nat with (nux qp N).
  pose proof (solve_rhs_R qp reg Gam gam Hwf (k_Zs w N) N (k_tmp w) (k_ux w N) (le_n _) (fun k Hk => L3 N k (le_n _) Hk)) as HR.
  destruct (solve_rhs _ _ _ _ _ _) as [tmp d]. destruct HR as (R1 & R2).
  pose proof (bwd_tail (k_L w N) N (dnu D N) d ltac:(unfold nux; lia)) as T. specialize (T ltac:(intros k Hk; apply Rgt_not_eq, L2; [lia|unfold nf; destruct (Nat.eqb_spec N 0); [lia|exact Hk]])). cbv zeta in T.
  set (d' := TRSV_LNN_MN _ _ _ _ _ _ _ _ _) in *. clearbody d'. destruct T as (T1 & T2). unfold bwd_eq, bwd_fr, set_bwd, same_lhs. cbn [k_BAbt k_L k_P k_Zs k_Pb k_ux]. rewrite upd_same.
  split; [split|split].
  - intros i Hi. rewrite <- T1 by assumption. rewrite R1 by assumption. unfold stx. rewrite Nat.ltb_irrefl. lra.
  - intros k Hk. rewrite T2 by lia. apply R2. exact Hk.
  - repeat split.
  - intros t Ht. apply upd_other. exact Ht.
Qed.

Lemma bwd_mid_R w ss nsol : lhs_ok qp reg Gam sq rho w -> (usePb = true -> Pb_ok qp sq w) -> (ss < N)%nat -> (nsol <= nf qp ss)%nat ->
  let w' := bwd_mid sq usePb qp Gam gam nsol ss w in bwd_eq w w' ss nsol /\ bwd_fr w w' ss.
Proof.
  intros (L1 & L2 & L3 & L4 & L5) HPb Hss Hns. cbv zeta. unfold bwd_mid. change (dnu D ss + dnx D ss)%nat with (nux qp ss).
  pose proof (solve_rhs_R qp reg Gam gam Hwf (k_Zs w ss) ss (k_tmp w) (k_ux w ss) ltac:(lia) (fun k Hk => L3 ss k ltac:(lia) Hk)) as HR.
  destruct (solve_rhs _ _ _ _ _ _) as [tmp d]. destruct HR as (R1 & R2). rewrite (Nat.add_1_r ss).
  pose proof (fun j => Pb_p_R w ss j Hss HPb) as HV. set (v := Pb_p _ _ _ _ _) in *. clearbody v.
  set (d1 := GEMV_N _ _ _ _ _ _ _ _ _ _ _ _ _).
  assert (D1 : forall i, (i < nux qp ss)%nat -> d1 i = sth qp reg Gam gam ss i + stx qp (valP qp sq w (S ss)) (nxt w (S ss)) ss i).
  { intros i Hi. unfold d1, GEMV_N. rewrite vset0 by assumption. cbn [Nat.add]. rewrite fsum_R. rsimp. rewrite R_lit11, !Rmult_1_l. rewrite R1 by assumption. f_equal.
    unfold stx. destruct (Nat.ltb_spec ss N); [|lia]. apply rsum_ext. intros l Hl. rewrite HV by assumption. rewrite L5 by assumption. reflexivity. }
  assert (D2 : forall i, (nux qp ss <= i)%nat -> d1 i = d i) by (intros i Hi; unfold d1, GEMV_N; apply vset_out; lia).
  clearbody d1.
  pose proof (bwd_tail (k_L w ss) ss nsol d1 ltac:(pose proof (nf_le qp ss); lia)) as T. specialize (T ltac:(intros k Hk; apply Rgt_not_eq, L2; lia)). cbv zeta in T.
  set (d' := TRSV_LNN_MN _ _ _ _ _ _ _ _ _) in *. clearbody d'. destruct T as (T1 & T2). unfold bwd_eq, bwd_fr, set_bwd, same_lhs. cbn [k_BAbt k_L k_P k_Zs k_Pb k_ux]. rewrite upd_same.
  split; [split|split].
  - intros i Hi. rewrite <- T1 by assumption. rewrite D1 by assumption. reflexivity.
  - intros k Hk. rewrite T2, D2 by lia. apply R2. exact Hk.
  - repeat split.
  - intros t Ht. apply upd_other. exact Ht.
Qed.

(** the whole backward substitution: every stage holds the transformed gradient *)
Definition bwd_all (w wb : kws R) ss : Prop :=
  (forall i, (i < nux qp ss)%nat -> sth qp reg Gam gam ss i + stx qp (valP qp sq w (S ss)) (nxt wb (S ss)) ss i = rsum (nf qp ss) (fun k => k_ux wb ss k * lt (k_L w ss) i k) + (if (ss =? 0)%nat then 0 else embq (dnu D ss) (nxt wb ss) i)) /\
  (forall k, (k < 2 * dns D ss)%nat -> k_ux wb ss (nux qp ss + k)%nat = Rq qp ss (gam ss) k).

Lemma bwd_eq_all w0 w w' ss nsol wb : same_lhs w0 w -> bwd_eq w w' ss nsol -> nsol = nf qp ss -> k_ux wb ss = k_ux w' ss -> ((ss < N)%nat -> k_ux wb (S ss) = k_ux w (S ss)) -> bwd_all w0 wb ss.
Proof.
  intros (A1 & A2 & A3 & A4 & A5) (E1 & E2) -> Es En. split.
  - intros i Hi. assert (EV : valP qp sq w0 (S ss) = valP qp sq w (S ss)) by (unfold valP; rewrite A2, A3; reflexivity). rewrite EV. rewrite <- A2.
    transitivity (sth qp reg Gam gam ss i + stx qp (valP qp sq w (S ss)) (nxt w (S ss)) ss i).
    { f_equal. unfold stx. destruct (Nat.ltb_spec ss N) as [H|H]; [|reflexivity]. unfold nxt. rewrite En by assumption. reflexivity. }
    rewrite E1 by assumption. rewrite Es. f_equal. unfold nf, embq, nxt. destruct (Nat.eqb_spec ss 0) as [->|Hne].
    + apply Nat.ltb_lt in Hi. rewrite Hi. reflexivity.
    + destruct (Nat.ltb_spec i (dnu D ss)) as [H|H]; [reflexivity|]. rewrite Es. f_equal. lia.
  - intros k Hk. rewrite Es. apply E2. exact Hk.
Qed.

Lemma backward_R w : lhs_ok qp reg Gam sq rho w -> (usePb = true -> Pb_ok qp sq w) ->
  let wb := backward sq usePb qp Gam gam w in same_lhs w wb /\ forall ss, (ss <= N)%nat -> bwd_all w wb ss.
Proof.
  intros HL HPb. cbv zeta. unfold backward. change (dnu D 0 + dnx D 0)%nat with (nux qp 0).
  pose proof (bwd_last_R w HL) as B0. cbv zeta in B0. set (w1 := bwd_last qp Gam gam w) in *. clearbody w1. destruct B0 as (B0 & F0 & F0').
  set (w2 := loop (N - 1) _ w1).
  assert (G : same_lhs w w2 /\ forall ss, (1 <= ss <= N)%nat -> bwd_all w w2 ss).
  { enough (G : forall K, (K <= N - 1)%nat -> let w2 := loop K (fun nn w => bwd_mid sq usePb qp Gam gam (dnu D (N - nn - 1)) (N - nn - 1) w) w1 in
      same_lhs w w2 /\ forall ss, (N - K <= ss <= N)%nat -> bwd_all w w2 ss).
    { specialize (G (N - 1)%nat (le_n _)). cbv zeta in G. fold w2 in G. destruct G as (G1 & G2). split; [exact G1|]. intros ss Hss. apply G2. lia. }
    clear w2. induction K as [|K IH]; intros HK; cbv zeta; cbn [loop].
    - split; [exact F0|]. intros ss Hss. assert (ss = N) as -> by lia. apply (bwd_eq_all w w w1 N (dnu D N)); [apply same_refl|exact B0| |reflexivity|intros; lia]. unfold nf. destruct (Nat.eqb_spec N 0); [lia|reflexivity].
    - specialize (IH ltac:(lia)). cbv zeta in IH. set (w2 := loop K _ w1) in *. clearbody w2. destruct IH as (I1 & I2).
      set (q := (N - K - 1)%nat). assert (Hnf : nf qp q = dnu D q) by (unfold nf; destruct (Nat.eqb_spec q 0); [unfold q in *; lia|reflexivity]).
      pose proof (bwd_mid_R w2 q (dnu D q) (same_ok w w2 I1 HL) (fun H => same_Pb w w2 I1 (HPb H)) ltac:(unfold q; lia) ltac:(rewrite Hnf; lia)) as BM. cbv zeta in BM.
      set (w3 := bwd_mid _ _ _ _ _ _ _ w2) in *. clearbody w3. destruct BM as (M1 & M2 & M3). split; [eapply same_trans; eassumption|].
      intros ss Hss. destruct (Nat.eq_dec ss q) as [->|Hne].
      + apply (bwd_eq_all w w2 w3 q (dnu D q)); [exact I1|exact M1|symmetry; exact Hnf|reflexivity|]. intros _. apply M3. lia.
      + destruct (I2 ss ltac:(unfold q in Hne; lia)) as (X1 & X2). unfold bwd_all, nxt in *. rewrite (M3 ss Hne). rewrite (M3 (S ss)) by (unfold q in *; lia). split; assumption. }
  clearbody w2. destruct G as (I1 & I2).
  pose proof (bwd_mid_R w2 0 (nux qp 0) (same_ok w w2 I1 HL) (fun H => same_Pb w w2 I1 (HPb H)) HN ltac:(unfold nf; cbn; lia)) as BM. cbv zeta in BM.
  set (w3 := bwd_mid _ _ _ _ _ _ _ w2) in *. clearbody w3. destruct BM as (M1 & M2 & M3). split; [eapply same_trans; eassumption|].
  intros ss Hss. destruct (Nat.eq_dec ss 0) as [->|Hne].
  - apply (bwd_eq_all w w2 w3 0 (nux qp 0)); [exact I1|exact M1|reflexivity|reflexivity|]. intros _. apply M3. lia.
  - destruct (I2 ss ltac:(lia)) as (X1 & X2). unfold bwd_all, nxt in *. rewrite (M3 ss Hne). rewrite (M3 (S ss)) by lia. split; assumption.
Qed.

(** ** forward substitution *)
Variables (wb : kws R).
Hypothesis HLb : lhs_ok qp reg Gam sq rho wb.
Notation vP := (valP qp sq wb).
Notation vp := (nxt wb).

Definition stp_post (w w' : kws R) ss nsol : Prop :=
  same_lhs w w' /\
  (forall k, (k < nsol)%nat -> rsum (nux qp ss) (fun r => lt (k_L wb ss) r k * k_ux w' ss r) = - k_ux w ss k) /\
  (forall i, (nsol <= i)%nat -> k_ux w' ss i = k_ux w ss i) /\
  (forall j, (j < dnx D (S ss))%nat -> k_ux w' (S ss) (dnu D (S ss) + j)%nat = rsum (nux qp ss) (fun i => q_BAbt qp ss i j * k_ux w' ss i) + q_b qp ss j) /\
  (forall i, (i < dnu D (S ss) \/ nux qp (S ss) <= i)%nat -> k_ux w' (S ss) i = k_ux w (S ss) i) /\
  (forall j, (j < dnx D (S ss))%nat -> k_pi w' ss j = rsum (dnx D (S ss)) (fun m => vP (S ss) j m * k_ux w' (S ss) (dnu D (S ss) + m)%nat) + k_ux w (S ss) (dnu D (S ss) + j)%nat) /\
  (forall t, t <> ss -> t <> S ss -> k_ux w' t = k_ux w t) /\ (forall t, t <> ss -> k_pi w' t = k_pi w t).

Lemma fwd_mid_R w ss nsol : same_lhs wb w -> (ss < N)%nat -> (nsol <= nf qp ss)%nat -> stp_post w (fwd_mid sq true qp nsol ss w) ss nsol.
Proof.
  intros (A1 & A2 & A3 & A4 & A5) Hss Hns. destruct HLb as (L1 & L2 & L3 & L4 & L5). pose proof (nf_le qp ss) as Hnl.
  unfold fwd_mid. change (dnu D ss + dnx D ss)%nat with (nux qp ss). rewrite (Nat.add_1_r ss). rewrite A1, A2, A3.
  set (a := VECSC nsol _ _ _).
  assert (Ha : forall k, (k < nsol)%nat -> a k = - k_ux w ss k). { intros k Hk. unfold a, VECSC. rewrite vset0 by assumption. cbn [Nat.add]. rsimp. rewrite R_lit11. lra. }
  assert (Ha' : forall i, (nsol <= i)%nat -> a i = k_ux w ss i). { intros i Hi. unfold a, VECSC. apply vset_out. lia. }
  clearbody a.
  pose proof (trsv_ltn_R (nux qp ss) nsol (k_L wb ss) a a ltac:(lia) (fun k Hk => Rgt_not_eq _ _ (L2 ss k ltac:(lia) ltac:(lia)))) as T. cbv zeta in T.
  set (ux := TRSV_LTN_MN _ _ _ _ _ _ _ _ _) in *. clearbody ux. destruct T as (T1 & T2 & T3).
  set (v := GEMV_T _ _ _ _ _ _ _ _ _ _ _ _ _).
  assert (V1 : forall j, (j < dnx D (S ss))%nat -> v (dnu D (S ss) + j)%nat = rsum (nux qp ss) (fun i => q_BAbt qp ss i j * ux i) + q_b qp ss j).
  { intros j Hj. unfold v, GEMV_T. rewrite vset_o by assumption. cbn [Nat.add]. rewrite fsum_R. rsimp. rewrite R_lit11, !Rmult_1_l. rewrite Rplus_comm. f_equal. apply rsum_ext. intros i Hi. rewrite L5 by assumption. reflexivity. }
  assert (V2 : forall i, (i < dnu D (S ss) \/ nux qp (S ss) <= i)%nat -> v i = k_ux w (S ss) i) by (intros i Hi; unfold v, GEMV_T; apply vset_out; unfold nux in Hi; lia).
  clearbody v.
  set (p0 := VECCP _ (k_ux w (S ss)) _ (k_pi w ss) _).
  assert (P0 : forall j, (j < dnx D (S ss))%nat -> p0 j = k_ux w (S ss) (dnu D (S ss) + j)%nat) by (intros j Hj; unfold p0, VECCP; rewrite vset0 by assumption; reflexivity).
  clearbody p0. set (s := if sq then _ else _).
  assert (PS : forall j, (j < dnx D (S ss))%nat -> fst s j = rsum (dnx D (S ss)) (fun m => vP (S ss) j m * v (dnu D (S ss) + m)%nat) + k_ux w (S ss) (dnu D (S ss) + j)%nat).
  { intros j Hj. unfold s, valP. clear s. destruct sq; cbn [fst].
    - unfold AXPY. rewrite vset0 by assumption. cbn [Nat.add]. rsimp. rewrite R_lit11. rewrite P0 by assumption.
      pose proof (trmv_LLt (dnx D (S ss)) (dnu D (S ss)) (k_L wb (S ss)) v (dnu D (S ss)) (k_nux w) j Hj) as T. cbv zeta in T. rewrite T. unfold VPs. lra.
    - unfold GEMV_N. rewrite vset0 by assumption. cbn [Nat.add]. rewrite fsum_R. rsimp. rewrite R_lit11. rewrite P0 by assumption. lra. }
  destruct s as [p1 nux1]. cbn [fst] in PS.
  unfold stp_post, same_lhs. cbn [k_BAbt k_L k_P k_Zs k_Pb k_ux k_pi].
  assert (U0 : upd (upd (k_ux w) ss ux) (S ss) v ss = ux) by (rewrite upd_other by lia; apply upd_same). rewrite U0. rewrite !upd_same.
  split; [rewrite A1, A2, A3; repeat split|]. split; [|split; [|split; [exact V1|split; [exact V2|split; [exact PS|split]]]]].
  - intros k Hk. rewrite T1 by assumption. apply Ha. exact Hk.
  - intros i Hi. rewrite <- Ha' by assumption. destruct (Nat.lt_ge_cases i (nux qp ss)); [apply T2; lia|apply T3; lia].
  - intros t H1 H2. rewrite !upd_other by assumption. reflexivity.
  - intros t H1. rewrite upd_other by assumption. reflexivity.
Qed.

Definition fw_post (w' : kws R) : Prop :=
  (forall ss k, (ss <= N)%nat -> (k < nf qp ss)%nat -> rsum (nux qp ss) (fun r => lt (k_L wb ss) r k * k_ux w' ss r) = - k_ux wb ss k) /\
  (forall ss j, (ss < N)%nat -> (j < dnx D (S ss))%nat -> k_ux w' (S ss) (dnu D (S ss) + j)%nat = rsum (nux qp ss) (fun i => q_BAbt qp ss i j * k_ux w' ss i) + q_b qp ss j) /\
  (forall ss j, (ss < N)%nat -> (j < dnx D (S ss))%nat -> k_pi w' ss j = rsum (dnx D (S ss)) (fun m => vP (S ss) j m * k_ux w' (S ss) (dnu D (S ss) + m)%nat) + vp (S ss) j) /\
  (forall ss i, (ss <= N)%nat -> (nux qp ss <= i)%nat -> k_ux w' ss i = k_ux wb ss i) /\ same_lhs wb w'.

Lemma fwd_solve_R : fw_post (fwd_solve sq true qp wb).
Proof.
  unfold fwd_solve. change (dnu D 0 + dnx D 0)%nat with (nux qp 0). set (w1 := fwd_mid _ _ _ _ 0 wb).
  assert (G : forall K, (K < N)%nat -> let w' := loop K (fun k w => fwd_mid sq true qp (dnu D (k + 1)) (k + 1) w) w1 in
    same_lhs wb w' /\
    (forall ss k, (ss <= K)%nat -> (k < nf qp ss)%nat -> rsum (nux qp ss) (fun r => lt (k_L wb ss) r k * k_ux w' ss r) = - k_ux wb ss k) /\
    (forall ss j, (ss <= K)%nat -> (j < dnx D (S ss))%nat -> k_ux w' (S ss) (dnu D (S ss) + j)%nat = rsum (nux qp ss) (fun i => q_BAbt qp ss i j * k_ux w' ss i) + q_b qp ss j) /\
    (forall ss j, (ss <= K)%nat -> (j < dnx D (S ss))%nat -> k_pi w' ss j = rsum (dnx D (S ss)) (fun m => vP (S ss) j m * k_ux w' (S ss) (dnu D (S ss) + m)%nat) + vp (S ss) j) /\
    (forall ss i, (nux qp ss <= i)%nat -> k_ux w' ss i = k_ux wb ss i) /\
    (forall ss i, (K < ss)%nat -> (i < dnu D ss)%nat -> k_ux w' ss i = k_ux wb ss i) /\
    (forall ss, (S K < ss)%nat -> k_ux w' ss = k_ux wb ss)).
  { induction K as [|K IH]; intros HK; cbv zeta.
    - cbn [loop]. unfold w1. destruct (fwd_mid_R wb 0 (nux qp 0) (same_refl wb) HN ltac:(unfold nf; cbn; lia)) as (S1 & S5 & S6 & S7 & S8 & S9 & S10 & S11). set (w' := fwd_mid _ _ _ _ 0 wb) in *. clearbody w'.
      split; [exact S1|]. split; [|split; [|split; [|split; [|split]]]].
      + intros ss k Hss Hk. assert (ss = 0%nat) as -> by lia. apply S5. exact Hk.
      + intros ss j Hss Hj. assert (ss = 0%nat) as -> by lia. apply S7. exact Hj.
      + intros ss j Hss Hj. assert (ss = 0%nat) as -> by lia. apply S9. exact Hj.
      + intros ss i Hi. destruct (Nat.eq_dec ss 0) as [->|N0]; [apply S6; exact Hi|]. destruct (Nat.eq_dec ss 1) as [->|N1]; [apply S8; right; exact Hi|]. rewrite S10 by assumption. reflexivity.
      + intros ss i Hss Hi. destruct (Nat.eq_dec ss 1) as [->|N1]; [apply S8; left; exact Hi|]. rewrite S10 by lia. reflexivity.
      + intros ss Hss. apply S10; lia.
    - specialize (IH ltac:(lia)). cbv zeta in IH. cbn [loop]. set (wk := loop K _ w1) in *. clearbody wk. destruct IH as (I1 & I5 & I6 & I7 & I8 & I9 & I10).
      rewrite Nat.add_1_r. assert (Hnf : nf qp (S K) = dnu D (S K)) by reflexivity.
      destruct (fwd_mid_R wk (S K) (dnu D (S K)) I1 HK ltac:(lia)) as (S1 & S5 & S6 & S7 & S8 & S9 & S10 & S11). set (w' := fwd_mid _ _ _ _ _ wk) in *. clearbody w'.
      assert (U : forall ss, (ss <= K)%nat -> k_ux w' ss = k_ux wk ss) by (intros; apply S10; lia).
      assert (U1 : forall j, k_ux w' (S K) (dnu D (S K) + j)%nat = k_ux wk (S K) (dnu D (S K) + j)%nat) by (intros; apply S6; lia).
      split; [eapply same_trans; eassumption|]. split; [|split; [|split; [|split; [|split]]]].
      + intros ss k Hss Hk. destruct (Nat.eq_dec ss (S K)) as [->|Hne].
        * rewrite S5 by (rewrite <- Hnf; exact Hk). f_equal. apply I9; [lia|rewrite <- Hnf; exact Hk].
        * rewrite (U ss) by lia. apply I5; [lia|exact Hk].
      + intros ss j Hss Hj. destruct (Nat.eq_dec ss (S K)) as [->|Hne]; [apply S7; exact Hj|]. rewrite (U ss) by lia.
        destruct (Nat.eq_dec (S ss) (S K)) as [E|Hne2].
        * injection E as ->. rewrite U1. apply I6; [lia|exact Hj].
        * rewrite (U (S ss)) by lia. apply I6; [lia|exact Hj].
      + intros ss j Hss Hj. destruct (Nat.eq_dec ss (S K)) as [->|Hne].
        { rewrite S9 by exact Hj. f_equal. unfold nxt. rewrite I10 by lia. reflexivity. }
        rewrite (S11 ss) by lia. rewrite I7 by (try assumption; lia). f_equal. apply rsum_ext. intros m Hm. f_equal.
        destruct (Nat.eq_dec (S ss) (S K)) as [E|Hne2].
        * injection E as ->. rewrite U1. reflexivity.
        * rewrite (U (S ss)) by lia. reflexivity.
      + intros ss i Hi. rewrite <- I8 by exact Hi. destruct (Nat.eq_dec ss (S K)) as [->|N0]; [apply S6; unfold nux in Hi; lia|]. destruct (Nat.eq_dec ss (S (S K))) as [->|N1]; [apply S8; right; exact Hi|]. rewrite S10 by assumption. reflexivity.
      + intros ss i Hss Hi. rewrite <- I9 by (try assumption; lia). destruct (Nat.eq_dec ss (S (S K))) as [->|N1]; [apply S8; left; exact Hi|]. rewrite S10 by lia. reflexivity.
      + intros ss Hss. rewrite S10 by lia. apply I10. lia. }
  specialize (G (N - 1)%nat ltac:(lia)). cbv zeta in G. set (w2 := loop (N - 1) _ w1) in *. clearbody w2. clear w1. destruct G as (I1 & I5 & I6 & I7 & I8 & I9 & _).
  assert (HdL : forall k, (k < dnu D N)%nat -> k_L wb N k k <> 0). { intros k Hk. apply Rgt_not_eq. destruct HLb as (_ & L2 & _). apply L2; [lia|]. unfold nf. destruct (Nat.eqb_spec N 0); [lia|exact Hk]. }
  unfold fwd_end. change (dnu D N + dnx D N)%nat with (nux qp N).
  assert (EL : k_L w2 N = k_L wb N) by (destruct I1 as (_ & E & _); rewrite E; reflexivity). rewrite EL.
  set (a := VECSC _ _ _ _). set (ux := TRSV_LTN_MN _ _ _ _ _ _ _ _ _).
  pose proof (trsv_ltn_R (nux qp N) (dnu D N) (k_L wb N) a a ltac:(unfold nux; lia) HdL) as T. cbv zeta in T. fold ux in T. clearbody ux. destruct T as (T1 & T2 & T3).
  assert (Ha : forall k, (k < dnu D N)%nat -> a k = - k_ux wb N k). { intros k Hk. unfold a, VECSC. rewrite vset0 by assumption. cbn [Nat.add]. rsimp. rewrite R_lit11. rewrite (I9 N k) by (try assumption; lia). lra. }
  assert (Ha' : forall i, (dnu D N <= i)%nat -> a i = k_ux w2 N i). { intros i Hi. unfold a, VECSC. apply vset_out. lia. }
  assert (Hux : forall i, (dnu D N <= i)%nat -> ux i = k_ux w2 N i).
  { intros i Hi. rewrite <- Ha' by assumption. destruct (Nat.lt_ge_cases i (nux qp N)); [apply T2; lia|apply T3; lia]. }
  unfold fw_post. cbn [k_L k_ux k_pi].
  assert (U : forall ss, (ss < N)%nat -> upd (k_ux w2) N ux ss = k_ux w2 ss) by (intros; apply upd_other; lia).
  split; [|split; [|split; [|split]]].
  - intros ss k Hss Hk. destruct (Nat.eq_dec ss N) as [->|Hne].
    + rewrite upd_same. unfold nf in Hk. destruct (Nat.eqb_spec N 0); [lia|]. rewrite T1 by assumption. apply Ha. exact Hk.
    + rewrite (U ss) by lia. apply I5; [lia|exact Hk].
  - intros ss j Hss Hj. rewrite (U ss) by lia. rewrite <- I6 by (try assumption; lia). destruct (Nat.eq_dec (S ss) N) as [E|Hne].
    + rewrite E. rewrite upd_same. apply Hux. lia.
    + rewrite (U (S ss)) by lia. reflexivity.
  - intros ss j Hss Hj. rewrite I7 by (try assumption; lia). f_equal. apply rsum_ext. intros m Hm. f_equal. destruct (Nat.eq_dec (S ss) N) as [E|Hne].
    + rewrite E. rewrite upd_same. symmetry. apply Hux. lia.
    + rewrite (U (S ss)) by lia. reflexivity.
  - intros ss i Hss Hi. rewrite <- I8 by exact Hi. destruct (Nat.eq_dec ss N) as [->|Hne].
    + rewrite upd_same. apply Hux. unfold nux in Hi. lia.
    + rewrite (U ss) by lia. reflexivity.
  - destruct I1 as (A1 & A2 & A3 & A4 & A5). unfold same_lhs. cbn [k_BAbt k_L k_P k_Zs k_Pb]. repeat split; assumption.
Qed.
End Swp.

(** ** both sweeps: the eliminated Newton system is solved *)
Section Sol.
Variables (qp : oqp R) (reg : R) (Gam gam : nat -> rvec).
Notation D := (q_dim qp).
Notation N := (dN D).
Hypothesis Hwf : qp_wf qp.
Hypothesis HN : (1 <= N)%nat.
Variables (sq usePb : bool) (rho : nat -> rvec).

Lemma sweeps_R w : lhs_ok qp reg Gam sq rho w -> (usePb = true -> Pb_ok qp sq w) ->
  let w2 := fwd_solve sq true qp (backward sq usePb qp Gam gam w) in
  same_lhs w w2 /\
  (forall ss k, (ss <= N)%nat -> (k < 2 * dns D ss)%nat -> k_Zs w2 ss k = Zq qp ss reg (Gam ss) k /\ k_ux w2 ss (nux qp ss + k)%nat = Rq qp ss (gam ss) k) /\
  (forall ss j, (ss < N)%nat -> (j < dnx D (S ss))%nat -> k_ux w2 (S ss) (dnu D (S ss) + j)%nat = rsum (nux qp ss) (fun i => q_BAbt qp ss i j * k_ux w2 ss i) + q_b qp ss j) /\
  (forall ss i, (ss <= N)%nat -> (i < nux qp ss)%nat ->
    rsum (nux qp ss) (fun j => stH qp reg Gam (rho ss) ss i j * k_ux w2 ss j) + sth qp reg Gam gam ss i
    + (if (ss <? N)%nat then rsum (dnx D (S ss)) (fun l => q_BAbt qp ss i l * k_pi w2 ss l) else 0)
    - (if ((0 <? ss) && (dnu D ss <=? i))%nat then k_pi w2 (ss - 1)%nat (i - dnu D ss)%nat else 0) = 0).
Proof.
  intros HL HPb. cbv zeta. destruct (backward_R qp reg Gam gam Hwf HN sq usePb rho w HL HPb) as (B1 & B2). set (wb := backward _ _ _ _ _ w) in *. clearbody wb.
  pose proof (same_ok qp reg Gam sq rho w wb B1 HL) as HLb.
  destruct (fwd_solve_R qp reg Gam HN sq rho wb HLb) as (G1 & G2 & G3 & G4 & G5). set (w2 := fwd_solve _ _ _ wb) in *. clearbody w2.
  pose proof (same_trans w wb w2 B1 G5) as HS. split; [exact HS|]. split; [|split; [exact G2|]].
  - intros ss k Hss Hk. destruct HL as (_ & _ & L3 & _). split; [destruct HS as (_ & _ & _ & E & _); rewrite E; apply L3; assumption|].
    rewrite G4 by lia. apply B2; assumption.
  - intros ss i Hss Hi. destruct HLb as (L1 & L2 & L3 & L4 & L5).
    set (wf := mkkws (k_BAbt wb) (fun s r c => if (r =? nux qp s)%nat then k_ux wb s c else k_L wb s r c) (k_dA wb) (k_P wb) (k_AL0 wb) (k_AL1 wb) (k_Ls wb) (k_Zs wb) (k_tmp wb) (k_nux wb) (k_Pb wb) (k_l wb) (k_ux wb) (k_pi wb)).
    assert (Elt : forall s r c, (r < nux qp s)%nat -> lt (k_L wf s) r c = lt (k_L wb s) r c).
    { intros s r c Hr. unfold lt, wf. cbn [k_L]. destruct (c <=? r)%nat; [|reflexivity]. destruct (Nat.eqb_spec r (nux qp s)); [lia|reflexivity]. }
    assert (Erow : forall s k, k_L wf s (nux qp s) k = k_ux wb s k) by (intros; unfold wf; cbn [k_L]; rewrite Nat.eqb_refl; reflexivity).
    assert (Eff : forall s r c, (r < nux qp s)%nat -> k_L wf s r c = k_L wb s r c).
    { intros s r c Hr. unfold wf. cbn [k_L]. destruct (Nat.eqb_spec r (nux qp s)); [lia|reflexivity]. }
    clearbody wf.
    assert (FP : fwd_post qp (valP qp sq wb) (nxt qp wb) wb w2 -> True) by trivial. clear FP.
    assert (EV : forall s, valP qp sq w s = valP qp sq wb s) by (intros s; unfold valP; destruct B1 as (_ & E2 & E3 & _); rewrite E2, E3; reflexivity).
    set (wf' := mkkws (k_BAbt wf) (k_L wf) (k_dA wf) (k_P wf) (k_AL0 wf) (k_AL1 wf) (k_Ls wf) (k_Zs w2) (k_tmp wf) (k_nux wf) (k_Pb wf) (k_l wf) (k_ux wb) (k_pi wf)).
    apply (stat_elim qp reg Gam gam (valP qp sq wb) (nxt qp wb) (rho ss) wf' w2 ss Hss HN L4); [| |exact Hi].
    + change (k_L wf' ss) with (k_L wf ss). split; [|split].
      * intros i0 j0 Hi0 Hj0. rewrite L1 by assumption. f_equal; [|destruct (ss =? 0)%nat; reflexivity]. apply rsum_ext. intros k Hk. rewrite !Elt by assumption. reflexivity.
      * intros i0 Hi0. destruct (B2 ss Hss) as (X1 & _). specialize (X1 i0 Hi0). rewrite EV in X1. rewrite X1. f_equal; [|destruct (ss =? 0)%nat; reflexivity]. apply rsum_ext. intros k Hk. rewrite Erow, Elt by assumption.
        destruct B1 as (_ & E2 & _). rewrite E2. reflexivity.
      * intros k Hk. rewrite Eff by (pose proof (nf_le qp ss); lia). apply L2; assumption.
    + change (fwd_post qp (valP qp sq wb) (nxt qp wb) wf' w2). split; [|split; [|split; [|split]]].
      * intros s k Hs Hk. change (k_L wf' s) with (k_L wf s). rewrite Erow. rewrite <- G1 by assumption. apply rsum_ext. intros r Hr. rewrite Elt by assumption. reflexivity.
      * exact G2.
      * exact G3.
      * exact G4.
      * reflexivity.
Qed.
End Sol.
