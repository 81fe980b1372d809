(** RicProps.v -- C66: the feedback law and value function returned by the Riccati getters (OCP_QP_IPM_GET_RIC_K, _K_VEC, _P, _P_VEC, _LR, _LS, _LR_VEC).
    Specification: ResSpec.v (the QP), NewtonUniq.v (newton_solution), SensSpec.v (which factorisation and calls came before), RicSpec.v.
    K is stored column-major with leading dimension nu, P with leading dimension nx.  Exact arithmetic unless said otherwise. *)
From Coq Require Import ZArith Bool Arith Lia Reals Lra.
From Coq Require Import Floats.SpecFloat.
From Verif Require Import Base ArithF RSum Blas CoreModel CoreProofs OcpModel ResSpec KktSpec ResProofs ResProofs2 ResProps CholProofs KktModel KktProofs KktProofs2 KktProofs3 KktProofs4 KktProofs5 KktProofs6 KktProofs7 KktProps.
From Verif Require Import SolveModel SolveProofs SolveProofs2 SolveProofs3 NewtonUniq SolveProps QpDataModel SensModel SensSpec SensProofs SensProofs2 SensProps RicModel RicSpec RicProofs RicProofs2 RicProofs3.
Local Open Scope R_scope.

Lemma session_ok sq a (qp : oqp R) preg tinv Gam bkp s0 : ric_setting a qp bkp -> ric_session sq a qp preg tinv Gam bkp s0 -> exists w0,
  (forall ss c, (ss <= dN (q_dim qp))%nat -> (c < nct (q_dim qp) ss)%nat -> tinv ss c = 1 / a_t a ss c /\ Gam ss c = wgt a ss c) /\
  lhs_ok qp (a_reg a) Gam sq (reg_diag qp (a_reg a) preg) w0 /\ forall s, getters sq a qp tinv Gam bkp s0 s -> ric_ok sq a qp preg Gam w0 s.
Proof.
  intros (Hwf & HN & Hinj & Hm & Hip & Hmz & Hd & Hb) (pb & bX & w0 & Hf & Hh & Hv). exists w0.
  destruct (factored_ok sq a qp Hwf HN Hip pb bX preg tinv Gam w0 Hf) as (HtG & HL & _). split; [exact HtG|]. split; [exact HL|].
  intros s Hs. eapply (getters_ok sq a qp); try eassumption. split; [|rewrite Hv; discriminate].
  eapply history_keeps; eassumption.
Qed.

(** C66: a getter returns the same values whatever getters were called before it and whatever the output array held. *)
Theorem C66_repeatable sq a (qp : oqp R) preg tinv Gam bkp s0 s s' : ric_setting a qp bkp -> ric_session sq a qp preg tinv Gam bkp s0 ->
  getters sq a qp tinv Gam bkp s0 s -> getters sq a qp tinv Gam bkp s0 s' ->
  let D := q_dim qp in forall i, (i <= dN D)%nat -> forall o o' m0 m1 m0' m1',
  (forall r m, (r < dnu D i)%nat -> (m < dnx D i)%nat -> fst (get_K qp i s o) (r + m * dnu D i)%nat = fst (get_K qp i s' o') (r + m * dnu D i)%nat) /\
  (forall r, (r < dnu D i)%nat -> fst (get_k sq a qp bkp tinv Gam i s o) r = fst (get_k sq a qp bkp tinv Gam i s' o') r) /\
  (forall j m, (j < dnx D i)%nat -> (m < dnx D i)%nat -> get_P sq qp i s m0 m1 o (j + m * dnx D i)%nat = get_P sq qp i s' m0' m1' o' (j + m * dnx D i)%nat) /\
  (forall j, (j < dnx D i)%nat -> fst (get_p sq a qp bkp tinv Gam i s o) j = fst (get_p sq a qp bkp tinv Gam i s' o') j) /\
  (forall r, (r < dnu D i)%nat -> fst (get_lr sq a qp bkp tinv Gam i s o) r = fst (get_lr sq a qp bkp tinv Gam i s' o') r).
Proof.
  intros HS H0 Hs Hs'. cbv zeta. intros i Hi o o' m0 m1 m0' m1'. destruct (session_ok sq a qp preg tinv Gam bkp s0 HS H0) as (w0 & HtG & HL & Hok). destruct HS as (Hwf & HN & Hinj & Hm & Hip & Hmz & Hd & Hb).
  destruct (getters_same sq a qp Hwf HN Hinj Hm Hip Hmz Hd preg tinv Gam w0 bkp HtG HL Hb s s' (Hok s Hs) (Hok s' Hs')) as (A & B & C & E & F).
  split; [|split; [|split; [|split]]]; intros; auto.
Qed.

(** C66: the returned K_i, k_i, P_i, p_i describe the solution of the Newton (KKT) system: u_i = K_i x_i + k_i on every stage, the multiplier of the
    dynamics into stage i is P_i x_i + p_i, and P_0 x_0 + p_0 = 0. *)
Theorem C66_newton_law sq a (qp : oqp R) preg tinv Gam bkp s0 : ric_setting a qp bkp -> ric_session sq a qp preg tinv Gam bkp s0 ->
  let D := q_dim qp in exists st, newton_solution a qp preg st /\ forall s, getters sq a qp tinv Gam bkp s0 s -> forall o o' m0 m1,
  (forall i r, (i <= dN D)%nat -> (r < dnu D i)%nat -> s_ux st i r = affine (dnu D i) (dnx D i) (fst (get_K qp i s o)) (fst (get_k sq a qp bkp tinv Gam i s o')) (st_x D st i) r) /\
  (forall i j, (1 <= i <= dN D)%nat -> (j < dnx D i)%nat -> s_pi st (i - 1)%nat j = affine (dnx D i) (dnx D i) (get_P sq qp i s m0 m1 o) (fst (get_p sq a qp bkp tinv Gam i s o')) (st_x D st i) j) /\
  (forall j, (j < dnx D 0)%nat -> affine (dnx D 0) (dnx D 0) (get_P sq qp 0 s m0 m1 o) (fst (get_p sq a qp bkp tinv Gam 0 s o')) (st_x D st 0) j = 0).
Proof.
  intros HS H0. cbv zeta. destruct (session_ok sq a qp preg tinv Gam bkp s0 HS H0) as (w0 & HtG & HL & Hok). destruct HS as (Hwf & HN & Hinj & Hm & Hip & Hmz & Hd & Hb).
  destruct (newton_law sq a qp Hwf HN Hinj Hm Hip Hmz Hd preg tinv Gam w0 bkp HtG HL Hb s0 (Hok s0 (g_0 _ _ _ _ _ _ _))) as (st & A & B & C & E).
  exists st. split; [exact A|]. intros s Hs o o' m0 m1.
  destruct (getters_same sq a qp Hwf HN Hinj Hm Hip Hmz Hd preg tinv Gam w0 bkp HtG HL Hb s0 s (Hok s0 (g_0 _ _ _ _ _ _ _)) (Hok s Hs)) as (SK & Sk & SP & Sp & _).
  unfold affine, st_x. split; [|split].
  - intros i r Hi Hr. rewrite (B i r o o') by assumption. rewrite (Sk i r o' o') by assumption. f_equal. apply rsum_ext. intros m Hmm. rewrite (SK i r m o o) by assumption. reflexivity.
  - intros i j Hi Hj. rewrite (C i j m0 m1 o o') by assumption. rewrite (Sp i j o' o') by (try lia; assumption). f_equal. apply rsum_ext. intros m Hmm. rewrite (SP i j m m0 m1 o m0 m1 o) by (try lia; assumption). reflexivity.
  - intros j Hj. rewrite <- (E j m0 m1 o o') by assumption. rewrite (Sp 0%nat j o' o') by (try lia; assumption). f_equal. apply rsum_ext. intros m Hmm. rewrite (SP 0%nat j m m0 m1 o m0 m1 o) by (try lia; assumption). reflexivity.
Qed.
(** C66: for a strictly convex QP the Newton system has one solution, so the law holds for the step every KKT solve computes. *)
Theorem C66_newton_law_convex sq a (qp : oqp R) tinv Gam bkp s0 s st : ric_setting a qp bkp -> ipm_convex a qp ->
  ric_session sq a qp (a_reg a) tinv Gam bkp s0 -> getters sq a qp tinv Gam bkp s0 s -> newton_solution a qp (a_reg a) st ->
  let D := q_dim qp in forall o o' m0 m1,
  (forall i r, (i <= dN D)%nat -> (r < dnu D i)%nat -> s_ux st i r = affine (dnu D i) (dnx D i) (fst (get_K qp i s o)) (fst (get_k sq a qp bkp tinv Gam i s o')) (st_x D st i) r) /\
  (forall i j, (1 <= i <= dN D)%nat -> (j < dnx D i)%nat -> s_pi st (i - 1)%nat j = affine (dnx D i) (dnx D i) (get_P sq qp i s m0 m1 o) (fst (get_p sq a qp bkp tinv Gam i s o')) (st_x D st i) j) /\
  (forall j, (j < dnx D 0)%nat -> affine (dnx D 0) (dnx D 0) (get_P sq qp 0 s m0 m1 o) (fst (get_p sq a qp bkp tinv Gam 0 s o')) (st_x D st 0) j = 0).
Proof.
  intros HS Hc H0 Hs HN. cbv zeta. intros o o' m0 m1. destruct (C66_newton_law sq a qp (a_reg a) tinv Gam bkp s0 HS H0) as (s1 & A & B). destruct (B s Hs o o' m0 m1) as (B1 & B2 & B3).
  destruct HS as (Hwf & Hn & Hinj & Hm & Hip & Hmz & Hd & Hb).
  destruct (C27_newton_unique a qp st s1 Hc Hm (fun i c Hi Hcc E => proj1 (ip_mask _ _ Hip i c Hi Hcc E)) HN A) as (E1 & E2 & _).
  assert (EA : forall i ld M v r, (i <= dN (q_dim qp))%nat -> affine ld (dnx (q_dim qp) i) M v (st_x (q_dim qp) st i) r = affine ld (dnx (q_dim qp) i) M v (st_x (q_dim qp) s1 i) r).
  { intros i ld M v r Hi. unfold affine, st_x. f_equal. apply rsum_ext. intros m Hmm. rewrite E1 by (try assumption; unfold nvt; lia). reflexivity. }
  split; [|split].
  - intros i r Hi Hr. rewrite EA by assumption. rewrite E1 by (try assumption; unfold nvt; lia). apply B1; assumption.
  - intros i j Hi Hj. rewrite EA by lia. rewrite E2 by (try lia; replace (S (i - 1)) with i by lia; assumption). apply B2; assumption.
  - intros j Hj. rewrite EA by lia. apply B3. exact Hj.
Qed.

(** C66: the law holds from every state: for every stage i0 and every x there is a trajectory x_{i0} = x, u_i = K_i x_i + k_i which, with multipliers
    P_i x_i + p_i, satisfies the Newton equations of all stages from i0 on; started on stage 0 the gradient with respect to x is P_0 x + p_0. *)
Theorem C66_every_state sq a (qp : oqp R) preg tinv Gam bkp s0 i0 (x : nat -> R) : ric_setting a qp bkp -> ric_session sq a qp preg tinv Gam bkp s0 -> (i0 <= dN (q_dim qp))%nat ->
  let D := q_dim qp in exists st,
  (forall j, (j < dnx D i0)%nat -> st_x D st i0 j = x j) /\
  (forall i j, (i0 <= i < dN D)%nat -> (j < dnx D (S i))%nat -> dyn qp (s_ux st) i j = 0) /\
  (forall i c, (i0 <= i <= dN D)%nat -> (c < nct D i)%nat -> q_d qp i c + s_t st i c - con qp (s_ux st) i c = 0) /\
  (forall i c, (i0 <= i <= dN D)%nat -> (c < nct D i)%nat -> q_m qp i c + a_lam a i c * s_t st i c + s_lam st i c * a_t a i c = 0) /\
  forall s, getters sq a qp tinv Gam bkp s0 s -> forall o o' m0 m1,
  (forall i r, (i0 <= i <= dN D)%nat -> (r < dnu D i)%nat -> s_ux st i r = affine (dnu D i) (dnx D i) (fst (get_K qp i s o)) (fst (get_k sq a qp bkp tinv Gam i s o')) (st_x D st i) r) /\
  (forall i j, (i0 <= i <= dN D)%nat -> (1 <= i)%nat -> (j < dnx D i)%nat -> s_pi st (i - 1)%nat j = affine (dnx D i) (dnx D i) (get_P sq qp i s m0 m1 o) (fst (get_p sq a qp bkp tinv Gam i s o')) (st_x D st i) j) /\
  (forall i k, (i0 <= i <= dN D)%nat -> (k < nvt D i)%nat -> kkt_g qp (s_ux st) (s_pi st) (s_lam st) i k + reg_diag qp (a_reg a) preg i k * s_ux st i k
      = if ((i =? 0) && (dnu D 0 <=? k) && (k <? nux qp 0))%nat then affine (dnx D 0) (dnx D 0) (get_P sq qp 0 s m0 m1 o) (fst (get_p sq a qp bkp tinv Gam 0 s o')) (st_x D st 0) (k - dnu D 0) else 0).
Proof.
  intros HS H0 Hi0. cbv zeta. destruct (session_ok sq a qp preg tinv Gam bkp s0 HS H0) as (w0 & HtG & HL & Hok). destruct HS as (Hwf & HN & Hinj & Hm & Hip & Hmz & Hd & Hb).
  destruct (every_state sq a qp Hwf HN Hinj Hm Hip Hmz Hd preg tinv Gam w0 bkp HtG HL Hb s0 i0 x (Hok s0 (g_0 _ _ _ _ _ _ _)) Hi0) as (st & T1 & T2 & T3 & T4 & T5 & T6 & T7).
  exists st. split; [exact T1|]. split; [exact T5|]. split; [exact T6|]. split; [exact T7|]. intros s Hs o o' m0 m1.
  destruct (getters_same sq a qp Hwf HN Hinj Hm Hip Hmz Hd preg tinv Gam w0 bkp HtG HL Hb s0 s (Hok s0 (g_0 _ _ _ _ _ _ _)) (Hok s Hs)) as (SK & Sk & SP & Sp & _).
  unfold affine, st_x. split; [|split].
  - intros i r Hi Hr. rewrite (T2 i r o o') by assumption. rewrite (Sk i r o' o') by (try lia; assumption). f_equal. apply rsum_ext. intros m Hmm. rewrite (SK i r m o o) by (try lia; assumption). reflexivity.
  - intros i j Hi H1 Hj. rewrite (T3 i j m0 m1 o o') by assumption. rewrite (Sp i j o' o') by (try lia; assumption). f_equal. apply rsum_ext. intros m Hmm. rewrite (SP i j m m0 m1 o m0 m1 o) by (try lia; assumption). reflexivity.
  - intros i k Hi Hk. rewrite (T4 i k m0 m1 o o') by assumption. destruct (Nat.eqb_spec i 0) as [->|]; cbn [andb]; [|reflexivity].
    destruct (Nat.leb_spec (dnu (q_dim qp) 0) k); cbn [andb]; [|reflexivity]. destruct (Nat.ltb_spec k (nux qp 0)) as [Hlt|]; [|reflexivity]. unfold nux in Hlt.
    rewrite (Sp 0%nat _ o' o') by (try lia). f_equal. apply rsum_ext. intros m Hmm. rewrite (SP 0%nat _ m m0 m1 o m0 m1 o) by (try lia). reflexivity.
Qed.

(** C66: the factor getters are consistent with the gains: with Lr the lower triangle returned by GET_RIC_LR (positive diagonal), Lr' K = - Ls' and Lr' k = - lr. *)
Theorem C66_factors sq a (qp : oqp R) preg tinv Gam bkp s0 s : ric_setting a qp bkp -> ric_session sq a qp preg tinv Gam bkp s0 -> getters sq a qp tinv Gam bkp s0 s ->
  let D := q_dim qp in forall i k o oK ol, (i <= dN D)%nat -> (k < dnu D i)%nat ->
  0 < get_Lr qp i s o (k + k * dnu D i)%nat /\
  (forall m, (m < dnx D i)%nat -> rsum (dnu D i) (fun r => (if (k <=? r)%nat then get_Lr qp i s o (r + k * dnu D i)%nat else 0) * fst (get_K qp i s oK) (r + m * dnu D i)%nat) = - get_Ls qp i s ol (m + k * dnx D i)%nat) /\
  rsum (dnu D i) (fun r => (if (k <=? r)%nat then get_Lr qp i s o (r + k * dnu D i)%nat else 0) * fst (get_k sq a qp bkp tinv Gam i s oK) r) = - fst (get_lr sq a qp bkp tinv Gam i s ol) k.
Proof.
  intros HS H0 Hs. cbv zeta. intros i k o oK ol Hi Hk. destruct (session_ok sq a qp preg tinv Gam bkp s0 HS H0) as (w0 & HtG & HL & Hok). destruct HS as (Hwf & HN & Hinj & Hm & Hip & Hmz & Hd & Hb).
  pose proof (Hok s Hs) as Hr. destruct (law_get sq a qp Hwf HN Hinj Hm Hip Hmz Hd preg tinv Gam w0 bkp HtG HL Hb s Hr) as (gam & lv & pp & st & A1 & A2 & A3 & A4 & A5 & A6 & A7 & _).
  assert (EL : k_L (ri_w s) = k_L w0) by apply Hr.
  assert (ELr : forall r c, (r < dnu (q_dim qp) i)%nat -> (c < dnu (q_dim qp) i)%nat -> get_Lr qp i s o (r + c * dnu (q_dim qp) i)%nat = k_L w0 i r c).
  { intros r c Hrr Hc. unfold get_Lr. rewrite QpDataProofs.CVT_in; [|apply idx_lt; assumption|reflexivity]. rewrite idx_mod, idx_div by assumption. rewrite EL. reflexivity. }
  assert (ELt : forall r, (r < dnu (q_dim qp) i)%nat -> (if (k <=? r)%nat then get_Lr qp i s o (r + k * dnu (q_dim qp) i)%nat else 0) = lt (k_L w0 i) r k).
  { intros r Hrr. rewrite ELr by assumption. reflexivity. }
  split; [|split].
  - rewrite ELr by assumption. destruct A2 as (_ & _ & A & _). apply A; assumption.
  - intros m Hmm. unfold get_Ls. rewrite QpDataProofs.CVT_in; [|apply idx_lt; assumption|reflexivity]. rewrite idx_mod, idx_div by assumption. rewrite EL. cbn [Nat.add].
    rewrite <- (A3 i Hi k m oK) by assumption. apply rsum_ext. intros r Hrr. rewrite ELt by assumption. reflexivity.
  - rewrite A7 by assumption. rewrite <- (A4 i Hi k oK) by assumption. apply rsum_ext. intros r Hrr. rewrite ELt by assumption. reflexivity.
Qed.

(** ** Where the claim fails (machine arithmetic of the standard library's spec_float) *)
Section Wit.
Notation F := spec_float.
Local Definition rv0 : nat -> F := fun _ => lit 0 1. Local Definition rm0 : nat -> nat -> F := fun _ _ => lit 0 1.
Local Definition rs0 : osol F := mksol rm0 rm0 rm0 rm0.
Local Definition ra : kargs F := mkka (lit 0 1) true (lit 0 1) (fun _ _ => lit 1 1) (fun _ _ => lit 1 1) 0 (lit 0 1) (lit 0 1) (lit 1 1).
Local Definition rw (qp : oqp F) : kws F := mkkws (q_BAbt qp) (fun _ => rm0) rm0 (fun _ => rm0) rm0 rm0 rm0 rm0 rm0 rv0 rm0 rm0 rm0 rm0.
(** 3/2 u^2 + u + 1/2 x_1^2, x_1 = u.  GET_RIC_K_VEC on stage 0 gives the minimiser -1/4.  A forward sensitivity call with seed 8 for the gradient in u
    overwrites the stored vector without marking it invalid: the same getter then returns -2, the sensitivity of u, not the feedback vector. *)
Definition rs_dims : dims := mkdims 1 (fun i => i) (fun i => (1 - i)%nat) (fun _ => 0%nat) (fun _ => 0%nat) (fun _ => 0%nat).
Definition rs_qp : oqp F := mkqp rs_dims (fun _ _ _ => lit 1 1) (fun i _ _ => if (i =? 0)%nat then lit 3 1 else lit 1 1) (fun _ => rm0) rm0 (fun i _ => if (i =? 0)%nat then lit 1 1 else lit 0 1)
  rm0 rm0 rm0 rm0 (fun _ _ => 0%nat) (fun _ _ => (-1)%Z).
Definition rs_run (sq : bool) : option (F * F) :=
  match fact_solve_kkt 0 sq ra rs_qp rm0 rm0 rm0 rs0 (rw rs_qp) with
  | None => None
  | Some (_, _, w) =>
      let '(k1, s1) := get_k sq ra rs_qp rs0 rm0 rm0 0 (mkric w false (negb sq) rs0 rm0) rv0 in
      let '(_, w2) := sens_frw sq ra rs_qp (mkseed (fun i _ => if (i =? 0)%nat then lit 8 1 else lit 0 1) rm0 rm0 rm0) rs0 rm0 rm0 (ri_gam s1) rs0 (ri_w s1) in
      let '(k2, _) := get_k sq ra rs_qp rs0 rm0 rm0 0 (mkric w2 (ri_vec s1) true (ri_it s1) (ri_gam s1)) rv0 in
      Some (k1 0%nat, k2 0%nat)
  end.
Theorem C66_after_sensitivity_refuted (sq : bool) : match rs_run sq with Some (k1, k2) => feqb k1 (fopp (lit 1 4)) = true /\ feqb k2 (fopp (lit 2 1)) = true | None => False end.
Proof. destruct sq; vm_compute; split; reflexivity. Qed.
(** square-root algorithm selected, two states with cost 1/2 (4 x_1^2 + 0 x_2^2) on the last stage: its Cholesky factorisation breaks down and
    OCP_QP_FACT_SOLVE_KKT_STEP repeats the factorisation with the classical algorithm; GET_RIC_P(1) still squares the block of ws->L: 16 instead of 4. *)
Definition rp_dims : dims := mkdims 1 (fun i => (2 * i)%nat) (fun i => (2 - 2 * i)%nat) (fun _ => 0%nat) (fun _ => 0%nat) (fun _ => 0%nat).
Definition rp_qp : oqp F := mkqp rp_dims (fun _ r c => if (r =? c)%nat then lit 1 1 else lit 0 1)
  (fun i r c => if (i =? 0)%nat then (if (r =? c)%nat then lit 1 1 else lit 0 1) else if ((r =? 0) && (c =? 0))%nat then lit 4 1 else lit 0 1) (fun _ => rm0) rm0 rm0
  rm0 rm0 rm0 rm0 (fun _ _ => 0%nat) (fun _ _ => (-1)%Z).
Definition rp_run : option (F * F) :=
  match fact_solve_kkt 1 true ra rp_qp rm0 rm0 rm0 rs0 (rw rp_qp) with
  | None => None
  | Some (_, _, w) => let s := mkric w false true rs0 rm0 in Some (get_P true rp_qp 1 s rm0 rm0 rv0 0%nat, get_P false rp_qp 1 s rm0 rm0 rv0 0%nat)
  end.
Theorem C66_singular_fallback_refuted : match rp_run with Some (p, p') => feqb p (lit 16 1) = true /\ feqb p' (lit 4 1) = true | None => False end.
Proof. vm_compute. split; reflexivity. Qed.
End Wit.

(** The hypotheses are met (problem of KktProps.v; both algorithms, both kinds of factorisation). *)
Example C66_hypotheses_met (sq : bool) : let bkp := mksol (fun _ _ => 0) (fun _ _ => 0) (fun _ _ => 2) (fun _ _ => 3) in
  ric_setting kxa kxqp bkp /\ ipm_convex kxa kxqp /\ exists tinv Gam s0, ric_session sq kxa kxqp (a_reg kxa) tinv Gam bkp s0.
Proof.
  cbv zeta. destruct C45_hypotheses_met as (A & B & C & E & Fc & Cl & Hd & HB). destruct (C46_hypotheses_met sq) as (Hip & Hb & (tinv & Gam & w0 & Hf) & _).
  assert (Hm : mask01 kxqp) by (intros i c Hi Hc; right; apply E; assumption).
  split; [|split; [exact Fc|]].
  - split; [exact A|]. split; [exact B|]. split; [exact C|]. split; [exact Hm|]. split; [exact Hip|]. split; [|split; [exact Hd|exact Hb]].
    intros i c Hi Hc E0. rewrite (E i c Hi Hc) in E0. lra.
  - exists tinv, Gam, (mkric w0 false true (mksol (fun _ _ => 0) (fun _ _ => 0) (fun _ _ => 0) (fun _ _ => 0)) (fun _ _ => 0)). exists true, (fun _ _ => 0), w0. split; [exact Hf|]. split; [apply h_0|reflexivity].
Qed.
Print Assumptions C66_repeatable.
Print Assumptions C66_newton_law.
Print Assumptions C66_newton_law_convex.
Print Assumptions C66_every_state.
Print Assumptions C66_factors.
Print Assumptions C66_after_sensitivity_refuted.
Print Assumptions C66_singular_fallback_refuted.
