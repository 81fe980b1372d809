(** TreeKktProofs3.v -- the two forward substitutions and the backward substitution of the tree Riccati solver. *)
From Coq Require Import ZArith Bool Arith Lia Reals Lra.
From Verif Require Import Base ArithF RSum Blas Blas2 CoreModel CoreProofs OcpModel ResSpec KktSpec ResProofs CholProofs CholPD KktModel KktProofs KktProofs2 KktProofs3 KktProofs4 KktProofs7
  SolveModel SolveProofs SolveProofs2 TreeModel TreeSpec TreeProofs TreeKktModel TreeKktProofs TreeKktProofs2.
Local Open Scope R_scope.

Section Fw.
Variables (T : ttree) (qp : oqp R).
Notation D := (q_dim qp).
Notation N := (dN D).
Hypothesis HT : tree_ok (N + 1) T.
Notation Pk LL k := (VPs (LL k) (dnu D k) (dnx D k)).
Notation ns i := (nsolve qp i).

(** states of kid k *)
Definition gx (i k : nat) (u xk : rvec) : rvec := GEMV_T (nux qp i) (dnx D k) f1 (q_BAbt qp (k - 1)%nat) 0 0 u 0 f1 (q_b qp (k - 1)%nat) 0 xk (dnu D k).
Lemma gx_R i k u xk : (forall j, (j < dnx D k)%nat -> gx i k u xk (dnu D k + j)%nat = rsum (nux qp i) (fun r => q_BAbt qp (k - 1)%nat r j * u r) + q_b qp (k - 1)%nat j) /\
  (forall r, (r < dnu D k \/ nux qp k <= r)%nat -> gx i k u xk r = xk r).
Proof.
  split.
  - intros j Hj. unfold gx, GEMV_T. rewrite vset_o by assumption. cbn [Nat.add]. rewrite fsum_R. rsimp. rewrite R_lit11, !Rmult_1_l. rewrite Rplus_comm. reflexivity.
  - intros r Hr. unfold gx, GEMV_T. apply vset_out. unfold nux in Hr. lia.
Qed.

(** the loop over the kids, for an abstract update of the multipliers: [np k old new tx pi] *)
Section Kids.
Variable (LL : nat -> rmat) (i : nat) (np : nat -> rvec -> rvec -> rvec -> rvec -> rvec * rvec) (pp : nat -> rvec -> rvec).
Hypothesis Hi : (i <= N)%nat.
Hypothesis Hnp : forall k xo xn tx pik j, (j < dnx D k)%nat -> snd (np k xo xn tx pik) j = rsum (dnx D k) (fun m => Pk LL k j m * xn (dnu D k + m)%nat) + pp k xo j.
Definition kbody (jj : nat) (s : (nat -> rvec) * rvec * (nat -> rvec)) : (nat -> rvec) * rvec * (nat -> rvec) :=
  let '(ux, tx, pi) := s in let k := t_kid T i jj in
  let xn := gx i k (ux i) (ux k) in let r := np k (ux k) xn tx (pi (k - 1)%nat) in (upd ux k xn, fst r, upd pi (k - 1)%nat (snd r)).
Lemma kids_R ux tx pi : let '(ux', _, pi') := loop (t_nk T i) kbody (ux, tx, pi) in
  (forall jj j, (jj < t_nk T i)%nat -> let k := t_kid T i jj in (j < dnx D k)%nat -> ux' k (dnu D k + j)%nat = rsum (nux qp i) (fun r => q_BAbt qp (k - 1)%nat r j * ux' i r) + q_b qp (k - 1)%nat j) /\
  (forall jj j, (jj < t_nk T i)%nat -> let k := t_kid T i jj in (j < dnx D k)%nat -> pi' (k - 1)%nat j = rsum (dnx D k) (fun m => Pk LL k j m * ux' k (dnu D k + m)%nat) + pp k (ux k) j) /\
  (forall jj r, (jj < t_nk T i)%nat -> let k := t_kid T i jj in (r < dnu D k \/ nux qp k <= r)%nat -> ux' k r = ux k r) /\
  (forall t, (forall jj, (jj < t_nk T i)%nat -> t <> t_kid T i jj) -> ux' t = ux t) /\
  (forall e, (forall jj, (jj < t_nk T i)%nat -> e <> (t_kid T i jj - 1)%nat) -> pi' e = pi e).
Proof.
  assert (G : forall p, (p <= t_nk T i)%nat -> let '(ux', _, pi') := loop p kbody (ux, tx, pi) in
    (forall jj j, (jj < p)%nat -> let k := t_kid T i jj in (j < dnx D k)%nat -> ux' k (dnu D k + j)%nat = rsum (nux qp i) (fun r => q_BAbt qp (k - 1)%nat r j * ux' i r) + q_b qp (k - 1)%nat j) /\
    (forall jj j, (jj < p)%nat -> let k := t_kid T i jj in (j < dnx D k)%nat -> pi' (k - 1)%nat j = rsum (dnx D k) (fun m => Pk LL k j m * ux' k (dnu D k + m)%nat) + pp k (ux k) j) /\
    (forall jj r, (jj < p)%nat -> let k := t_kid T i jj in (r < dnu D k \/ nux qp k <= r)%nat -> ux' k r = ux k r) /\
    (forall t, (forall jj, (jj < p)%nat -> t <> t_kid T i jj) -> ux' t = ux t) /\
    (forall e, (forall jj, (jj < p)%nat -> e <> (t_kid T i jj - 1)%nat) -> pi' e = pi e)).
  { induction p as [|p IH]; intros Hp.
    - cbn [loop]. split; [intros; lia|]. split; [intros; lia|]. split; [intros; lia|]. split; reflexivity.
    - specialize (IH ltac:(lia)). cbn [loop]. destruct (loop p kbody (ux, tx, pi)) as [[u1 tx1] pi1]. destruct IH as (I1 & I2 & I3 & I4 & I5).
      unfold kbody. set (k := t_kid T i p).
      assert (Hki : (i < k)%nat) by (apply (proj1 HT i p); lia).
      assert (Hkn : forall jj, (jj < p)%nat -> t_kid T i jj <> k). { intros jj Hjj E. assert (jj = p) by (apply (kid_inj T qp HT i jj p Hi); [lia|lia|exact E]). lia. }
      assert (Ek : u1 k = ux k). { apply I4. intros jj Hjj E. apply (Hkn jj Hjj). symmetry. exact E. }
      destruct (gx_R i k (u1 i) (u1 k)) as (G1 & G2). set (xn := gx i k (u1 i) (u1 k)) in *. clearbody xn.
      assert (Epi : forall jj, (jj < p)%nat -> (t_kid T i jj - 1)%nat <> (k - 1)%nat). { intros jj Hjj E. apply (Hkn jj Hjj). pose proof (kid_pos T qp HT i jj Hi ltac:(lia)). lia. }
      split; [|split; [|split; [|split]]].
      + intros jj j Hjj. cbv zeta. intros Hj. assert (Eui : upd u1 k xn i = u1 i) by (apply upd_other; lia). rewrite Eui. destruct (Nat.eq_dec jj p) as [->|Hne].
        * fold k in Hj |- *. rewrite upd_same. apply G1. exact Hj.
        * rewrite upd_other by (apply Hkn; lia). apply I1; [lia|exact Hj].
      + intros jj j Hjj. cbv zeta. intros Hj. destruct (Nat.eq_dec jj p) as [->|Hne].
        * fold k in Hj |- *. rewrite !upd_same. rewrite Hnp by exact Hj. rewrite Ek. reflexivity.
        * rewrite (upd_other _ k) by (apply Hkn; lia). rewrite upd_other by (apply Epi; lia). apply I2; [lia|exact Hj].
      + intros jj r Hjj. cbv zeta. intros Hr. destruct (Nat.eq_dec jj p) as [->|Hne].
        * fold k in Hr |- *. rewrite upd_same. rewrite G2 by exact Hr. rewrite Ek. reflexivity.
        * rewrite upd_other by (apply Hkn; lia). apply I3; [lia|exact Hr].
      + intros t Ht. rewrite upd_other by (apply Ht; lia). apply I4. intros jj Hjj. apply Ht. lia.
      + intros e He. rewrite upd_other by (apply He; lia). apply I5. intros jj Hjj. apply He. lia. }
  apply (G (t_nk T i) (le_n _)).
Qed.
End Kids.

(** solving for the variables of a node *)
Lemma node_u i (L : rmat) (a u0 : rvec) (l : rvec) : (forall k, (k < ns i)%nat -> L k k <> 0) -> (forall k, (k < ns i)%nat -> a k = - l k) -> (forall k, (ns i <= k)%nat -> a k = u0 k) ->
  let u := TRSV_LTN_MN (nux qp i) (ns i) L 0 0 a 0 a 0 in
  (forall k, (k < ns i)%nat -> rsum (nux qp i) (fun r => lt L r k * u r) = - l k) /\ (forall r, (ns i <= r)%nat -> u r = u0 r).
Proof.
  intros Hd Ha Ha'. cbv zeta. pose proof (trsv_ltn_R (nux qp i) (ns i) L a a (ns_le qp i) Hd) as HR. cbv zeta in HR. set (u := TRSV_LTN_MN _ _ _ _ _ _ _ _ _) in *. clearbody u. destruct HR as (T1 & T2 & T3). split.
  - intros k Hk. rewrite T1 by assumption. apply Ha. exact Hk.
  - intros r Hr. rewrite <- Ha' by assumption. destruct (Nat.lt_ge_cases r (nux qp i)); [apply T2; lia|apply T3; lia].
Qed.

(** FACT_SOLVE *)
Definition np1 (LL : nat -> rmat) (k : nat) (xo xn tx pik : rvec) : rvec * rvec :=
  let nx1 := dnx D k in let nu1 := dnu D k in
  let tx := ROWEX nx1 f1 (LL k) (nu1 + nx1) nu1 tx 0 in
  let p := TRMV_LTN nx1 (LL k) nu1 nu1 xn nu1 pik 0 in
  let p := AXPY nx1 f1 tx 0 p 0 p 0 in
  (tx, TRMV_LNN nx1 (LL k) nu1 nu1 p 0 p 0).
Lemma np1_R LL k xo xn tx pik j : (j < dnx D k)%nat -> snd (np1 LL k xo xn tx pik) j = rsum (dnx D k) (fun m => Pk LL k j m * xn (dnu D k + m)%nat) + vps (LL k) (dnu D k) (dnx D k) j.
Proof.
  intros Hj. unfold np1. cbn [snd]. set (nx1 := dnx D k) in *. set (nu1 := dnu D k) in *. set (L1 := LL k).
  set (q1 := TRMV_LTN _ _ _ _ _ _ _ _). set (q2 := AXPY _ _ _ _ q1 _ _ _).
  assert (E1 : forall k, (k < nx1)%nat -> q1 k = rsum nx1 (fun m => lt L1 (nu1 + m) (nu1 + k) * xn (nu1 + m)%nat)).
  { intros c Hc. unfold q1, TRMV_LTN. rewrite vset0 by assumption. rewrite fsum_R. rsimp. rewrite <- (rsum_high nx1 c (fun m => L1 (nu1 + m)%nat (nu1 + c)%nat * xn (nu1 + m)%nat)) by lia.
    apply rsum_ext. intros m Hm. unfold lt. destruct (Nat.leb_spec c m), (Nat.leb_spec (nu1 + c) (nu1 + m)); try lia; lra. }
  assert (E2 : forall k, (k < nx1)%nat -> q2 k = q1 k + L1 (nu1 + nx1)%nat (nu1 + k)%nat).
  { intros c Hc. unfold q2, AXPY. rewrite vset0 by assumption. cbn [Nat.add]. unfold ROWEX. rewrite vset0 by assumption. rsimp. rewrite R_lit11. lra. }
  clearbody q2. unfold TRMV_LNN. rewrite vset0 by assumption. rewrite fsum_R. cbn [Nat.add]. rsimp.
  rewrite <- (rsum_low nx1 j (fun k => L1 (nu1 + j)%nat (nu1 + k)%nat * q2 k)) by assumption.
  rewrite (rsum_ext nx1 _ (fun k => rsum nx1 (fun m => lt L1 (nu1 + j) (nu1 + k) * lt L1 (nu1 + m) (nu1 + k) * xn (nu1 + m)%nat) + L1 (nu1 + nx1)%nat (nu1 + k)%nat * lt L1 (nu1 + j) (nu1 + k))).
  2:{ intros c Hc. unfold lt at 1 3. destruct (Nat.leb_spec c j), (Nat.leb_spec (nu1 + c) (nu1 + j)); try lia.
      - rewrite E2, E1 by assumption. rewrite Rmult_plus_distr_l, <- rsum_scal. f_equal; [apply rsum_ext; intros; lra|lra].
      - rewrite (rsum_0 nx1) by (intros; lra). lra. }
  rewrite rsum_add, rsum_swap. unfold vps. f_equal. apply rsum_ext. intros m Hm. unfold VPs. rewrite rsum_scal_r. reflexivity.
Qed.
Lemma tfwd_node_R w0 i w : (i <= N)%nat -> same_lhs w0 w -> (forall k, (k < ns i)%nat -> k_L w0 i k k <> 0) ->
  nstep T qp w0 (fun i k => k_L w0 i (nux qp i) k) (pvec qp (k_L w0)) w (tfwd_node true T qp i w) i.
Proof.
  intros Hi HS Hd. pose proof HS as (_ & EL & _ & _ & _). unfold tfwd_node. change (dnu D i + dnx D i)%nat with (nux qp i). rewrite EL.
  set (u := TRSV_LTN_MN _ _ _ _ _ _ _ _ _).
  destruct (node_u i (k_L w0 i) (ROWEX (ns i) (- f1)%F (k_L w0 i) (nux qp i) 0 (k_ux w i) 0) (k_ux w i) (fun k => k_L w0 i (nux qp i) k) Hd) as (U1 & U2).
  { intros k Hk. unfold ROWEX. rewrite vset0 by assumption. cbn [Nat.add]. rsimp. rewrite R_lit11. lra. }
  { intros k Hk. unfold ROWEX. apply vset_out. lia. }
  fold u in U1, U2. clearbody u.
  pose proof (kids_R (k_L w0) i (np1 (k_L w0)) (fun k _ => pvec qp (k_L w0) k) Hi (np1_R (k_L w0)) (upd (k_ux w) i u) (k_nux w) (k_pi w)) as HK.
  assert (EK : kids_fwd true T qp (k_L w0) i (upd (k_ux w) i u, k_nux w, k_pi w) = loop (t_nk T i) (kbody i (np1 (k_L w0))) (upd (k_ux w) i u, k_nux w, k_pi w)).
  { unfold kids_fwd. apply loop_ext. intros jj [[a b] c] _. unfold kbody, np1, gx. cbv beta iota zeta. cbn [fst snd]. rewrite upd_same. reflexivity. }
  rewrite EK. clear EK. destruct (loop _ _ _) as [[ux tx] pi]. destruct HK as (K1 & K2 & K3 & K4 & K5).
  assert (Ei : ux i = u). { rewrite K4; [apply upd_same|]. intros jj Hjj. pose proof (proj1 HT i jj ltac:(lia) Hjj). lia. }
  unfold nstep, fpost, set_fwd, same_lhs. cbn [k_BAbt k_L k_P k_Zs k_Pb k_ux k_pi]. split; [repeat split|]. split; [split; [|split]|split; [|split; [|split]]].
  - intros k Hk. rewrite Ei. apply U1. exact Hk.
  - exact K1.
  - intros jj j Hjj. cbv zeta. intros Hj. apply (K2 jj j Hjj Hj).
  - intros r Hr. rewrite Ei. apply U2. exact Hr.
  - intros jj r Hjj. cbv zeta. intros Hr. rewrite (K3 jj r Hjj Hr). rewrite upd_other; [reflexivity|]. pose proof (proj1 HT i jj ltac:(lia) Hjj). lia.
  - intros t Ht Ht'. rewrite K4 by exact Ht'. apply upd_other. exact Ht.
  - exact K5.
Qed.

(** SOLVE *)
Definition np2 (LL : nat -> rmat) (k : nat) (xo xn tx pik : rvec) : rvec * rvec :=
  let nx1 := dnx D k in let nu1 := dnu D k in
  let p := VECCP nx1 xo nu1 pik 0 in
  let tx := VECCP nx1 xn nu1 tx 0 in
  let tx := TRMV_LTN nx1 (LL k) nu1 nu1 tx 0 tx 0 in
  let tx := TRMV_LNN nx1 (LL k) nu1 nu1 tx 0 tx 0 in
  (tx, AXPY nx1 f1 tx 0 p 0 p 0).
Lemma np2_R LL k xo xn tx pik j : (j < dnx D k)%nat -> snd (np2 LL k xo xn tx pik) j = rsum (dnx D k) (fun m => Pk LL k j m * xn (dnu D k + m)%nat) + xo (dnu D k + j)%nat.
Proof.
  intros Hj. unfold np2. cbn [snd]. set (nx1 := dnx D k) in *. set (nu1 := dnu D k) in *. set (L1 := LL k).
  assert (Ep : VECCP nx1 xo nu1 pik 0 j = xo (nu1 + j)%nat) by (unfold VECCP; rewrite vset0 by assumption; reflexivity).
  unfold AXPY. rewrite vset0 by assumption. cbn [Nat.add]. rewrite Ep. rsimp. rewrite R_lit11, Rmult_1_l.
  set (t0 := VECCP nx1 xn nu1 tx 0). pose proof (trmv_LLt nx1 nu1 L1 t0 0 t0 j Hj) as TR. cbv zeta in TR. cbn [Nat.add] in TR. rewrite TR, Rplus_comm. f_equal.
  apply rsum_ext. intros m Hm. unfold VPs. f_equal. unfold t0, VECCP. rewrite vset0 by assumption. reflexivity.
Qed.
Lemma tfwds_node_R w0 i w : (i <= N)%nat -> same_lhs w0 w -> (forall k, (k < ns i)%nat -> k_L w0 i k k <> 0) ->
  (forall r, (r < ns i)%nat -> k_ux w i r = k_ux w0 i r) ->
  (forall jj j, (jj < t_nk T i)%nat -> k_ux w (t_kid T i jj) (dnu D (t_kid T i jj) + j)%nat = k_ux w0 (t_kid T i jj) (dnu D (t_kid T i jj) + j)%nat) ->
  nstep T qp w0 (k_ux w0) (nxt qp w0) w (tfwds_node true T qp i w) i.
Proof.
  intros Hi HS Hd Hu0 Hk0. pose proof HS as (_ & EL & _ & _ & _). unfold tfwds_node. change (dnu D i + dnx D i)%nat with (nux qp i). rewrite EL.
  set (u := TRSV_LTN_MN _ _ _ _ _ _ _ _ _).
  destruct (node_u i (k_L w0 i) (VECSC (ns i) (- f1)%F (k_ux w i) 0) (k_ux w i) (k_ux w0 i) Hd) as (U1 & U2).
  { intros k Hk. unfold VECSC. rewrite vset0 by assumption. cbn [Nat.add]. rewrite Hu0 by assumption. rsimp. rewrite R_lit11. lra. }
  { intros k Hk. unfold VECSC. apply vset_out. lia. }
  fold u in U1, U2. clearbody u.
  pose proof (kids_R (k_L w0) i (np2 (k_L w0)) (fun k xo j => xo (dnu D k + j)%nat) Hi (np2_R (k_L w0)) (upd (k_ux w) i u) (k_nux w) (k_pi w)) as HK.
  assert (EK : kids_fwds true T qp (k_L w0) i (upd (k_ux w) i u, k_nux w, k_pi w) = loop (t_nk T i) (kbody i (np2 (k_L w0))) (upd (k_ux w) i u, k_nux w, k_pi w)).
  { unfold kids_fwds. apply loop_ext. intros jj [[a b] c] _. unfold kbody, np2, gx. cbv beta iota zeta. cbn [fst snd]. rewrite upd_same. reflexivity. }
  rewrite EK. clear EK. destruct (loop _ _ _) as [[ux tx] pi]. destruct HK as (K1 & K2 & K3 & K4 & K5).
  assert (Ei : ux i = u). { rewrite K4; [apply upd_same|]. intros jj Hjj. pose proof (proj1 HT i jj ltac:(lia) Hjj). lia. }
  assert (Ek : forall jj, (jj < t_nk T i)%nat -> upd (k_ux w) i u (t_kid T i jj) = k_ux w (t_kid T i jj)). { intros jj Hjj. apply upd_other. pose proof (proj1 HT i jj ltac:(lia) Hjj). lia. }
  unfold nstep, fpost, set_fwd, same_lhs. cbn [k_BAbt k_L k_P k_Zs k_Pb k_ux k_pi]. split; [repeat split|]. split; [split; [|split]|split; [|split; [|split]]].
  - intros k Hk. rewrite Ei. apply U1. exact Hk.
  - exact K1.
  - intros jj j Hjj. cbv zeta. intros Hj. rewrite (K2 jj j Hjj Hj). f_equal. rewrite (Ek jj Hjj). unfold nxt. apply Hk0. exact Hjj.
  - intros r Hr. rewrite Ei. apply U2. exact Hr.
  - intros jj r Hjj. cbv zeta. intros Hr. rewrite (K3 jj r Hjj Hr). rewrite (Ek jj Hjj). reflexivity.
  - intros t Ht Ht'. rewrite K4 by exact Ht'. apply upd_other. exact Ht.
  - exact K5.
Qed.
End Fw.

(** ** backward substitution of SOLVE *)
Section Bw.
Variables (T : ttree) (qp : oqp R) (reg : R) (Gam gam : nat -> rvec) (usePb : bool).
Notation D := (q_dim qp).
Notation N := (dN D).
Hypothesis Hwf : qp_wf qp.
Hypothesis HT : tree_ok (N + 1) T.
Notation Pk LL k := (VPs (LL k) (dnu D k) (dnx D k)).
Notation stht := (sth qp reg Gam gam).
Notation ns i := (nsolve qp i).

Lemma kids_bwd_R w i dux tx : (i <= N)%nat -> (usePb = true -> nd_Pb T qp w i) ->
  let '(d', _) := kids_bwd usePb T qp w i (dux, tx) in
  (forall r, (r < nux qp i)%nat -> d' r = dux r + kx T qp (k_L w) (nxt qp w) i r) /\ (forall r, (nux qp i <= r)%nat -> d' r = dux r).
Proof.
  intros Hi HPb. unfold kids_bwd, kx. change (dnu D i + dnx D i)%nat with (nux qp i). set (f := fun (jj : nat) '((dux, tx) : rvec * rvec) => _).
  assert (G : forall p, (p <= t_nk T i)%nat -> let '(d', _) := loop p f (dux, tx) in
    (forall r, (r < nux qp i)%nat -> d' r = dux r + rsum p (fun jj => let k := t_kid T i jj in
       rsum (dnx D k) (fun l => q_BAbt qp (k - 1)%nat r l * (rsum (dnx D k) (fun m => Pk (k_L w) k l m * q_b qp (k - 1)%nat m) + nxt qp w k l)))) /\
    (forall r, (nux qp i <= r)%nat -> d' r = dux r)).
  { induction p as [|p IH]; intros Hp; [cbn [loop rsum]; split; intros; [lra|reflexivity]|]. specialize (IH ltac:(lia)). cbn [loop]. destruct (loop p f (dux, tx)) as [d1 t1]. destruct IH as (I1 & I2).
    unfold f at 1. set (k := t_kid T i p). set (v := if usePb then _ else _).
    assert (Hv : forall l, (l < dnx D k)%nat -> v l = rsum (dnx D k) (fun m => Pk (k_L w) k l m * q_b qp (k - 1)%nat m) + nxt qp w k l).
    { intros l Hl. unfold v, nxt. destruct usePb.
      - unfold AXPY. rewrite vset0 by assumption. cbn [Nat.add]. rsimp. rewrite R_lit11. pose proof (HPb eq_refl p l ltac:(lia) Hl) as E. fold k in E. rewrite E. lra.
      - unfold AXPY. rewrite vset0 by assumption. cbn [Nat.add]. rsimp. rewrite R_lit11.
        pose proof (trmv_LLt (dnx D k) (dnu D k) (k_L w k) (q_b qp (k - 1)%nat) 0 t1 l Hl) as TR. cbv zeta in TR. rewrite TR. cbn [Nat.add]. unfold VPs. lra. }
    clearbody v. split.
    - intros r Hr. unfold GEMV_N. rewrite vset0 by assumption. cbn [Nat.add]. rewrite fsum_R. rsimp. rewrite R_lit11, !Rmult_1_l. rewrite I1 by assumption. cbn [rsum]. rewrite Rplus_assoc. f_equal. f_equal.
      cbv zeta. fold k. apply rsum_ext. intros l Hl. rewrite Hv by assumption. reflexivity.
    - intros r Hr. unfold GEMV_N. rewrite vset_out by lia. apply I2. exact Hr. }
  apply (G (t_nk T i) (le_n _)).
Qed.

Definition bpost (w w' : kws R) (i : nat) : Prop :=
  (forall r, (r < nux qp i)%nat -> stht i r + kx T qp (k_L w) (nxt qp w') i r = rsum (ns i) (fun k => k_ux w' i k * lt (k_L w i) r k) + (if (r <? ns i)%nat then 0 else k_ux w' i r)) /\
  (forall k, (k < 2 * dns D i)%nat -> k_ux w' i (nux qp i + k)%nat = Rq qp i (gam i) k).

Lemma tbwd_node_R w i : (i <= N)%nat -> nd_lhs T qp reg Gam w i -> (usePb = true -> nd_Pb T qp w i) ->
  let w' := tbwd_node usePb T qp Gam gam i w in bpost w w' i /\ same_lhs w w' /\ (forall t, t <> i -> k_ux w' t = k_ux w t).
Proof.
  intros Hi (L1 & L2 & L3) HPb. cbv zeta. destruct (Hwf i Hi) as (Hib & Hsf). unfold tbwd_node. change (dnu D i + dnx D i)%nat with (nux qp i).
  set (n := nux qp i) in *. set (nb := dnb D i) in *. set (ng := dng D i) in *. set (nss := dns D i) in *. set (sf := q_idxs_rev qp i) in *.
  set (d0 := VECCP n (q_rqz qp i) 0 (k_ux w i) 0). assert (E0 : forall r, (r < n)%nat -> d0 r = q_rqz qp i r) by (intros r Hr; unfold d0, VECCP; rewrite vset0 by assumption; reflexivity).
  clearbody d0. pose proof (kids_bwd_R w i d0 (k_nux w) Hi HPb) as HK. destruct (kids_bwd _ _ _ _ _ _) as [dk tx]. destruct HK as (K1 & K2). fold n in K1, K2.
  set (kk := kx T qp (k_L w) (nxt qp w) i) in *.
  set (s := if Nat.ltb 0 nss then _ else _).
  assert (X : let '(tmp1, d1) := s in (forall r, (r < n)%nat -> d1 r = q_rqz qp i r + kk r) /\ (forall k, (k < 2 * nss)%nat -> d1 (n + k)%nat = Rq qp i (gam i) k) /\ (forall j, (j < nb + ng)%nat -> tmp1 1%nat j = T1q qp i reg (Gam i) (gam i) j)).
  { assert (EK : forall r, (r < n)%nat -> dk r = q_rqz qp i r + kk r) by (intros r Hr; rewrite K1, E0 by assumption; reflexivity).
    unfold s. destruct (Nat.ltb_spec 0 nss) as [Hns|Hns].
    - pose proof (cond_slacks_solve_R n nb ng nss reg sf (q_Z qp i) (q_rqz qp i) (Gam i) (gam i) (k_Zs w i) L3 (k_tmp w) dk Hsf) as H.
      destruct (cond_slacks_solve _ _ _ _ _ _ _ _ _ _) as [t1 d1]. destruct H as (H1 & H2 & H3). split; [intros r Hr; rewrite H2 by assumption; apply EK; assumption|]. split; [exact H1|exact H3].
    - assert (Hm : forall c, (c < nb + ng)%nat -> Z.eqb (sf c) (-1) = true). { intros c Hc. apply Z.eqb_eq. destruct (Hsf c Hc); lia. }
      destruct (Nat.ltb_spec 0 (nb + ng)) as [Hb|Hb].
      + split; [exact EK|]. split; [intros; lia|]. intros j Hj. rewrite upd_same. unfold AXPY. rewrite vset0 by assumption. cbn [Nat.add]. rsimp. rewrite R_lit11.
        unfold T1q, T1, r_lo, r_up. fold nb ng nss sf. rewrite Hm by assumption. lra.
      + split; [exact EK|]. split; intros; lia. }
  destruct s as [tmp1 d1]. destruct X as (X1 & X2 & X3).
  set (d2 := if Nat.ltb 0 nb then _ else d1).
  assert (E2 : (forall r, (r < n)%nat -> d2 r = q_rqz qp i r + kk r + rsum nb (fun c => rowq qp i c r * T1q qp i reg (Gam i) (gam i) c)) /\ (forall r, (n <= r)%nat -> d2 r = d1 r)).
  { assert (EV : forall r, d2 r = d1 r + rsum nb (fun c => if (q_idxb qp i c =? r)%nat then tmp1 1%nat c else 0)).
    { intros r. unfold d2. destruct (Nat.ltb_spec 0 nb) as [Hb|Hb].
      - rewrite VECAD_SP_R. f_equal. apply rsum_ext. intros c Hc. cbn [Nat.add]. rsimp. rewrite R_lit11. destruct (q_idxb qp i c =? r)%nat; cbn [Nat.add]; lra.
      - assert (nb = 0%nat) as -> by lia. cbn [rsum]. lra. }
    split; intros r Hr; rewrite EV.
    - rewrite X1 by assumption. f_equal. apply rsum_ext. intros c Hc. rewrite (rowq_b qp i c r) by exact Hc. rewrite X3 by lia. destruct (q_idxb qp i c =? r)%nat; lra.
    - rewrite rsum_0; [lra|]. intros c Hc. destruct (Nat.eqb_spec (q_idxb qp i c) r); [|reflexivity]. specialize (Hib c Hc). unfold n in Hr. lia. }
  clearbody d2. destruct E2 as (E2 & E2').
  set (d3 := if Nat.ltb 0 ng then _ else d2).
  assert (E3 : (forall r, (r < n)%nat -> d3 r = stht i r + kk r) /\ (forall r, (n <= r)%nat -> d3 r = d2 r)).
  { unfold d3. destruct (Nat.ltb_spec 0 ng) as [Hg|Hg].
    - split; intros r Hr; unfold GEMV_N; [|apply vset_out; lia]. rewrite vset0 by assumption. cbn [Nat.add]. rewrite fsum_R. rsimp. rewrite R_lit11, !Rmult_1_l. rewrite E2 by assumption.
      rewrite sth_split. fold nb. unfold gpart1. fold ng nb. rewrite (rsum_ext ng (fun l => q_DCt qp i r l * tmp1 1%nat (nb + l)%nat) (fun l => T1q qp i reg (Gam i) (gam i) (nb + l)%nat * q_DCt qp i r l)); [lra|].
      intros l Hl. rewrite X3 by lia. lra.
    - split; [|reflexivity]. intros r Hr. rewrite E2 by assumption. rewrite sth_split. unfold gpart1. fold ng. assert (ng = 0%nat) as -> by lia. cbn [rsum]. fold nb. lra. }
  clearbody d3. destruct E3 as (E3 & E3').
  pose proof (bwd_tail qp (k_L w i) i (ns i) d3 (ns_le qp i)) as TT. specialize (TT ltac:(intros k Hk; apply Rgt_not_eq, L2; pose proof (ns_le qp i); lia)). cbv zeta in TT.
  fold n in TT. set (d' := TRSV_LNN_MN _ _ _ _ _ _ _ _ _) in *. clearbody d'. destruct TT as (T1' & T2').
  unfold bpost, set_bwd, same_lhs, nxt. cbn [k_BAbt k_L k_P k_Zs k_Pb k_ux]. rewrite !upd_same. fold n.
  split; [split|split].
  - intros r Hr. rewrite <- T1' by assumption. rewrite E3 by assumption. f_equal. unfold kk. apply kx_ext; [exact HT|exact Hi|reflexivity|]. intros jj l Hjj Hl. unfold nxt. rewrite upd_other; [reflexivity|].
    pose proof (proj1 HT i jj ltac:(lia) Hjj). lia.
  - intros k Hk. rewrite T2', E3', E2' by lia. apply X2. exact Hk.
  - repeat split.
  - intros t Ht. apply upd_other. exact Ht.
Qed.

Lemma nd_lhs_same w w' i : same_lhs w w' -> nd_lhs T qp reg Gam w i -> nd_lhs T qp reg Gam w' i.
Proof. intros (_ & E & _ & EZ & _) H. unfold nd_lhs. rewrite E, EZ. exact H. Qed.
Lemma nd_Pb_same w w' i : same_lhs w w' -> nd_Pb T qp w i -> nd_Pb T qp w' i.
Proof. intros (_ & E & _ & _ & EP) H. unfold nd_Pb. rewrite E, EP. exact H. Qed.

Lemma tbwd_R w : (forall i, (i <= N)%nat -> nd_lhs T qp reg Gam w i) -> (usePb = true -> forall i, (i <= N)%nat -> nd_Pb T qp w i) ->
  let w' := tbwd usePb T qp Gam gam w in same_lhs w w' /\ forall i, (i <= N)%nat -> bpost w w' i.
Proof.
  intros HL HPb. cbv zeta. unfold tbwd.
  assert (G : forall K, (K <= N + 1)%nat -> let w' := loop K (fun ss w => tbwd_node usePb T qp Gam gam (N + 1 - ss - 1) w) w in
    same_lhs w w' /\ forall i, (N + 1 - K <= i <= N)%nat -> bpost w w' i).
  { induction K as [|K IH]; intros HK; cbv zeta; [split; [apply same_refl|intros; lia]|]. specialize (IH ltac:(lia)). cbv zeta in IH. cbn [loop]. set (wk := loop K _ w) in *. clearbody wk. destruct IH as (I1 & I2).
    set (q := (N + 1 - K - 1)%nat). assert (Hq : (q <= N)%nat) by (unfold q; lia).
    pose proof (tbwd_node_R wk q Hq (nd_lhs_same w wk q I1 (HL q Hq)) (fun H => nd_Pb_same w wk q I1 (HPb H q Hq))) as H. cbv zeta in H.
    set (w' := tbwd_node _ _ _ _ _ q wk) in *. clearbody w'. destruct H as (H1 & H2 & H3). split; [eapply same_trans; eassumption|].
    pose proof I1 as (_ & EL & _). 
    intros i Hi. destruct (Nat.eq_dec i q) as [->|Hne].
    - unfold bpost in *. rewrite EL in H1. exact H1.
    - destruct (I2 i ltac:(unfold q in Hne; lia)) as (J1 & J2). unfold bpost. rewrite (H3 i Hne). split; [|exact J2]. intros r Hr. rewrite <- J1 by assumption. f_equal.
      apply kx_ext; [exact HT|lia|reflexivity|]. intros jj l Hjj Hl. unfold nxt. rewrite H3; [reflexivity|]. pose proof (proj1 HT i jj ltac:(lia) Hjj). unfold q in *. lia. }
  destruct (G (N + 1)%nat (le_n _)) as (G1 & G2). split; [exact G1|]. intros i Hi. apply G2. lia.
Qed.
End Bw.
