(** KktProofs4.v -- forward substitution, recovery of the slacks and multipliers: the step solves the Newton system. *)
From Coq Require Import ZArith Bool Arith Lia Reals Lra.
From Verif Require Import Base ArithF RSum Blas Blas2 CoreModel CoreProofs OcpModel ResSpec KktSpec ResProofs CholProofs KktModel KktProofs KktProofs2 KktProofs3.
Local Open Scope R_scope.

Lemma vset_at (a g : rvec) o n k : vset a o n g k = if ((o <=? k) && (k <? o + n))%nat then g (k - o)%nat else a k.
Proof. unfold vset. reflexivity. Qed.
Lemma vset_o (a g : rvec) o n j : (j < n)%nat -> vset a o n g (o + j)%nat = g j.
Proof. intros H. rewrite vset_in' by lia. f_equal. lia. Qed.

Section Fwd.
Variables (qp : oqp R) (reg : R) (Gam gam : nat -> rvec).
Notation D := (q_dim qp).
Notation N := (dN D).
Hypothesis Hwf : qp_wf qp.
Notation FRq := (FR qp reg Gam gam).
Notation SL := (SLok qp reg Gam gam).
(** value functions *)
Variables (vP : nat -> rmat) (vp : nat -> rvec).

Definition step_post (w w' : kws R) ss nsol : Prop :=
  (k_L w' = k_L w /\ k_P w' = k_P w /\ k_BAbt w' = k_BAbt w /\ k_Zs w' = k_Zs w) /\
  (forall k, (k < nsol)%nat -> rsum (nux qp ss) (fun r => lt (k_L w ss) r k * k_ux w' ss r) = - k_L w ss (nux qp ss) k) /\
  (forall i, (nsol <= i)%nat -> k_ux w' ss i = k_ux w ss i) /\
  (forall j, (j < dnx D (S ss))%nat -> k_ux w' (S ss) (dnu D (S ss) + j)%nat = rsum (nux qp ss) (fun i => q_BAbt qp ss i j * k_ux w' ss i) + q_b qp ss j) /\
  (forall i, (nux qp (S ss) <= i)%nat -> k_ux w' (S ss) i = k_ux w (S ss) i) /\
  (forall j, (j < dnx D (S ss))%nat -> k_pi w' ss j = rsum (dnx D (S ss)) (fun m => vP (S ss) j m * k_ux w' (S ss) (dnu D (S ss) + m)%nat) + vp (S ss) j) /\
  (forall t, t <> ss -> t <> S ss -> k_ux w' t = k_ux w t) /\ (forall t, t <> ss -> k_pi w' t = k_pi w t).

(** the parts common to both algorithms *)
Lemma fwd_common (L BA : rmat) ss nsol (ux0 ux1 : rvec) : (nsol <= nux qp ss)%nat -> (forall k, (k < nsol)%nat -> L k k <> 0) ->
  (forall i j, (i < nux qp ss)%nat -> (j < dnx D (S ss))%nat -> BA i j = q_BAbt qp ss i j) ->
  let n := nux qp ss in let nx1 := dnx D (S ss) in let nu1 := dnu D (S ss) in
  let a := ROWEX nsol (- f1)%F L n 0 ux0 0 in let ux := TRSV_LTN_MN n nsol L 0 0 a 0 a 0 in
  let v := GEMV_T n nx1 f1 BA 0 0 ux 0 f1 (q_b qp ss) 0 ux1 nu1 in
  (forall k, (k < nsol)%nat -> rsum n (fun r => lt L r k * ux r) = - L n k) /\ (forall i, (nsol <= i)%nat -> ux i = ux0 i) /\
  (forall j, (j < nx1)%nat -> v (nu1 + j)%nat = rsum n (fun i => q_BAbt qp ss i j * ux i) + q_b qp ss j) /\
  (forall i, (nu1 + nx1 <= i)%nat -> v i = ux1 i).
Proof.
  intros Hn Hd HBA. cbv zeta. set (n := nux qp ss). set (a := ROWEX _ _ _ _ _ _ _).
  assert (Ha : forall k, (k < nsol)%nat -> a k = - L n k). { intros k Hk. unfold a, ROWEX. rewrite vset0 by assumption. cbn [Nat.add]. rsimp. rewrite R_lit11. lra. }
  assert (Ha' : forall i, (nsol <= i)%nat -> a i = ux0 i). { intros i Hi. unfold a, ROWEX. apply vset_out. lia. }
  pose proof (trsv_ltn_R n nsol L a a Hn Hd) as T. cbv zeta in T. set (ux := TRSV_LTN_MN _ _ _ _ _ _ _ _ _) in *. destruct T as (T1 & T2 & T3).
  split; [|split; [|split]].
  - intros k Hk. rewrite T1 by assumption. apply Ha. assumption.
  - intros i Hi. rewrite <- Ha' by assumption. destruct (Nat.lt_ge_cases i n); [apply T2; lia|apply T3; lia].
  - intros j Hj. unfold GEMV_T. rewrite vset_o by assumption. cbn [Nat.add]. rewrite fsum_R. rsimp. rewrite R_lit11, !Rmult_1_l. rewrite Rplus_comm. f_equal. apply rsum_ext. intros i Hi. rewrite HBA by assumption. reflexivity.
  - intros i Hi. unfold GEMV_T. apply vset_out. lia.
Qed.

Definition fwd_ok (fwd : nat -> nat -> kws R -> kws R) (w0 : kws R) : Prop :=
  forall nsol ss w, (ss < N)%nat -> (nsol <= nux qp ss)%nat -> k_L w = k_L w0 -> k_P w = k_P w0 -> BAok qp w -> (forall k, (k < nsol)%nat -> k_L w ss k k <> 0) ->
  step_post w (fwd nsol ss w) ss nsol.

Lemma fwd_cls_ok w0 : (forall ss j m, vP ss j m = k_P w0 ss j m) -> (forall ss j, vp ss j = k_P w0 ss (dnx D ss) j) -> fwd_ok (fwd_cls true qp) w0.
Proof.
  intros HP Hp nsol ss w Hss Hn EL EP HBA Hd. unfold fwd_cls. rewrite (Nat.add_1_r ss). change (dnu D ss + dnx D ss)%nat with (nux qp ss).
  pose proof (fwd_common (k_L w ss) (k_BAbt w ss) ss nsol (k_ux w ss) (k_ux w (S ss)) Hn Hd (fun i j Hi Hj => HBA ss i j Hss Hi Hj)) as HC. cbv zeta in HC.
  set (ux := TRSV_LTN_MN _ _ _ _ _ _ _ _ _) in *. set (v := GEMV_T _ _ _ _ _ _ _ _ _ _ _ _ _) in *. destruct HC as (C1 & C2 & C3 & C4).
  unfold step_post. cbn [k_L k_P k_BAbt k_Zs k_ux k_pi].
  assert (U0 : upd (upd (k_ux w) ss ux) (S ss) v ss = ux) by (rewrite upd_other by lia; apply upd_same). rewrite U0. rewrite !upd_same.
  split; [auto|]. split; [exact C1|]. split; [exact C2|]. split; [exact C3|]. split; [exact C4|]. split; [|split].
  - intros j Hj. unfold GEMV_N. rewrite vset0 by assumption. cbn [Nat.add]. rewrite fsum_R. rsimp. rewrite R_lit11, !Rmult_1_l. rewrite Rplus_comm. rewrite Hp, <- EP. f_equal.
    + apply rsum_ext. intros m Hm. rewrite HP, <- EP. reflexivity.
    + unfold ROWEX. rewrite vset0 by assumption. cbn [Nat.add]. rsimp. lra.
  - intros t H1 H2. rewrite !upd_other by assumption. reflexivity.
  - intros t H1. rewrite upd_other by assumption. reflexivity.
Qed.

Lemma fwd_sqrt_ok w0 : (forall ss j m, vP ss j m = VPs (k_L w0 ss) (dnu D ss) (dnx D ss) j m) -> (forall ss j, vp ss j = vps (k_L w0 ss) (dnu D ss) (dnx D ss) j) -> fwd_ok (fwd_sqrt true qp) w0.
Proof.
  intros HP Hp nsol ss w Hss Hn EL EP HBA Hd. unfold fwd_sqrt. rewrite (Nat.add_1_r ss). change (dnu D ss + dnx D ss)%nat with (nux qp ss).
  pose proof (fwd_common (k_L w ss) (k_BAbt w ss) ss nsol (k_ux w ss) (k_ux w (S ss)) Hn Hd (fun i j Hi Hj => HBA ss i j Hss Hi Hj)) as HC. cbv zeta in HC.
  set (ux := TRSV_LTN_MN _ _ _ _ _ _ _ _ _) in *. set (v := GEMV_T _ _ _ _ _ _ _ _ _ _ _ _ _) in *. destruct HC as (C1 & C2 & C3 & C4).
  unfold step_post. cbn [k_L k_P k_BAbt k_Zs k_ux k_pi].
  assert (U0 : upd (upd (k_ux w) ss ux) (S ss) v ss = ux) by (rewrite upd_other by lia; apply upd_same). rewrite U0. rewrite !upd_same.
  split; [auto|]. split; [exact C1|]. split; [exact C2|]. split; [exact C3|]. split; [exact C4|]. split; [|split].
  - set (nx1 := dnx D (S ss)) in *. set (nu1 := dnu D (S ss)) in *. set (L1 := k_L w (S ss)).
    set (q1 := TRMV_LTN _ _ _ _ _ _ _ _). set (q2 := AXPY _ _ _ _ q1 _ _ _).
    assert (E1 : forall k, (k < nx1)%nat -> q1 k = rsum nx1 (fun m => lt L1 (nu1 + m) (nu1 + k) * v (nu1 + m)%nat)).
    { intros k Hk. unfold q1, TRMV_LTN. rewrite vset0 by assumption. rewrite fsum_R. rsimp. rewrite <- (rsum_high nx1 k (fun m => L1 (nu1 + m)%nat (nu1 + k)%nat * v (nu1 + m)%nat)) by lia.
      apply rsum_ext. intros m Hm. unfold lt. destruct (Nat.leb_spec k m), (Nat.leb_spec (nu1 + k) (nu1 + m)); try lia; lra. }
    assert (E2 : forall k, (k < nx1)%nat -> q2 k = q1 k + L1 (nu1 + nx1)%nat (nu1 + k)%nat).
    { intros k Hk. unfold q2, AXPY. rewrite vset0 by assumption. cbn [Nat.add]. unfold ROWEX. rewrite vset0 by assumption. rsimp. rewrite R_lit11. lra. }
    clearbody q2. intros j Hj. unfold TRMV_LNN. rewrite vset0 by assumption. rewrite fsum_R. cbn [Nat.add]. rsimp.
    rewrite <- (rsum_low nx1 j (fun k => L1 (nu1 + j)%nat (nu1 + k)%nat * q2 k)) by assumption.
    rewrite (rsum_ext nx1 _ (fun k => rsum nx1 (fun m => lt L1 (nu1 + j) (nu1 + k) * lt L1 (nu1 + m) (nu1 + k) * v (nu1 + m)%nat) + L1 (nu1 + nx1)%nat (nu1 + k)%nat * lt L1 (nu1 + j) (nu1 + k))).
    2:{ intros k Hk. unfold lt at 1 3. destruct (Nat.leb_spec k j), (Nat.leb_spec (nu1 + k) (nu1 + j)); try lia.
        - rewrite E2, E1 by assumption. rewrite Rmult_plus_distr_l, <- rsum_scal. f_equal; [apply rsum_ext; intros; lra|lra].
        - rewrite (rsum_0 nx1) by (intros; lra). lra. }
    rewrite rsum_add, rsum_swap. rewrite Hp, <- EL. fold L1. unfold vps. f_equal. apply rsum_ext. intros m Hm. rewrite HP, <- EL. fold L1. unfold VPs. rewrite rsum_scal_r. reflexivity.
  - intros t H1 H2. rewrite !upd_other by assumption. reflexivity.
  - intros t H1. rewrite upd_other by assumption. reflexivity.
Qed.

(** the whole forward pass *)
Definition nf ss : nat := if (ss =? 0)%nat then nux qp 0 else dnu D ss.
Definition fwd_post (w w' : kws R) : Prop :=
  (forall ss k, (ss <= N)%nat -> (k < nf ss)%nat -> rsum (nux qp ss) (fun r => lt (k_L w ss) r k * k_ux w' ss r) = - k_L w ss (nux qp ss) k) /\
  (forall ss j, (ss < N)%nat -> (j < dnx D (S ss))%nat -> k_ux w' (S ss) (dnu D (S ss) + j)%nat = rsum (nux qp ss) (fun i => q_BAbt qp ss i j * k_ux w' ss i) + q_b qp ss j) /\
  (forall ss j, (ss < N)%nat -> (j < dnx D (S ss))%nat -> k_pi w' ss j = rsum (dnx D (S ss)) (fun m => vP (S ss) j m * k_ux w' (S ss) (dnu D (S ss) + m)%nat) + vp (S ss) j) /\
  (forall ss i, (ss <= N)%nat -> (nux qp ss <= i)%nat -> k_ux w' ss i = k_ux w ss i) /\
  k_Zs w' = k_Zs w.

Lemma nf_le ss : (nf ss <= nux qp ss)%nat.
Proof. unfold nf. destruct (Nat.eqb_spec ss 0) as [->|]; [lia|unfold nux; lia]. Qed.

Lemma forward_R fwd w : (1 <= N)%nat -> fwd_ok fwd w -> BAok qp w -> (forall ss k, (ss <= N)%nat -> (k < nf ss)%nat -> k_L w ss k k <> 0) -> fwd_post w (forward fwd qp w).
Proof.
  intros HN Hf HBA Hd. unfold forward. change (dnu D 0 + dnx D 0)%nat with (nux qp 0).
  set (w1 := fwd (nux qp 0) 0%nat w).
  assert (G : forall K, (K < N)%nat -> let w' := loop K (fun k w => fwd (dnu D (k + 1)) (k + 1)%nat w) w1 in
    (k_L w' = k_L w /\ k_P w' = k_P w /\ BAok qp w' /\ k_Zs w' = k_Zs w) /\
    (forall ss k, (ss <= K)%nat -> (k < nf ss)%nat -> rsum (nux qp ss) (fun r => lt (k_L w ss) r k * k_ux w' ss r) = - k_L w ss (nux qp ss) k) /\
    (forall ss j, (ss <= K)%nat -> (j < dnx D (S ss))%nat -> k_ux w' (S ss) (dnu D (S ss) + j)%nat = rsum (nux qp ss) (fun i => q_BAbt qp ss i j * k_ux w' ss i) + q_b qp ss j) /\
    (forall ss j, (ss <= K)%nat -> (j < dnx D (S ss))%nat -> k_pi w' ss j = rsum (dnx D (S ss)) (fun m => vP (S ss) j m * k_ux w' (S ss) (dnu D (S ss) + m)%nat) + vp (S ss) j) /\
    (forall ss i, (nux qp ss <= i)%nat -> k_ux w' ss i = k_ux w ss i)).
  { induction K as [|K IH]; intros HK; cbv zeta.
    - cbn [loop]. unfold w1. pose proof (Hf (nux qp 0) 0%nat w HN (le_n _) eq_refl eq_refl HBA (fun k Hk => Hd 0%nat k (Nat.le_0_l _) Hk)) as S0.
      destruct S0 as ((S1 & S2 & S3 & S4) & S5 & S6 & S7 & S8 & S9 & S10 & S11). split; [|split; [|split; [|split]]].
      + rewrite S1, S2, S4. split; [reflexivity|]. split; [reflexivity|]. split; [|reflexivity]. intros t i j Ht Hi Hj. rewrite S3. apply HBA; assumption.
      + intros ss k Hss Hk. assert (ss = 0%nat) as -> by lia. apply S5. exact Hk.
      + intros ss j Hss Hj. assert (ss = 0%nat) as -> by lia. apply S7. exact Hj.
      + intros ss j Hss Hj. assert (ss = 0%nat) as -> by lia. apply S9. exact Hj.
      + intros ss i Hi. destruct (Nat.eq_dec ss 0) as [->|N0]; [apply S6; exact Hi|]. destruct (Nat.eq_dec ss 1) as [->|N1]; [apply S8; exact Hi|]. rewrite S10 by assumption. reflexivity.
    - specialize (IH ltac:(lia)). cbv zeta in IH. cbn [loop]. set (wk := loop K _ w1) in *. destruct IH as ((I1 & I2 & I3 & I4) & I5 & I6 & I7 & I8).
      rewrite Nat.add_1_r. 
      pose proof (Hf (dnu D (S K)) (S K) wk HK ltac:(unfold nux; lia) I1 I2 I3) as S0. rewrite I1 in S0. specialize (S0 (fun k Hk => Hd (S K) k ltac:(lia) Hk)).
      destruct S0 as ((S1 & S2 & S3 & S4) & S5 & S6 & S7 & S8 & S9 & S10 & S11). set (w' := fwd _ _ wk) in *.
      assert (U : forall ss, (ss <= K)%nat -> k_ux w' ss = k_ux wk ss) by (intros; apply S10; lia).
      assert (U1 : forall j, k_ux w' (S K) (dnu D (S K) + j)%nat = k_ux wk (S K) (dnu D (S K) + j)%nat) by (intros; apply S6; lia).
      split; [|split; [|split; [|split]]].
      + rewrite S1, S2, S4, I1, I2, I4. split; [reflexivity|]. split; [reflexivity|]. split; [|reflexivity]. intros t i j Ht Hi Hj. rewrite S3. apply I3; assumption.
      + intros ss k Hss Hk. destruct (Nat.eq_dec ss (S K)) as [->|Hne].
        * rewrite I1 in S5. apply S5. exact Hk.
        * rewrite (U ss) by lia. apply I5; [lia|exact Hk].
      + intros ss j Hss Hj. destruct (Nat.eq_dec ss (S K)) as [->|Hne]; [apply S7; exact Hj|]. rewrite (U ss) by lia.
        destruct (Nat.eq_dec (S ss) (S K)) as [E|Hne2].
        * injection E as ->. rewrite U1. apply I6; [lia|exact Hj].
        * rewrite (U (S ss)) by lia. apply I6; [lia|exact Hj].
      + intros ss j Hss Hj. destruct (Nat.eq_dec ss (S K)) as [->|Hne]; [apply S9; exact Hj|]. rewrite (S11 ss) by lia. rewrite I7 by (try assumption; lia). f_equal. apply rsum_ext. intros m Hm. f_equal.
        destruct (Nat.eq_dec (S ss) (S K)) as [E|Hne2].
        * injection E as ->. rewrite U1. reflexivity.
        * rewrite (U (S ss)) by lia. reflexivity.
      + intros ss i Hi. rewrite <- I8 by exact Hi. destruct (Nat.eq_dec ss (S K)) as [->|N0]; [apply S6; unfold nux in Hi; lia|]. destruct (Nat.eq_dec ss (S (S K))) as [->|N1]; [apply S8; exact Hi|]. rewrite S10 by assumption. reflexivity. }
  specialize (G (N - 1)%nat ltac:(lia)). cbv zeta in G. set (w2 := loop (N - 1) _ w1) in *. destruct G as ((I1 & I2 & I3 & I4) & I5 & I6 & I7 & I8).
  unfold fwd_last. change (dnu D N + dnx D N)%nat with (nux qp N). set (L := k_L w2 N).
  set (a := ROWEX _ _ _ _ _ _ _). set (ux := TRSV_LTN_MN _ _ _ _ _ _ _ _ _).
  assert (HdL : forall k, (k < dnu D N)%nat -> L k k <> 0). { intros k Hk. unfold L. rewrite I1. apply Hd; [lia|]. unfold nf. destruct (Nat.eqb_spec N 0); [lia|exact Hk]. }
  pose proof (trsv_ltn_R (nux qp N) (dnu D N) L a a ltac:(unfold nux; lia) HdL) as T. cbv zeta in T. fold ux in T. destruct T as (T1 & T2 & T3).
  assert (Ha : forall k, (k < dnu D N)%nat -> a k = - L (nux qp N) k). { intros k Hk. unfold a, ROWEX. rewrite vset0 by assumption. cbn [Nat.add]. rsimp. rewrite R_lit11. lra. }
  assert (Ha' : forall i, (dnu D N <= i)%nat -> a i = k_ux w2 N i). { intros i Hi. unfold a, ROWEX. apply vset_out. lia. }
  assert (Hux : forall i, (dnu D N <= i)%nat -> ux i = k_ux w2 N i).
  { intros i Hi. rewrite <- Ha' by assumption. destruct (Nat.lt_ge_cases i (nux qp N)); [apply T2; lia|apply T3; lia]. }
  unfold fwd_post. cbn [k_L k_ux k_pi k_Zs].
  assert (U : forall ss, (ss < N)%nat -> upd (k_ux w2) N ux ss = k_ux w2 ss) by (intros; apply upd_other; lia).
  split; [|split; [|split; [|split]]].
  - intros ss k Hss Hk. destruct (Nat.eq_dec ss N) as [->|Hne].
    + rewrite upd_same. unfold nf in Hk. destruct (Nat.eqb_spec N 0); [lia|]. rewrite <- I1. fold L. rewrite T1 by assumption. apply Ha. exact Hk.
    + rewrite (U ss) by lia. apply I5; [lia|exact Hk].
  - intros ss j Hss Hj. rewrite (U ss) by lia. rewrite <- I6 by (try assumption; lia). destruct (Nat.eq_dec (S ss) N) as [E|Hne].
    + rewrite E. rewrite upd_same. apply Hux. lia.
    + rewrite (U (S ss)) by lia. reflexivity.
  - intros ss j Hss Hj. rewrite I7 by (try assumption; lia). f_equal. apply rsum_ext. intros m Hm. f_equal. destruct (Nat.eq_dec (S ss) N) as [E|Hne].
    + rewrite E. rewrite upd_same. symmetry. apply Hux. lia.
    + rewrite (U (S ss)) by lia. reflexivity.
  - intros ss i Hss Hi. rewrite <- I8 by exact Hi. destruct (Nat.eq_dec ss N) as [->|Hne].
    + rewrite upd_same. apply Hux. unfold nux in Hi. lia.
    + rewrite (U ss) by lia. reflexivity.
  - exact I4.
Qed.

(** ** stationarity of the eliminated system *)
Lemma stat_elim rho w w' ss : (ss <= N)%nat -> (1 <= N)%nat -> (forall t, (1 <= t <= N)%nat -> Psym (vP t) (dnx D t)) ->
  FRq rho (vP (S ss)) (vp (S ss)) ss (nf ss) (k_L w ss) (if (ss =? 0)%nat then fun _ _ => 0 else embQ (dnu D ss) (vP ss)) (if (ss =? 0)%nat then fun _ => 0 else embq (dnu D ss) (vp ss)) ->
  fwd_post w w' -> let z := k_ux w' in let pi := k_pi w' in
  forall i, (i < nux qp ss)%nat ->
  rsum (nux qp ss) (fun j => stH qp reg Gam rho ss i j * z ss j) + sth qp reg Gam gam ss i
  + (if (ss <? N)%nat then rsum (dnx D (S ss)) (fun l => q_BAbt qp ss i l * pi ss l) else 0)
  - (if ((0 <? ss) && (dnu D ss <=? i))%nat then pi (ss - 1)%nat (i - dnu D ss)%nat else 0) = 0.
Proof.
  intros Hss HN HPs (F1 & F2 & F3) (G1 & G2 & G3 & _). cbv zeta. set (z := k_ux w') in *. set (pi := k_pi w') in *. intros i Hi. set (n := nux qp ss) in *.
  set (Q := if (ss =? 0)%nat then _ else embQ _ _) in F1. set (q := if (ss =? 0)%nat then _ else embq _ _) in F2.
  set (M := fun r c => if (r =? n)%nat then sth qp reg Gam gam ss c + stx qp (vP (S ss)) (vp (S ss)) ss c else stH qp reg Gam rho ss r c + stX qp (vP (S ss)) ss r c).
  assert (SX : forall l m, stX qp (vP (S ss)) ss l m = stX qp (vP (S ss)) ss m l).
  { intros l m. destruct (Nat.lt_ge_cases ss N) as [Hlt|Hge]; [apply stX_sym; apply HPs; lia|]. unfold stX. destruct (Nat.ltb_spec ss N); [lia|reflexivity]. }
  assert (S1 : forall l m, (l < n)%nat -> (m < n)%nat -> symL M l m = stH qp reg Gam rho ss l m + stX qp (vP (S ss)) ss l m).
  { intros l m Hl Hm. unfold symL, M. destruct (Nat.leb_spec m l); [destruct (Nat.eqb_spec l n); [lia|reflexivity]|]. destruct (Nat.eqb_spec m n); [lia|]. rewrite stH_sym, SX. reflexivity. }
  assert (S2 : forall l, M n l = sth qp reg Gam gam ss l + stx qp (vP (S ss)) (vp (S ss)) ss l). { intros l. unfold M. rewrite Nat.eqb_refl. reflexivity. }
  pose proof (ric_stage n (nf ss) M (k_L w ss) Q q (z ss) (nf_le ss)) as RS.
  specialize (RS ltac:(intros l m Hl Hm; rewrite S1 by assumption; apply F1; assumption) ltac:(intros l Hl; rewrite S2; apply F2; assumption) ltac:(intros k Hk; apply G1; assumption) i Hi).
  clear F1 F2 F3. rewrite S2 in RS.
  rewrite (rsum_ext n (fun j => symL M i j * z ss j) (fun j => stH qp reg Gam rho ss i j * z ss j + stX qp (vP (S ss)) ss i j * z ss j)) in RS.
  2:{ intros j Hj. rewrite S1 by assumption. lra. }
  rewrite rsum_add in RS.
  (* the value function of the next stage *)
  assert (EX : rsum n (fun j => stX qp (vP (S ss)) ss i j * z ss j) + stx qp (vP (S ss)) (vp (S ss)) ss i = if (ss <? N)%nat then rsum (dnx D (S ss)) (fun l => q_BAbt qp ss i l * pi ss l) else 0).
  { unfold stX, stx. destruct (Nat.ltb_spec ss N) as [Hlt|Hge].
    - rewrite (rsum_ext n _ (fun j => rsum (dnx D (S ss)) (fun l => q_BAbt qp ss i l * rsum (dnx D (S ss)) (fun m => vP (S ss) l m * (q_BAbt qp ss j m * z ss j))))).
      2:{ intros j _. rewrite <- rsum_scal_r. apply rsum_ext. intros l _. rewrite <- rsum_scal, <- rsum_scal_r. apply rsum_ext. intros; lra. }
      rewrite rsum_swap, <- rsum_add. apply rsum_ext. intros l Hl. rewrite rsum_scal, <- Rmult_plus_distr_l. f_equal.
      rewrite G3 by assumption. rewrite rsum_swap, <- Rplus_assoc. f_equal. rewrite <- rsum_add. apply rsum_ext. intros m Hm. rewrite rsum_scal, <- Rmult_plus_distr_l. f_equal.
      unfold z. rewrite G2 by assumption. reflexivity.
    - rewrite (rsum_0 n) by (intros; lra). lra. }
  (* the value function of this stage *)
  assert (EQ : rsum n (fun j => Q i j * z ss j) + q i = if ((0 <? ss) && (dnu D ss <=? i))%nat then pi (ss - 1)%nat (i - dnu D ss)%nat else 0).
  { unfold Q, q. destruct ss as [|s']; cbn [Nat.eqb Nat.ltb Nat.leb andb].
    - rewrite rsum_0 by (intros; lra). lra.
    - unfold embQ, embq. destruct (Nat.leb_spec (dnu D (S s')) i) as [Hu|Hu]; destruct (Nat.ltb_spec i (dnu D (S s'))); try lia; cbn [orb].
      + replace (S s' - 1)%nat with s' by lia. unfold pi. rewrite G3 by (unfold n, nux in Hi; lia). f_equal.
        unfold n, nux. rewrite rsum_split. rewrite (rsum_0 (dnu D (S s'))).
        2:{ intros j Hj. destruct (Nat.ltb_spec j (dnu D (S s'))); [lra|lia]. }
        rewrite Rplus_0_l. apply rsum_ext. intros m Hm. destruct (Nat.ltb_spec (dnu D (S s') + m) (dnu D (S s'))); [lia|]. replace (dnu D (S s') + m - dnu D (S s'))%nat with m by lia. reflexivity.
      + rewrite rsum_0 by (intros; lra). lra. }
  rewrite EQ in RS. lra.
Qed.
End Fwd.
