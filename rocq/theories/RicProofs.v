(** RicProofs.v -- the feedback matrices read from the Riccati factorisation (reals): triangular systems, the stage law, the saved vectors. *)
From Coq Require Import ZArith Bool Arith Lia Reals Lra.
From Verif Require Import Base ArithF RSum Blas Blas2 CoreModel CoreProofs OcpModel ResSpec KktSpec ResProofs CholProofs KktModel KktProofs KktProofs2 KktProofs3 KktProofs4 KktProofs5.
From Verif Require Import SolveModel SolveProofs SolveProofs2 SolveProofs3 QpDataModel QpDataProofs SensModel RicModel.
Local Open Scope R_scope.

(** ** triangular systems *)
Lemma tri_uniq n (L : rmat) (e : rvec) : (forall k, (k < n)%nat -> L k k <> 0) -> (forall k, (k < n)%nat -> rsum n (fun r => lt L r k * e r) = 0) -> forall r, (r < n)%nat -> e r = 0.
Proof.
  intros Hd H. assert (G : forall d r, (n - r <= d)%nat -> (r < n)%nat -> e r = 0).
  { induction d as [|d IH]; intros r Hr Hn; [lia|]. pose proof (H r Hn) as E.
    rewrite (rsum_ext n _ (fun q => if (q =? r)%nat then L r r * e r else 0)) in E.
    - rewrite (rsum_one n r (fun _ => L r r * e r) Hn) in E. apply Rmult_integral in E. destruct E as [E|E]; [|exact E]. exfalso. exact (Hd r Hn E).
    - intros q Hq. destruct (Nat.eqb_spec q r) as [->|Hne].
      + unfold lt. rewrite Nat.leb_refl. reflexivity.
      + unfold lt. destruct (Nat.leb_spec r q); [|lra]. rewrite (IH q) by lia. lra. }
  intros r Hr. apply (G n); lia.
Qed.

(** ** the feedback matrix and vector of a stage *)
Section Fb.
Variables (nu nx : nat) (L : rmat) (K : rmat) (l kv : rvec).
Hypothesis Hd : forall k, (k < nu)%nat -> L k k <> 0.
Hypothesis HK : forall k m, (k < nu)%nat -> (m < nx)%nat -> rsum nu (fun r => lt L r k * K r m) = - L (nu + m)%nat k.
Hypothesis Hk : forall k, (k < nu)%nat -> rsum nu (fun r => lt L r k * kv r) = - l k.
Lemma fb_split (z : rvec) k : (k < nu)%nat -> rsum (nu + nx) (fun r => lt L r k * z r) = rsum nu (fun r => lt L r k * z r) + rsum nx (fun m => L (nu + m)%nat k * z (nu + m)%nat).
Proof.
  intros H. rewrite rsum_split. f_equal. apply rsum_ext. intros m Hm. unfold lt. destruct (Nat.leb_spec k (nu + m)); [reflexivity|lia].
Qed.
Lemma fb_K (x : rvec) k : (k < nu)%nat -> rsum nu (fun r => lt L r k * rsum nx (fun m => K r m * x m)) = - rsum nx (fun m => L (nu + m)%nat k * x m).
Proof.
  intros H. rewrite (rsum_ext nu _ (fun r => rsum nx (fun m => lt L r k * K r m * x m))).
  2:{ intros r _. rewrite <- rsum_scal. apply rsum_ext. intros; lra. }
  rewrite rsum_swap. rewrite (rsum_ext nx _ (fun m => (-1) * (L (nu + m)%nat k * x m))).
  2:{ intros m Hm. rewrite rsum_scal_r, HK by assumption. lra. }
  rewrite rsum_scal. lra.
Qed.
Lemma fb_law (z : rvec) : (forall k, (k < nu)%nat -> rsum (nu + nx) (fun r => lt L r k * z r) = - l k) ->
  forall r, (r < nu)%nat -> z r = rsum nx (fun m => K r m * z (nu + m)%nat) + kv r.
Proof.
  intros H r Hr. set (e := fun r => z r - rsum nx (fun m => K r m * z (nu + m)%nat) - kv r).
  assert (E : e r = 0); [|unfold e in E; lra]. apply (tri_uniq nu L e Hd); [|exact Hr]. intros k Hkk. unfold e.
  rewrite (rsum_ext nu _ (fun r => lt L r k * z r + (-1) * (lt L r k * rsum nx (fun m => K r m * z (nu + m)%nat)) + (-1) * (lt L r k * kv r))) by (intros; lra).
  rewrite !rsum_add, !rsum_scal. rewrite (fb_K (fun m => z (nu + m)%nat)) by assumption. rewrite Hk by assumption.
  pose proof (H k Hkk) as E. rewrite fb_split in E by assumption. lra.
Qed.
Lemma fb_conv (z : rvec) : (forall r, (r < nu)%nat -> z r = rsum nx (fun m => K r m * z (nu + m)%nat) + kv r) ->
  forall k, (k < nu)%nat -> rsum (nu + nx) (fun r => lt L r k * z r) = - l k.
Proof.
  intros H k Hkk. rewrite fb_split by assumption. rewrite (rsum_ext nu _ (fun r => lt L r k * rsum nx (fun m => K r m * z (nu + m)%nat) + lt L r k * kv r)).
  2:{ intros r Hr. rewrite (H r Hr) at 1. lra. }
  rewrite rsum_add, (fb_K (fun m => z (nu + m)%nat)), Hk by assumption. lra.
Qed.
End Fb.

(** ** one stage, from any state *)
Section Law.
Variables (qp : oqp R) (reg : R) (Gam gam : nat -> rvec) (rho : nat -> rvec) (L : nat -> rmat) (PP : nat -> rmat) (lv pp : nat -> rvec).
Notation D := (q_dim qp).
Notation N := (dN D).
(** every stage matrix is factorised in the columns of the inputs, the remainder being the value function (PP, pp) *)
Definition law : Prop :=
  (forall ss i j, (ss <= N)%nat -> (i < nux qp ss)%nat -> (j < nux qp ss)%nat ->
     stH qp reg Gam (rho ss) ss i j + stX qp (PP (S ss)) ss i j = rsum (dnu D ss) (fun k => lt (L ss) i k * lt (L ss) j k) + embQ (dnu D ss) (PP ss) i j) /\
  (forall ss i, (ss <= N)%nat -> (i < nux qp ss)%nat ->
     sth qp reg Gam gam ss i + stx qp (PP (S ss)) (pp (S ss)) ss i = rsum (dnu D ss) (fun k => lv ss k * lt (L ss) i k) + embq (dnu D ss) (pp ss) i) /\
  (forall ss k, (ss <= N)%nat -> (k < dnu D ss)%nat -> 0 < L ss k k) /\
  (forall ss, (ss <= N)%nat -> Psym (PP ss) (dnx D ss)).
Hypothesis HL : law.

(** for every state: with the input solving the triangular system, the stage gradient plus the multiplier of the next stage is (0, P x + p) *)
Lemma stage_law ss (z x1 pi1 : rvec) : (ss <= N)%nat ->
  (forall k, (k < dnu D ss)%nat -> rsum (nux qp ss) (fun r => lt (L ss) r k * z r) = - lv ss k) ->
  ((ss < N)%nat -> forall j, (j < dnx D (S ss))%nat -> x1 j = rsum (nux qp ss) (fun i => q_BAbt qp ss i j * z i) + q_b qp ss j) ->
  ((ss < N)%nat -> forall j, (j < dnx D (S ss))%nat -> pi1 j = rsum (dnx D (S ss)) (fun m => PP (S ss) j m * x1 m) + pp (S ss) j) ->
  forall i, (i < nux qp ss)%nat ->
  rsum (nux qp ss) (fun j => stH qp reg Gam (rho ss) ss i j * z j) + sth qp reg Gam gam ss i
  + (if (ss <? N)%nat then rsum (dnx D (S ss)) (fun l => q_BAbt qp ss i l * pi1 l) else 0)
  = if (i <? dnu D ss)%nat then 0 else rsum (dnx D ss) (fun m => PP ss (i - dnu D ss)%nat m * z (dnu D ss + m)%nat) + pp ss (i - dnu D ss)%nat.
Proof.
  intros Hss Hz Hx Hp i Hi. destruct HL as (F1 & F2 & F3 & F4). set (n := nux qp ss) in *.
  set (M := fun r c => if (r =? n)%nat then sth qp reg Gam gam ss c + stx qp (PP (S ss)) (pp (S ss)) ss c else stH qp reg Gam (rho ss) ss r c + stX qp (PP (S ss)) ss r c).
  assert (SX : forall l m, stX qp (PP (S ss)) ss l m = stX qp (PP (S ss)) ss m l).
  { intros l m. destruct (Nat.lt_ge_cases ss N) as [Hlt|Hge]; [apply stX_sym; apply F4; lia|]. unfold stX. destruct (Nat.ltb_spec ss N); [lia|reflexivity]. }
  assert (S1 : forall l m, (l < n)%nat -> (m < n)%nat -> symL M l m = stH qp reg Gam (rho ss) ss l m + stX qp (PP (S ss)) ss l m).
  { intros l m Hl Hm. unfold symL, M. destruct (Nat.leb_spec m l); [destruct (Nat.eqb_spec l n); [lia|reflexivity]|]. destruct (Nat.eqb_spec m n); [lia|]. rewrite stH_sym, SX. reflexivity. }
  assert (S2 : forall l, M n l = sth qp reg Gam gam ss l + stx qp (PP (S ss)) (pp (S ss)) ss l). { intros l. unfold M. rewrite Nat.eqb_refl. reflexivity. }
  set (LL := fun r c => if (r =? n)%nat then lv ss c else L ss r c).
  assert (Elt : forall r c, (r < n)%nat -> lt LL r c = lt (L ss) r c).
  { intros r c Hr. unfold lt, LL. destruct (c <=? r)%nat; [|reflexivity]. destruct (Nat.eqb_spec r n); [lia|reflexivity]. }
  assert (Erow : forall k, LL n k = lv ss k) by (intros; unfold LL; rewrite Nat.eqb_refl; reflexivity).
  clearbody LL.
  pose proof (ric_stage n (dnu D ss) M LL (embQ (dnu D ss) (PP ss)) (embq (dnu D ss) (pp ss)) z ltac:(unfold n, nux; lia)) as RS.
  specialize (RS ltac:(intros l m Hl Hm; rewrite S1 by assumption; rewrite F1 by assumption; f_equal; apply rsum_ext; intros k Hk; rewrite !Elt by assumption; reflexivity)).
  specialize (RS ltac:(intros l Hl; rewrite S2; rewrite F2 by assumption; f_equal; apply rsum_ext; intros k Hk; rewrite Erow, !Elt by assumption; reflexivity)).
  specialize (RS ltac:(intros k Hk; rewrite Erow, <- Hz by assumption; apply rsum_ext; intros r Hr; rewrite Elt by assumption; reflexivity) i Hi).
  rewrite S2 in RS.
  rewrite (rsum_ext n (fun j => symL M i j * z j) (fun j => stH qp reg Gam (rho ss) ss i j * z j + stX qp (PP (S ss)) ss i j * z j)) in RS.
  2:{ intros j Hj. rewrite S1 by assumption. lra. }
  rewrite rsum_add in RS.
  assert (EX : rsum n (fun j => stX qp (PP (S ss)) ss i j * z j) + stx qp (PP (S ss)) (pp (S ss)) ss i = if (ss <? N)%nat then rsum (dnx D (S ss)) (fun l => q_BAbt qp ss i l * pi1 l) else 0).
  { unfold stX, stx. destruct (Nat.ltb_spec ss N) as [Hlt|Hge].
    - rewrite (rsum_ext n _ (fun j => rsum (dnx D (S ss)) (fun l => q_BAbt qp ss i l * rsum (dnx D (S ss)) (fun m => PP (S ss) l m * (q_BAbt qp ss j m * z j))))).
      2:{ intros j _. rewrite <- rsum_scal_r. apply rsum_ext. intros l _. rewrite <- rsum_scal, <- rsum_scal_r. apply rsum_ext. intros; lra. }
      rewrite rsum_swap, <- rsum_add. apply rsum_ext. intros l Hl. rewrite rsum_scal, <- Rmult_plus_distr_l. f_equal.
      rewrite Hp by assumption. rewrite rsum_swap, <- Rplus_assoc. f_equal. rewrite <- rsum_add. apply rsum_ext. intros m Hm. rewrite rsum_scal, <- Rmult_plus_distr_l. f_equal.
      rewrite Hx by assumption. reflexivity.
    - rewrite (rsum_0 n) by (intros; lra). lra. }
  assert (EQ : rsum n (fun j => embQ (dnu D ss) (PP ss) i j * z j) + embq (dnu D ss) (pp ss) i = if (i <? dnu D ss)%nat then 0 else rsum (dnx D ss) (fun m => PP ss (i - dnu D ss)%nat m * z (dnu D ss + m)%nat) + pp ss (i - dnu D ss)%nat).
  { unfold embQ, embq. destruct (Nat.ltb_spec i (dnu D ss)); cbn [orb].
    - rewrite rsum_0 by (intros; lra). lra.
    - f_equal. unfold n, nux. rewrite rsum_split. rewrite (rsum_0 (dnu D ss)).
      2:{ intros j Hj. destruct (Nat.ltb_spec j (dnu D ss)); [lra|lia]. }
      rewrite Rplus_0_l. apply rsum_ext. intros m Hm. destruct (Nat.ltb_spec (dnu D ss + m) (dnu D ss)); [lia|]. replace (dnu D ss + m - dnu D ss)%nat with m by lia. reflexivity. }
  rewrite EQ in RS. rewrite <- RS. rewrite <- EX. lra.
Qed.
End Law.

(** ** from the stored factorisation and the transformed gradients to the law; stage 0 is factorised completely *)
Section Lhs.
Variables (qp : oqp R) (reg : R) (Gam gam : nat -> rvec) (sq : bool) (rho : nat -> rvec) (w : kws R) (lv vp : nat -> rvec).
Notation D := (q_dim qp).
Notation N := (dN D).
Hypothesis HN : (1 <= N)%nat.
Definition ricP (ss : nat) : rmat := if (ss =? 0)%nat then VPs (k_L w 0%nat) (dnu D 0) (dnx D 0) else valP qp sq w ss.
Definition ricp (ss : nat) : rvec := if (ss =? 0)%nat then fun j => rsum (dnx D 0) (fun k => lv 0%nat (dnu D 0 + k)%nat * lt (k_L w 0%nat) (dnu D 0 + j) (dnu D 0 + k)) else vp ss.
Lemma VPs_sym (L : rmat) nu nx : Psym (VPs L nu nx) nx.
Proof. intros l m Hl Hm. unfold VPs. apply rsum_ext. intros; lra. Qed.
Lemma law_of_lhs : lhs_ok qp reg Gam sq rho w ->
  (forall ss i, (ss <= N)%nat -> (i < nux qp ss)%nat ->
     sth qp reg Gam gam ss i + stx qp (valP qp sq w (S ss)) (vp (S ss)) ss i = rsum (nf qp ss) (fun k => lv ss k * lt (k_L w ss) i k) + (if (ss =? 0)%nat then 0 else embq (dnu D ss) (vp ss) i)) ->
  law qp reg Gam gam rho (k_L w) ricP lv ricp.
Proof.
  intros (L1 & L2 & L3 & L4 & L5) B. unfold law.
  assert (E1 : forall ss, ricP (S ss) = valP qp sq w (S ss)) by reflexivity. assert (E2 : forall ss, ricp (S ss) = vp (S ss)) by reflexivity.
  split; [|split; [|split]].
  - intros ss i j Hss Hi Hj. rewrite E1, L1 by assumption. destruct ss as [|s]; [|reflexivity]. cbn [Nat.eqb]. unfold nf. cbn [Nat.eqb]. rewrite Rplus_0_r. unfold nux at 1. rewrite rsum_split. f_equal.
    unfold embQ, ricP. cbn [Nat.eqb]. unfold VPs. destruct (Nat.ltb_spec i (dnu D 0)); [|destruct (Nat.ltb_spec j (dnu D 0))]; cbn [orb].
    + apply rsum_0. intros k Hk. rewrite (lt_out _ i) by lia. lra.
    + apply rsum_0. intros k Hk. rewrite (lt_out _ j) by lia. lra.
    + apply rsum_ext. intros k Hk. replace (dnu D 0 + (i - dnu D 0))%nat with i by lia. replace (dnu D 0 + (j - dnu D 0))%nat with j by lia. reflexivity.
  - intros ss i Hss Hi. rewrite E1, E2, B by assumption. destruct ss as [|s]; [|reflexivity]. cbn [Nat.eqb]. unfold nf. cbn [Nat.eqb]. rewrite Rplus_0_r. unfold nux at 1. rewrite rsum_split. f_equal.
    unfold embq, ricp. cbn [Nat.eqb]. destruct (Nat.ltb_spec i (dnu D 0)).
    + apply rsum_0. intros k Hk. rewrite (lt_out _ i) by lia. lra.
    + apply rsum_ext. intros k Hk. replace (dnu D 0 + (i - dnu D 0))%nat with i by lia. reflexivity.
  - intros ss k Hss Hk. apply L2; [exact Hss|]. unfold nf. destruct (Nat.eqb_spec ss 0) as [->|]; [unfold nux; lia|exact Hk].
  - intros ss Hss. destruct ss as [|s]; [apply VPs_sym|]. rewrite E1. apply L4. lia.
Qed.
End Lhs.

(** ** the vectors saved in ws->l by a solve *)
Section Saved.
Variables (qp : oqp R) (sq dual : bool) (wb : kws R).
Notation D := (q_dim qp).
Notation N := (dN D).
Hypothesis HN : (1 <= N)%nat.
Definition l_saved (w' : kws R) (g : nat -> rvec) : Prop :=
  (forall ss k, (ss <= N)%nat -> (k < nf qp ss)%nat -> k_l w' ss k = g ss k) /\
  (forall ss j, (1 <= ss <= N)%nat -> (j < dnx D ss)%nat -> k_l w' ss (dnu D ss + j)%nat = g ss (dnu D ss + j)%nat).
Lemma fwd_mid_l w ss nsol : let w' := fwd_mid sq dual qp nsol ss w in
  (forall t, t <> ss -> t <> S ss -> k_l w' t = k_l w t /\ k_ux w' t = k_ux w t) /\
  (forall k, (k < nsol)%nat -> k_l w' ss k = k_ux w ss k) /\ (forall k, (nsol <= k)%nat -> k_l w' ss k = k_l w ss k) /\
  (forall j, (j < dnx D (S ss))%nat -> k_l w' (S ss) (dnu D (S ss) + j)%nat = k_ux w (S ss) (dnu D (S ss) + j)%nat) /\
  (forall i, (i < dnu D (S ss))%nat -> k_ux w' (S ss) i = k_ux w (S ss) i).
Proof.
  cbv zeta. unfold fwd_mid. rewrite (Nat.add_1_r ss). set (p := if dual then VECCP _ _ _ _ _ else _). set (s := if dual then _ else (p, _)). destruct s as [pi nux1]. cbn [k_l k_ux]. clear p.
  split; [|split; [|split; [|split]]].
  - intros t H1 H2. rewrite !upd_other by assumption. split; reflexivity.
  - intros k Hk. rewrite upd_other by lia. rewrite upd_same. unfold VECCP. rewrite vset0 by assumption. reflexivity.
  - intros k Hk. rewrite upd_other by lia. rewrite upd_same. unfold VECCP. apply vset_out. lia.
  - intros j Hj. rewrite upd_same. unfold VECCP. rewrite vset_o by assumption. reflexivity.
  - intros i Hi. rewrite upd_same. unfold GEMV_T. apply vset_out. lia.
Qed.
Lemma fwd_solve_l : l_saved (fwd_solve sq dual qp wb) (k_ux wb).
Proof.
  unfold fwd_solve. change (dnu D 0 + dnx D 0)%nat with (nux qp 0). set (w1 := fwd_mid _ _ _ _ 0 wb).
  assert (G : forall K, (K < N)%nat -> let w' := loop K (fun k w => fwd_mid sq dual qp (dnu D (k + 1)) (k + 1) w) w1 in
    (forall ss k, (ss <= K)%nat -> (k < nf qp ss)%nat -> k_l w' ss k = k_ux wb ss k) /\
    (forall ss j, (1 <= ss <= S K)%nat -> (j < dnx D ss)%nat -> k_l w' ss (dnu D ss + j)%nat = k_ux wb ss (dnu D ss + j)%nat) /\
    (forall ss i, (K < ss)%nat -> (i < dnu D ss)%nat -> k_ux w' ss i = k_ux wb ss i) /\
    (forall ss, (S K < ss)%nat -> k_ux w' ss = k_ux wb ss)).
  { induction K as [|K IH]; intros HK; cbv zeta.
    - cbn [loop]. unfold w1. destruct (fwd_mid_l wb 0 (nux qp 0)) as (A & B & C & E & F). set (w' := fwd_mid _ _ _ _ 0 wb) in *. clearbody w'. split; [|split; [|split]].
      + intros ss k Hss Hk. assert (ss = 0%nat) as -> by lia. apply B. exact Hk.
      + intros ss j Hss Hj. assert (ss = 1%nat) as -> by lia. apply E. exact Hj.
      + intros ss i Hss Hi. destruct (Nat.eq_dec ss 1) as [->|]; [apply F; exact Hi|]. destruct (A ss ltac:(lia) ltac:(lia)) as (_ & ->). reflexivity.
      + intros ss Hss. apply A; lia.
    - specialize (IH ltac:(lia)). cbv zeta in IH. cbn [loop]. set (wk := loop K _ w1) in *. clearbody wk. destruct IH as (I1 & I2 & I3 & I4). rewrite Nat.add_1_r.
      destruct (fwd_mid_l wk (S K) (dnu D (S K))) as (A & B & C & E & F). set (w' := fwd_mid _ _ _ _ _ wk) in *. clearbody w'. split; [|split; [|split]].
      + intros ss k Hss Hk. destruct (Nat.eq_dec ss (S K)) as [->|Hne].
        * cbn [nf Nat.eqb] in Hk. unfold nf in Hk. cbn [Nat.eqb] in Hk. rewrite B by exact Hk. apply I3; [lia|exact Hk].
        * destruct (A ss ltac:(lia) ltac:(lia)) as (-> & _). apply I1; [lia|exact Hk].
      + intros ss j Hss Hj. destruct (Nat.eq_dec ss (S (S K))) as [->|Hne].
        * rewrite E by exact Hj. rewrite I4 by lia. reflexivity.
        * destruct (Nat.eq_dec ss (S K)) as [->|Hne2]; [rewrite C by lia; apply I2; [lia|exact Hj]|]. destruct (A ss ltac:(lia) ltac:(lia)) as (-> & _). apply I2; [lia|exact Hj].
      + intros ss i Hss Hi. destruct (Nat.eq_dec ss (S (S K))) as [->|]; [rewrite F by exact Hi; apply I3; [lia|exact Hi]|]. destruct (A ss ltac:(lia) ltac:(lia)) as (_ & ->). apply I3; [lia|exact Hi].
      + intros ss Hss. destruct (A ss ltac:(lia) ltac:(lia)) as (_ & ->). apply I4. lia. }
  specialize (G (N - 1)%nat ltac:(lia)). cbv zeta in G. set (w2 := loop (N - 1) _ w1) in *. clearbody w2. clear w1. destruct G as (I1 & I2 & I3 & I4).
  unfold fwd_end, l_saved. cbn [k_l]. split.
  - intros ss k Hss Hk. destruct (Nat.eq_dec ss N) as [->|Hne].
    + rewrite upd_same. unfold nf in Hk. destruct (Nat.eqb_spec N 0); [lia|]. unfold VECCP. rewrite vset0 by assumption. cbn [Nat.add]. apply I3; [lia|exact Hk].
    + rewrite upd_other by assumption. apply I1; [lia|exact Hk].
  - intros ss j Hss Hj. destruct (Nat.eq_dec ss N) as [->|Hne].
    + rewrite upd_same. unfold VECCP. rewrite vset_out by lia. apply I2; [lia|exact Hj].
    + rewrite upd_other by assumption. apply I2; [lia|exact Hj].
Qed.
End Saved.
