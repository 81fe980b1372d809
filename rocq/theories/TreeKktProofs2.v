(** TreeKktProofs2.v -- forward substitution on a tree, stationarity of the eliminated system. *)
From Coq Require Import ZArith Bool Arith Lia Reals Lra.
From Verif Require Import Base ArithF RSum Blas Blas2 CoreModel CoreProofs OcpModel ResSpec KktSpec ResProofs CholProofs CholPD KktModel KktProofs KktProofs2 KktProofs3 KktProofs4 KktProofs7
  SolveModel SolveProofs SolveProofs2 TreeModel TreeSpec TreeProofs TreeKktModel TreeKktProofs.
Local Open Scope R_scope.

Section Stat.
Variables (T : ttree) (qp : oqp R) (reg : R) (Gam gam : nat -> rvec).
Notation D := (q_dim qp).
Notation N := (dN D).
Hypothesis HT : tree_ok (N + 1) T.
Notation Pk LL k := (VPs (LL k) (dnu D k) (dnx D k)).
Notation stHt := (stH qp reg Gam (fun _ => reg)).
Notation stht := (sth qp reg Gam gam).
Notation ns i := (nsolve qp i).

Lemma ns_le i : (ns i <= nux qp i)%nat.
Proof. unfold nsolve, nux. destruct (0 <? i)%nat; lia. Qed.

(** an abstract solution of the factorised system is stationary *)
Lemma tstat (LL : nat -> rmat) (l p z pi : nat -> rvec) i : (i <= N)%nat ->
  (forall r c, (r < nux qp i)%nat -> (c < nux qp i)%nat -> stHt i r c + kX T qp LL i r c = rsum (nux qp i) (fun k => lt (LL i) r k * lt (LL i) c k)) ->
  (forall r, (r < nux qp i)%nat -> stht i r + kx T qp LL p i r = rsum (ns i) (fun k => l i k * lt (LL i) r k) + (if (r <? ns i)%nat then 0 else p i (r - dnu D i)%nat)) ->
  (forall k, (k < ns i)%nat -> rsum (nux qp i) (fun r => lt (LL i) r k * z i r) = - l i k) ->
  (forall jj j, (jj < t_nk T i)%nat -> let k := t_kid T i jj in (j < dnx D k)%nat -> z k (dnu D k + j)%nat = rsum (nux qp i) (fun r => q_BAbt qp (k - 1)%nat r j * z i r) + q_b qp (k - 1)%nat j) ->
  (forall jj j, (jj < t_nk T i)%nat -> let k := t_kid T i jj in (j < dnx D k)%nat -> pi (k - 1)%nat j = rsum (dnx D k) (fun m => Pk LL k j m * z k (dnu D k + m)%nat) + p k j) ->
  ((0 < i)%nat -> forall j, (j < dnx D i)%nat -> pi (i - 1)%nat j = rsum (dnx D i) (fun m => Pk LL i j m * z i (dnu D i + m)%nat) + p i j) ->
  forall r, (r < nux qp i)%nat ->
  rsum (nux qp i) (fun c => stHt i r c * z i c) + stht i r
  + rsum (t_nk T i) (fun jj => let k := t_kid T i jj in rsum (dnx D k) (fun j => q_BAbt qp (k - 1)%nat r j * pi (k - 1)%nat j))
  - (if ((0 <? i) && (dnu D i <=? r))%nat then pi (i - 1)%nat (r - dnu D i)%nat else 0) = 0.
Proof.
  intros Hi HA HB HC HD HE HF r Hr. set (n := nux qp i) in *.
  set (Q := fun a b : nat => if (0 <? i)%nat then embQ (dnu D i) (Pk LL i) a b else 0). set (q := fun a : nat => if (a <? ns i)%nat then 0 else p i (a - dnu D i)%nat).
  set (Lh := fun a b : nat => if (a =? n)%nat then l i b else LL i a b).
  assert (Elt : forall a b, (a < n)%nat -> lt Lh a b = lt (LL i) a b). { intros a b Ha. unfold lt, Lh. destruct (b <=? a)%nat; [|reflexivity]. destruct (Nat.eqb_spec a n); [lia|reflexivity]. }
  assert (Ern : forall b, Lh n b = l i b) by (intros; unfold Lh; rewrite Nat.eqb_refl; reflexivity). clearbody Lh.
  set (M := fun a c => if (a =? n)%nat then stht i c + kx T qp LL p i c else stHt i a c + kX T qp LL i a c).
  assert (S1 : forall a c, (a < n)%nat -> (c < n)%nat -> symL M a c = stHt i a c + kX T qp LL i a c).
  { intros a c Ha Hc. unfold symL, M. destruct (Nat.leb_spec c a); [destruct (Nat.eqb_spec a n); [lia|reflexivity]|]. destruct (Nat.eqb_spec c n); [lia|]. rewrite stH_sym, kX_sym. reflexivity. }
  assert (S2 : forall c, M n c = stht i c + kx T qp LL p i c) by (intros; unfold M; rewrite Nat.eqb_refl; reflexivity).
  assert (FA : forall a c, (a < n)%nat -> (c < n)%nat -> stHt i a c + kX T qp LL i a c = rsum (ns i) (fun k => lt Lh a k * lt Lh c k) + Q a c).
  { intros a c Ha Hc. rewrite HA by assumption. rewrite (rsum_ext (ns i) (fun k => lt Lh a k * lt Lh c k) (fun k => lt (LL i) a k * lt (LL i) c k)) by (intros; rewrite !Elt by assumption; reflexivity).
    unfold Q, nsolve. destruct (0 <? i)%nat; [|unfold n, nux; lra]. unfold n, nux. rewrite rsum_split. f_equal. unfold embQ, VPs.
    destruct (Nat.ltb_spec a (dnu D i)); [|destruct (Nat.ltb_spec c (dnu D i))]; cbn [orb].
    + apply rsum_0. intros k Hk. rewrite (lt_out _ a) by lia. lra.
    + apply rsum_0. intros k Hk. rewrite (lt_out _ c) by lia. lra.
    + apply rsum_ext. intros k Hk. replace (dnu D i + (a - dnu D i))%nat with a by lia. replace (dnu D i + (c - dnu D i))%nat with c by lia. reflexivity. }
  pose proof (ric_stage n (ns i) M Lh Q q (z i) (ns_le i)) as RS.
  specialize (RS ltac:(intros a c Ha Hc; rewrite S1 by assumption; apply FA; assumption)).
  specialize (RS ltac:(intros a Ha; rewrite S2, HB by assumption; f_equal; apply rsum_ext; intros k Hk; rewrite Ern, Elt by assumption; reflexivity)).
  specialize (RS ltac:(intros k Hk; rewrite Ern, <- HC by assumption; apply rsum_ext; intros a Ha; rewrite Elt by assumption; reflexivity) r Hr).
  clear HA HB HC FA. rewrite S2 in RS.
  rewrite (rsum_ext n (fun j => symL M r j * z i j) (fun c => stHt i r c * z i c + kX T qp LL i r c * z i c)) in RS by (intros c Hc; rewrite S1 by assumption; lra).
  rewrite rsum_add in RS.
  assert (EX : rsum n (fun c => kX T qp LL i r c * z i c) + kx T qp LL p i r = rsum (t_nk T i) (fun jj => let k := t_kid T i jj in rsum (dnx D k) (fun j => q_BAbt qp (k - 1)%nat r j * pi (k - 1)%nat j))).
  { unfold kX, kx. rewrite (rsum_ext n _ (fun c => rsum (t_nk T i) (fun jj => let k := t_kid T i jj in rsum (dnx D k) (fun l => rsum (dnx D k) (fun m => q_BAbt qp (k - 1)%nat r l * Pk LL k l m * q_BAbt qp (k - 1)%nat c m)) * z i c))) by (intros; rewrite <- rsum_scal_r; reflexivity).
    rewrite rsum_swap, <- rsum_add. apply rsum_ext. intros jj Hjj. cbv zeta. set (k := t_kid T i jj) in *.
    rewrite (rsum_ext n _ (fun c => rsum (dnx D k) (fun l => q_BAbt qp (k - 1)%nat r l * rsum (dnx D k) (fun m => Pk LL k l m * (q_BAbt qp (k - 1)%nat c m * z i c))))).
    2:{ intros c _. rewrite <- rsum_scal_r. apply rsum_ext. intros l0 _. rewrite <- rsum_scal, <- rsum_scal_r. apply rsum_ext. intros; lra. }
    rewrite rsum_swap, <- rsum_add. apply rsum_ext. intros l0 Hl0. rewrite rsum_scal, <- Rmult_plus_distr_l. f_equal.
    pose proof (HE jj l0 Hjj Hl0) as E1. fold k in E1. rewrite E1. rewrite rsum_swap, <- Rplus_assoc. f_equal. rewrite <- rsum_add. apply rsum_ext. intros m Hm. rewrite rsum_scal, <- Rmult_plus_distr_l. f_equal.
    pose proof (HD jj m Hjj Hm) as E2. fold k in E2. rewrite E2. reflexivity. }
  assert (EQ : rsum n (fun j => Q r j * z i j) + q r = if ((0 <? i) && (dnu D i <=? r))%nat then pi (i - 1)%nat (r - dnu D i)%nat else 0).
  { unfold Q, q, nsolve. destruct (Nat.ltb_spec 0 i) as [Hp|Hp]; cbn [andb].
    - unfold embQ. destruct (Nat.leb_spec (dnu D i) r) as [Hu|Hu]; destruct (Nat.ltb_spec r (dnu D i)); try lia; cbn [orb].
      + rewrite HF by (unfold n, nux in Hr; lia). f_equal.
        unfold n, nux. rewrite rsum_split. rewrite (rsum_0 (dnu D i)).
        2:{ intros j Hj. destruct (Nat.ltb_spec j (dnu D i)); [lra|lia]. }
        rewrite Rplus_0_l. apply rsum_ext. intros m Hm. destruct (Nat.ltb_spec (dnu D i + m) (dnu D i)); [lia|]. replace (dnu D i + m - dnu D i)%nat with m by lia. reflexivity.
      + rewrite rsum_0 by (intros; lra). lra.
    - rewrite rsum_0 by (intros; lra). change (dnu D i + dnx D i)%nat with n. apply Nat.ltb_lt in Hr. rewrite Hr. lra. }
  rewrite EQ in RS. lra.
Qed.

(** ** forward substitution *)
Variable w0 : kws R.
Variables (l p : nat -> rvec).
Definition fpost (w : kws R) (i : nat) : Prop :=
  (forall k, (k < ns i)%nat -> rsum (nux qp i) (fun r => lt (k_L w0 i) r k * k_ux w i r) = - l i k) /\
  (forall jj j, (jj < t_nk T i)%nat -> let k := t_kid T i jj in (j < dnx D k)%nat -> k_ux w k (dnu D k + j)%nat = rsum (nux qp i) (fun r => q_BAbt qp (k - 1)%nat r j * k_ux w i r) + q_b qp (k - 1)%nat j) /\
  (forall jj j, (jj < t_nk T i)%nat -> let k := t_kid T i jj in (j < dnx D k)%nat -> k_pi w (k - 1)%nat j = rsum (dnx D k) (fun m => Pk (k_L w0) k j m * k_ux w k (dnu D k + m)%nat) + p k j).
Definition nstep (w w' : kws R) (i : nat) : Prop :=
  same_lhs w w' /\ fpost w' i /\ (forall r, (ns i <= r)%nat -> k_ux w' i r = k_ux w i r) /\
  (forall jj r, (jj < t_nk T i)%nat -> let k := t_kid T i jj in (r < dnu D k \/ nux qp k <= r)%nat -> k_ux w' k r = k_ux w k r) /\
  (forall t, t <> i -> (forall jj, (jj < t_nk T i)%nat -> t <> t_kid T i jj) -> k_ux w' t = k_ux w t) /\
  (forall e, (forall jj, (jj < t_nk T i)%nat -> e <> (t_kid T i jj - 1)%nat) -> k_pi w' e = k_pi w e).

Lemma tforward (st : nat -> kws R -> kws R) :
  (forall i w, (i <= N)%nat -> same_lhs w0 w -> (forall r, (r < ns i)%nat -> k_ux w i r = k_ux w0 i r) ->
     (forall jj j, (jj < t_nk T i)%nat -> k_ux w (t_kid T i jj) (dnu D (t_kid T i jj) + j)%nat = k_ux w0 (t_kid T i jj) (dnu D (t_kid T i jj) + j)%nat) -> nstep w (st i w) i) ->
  let w' := loop (N + 1) st w0 in
  same_lhs w0 w' /\ (forall i, (i <= N)%nat -> fpost w' i) /\ (forall i r, (i <= N)%nat -> (nux qp i <= r)%nat -> k_ux w' i r = k_ux w0 i r).
Proof.
  intros Hst. cbv zeta.
  assert (G : forall K, (K <= N + 1)%nat -> let w' := loop K st w0 in
    same_lhs w0 w' /\ (forall i, (i < K)%nat -> fpost w' i) /\ (forall i r, (nux qp i <= r)%nat -> k_ux w' i r = k_ux w0 i r) /\
    (forall t r, (K <= t)%nat -> (r < dnu D t)%nat -> k_ux w' t r = k_ux w0 t r) /\
    (forall t, (K <= t)%nat -> (forall i jj, (i < K)%nat -> (jj < t_nk T i)%nat -> t <> t_kid T i jj) -> k_ux w' t = k_ux w0 t)).
  { induction K as [|K IH]; intros HK; cbv zeta.
    - cbn [loop]. split; [apply same_refl|]. split; [intros; lia|]. auto.
    - specialize (IH ltac:(lia)). cbv zeta in IH. cbn [loop]. set (w := loop K st w0) in *. clearbody w. destruct IH as (I1 & I2 & I3 & I4 & I5).
      assert (HKN : (K <= N)%nat) by lia.
      assert (Hk : forall jj, (jj < t_nk T K)%nat -> (K < t_kid T K jj <= N)%nat). { intros jj Hjj. pose proof (proj1 HT K jj ltac:(lia) Hjj). lia. }
      assert (Hu : forall jj, (jj < t_nk T K)%nat -> forall i b, (i < K)%nat -> (b < t_nk T i)%nat -> t_kid T K jj <> t_kid T i b).
      { intros jj Hjj i b Hi Hb E. destruct HT as (_ & _ & H). destruct (H K jj i b ltac:(lia) Hjj ltac:(lia) Hb E). lia. }
      destruct (Hst K w HKN I1) as (S1 & (S2 & S3 & S4) & S5 & S6 & S7 & S8).
      { intros r Hr. unfold nsolve in Hr. destruct (Nat.ltb_spec 0 K) as [Hp|Hp]; [apply I4; [lia|exact Hr]|]. rewrite I5; [reflexivity|lia|]. intros; lia. }
      { intros jj j Hjj. rewrite I5; [reflexivity|specialize (Hk jj Hjj); lia|]. intros i b Hi Hb. apply Hu; assumption. }
      set (w' := st K w) in *. clearbody w'.
      assert (Ui : forall i, (i < K)%nat -> k_ux w' i = k_ux w i). { intros i Hi. apply S7; [lia|]. intros jj Hjj. specialize (Hk jj Hjj). lia. }
      assert (Uk : forall i jj j, (i < K)%nat -> (jj < t_nk T i)%nat -> k_ux w' (t_kid T i jj) (dnu D (t_kid T i jj) + j)%nat = k_ux w (t_kid T i jj) (dnu D (t_kid T i jj) + j)%nat).
      { intros i jj j Hi Hjj. destruct (Nat.eq_dec (t_kid T i jj) K) as [E|Hne].
        - rewrite E. apply S5. unfold nsolve. pose proof (kid_pos T qp HT i jj ltac:(lia) Hjj). destruct (Nat.ltb_spec 0 K); lia.
        - rewrite S7; [reflexivity|exact Hne|]. intros b Hb E. apply (Hu b Hb i jj Hi Hjj). symmetry. exact E. }
      split; [eapply same_trans; eassumption|]. split; [|split; [|split]].
      + intros i Hi. destruct (Nat.eq_dec i K) as [->|Hne]; [split; [exact S2|]; split; assumption|]. destruct (I2 i ltac:(lia)) as (J1 & J2 & J3). split; [|split].
        * intros k Hk'. rewrite (Ui i) by lia. apply J1. exact Hk'.
        * intros jj j Hjj. cbv zeta. intros Hj. rewrite Uk by (try assumption; lia). rewrite (Ui i) by lia. apply J2; assumption.
        * intros jj j Hjj. cbv zeta. intros Hj. rewrite S8.
          -- rewrite (J3 jj j) by assumption. f_equal. apply rsum_ext. intros m Hm. rewrite Uk by (try assumption; lia). reflexivity.
          -- intros b Hb. apply (edge_other T qp HT i jj K); [lia|lia|exact Hjj|exact Hne|exact Hb].
      + intros t r Hr. rewrite <- I3 by exact Hr. destruct (Nat.eq_dec t K) as [->|Hne]; [apply S5; pose proof (ns_le K); lia|].
        assert (Hd : (exists jj, (jj < t_nk T K)%nat /\ t = t_kid T K jj) \/ (forall jj, (jj < t_nk T K)%nat -> t <> t_kid T K jj)).
        { clear. induction (t_nk T K) as [|q IH]; [right; intros; lia|]. destruct IH as [(jj & H1 & H2)|IH]; [left; exists jj; split; [lia|exact H2]|].
          destruct (Nat.eq_dec t (t_kid T K q)) as [E|E]; [left; exists q; split; [lia|exact E]|]. right. intros jj Hjj. destruct (Nat.eq_dec jj q) as [->|]; [exact E|apply IH; lia]. }
        destruct Hd as [(jj & Hjj & ->)|Hd]; [apply S6; [exact Hjj|right; exact Hr]|]. rewrite S7 by assumption. reflexivity.
      + intros t r Ht Hr. rewrite <- I4 by (try assumption; lia).
        assert (Hd : (exists jj, (jj < t_nk T K)%nat /\ t = t_kid T K jj) \/ (forall jj, (jj < t_nk T K)%nat -> t <> t_kid T K jj)).
        { clear. induction (t_nk T K) as [|q IH]; [right; intros; lia|]. destruct IH as [(jj & H1 & H2)|IH]; [left; exists jj; split; [lia|exact H2]|].
          destruct (Nat.eq_dec t (t_kid T K q)) as [E|E]; [left; exists q; split; [lia|exact E]|]. right. intros jj Hjj. destruct (Nat.eq_dec jj q) as [->|]; [exact E|apply IH; lia]. }
        destruct Hd as [(jj & Hjj & ->)|Hd]; [apply S6; [exact Hjj|left; exact Hr]|]. rewrite S7; [reflexivity|lia|exact Hd].
      + intros t Ht Hn. rewrite S7; [|lia|intros jj Hjj; apply Hn; lia]. apply I5; [lia|]. intros i jj Hi Hjj. apply Hn; lia. }
  specialize (G (N + 1)%nat (le_n _)). cbv zeta in G. destruct G as (G1 & G2 & G3 & _). split; [exact G1|]. split; [intros; apply G2; lia|]. intros i r _ Hr. apply G3. exact Hr.
Qed.
End Stat.
