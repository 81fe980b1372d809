(** RunProofs.v -- the linear residuals along the interior point iterations, for linear algebra that solves the Newton system exactly. *)
From Coq Require Import ZArith Bool Arith List Lia Reals Lra.
From Verif Require Import Base ArithF RSum Blas Blas2 QpDataProofs OcpModel ResSpec ResProofs ResProofs2 ResProps CoreModel CoreProofs ArgModel IpmModel IpmProofs IpmProofs2 IpmProps IpmInit IpmInitProps IpmReal SolveModel.
Local Open Scope R_scope.

(** *** linear parts of the residuals *)
Section Lin.
Variable qp : oqp R.
Notation D := (q_dim qp).
Notation N := (dN D).
Definition q00 : oqp R := with_rhs qp (fun _ _ => 0) (fun _ _ => 0) (fun _ _ => 0) (fun _ _ => 0).
Notation r2 := (nat -> nat -> R).
Lemma dyn_rhs g b d m z i j : dyn (with_rhs qp g b d m) z i j = dyn q00 z i j + b i j.
Proof. unfold dyn. cbn [q_dim q_BAbt q_b q00 with_rhs]. change (nux q00) with (nux qp). change (nux (with_rhs qp g b d m)) with (nux qp). lra. Qed.
Lemma dyn_qp z i j : dyn qp z i j = dyn q00 z i j + q_b qp i j.
Proof. unfold dyn. cbn [q_dim q_BAbt q_b q00 with_rhs]. change (nux q00) with (nux qp). lra. Qed.
Lemma g_rhs g b d m z pi lam i k : kkt_g (with_rhs qp g b d m) z pi lam i k = kkt_g q00 z pi lam i k + g i k.
Proof.
  unfold kkt_g. cbn [q_dim q_BAbt q_rqz q_mask q00 with_rhs]. change (nux q00) with (nux qp). change (nux (with_rhs qp g b d m)) with (nux qp).
  change (Hess q00) with (Hess qp). change (Hess (with_rhs qp g b d m)) with (Hess qp). change (G q00) with (G qp). change (G (with_rhs qp g b d m)) with (G qp). lra.
Qed.
Lemma g_qp z pi lam i k : kkt_g qp z pi lam i k = kkt_g q00 z pi lam i k + q_rqz qp i k.
Proof.
  unfold kkt_g. cbn [q_dim q_BAbt q_rqz q_mask q00 with_rhs]. change (nux q00) with (nux qp). change (Hess q00) with (Hess qp). change (G q00) with (G qp). lra.
Qed.
Lemma rsum_lin n (w y z x : nat -> R) a : (forall k, (k < n)%nat -> y k = x k + a * z k) -> rsum n (fun k => w k * y k) = rsum n (fun k => w k * x k) + a * rsum n (fun k => w k * z k).
Proof. intros H. rewrite <- rsum_scal, <- rsum_add. apply rsum_ext. intros k Hk. rewrite H by exact Hk. lra. Qed.
Lemma dyn_lin (y x z : r2) a i j : (forall i k, (i <= N)%nat -> (k < nvt D i)%nat -> y i k = x i k + a * z i k) -> (i < N)%nat -> (j < dnx D (S i))%nat ->
  dyn q00 y i j = dyn q00 x i j + a * dyn q00 z i j.
Proof.
  intros H Hi Hj. unfold dyn. cbn [q_dim q_BAbt q_b q00 with_rhs]. change (nux q00) with (nux qp).
  rewrite (rsum_lin (nux qp i) (fun k => q_BAbt qp i k j) (y i) (z i) (x i) a) by (intros k Hk; apply H; [lia|unfold nux, nvt in *; lia]).
  rewrite (H (S i)) by (unfold nvt; lia). lra.
Qed.
Lemma con_lin (y x z : r2) a i c : (forall i k, (i <= N)%nat -> (k < nvt D i)%nat -> y i k = x i k + a * z i k) -> (i <= N)%nat -> con qp y i c = con qp x i c + a * con qp z i c.
Proof. intros H Hi. unfold con. apply rsum_lin. intros k Hk. apply H; assumption. Qed.
Lemma g_lin (y x z yp xp zp yl xl zl : r2) a i k :
  (forall i k, (i <= N)%nat -> (k < nvt D i)%nat -> y i k = x i k + a * z i k) ->
  (forall i k, (i < N)%nat -> (k < dnx D (S i))%nat -> yp i k = xp i k + a * zp i k) ->
  (forall i c, (i <= N)%nat -> (c < nct D i)%nat -> q_mask qp i c * yl i c = q_mask qp i c * xl i c + a * (q_mask qp i c * zl i c)) ->
  (i <= N)%nat -> kkt_g q00 y yp yl i k = kkt_g q00 x xp xl i k + a * kkt_g q00 z zp zl i k.
Proof.
  intros H Hp Hl Hi. unfold kkt_g. cbn [q_dim q_BAbt q_rqz q_mask q00 with_rhs]. change (nux q00) with (nux qp). change (Hess q00) with (Hess qp). change (G q00) with (G qp).
  rewrite (rsum_lin (nvt D i) (Hess qp i k) (y i) (z i) (x i) a) by (intros; apply H; assumption).
  rewrite (rsum_lin (nct D i) (fun c => G qp i c k) (fun c => q_mask qp i c * yl i c) (fun c => q_mask qp i c * zl i c) (fun c => q_mask qp i c * xl i c) a) by (intros; apply Hl; assumption).
  assert (E1 : (if ((i <? N) && (k <? nux qp i))%nat then rsum (dnx D (S i)) (fun j => q_BAbt qp i k j * yp i j) else 0) =
    (if ((i <? N) && (k <? nux qp i))%nat then rsum (dnx D (S i)) (fun j => q_BAbt qp i k j * xp i j) else 0) + a * (if ((i <? N) && (k <? nux qp i))%nat then rsum (dnx D (S i)) (fun j => q_BAbt qp i k j * zp i j) else 0)).
  { destruct (Nat.ltb_spec i N) as [Hn|Hn]; cbn [andb]; [|lra]. destruct (k <? nux qp i)%nat; [|lra]. apply rsum_lin. intros j Hj. apply Hp; assumption. }
  assert (E2 : (if ((0 <? i) && (dnu D i <=? k) && (k <? nux qp i))%nat then yp (i - 1)%nat (k - dnu D i)%nat else 0) =
    (if ((0 <? i) && (dnu D i <=? k) && (k <? nux qp i))%nat then xp (i - 1)%nat (k - dnu D i)%nat else 0) + a * (if ((0 <? i) && (dnu D i <=? k) && (k <? nux qp i))%nat then zp (i - 1)%nat (k - dnu D i)%nat else 0)).
  { destruct (Nat.ltb_spec 0 i) as [Hn|Hn]; cbn [andb]; [|lra]. destruct (Nat.leb_spec (dnu D i) k) as [H1|H1]; cbn [andb]; [|lra]. destruct (Nat.ltb_spec k (nux qp i)) as [H2|H2]; [|lra].
    apply Hp; [lia|]. replace (S (i - 1)) with i by lia. unfold nux in H2. lia. }
  rewrite E1, E2. lra.
Qed.
End Lin.

(** *** step length in the closed orthant, zero complementarity target *)
Lemma joint_closed nc (lam t dlam dt : nat -> R) : (forall i, (i < nc)%nat -> 0 <= lam i /\ 0 <= t i) ->
  let a := alpha_joint_mzero nc lam t dlam dt in 0 <= a <= 1 /\ forall i, (i < nc)%nat -> 0 <= t i + a * dt i.
Proof.
  intros Hpos. unfold alpha_joint_mzero. cbv zeta.
  apply (loop_ind (fun k a => 0 <= a <= 1 /\ forall i, (i < k)%nat -> 0 <= t i + a * dt i)).
  - rsimp. rewrite R_lit11. split; [lra|intros; lia].
  - intros k a Hk [I1 I2]. destruct (Hpos k Hk) as [P1 P2].
    assert (E : let b := fst (fst (ratio_joint lam t dlam dt k a)) in 0 <= b <= a /\ 0 <= t k + b * dt k).
    { unfold ratio_joint. rsimp. rewrite !R_lit01.
      destruct (Rltb_spec (lam k + a * dlam k) 0) as [H|H]; destruct (Rltb_spec (t k + a * dt k) 0) as [H'|H']; cbn [fst snd]; cbv zeta.
      - destruct (ratio_closed (t k) (dt k) a P2 ltac:(lra) H') as [R1 R2]. lra.
      - destruct (ratio_closed (lam k) (dlam k) a P1 ltac:(lra) H) as [R1 R2]. split; [lra|]. apply shrink_closed with a; lra.
      - destruct (ratio_closed (t k) (dt k) a P2 ltac:(lra) H') as [R1 R2]. lra.
      - lra. }
    cbv zeta in E. set (b := fst (fst (ratio_joint lam t dlam dt k a))) in *. destruct E as (E1 & E2).
    split; [lra|]. intros i Hi. destruct (Nat.eq_dec i k) as [->|Hn]; [exact E2|]. apply shrink_closed with a; [apply Hpos; lia|lra|lra|apply I2; lia].
Qed.
Lemma alpha_closed ss nc ms (lam t dlam dt m : nat -> R) : (forall i, (i < nc)%nat -> 0 <= lam i /\ 0 <= t i) ->
  let '(ap, ad) := compute_alpha ss true nc ms lam t dlam dt m in 0 <= ap <= 1 /\ 0 <= ad <= 1 /\ (forall i, (i < nc)%nat -> 0 <= t i + ap * dt i) /\ (ss <> 1%Z -> ap = ad).
Proof.
  intros H. unfold compute_alpha. destruct (Z.eqb_spec ss 1) as [E|E].
  - pose proof (alpha_split_closed nc lam t dlam dt H) as B. destruct (alpha_split_mzero _ _ _ _ _) as [ap ad]. destruct B as (B1 & B2 & B3). split; [exact B1|]. split; [exact B2|]. split; [intros i Hi; apply B3; exact Hi|intros; contradiction].
  - destruct (joint_closed nc lam t dlam dt H) as (B1 & B2). split; [exact B1|]. split; [exact B1|]. split; [exact B2|reflexivity].
Qed.
(** the damped step length is at least 0.99 of the undamped one *)
Lemma damped_lo ap ad : 0 <= ap <= 1 -> 0 <= ad <= 1 -> let '(p, q) := damped (F := R) ap ad in 99 / 100 * ap <= p /\ 99 / 100 * ad <= q.
Proof.
  intros Hp Hd. assert (X : forall a, 0 <= a <= 1 -> 99 / 100 * a <= damp a) by (intros a Ha; unfold damp; rsimp; rewrite R_lit11; nra).
  unfold damped. destruct (fltb _ _); [split; apply X; assumption|lra].
Qed.
Lemma damped_eq ap : let '(p, q) := damped (F := R) ap ap in p = q.
Proof. unfold damped. destruct (fltb _ _); reflexivity. Qed.
