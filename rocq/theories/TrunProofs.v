(** TrunProofs.v -- linear parts of the tree residuals. *)
From Coq Require Import ZArith Bool Arith List Lia Reals Lra.
From Verif Require Import Base ArithF RSum Blas Blas2 OcpModel ResSpec ResProofs ResProofs2 SolveModel RunProofs TreeModel TreeSpec.
Local Open Scope R_scope.

Section Lin.
Variables (T : ttree) (qp : oqp R).
Notation D := (q_dim qp).
Notation N := (dN D).
Notation q0 := (q00 qp).
Notation r2 := (nat -> nat -> R).
Lemma tdyn_rhs g b d m z i k j : tdyn (with_rhs qp g b d m) z i k j = tdyn q0 z i k j + b (k - 1)%nat j.
Proof. unfold tdyn. cbn [q_dim q_BAbt q_b q00 with_rhs]. change (nux q0) with (nux qp). change (nux (with_rhs qp g b d m)) with (nux qp). lra. Qed.
Lemma tdyn_qp z i k j : tdyn qp z i k j = tdyn q0 z i k j + q_b qp (k - 1)%nat j.
Proof. unfold tdyn. cbn [q_dim q_BAbt q_b q00 with_rhs]. change (nux q0) with (nux qp). lra. Qed.
Lemma tg_rhs g b d m z pi lam i k : tkkt_g T (with_rhs qp g b d m) z pi lam i k = tkkt_g T q0 z pi lam i k + g i k.
Proof.
  unfold tkkt_g. cbn [q_dim q_BAbt q_rqz q_mask q00 with_rhs]. change (nux q0) with (nux qp). change (nux (with_rhs qp g b d m)) with (nux qp).
  change (Hess q0) with (Hess qp). change (Hess (with_rhs qp g b d m)) with (Hess qp). change (G q0) with (G qp). change (G (with_rhs qp g b d m)) with (G qp). lra.
Qed.
Lemma tg_qp z pi lam i k : tkkt_g T qp z pi lam i k = tkkt_g T q0 z pi lam i k + q_rqz qp i k.
Proof.
  unfold tkkt_g. cbn [q_dim q_BAbt q_rqz q_mask q00 with_rhs]. change (nux q0) with (nux qp). change (Hess q0) with (Hess qp). change (G q0) with (G qp). lra.
Qed.
Hypothesis HT : tree_ok (N + 1) T.
Lemma kid_in i jj : (i <= N)%nat -> (jj < t_nk T i)%nat -> (0 < t_kid T i jj <= N)%nat.
Proof. intros Hi Hj. pose proof (proj1 HT i jj ltac:(lia) Hj). lia. Qed.
Lemma tdyn_lin (y x z : r2) a i jj j : (forall i k, (i <= N)%nat -> (k < nvt D i)%nat -> y i k = x i k + a * z i k) -> (i <= N)%nat -> (jj < t_nk T i)%nat -> (j < dnx D (t_kid T i jj))%nat ->
  tdyn q0 y i (t_kid T i jj) j = tdyn q0 x i (t_kid T i jj) j + a * tdyn q0 z i (t_kid T i jj) j.
Proof.
  intros H Hi Hjj Hj. unfold tdyn. cbn [q_dim q_BAbt q_b q00 with_rhs]. change (nux q0) with (nux qp). pose proof (kid_in i jj Hi Hjj) as Hk.
  rewrite (rsum_lin (nux qp i) (fun r => q_BAbt qp (t_kid T i jj - 1)%nat r j) (y i) (z i) (x i) a) by (intros k Hk'; apply H; [lia|unfold nux, nvt in *; lia]).
  rewrite (H (t_kid T i jj)) by (unfold nvt; lia). lra.
Qed.
Lemma tg_lin (y x z yp xp zp yl xl zl : r2) a i k :
  (forall i k, (i <= N)%nat -> (k < nvt D i)%nat -> y i k = x i k + a * z i k) ->
  (forall i k, (i < N)%nat -> (k < dnx D (S i))%nat -> yp i k = xp i k + a * zp i k) ->
  (forall i c, (i <= N)%nat -> (c < nct D i)%nat -> q_mask qp i c * yl i c = q_mask qp i c * xl i c + a * (q_mask qp i c * zl i c)) ->
  (i <= N)%nat -> tkkt_g T q0 y yp yl i k = tkkt_g T q0 x xp xl i k + a * tkkt_g T q0 z zp zl i k.
Proof.
  intros H Hp Hl Hi. unfold tkkt_g. cbn [q_dim q_BAbt q_rqz q_mask q00 with_rhs]. change (nux q0) with (nux qp). change (Hess q0) with (Hess qp). change (G q0) with (G qp).
  rewrite (rsum_lin (nvt D i) (Hess qp i k) (y i) (z i) (x i) a) by (intros; apply H; assumption).
  rewrite (rsum_lin (nct D i) (fun c => G qp i c k) (fun c => q_mask qp i c * yl i c) (fun c => q_mask qp i c * zl i c) (fun c => q_mask qp i c * xl i c) a) by (intros; apply Hl; assumption).
  set (E1 := fun p : r2 => if (k <? nux qp i)%nat then rsum (t_nk T i) (fun jj => let kd := t_kid T i jj in rsum (dnx D kd) (fun j => q_BAbt qp (kd - 1)%nat k j * p (kd - 1)%nat j)) else 0).
  assert (Q1 : E1 yp = E1 xp + a * E1 zp).
  { unfold E1. destruct (k <? nux qp i)%nat; [|lra]. rewrite <- rsum_scal, <- rsum_add. apply rsum_ext. intros jj Hjj. cbv zeta. pose proof (kid_in i jj Hi Hjj) as Hk.
    apply rsum_lin. intros j Hj. apply Hp; [lia|]. replace (S (t_kid T i jj - 1)) with (t_kid T i jj) by lia. exact Hj. }
  assert (E2 : (if ((0 <? i) && (dnu D i <=? k) && (k <? nux qp i))%nat then yp (i - 1)%nat (k - dnu D i)%nat else 0) =
    (if ((0 <? i) && (dnu D i <=? k) && (k <? nux qp i))%nat then xp (i - 1)%nat (k - dnu D i)%nat else 0) + a * (if ((0 <? i) && (dnu D i <=? k) && (k <? nux qp i))%nat then zp (i - 1)%nat (k - dnu D i)%nat else 0)).
  { destruct (Nat.ltb_spec 0 i) as [Hn|Hn]; cbn [andb]; [|lra]. destruct (Nat.leb_spec (dnu D i) k) as [H1|H1]; cbn [andb]; [|lra]. destruct (Nat.ltb_spec k (nux qp i)) as [H2|H2]; [|lra].
    apply Hp; [lia|]. replace (S (i - 1)) with i by lia. unfold nux in H2. lia. }
  fold (E1 yp) (E1 xp) (E1 zp). rewrite Q1, E2. lra.
Qed.
(** every edge index is the edge into a kid *)
Lemma edge_of k : (k < N)%nat -> exists i jj, (i <= N)%nat /\ (jj < t_nk T i)%nat /\ t_kid T i jj = S k.
Proof. intros Hk. destruct (proj1 (proj2 HT) (S k) ltac:(lia)) as (i & jj & Hi & Hj & E). exists i, jj. split; [lia|]. split; assumption. Qed.
End Lin.
