(** QpDataProofs5.v -- what the fields mean: the QP of ResSpec.v written with the arrays the getters return. *)
From Coq Require Import ZArith Bool Arith List Reals Lia Lra.
From Verif Require Import Base ArithF Blas RSum OcpModel ResSpec ResProofs QpDataModel QpDataSpec QpDataProofs.
Local Open Scope R_scope.

Section M.
Variables (D : xdim) (p : qpd R) (z : nat -> nat -> R) (i : nat).
Notation nx := (xnx D). Notation nu := (xnu D). Notation nb := (xnb D). Notation ng := (xng D). Notation ns := (xns D).
Notation qp := (to_oqp D p).
Notation g f := (get_r D f i p (fun _ => 0)).

Lemma get_A r c : (r < nx (i+1))%nat -> (c < nx i)%nat -> g FA (r + c * nx (i+1))%nat = p_BAbt p i (nu i + c)%nat r.
Proof.
  intros Hr Hc. unfold get_r. rewrite CVTT_in by nia. rewrite Nat.div_add by lia. rewrite Nat.div_small by assumption.
  rewrite Nat.mod_add by lia. rewrite Nat.mod_small by assumption. reflexivity.
Qed.
Lemma get_B r c : (r < nx (i+1))%nat -> (c < nu i)%nat -> g FB (r + c * nx (i+1))%nat = p_BAbt p i c r.
Proof.
  intros Hr Hc. unfold get_r. rewrite CVTT_in by nia. rewrite Nat.div_add by lia. rewrite Nat.div_small by assumption.
  rewrite Nat.mod_add by lia. rewrite Nat.mod_small by assumption. reflexivity.
Qed.
Lemma get_Q r c : (r < nx i)%nat -> (c < nx i)%nat -> g FQ (r + c * nx i)%nat = p_RSQ p i (nu i + r)%nat (nu i + c)%nat.
Proof.
  intros Hr Hc. unfold get_r. rewrite CVT_in by nia. rewrite Nat.div_add by lia. rewrite Nat.div_small by assumption.
  rewrite Nat.mod_add by lia. rewrite Nat.mod_small by assumption. reflexivity.
Qed.
Lemma get_R r c : (r < nu i)%nat -> (c < nu i)%nat -> g FR (r + c * nu i)%nat = p_RSQ p i r c.
Proof.
  intros Hr Hc. unfold get_r. rewrite CVT_in by nia. rewrite Nat.div_add by lia. rewrite Nat.div_small by assumption.
  rewrite Nat.mod_add by lia. rewrite Nat.mod_small by assumption. reflexivity.
Qed.
Lemma get_S r c : (r < nu i)%nat -> (c < nx i)%nat -> g FS (r + c * nu i)%nat = p_RSQ p i (nu i + c)%nat r.
Proof.
  intros Hr Hc. unfold get_r. rewrite CVTT_in by nia. rewrite Nat.div_add by lia. rewrite Nat.div_small by assumption.
  rewrite Nat.mod_add by lia. rewrite Nat.mod_small by assumption. reflexivity.
Qed.
Lemma get_C r c : (r < ng i)%nat -> (c < nx i)%nat -> g FC (r + c * ng i)%nat = p_DCt p i (nu i + c)%nat r.
Proof.
  intros Hr Hc. unfold get_r. rewrite CVTT_in by nia. rewrite Nat.div_add by lia. rewrite Nat.div_small by assumption.
  rewrite Nat.mod_add by lia. rewrite Nat.mod_small by assumption. reflexivity.
Qed.
Lemma get_D r c : (r < ng i)%nat -> (c < nu i)%nat -> g FD (r + c * ng i)%nat = p_DCt p i c r.
Proof.
  intros Hr Hc. unfold get_r. rewrite CVTT_in by nia. rewrite Nat.div_add by lia. rewrite Nat.div_small by assumption.
  rewrite Nat.mod_add by lia. rewrite Nat.mod_small by assumption. reflexivity.
Qed.
Ltac gv := unfold get_r, UNPACK_VEC, xnb in *; rewrite ?neg_loop_in by lia; rewrite vset0_in by lia; try reflexivity.

Lemma mean_dyn j : (j < nx (i+1))%nat ->
  dyn qp z i j = rsum (nx i) (fun c => g FA (j + c * nx (i+1))%nat * z i (nu i + c)%nat)
    + rsum (nu i) (fun c => g FB (j + c * nx (i+1))%nat * z i c) + g Fb j - z (i+1)%nat (nu (i+1) + j)%nat.
Proof.
  intros Hj. unfold dyn, nux. cbn [q_dim q_BAbt q_b to_oqp dnu dnx]. rewrite rsum_split. replace (S i) with (i+1)%nat by lia.
  replace (g Fb j) with (p_b p i j) by gv.
  rewrite (rsum_ext (nx i) (fun c => g FA _ * _) (fun c => p_BAbt p i (nu i + c)%nat j * z i (nu i + c)%nat)) by (intros; rewrite get_A by assumption; reflexivity).
  rewrite (rsum_ext (nu i) (fun c => g FB _ * _) (fun c => p_BAbt p i c j * z i c)) by (intros; rewrite get_B by assumption; reflexivity).
  lra.
Qed.

(** symmetric matrix from the lower triangle of a column-major n x n array *)
Definition lowsym (n : nat) (M : nat -> R) (r c : nat) : R := if (c <=? r)%nat then M (r + c * n)%nat else M (c + r * n)%nat.
Notation u := (fun k => z i k). Notation x := (fun k => z i (nu i + k)%nat).
Notation sl := (fun k => z i (nu i + nx i + k)%nat). Notation su := (fun k => z i (nu i + nx i + ns i + k)%nat).
Lemma symL_cross (H : nat -> nat -> R) n m k l : (k < n)%nat -> symL H (n + m) k = H (n + m)%nat k /\ (symL H k (n + l) = H (n + l)%nat k).
Proof. intros. unfold symL. destruct (Nat.leb_spec k (n + m)); [|lia]. destruct (Nat.leb_spec (n + l) k); [lia|]. split; reflexivity. Qed.
Lemma mean_cost :
  stage_cost qp z i =
    1/2 * rsum (nu i) (fun a => rsum (nu i) (fun b => u a * lowsym (nu i) (g FR) a b * u b))
    + rsum (nu i) (fun a => rsum (nx i) (fun b => u a * g FS (a + b * nu i)%nat * x b))
    + 1/2 * rsum (nx i) (fun a => rsum (nx i) (fun b => x a * lowsym (nx i) (g FQ) a b * x b))
    + rsum (nu i) (fun a => g Fr a * u a) + rsum (nx i) (fun a => g Fq a * x a)
    + 1/2 * rsum (ns i) (fun a => g FZl a * (sl a * sl a)) + 1/2 * rsum (ns i) (fun a => g FZu a * (su a * su a))
    + rsum (ns i) (fun a => g Fzl a * sl a) + rsum (ns i) (fun a => g Fzu a * su a).
Proof.
  unfold stage_cost, Hess, nvt, nux. cbn [q_dim q_RSQ q_Z q_rqz to_oqp dnu dnx dns].
  set (n := (nu i + nx i)%nat). set (H := p_RSQ p i).
  rewrite (rsum_ext (n + 2 * ns i) (fun k => rsum _ _) (fun k => z i k * rsum (n + 2 * ns i) (fun l => H_co n H (p_Z p i) k l * z i l))).
  2:{ intros k Hk. rewrite <- rsum_scal. apply rsum_ext. intros; lra. }
  rewrite (rsum_split n (2 * ns i)).
  rewrite (rsum_ext n (fun k => z i k * rsum (n + 2 * ns i) _) (fun k => z i k * rsum n (fun l => symL H k l * z i l))) by (intros k Hk; rewrite H_hard by assumption; reflexivity).
  rewrite (rsum_ext (2 * ns i) (fun k => z i (n + k)%nat * rsum _ _) (fun k => p_Z p i k * (z i (n + k)%nat * z i (n + k)%nat))).
  2:{ intros k Hk. rewrite H_slack by lia. replace (n + k - n)%nat with k by lia. lra. }
  rewrite (rsum_split n (2 * ns i) (fun k => p_rqz p i k * z i k)).
  replace (2 * ns i)%nat with (ns i + ns i)%nat by lia. rewrite !(rsum_split (ns i) (ns i)).
  unfold n at 1 2 3. rewrite (rsum_split (nu i) (nx i)). 
  rewrite (rsum_ext (nu i) (fun k => z i k * rsum _ _) (fun a => rsum (nu i) (fun b => u a * lowsym (nu i) (g FR) a b * u b) + rsum (nx i) (fun b => u a * g FS (a + b * nu i)%nat * x b))).
  2:{ intros a Ha. rewrite rsum_split. rewrite Rmult_plus_distr_l, <- !rsum_scal. f_equal; apply rsum_ext; intros b Hb.
      - unfold lowsym, symL. destruct (Nat.leb_spec b a); rewrite get_R by assumption; fold H; lra.
      - rewrite get_S by assumption. rewrite (proj2 (symL_cross H (nu i) 0 a b Ha)). fold H. lra. }
  rewrite (rsum_ext (nx i) (fun k => z i (nu i + k)%nat * rsum _ _) (fun a => rsum (nu i) (fun b => u b * g FS (b + a * nu i)%nat * x a) + rsum (nx i) (fun b => x a * lowsym (nx i) (g FQ) a b * x b))).
  2:{ intros a Ha. rewrite rsum_split. rewrite Rmult_plus_distr_l, <- !rsum_scal. f_equal; apply rsum_ext; intros b Hb.
      - rewrite get_S by assumption. rewrite (proj1 (symL_cross H (nu i) a b 0 Hb)). fold H. lra.
      - unfold lowsym, symL. destruct (Nat.leb_spec b a); destruct (Nat.leb_spec (nu i + b) (nu i + a)); try lia; rewrite get_Q by assumption; fold H; lra. }
  rewrite !rsum_add.
  rewrite (rsum_swap (nx i) (nu i) (fun a b => u b * g FS (b + a * nu i)%nat * x a)).
  assert (Erq : rsum n (fun k => p_rqz p i k * z i k) = rsum (nu i) (fun k => p_rqz p i k * z i k) + rsum (nx i) (fun k => p_rqz p i (nu i + k)%nat * z i (nu i + k)%nat)) by apply rsum_split.
  rewrite Erq.
  rewrite (rsum_ext (nu i) (fun a => g Fr a * u a) (fun k => p_rqz p i k * z i k)) by (intros; f_equal; gv).
  rewrite (rsum_ext (nx i) (fun a => g Fq a * x a) (fun k => p_rqz p i (nu i + k)%nat * z i (nu i + k)%nat)) by (intros; f_equal; gv).
  rewrite (rsum_ext (ns i) (fun a => g FZl a * (sl a * sl a)) (fun k => p_Z p i k * (z i (n + k)%nat * z i (n + k)%nat))) by (intros; f_equal; gv).
  rewrite (rsum_ext (ns i) (fun a => g FZu a * (su a * su a)) (fun k => p_Z p i (ns i + k)%nat * (z i (n + (ns i + k))%nat * z i (n + (ns i + k))%nat)))
    by (intros; unfold n; replace (nu i + nx i + (ns i + k))%nat with (nu i + nx i + ns i + k)%nat by lia; f_equal; gv).
  rewrite (rsum_ext (ns i) (fun a => g Fzl a * sl a) (fun k => p_rqz p i (n + k)%nat * z i (n + k)%nat)) by (intros; f_equal; gv).
  rewrite (rsum_ext (ns i) (fun a => g Fzu a * su a) (fun k => p_rqz p i (n + (ns i + k))%nat * z i (n + (ns i + k))%nat))
    by (intros; unfold n; replace (nu i + nx i + (ns i + k))%nat with (nu i + nx i + ns i + k)%nat by lia; f_equal; gv).
  fold n. lra.
Qed.

(** the slack variables of constraint j (0 if it is not softened) *)
Definition slack_lo (j : nat) : R := if Z.eqb (p_idxs_rev p i j) (-1) then 0 else sl (Z.to_nat (p_idxs_rev p i j)).
Definition slack_up (j : nat) : R := if Z.eqb (p_idxs_rev p i j) (-1) then 0 else su (Z.to_nat (p_idxs_rev p i j)).
(** general constraint value C x + D u *)
Definition gen_val (j : nat) : R :=
  rsum (nx i) (fun c => g FC (j + c * ng i)%nat * x c) + rsum (nu i) (fun c => g FD (j + c * ng i)%nat * u c).
Hypothesis Hwf : stage_wf (nu i + nx i) (nb i) (ng i) (ns i) (fun j => Z.to_nat (p_idxb p i j)) (p_idxs_rev p i).

Lemma row_bound j : (j < nb i)%nat ->
  rsum (nu i + nx i) (fun k => row_co (nb i) (fun j => Z.to_nat (p_idxb p i j)) (p_DCt p i) j k * z i k) = z i (Z.to_nat (p_idxb p i j)).
Proof.
  intros Hj. rewrite <- (rsum_one (nu i + nx i) (Z.to_nat (p_idxb p i j)) (z i)) by (apply (proj1 Hwf); exact Hj).
  apply rsum_ext. intros k Hk. unfold row_co. destruct (Nat.ltb_spec j (nb i)); [|lia].
  rewrite Nat.eqb_sym. destruct (k =? _)%nat; lra.
Qed.
Lemma row_gen j : (j < ng i)%nat ->
  rsum (nu i + nx i) (fun k => row_co (nb i) (fun j => Z.to_nat (p_idxb p i j)) (p_DCt p i) (nb i + j) k * z i k) = gen_val j.
Proof.
  intros Hj. rewrite (rsum_ext (nu i + nx i) _ (fun k => p_DCt p i k j * z i k)).
  2:{ intros k Hk. unfold row_co. destruct (Nat.ltb_spec (nb i + j) (nb i)); [lia|]. replace (nb i + j - nb i)%nat with j by lia. reflexivity. }
  rewrite rsum_split. unfold gen_val.
  rewrite (rsum_ext (nx i) (fun c => g FC _ * _) (fun c => p_DCt p i (nu i + c)%nat j * z i (nu i + c)%nat)) by (intros; rewrite get_C by assumption; reflexivity).
  rewrite (rsum_ext (nu i) (fun c => g FD _ * _) (fun c => p_DCt p i c j * z i c)) by (intros; rewrite get_D by assumption; reflexivity).
  lra.
Qed.
Lemma mean_lb j : (j < nb i)%nat -> (con qp z i j >= q_d qp i j <-> g Flb j <= z i (Z.to_nat (p_idxb p i j)) + slack_lo j).
Proof.
  intros Hj. unfold con, G, nvt, nux. cbn [q_dim q_d q_DCt q_idxb q_idxs_rev to_oqp dnu dnx dnb dng dns].
  rewrite (G_val_lo _ _ _ _ _ _ _ (z i) Hwf) by lia. rewrite row_bound by exact Hj.
  replace (g Flb j) with (p_d p i j) by gv. unfold slack_lo. split; lra.
Qed.
Lemma mean_lg j : (j < ng i)%nat -> (con qp z i (nb i + j) >= q_d qp i (nb i + j)%nat <-> g Flg j <= gen_val j + slack_lo (nb i + j)).
Proof.
  intros Hj. unfold con, G, nvt, nux. cbn [q_dim q_d q_DCt q_idxb q_idxs_rev to_oqp dnu dnx dnb dng dns].
  rewrite (G_val_lo _ _ _ _ _ _ _ (z i) Hwf) by lia. rewrite row_gen by exact Hj.
  replace (g Flg j) with (p_d p i (nb i + j)%nat) by gv. unfold slack_lo. split; lra.
Qed.
Lemma mean_ub j : (j < nb i)%nat -> (con qp z i (nb i + ng i + j) >= q_d qp i (nb i + ng i + j)%nat <-> z i (Z.to_nat (p_idxb p i j)) - slack_up j <= g Fub j).
Proof.
  intros Hj. unfold con, G, nvt, nux. cbn [q_dim q_d q_DCt q_idxb q_idxs_rev to_oqp dnu dnx dnb dng dns].
  rewrite (G_val_up _ _ _ _ _ _ _ (z i) Hwf) by lia. replace (nb i + ng i + j - (nb i + ng i))%nat with j by lia. rewrite row_bound by exact Hj.
  replace (g Fub j) with (- p_d p i (nb i + ng i + j)%nat) by (unfold get_r, UNPACK_VEC, xnb in *; rewrite neg_loop_in by lia; rewrite vset0_in by lia; reflexivity).
  unfold slack_up. split; lra.
Qed.
Lemma mean_ug j : (j < ng i)%nat -> (con qp z i (2 * nb i + ng i + j) >= q_d qp i (2 * nb i + ng i + j)%nat <-> gen_val j - slack_up (nb i + j) <= g Fug j).
Proof.
  intros Hj. unfold con, G, nvt, nux. cbn [q_dim q_d q_DCt q_idxb q_idxs_rev to_oqp dnu dnx dnb dng dns].
  rewrite (G_val_up _ _ _ _ _ _ _ (z i) Hwf) by lia. replace (2 * nb i + ng i + j - (nb i + ng i))%nat with (nb i + j)%nat by lia. rewrite row_gen by exact Hj.
  replace (g Fug j) with (- p_d p i (2 * nb i + ng i + j)%nat) by (unfold get_r, UNPACK_VEC, xnb in *; rewrite neg_loop_in by lia; rewrite vset0_in by lia; reflexivity).
  unfold slack_up. split; lra.
Qed.
Lemma mean_lls j : (j < ns i)%nat -> (con qp z i (2 * nb i + 2 * ng i + j) >= q_d qp i (2 * nb i + 2 * ng i + j)%nat <-> g Flls j <= sl j).
Proof.
  intros Hj. unfold con, G, nvt, nux. cbn [q_dim q_d q_DCt q_idxb q_idxs_rev to_oqp dnu dnx dnb dng dns].
  rewrite (G_val_sl _ _ _ _ _ _ _ (z i)) by lia. replace (2 * nb i + 2 * ng i + j - 2 * (nb i + ng i))%nat with j by lia.
  replace (g Flls j) with (p_d p i (2 * nb i + 2 * ng i + j)%nat) by gv. split; lra.
Qed.
Lemma mean_lus j : (j < ns i)%nat -> (con qp z i (2 * nb i + 2 * ng i + ns i + j) >= q_d qp i (2 * nb i + 2 * ng i + ns i + j)%nat <-> g Flus j <= su j).
Proof.
  intros Hj. unfold con, G, nvt, nux. cbn [q_dim q_d q_DCt q_idxb q_idxs_rev to_oqp dnu dnx dnb dng dns].
  rewrite (G_val_sl _ _ _ _ _ _ _ (z i)) by lia. replace (2 * nb i + 2 * ng i + ns i + j - 2 * (nb i + ng i))%nat with (ns i + j)%nat by lia.
  replace (g Flus j) with (p_d p i (2 * nb i + 2 * ng i + ns i + j)%nat) by gv.
  replace (nu i + nx i + (ns i + j))%nat with (nu i + nx i + ns i + j)%nat by lia. split; lra.
Qed.
End M.
