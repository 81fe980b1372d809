(** SensProofs3.v -- prediction and seed setters. *)
From Coq Require Import ZArith Bool Arith Lia Reals Lra.
From Verif Require Import Base ArithF RSum Blas CoreModel CoreProofs OcpModel ResSpec KktSpec ResProofs ResProofs2 ResProps KktModel KktProofs.
From Verif Require Import SolveModel NewtonUniq SolveProps SensModel SensSpec SensProofs SensProofs2 QpDataModel.
Local Open Scope R_scope.

Section Upd.
Variables (D : dims) (tlm : Z) (lam_min t_min ap ad : R) (step x bkp : osol R).
Let p := fst (damped ap ad).
Let q := snd (damped ap ad).
Notation x' := (fst (ocp_update D tlm lam_min t_min ap ad step x bkp)).
Notation bkp' := (snd (ocp_update D tlm lam_min t_min ap ad step x bkp)).
Lemma update_val : tlm <> 2%Z ->
  (forall i k, (k < nvt D i)%nat -> s_ux x' i k = s_ux x i k + p * s_ux step i k) /\
  (forall i k, (i < dN D)%nat -> (k < dnx D (S i))%nat -> s_pi x' i k = s_pi x i k + q * s_pi step i k) /\
  (forall i k, (k < nct D i)%nat -> s_lam x' i k = s_lam x i k + q * s_lam step i k) /\
  (forall i k, (k < nct D i)%nat -> s_t x' i k = s_t x i k + p * s_t step i k).
Proof.
  intros Ht. apply Z.eqb_neq in Ht. unfold p, q.
  pose proof (fun i k => update_var_spec (nvt D i) (if (i <? dN D)%nat then dnx D (i + 1) else 0%nat) (nct D i) tlm lam_min t_min ap ad (stage_vars step i) (stage_vars x i) (stage_vars bkp i) k) as U.
  destruct (damped ap ad) as [p0 q0]. cbn [fst snd].
  unfold ocp_update. cbn [fst of_stages s_ux s_pi s_lam s_t].
  split; [|split; [|split]].
  - intros i k Hk. specialize (U i k). destruct (update_var _ _ _ _ _ _ _ _ _ _) as [y yb]. destruct U as (A & _). cbn [fst]. rewrite A. apply Nat.ltb_lt in Hk. rewrite Hk. reflexivity.
  - intros i k Hi Hk. specialize (U i k). destruct (update_var _ _ _ _ _ _ _ _ _ _) as [y yb]. destruct U as (_ & A & _). cbn [fst]. rewrite A. apply Nat.ltb_lt in Hi. rewrite Hi, Nat.add_1_r. apply Nat.ltb_lt in Hk. rewrite Hk. reflexivity.
  - intros i k Hk. specialize (U i k). destruct (update_var _ _ _ _ _ _ _ _ _ _) as [y yb]. destruct U as (_ & _ & A & _). cbn [fst]. rewrite A. apply Nat.ltb_lt in Hk. rewrite Hk, Ht. reflexivity.
  - intros i k Hk. specialize (U i k). destruct (update_var _ _ _ _ _ _ _ _ _ _) as [y yb]. destruct U as (_ & _ & _ & A & _). cbn [fst]. rewrite A. apply Nat.ltb_lt in Hk. rewrite Hk, Ht. reflexivity.
Qed.
(** the backup is the iterate before the step, clipping or not *)
Lemma update_bkp : 
  (forall i k, (k < nvt D i)%nat -> s_ux bkp' i k = s_ux x i k) /\
  (forall i k, (i < dN D)%nat -> (k < dnx D (S i))%nat -> s_pi bkp' i k = s_pi x i k) /\
  (forall i k, (k < nct D i)%nat -> s_lam bkp' i k = s_lam x i k) /\
  (forall i k, (k < nct D i)%nat -> s_t bkp' i k = s_t x i k).
Proof.
  pose proof (fun i k => update_var_spec (nvt D i) (if (i <? dN D)%nat then dnx D (i + 1) else 0%nat) (nct D i) tlm lam_min t_min ap ad (stage_vars step i) (stage_vars x i) (stage_vars bkp i) k) as U.
  destruct (damped ap ad) as [p0 q0].
  unfold ocp_update. cbn [snd of_stages s_ux s_pi s_lam s_t].
  split; [|split; [|split]].
  - intros i k Hk. specialize (U i k). destruct (update_var _ _ _ _ _ _ _ _ _ _) as [y yb]. destruct U as (_ & _ & _ & _ & A & _). cbn [snd]. rewrite A. apply Nat.ltb_lt in Hk. rewrite Hk. reflexivity.
  - intros i k Hi Hk. specialize (U i k). destruct (update_var _ _ _ _ _ _ _ _ _ _) as [y yb]. destruct U as (_ & _ & _ & _ & _ & A & _). cbn [snd]. rewrite A. apply Nat.ltb_lt in Hi. rewrite Hi, Nat.add_1_r. apply Nat.ltb_lt in Hk. rewrite Hk. reflexivity.
  - intros i k Hk. specialize (U i k). destruct (update_var _ _ _ _ _ _ _ _ _ _) as [y yb]. destruct U as (_ & _ & _ & _ & _ & _ & A & _). cbn [snd]. rewrite A. apply Nat.ltb_lt in Hk. rewrite Hk. reflexivity.
  - intros i k Hk. specialize (U i k). destruct (update_var _ _ _ _ _ _ _ _ _ _) as [y yb]. destruct U as (_ & _ & _ & _ & _ & _ & _ & A). cbn [snd]. rewrite A. apply Nat.ltb_lt in Hk. rewrite Hk. reflexivity.
Qed.
End Upd.

(** residuals along a Newton direction *)
Section Line.
Variables (a : kargs R) (qp : oqp R) (preg p q : R).
Notation D := (q_dim qp).
Notation N := (dN D).
Variables (x x' dx : osol R) (r : ores R).
Hypothesis Hm : mask01 qp.
Hypothesis Rg : forall i k, (i <= N)%nat -> (k < nvt D i)%nat -> r_g r i k = kkt_g qp (s_ux x) (s_pi x) (s_lam x) i k.
Hypothesis Rb : forall i j, (i < N)%nat -> (j < dnx D (S i))%nat -> r_b r i j = dyn qp (s_ux x) i j.
Hypothesis Rd : forall i c, (i <= N)%nat -> (c < nct D i)%nat -> r_d r i c = kkt_d qp (s_ux x) (s_t x) i c.
Hypothesis HS : newton_solution a (with_rhs qp (r_g r) (r_b r) (r_d r) (r_m r)) preg dx.
Hypothesis Xu : forall i k, (k < nvt D i)%nat -> s_ux x' i k = s_ux x i k + p * s_ux dx i k.
Hypothesis Xp : forall i k, (i < N)%nat -> (k < dnx D (S i))%nat -> s_pi x' i k = s_pi x i k + q * s_pi dx i k.
Hypothesis Xl : forall i k, (k < nct D i)%nat -> s_lam x' i k = s_lam x i k + q * s_lam dx i k.
Hypothesis Xt : forall i k, (k < nct D i)%nat -> s_t x' i k = s_t x i k + p * s_t dx i k.
Lemma line_dyn i j : (i < N)%nat -> (j < dnx D (S i))%nat -> dyn qp (s_ux x') i j = (1 - p) * dyn qp (s_ux x) i j.
Proof.
  intros Hi Hj. destruct HS as (_ & B & _). specialize (B i j Hi Hj). unfold dyn in B. cbn [q_dim q_b q_BAbt with_rhs] in B. rewrite Rb in B by assumption.
  change (nux (with_rhs qp (r_g r) (r_b r) (r_d r) (r_m r))) with (nux qp) in B.
  unfold dyn at 1. rewrite Xu by (unfold nvt; lia).
  rewrite (rsum_ext _ _ (fun k => q_BAbt qp i k j * s_ux x i k + p * (q_BAbt qp i k j * s_ux dx i k))) by (intros k Hk; rewrite Xu by (unfold nvt, nux in *; lia); ring).
  rewrite rsum_add, rsum_scal. unfold dyn in *. set (S1 := rsum (nux qp i) (fun k => q_BAbt qp i k j * s_ux x i k)) in *. set (S2 := rsum (nux qp i) (fun k => q_BAbt qp i k j * s_ux dx i k)) in *.
  replace S2 with (- (S1 + q_b qp i j - s_ux x (S i) (dnu D (S i) + j)%nat) + s_ux dx (S i) (dnu D (S i) + j)%nat) by lra. ring.
Qed.
Lemma con_line i c : con qp (s_ux x') i c = con qp (s_ux x) i c + p * con qp (s_ux dx) i c.
Proof. unfold con. rewrite <- rsum_scal, <- rsum_add. apply rsum_ext. intros k Hk. rewrite Xu by exact Hk. ring. Qed.
Lemma line_con i c : (i <= N)%nat -> (c < nct D i)%nat -> kkt_d qp (s_ux x') (s_t x') i c = (1 - p) * kkt_d qp (s_ux x) (s_t x) i c.
Proof.
  intros Hi Hc. destruct HS as (_ & _ & C & _). specialize (C i c Hi Hc). cbn [q_d with_rhs] in C. change (con (with_rhs qp (r_g r) (r_b r) (r_d r) (r_m r))) with (con qp) in C. rewrite Rd in C by assumption.
  unfold kkt_d in *. rewrite con_line, Xt by assumption. destruct (Hm i c Hi Hc) as [E|E]; rewrite E in *; [ring|].
  replace (s_t dx i c) with (con qp (s_ux dx) i c - 1 * (q_d qp i c + s_t x i c - con qp (s_ux x) i c)) by lra. ring.
Qed.
Lemma g_line i k : (i <= N)%nat -> p = q -> kkt_g qp (s_ux x') (s_pi x') (s_lam x') i k = kkt_g qp (s_ux x) (s_pi x) (s_lam x) i k + p * (kkt_g (with_rhs qp (r_g r) (r_b r) (r_d r) (r_m r)) (s_ux dx) (s_pi dx) (s_lam dx) i k - r_g r i k).
Proof.
  intros Hi Epq. unfold kkt_g. cbn [q_dim q_rqz q_BAbt q_mask with_rhs]. change (nux (with_rhs qp (r_g r) (r_b r) (r_d r) (r_m r))) with (nux qp).
  change (Hess (with_rhs qp (r_g r) (r_b r) (r_d r) (r_m r))) with (Hess qp). change (G (with_rhs qp (r_g r) (r_b r) (r_d r) (r_m r))) with (G qp).
  rewrite (rsum_ext (nvt D i) (fun l => Hess qp i k l * s_ux x' i l) (fun l => Hess qp i k l * s_ux x i l + p * (Hess qp i k l * s_ux dx i l))) by (intros l Hl; rewrite Xu by exact Hl; ring).
  rewrite (rsum_ext (nct D i) (fun c => G qp i c k * (q_mask qp i c * s_lam x' i c)) (fun c => G qp i c k * (q_mask qp i c * s_lam x i c) + p * (G qp i c k * (q_mask qp i c * s_lam dx i c)))) by (intros l Hl; rewrite Xl by exact Hl; rewrite Epq; ring).
  rewrite !rsum_add, !rsum_scal.
  assert (E1 : (if (i <? N)%nat && (k <? nux qp i)%nat then rsum (dnx D (S i)) (fun j => q_BAbt qp i k j * s_pi x' i j) else 0) = (if (i <? N)%nat && (k <? nux qp i)%nat then rsum (dnx D (S i)) (fun j => q_BAbt qp i k j * s_pi x i j) else 0) + p * (if (i <? N)%nat && (k <? nux qp i)%nat then rsum (dnx D (S i)) (fun j => q_BAbt qp i k j * s_pi dx i j) else 0)).
  { destruct (Nat.ltb_spec i N); cbn [andb]; [|ring]. destruct (k <? nux qp i)%nat; [|ring]. rewrite <- rsum_scal, <- rsum_add. apply rsum_ext. intros j Hj. rewrite Xp by assumption. rewrite Epq. ring. }
  assert (E2 : (if (0 <? i)%nat && (dnu D i <=? k)%nat && (k <? nux qp i)%nat then s_pi x' (i - 1)%nat (k - dnu D i)%nat else 0) = (if (0 <? i)%nat && (dnu D i <=? k)%nat && (k <? nux qp i)%nat then s_pi x (i - 1)%nat (k - dnu D i)%nat else 0) + p * (if (0 <? i)%nat && (dnu D i <=? k)%nat && (k <? nux qp i)%nat then s_pi dx (i - 1)%nat (k - dnu D i)%nat else 0)).
  { destruct (Nat.ltb_spec 0 i); cbn [andb]; [|ring]. destruct (Nat.leb_spec (dnu D i) k); cbn [andb]; [|ring]. destruct (Nat.ltb_spec k (nux qp i)) as [Hk|]; [|ring].
    rewrite Xp; [rewrite Epq; ring|lia|]. replace (S (i - 1)) with i by lia. unfold nux in Hk. lia. }
  rewrite E1, E2. ring.
Qed.
Lemma line_g i k : (i <= N)%nat -> (k < nvt D i)%nat -> p = q -> kkt_g qp (s_ux x') (s_pi x') (s_lam x') i k = (1 - p) * kkt_g qp (s_ux x) (s_pi x) (s_lam x) i k - p * (reg_diag qp (a_reg a) preg i k * s_ux dx i k).
Proof.
  intros Hi Hk Epq. rewrite g_line by assumption. rewrite <- Rg by assumption. destruct HS as (A & _). specialize (A i k Hi Hk).
  change (reg_diag (with_rhs qp (r_g r) (r_b r) (r_d r) (r_m r))) with (reg_diag qp) in A.
  replace (kkt_g (with_rhs qp (r_g r) (r_b r) (r_d r) (r_m r)) (s_ux dx) (s_pi dx) (s_lam dx) i k) with (- (reg_diag qp (a_reg a) preg i k * s_ux dx i k)) by lra. ring.
Qed.
End Line.

(** ** seeds as derivatives of the stored data *)
Definition data_field (f : sfield) : rfield :=
  match f with Sr => Fr | Sq => Fq | Szl => Fzl | Szu => Fzu | Sb => Fb | Slb => Flb | Slbu => Flbu | Slbx => Flbx | Sub => Fub | Subu => Fubu | Subx => Fubx | Slg => Flg | Sug => Fug | Sls => Flls | Sus => Flus end.
Definition diff_by (h : R) (p1 p0 : qpd R) (sd : seed R) : Prop := forall i k,
  p_rqz p1 i k = p_rqz p0 i k + h * sd_g sd i k /\ p_b p1 i k = p_b p0 i k + h * sd_b sd i k /\ p_d p1 i k = p_d p0 i k + h * sd_d sd i k /\ sd_m sd i k = 0.
Lemma vset_lin (y1 y0 s x1 x0 v : nat -> R) h n o k : (forall k, y1 k = y0 k + h * s k) -> (forall k, x1 k = x0 k + h * v k) -> vset y1 o n x1 k = vset y0 o n x0 k + h * vset s o n v k.
Proof. intros H1 H2. unfold vset. destruct (_ && _)%bool; auto. Qed.
Lemma seed_step (D : xdim) f s (x v : nat -> R) h p1 p0 sd : diff_by h p1 p0 sd ->
  diff_by h (set_r D (data_field f) s (fun k => x k + h * v k) p1) (set_r D (data_field f) s x p0) (seed_set_f D f s v sd).
Proof.
  intros H i k. pose proof (H i k) as (H1 & H2 & H3 & H4).
  assert (HV : forall n o (y1 y0 sv : nat -> R) k, (forall k, y1 k = y0 k + h * sv k) -> PACK_VEC n (fun k => x k + h * v k) y1 o k = PACK_VEC n x y0 o k + h * PACK_VEC n v sv o k).
  { intros n o y1 y0 sv k' Hy. unfold PACK_VEC. apply vset_lin; [exact Hy|reflexivity]. }
  assert (HN : forall n o (y1 y0 sv : nat -> R) k, (forall k, y1 k = y0 k + h * sv k) -> VECSC n (fopp f1) (PACK_VEC n (fun k => x k + h * v k) y1 o) o k = VECSC n (fopp f1) (PACK_VEC n x y0 o) o k + h * VECSC n (fopp f1) (PACK_VEC n v sv o) o k).
  { intros n o y1 y0 sv k' Hy. unfold VECSC. apply vset_lin; [intros; apply HV; exact Hy|]. intros k''. rewrite (HV n o y1 y0 sv _ Hy). rsimp. ring. }
  assert (Hg : forall i, forall k, p_rqz p1 i k = p_rqz p0 i k + h * sd_g sd i k) by (intros; apply H).
  assert (Hb : forall i, forall k, p_b p1 i k = p_b p0 i k + h * sd_b sd i k) by (intros; apply H).
  assert (Hd : forall i, forall k, p_d p1 i k = p_d p0 i k + h * sd_d sd i k) by (intros; apply H).
  destruct f; cbn [data_field set_r seed_set_f w_rqz w_b w_d w_RSQ w_BAbt sw_g sw_b sw_d p_rqz p_b p_d sd_g sd_b sd_d sd_m];
    (split; [|split; [|split]]); try assumption; unfold upd; destruct (Nat.eqb_spec i s) as [->|]; try assumption; first [apply HV|apply HN]; auto.
Qed.
