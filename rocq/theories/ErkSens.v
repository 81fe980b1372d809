(** ErkSens.v -- the Runge-Kutta map is a function; integrating the variational equation alongside gives the derivative of the map. *)
From Coq Require Import ZArith Lia List Bool Arith Reals Lra FunctionalExtensionality.
From Verif Require Import Base ArithF RSum ErkModel ErkSpec ErkProofs.
Local Open Scope R_scope.

Section Fn.
Variable n : nat.
Variable T : tableau.
Variable h : R.
Variable f : R -> rv -> rv.

(** stage argument and table of the first s stage derivatives *)
Definition sarg (x : rv) (K : nat -> rv) (s : nat) : rv := fun i => x i + h * rsum s (fun r => t_A T s r * K r i).
Fixpoint ktab (t : R) (x : rv) (s : nat) : nat -> rv :=
  match s with
  | O => fun _ _ => 0
  | S s' => let K := ktab t x s' in fun r => if Nat.eqb r s' then f (t + t_C T s' * h) (pad n (sarg x K s')) else K r
  end.
Definition stepf (t : R) (x : rv) : rv := fun i => x i + h * rsum (t_ns T) (fun s => t_B T s * ktab t x (t_ns T) s i).
Fixpoint runf (m : nat) (x : rv) : rv := match m with O => x | S k => stepf (INR k * h) (runf k x) end.

Lemma ktab_mono t x s d r : (r < s)%nat -> ktab t x (s + d) r = ktab t x s r.
Proof.
  intros H. induction d as [|d IH]; [rewrite Nat.add_0_r; reflexivity|].
  rewrite Nat.add_succ_r. cbn [ktab]. destruct (Nat.eqb_spec r (s + d)); [lia|exact IH].
Qed.
Lemma ktab_S t x s : ktab t x (S s) s = f (t + t_C T s * h) (pad n (sarg x (ktab t x s) s)).
Proof. cbn [ktab]. rewrite Nat.eqb_refl. reflexivity. Qed.
Lemma ktab_eq t x m s : (s < m)%nat -> ktab t x m s = f (t + t_C T s * h) (pad n (sarg x (ktab t x m) s)).
Proof.
  intros H. replace m with (S s + (m - S s))%nat by lia. rewrite ktab_mono by lia. rewrite ktab_S.
  f_equal. apply pad_ext. intros i Hi. unfold sarg. f_equal. f_equal. apply rsum_ext. intros r Hr.
  f_equal. replace (S s + (m - S s))%nat with (s + (S s + (m - S s) - s))%nat by lia. rewrite ktab_mono by lia. reflexivity.
Qed.

Lemma erk_step_fn t x x' : erk_step n T h f t x x' <-> eqv n x' (stepf t x).
Proof.
  split.
  - intros [k [Hk Hx]] i Hi. rewrite Hx by assumption. unfold stepf. f_equal. f_equal. apply rsum_ext. intros s Hs. f_equal.
    revert i Hi. induction s as [s IH] using lt_wf_ind. intros i Hi. rewrite Hk by assumption. rewrite ktab_eq by assumption.
    f_equal. apply pad_ext. intros q Hq. unfold sarg. f_equal. f_equal. apply rsum_ext. intros r Hr. f_equal. apply IH; try assumption; lia.
  - intros Hx. exists (ktab t x (t_ns T)). split; [|exact Hx]. intros s Hs i Hi. exact (f_equal (fun g : rv => g i) (ktab_eq t x _ s Hs)).
Qed.
Lemma stepf_ext t x y : eqv n x y -> eqv n (stepf t x) (stepf t y).
Proof.
  intros H. assert (E : forall s r, eqv n (ktab t x s r) (ktab t y s r)).
  { induction s as [|s IH]; intros r i Hi; [reflexivity|]. cbn [ktab]. destruct (Nat.eqb r s); [|apply IH; assumption].
    f_equal. apply pad_ext. intros q Hq. unfold sarg. f_equal; [apply H; assumption|]. f_equal. apply rsum_ext. intros z Hz.
    f_equal. apply IH. assumption. }
  intros i Hi. unfold stepf. f_equal; [apply H; assumption|]. f_equal. apply rsum_ext. intros s Hs. f_equal. apply E. assumption.
Qed.
Lemma erk_run_fn m x x' : erk_run n T h f m x x' <-> eqv n x' (runf m x).
Proof.
  split.
  - intros [y [Y0 [Y1 Y2]]] i Hi. rewrite <- Y2 by assumption.
    assert (E : forall j, (j <= m)%nat -> eqv n (y j) (runf j x)).
    { induction j as [|j IH]; intros Hj q Hq; [apply Y0; assumption|].
      cbn [runf]. pose proof (Y1 j ltac:(lia)) as Hs. rewrite erk_step_fn in Hs. rewrite Hs by assumption.
      apply stepf_ext; [apply IH; lia|assumption]. }
    apply E; [lia|assumption].
  - intros H. exists (fun j => runf j x). split; [intros i _; reflexivity|]. split.
    + intros j Hj. apply erk_step_fn. intros i _. reflexivity.
    + intros i Hi. symmetry. apply H. assumption.
Qed.
End Fn.

Lemma runf_ext n T h f m x y : eqv n x y -> eqv n (runf n T h f m x) (runf n T h f m y).
Proof. intros H. induction m as [|m IH]; [exact H|]. cbn [runf]. apply stepf_ext. exact IH. Qed.

(** derivatives of finite sums *)
Lemma deriv_rsum n (g : nat -> R -> R) (d : nat -> R) z :
  (forall k, (k < n)%nat -> derivable_pt_lim (g k) z (d k)) -> derivable_pt_lim (fun th => rsum n (fun k => g k th)) z (rsum n d).
Proof.
  induction n as [|n IH]; intros H; cbn [rsum]; [apply derivable_pt_lim_const|].
  apply (derivable_pt_lim_plus (fun th => rsum n (fun k => g k th)) (g n)); [apply IH; intros; apply H; lia|apply H; lia].
Qed.
Lemma deriv_scal c g d z : derivable_pt_lim g z d -> derivable_pt_lim (fun th => c * g th) z (c * d).
Proof. intros H. exact (derivable_pt_lim_scal g c z d H). Qed.
Lemma deriv_plus f g a b z : derivable_pt_lim f z a -> derivable_pt_lim g z b -> derivable_pt_lim (fun th => f th + g th) z (a + b).
Proof. intros H1 H2. exact (derivable_pt_lim_plus f g z a b H1 H2). Qed.
Lemma deriv_mult f g a b z : derivable_pt_lim f z a -> derivable_pt_lim g z b ->
  derivable_pt_lim (fun th => f th * g th) z (a * g z + f z * b).
Proof. intros H1 H2. exact (derivable_pt_lim_mult f g z a b H1 H2). Qed.

Section Sens.
Variable toint : R -> Z.
Variables nx np nf : nat.
Variable T : tableau.
Variable h : R.
Variable f : Z -> rv -> rv -> rv.
Variables Jx Jp : Z -> rv -> rv -> nat -> nat -> R.
Variable vde : Z -> rv -> rv -> rv.
Variable dp : nat -> rv.
Hypothesis HJ : is_jacobian nx np f Jx Jp.
(** the callback vde_for: right-hand side and variational equation for every column *)
Hypothesis Hv0 : forall t X p i, (i < nx)%nat -> vde t X p i = f t (pad nx X) p i.
Hypothesis Hv1 : forall t X p j i, (j < nf)%nat -> (i < nx)%nat ->
  vde t X p (nx + j * nx + i) =
    rsum nx (fun k => Jx t (pad nx X) p i k * X (nx + j * nx + k)%nat) + rsum np (fun k => Jp t (pad nx X) p i k * dp j k).
Let nX := (nx * (1 + nf))%nat.

Lemma col_lt j i : (j < nf)%nat -> (i < nx)%nat -> (nx + j * nx + i < nX)%nat.
Proof.
  intros Hj Hi. unfold nX. assert ((j + 1) * nx <= nf * nx)%nat by (apply Nat.mul_le_mono_r; lia).
  rewrite Nat.mul_add_distr_l, Nat.mul_1_r, (Nat.mul_comm nx nf). lia.
Qed.
Lemma x_lt i : (i < nx)%nat -> (i < nX)%nat.
Proof. intros Hi. unfold nX. rewrite Nat.mul_add_distr_l, Nat.mul_1_r. lia. Qed.
Lemma pad_pad X : pad nx (pad nX X) = pad nx X.
Proof. apply pad_ext. intros i Hi. unfold pad. destruct (Nat.ltb_spec i nX); [reflexivity|pose proof (x_lt i Hi); lia]. Qed.

Section Curve.
Variable j : nat.
Hypothesis Hj : (j < nf)%nat.
Variable q : R -> rv.
Variable p : rv.
Hypothesis Hq : forall k, (k < np)%nat -> derivable_pt_lim (fun th => q th k) 0 (dp j k).
Hypothesis Hq0 : eqv np (q 0) p.
Let fo (th : R) : R -> rv -> rv := fun t x => f (toint t) x (pad np (q th)).
Let fv : R -> rv -> rv := fun t X => vde (toint t) X (pad np p).

Definition tangent (x : R -> rv) (X : rv) : Prop :=
  eqv nx (x 0) X /\ forall i, (i < nx)%nat -> derivable_pt_lim (fun th => x th i) 0 (X (nx + j * nx + i)%nat).

Lemma f_tangent t x X : tangent x X -> tangent (fun th => f t (pad nx (x th)) (pad np (q th))) (vde t (pad nX X) (pad np p)).
Proof.
  intros [H0 H1]. assert (E1 : pad nx (x 0) = pad nx X) by (apply pad_ext; exact H0).
  assert (E2 : pad np (q 0) = pad np p) by (apply pad_ext; exact Hq0). split.
  - intros i Hi. rewrite Hv0 by assumption. rewrite pad_pad, E1, E2. reflexivity.
  - intros i Hi. rewrite Hv1 by assumption. rewrite pad_pad.
    pose proof (HJ t x q (fun i => X (nx + j * nx + i)%nat) (dp j) H1 Hq i Hi) as HD. cbv beta in HD. rewrite E1, E2 in HD.
    replace (rsum nx (fun k => Jx t (pad nx X) (pad np p) i k * pad nX X (nx + j * nx + k)%nat))
      with (rsum nx (fun k => Jx t (pad nx X) (pad np p) i k * X (nx + j * nx + k)%nat)); [exact HD|].
    apply rsum_ext. intros k Hk. f_equal. unfold pad. destruct (Nat.ltb_spec (nx + j * nx + k) nX); [reflexivity|].
    pose proof (col_lt j k Hj Hk). lia.
Qed.

Lemma sarg_tangent x X (K : R -> nat -> rv) (KX : nat -> rv) s :
  tangent x X -> (forall r, (r < s)%nat -> tangent (fun th => K th r) (KX r)) ->
  tangent (fun th => sarg T h (x th) (K th) s) (sarg T h X KX s).
Proof.
  intros [H0 H1] HK. split.
  - intros i Hi. unfold sarg. rewrite (H0 i Hi). f_equal. f_equal. apply rsum_ext. intros r Hr. f_equal. apply (proj1 (HK r Hr)). assumption.
  - intros i Hi. unfold sarg. apply deriv_plus; [apply H1; assumption|]. apply deriv_scal.
    apply (deriv_rsum s (fun r th => t_A T s r * K th r i) (fun r => t_A T s r * KX r (nx + j * nx + i)%nat)).
    intros r Hr. apply deriv_scal. apply (proj2 (HK r Hr)). assumption.
Qed.

Lemma ktab_tangent t x X s : tangent x X ->
  forall r, (r < s)%nat -> tangent (fun th => ktab nx T h (fo th) t (x th) s r) (ktab nX T h fv t X s r).
Proof.
  intros HX. induction s as [|s IH]; intros r Hr; [lia|]. cbn [ktab]. destruct (Nat.eqb_spec r s) as [->|Hne].
  - unfold fo, fv. apply (f_tangent (toint (t + t_C T s * h)) (fun th => sarg T h (x th) (ktab nx T h (fo th) t (x th) s) s)).
    apply sarg_tangent; assumption.
  - apply IH. lia.
Qed.

Lemma stepf_tangent t x X : tangent x X -> tangent (fun th => stepf nx T h (fo th) t (x th)) (stepf nX T h fv t X).
Proof.
  intros HX. pose proof (ktab_tangent t x X (t_ns T) HX) as HK. destruct HX as [H0 H1]. split.
  - intros i Hi. unfold stepf. rewrite (H0 i Hi). f_equal. f_equal. apply rsum_ext. intros s Hs. f_equal. apply (proj1 (HK s Hs)). assumption.
  - intros i Hi. unfold stepf. apply deriv_plus; [apply H1; assumption|]. apply deriv_scal.
    apply (deriv_rsum (t_ns T) (fun s th => t_B T s * ktab nx T h (fo th) t (x th) (t_ns T) s i)
             (fun s => t_B T s * ktab nX T h fv t X (t_ns T) s (nx + j * nx + i)%nat)).
    intros s Hs. apply deriv_scal. apply (proj2 (HK s Hs)). assumption.
Qed.

Lemma runf_tangent m x X : tangent x X -> tangent (fun th => runf nx T h (fo th) m (x th)) (runf nX T h fv m X).
Proof.
  intros HX. induction m as [|m IH]; [exact HX|]. cbn [runf].
  exact (stepf_tangent (INR m * h) (fun th => runf nx T h (fo th) m (x th)) _ IH).
Qed.
End Curve.
End Sens.
