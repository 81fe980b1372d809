(** CupdCon.v -- UPDATE_COND_DCTD: without soft constraints it does to the dense QP what COND_DCTD does, except that d_mask and m stay. *)
From Coq Require Import ZArith Bool Arith Lia Reals Lra.
From Verif Require Import Base ArithF RSum Blas Blas2 OcpModel ResSpec ResProofs CholProofs KktModel DenModel DenSpec CondModel CondSpec CondProofs CupdModel.

Lemma loop_rel2 {A B : Type} (R : A -> B -> Prop) n (f : nat -> A -> A) (g : nat -> B -> B) a b :
  R a b -> (forall k x y, (k < n)%nat -> R x y -> R (f k x) (g k y)) -> R (loop n f a) (loop n g b).
Proof. intros H0. induction n as [|n IH]; intros HS; [exact H0|]. rewrite !loop_S. apply HS; [lia|]. apply IH. intros k x y Hk. apply HS. lia. Qed.

Section Con.
Variables (qp : oqp R) (M : nat) (G : nat -> rmat) (Gb : nat -> rvec).
Notation D := (q_dim qp).
Hypothesis Hsoft : forall i j, (i <= M)%nat -> (j < dnb D i + dng D i)%nat -> (q_idxs_rev qp i j < 0)%Z.

(** the update state u mirrors the state s of COND_DCTD *)
Definition mir (Z0 g0 : rvec) (u : ust (F := R)) (s : dcs (F := R)) : Prop :=
  u_d u = x_d s /\ u_idxb u = x_idxb s /\ u_idxs u = x_idxs s /\ u_Ct u = x_Ct s /\ u_ib u = x_ib s /\ u_ig u = x_ig s /\ u_Z u = Z0 /\ u_gz u = g0.
Lemma soft_none i j p u : (i <= M)%nat -> (j < dnb D i + dng D i)%nat -> u_soft qp M i j p u = u.
Proof. intros Hi Hj. unfold u_soft. pose proof (Hsoft i j Hi Hj). destruct (Z.leb_spec 0 (q_idxs_rev qp i j)); [lia|reflexivity]. Qed.
Lemma idxs_none i j p is (s : dcs (F := R)) : (i <= M)%nat -> (j < dnb D i + dng D i)%nat -> put_idxs p is (q_idxs_rev qp i j) s = s.
Proof. intros Hi Hj. unfold put_idxs. pose proof (Hsoft i j Hi Hj). destruct (Z.leb_spec 0 (q_idxs_rev qp i j)); [lia|reflexivity]. Qed.

Lemma mir_bound Z0 g0 i nu_tmp is idx_gammab jj u s : (i <= M)%nat -> (jj < dnb D i)%nat -> mir Z0 g0 u s ->
  mir Z0 g0 (u_bound qp M G Gb i nu_tmp idx_gammab jj u) (dctd_bound qp M G Gb i nu_tmp is idx_gammab jj s).
Proof.
  intros Hi Hj (A1 & A2 & A3 & A4 & A5 & A6 & A7 & A8). unfold u_bound, dctd_bound. destruct (Nat.ltb (q_idxb qp i jj) (dnu D i)); cbv zeta; rewrite soft_none, idxs_none by lia;
    unfold u_put, put_con, mir; cbn [u_d u_idxb u_idxs u_Ct u_ib u_ig u_Z u_gz x_d x_idxb x_idxs x_Ct x_ib x_ig]; rewrite A1, A2, A3, A4, A5, A6; repeat split; assumption.
Qed.
Lemma mir_bounds Z0 g0 u s : mir Z0 g0 u s -> mir Z0 g0 (u_bounds qp M G Gb u) (dctd_bounds qp M G Gb s).
Proof.
  intros H. unfold u_bounds, dctd_bounds.
  match goal with |- context [loop M ?f (u, ?a, ?b)] => match goal with |- context [loop M ?g (s, ?a', ?b', ?c')] =>
    pose proof (loop_rel2 (fun (x : ust * nat * nat) (y : dcs * nat * nat * nat) => let '(u0, k1, k2) := x in let '(s0, k3, _, k4) := y in mir Z0 g0 u0 s0 /\ k1 = k3 /\ k2 = k4) M f g (u, a, b) (s, a', b', c')) as L;
    destruct (loop M f (u, a, b)) as [[u1 n1] g1]; destruct (loop M g (s, a', b', c')) as [[[s1 n1'] is1] g1'] end end.
  destruct L as (L1 & -> & _).
  - split; [exact H|split; reflexivity].
  - intros k [[x a] b] [[[y a'] c] b'] Hk (I1 & -> & ->). cbv zeta. split; [|split; reflexivity].
    apply (loop_rel2 (mir Z0 g0)); [exact I1|]. intros j x' y' Hj Hxy. apply mir_bound; [lia|exact Hj|exact Hxy].
  - cbv zeta. apply (loop_rel2 (mir Z0 g0)); [exact L1|]. intros j x' y' Hj (A1 & A2 & A3 & A4 & A5 & A6 & A7 & A8). unfold u_bound0. cbv zeta. rewrite soft_none, idxs_none by lia.
    unfold u_put, put_con, mir; cbn [u_d u_idxb u_idxs u_Ct u_ib u_ig u_Z u_gz x_d x_idxb x_idxs x_Ct x_ib x_ig]; rewrite A1, A2, A3, A4, A5, A6; repeat split; assumption.
Qed.
Lemma mir_gen_copy Z0 g0 i ng_tmp is u s : (i <= M)%nat -> mir Z0 g0 u s -> mir Z0 g0 (u_gen_copy qp M i ng_tmp u) (dctd_gen_copy qp M i ng_tmp is s).
Proof.
  intros Hi H. unfold u_gen_copy, dctd_gen_copy.
  match goal with |- context [loop (dng D i) ?f u] => match goal with |- context [loop (dng D i) ?g s] =>
    assert (L : mir Z0 g0 (loop (dng D i) f u) (loop (dng D i) g s)) by (apply (loop_rel2 (mir Z0 g0)); [exact H|]; intros k x y Hk Hxy; rewrite soft_none, idxs_none by lia; exact Hxy);
    set (u1 := loop (dng D i) f u) in *; set (s1 := loop (dng D i) g s) in *; clearbody u1 s1 end end.
  destruct L as (A1 & A2 & A3 & A4 & A5 & A6 & A7 & A8). unfold mir. cbn [u_d u_idxb u_idxs u_Ct u_ib u_ig u_Z u_gz x_d x_idxb x_idxs x_Ct x_ib x_ig]. rewrite A1. repeat split; assumption.
Qed.
Lemma mir_gens Z0 g0 u s tbg : mir Z0 g0 u s -> let '(u', t) := u_gens qp M G Gb (u, tbg) in let '(s', t') := dctd_gens qp M G Gb (s, tbg) in mir Z0 g0 u' s' /\ t = t'.
Proof.
  intros H. unfold u_gens, dctd_gens.
  match goal with |- context [loop M ?f (u, tbg, ?a, ?b)] => match goal with |- context [loop M ?g (s, tbg, ?a', ?b', ?c')] =>
    pose proof (loop_rel2 (fun (x : ust * rvec * nat * nat) (y : dcs * rvec * nat * nat * nat) => let '(u0, t, k1, k2) := x in let '(s0, t', k3, k4, _) := y in mir Z0 g0 u0 s0 /\ t = t' /\ k1 = k3 /\ k2 = k4) M f g (u, tbg, a, b) (s, tbg, a', b', c')) as L;
    destruct (loop M f (u, tbg, a, b)) as [[[u1 t1] n1] g1]; destruct (loop M g (s, tbg, a', b', c')) as [[[[s1 t1'] n1'] g1'] is1] end end.
  destruct L as (L1 & -> & -> & ->).
  - repeat (split; [assumption || reflexivity|]). reflexivity.
  - intros k [[[x t] a] b] [[[[y t'] a'] b'] c] Hk (I1 & -> & -> & ->). cbv zeta. unfold u_gen_mid, dctd_gen_mid. destruct (Nat.ltb 0 (dng D (M - k))).
    2:{ repeat (split; [assumption || reflexivity|]). reflexivity. }
    pose proof (mir_gen_copy Z0 g0 (M - k) b' c x y ltac:(lia) I1) as Q. set (x1 := u_gen_copy _ _ _ _ _) in *. set (y1 := dctd_gen_copy _ _ _ _ _ _) in *. clearbody x1 y1.
    destruct Q as (A1 & A2 & A3 & A4 & A5 & A6 & A7 & A8). cbv zeta. unfold mir. cbn [u_d u_idxb u_idxs u_Ct u_ib u_ig u_Z u_gz x_d x_idxb x_idxs x_Ct x_ib x_ig]. rewrite A1, A4. repeat split; assumption.
  - destruct (Nat.ltb 0 (dng D 0)); [|split; [exact L1|reflexivity]].
    pose proof (mir_gen_copy Z0 g0 0 g1' is1 u1 s1 ltac:(lia) L1) as Q. set (x1 := u_gen_copy _ _ _ _ _) in *. set (y1 := dctd_gen_copy _ _ _ _ _ _) in *. clearbody x1 y1.
    destruct Q as (A1 & A2 & A3 & A4 & A5 & A6 & A7 & A8). cbv zeta. unfold mir. cbn [u_d u_idxb u_idxs u_Ct u_ib u_ig u_Z u_gz x_d x_idxb x_idxs x_Ct x_ib x_ig]. rewrite A4. repeat split; assumption.
Qed.
Hypothesis Hns : forall i, (i <= M)%nat -> dns D i = 0%nat.
Lemma soft_copy_none i is o2 os src (dst : rvec) : (i <= M)%nat -> soft_copy qp M i is o2 os src dst = dst.
Proof. intros Hi. unfold soft_copy. rewrite Hns by exact Hi. reflexivity. Qed.
Lemma dctd_soft_none s Z0 g0 : let '(s', Z', g') := dctd_soft qp M (s, Z0, g0) in s' = s /\ Z' = Z0 /\ g' = g0.
Proof.
  unfold dctd_soft. match goal with |- context [loop (M + 1) ?f ?a] => pose proof (loop_ind (fun _ (x : dcs * rvec * rvec * nat) => fst x = (s, Z0, g0)) (M + 1) f a eq_refl) as L; destruct (loop (M + 1) f a) as [[[s1 Z1] g1] is1] end.
  cbn [fst] in *. assert (E : (s1, Z1, g1) = (s, Z0, g0)).
  { apply L. intros k [[[s2 Z2] g2] is2] Hk E. cbn [fst] in E. inversion E; subst. cbv zeta. rewrite !soft_copy_none by lia. cbn [fst]. destruct s; reflexivity. }
  inversion E; subst. repeat split; reflexivity.
Qed.
(** all fields but d_mask and m *)
Lemma u_dctd_main_same q2 tbg : let '(q, t) := u_dctd_main qp M G Gb q2 tbg in let '(q', t') := dctd_main qp M G Gb q2 tbg in
  q = mkdqp (d_nv q2) (d_ne q2) (d_nb q2) (d_ng q2) (d_ns q2) (d_H q2) (d_A q2) (d_Ct q') (d_gz q2) (d_b q2) (d_d q') (d_mask q2) (d_m q2) (d_Z q2) (d_idxb q') (d_idxs_rev q') /\ d_gz q' = d_gz q2 /\ d_Z q' = d_Z q2 /\ t = t'.
Proof.
  unfold u_dctd_main, dctd_main. set (u0 := mkust _ _ _ _ _ _ _ _ _). set (s0 := mkdcs _ _ _ _ _ _ _ _).
  assert (H0 : mir (d_Z q2) (d_gz q2) u0 s0) by (repeat split; reflexivity).
  pose proof (mir_bounds _ _ _ _ H0) as H1. set (u1 := u_bounds _ _ _ _ u0) in *. set (s1 := dctd_bounds _ _ _ _ s0) in *. clearbody u1 s1.
  pose proof (mir_gens _ _ _ _ tbg H1) as H2. destruct (u_gens qp M G Gb (u1, tbg)) as [u2 t2]. destruct (dctd_gens qp M G Gb (s1, tbg)) as [s2 t2']. destruct H2 as (H2 & ->).
  pose proof (dctd_soft_none s2 (d_Z q2) (d_gz q2)) as H3. destruct (dctd_soft qp M (s2, d_Z q2, d_gz q2)) as [[s3 Z3] g3]. destruct H3 as (-> & -> & ->).
  destruct H2 as (A1 & A2 & A3 & A4 & A5 & A6 & A7 & A8). cbn [d_Ct d_gz d_d d_Z d_idxb d_idxs_rev]. rewrite A1, A2, A3, A4, A7, A8. repeat split; reflexivity.
Qed.
End Con.
