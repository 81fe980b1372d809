(** DenKktProofs.v -- dense KKT solver over the real numbers: slack elimination, assembled matrix and gradient, triangular kernels. *)
From Coq Require Import ZArith Bool Arith Lia Reals Lra FunctionalExtensionality.
From Verif Require Import Base ArithF RSum Blas Blas2 CoreModel CoreProofs OcpModel ResSpec ResProofs CholProofs CholPD KktModel KktProofs KktProofs2 SolveProofs DenModel DenSpec DenProofs DenKktModel.
Local Open Scope R_scope.

Section Slacks.
Variables (n nb ng ns : nat) (reg : R) (sf : nat -> Z) (Z g Gamma gamma : rvec).
Notation nbg := (nb + ng)%nat.
Hypothesis Hsf : forall j, (j < nbg)%nat -> (sf j = -1 \/ 0 <= sf j < Z.of_nat ns)%Z.

Lemma den_slacks_fact_R tmp Zs : let '(tmp', Zs') := den_slacks_fact nb ng ns reg sf Z Gamma (tmp, Zs) in
  (forall k, (k < 2 * ns)%nat -> Zs' k = sl_inv nb ng ns reg sf Z Gamma k) /\
  (forall j, (j < nbg)%nat -> tmp' 0%nat j = T0 nb ng ns reg sf Z Gamma j).
Proof.
  unfold den_slacks_fact. cbv beta zeta.
  pose proof (two_map ns 0 (fun k _ => Z k + reg + Gamma (2 * nb + 2 * ng + k)%nat) Zs ns (le_n _)) as HZ. cbv beta zeta in HZ.
  set (Z1 := loop ns (fun idx Zs => _) Zs).
  assert (E1 : Z1 = loop ns (fun (i : nat) (v : nat -> R) => upd (upd v (0 + i)%nat (Z i + reg + Gamma (2 * nb + 2 * ng + i)%nat)) (0 + ns + i)%nat (Z (ns + i)%nat + reg + Gamma (2 * nb + 2 * ng + (ns + i))%nat)) Zs).
  { unfold Z1. apply loop_ext. intros i v _. cbn [Nat.add]. rewrite !Nat.add_assoc. reflexivity. }
  rewrite <- E1 in HZ. clearbody Z1. clear E1. destruct HZ as (HZ & _).
  pose proof (scatter2 sf 0 ns Gamma (fun i => Gamma (nbg + i)%nat) nbg Z1) as HZ2. cbn [Nat.add] in HZ2.
  set (Z2 := loop nbg (fun ii Zs => _) Z1). change (loop nbg _ Z1) with Z2 in HZ2. clearbody Z2.
  pose proof (two_map ns 0 (fun _ x => 1 / x) Z2 ns (le_n _)) as HI. cbv beta zeta in HI.
  set (Z3 := loop ns (fun idx Zs => _) Z2).
  assert (E3 : Z3 = loop ns (fun (i : nat) (v : nat -> R) => upd (upd v (0 + i)%nat (1 / v (0 + i)%nat)) (0 + ns + i)%nat (1 / upd v (0 + i)%nat (1 / v (0 + i)%nat) (0 + ns + i)%nat)) Z2).
  { unfold Z3. cbn [Nat.add]. rsimp. rewrite ?R_lit11. reflexivity. }
  rewrite <- E3 in HI. clearbody Z3. clear E3. destruct HI as (HI & _).
  assert (VZ : forall k, (k < 2 * ns)%nat -> Z3 k = sl_inv nb ng ns reg sf Z Gamma k).
  { intros k Hk. change k with (0 + k)%nat at 1. rewrite HI by lia. cbn [Nat.add]. rewrite HZ2. specialize (HZ k). cbn [Nat.add] in HZ. rewrite HZ by lia. reflexivity. }
  set (tmp1 := upd (upd tmp 0%nat _) 1%nat _).
  assert (A0 : forall j, (j < nbg)%nat -> tmp1 0%nat j = Gamma j).
  { intros j Hj. unfold tmp1. rewrite upd_other by lia. rewrite upd_same. unfold VECCP. rewrite vset0 by exact Hj. reflexivity. }
  assert (A1 : forall j, (j < nbg)%nat -> tmp1 1%nat j = Gamma (nbg + j)%nat).
  { intros j Hj. unfold tmp1. rewrite upd_same. unfold VECCP. rewrite vset0 by exact Hj. reflexivity. }
  clearbody tmp1.
  set (f := fun (ii : nat) (tmp : nat -> nat -> R) => _).
  assert (VT : forall p, (p <= nbg)%nat -> forall j, (j < nbg)%nat ->
     loop p f tmp1 0%nat j = (if (j <? p)%nat then w_lo nb ng ns reg sf Z Gamma j else Gamma j) /\
     loop p f tmp1 1%nat j = (if (j <? p)%nat then w_up nb ng ns reg sf Z Gamma j else Gamma (nbg + j)%nat)).
  { induction p as [|p IH]; intros Hp j Hj.
    - cbn [loop]. destruct (Nat.ltb_spec j 0); [lia|]. split; [apply A0|apply A1]; exact Hj.
    - specialize (IH ltac:(lia)). cbn [loop]. set (tp := loop p f tmp1) in *. unfold f. destruct (Z.eqb (sf p) (-1)) eqn:E.
      + destruct (IH j Hj) as (-> & ->). destruct (Nat.ltb_spec j p), (Nat.ltb_spec j (S p)); try lia; split; try reflexivity.
        * replace j with p by lia. unfold w_lo. rewrite E. reflexivity.
        * replace j with p by lia. unfold w_up. rewrite E. reflexivity.
      + destruct (Hsf p ltac:(lia)) as [E'|Hs]; [rewrite E' in E; discriminate|].
        cbv beta zeta. rewrite (VZ (Z.to_nat (sf p))), (VZ (ns + Z.to_nat (sf p))%nat) by lia.
        destruct (IH p ltac:(lia)) as (P0 & P1). rewrite Nat.ltb_irrefl in P0, P1. destruct (IH j Hj) as (J0 & J1).
        rewrite upd_same. rewrite (upd_other _ 1) by lia. rewrite upd_same. rewrite (upd_other tp 0 _ 1%nat) by lia. unfold upd.
        destruct (Nat.eqb_spec j p) as [->|Hne].
        * destruct (Nat.ltb_spec p (S p)); [|lia]. rsimp. rewrite P0, P1. unfold w_lo, w_up, soft_at. rewrite E. split; reflexivity.
        * rewrite J0, J1. destruct (Nat.ltb_spec j p), (Nat.ltb_spec j (S p)); try lia; split; reflexivity. }
  specialize (VT nbg (le_n _)). set (t4 := loop nbg f tmp1) in *. clearbody t4. split; [exact VZ|].
  intros j Hj. rewrite upd_same. unfold AXPY. rewrite vset0 by exact Hj. cbn [Nat.add]. destruct (VT j Hj) as (E0 & E1). rewrite E0, E1.
  destruct (Nat.ltb_spec j nbg); [|lia]. rsimp. rewrite R_lit11. unfold T0. lra.
Qed.

Lemma den_slacks_solve_R tmp dv Zs : (forall k, (k < 2 * ns)%nat -> Zs k = sl_inv nb ng ns reg sf Z Gamma k) ->
  let '(tmp', dv') := den_slacks_solve n nb ng ns sf g Gamma gamma Zs (tmp, dv) in
  (forall k, (k < 2 * ns)%nat -> dv' (n + k)%nat = sl_rhs n nb ng ns sf g gamma k) /\
  (forall j, (j < nbg)%nat -> tmp' 1%nat j = T1 n nb ng ns reg sf Z g Gamma gamma j) /\ (forall j, tmp' 0%nat j = tmp 0%nat j).
Proof.
  intros VZ. unfold den_slacks_solve. cbv beta zeta.
  pose proof (two_map ns n (fun k _ => g (n + k)%nat + gamma (2 * nb + 2 * ng + k)%nat) dv ns (le_n _)) as HD. cbv beta zeta in HD.
  set (d1 := loop ns (fun idx dv => _) dv).
  assert (E1 : d1 = loop ns (fun (i : nat) (v : nat -> R) => upd (upd v (n + i)%nat (g (n + i)%nat + gamma (2 * nb + 2 * ng + i)%nat)) (n + ns + i)%nat (g (n + (ns + i))%nat + gamma (2 * nb + 2 * ng + (ns + i))%nat)) dv).
  { unfold d1. apply loop_ext. intros i v _. rewrite !Nat.add_assoc. reflexivity. }
  rewrite <- E1 in HD. clearbody d1. clear E1. destruct HD as (HD & _).
  pose proof (scatter2 sf n (n + ns) gamma (fun i => gamma (nbg + i)%nat) nbg d1) as HD2.
  set (d2 := loop nbg (fun ii dv => _) d1). change (loop nbg _ d1) with d2 in HD2. clearbody d2.
  assert (VD : forall k, (k < 2 * ns)%nat -> d2 (n + k)%nat = sl_rhs n nb ng ns sf g gamma k).
  { intros k Hk. rewrite HD2, HD by lia. unfold sl_rhs, softsum. f_equal. apply rsum_ext. intros j Hj.
    rewrite <- (soft_shift n sf 0 j k), <- (soft_shift n sf ns j k). cbn [Nat.add]. rewrite (Nat.add_comm ns n). reflexivity. }
  set (tmp1 := upd (upd tmp 2%nat _) 3%nat _).
  assert (A0 : forall j, (j < nbg)%nat -> tmp1 2%nat j = gamma j).
  { intros j Hj. unfold tmp1. rewrite upd_other by lia. rewrite upd_same. unfold VECCP. rewrite vset0 by exact Hj. reflexivity. }
  assert (A1 : forall j, (j < nbg)%nat -> tmp1 3%nat j = gamma (nbg + j)%nat).
  { intros j Hj. unfold tmp1. rewrite upd_same. unfold VECCP. rewrite vset0 by exact Hj. reflexivity. }
  assert (A2 : tmp1 0%nat = tmp 0%nat) by reflexivity.
  clearbody tmp1.
  set (f := fun (ii : nat) (tmp : nat -> nat -> R) => _).
  assert (VT : forall p, (p <= nbg)%nat -> loop p f tmp1 0%nat = tmp 0%nat /\ forall j, (j < nbg)%nat ->
     loop p f tmp1 2%nat j = (if (j <? p)%nat then r_lo n nb ng ns reg sf Z g Gamma gamma j else gamma j) /\
     loop p f tmp1 3%nat j = (if (j <? p)%nat then r_up n nb ng ns reg sf Z g Gamma gamma j else gamma (nbg + j)%nat)).
  { induction p as [|p IH]; intros Hp.
    - cbn [loop]. split; [exact A2|]. intros j Hj. destruct (Nat.ltb_spec j 0); [lia|]. split; [apply A0|apply A1]; exact Hj.
    - specialize (IH ltac:(lia)). destruct IH as (IH0 & IH). cbn [loop]. set (tp := loop p f tmp1) in *. unfold f. split.
      { destruct (Z.eqb (sf p) (-1)); [exact IH0|]. rewrite !upd_other by lia. exact IH0. }
      intros j Hj. destruct (Z.eqb (sf p) (-1)) eqn:E.
      + destruct (IH j Hj) as (-> & ->). destruct (Nat.ltb_spec j p), (Nat.ltb_spec j (S p)); try lia; split; try reflexivity.
        * replace j with p by lia. unfold r_lo. rewrite E. reflexivity.
        * replace j with p by lia. unfold r_up. rewrite E. reflexivity.
      + destruct (Hsf p ltac:(lia)) as [E'|Hs]; [rewrite E' in E; discriminate|].
        cbv beta zeta. rewrite (VZ (Z.to_nat (sf p))), (VZ (ns + Z.to_nat (sf p))%nat) by lia. rewrite VD by lia. replace (n + ns + Z.to_nat (sf p))%nat with (n + (ns + Z.to_nat (sf p)))%nat by lia. rewrite VD by lia.
        destruct (IH p ltac:(lia)) as (P0 & P1). rewrite Nat.ltb_irrefl in P0, P1. destruct (IH j Hj) as (J0 & J1).
        rewrite upd_same. rewrite (upd_other _ 3) by lia. rewrite upd_same. rewrite (upd_other tp 2 _ 3%nat) by lia. unfold upd.
        destruct (Nat.eqb_spec j p) as [->|Hne].
        * destruct (Nat.ltb_spec p (S p)); [|lia]. rsimp. rewrite P0, P1. unfold r_lo, r_up, soft_at. rewrite E. cbn [Nat.add]. split; ring.
        * rewrite J0, J1. destruct (Nat.ltb_spec j p), (Nat.ltb_spec j (S p)); try lia; split; reflexivity. }
  specialize (VT nbg (le_n _)). set (t4 := loop nbg f tmp1) in *. clearbody t4. destruct VT as (T40 & VT). split; [exact VD|]. split.
  - intros j Hj. rewrite upd_same. unfold AXPY. rewrite vset0 by exact Hj. cbn [Nat.add]. destruct (VT j Hj) as (E0 & E1). rewrite E0, E1.
    destruct (Nat.ltb_spec j nbg); [|lia]. rsimp. rewrite R_lit11. unfold T1. lra.
  - intros j. rewrite upd_other by lia. rewrite T40. reflexivity.
Qed.
Lemma den_expand_R (Zs v t : rvec) : den_expand n nb ng ns sf Gamma Zs (v, t) = expand_slacks n nb ng ns sf Gamma Zs (v, t).
Proof.
  unfold den_expand, expand_slacks.
  rewrite (loop_ext nbg _ (fun ii dux => if Z.eqb (sf ii) (-1) then dux else
      upd (upd dux (n + Z.to_nat (sf ii))%nat (dux (n + Z.to_nat (sf ii))%nat + Gamma ii * t ii)) (n + ns + Z.to_nat (sf ii))%nat
        (upd dux (n + Z.to_nat (sf ii))%nat (dux (n + Z.to_nat (sf ii))%nat + Gamma ii * t ii) (n + ns + Z.to_nat (sf ii))%nat + Gamma (nb + ng + ii)%nat * t (nb + ng + ii)%nat)) v).
  - reflexivity.
  - intros i w _. rsimp. rewrite (Rmult_comm (t i)), (Rmult_comm (t (nb + ng + i)%nat)). reflexivity.
Qed.
End Slacks.

(** ** triangular kernels *)
Lemma trsm_R m n (A B D : rmat) : (forall j, (j < n)%nat -> A j j <> 0) -> let X := TRSM_RLTN m n (f1 : R) A 0 0 B 0 0 D 0 0 in
  forall i j, (i < m)%nat -> (j < n)%nat -> rsum n (fun k => X i k * lt A j k) = B i j.
Proof.
  intros Hd. cbv zeta. unfold TRSM_RLTN. set (f := fun (j : nat) (D : nat -> nat -> R) => _).
  assert (H : forall p, (p <= n)%nat -> forall i j, (i < m)%nat -> (j < p)%nat -> rsum (S j) (fun k => loop p f D i k * A j k) = B i j).
  { induction p as [|p IH]; intros Hp i j Hi Hj; [lia|]. specialize (IH ltac:(lia)). cbn [loop]. set (X := loop p f D) in *. clearbody X.
    assert (Eo : forall k, k <> p -> f p X i k = X i k).
    { intros k Hk. unfold f. rewrite mupd_at. destruct (Nat.leb_spec (0 + p) k), (Nat.ltb_spec k (0 + p + 1)); cbn [andb]; try reflexivity; [lia|..]; rewrite ?andb_false_r; reflexivity. }
    destruct (Nat.eq_dec j p) as [->|Hne].
    - cbn [rsum]. rewrite (rsum_ext p _ (fun k => X i k * A p k)) by (intros k Hk; rewrite Eo by lia; reflexivity).
      unfold f. rewrite mupd_at. destruct (Nat.leb_spec 0 i); [|lia]. destruct (Nat.ltb_spec i (0 + m)); [|lia]. destruct (Nat.leb_spec (0 + p) p); [|lia]. destruct (Nat.ltb_spec p (0 + p + 1)); [|lia].
      cbn [andb Nat.add]. rewrite Nat.sub_0_r. rewrite fsum_R. rsimp. rewrite R_lit11. field. apply Hd. lia.
    - rewrite (rsum_ext (S j) _ (fun k => X i k * A j k)) by (intros k Hk; rewrite Eo by lia; reflexivity). apply IH; lia. }
  intros i j Hi Hj. set (X := loop n f D). specialize (H n (le_n _) i j Hi Hj). fold X in H.
  rewrite (rsum_ext n _ (fun k => if (k <=? j)%nat then X i k * A j k else 0)) by (intros k _; unfold lt; destruct (k <=? j)%nat; lra).
  rewrite (rsum_low n j (fun k => X i k * A j k)) by exact Hj. exact H.
Qed.
(** triangular systems have one solution *)
Lemma lt_inj n (A : rmat) (x y : rvec) : (forall j, (j < n)%nat -> A j j <> 0) -> (forall j, (j < n)%nat -> rsum n (fun k => lt A j k * x k) = rsum n (fun k => lt A j k * y k)) ->
  forall j, (j < n)%nat -> x j = y j.
Proof.
  intros Hd H j. induction j as [j IH] using (well_founded_induction lt_wf). intros Hj. specialize (H j Hj).
  assert (E : forall z : rvec, rsum n (fun k => lt A j k * z k) = rsum j (fun k => A j k * z k) + A j j * z j).
  { intros z. rewrite (rsum_ext n _ (fun k => if (k <=? j)%nat then A j k * z k else 0)) by (intros k _; unfold lt; destruct (k <=? j)%nat; lra).
    rewrite (rsum_low n j (fun k => A j k * z k)) by exact Hj. reflexivity. }
  rewrite !E in H. rewrite (rsum_ext j _ (fun k => A j k * y k)) in H by (intros k Hk; rewrite (IH k) by lia; reflexivity).
  apply (Rmult_eq_reg_l (A j j)); [lra|apply Hd; exact Hj].
Qed.
Lemma ltT_inj n (A : rmat) (x y : rvec) : (forall j, (j < n)%nat -> A j j <> 0) -> (forall j, (j < n)%nat -> rsum n (fun k => lt A k j * x k) = rsum n (fun k => lt A k j * y k)) ->
  forall j, (j < n)%nat -> x j = y j.
Proof.
  intros Hd H. enough (K : forall m j, (j < n)%nat -> (n <= j + m)%nat -> x j = y j) by (intros j Hj; apply (K n); lia).
  induction m as [|m IH]; intros j Hj Hm; [lia|]. specialize (H j Hj).
  assert (E : forall z : rvec, rsum n (fun k => lt A k j * z k) = A j j * z j + rsum (n - j - 1) (fun k => A (j + S k)%nat j * z (j + S k)%nat)).
  { intros z. rewrite (rsum_ext n _ (fun k => if (j <=? k)%nat then A k j * z k else 0)) by (intros k _; unfold lt; destruct (j <=? k)%nat; lra).
    rewrite (rsum_high n j (fun k => A k j * z k)) by lia. replace (n - j)%nat with (S (n - j - 1)) at 1 by lia. rewrite rsum_S_l. rewrite Nat.add_0_r. reflexivity. }
  rewrite !E in H. rewrite (rsum_ext (n - j - 1) _ (fun k => A (j + S k)%nat j * y (j + S k)%nat)) in H by (intros k Hk; rewrite (IH (j + S k)%nat) by lia; reflexivity).
  apply (Rmult_eq_reg_l (A j j)); [lra|apply Hd; exact Hj].
Qed.
(** solving with both factors of M = L L' *)
Lemma chol_solve n (L M : rmat) (x r : rvec) (y : rvec) :
  (forall i j, (i < n)%nat -> (j < n)%nat -> M i j = rsum n (fun k => lt L i k * lt L j k)) ->
  (forall i, (i < n)%nat -> rsum n (fun k => lt L i k * y k) = r i) -> (forall i, (i < n)%nat -> rsum n (fun k => lt L k i * x k) = y i) ->
  forall i, (i < n)%nat -> rsum n (fun j => M i j * x j) = r i.
Proof.
  intros HM Hy Hx i Hi. rewrite <- Hy by exact Hi.
  rewrite (rsum_ext n _ (fun j => rsum n (fun k => lt L i k * (lt L j k * x j)))).
  2:{ intros j Hj. rewrite HM by assumption. rewrite <- rsum_scal_r. apply rsum_ext. intros; ring. }
  rewrite rsum_swap. apply rsum_ext. intros k Hk. rewrite rsum_scal. rewrite Hx by exact Hk. reflexivity.
Qed.
