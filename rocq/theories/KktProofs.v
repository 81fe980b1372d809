(** KktProofs.v -- the Riccati KKT solver over the real numbers: elimination of the slacks, stage matrices. *)
From Coq Require Import ZArith Bool Arith Lia Reals Lra.
From Verif Require Import Base ArithF RSum Blas Blas2 CoreModel CoreProofs OcpModel ResSpec ResProofs CholProofs KktModel.
Local Open Scope R_scope.

(** ** loops *)
Lemma loop_pair {A B} n (body : nat -> A * B -> A * B) (f : nat -> A -> A) (g : nat -> B -> B) a b :
  (forall i a b, body i (a, b) = (f i a, g i b)) -> loop n body (a, b) = (loop n f a, loop n g b).
Proof. intros H. induction n as [|n IH]; cbn [loop]; [reflexivity|]. rewrite IH. apply H. Qed.
(** both halves of an array of size 2m starting at o *)
Lemma two_map (m : nat) (o : nat) (h : nat -> R -> R) (v : rvec) p : (p <= m)%nat ->
  let v' := loop p (fun i v => let v := upd v (o + i)%nat (h i (v (o + i)%nat)) in upd v (o + m + i)%nat (h (m + i)%nat (v (o + m + i)%nat))) v in
  (forall k, (k < p \/ m <= k < m + p)%nat -> v' (o + k)%nat = h k (v (o + k)%nat)) /\
  (forall k, (k < o \/ o + p <= k < o + m \/ o + m + p <= k)%nat -> v' k = v k).
Proof.
  induction p as [|p IH]; intros Hp; cbv zeta.
  - cbn [loop]. split; [intros; lia|reflexivity].
  - specialize (IH ltac:(lia)). cbv zeta in IH. cbn [loop]. set (v1 := loop p _ v) in *. destruct IH as (I1 & I2). split.
    + intros k Hk. destruct (Nat.eq_dec k (m + p)) as [->|N1].
      { replace (o + (m + p))%nat with (o + m + p)%nat by lia. rewrite upd_same. rewrite upd_other by lia. rewrite I2 by lia. reflexivity. }
      rewrite upd_other by lia. destruct (Nat.eq_dec k p) as [->|N2].
      { rewrite upd_same. rewrite I2 by lia. reflexivity. }
      rewrite upd_other by lia. apply I1. lia.
    + intros k Hk. rewrite !upd_other by lia. apply I2. lia.
Qed.
Lemma vset0 n (a g : rvec) j : (j < n)%nat -> vset a 0 n g j = g j.
Proof. intros H. unfold vset. destruct (Nat.leb_spec 0 j); [|lia]. destruct (Nat.ltb_spec j (0 + n)); [|lia]. cbn [andb]. rewrite Nat.sub_0_r. reflexivity. Qed.
(** scatter-add over the softened constraints *)
Lemma scatter2 (sf : nat -> Z) (o1 o2 : nat) (a b : rvec) n v k :
  loop n (fun i v => if Z.eqb (sf i) (-1) then v else
     let idx := Z.to_nat (sf i) in
     let v := upd v (o1 + idx)%nat (v (o1 + idx)%nat + a i) in upd v (o2 + idx)%nat (v (o2 + idx)%nat + b i)) v k =
  v k + rsum n (fun j => soft_co sf o1 j k * a j + soft_co sf o2 j k * b j).
Proof.
  revert k. induction n as [|n IH]; intros k; cbn [loop rsum]; [lra|].
  set (w := loop n _ v) in *. unfold soft_co at 3 4. destruct (Z.eqb_spec (sf n) (-1)) as [E|E].
  - rewrite IH. lra.
  - unfold upd. rewrite !IH. destruct (Nat.eqb_spec k (o2 + Z.to_nat (sf n))) as [E2|E2]; destruct (Nat.eqb_spec k (o1 + Z.to_nat (sf n))) as [E1|E1]; subst.
    + rewrite <- E1, !Nat.eqb_refl. lra.
    + destruct (Nat.eqb_spec (o2 + Z.to_nat (sf n)) (o1 + Z.to_nat (sf n))); [lia|]. lra.
    + lra.
    + lra.
Qed.

(** ** slacks of a stage *)
Section Slacks.
Variables (n nb ng ns : nat) (reg : R) (sf : nat -> Z) (Z g Gamma gamma : rvec).
Notation nbg := (nb + ng)%nat.
Definition softsum (v : rvec) (k : nat) : R := rsum nbg (fun j => soft_co sf 0 j k * v j + soft_co sf ns j k * v (nbg + j)%nat).
(** pivot and right-hand side of slack k < 2 ns *)
Definition sl_piv (k : nat) : R := Z k + reg + Gamma (2 * nb + 2 * ng + k)%nat + softsum Gamma k.
Definition sl_rhs (k : nat) : R := g (n + k)%nat + gamma (2 * nb + 2 * ng + k)%nat + softsum gamma k.
Definition sl_inv (k : nat) : R := 1 / sl_piv k.
Definition soft_at (off j : nat) : nat := (off + Z.to_nat (sf j))%nat.
(** condensed weights of the two-sided constraints *)
Definition w_lo j : R := if Z.eqb (sf j) (-1) then Gamma j else Gamma j - Gamma j * sl_inv (soft_at 0 j) * Gamma j.
Definition w_up j : R := if Z.eqb (sf j) (-1) then Gamma (nbg + j)%nat else Gamma (nbg + j)%nat - Gamma (nbg + j)%nat * sl_inv (soft_at ns j) * Gamma (nbg + j)%nat.
Definition r_lo j : R := if Z.eqb (sf j) (-1) then gamma j else gamma j - Gamma j * sl_inv (soft_at 0 j) * sl_rhs (soft_at 0 j).
Definition r_up j : R := if Z.eqb (sf j) (-1) then gamma (nbg + j)%nat else gamma (nbg + j)%nat - Gamma (nbg + j)%nat * sl_inv (soft_at ns j) * sl_rhs (soft_at ns j).
Definition T0 j : R := w_lo j + w_up j.
Definition T1 j : R := r_lo j - r_up j.

Lemma soft_shift o j k : soft_co sf (o + n) j (n + k) = soft_co sf o j k.
Proof.
  unfold soft_co. destruct (Z.eqb _ _); [reflexivity|].
  destruct (Nat.eqb_spec (n + k) (o + n + Z.to_nat (sf j))), (Nat.eqb_spec k (o + Z.to_nat (sf j))); try reflexivity; lia.
Qed.

Lemma cond_slacks_R tmp Zs dux : (forall j, (j < nbg)%nat -> (sf j = -1 \/ 0 <= sf j < Z.of_nat ns)%Z) ->
  let '(tmp', Zs', dux') := cond_slacks n nb ng ns reg sf Z g Gamma gamma (tmp, Zs, dux) in
  (forall k, (k < 2 * ns)%nat -> Zs' k = sl_inv k) /\
  (forall k, (k < 2 * ns)%nat -> dux' (n + k)%nat = sl_rhs k) /\
  (forall j, (j < nbg)%nat -> tmp' 0%nat j = T0 j /\ tmp' 1%nat j = T1 j).
Proof.
  intros Hsf. unfold cond_slacks.
  rewrite (loop_pair ns _ (fun i v => let v := upd v (0 + i)%nat ((fun k _ => Z k + reg + Gamma (2 * nb + 2 * ng + k)%nat) i (v (0 + i)%nat)) in
     upd v (0 + ns + i)%nat ((fun k _ => Z k + reg + Gamma (2 * nb + 2 * ng + k)%nat) (ns + i)%nat (v (0 + ns + i)%nat)))
    (fun i v => let v := upd v (n + i)%nat ((fun k _ => g (n + k)%nat + gamma (2 * nb + 2 * ng + k)%nat) i (v (n + i)%nat)) in
     upd v (n + ns + i)%nat ((fun k _ => g (n + k)%nat + gamma (2 * nb + 2 * ng + k)%nat) (ns + i)%nat (v (n + ns + i)%nat)))).
  2:{ intros i a b. cbv beta zeta. cbn [Nat.add]. rewrite !Nat.add_assoc. reflexivity. }
  pose proof (two_map ns 0 (fun k _ => Z k + reg + Gamma (2 * nb + 2 * ng + k)%nat) Zs ns (le_n _)) as HZ.
  pose proof (two_map ns n (fun k _ => g (n + k)%nat + gamma (2 * nb + 2 * ng + k)%nat) dux ns (le_n _)) as HD. cbv zeta in HZ, HD.
  set (Z1 := loop ns _ Zs) in *. set (d1 := loop ns _ dux) in *. destruct HZ as (HZ & _), HD as (HD & _).
  rewrite (loop_pair nbg _
    (fun i v => if Z.eqb (sf i) (-1) then v else
      let idx := Z.to_nat (sf i) in
      let v := upd v (0 + idx)%nat (v (0 + idx)%nat + Gamma i) in upd v (ns + idx)%nat (v (ns + idx)%nat + (fun i => Gamma (nbg + i)%nat) i))
    (fun i v => if Z.eqb (sf i) (-1) then v else
      let idx := Z.to_nat (sf i) in
      let v := upd v (n + idx)%nat (v (n + idx)%nat + gamma i) in upd v (n + ns + idx)%nat (v (n + ns + idx)%nat + (fun i => gamma (nbg + i)%nat) i))).
  2:{ intros i a b. destruct (Z.eqb (sf i) (-1)); reflexivity. }
  pose proof (scatter2 sf 0 ns Gamma (fun i => Gamma (nbg + i)%nat) nbg Z1) as HZ2.
  pose proof (scatter2 sf n (n + ns) gamma (fun i => gamma (nbg + i)%nat) nbg d1) as HD2.
  set (Z2 := loop nbg _ Z1) in *. set (d2 := loop nbg _ d1) in *.
  assert (VD : forall k, (k < 2 * ns)%nat -> d2 (n + k)%nat = sl_rhs k).
  { intros k Hk. rewrite HD2, HD by lia. unfold sl_rhs, softsum. f_equal. apply rsum_ext. intros j Hj.
    rewrite <- (soft_shift 0 j k), <- (soft_shift ns j k). cbn [Nat.add]. rewrite (Nat.add_comm ns n). reflexivity. }
  pose proof (two_map ns 0 (fun _ x => 1 / x) Z2 ns (le_n _)) as HI. cbv beta zeta in HI.
  set (Z3 := loop ns (fun idx Zs => _) Z2).
  assert (E3 : Z3 = loop ns (fun (i : nat) (v : nat -> R) => upd (upd v (0 + i)%nat (1 / v (0 + i)%nat)) (0 + ns + i)%nat (1 / upd v (0 + i)%nat (1 / v (0 + i)%nat) (0 + ns + i)%nat)) Z2).
  { unfold Z3. cbn [Nat.add]. rsimp. rewrite ?R_lit11. reflexivity. }
  rewrite <- E3 in HI. clearbody Z3. clear E3. destruct HI as (HI & _).
  assert (VZ : forall k, (k < 2 * ns)%nat -> Z3 k = sl_inv k).
  { intros k Hk. change k with (0 + k)%nat at 1. rewrite HI by lia. rewrite HZ2. change (Z1 (0 + k)%nat) with (Z1 (0 + k)%nat). rewrite HZ by lia. reflexivity. }
  set (val := fun r j => match r with O => w_lo j | 1%nat => w_up j | 2%nat => r_lo j | _ => r_up j end).
  assert (VT : forall p, (p <= nbg)%nat -> forall r j, (r < 4)%nat -> (j < p)%nat -> loop p (fun ii tmp =>
      let G0 := Gamma ii in let G1 := Gamma (nb + ng + ii)%nat in let g0 := gamma ii in let g1 := gamma (nb + ng + ii)%nat in
      if Z.eqb (sf ii) (-1) then
        upd (upd (upd (upd tmp 0%nat (upd (tmp 0%nat) ii G0)) 1%nat (upd (tmp 1%nat) ii G1)) 2%nat (upd (tmp 2%nat) ii g0)) 3%nat (upd (tmp 3%nat) ii g1)
      else
        let idx := Z.to_nat (sf ii) in
        upd (upd (upd (upd tmp 0%nat (upd (tmp 0%nat) ii (G0 - G0 * Z3 idx * G0)))
                       1%nat (upd (tmp 1%nat) ii (G1 - G1 * Z3 (ns + idx)%nat * G1)))
                       2%nat (upd (tmp 2%nat) ii (g0 - G0 * Z3 idx * d2 (n + idx)%nat)))
                       3%nat (upd (tmp 3%nat) ii (g1 - G1 * Z3 (ns + idx)%nat * d2 (n + ns + idx)%nat))) tmp r j = val r j).
  { induction p as [|p IH]; intros Hp r j Hr Hj; [lia|]. specialize (IH ltac:(lia)). cbn [loop].
    set (tp := loop p _ tmp) in *. cbv zeta.
    assert (Hr' : (r = 0 \/ r = 1 \/ r = 2 \/ r = 3)%nat) by lia.
    destruct (Nat.eq_dec j p) as [->|Hne].
    - destruct (Z.eqb_spec (sf p) (-1)) as [E|E].
      + destruct Hr' as [-> | [-> | [-> | -> ]]]; unfold upd at 1; cbn [Nat.eqb]; unfold upd; cbn [Nat.eqb]; rewrite Nat.eqb_refl; unfold val, w_lo, w_up, r_lo, r_up; rewrite E; reflexivity.
      + destruct (Hsf p ltac:(lia)) as [E'|Hs]; [contradiction|].
        rewrite (VZ (Z.to_nat (sf p))), (VZ (ns + Z.to_nat (sf p))%nat), VD by lia. replace (n + ns + Z.to_nat (sf p))%nat with (n + (ns + Z.to_nat (sf p)))%nat by lia. rewrite VD by lia.
        apply Z.eqb_neq in E.
        destruct Hr' as [-> | [-> | [-> | -> ]]]; unfold upd at 1; cbn [Nat.eqb]; unfold upd; cbn [Nat.eqb]; rewrite Nat.eqb_refl; unfold val, w_lo, w_up, r_lo, r_up, soft_at; rewrite E; reflexivity.
    - rewrite <- (IH r j) by lia. destruct (Z.eqb (sf p) (-1)); destruct Hr' as [-> | [-> | [-> | -> ]]]; unfold upd; cbn [Nat.eqb]; destruct (Nat.eqb_spec j p); try contradiction; reflexivity. }
  specialize (VT nbg (le_n _)). cbv zeta in VT. rsimp.
  set (t4 := loop nbg _ tmp) in *.
  split; [exact VZ|]. split; [exact VD|]. intros j Hj.
  assert (V : forall r, (r < 4)%nat -> t4 r j = val r j) by (intros; apply VT; auto).
  split.
  - unfold upd at 1. cbn [Nat.eqb]. rewrite upd_same. unfold AXPY. rewrite vset0 by assumption. cbn [Nat.add]. rsimp. rewrite !V by lia. rewrite R_lit11. unfold T0, val. lra.
  - rewrite upd_same. unfold AXPY. rewrite vset0 by assumption. cbn [Nat.add]. unfold upd. cbn [Nat.eqb]. rsimp. rewrite !V by lia. rewrite R_lit11. unfold T1, val. lra.
Qed.
End Slacks.

(** ** matrix routines over the reals *)
Lemma DIARE_R k a (A : rmat) o r c : DIARE k a A o o r c = A r c + (if ((r =? c) && (o <=? r) && (r <? o + k))%nat then a else 0).
Proof.
  unfold DIARE. rewrite mupd_at. destruct (Nat.eqb_spec r c) as [->|Hne]; cbn [andb].
  - destruct (Nat.leb_spec o c), (Nat.ltb_spec c (o + k)); cbn [andb]; try lra. rewrite Nat.eqb_refl. rsimp. replace (o + (c - o))%nat with c by lia. reflexivity.
  - destruct (Nat.leb_spec o r), (Nat.ltb_spec r (o + k)), (Nat.leb_spec o c), (Nat.ltb_spec c (o + k)); cbn [andb]; try lra.
    destruct (Nat.eqb_spec (r - o) (c - o)); [lia|lra].
Qed.
Lemma DIAAD_SP_R n al (x : rvec) xi idx (D : rmat) r c :
  DIAAD_SP n al x xi idx D 0 0 r c = D r c + (if (r =? c)%nat then rsum n (fun i => if (idx i =? r)%nat then al * x (xi + i)%nat else 0) else 0).
Proof.
  unfold DIAAD_SP. revert r c. induction n as [|n IH]; intros r c; cbn [loop rsum].
  - destruct (r =? c)%nat; lra.
  - set (w := loop n _ D) in *. unfold mset. cbn [Nat.add] in *. rewrite !IH. rsimp.
    destruct (Nat.eqb_spec r (idx n)) as [->|H1]; destruct (Nat.eqb_spec c (idx n)) as [->|H2]; cbn [andb].
    + rewrite !Nat.eqb_refl. lra.
    + destruct (Nat.eqb_spec (idx n) c); [lia|lra].
    + destruct (Nat.eqb_spec r (idx n)); [lia|lra].
    + destruct (Nat.eqb_spec r c); [|lra]. destruct (Nat.eqb_spec (idx n) r); [lia|lra].
Qed.
Lemma ROWAD_SP_R n al (x : rvec) xi idx (D : rmat) di r c :
  ROWAD_SP n al x xi idx D di 0 r c = D r c + (if (r =? di)%nat then rsum n (fun i => if (idx i =? c)%nat then al * x (xi + i)%nat else 0) else 0).
Proof.
  unfold ROWAD_SP. revert r c. induction n as [|n IH]; intros r c; cbn [loop rsum].
  - destruct (r =? di)%nat; lra.
  - set (w := loop n _ D) in *. unfold mset. cbn [Nat.add] in *. rewrite !IH. rsimp.
    destruct (Nat.eqb_spec r di) as [->|H1]; destruct (Nat.eqb_spec c (idx n)) as [->|H2]; cbn [andb].
    + rewrite !Nat.eqb_refl. lra.
    + destruct (Nat.eqb_spec (idx n) c); [lia|lra].
    + lra.
    + lra.
Qed.
Lemma mblk_at (B : rmat) bi bj m n g r c : mblk B bi bj m n g r c =
  if ((bi <=? r) && (r <? bi + m) && ((bj <=? c) && (c <? bj + n)))%nat then g (r - bi)%nat (c - bj)%nat else B r c.
Proof. reflexivity. Qed.
Lemma mblk_i (B : rmat) bi bj m n g r c : (bi <= r < bi + m)%nat -> (bj <= c < bj + n)%nat -> mblk B bi bj m n g r c = g (r - bi)%nat (c - bj)%nat.
Proof.
  intros H1 H2. unfold mblk. destruct (Nat.leb_spec bi r); [|lia]. destruct (Nat.ltb_spec r (bi + m)); [|lia].
  destruct (Nat.leb_spec bj c); [|lia]. destruct (Nat.ltb_spec c (bj + n)); [|lia]. reflexivity.
Qed.
Lemma mblk_o (B : rmat) bi bj m n g r c : (r < bi \/ bi + m <= r \/ c < bj \/ bj + n <= c)%nat -> mblk B bi bj m n g r c = B r c.
Proof.
  intros H. unfold mblk. destruct (Nat.leb_spec bi r); cbn [andb]; [|reflexivity]. destruct (Nat.ltb_spec r (bi + m)); cbn [andb]; [|reflexivity].
  destruct (Nat.leb_spec bj c); cbn [andb]; [|reflexivity]. destruct (Nat.ltb_spec c (bj + n)); [lia|reflexivity].
Qed.
Lemma mupd_i (B : rmat) bi bj m n sel g r c : (bi <= r < bi + m)%nat -> (bj <= c < bj + n)%nat -> sel (r - bi)%nat (c - bj)%nat = true -> mupd B bi bj m n sel g r c = g (r - bi)%nat (c - bj)%nat.
Proof.
  intros H1 H2 H3. unfold mupd. destruct (Nat.leb_spec bi r); [|lia]. destruct (Nat.ltb_spec r (bi + m)); [|lia].
  destruct (Nat.leb_spec bj c); [|lia]. destruct (Nat.ltb_spec c (bj + n)); [|lia]. cbn [andb]. rewrite H3. reflexivity.
Qed.

(** ** the stage matrix before the contribution of the general constraints and of the next stage *)
Section StageBuild.
Variables (qp : oqp R) (ss : nat) (reg : R) (Gamma gamma : rvec).
Let D := q_dim qp.
Notation n := (nux qp ss).
Notation nb := (dnb (q_dim qp) ss).
Notation ng := (dng (q_dim qp) ss).
Notation ns := (dns (q_dim qp) ss).
Definition T0q : rvec := T0 nb ng ns reg (q_idxs_rev qp ss) (q_Z qp ss) Gamma.
Definition T1q : rvec := T1 n nb ng ns reg (q_idxs_rev qp ss) (q_Z qp ss) (q_rqz qp ss) Gamma gamma.
Definition Zq : rvec := sl_inv nb ng ns reg (q_idxs_rev qp ss) (q_Z qp ss) Gamma.
Definition Rq : rvec := sl_rhs n nb ng ns (q_idxs_rev qp ss) (q_rqz qp ss) gamma.
Definition rowq : rmat := row_co nb (q_idxb qp ss) (q_DCt qp ss).

Lemma rowq_b c k : (c < nb)%nat -> rowq c k = if (q_idxb qp ss c =? k)%nat then 1 else 0.
Proof. intros H. unfold rowq, row_co. apply Nat.ltb_lt in H. rewrite H. reflexivity. Qed.
Lemma rowq_g c k : rowq (nb + c)%nat k = q_DCt qp ss k c.
Proof. unfold rowq, row_co. destruct (Nat.ltb_spec (nb + c) nb); [lia|]. replace (nb + c - nb)%nat with c by lia. reflexivity. Qed.

Lemma stage_build_R (rg : rmat -> rmat) (rho : rvec) L tmp Zs dux :
  (forall j, (j < nb + ng)%nat -> (q_idxs_rev qp ss j = -1 \/ 0 <= q_idxs_rev qp ss j < Z.of_nat ns)%Z) ->
  (forall j, (j < nb)%nat -> (q_idxb qp ss j < n)%nat) ->
  (forall L i j, (j <= i < n)%nat -> rg L i j = L i j + if (i =? j)%nat then rho i else 0) ->
  let '(L', (tmp', Zs', dux')) := stage_build rg reg qp Gamma gamma ss L (tmp, Zs, dux) in
  (forall i j, (j <= i < n)%nat -> L' i j = q_RSQ qp ss i j + (if (i =? j)%nat then rho i else 0) + rsum nb (fun c => rowq c i * T0q c * rowq c j)) /\
  (forall j, (j < n)%nat -> L' n j = q_rqz qp ss j + rsum nb (fun c => rowq c j * T1q c)) /\
  (forall c, (c < nb + ng)%nat -> tmp' 0%nat c = T0q c /\ tmp' 1%nat c = T1q c) /\
  (forall k, (k < 2 * ns)%nat -> Zs' k = Zq k /\ dux' (n + k)%nat = Rq k).
Proof.
  intros Hsf Hib Hrg. unfold stage_build. fold (nux qp ss).
  set (L1 := ROWIN n f1 (q_rqz qp ss) 0 _ n 0).
  assert (A1 : forall i j, (j <= i < n)%nat -> L1 i j = q_RSQ qp ss i j + if (i =? j)%nat then rho i else 0).
  { intros i j H. unfold L1, ROWIN. rewrite mblk_o by lia. rewrite Hrg by assumption. f_equal. unfold TRCP_L. rewrite mupd_i by (try lia; unfold low; apply Nat.leb_le; lia).
    cbn [Nat.add]. rewrite !Nat.sub_0_r. reflexivity. }
  assert (A2 : forall j, (j < n)%nat -> L1 n j = q_rqz qp ss j).
  { intros j H. unfold L1, ROWIN. rewrite mblk_i by lia. cbn [Nat.add]. rewrite Nat.sub_0_r. rsimp. rewrite R_lit11. lra. }
  clearbody L1.
  set (r := if Nat.ltb 0 ns then _ else _).
  assert (Hr : let '(tmp', Zs', dux') := r in
    (forall c, (c < nb + ng)%nat -> tmp' 0%nat c = T0q c /\ tmp' 1%nat c = T1q c) /\
    (forall k, (k < 2 * ns)%nat -> Zs' k = Zq k /\ dux' (n + k)%nat = Rq k)).
  { unfold r. destruct (Nat.ltb_spec 0 ns) as [Hns|Hns].
    - pose proof (cond_slacks_R n nb ng ns reg (q_idxs_rev qp ss) (q_Z qp ss) (q_rqz qp ss) Gamma gamma tmp Zs dux Hsf) as H.
      destruct (cond_slacks _ _ _ _ _ _ _ _ _ _ _) as [[tmp' Zs'] dux']. destruct H as (H1 & H2 & H3). split; [exact H3|]. intros k Hk. split; [apply H1|apply H2]; exact Hk.
    - assert (Hm : forall c, (c < nb + ng)%nat -> Z.eqb (q_idxs_rev qp ss c) (-1) = true). { intros c Hc. apply Z.eqb_eq. destruct (Hsf c Hc); lia. }
      assert (HT : forall c, (c < nb + ng)%nat -> T0q c = Gamma c + Gamma (nb + ng + c)%nat /\ T1q c = gamma c - gamma (nb + ng + c)%nat).
      { intros c Hc. unfold T0q, T1q, T0, T1, w_lo, w_up, r_lo, r_up. rewrite Hm by assumption. split; reflexivity. }
      destruct (Nat.ltb_spec 0 (nb + ng)) as [Hbg|Hbg].
      + split; [|intros; lia]. intros c Hc. destruct (HT c Hc) as (E0 & E1). rewrite E0, E1. split.
        * unfold upd at 1. cbn [Nat.eqb]. rewrite upd_same. unfold AXPY. rewrite vset0 by assumption. cbn [Nat.add]. rsimp. rewrite R_lit11. lra.
        * rewrite upd_same. unfold AXPY. rewrite vset0 by assumption. cbn [Nat.add]. rsimp. rewrite R_lit11. lra.
      + split; intros; lia. }
  destruct r as [[tmp' Zs'] dux']. destruct Hr as (HT & HZ).
  destruct (Nat.ltb_spec 0 nb) as [Hnb|Hnb]; (split; [|split; [|split; assumption]]).
  - intros i j Hij. rewrite ROWAD_SP_R, DIAAD_SP_R. destruct (Nat.eqb_spec i n); [lia|]. rewrite A1 by assumption. rewrite Rplus_0_r. f_equal.
    destruct (Nat.eqb_spec i j) as [->|Hne].
    + apply rsum_ext. intros c Hc. rewrite !rowq_b by assumption. destruct (HT c ltac:(lia)) as (E & _). cbn [Nat.add]. rewrite E. rsimp. rewrite R_lit11. destruct (q_idxb qp ss c =? j)%nat; lra.
    + symmetry. apply rsum_0. intros c Hc. rewrite !rowq_b by assumption. destruct (Nat.eqb_spec (q_idxb qp ss c) i), (Nat.eqb_spec (q_idxb qp ss c) j); try lra. lia.
  - intros j Hj. rewrite ROWAD_SP_R, DIAAD_SP_R. rewrite Nat.eqb_refl. destruct (Nat.eqb_spec n j); [lia|]. rewrite A2 by assumption. rewrite Rplus_0_r. f_equal.
    apply rsum_ext. intros c Hc. rewrite rowq_b by assumption. destruct (HT c ltac:(lia)) as (_ & E). cbn [Nat.add]. rewrite E. rsimp. rewrite R_lit11. destruct (q_idxb qp ss c =? j)%nat; lra.
  - intros i j Hij. rewrite A1 by assumption. assert (E : nb = 0%nat) by lia. rewrite E. cbn [rsum]. lra.
  - intros j Hj. rewrite A2 by assumption. assert (E : nb = 0%nat) by lia. rewrite E. cbn [rsum]. lra.
Qed.
End StageBuild.
