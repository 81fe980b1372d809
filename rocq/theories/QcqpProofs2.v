(** QcqpProofs2.v -- the QCQP residuals are the QP residuals of the tangent QP at the point. *)
From Coq Require Import ZArith Bool Arith Lia Reals Lra.
From Verif Require Import Base ArithF RSum Blas Blas2 OcpModel ResSpec ResProofs ResProofs2 QcqpModel QcqpSpec QcqpProofs.
Local Open Scope R_scope.

(** the QP obtained by linearising the quadratic constraints at z *)
Definition tang (qc : oqcqp R) (z : nat -> nat -> R) : oqp R :=
  let D := c_dim qc in
  mkqp (qp_dims D (c_nq qc)) (c_BAbt qc) (c_RSQ qc) (fun i => b_Ct (cnux qc i) (dng D i) (c_DCt qc i) (c_Hq qc i) (z i)) (c_b qc) (c_rqz qc)
    (fun i => b_d (cnux qc i) (dnb D i) (dng D i) (c_nq qc i) (c_Hq qc i) (c_d qc i) (z i))
    (c_mask qc) (c_m qc) (c_Z qc) (c_idxb qc) (c_idxs_rev qc).
(** multipliers without the lower sides of the quadratic constraints *)
Definition lam0 (qc : oqcqp R) (lam : nat -> nat -> R) (i c : nat) : R := if lowerq qc i c then 0 else lam i c.

Section StageRes.
Variables (cache : option ((nat -> nat -> R) * (nat -> nat -> R))) (mc : bool) (qc : oqcqp R) (sol : osol R) (i : nat).
Let qp := tang qc (s_ux sol).
Let D := q_dim qp.
Let z := s_ux sol. Let pi := s_pi sol. Let lam := lam0 qc (s_lam sol). Let t := s_t sol.
Hypothesis Hwf : stage_wf (nux qp i) (dnb D i) (dng D i) (dns D i) (q_idxb qp i) (q_idxs_rev qp i).
Hypothesis Hmc : mc = true \/ forall c, (c < nct D i)%nat -> q_mask qp i c = 1.
Hypothesis Hca : cache_ok cache qc z (s_lam sol).
Definition cstage_mu : R := rsum (nct D i) (fun c => q_mask qp i c * lam i c * t i c).

Lemma qfun_val j : qfun qc z i j = b_val (cnux qc i) (dng (c_dim qc) i) (c_DCt qc i) (c_Hq qc i) (z i) j.
Proof.
  unfold qfun, b_val, b_h. f_equal. f_equal. apply rsum_ext. intros k _. rewrite <- rsum_scal_r. apply rsum_ext. intros l _.
  change (symL (c_Hq qc i j) k l) with (Hsym qc i j k l). lra.
Qed.
Lemma cache_stage lamk : (i <= dN D)%nat -> (forall c, (c < nct D i)%nat -> lamk c = q_mask qp i c * lam i c) ->
  match (match cache with Some (f, a) => Some (f i, a i) | None => None end) with
  | None => True
  | Some (f, a) => (forall j, (j < c_nq qc i)%nat -> f j = b_val (nux qp i) (dng (c_dim qc) i) (c_DCt qc i) (c_Hq qc i) (z i) j) /\
      (forall k, (k < nux qp i)%nat -> a k = rsum (c_nq qc i) (fun j => lamk (2 * dnb D i + 2 * dng (c_dim qc) i + c_nq qc i + j)%nat * b_grad (nux qp i) (dng (c_dim qc) i) (c_DCt qc i) (c_Hq qc i) (z i) j k))
  end.
Proof.
  intros Hi Hl. unfold cache_ok in Hca. destruct cache as [[f a]|]; [|exact I]. destruct (Hca i Hi) as [H1 H2]. split.
  - intros j Hj. rewrite H1 by assumption. apply qfun_val.
  - intros k Hk. rewrite H2 by assumption. apply rsum_ext. intros j Hj. cbv zeta.
    replace (cn2 qc i + (dnb (c_dim qc) i + dng (c_dim qc) i) + j)%nat with (2 * dnb D i + 2 * dng (c_dim qc) i + c_nq qc i + j)%nat by (unfold cn2; change (dnb D i) with (dnb (c_dim qc) i); lia).
    set (c := (2 * dnb D i + 2 * dng (c_dim qc) i + c_nq qc i + j)%nat).
    assert (Hlq : lowerq qc i c = false).
    { unfold lowerq, c, cn2. change (dnb D i) with (dnb (c_dim qc) i). destruct (Nat.ltb_spec (2 * dnb (c_dim qc) i + 2 * dng (c_dim qc) i + c_nq qc i + j) (dnb (c_dim qc) i + dng (c_dim qc) i + c_nq qc i)); [lia|]. apply andb_false_r. }
    rewrite Hl.
    + unfold act, lam, lam0. rewrite Hlq. reflexivity.
    + unfold c. change (nct D i) with (2 * dnb D i + 2 * (dng (c_dim qc) i + c_nq qc i) + 2 * dns D i)%nat. lia.
Qed.
Lemma dl_sum lamk : (forall j, (j < c_nq qc i)%nat -> lamk (dnb D i + dng (c_dim qc) i + j)%nat = 0) ->
  rsum (nct D i) (fun c => c_d qc i c * lamk c) = rsum (nct D i) (fun c => q_d qp i c * lamk c) +
  rsum (c_nq qc i) (fun j => lamk (2 * dnb D i + 2 * dng (c_dim qc) i + c_nq qc i + j)%nat * b_h (nux qp i) (c_Hq qc i) (z i) j).
Proof.
  intros H0. set (nb := dnb D i) in *. set (ng := dng (c_dim qc) i) in *. set (nq := c_nq qc i) in *.
  assert (En : nct D i = (2 * nb + 2 * ng + nq + nq + 2 * dns D i)%nat).
  { change (nct D i) with (2 * nb + 2 * (ng + nq) + 2 * dns D i)%nat. lia. }
  set (h := b_h (nux qp i) (c_Hq qc i) (z i)).
  assert (Ed : forall c, q_d qp i c = b_d (nux qp i) nb ng nq (c_Hq qc i) (c_d qc i) (z i) c) by reflexivity.
  enough (H : rsum (nct D i) (fun c => c_d qc i c * lamk c - q_d qp i c * lamk c) = rsum nq (fun j => lamk (2 * nb + 2 * ng + nq + j)%nat * h j)) by (rewrite rsum_sub in H; lra).
  rewrite En, (rsum_split (2 * nb + 2 * ng + nq + nq)), (rsum_split (2 * nb + 2 * ng + nq)).
  rewrite (rsum_0 (2 * nb + 2 * ng + nq)), (rsum_0 (2 * dns D i)).
  - rewrite Rplus_0_l, Rplus_0_r. apply rsum_ext. intros j Hj. rewrite Ed. unfold b_d.
    destruct (Nat.ltb_spec (2 * nb + 2 * ng + nq + j) (nb + ng + nq)); [lia|]. rewrite andb_false_r.
    destruct (Nat.leb_spec (2 * nb + 2 * ng + nq) (2 * nb + 2 * ng + nq + j)); [|lia]. destruct (Nat.ltb_spec (2 * nb + 2 * ng + nq + j) (2 * (nb + ng + nq))); [|lia]. cbn [andb].
    replace (2 * nb + 2 * ng + nq + j - (2 * nb + 2 * ng + nq))%nat with j by lia. fold h. lra.
  - intros j Hj. rewrite Ed. unfold b_d.
    destruct (Nat.ltb_spec (2 * nb + 2 * ng + nq + nq + j) (nb + ng + nq)); [lia|]. rewrite andb_false_r. destruct (Nat.ltb_spec (2 * nb + 2 * ng + nq + nq + j) (2 * (nb + ng + nq))); [lia|]. rewrite andb_false_r. lra.
  - intros c Hc. rewrite Ed. unfold b_d. destruct (Nat.leb_spec (2 * nb + 2 * ng + nq) c); [lia|].
    destruct (Nat.leb_spec (nb + ng) c); [|cbn [andb]; lra]. destruct (Nat.ltb_spec c (nb + ng + nq)); cbn [andb]; [|lra].
    assert (E0 : lamk c = 0) by (replace c with (nb + ng + (c - (nb + ng)))%nat by lia; apply H0; lia). rewrite E0. lra.
Qed.

Lemma qcres_stage_R (Hi : (i <= dN D)%nat) res ws :
  let r := fst (qcres_stage cache mc qc sol i (res, ws)) in
  (forall k, (k < nvt D i)%nat -> r_g r i k = kkt_g qp z pi lam i k) /\
  (forall j, (i < dN D)%nat -> (j < dnx D (S i))%nat -> r_b r i j = dyn qp z i j) /\
  (forall c, (c < nct D i)%nat -> r_d r i c = kkt_d qp z t i c) /\
  (forall c, (c < nct D i)%nat -> r_m r i c = kkt_m qp lam t i c) /\
  r_obj r = r_obj res + stage_cost qp z i /\
  r_gap r = r_gap res + stage_gap qp (mksol z pi lam t) i /\
  r_mu_sum r = r_mu_sum res + cstage_mu /\
  r_mu r = r_mu res /\
  (forall i', i' <> i -> r_g r i' = r_g res i' /\ r_b r i' = r_b res i' /\ r_d r i' = r_d res i' /\ r_m r i' = r_m res i').
Proof.
  unfold qcres_stage. cbv zeta.
  assert (Enc : (2 * dnb (c_dim qc) i + 2 * dng (c_dim qc) i + 2 * c_nq qc i + 2 * dns (c_dim qc) i)%nat = nct D i).
  { change (nct D i) with (2 * dnb (c_dim qc) i + 2 * (dng (c_dim qc) i + c_nq qc i) + 2 * dns (c_dim qc) i)%nat. lia. }
  rewrite Enc.
  change (c_RSQ qc) with (q_RSQ qp). change (c_rqz qc) with (q_rqz qp). change (c_mask qc) with (q_mask qp). change (c_m qc) with (q_m qp).
  change (c_Z qc) with (q_Z qp). change (c_b qc) with (q_b qp). change (c_BAbt qc) with (q_BAbt qp). change (c_idxb qc) with (q_idxb qp). change (c_idxs_rev qc) with (q_idxs_rev qp).
  change (dnu (c_dim qc)) with (dnu D). change (dnx (c_dim qc)) with (dnx D). change (dN (c_dim qc)) with (dN D). change (dnb (c_dim qc)) with (dnb D). change (dns (c_dim qc)) with (dns D).
  set (n := nux qp i) in *. change (dnu D i + dnx D i)%nat with n. set (nb := dnb D i) in *. set (ng := dng D i) in *. set (ns := dns D i) in *.
  set (ngl := dng (c_dim qc) i) in *. set (nq := c_nq qc i) in *. assert (Eng : ng = (ngl + nq)%nat) by reflexivity.
  set (nc := nct D i) in *. set (nv := nvt D i). assert (Enc2 : nc = (2 * nb + 2 * (ngl + nq) + 2 * ns)%nat) by reflexivity.
  assert (Env : nv = (n + 2 * ns)%nat) by reflexivity.
  change (s_ux sol i) with (z i). change (s_t sol i) with (t i). change (s_pi sol i) with (pi i).
  set (ga := SYMV_L n f1 _ _ _ _ _ _ _ _ _ _).
  assert (Hga : forall k, (k < n)%nat -> ga k = 2 * q_rqz qp i k + rsum nv (fun l => Hess qp i k l * z i l)).
  { intros k Hk. unfold ga, SYMV_L. vn. rewrite fsum_R. rsimp. rewrite R_lit11, Rmult_1_l. unfold Hess. fold n. rewrite Env, H_hard by assumption.
    f_equal. unfold Rdiv. rewrite Rinv_1. lra. }
  set (gb := AXPY n (- f1)%F (q_rqz qp i) 0 ga 0 ga 0).
  assert (Hgb : forall k, (k < n)%nat -> gb k = q_rqz qp i k + rsum nv (fun l => Hess qp i k l * z i l)).
  { intros k Hk. unfold gb, AXPY. vn. rewrite Hga by assumption. rsimp. rewrite R_lit11. lra. }
  set (gc := if Nat.ltb 0 i then _ else gb).
  assert (Hgc : forall k, (k < n)%nat -> gc k = gb k - (if ((0 <? i) && (dnu D i <=? k) && (k <? n))%nat then pi (i - 1)%nat (k - dnu D i)%nat else 0)).
  { intros k Hk. unfold gc. destruct (Nat.ltb_spec 0 i); cbn [andb]; [|lra].
    destruct (Nat.leb_spec (dnu D i) k); cbn [andb].
    - destruct (Nat.ltb_spec k n); [|lia]. unfold AXPY. change n with (dnu D i + dnx D i)%nat in Hk. vn. rsimp. rewrite R_lit11. ixn. unfold pi. lra.
    - unfold AXPY. vn. lra. }
  set (lamk := VECSE nq f0 _ (nb + ngl)).
  assert (Elq : forall c, lowerq qc i c = ((nb + ngl <=? c) && (c <? nb + ngl + nq))%nat) by reflexivity.
  assert (Hlk : forall c, (c < nc)%nat -> lamk c = q_mask qp i c * lam i c).
  { intros c Hc. unfold lamk, lam, lam0, VECSE. rewrite Elq. destruct (Nat.leb_spec (nb + ngl) c); [destruct (Nat.ltb_spec c (nb + ngl + nq))|]; cbn [andb]; vn; try (rsimp; rewrite R_lit01; lra).
    - destruct mc; [unfold VECMUL|unfold VECCP]; vn; rsimp; [lra|]. destruct Hmc as [|Hm]; [discriminate|]. rewrite Hm by assumption. lra.
    - destruct mc; [unfold VECMUL|unfold VECCP]; vn; rsimp; [lra|]. destruct Hmc as [|Hm]; [discriminate|]. rewrite Hm by assumption. lra. }
  assert (Hl0 : forall j, (j < nq)%nat -> lamk (nb + ngl + j)%nat = 0).
  { intros j Hj. rewrite Hlk by lia. unfold lam, lam0. rewrite Elq. destruct (Nat.leb_spec (nb + ngl) (nb + ngl + j)); [|lia]. destruct (Nat.ltb_spec (nb + ngl + j) (nb + ngl + nq)); [|lia]. cbn [andb]. lra. }
  set (hq := b_h n (c_Hq qc i) (z i)).
  assert (HGl : forall k, rsum nc (fun c => G qp i c k * lamk c) = rsum nc (fun c => G qp i c k * (q_mask qp i c * lam i c))).
  { intros k. apply rsum_ext. intros c Hc. rewrite Hlk by assumption. reflexivity. }
  set (gap1 := (r_gap res + _)%F).
  destruct (qineq_block _ _ _ _ _ _ _ _ _ _ _ _ _) as [[[[[[g1 d1] b0] b1] gapq] y0] y1] eqn:EI.
  set (gs := if Nat.ltb 0 ns then AXPY (2 * ns) (- f1)%F (q_rqz qp i) n (GEMV_DIAG (2 * ns) f1 (q_Z qp i) 0 (z i) n (lit 2 1) (q_rqz qp i) n g1 n) n
      (GEMV_DIAG (2 * ns) f1 (q_Z qp i) 0 (z i) n (lit 2 1) (q_rqz qp i) n g1 n) n else g1).
  set (gh := GEMV_DIAG (2 * ns) f1 (q_Z qp i) 0 (z i) n (lit 2 1) (q_rqz qp i) n g1 n) in *.
  assert (Hgh : forall k, (n <= k < n + 2 * ns)%nat -> gh k = 2 * q_rqz qp i k + rsum nv (fun l => Hess qp i k l * z i l)).
  { intros k Hk. unfold gh, GEMV_DIAG. vn. rsimp. rewrite R_lit11, Rmult_1_l. unfold Hess. fold n. rewrite Env, H_slack by assumption. ixn.
    unfold Rdiv. rewrite Rinv_1. lra. }
  assert (Hgs1 : forall k, (k < n)%nat -> gs k = g1 k).
  { intros k Hk. unfold gs. destruct (Nat.ltb_spec 0 ns); [|reflexivity]. unfold gh, AXPY, GEMV_DIAG. vn. reflexivity. }
  assert (Hgs2 : forall k, (n <= k < n + 2 * ns)%nat -> gs k = q_rqz qp i k + rsum nv (fun l => Hess qp i k l * z i l)).
  { intros k Hk. unfold gs. destruct (Nat.ltb_spec 0 ns); [|lia]. unfold AXPY. vn. ixn. rewrite Hgh by assumption. rsimp. rewrite R_lit11. lra. }
  destruct (if Nat.ltb 0 ns then soft_block n nb (ngl + nq) ns (q_idxs_rev qp i) (c_d qc i) (t i) (z i) lamk (gs, d1) else (gs, d1)) as [g2 d2] eqn:ES.
  pose proof (qcons_blocks_R n nb ngl nq ns (q_idxb qp i) (c_DCt qc i) (c_Hq qc i) (q_idxs_rev qp i) (c_d qc i) (t i) (z i) lamk Hwf _ _ _ _ _ _ _ _ _ _ _ _ _ _ _ gs g2 d2 Hl0 (cache_stage lamk Hi Hlk) EI (eq_sym ES) Hgs1) as (C1 & C2 & C3 & C4).
  change (2 * nb + 2 * (ngl + nq) + 2 * ns)%nat with nc in C1, C2, C3. rewrite <- Env in *. fold hq in C4.
  change (b_d n nb ngl nq (c_Hq qc i) (c_d qc i) (z i)) with (q_d qp i) in C3.
  change (G_co n nb (ngl + nq) ns (q_idxb qp i) (b_Ct n ngl (c_DCt qc i) (c_Hq qc i) (z i)) (q_idxs_rev qp i)) with (G qp i) in C1, C2, C3.
  set (obj1 := (r_obj res + _)%F).
  set (qq := if Nat.ltb 0 ns then _ else _).
  assert (Eq : qq = (g2, d2, (if Nat.ltb 0 ns then obj1 + lit 1 2 * DOT (2 * ns) gh n (z i) n else obj1)%F,
                     (if Nat.ltb 0 ns then gapq + DOT (2 * ns) gs n (z i) n else gapq)%F)).
  { unfold qq. unfold gs in *. destruct (Nat.ltb 0 ns) eqn:E.
    - fold gh. rewrite ES. reflexivity.
    - injection ES as -> ->. reflexivity. }
  rewrite Eq. clear qq Eq. clearbody gs gh.
  (* objective and gap *)
  set (qv := fun k => rsum nv (fun l => Hess qp i k l * z i l)) in *.
  assert (Hquad : rsum nv (fun k => rsum nv (fun l => z i k * Hess qp i k l * z i l)) = rsum nv (fun k => qv k * z i k)).
  { apply rsum_ext. intros k Hk. unfold qv. rewrite <- rsum_scal_r. apply rsum_ext. intros l Hl. lra. }
  assert (Hobj : (if Nat.ltb 0 ns then obj1 + lit 1 2 * DOT (2 * ns) gh n (z i) n else obj1)%F = r_obj res + stage_cost qp z i).
  { unfold stage_cost. fold D nv. rewrite Hquad. 
    assert (E1 : obj1 = r_obj res + / 2 * rsum n (fun k => (2 * q_rqz qp i k + qv k) * z i k)).
    { unfold obj1, DOT. rewrite fsum_R. rsimp. f_equal. f_equal; [lra|]. apply rsum_ext. intros k Hk. rewrite !Nat.add_0_l, Hga by assumption. reflexivity. }
    transitivity (r_obj res + / 2 * (rsum n (fun k => (2 * q_rqz qp i k + qv k) * z i k) + rsum (2 * ns) (fun l => (2 * q_rqz qp i (n + l)%nat + qv (n + l)%nat) * z i (n + l)%nat))).
    { destruct (Nat.ltb_spec 0 ns) as [Hs|Hs].
      - rewrite E1. unfold DOT. rewrite fsum_R. rsimp.
        rewrite (rsum_ext _ (fun k => gh (n + k)%nat * z i (n + k)%nat) (fun l => (2 * q_rqz qp i (n + l)%nat + qv (n + l)%nat) * z i (n + l)%nat)); [lra|].
        intros l Hl. rewrite Hgh by lia. reflexivity.
      - replace (2 * ns)%nat with 0%nat by lia. cbn [rsum]. rewrite E1. lra. }
    rewrite <- (rsum_split n (2 * ns) (fun k => (2 * q_rqz qp i k + qv k) * z i k)). rewrite <- Env.
    rewrite (rsum_ext nv _ (fun k => 2 * (q_rqz qp i k * z i k) + qv k * z i k)) by (intros; lra). rewrite rsum_add, rsum_scal. lra. }
  assert (Hgap : (if Nat.ltb 0 ns then gapq + DOT (2 * ns) gs n (z i) n else gapq)%F =
    r_gap res + rsum nv (fun k => rsum nv (fun l => z i k * Hess qp i k l * z i l)) + rsum nv (fun k => q_rqz qp i k * z i k) + rsum nq (fun j => lamk (2 * nb + 2 * ngl + nq + j)%nat * hq j)).
  { rewrite Hquad.
    assert (E1 : gap1 = r_gap res + rsum n (fun k => (q_rqz qp i k + qv k) * z i k)).
    { unfold gap1, DOT. rewrite fsum_R. rsimp. f_equal. apply rsum_ext. intros k Hk. rewrite !Nat.add_0_l, Hgb by assumption. reflexivity. }
    rewrite E1 in C4.
    transitivity (r_gap res + (rsum n (fun k => (q_rqz qp i k + qv k) * z i k) + rsum (2 * ns) (fun l => (q_rqz qp i (n + l)%nat + qv (n + l)%nat) * z i (n + l)%nat)) + rsum nq (fun j => lamk (2 * nb + 2 * ngl + nq + j)%nat * hq j)).
    { destruct (Nat.ltb_spec 0 ns) as [Hs|Hs].
      - rewrite C4. unfold DOT. rewrite fsum_R. rsimp.
        rewrite (rsum_ext _ (fun k => gs (n + k)%nat * z i (n + k)%nat) (fun l => (q_rqz qp i (n + l)%nat + qv (n + l)%nat) * z i (n + l)%nat)); [lra|].
        intros l Hl. rewrite Hgs2 by lia. reflexivity.
      - replace (2 * ns)%nat with 0%nat by lia. cbn [rsum]. rewrite C4. lra. }
    rewrite <- (rsum_split n (2 * ns) (fun k => (q_rqz qp i k + qv k) * z i k)). rewrite <- Env.
    rewrite (rsum_ext nv _ (fun k => q_rqz qp i k * z i k + qv k * z i k)) by (intros; lra). rewrite rsum_add. lra. }
  rewrite Hobj. clear Hobj. revert Hgap. generalize (if Nat.ltb 0 ns then gapq + DOT (2 * ns) gs n (z i) n else gapq)%F. intros gap2 Hgap. clear obj1.
  (* masked res_d *)
  set (d3 := if mc then VECMUL nc (q_mask qp i) 0 d2 0 d2 0 else d2).
  assert (Hd3 : forall c, (c < nc)%nat -> d3 c = kkt_d qp z t i c).
  { intros c Hc. unfold kkt_d, con. fold D nv. rewrite <- C3 by assumption. unfold d3. destruct mc.
    - unfold VECMUL. vn. reflexivity.
    - destruct Hmc as [|Hm]; [discriminate|]. rewrite Hm by assumption. lra. }
  unfold VECMULDOT. set (m2 := if mc then _ else AXPY _ _ _ _ _ _ _ _).
  assert (Hm2 : forall c, (c < nc)%nat -> m2 c = kkt_m qp lam t i c).
  { intros c Hc. unfold kkt_m, m2. destruct mc.
    - unfold VECMUL, AXPY. vn. rsimp. rewrite Hlk, R_lit11 by assumption. lra.
    - unfold VECMUL, AXPY. vn. rsimp. rewrite Hlk, R_lit11 by assumption. destruct Hmc as [|Hm]; [discriminate|]. rewrite Hm by assumption. lra. }
  assert (Hmu : DOT nc lamk 0 (t i) 0 = cstage_mu).
  { unfold DOT, cstage_mu. rewrite fsum_R. fold nc. apply rsum_ext. intros c Hc. rewrite !Nat.add_0_l, Hlk by assumption. rsimp. reflexivity. }
  assert (Hdl : DOT nc (c_d qc i) 0 lamk 0 = rsum nc (fun c => q_d qp i c * (q_mask qp i c * lam i c)) + rsum nq (fun j => lamk (2 * nb + 2 * ngl + nq + j)%nat * hq j)).
  { unfold DOT. rewrite fsum_R. rewrite (rsum_ext nc (fun c => q_d qp i c * (q_mask qp i c * lam i c)) (fun c => q_d qp i c * lamk c)) by (intros c Hc; rewrite Hlk by assumption; reflexivity).
    cbn [Nat.add]. rsimp. apply dl_sum; assumption. }
  (* dynamics *)
  assert (Hfin : forall k, (k < nv)%nat -> g2 k = kkt_g qp z pi lam i k - (if ((i <? dN D) && (k <? n))%nat then rsum (dnx D (S i)) (fun j => q_BAbt qp i k j * pi i j) else 0)).
  { intros k Hk. unfold kkt_g. fold D n nv nc. rewrite <- HGl. destruct (Nat.ltb_spec k n) as [L|L].
    - rewrite C1, Hgc, Hgb by assumption. destruct (Nat.ltb_spec k n); [|lia]. unfold qv. lra.
    - rewrite C2, Hgs2 by lia. rewrite !Bool.andb_false_r. unfold qv. lra. }
  destruct (Nat.ltb_spec i (dN D)) as [HN|HN]; cbn [fst r_g r_b r_d r_m r_obj r_gap r_mu r_mu_sum GEMV_NT].
  - replace (i + 1)%nat with (S i) by lia. split; [|split; [|split; [|split; [|split; [|split; [|split; [|split]]]]]]].
    + intros k Hk. rewrite upd_same. unfold GEMV_N. destruct (Nat.ltb_spec k n) as [L|L].
      * vn. rewrite fsum_R, Hfin by assumption. cbn [andb]. destruct (Nat.ltb_spec k n); [|lia]. rsimp. rewrite R_lit11, !Rmult_1_l. unfold pi. cbn [Nat.add]. lra.
      * vn. rewrite Hfin by assumption. cbn [andb]. destruct (Nat.ltb_spec k n); [lia|]. lra.
    + intros j _ Hj. rewrite upd_same. unfold GEMV_T, AXPY. vn. rewrite fsum_R. rsimp. rewrite R_lit11, !Rmult_1_l. unfold dyn. fold D n. cbn [Nat.add]. unfold z. lra.
    + intros c Hc. rewrite upd_same. apply Hd3. assumption.
    + intros c Hc. rewrite upd_same. apply Hm2. assumption.
    + reflexivity.
    + unfold stage_gap. fold D nv nc. cbn [s_ux s_pi s_lam]. rsimp. rewrite Hdl, Hgap. destruct (Nat.ltb_spec i (dN D)); [|lia].
      unfold DOT. rewrite fsum_R. cbn [Nat.add]. rsimp. lra.
    + rsimp. rewrite Hmu. reflexivity.
    + reflexivity.
    + intros i' Hne. rewrite !upd_other by assumption. repeat split; reflexivity.
  - split; [|split; [|split; [|split; [|split; [|split; [|split; [|split]]]]]]].
    + intros k Hk. rewrite upd_same. rewrite Hfin by assumption. cbn [andb]. lra.
    + intros j Hj. lia.
    + intros c Hc. rewrite upd_same. apply Hd3. assumption.
    + intros c Hc. rewrite upd_same. apply Hm2. assumption.
    + reflexivity.
    + unfold stage_gap. fold D nv nc. cbn [s_ux s_pi s_lam]. rsimp. rewrite Hdl, Hgap. destruct (Nat.ltb_spec i (dN D)); [lia|]. lra.
    + rsimp. rewrite Hmu. reflexivity.
    + reflexivity.
    + intros i' Hne. rewrite !upd_other by assumption. repeat split; reflexivity.
Qed.
End StageRes.
