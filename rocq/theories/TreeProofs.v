(** TreeProofs.v -- proofs about TreeModel.v: the residuals of a tree OCP QP. *)
From Coq Require Import ZArith Bool Arith List Lia Reals Lra.
From Verif Require Import Base ArithF RSum Blas OcpModel TreeModel ResSpec TreeSpec ResProofs ResProofs2.
Local Open Scope R_scope.

(** ** the loop over the kids *)
Section Kids.
Variables (T : ttree) (qp : oqp R) (ux pi : nat -> nat -> R) (i : nat).
Let D := q_dim qp. Let n := nux qp i.
Lemma kids_loop_R g0 rb0 gap0 :
  (forall jj, (jj < t_nk T i)%nat -> (0 < t_kid T i jj)%nat) ->
  (forall a b, (a < t_nk T i)%nat -> (b < t_nk T i)%nat -> t_kid T i a = t_kid T i b -> a = b) ->
  let '(g, rb, gap) := kids_loop T qp ux pi i (g0, rb0, gap0) in
  (forall v, (v < n)%nat -> g v = g0 v + rsum (t_nk T i) (fun jj => let k := t_kid T i jj in rsum (dnx D k) (fun j => q_BAbt qp (k - 1)%nat v j * pi (k - 1)%nat j))) /\
  (forall v, (n <= v)%nat -> g v = g0 v) /\
  (forall jj j, (jj < t_nk T i)%nat -> (j < dnx D (t_kid T i jj))%nat -> rb (t_kid T i jj - 1)%nat j = tdyn qp ux i (t_kid T i jj) j) /\
  (forall e, (forall jj, (jj < t_nk T i)%nat -> e <> (t_kid T i jj - 1)%nat) -> rb e = rb0 e) /\
  gap = gap0 - rsum (t_nk T i) (fun jj => let k := t_kid T i jj in rsum (dnx D k) (fun j => q_b qp (k - 1)%nat j * pi (k - 1)%nat j)).
Proof.
  intros Hpos Hinj. unfold kids_loop. cbv zeta. fold D. change (dnu D i + dnx D i)%nat with n.
  match goal with |- context [loop (t_nk T i) ?f ?s] => set (body := f) end.
  enough (Hm : forall m, (m <= t_nk T i)%nat -> let '(g, rb, gap) := loop m body (g0, rb0, gap0) in
    (forall v, (v < n)%nat -> g v = g0 v + rsum m (fun jj => rsum (dnx D (t_kid T i jj)) (fun j => q_BAbt qp (t_kid T i jj - 1)%nat v j * pi (t_kid T i jj - 1)%nat j))) /\
    (forall v, (n <= v)%nat -> g v = g0 v) /\
    (forall jj j, (jj < m)%nat -> (j < dnx D (t_kid T i jj))%nat -> rb (t_kid T i jj - 1)%nat j = tdyn qp ux i (t_kid T i jj) j) /\
    (forall e, (forall jj, (jj < m)%nat -> e <> (t_kid T i jj - 1)%nat) -> rb e = rb0 e) /\
    gap = gap0 - rsum m (fun jj => rsum (dnx D (t_kid T i jj)) (fun j => q_b qp (t_kid T i jj - 1)%nat j * pi (t_kid T i jj - 1)%nat j))).
  { apply (Hm (t_nk T i)). lia. }
  induction m as [|m IH]; intros Hle.
  - cbn [loop rsum]. repeat split; intros; try lia; try lra; reflexivity.
  - rewrite loop_S. specialize (IH ltac:(lia)). destruct (loop m body _) as [[g rb] gap]. destruct IH as (I1 & I2 & I3 & I4 & I5).
    unfold body. cbn [GEMV_NT]. set (k := t_kid T i m) in *. split; [|split; [|split; [|split]]].
    + intros v Hv. unfold GEMV_N. vn. rewrite fsum_R. rsimp. rewrite R_lit11, !Rmult_1_l. rewrite I1 by assumption. cbn [rsum]. fold k.
      rewrite Rplus_assoc. f_equal. 
    + intros v Hv. unfold GEMV_N. vn. apply I2. assumption.
    + intros jj j Hjj Hj. destruct (Nat.eq_dec jj m) as [->|Hne].
      * fold k. fold k in Hj. rewrite upd_same. unfold GEMV_T, AXPY. vn. rewrite fsum_R. rsimp. rewrite R_lit11, !Rmult_1_l. unfold tdyn. fold D n. cbn [Nat.add]. lra.
      * rewrite upd_other; [apply I3; [lia|assumption]|]. unfold k. specialize (Hpos jj ltac:(lia)) as P1. specialize (Hpos m ltac:(lia)) as P2.
        intros E. apply Hne. apply Hinj; lia.
    + intros e He. rewrite upd_other; [apply I4; intros; apply He; lia|]. apply (He m). lia.
    + cbn [rsum]. fold k. rewrite I5. unfold DOT. rewrite fsum_R. cbn [Nat.add]. rsimp. lra.
Qed.
End Kids.

(** [cons_blocks_R] with different multipliers in the two blocks: lamh (hard rows), lams (slack rows) *)
Section Blocks.
Variables (n nb ng ns : nat) (idxb : nat -> nat) (Ct : nat -> nat -> R) (sf : nat -> Z).
Variables (d t ux lamh lams : nat -> R).
Hypothesis Hwf : stage_wf n nb ng ns idxb sf.
Notation Gc := (G_co n nb ng ns idxb Ct sf).
Lemma cons_blocks2_R g dd bg0 bg1 g1 d1 c0 c1 (gs : nat -> R) g2 d2 :
  ineq_block n nb ng idxb Ct d t ux lamh (g, dd, bg0, bg1) = (g1, d1, c0, c1) ->
  (g2, d2) = (if Nat.ltb 0 ns then soft_block n nb ng ns sf d t ux lams (gs, d1) else (gs, d1)) ->
  (forall k, (k < n)%nat -> gs k = g1 k) ->
  (forall k, (k < n)%nat -> g2 k = g k - rsum (2 * nb + 2 * ng + 2 * ns) (fun c => Gc c k * lamh c)) /\
  (forall k, (n <= k < n + 2 * ns)%nat -> g2 k = gs k - rsum (2 * nb + 2 * ng + 2 * ns) (fun c => Gc c k * lams c)) /\
  (forall c, (c < 2 * nb + 2 * ng + 2 * ns)%nat -> d2 c = d c + t c - rsum (n + 2 * ns) (fun k => Gc c k * ux k)).
Proof.
  intros E1 E2 Hgs. pose proof (ineq_block_R n nb ng idxb Ct d t ux lamh g dd bg0 bg1 (proj1 Hwf)) as H1. rewrite E1 in H1. destruct H1 as (A1 & A2 & A3 & A4 & A5).
  destruct (Nat.ltb_spec 0 ns) as [Hs|Hs].
  - pose proof (soft_block_R n nb ng ns idxb Ct sf d t ux lams gs d1) as H2. rewrite <- E2 in H2. cbn [fst snd] in H2. destruct H2 as (B1 & B2 & B3 & B4 & B5).
    split; [|split].
    + intros k Hk. rewrite B1, Hgs, A1, GT_hard by assumption. lra.
    + intros k Hk. replace k with (n + (k - n))%nat by lia. rewrite B2 by lia. reflexivity.
    + intros c Hc. destruct (Nat.ltb_spec c (nb + ng)) as [L|L]; [|destruct (Nat.ltb_spec c (2 * (nb + ng))) as [L2|L2]].
      * rewrite B3, A3, G_val_lo by assumption. lra.
      * rewrite B4, A4, G_val_up by (lia || assumption). lra.
      * rewrite B5, G_val_sl by lia. reflexivity.
  - injection E2 as -> ->.
    assert (Hsf : forall j, (j < nb + ng)%nat -> (sf j =? -1)%Z = true).
    { intros j Hj. destruct (proj2 Hwf j Hj) as [E|E]; [rewrite E; reflexivity|lia]. }
    split; [|split].
    + intros k Hk. rewrite Hgs, A1, GT_hard by assumption. lra.
    + intros k Hk. lia.
    + intros c Hc. destruct (Nat.ltb_spec c (nb + ng)) as [L|L]; [|destruct (Nat.ltb_spec c (2 * (nb + ng))) as [L2|L2]].
      * rewrite A3, G_val_lo, Hsf by assumption. lra.
      * rewrite A4, G_val_up, Hsf by (lia || assumption). lra.
      * lia.
Qed.
End Blocks.

(** ** one node of TREE_OCP_QP_RES_COMPUTE *)
Section Node.
Variables (mc : bool) (T : ttree) (qp : oqp R) (sol : osol R) (i : nat).
Let D := q_dim qp.
Let z := s_ux sol. Let pi := s_pi sol. Let lam := s_lam sol. Let t := s_t sol.
Hypothesis Hwf : stage_wf (nux qp i) (dnb D i) (dng D i) (dns D i) (q_idxb qp i) (q_idxs_rev qp i).
Hypothesis Hmc : mc = true \/ forall c, (c < nct D i)%nat -> q_mask qp i c = 1.
Hypothesis Hpos : forall jj, (jj < t_nk T i)%nat -> (0 < t_kid T i jj)%nat.
Hypothesis Hinj : forall a b, (a < t_nk T i)%nat -> (b < t_nk T i)%nat -> t_kid T i a = t_kid T i b -> a = b.
Definition node_gap : R :=
  rsum (nvt D i) (fun k => rsum (nvt D i) (fun l => z i k * Hess qp i k l * z i l)) + rsum (nvt D i) (fun k => q_rqz qp i k * z i k)
  - rsum (nct D i) (fun c => q_d qp i c * lam i c)
  - rsum (t_nk T i) (fun jj => let k := t_kid T i jj in rsum (dnx D k) (fun j => q_b qp (k - 1)%nat j * pi (k - 1)%nat j)).
(** what the code has in the place of the stationarity residual *)
Definition node_g (v : nat) : R := tkkt_g T qp z pi lam i v - (if (v <? nux qp i)%nat then rsum (nct D i) (fun c => G qp i c v * ((1 - q_mask qp i c) * lam i c)) else 0).

Lemma tree_node_R res ws :
  let r := fst (tree_node mc T qp sol i (res, ws)) in
  (forall k, (k < nvt D i)%nat -> r_g r i k = node_g k) /\
  (forall jj j, (jj < t_nk T i)%nat -> (j < dnx D (t_kid T i jj))%nat -> r_b r (t_kid T i jj - 1)%nat j = tdyn qp z i (t_kid T i jj) j) /\
  (forall c, (c < nct D i)%nat -> r_d r i c = kkt_d qp z t i c) /\
  (forall c, (c < nct D i)%nat -> r_m r i c = kkt_m qp lam t i c) /\
  r_obj r = r_obj res + stage_cost qp z i /\
  r_gap r = r_gap res + node_gap /\
  r_mu_sum r = r_mu_sum res + stage_mu qp sol i /\
  r_mu r = r_mu res /\
  (forall i', i' <> i -> r_g r i' = r_g res i' /\ r_d r i' = r_d res i' /\ r_m r i' = r_m res i') /\
  (forall e, (forall jj, (jj < t_nk T i)%nat -> e <> (t_kid T i jj - 1)%nat) -> r_b r e = r_b res e).
Proof.
  unfold tree_node. cbv zeta. fold D.
  set (n := nux qp i) in *. change (dnu D i + dnx D i)%nat with n. set (nb := dnb D i) in *. set (ng := dng D i) in *. set (ns := dns D i) in *.
  change (2 * nb + 2 * ng + 2 * ns)%nat with (nct D i). set (nc := nct D i) in *. set (nv := nvt D i).
  assert (Env : nv = (n + 2 * ns)%nat) by reflexivity.
  change (s_ux sol) with z. change (s_lam sol) with lam. change (s_t sol) with t. change (s_pi sol) with pi.
  set (ga := SYMV_L n f1 _ _ _ _ _ _ _ _ _ _).
  assert (Hga : forall k, (k < n)%nat -> ga k = 2 * q_rqz qp i k + rsum nv (fun l => Hess qp i k l * z i l)).
  { intros k Hk. unfold ga, SYMV_L. vn. rewrite fsum_R. rsimp. rewrite R_lit11, Rmult_1_l. unfold Hess. fold n. rewrite Env, H_hard by assumption.
    f_equal. unfold Rdiv. rewrite Rinv_1. lra. }
  set (gb := AXPY n (- f1)%F (q_rqz qp i) 0 ga 0 ga 0).
  assert (Hgb : forall k, (k < n)%nat -> gb k = q_rqz qp i k + rsum nv (fun l => Hess qp i k l * z i l)).
  { intros k Hk. unfold gb, AXPY. vn. rewrite Hga by assumption. rsimp. rewrite R_lit11. lra. }
  set (gc := if Nat.ltb 0 i then _ else gb).
  assert (Hgc : forall k, (k < n)%nat -> gc k = gb k - (if ((0 <? i) && (dnu D i <=? k) && (k <? n))%nat then pi (i - 1)%nat (k - dnu D i)%nat else 0)).
  { intros k Hk. unfold gc. destruct (Nat.ltb_spec 0 i); cbn [andb]; [|lra].
    destruct (Nat.leb_spec (dnu D i) k); cbn [andb].
    - destruct (Nat.ltb_spec k n); [|lia]. unfold AXPY. change n with (dnu D i + dnx D i)%nat in Hk. vn. rsimp. rewrite R_lit11. ixn. unfold pi. lra.
    - unfold AXPY. vn. lra. }
  set (lamk := if mc then _ else _).
  assert (Hlk : forall c, (c < nc)%nat -> lamk c = q_mask qp i c * lam i c).
  { intros c Hc. unfold lamk. destruct mc.
    - unfold VECMUL. vn. rsimp. lra.
    - unfold VECCP. vn. destruct Hmc as [|Hm]; [discriminate|]. rewrite Hm by assumption. lra. }
  assert (HGl : forall k, rsum nc (fun c => G qp i c k * lamk c) = rsum nc (fun c => G qp i c k * (q_mask qp i c * lam i c))).
  { intros k. apply rsum_ext. intros c Hc. rewrite Hlk by assumption. reflexivity. }
  destruct (ineq_block _ _ _ _ _ _ _ _ _ _) as [[[g1 d1] b0] b1] eqn:EI.
  set (gs := if Nat.ltb 0 ns then AXPY (2 * ns) (- f1)%F (q_rqz qp i) n (GEMV_DIAG (2 * ns) f1 (q_Z qp i) 0 (z i) n (lit 2 1) (q_rqz qp i) n g1 n) n
      (GEMV_DIAG (2 * ns) f1 (q_Z qp i) 0 (z i) n (lit 2 1) (q_rqz qp i) n g1 n) n else g1).
  set (gh := GEMV_DIAG (2 * ns) f1 (q_Z qp i) 0 (z i) n (lit 2 1) (q_rqz qp i) n g1 n) in *.
  assert (Hgh : forall k, (n <= k < n + 2 * ns)%nat -> gh k = 2 * q_rqz qp i k + rsum nv (fun l => Hess qp i k l * z i l)).
  { intros k Hk. unfold gh, GEMV_DIAG. vn. rsimp. rewrite R_lit11, Rmult_1_l. unfold Hess. fold n. rewrite Env, H_slack by assumption. ixn.
    unfold Rdiv. rewrite Rinv_1. lra. }
  assert (Hgs1 : forall k, (k < n)%nat -> gs k = g1 k).
  { intros k Hk. unfold gs. destruct (Nat.ltb_spec 0 ns); [|reflexivity]. unfold gh, AXPY, GEMV_DIAG. vn. reflexivity. }
  assert (Hgs2 : forall k, (n <= k < n + 2 * ns)%nat -> gs k = q_rqz qp i k + rsum nv (fun l => Hess qp i k l * z i l)).
  { intros k Hk. unfold gs. destruct (Nat.ltb_spec 0 ns); [|lia]. unfold AXPY. vn. ixn. rewrite Hgh by assumption. rsimp. rewrite R_lit11. lra. }
  destruct (if Nat.ltb 0 ns then soft_block n nb ng ns (q_idxs_rev qp i) (q_d qp i) (t i) (z i) lamk (gs, d1) else (gs, d1)) as [g2 d2] eqn:ES.
  pose proof (cons_blocks2_R n nb ng ns (q_idxb qp i) (q_DCt qp i) (q_idxs_rev qp i) (q_d qp i) (t i) (z i) (lam i) lamk Hwf _ _ _ _ _ _ _ _ gs g2 d2 EI (eq_sym ES) Hgs1) as (C1 & C2 & C3).
  change (2 * nb + 2 * ng + 2 * ns)%nat with nc in C1, C2, C3. rewrite <- Env in *.
  change (G_co n nb ng ns (q_idxb qp i) (q_DCt qp i) (q_idxs_rev qp i)) with (G qp i) in C1, C2, C3.
  set (obj1 := (r_obj res + _)%F). set (gap1 := (r_gap res + _)%F).
  set (qq := if Nat.ltb 0 ns then _ else _).
  assert (Eq : qq = (g2, d2, (if Nat.ltb 0 ns then obj1 + lit 1 2 * DOT (2 * ns) gh n (z i) n else obj1)%F,
                     (if Nat.ltb 0 ns then gap1 + DOT (2 * ns) gs n (z i) n else gap1)%F)).
  { unfold qq. unfold gs in *. destruct (Nat.ltb 0 ns) eqn:E.
    - fold gh. rewrite ES. reflexivity.
    - injection ES as -> ->. reflexivity. }
  rewrite Eq. clear qq Eq. clearbody gs gh.
  (* objective and gap *)
  set (qv := fun k => rsum nv (fun l => Hess qp i k l * z i l)) in *.
  assert (Hquad : rsum nv (fun k => rsum nv (fun l => z i k * Hess qp i k l * z i l)) = rsum nv (fun k => qv k * z i k)).
  { apply rsum_ext. intros k Hk. unfold qv. rewrite <- rsum_scal_r. apply rsum_ext. intros l Hl. lra. }
  assert (Hobj : (if Nat.ltb 0 ns then obj1 + lit 1 2 * DOT (2 * ns) gh n (z i) n else obj1)%F = r_obj res + stage_cost qp z i).
  { unfold stage_cost. fold D nv. rewrite Hquad. 
    assert (E1 : obj1 = r_obj res + / 2 * rsum n (fun k => (2 * q_rqz qp i k + qv k) * z i k)).
    { unfold obj1, DOT. rewrite fsum_R. rsimp. f_equal. f_equal; [lra|]. apply rsum_ext. intros k Hk. rewrite !Nat.add_0_l, Hga by assumption. reflexivity. }
    transitivity (r_obj res + / 2 * (rsum n (fun k => (2 * q_rqz qp i k + qv k) * z i k) + rsum (2 * ns) (fun l => (2 * q_rqz qp i (n + l)%nat + qv (n + l)%nat) * z i (n + l)%nat))).
    { destruct (Nat.ltb_spec 0 ns) as [Hs|Hs].
      - rewrite E1. unfold DOT. rewrite fsum_R. rsimp.
        rewrite (rsum_ext _ (fun k => gh (n + k)%nat * z i (n + k)%nat) (fun l => (2 * q_rqz qp i (n + l)%nat + qv (n + l)%nat) * z i (n + l)%nat)); [lra|].
        intros l Hl. rewrite Hgh by lia. reflexivity.
      - replace (2 * ns)%nat with 0%nat by lia. cbn [rsum]. rewrite E1. lra. }
    rewrite <- (rsum_split n (2 * ns) (fun k => (2 * q_rqz qp i k + qv k) * z i k)). rewrite <- Env.
    rewrite (rsum_ext nv _ (fun k => 2 * (q_rqz qp i k * z i k) + qv k * z i k)) by (intros; lra). rewrite rsum_add, rsum_scal. lra. }
  assert (Hgap : (if Nat.ltb 0 ns then gap1 + DOT (2 * ns) gs n (z i) n else gap1)%F =
    r_gap res + rsum nv (fun k => rsum nv (fun l => z i k * Hess qp i k l * z i l)) + rsum nv (fun k => q_rqz qp i k * z i k)).
  { rewrite Hquad.
    assert (E1 : gap1 = r_gap res + rsum n (fun k => (q_rqz qp i k + qv k) * z i k)).
    { unfold gap1, DOT. rewrite fsum_R. rsimp. f_equal. apply rsum_ext. intros k Hk. rewrite !Nat.add_0_l, Hgb by assumption. reflexivity. }
    transitivity (r_gap res + (rsum n (fun k => (q_rqz qp i k + qv k) * z i k) + rsum (2 * ns) (fun l => (q_rqz qp i (n + l)%nat + qv (n + l)%nat) * z i (n + l)%nat))).
    { destruct (Nat.ltb_spec 0 ns) as [Hs|Hs].
      - rewrite E1. unfold DOT. rewrite fsum_R. rsimp.
        rewrite (rsum_ext _ (fun k => gs (n + k)%nat * z i (n + k)%nat) (fun l => (q_rqz qp i (n + l)%nat + qv (n + l)%nat) * z i (n + l)%nat)); [lra|].
        intros l Hl. rewrite Hgs2 by lia. reflexivity.
      - replace (2 * ns)%nat with 0%nat by lia. cbn [rsum]. rewrite E1. lra. }
    rewrite <- (rsum_split n (2 * ns) (fun k => (q_rqz qp i k + qv k) * z i k)). rewrite <- Env.
    rewrite (rsum_ext nv _ (fun k => q_rqz qp i k * z i k + qv k * z i k)) by (intros; lra). rewrite rsum_add. lra. }
  rewrite Hobj. clear Hobj. revert Hgap. generalize (if Nat.ltb 0 ns then gap1 + DOT (2 * ns) gs n (z i) n else gap1)%F. intros gap2 Hgap. clear obj1 gap1.
  set (d3 := if mc then VECMUL nc (q_mask qp i) 0 d2 0 d2 0 else d2).
  assert (Hd3 : forall c, (c < nc)%nat -> d3 c = kkt_d qp z t i c).
  { intros c Hc. unfold kkt_d, con. fold D nv. rewrite <- C3 by assumption. unfold d3. destruct mc.
    - unfold VECMUL. vn. reflexivity.
    - destruct Hmc as [|Hm]; [discriminate|]. rewrite Hm by assumption. lra. }
  set (m2 := if mc then _ else AXPY _ _ _ _ _ _ _ _).
  assert (Hm2 : forall c, (c < nc)%nat -> m2 c = kkt_m qp lam t i c).
  { intros c Hc. unfold kkt_m, m2. destruct mc.
    - unfold VECMUL, AXPY. vn. rsimp. rewrite Hlk, R_lit11 by assumption. lra.
    - unfold VECMUL, AXPY. vn. rsimp. rewrite Hlk, R_lit11 by assumption. destruct Hmc as [|Hm]; [discriminate|]. rewrite Hm by assumption. lra. }
  assert (Hmu : VECNRM_1 nc m2 0 = stage_mu qp sol i).
  { rewrite VECNRM_1_R. unfold stage_mu. fold D nc. apply rsum_ext. intros c Hc. rewrite Nat.add_0_l, Hm2 by assumption. reflexivity. }
  clearbody m2 d3.
  assert (Hdl : DOT nc (q_d qp i) 0 (lam i) 0 = rsum nc (fun c => q_d qp i c * lam i c)).
  { unfold DOT. rewrite fsum_R. apply rsum_ext. intros c Hc. rewrite !Nat.add_0_l. reflexivity. }
  pose proof (kids_loop_R T qp z pi i g2 (r_b res) (gap2 - DOT nc (q_d qp i) 0 (lam i) 0)%F Hpos Hinj) as HK. fold D n in HK.
  destruct (kids_loop T qp z pi i _) as [[g3 rb] gap3]. destruct HK as (K1 & K2 & K3 & K4 & K5).
  cbn [fst r_g r_b r_d r_m r_obj r_gap r_mu r_mu_sum].
  split; [|split; [|split; [|split; [|split; [|split; [|split; [|split; [|split]]]]]]]].
  - intros k Hk. rewrite upd_same. unfold node_g, tkkt_g. fold D n nv nc. destruct (Nat.ltb_spec k n) as [L|L].
    + rewrite K1, C1, Hgc, Hgb by assumption. destruct (Nat.ltb_spec k n); [|lia]. cbv zeta.
      assert (E : rsum nc (fun c => G qp i c k * lam i c) = rsum nc (fun c => G qp i c k * (q_mask qp i c * lam i c)) + rsum nc (fun c => G qp i c k * ((1 - q_mask qp i c) * lam i c))).
      { rewrite <- rsum_add. apply rsum_ext. intros c _. lra. }
      rewrite E. unfold qv. lra.
    + rewrite K2 by assumption. rewrite C2, Hgs2 by lia. rewrite HGl, !Bool.andb_false_r. unfold qv. lra.
  - exact K3.
  - intros c Hc. rewrite upd_same. apply Hd3. assumption.
  - intros c Hc. rewrite upd_same. apply Hm2. assumption.
  - reflexivity.
  - rewrite K5. unfold node_gap. fold D nv nc. rsimp. rewrite Hdl, Hgap. cbv zeta. lra.
  - rsimp. rewrite Hmu. reflexivity.
  - reflexivity.
  - intros i' Hne. rewrite !upd_other by assumption. repeat split; reflexivity.
  - exact K4.
Qed.
End Node.

(** ** one node of TREE_OCP_QP_RES_COMPUTE_LIN *)
Section NodeLin.
Variables (mc : bool) (T : ttree) (qp : oqp R) (sol stp : osol R) (i : nat).
Let D := q_dim qp.
Let z := s_ux stp. Let pi := s_pi stp. Let lam := s_lam stp. Let t := s_t stp.
Hypothesis Hwf : stage_wf (nux qp i) (dnb D i) (dng D i) (dns D i) (q_idxb qp i) (q_idxs_rev qp i).
Hypothesis Hmc : mc = true \/ forall c, (c < nct D i)%nat -> q_mask qp i c = 1.
Hypothesis Hpos : forall jj, (jj < t_nk T i)%nat -> (0 < t_kid T i jj)%nat.
Hypothesis Hinj : forall a b, (a < t_nk T i)%nat -> (b < t_nk T i)%nat -> t_kid T i a = t_kid T i b -> a = b.
Lemma treelin_node_R res ws :
  let r := fst (treelin_node mc T qp sol stp i (res, ws)) in
  (forall k, (k < nvt D i)%nat -> r_g r i k = tkkt_g T qp z pi lam i k) /\
  (forall jj j, (jj < t_nk T i)%nat -> (j < dnx D (t_kid T i jj))%nat -> r_b r (t_kid T i jj - 1)%nat j = tdyn qp z i (t_kid T i jj) j) /\
  (forall c, (c < nct D i)%nat -> r_d r i c = kkt_d qp z t i c) /\
  (forall c, (c < nct D i)%nat -> r_m r i c = lin_m qp sol stp i c) /\
  (forall i', i' <> i -> r_g r i' = r_g res i' /\ r_d r i' = r_d res i' /\ r_m r i' = r_m res i') /\
  (forall e, (forall jj, (jj < t_nk T i)%nat -> e <> (t_kid T i jj - 1)%nat) -> r_b r e = r_b res e).
Proof.
  unfold treelin_node. cbv zeta. fold D.
  set (n := nux qp i) in *. change (dnu D i + dnx D i)%nat with n. set (nb := dnb D i) in *. set (ng := dng D i) in *. set (ns := dns D i) in *.
  change (2 * nb + 2 * ng + 2 * ns)%nat with (nct D i). set (nc := nct D i) in *. set (nv := nvt D i).
  assert (Env : nv = (n + 2 * ns)%nat) by reflexivity.
  change (s_ux stp) with z. change (s_lam stp) with lam. change (s_t stp) with t. change (s_pi stp) with pi.
  set (gb := SYMV_L n f1 _ _ _ _ _ _ _ _ _ _).
  assert (Hgb : forall k, (k < n)%nat -> gb k = q_rqz qp i k + rsum nv (fun l => Hess qp i k l * z i l)).
  { intros k Hk. unfold gb, SYMV_L. vn. rewrite fsum_R. rsimp. rewrite R_lit11, !Rmult_1_l. unfold Hess. fold n. rewrite Env, H_hard by assumption. reflexivity. }
  set (gc := if Nat.ltb 0 i then _ else gb).
  assert (Hgc : forall k, (k < n)%nat -> gc k = gb k - (if ((0 <? i) && (dnu D i <=? k) && (k <? n))%nat then pi (i - 1)%nat (k - dnu D i)%nat else 0)).
  { intros k Hk. unfold gc. destruct (Nat.ltb_spec 0 i); cbn [andb]; [|lra].
    destruct (Nat.leb_spec (dnu D i) k); cbn [andb].
    - destruct (Nat.ltb_spec k n); [|lia]. unfold AXPY. change n with (dnu D i + dnx D i)%nat in Hk. vn. rsimp. rewrite R_lit11. ixn. unfold pi. lra.
    - unfold AXPY. vn. lra. }
  set (lamk := if mc then _ else _).
  assert (Hlk : forall c, (c < nc)%nat -> lamk c = q_mask qp i c * lam i c).
  { intros c Hc. unfold lamk. destruct mc.
    - unfold VECMUL. vn. rsimp. lra.
    - unfold VECCP. vn. destruct Hmc as [|Hm]; [discriminate|]. rewrite Hm by assumption. lra. }
  assert (HGl : forall k, rsum nc (fun c => G qp i c k * lamk c) = rsum nc (fun c => G qp i c k * (q_mask qp i c * lam i c))).
  { intros k. apply rsum_ext. intros c Hc. rewrite Hlk by assumption. reflexivity. }
  destruct (ineq_block _ _ _ _ _ _ _ _ _ _) as [[[g1 d1] b0] b1] eqn:EI.
  set (gs := if Nat.ltb 0 ns then GEMV_DIAG (2 * ns) f1 (q_Z qp i) 0 (z i) n f1 (q_rqz qp i) n g1 n else g1).
  assert (Hgs1 : forall k, (k < n)%nat -> gs k = g1 k).
  { intros k Hk. unfold gs. destruct (Nat.ltb_spec 0 ns); [|reflexivity]. unfold GEMV_DIAG. vn. reflexivity. }
  assert (Hgs2 : forall k, (n <= k < n + 2 * ns)%nat -> gs k = q_rqz qp i k + rsum nv (fun l => Hess qp i k l * z i l)).
  { intros k Hk. unfold gs. destruct (Nat.ltb_spec 0 ns); [|lia]. unfold GEMV_DIAG. vn. rsimp. rewrite R_lit11, !Rmult_1_l. unfold Hess. fold n. rewrite Env, H_slack by assumption. ixn. lra. }
  destruct (if Nat.ltb 0 ns then soft_block n nb ng ns (q_idxs_rev qp i) (q_d qp i) (t i) (z i) lamk (gs, d1) else (gs, d1)) as [g2 d2] eqn:ES.
  pose proof (cons_blocks_R n nb ng ns (q_idxb qp i) (q_DCt qp i) (q_idxs_rev qp i) (q_d qp i) (t i) (z i) lamk Hwf _ _ _ _ _ _ _ _ gs g2 d2 EI (eq_sym ES) Hgs1) as (C1 & C2 & C3).
  change (2 * nb + 2 * ng + 2 * ns)%nat with nc in C1, C2, C3. rewrite <- Env in *.
  change (G_co n nb ng ns (q_idxb qp i) (q_DCt qp i) (q_idxs_rev qp i)) with (G qp i) in C1, C2, C3.
  set (qq := if Nat.ltb 0 ns then _ else _).
  assert (Eq : qq = (g2, d2)).
  { unfold qq. unfold gs in *. destruct (Nat.ltb 0 ns) eqn:E.
    - rewrite ES. reflexivity.
    - injection ES as -> ->. reflexivity. }
  rewrite Eq. clear qq Eq. clearbody gs.
  set (d3 := if mc then VECMUL nc (q_mask qp i) 0 d2 0 d2 0 else d2).
  assert (Hd3 : forall c, (c < nc)%nat -> d3 c = kkt_d qp z t i c).
  { intros c Hc. unfold kkt_d, con. fold D nv. rewrite <- C3 by assumption. unfold d3. destruct mc.
    - unfold VECMUL. vn. reflexivity.
    - destruct Hmc as [|Hm]; [discriminate|]. rewrite Hm by assumption. lra. }
  set (m1 := VECMULACC nc (lam i) 0 (s_t sol i) 0 _ 0).
  assert (Hm1 : forall c, (c < nc)%nat -> m1 c = q_m qp i c + s_lam sol i c * t i c + lam i c * s_t sol i c).
  { intros c Hc. unfold m1, VECMULACC, VECCP. vn. reflexivity. }
  set (m2 := if mc then _ else m1).
  assert (Hm2 : forall c, (c < nc)%nat -> m2 c = lin_m qp sol stp i c).
  { intros c Hc. unfold lin_m, m2. destruct mc.
    - unfold VECMUL. vn. rewrite Hm1 by assumption. reflexivity.
    - rewrite Hm1 by assumption. destruct Hmc as [|Hm]; [discriminate|]. rewrite Hm by assumption. unfold lam, t. lra. }
  clearbody m2 d3.
  pose proof (kids_loop_R T qp z pi i g2 (r_b res) f0 Hpos Hinj) as HK. fold D n in HK.
  destruct (kids_loop T qp z pi i _) as [[g3 rb] gap3]. destruct HK as (K1 & K2 & K3 & K4 & _).
  cbn [fst r_g r_b r_d r_m].
  split; [|split; [|split; [|split; [|split]]]].
  - intros k Hk. rewrite upd_same. unfold tkkt_g. fold D n nv nc. destruct (Nat.ltb_spec k n) as [L|L].
    + rewrite K1, C1, Hgc, Hgb, HGl by assumption. destruct (Nat.ltb_spec k n); [|lia]. cbv zeta. lra.
    + rewrite K2 by assumption. rewrite C2, Hgs2 by lia. rewrite HGl, !Bool.andb_false_r. lra.
  - exact K3.
  - intros c Hc. rewrite upd_same. apply Hd3. assumption.
  - intros c Hc. rewrite upd_same. apply Hm2. assumption.
  - intros i' Hne. rewrite !upd_other by assumption. repeat split; reflexivity.
  - exact K4.
Qed.
End NodeLin.

(** ** the whole tree *)
Section Whole.
Variables (T : ttree) (qp : oqp R).
Let D := q_dim qp.
Hypothesis Hwf : qp_wf qp.
Hypothesis Ht : tree_ok (dN D + 1) T.
Lemma kid_pos i jj : (i <= dN D)%nat -> (jj < t_nk T i)%nat -> (0 < t_kid T i jj)%nat.
Proof. intros Hi Hj. destruct (proj1 Ht i jj ltac:(lia) Hj). lia. Qed.
Lemma kid_inj i a b : (i <= dN D)%nat -> (a < t_nk T i)%nat -> (b < t_nk T i)%nat -> t_kid T i a = t_kid T i b -> a = b.
Proof. intros Hi Ha Hb E. destruct Ht as (_ & _ & H). destruct (H i a i b ltac:(lia) Ha ltac:(lia) Hb E). assumption. Qed.
Lemma edge_other i jj i' : (i <= dN D)%nat -> (i' <= dN D)%nat -> (jj < t_nk T i)%nat -> i <> i' ->
  forall b, (b < t_nk T i')%nat -> (t_kid T i jj - 1)%nat <> (t_kid T i' b - 1)%nat.
Proof.
  intros Hi Hi' Hj Hne b Hb E. pose proof (kid_pos i jj Hi Hj). pose proof (kid_pos i' b Hi' Hb).
  destruct Ht as (_ & _ & H1). destruct (H1 i jj i' b ltac:(lia) Hj ltac:(lia) Hb ltac:(lia)). contradiction.
Qed.

Lemma tree_loop_R (sol : osol R) mc res0 ws0 : (mc = true \/ masks_one D (q_mask qp)) -> forall n, (n <= dN D + 1)%nat ->
  let r := fst (loop n (tree_node mc T qp sol) (res0, ws0)) in
  (forall i k, (i < n)%nat -> (k < nvt D i)%nat -> r_g r i k = node_g T qp sol i k) /\
  (forall i jj j, (i < n)%nat -> (jj < t_nk T i)%nat -> (j < dnx D (t_kid T i jj))%nat -> r_b r (t_kid T i jj - 1)%nat j = tdyn qp (s_ux sol) i (t_kid T i jj) j) /\
  (forall i c, (i < n)%nat -> (c < nct D i)%nat -> r_d r i c = kkt_d qp (s_ux sol) (s_t sol) i c) /\
  (forall i c, (i < n)%nat -> (c < nct D i)%nat -> r_m r i c = kkt_m qp (s_lam sol) (s_t sol) i c) /\
  r_obj r = r_obj res0 + rsum n (stage_cost qp (s_ux sol)) /\
  r_gap r = r_gap res0 + rsum n (node_gap T qp sol) /\
  r_mu_sum r = r_mu_sum res0 + rsum n (stage_mu qp sol) /\ r_mu r = r_mu res0.
Proof.
  intros Hmc. induction n as [|n IH]; intros Hn.
  - cbn [loop fst rsum]. repeat split; intros; try lia; try lra; reflexivity.
  - rewrite loop_S. specialize (IH ltac:(lia)). destruct (loop n _ _) as [res ws]. cbn [fst] in IH.
    destruct IH as (I1 & I2 & I3 & I4 & I5 & I6 & I7 & I8).
    assert (Hmn : mc = true \/ forall c, (c < nct (q_dim qp) n)%nat -> q_mask qp n c = 1).
    { destruct Hmc as [H|H]; [left; exact H|right; intros c Hc; apply H; [unfold D in *; lia|exact Hc]]. }
    pose proof (tree_node_R mc T qp sol n (Hwf n ltac:(unfold D in *; lia)) Hmn (fun jj => kid_pos n jj ltac:(lia)) (fun a b => kid_inj n a b ltac:(lia)) res ws) as S.
    cbv zeta in S |- *. destruct S as (S1 & S2 & S3 & S4 & S5 & S6 & S7 & S8 & S9 & S10). fold D in S1, S2, S3, S4.
    split; [|split; [|split; [|split; [|split; [|split; [|split]]]]]]; cbn [rsum].
    + intros i k Hi Hk. destruct (Nat.eq_dec i n) as [->|]; [apply S1; assumption|]. destruct (S9 i ltac:(assumption)) as (-> & _). apply I1; [lia|assumption].
    + intros i jj j Hi Hjj Hj. destruct (Nat.eq_dec i n) as [->|]; [apply S2; assumption|]. rewrite S10; [apply I2; [lia|assumption|assumption]|].
      intros b Hb. apply edge_other; auto; lia.
    + intros i k Hi Hk. destruct (Nat.eq_dec i n) as [->|]; [apply S3; assumption|]. destruct (S9 i ltac:(assumption)) as (_ & -> & _). apply I3; [lia|assumption].
    + intros i k Hi Hk. destruct (Nat.eq_dec i n) as [->|]; [apply S4; assumption|]. destruct (S9 i ltac:(assumption)) as (_ & _ & ->). apply I4; [lia|assumption].
    + rewrite S5, I5. lra.
    + rewrite S6, I6. lra.
    + rewrite S7, I7. lra.
    + rewrite S8, I8. reflexivity.
Qed.

Lemma tree_res_compute_R (sol : osol R) valid res0 ws0 : valid_ok valid qp ->
  let r := fst (tree_res_compute valid T qp sol res0 ws0) in
  (forall i k, (i <= dN D)%nat -> (k < nvt D i)%nat -> r_g r i k = node_g T qp sol i k) /\
  (forall i jj j, (i <= dN D)%nat -> (jj < t_nk T i)%nat -> (j < dnx D (t_kid T i jj))%nat -> r_b r (t_kid T i jj - 1)%nat j = tdyn qp (s_ux sol) i (t_kid T i jj) j) /\
  (forall i c, (i <= dN D)%nat -> (c < nct D i)%nat -> r_d r i c = kkt_d qp (s_ux sol) (s_t sol) i c) /\
  (forall i c, (i <= dN D)%nat -> (c < nct D i)%nat -> r_m r i c = kkt_m qp (s_lam sol) (s_t sol) i c) /\
  r_obj r = cost qp (s_ux sol) /\ r_gap r = rsum (dN D + 1) (node_gap T qp sol) /\
  r_mu_sum r = rsum (dN D + 1) (stage_mu qp sol) /\
  (valid = None -> let n := nsum (dN D + 1) (fun i => nsum (nct D i) (fun c => is1 (q_mask qp i c))) in
     r_mu r = if Nat.eqb n 0 then 0 else r_mu_sum r / INR n).
Proof.
  intros Hv. unfold tree_res_compute. fold D.
  set (mi := match valid with Some _ => _ | None => _ end).
  destruct mi as [mc inv] eqn:Em.
  assert (Hmc : mc = true \/ masks_one D (q_mask qp)).
  { destruct valid as [[mc' inv']|]; unfold mi in Em.
    - injection Em as -> ->. exact Hv.
    - pose proof (mask_count_R D (q_mask qp)) as [_ H2]. destruct (mask_count _ _) as [n b]. injection Em as -> _. cbn in H2.
      destruct mc; [left; reflexivity|right; apply H2; reflexivity]. }
  pose proof (tree_loop_R sol mc (mkres (r_g res0) (r_b res0) (r_d res0) (r_m res0) f0 f0 (r_mu res0) f0) ws0 Hmc (dN D + 1) (le_n _)) as H.
  cbv zeta in H. destruct (loop (dN D + 1) _ _) as [res ws]. cbn [fst r_g r_b r_d r_m r_obj r_gap r_mu r_mu_sum] in *.
  destruct H as (I1 & I2 & I3 & I4 & I5 & I6 & I7 & I8).
  rsimp. rewrite R_lit01 in *. rewrite Rplus_0_l in *.
  split; [|split; [|split; [|split; [|split; [|split; [|split]]]]]].
  - intros; apply I1; [lia|assumption].
  - intros; apply I2; [lia|assumption|assumption].
  - intros; apply I3; [lia|assumption].
  - intros; apply I4; [lia|assumption].
  - exact I5.
  - exact I6.
  - exact I7.
  - intros ->. unfold mi in Em. pose proof (mask_count_R D (q_mask qp)) as [H1 _]. destruct (mask_count _ _) as [n b]. injection Em as _ <-. cbn [fst] in H1.
    rewrite <- H1. destruct (Nat.ltb_spec 0 n) as [Hp|Hp].
    + destruct (Nat.eqb_spec n 0); [lia|]. unfold inv_count. rsimp. rewrite R_lit11. rewrite INR_IZR_INZ. unfold Rdiv. rewrite Rinv_1. rewrite !Rmult_1_r, Rmult_1_l. reflexivity.
    + destruct (Nat.eqb_spec n 0); [|lia]. rsimp. rewrite R_lit01. lra.
Qed.

Lemma treelin_compute_R (sol stp : osol R) valid res0 ws0 :
  (match valid with None => True | Some mc => mc = true \/ masks_one D (q_mask qp) end) ->
  let r := fst (treelin_compute valid T qp sol stp res0 ws0) in
  (forall i k, (i <= dN D)%nat -> (k < nvt D i)%nat -> r_g r i k = tkkt_g T qp (s_ux stp) (s_pi stp) (s_lam stp) i k) /\
  (forall i jj j, (i <= dN D)%nat -> (jj < t_nk T i)%nat -> (j < dnx D (t_kid T i jj))%nat -> r_b r (t_kid T i jj - 1)%nat j = tdyn qp (s_ux stp) i (t_kid T i jj) j) /\
  (forall i c, (i <= dN D)%nat -> (c < nct D i)%nat -> r_d r i c = kkt_d qp (s_ux stp) (s_t stp) i c) /\
  (forall i c, (i <= dN D)%nat -> (c < nct D i)%nat -> r_m r i c = lin_m qp sol stp i c).
Proof.
  intros Hv. unfold treelin_compute. fold D. set (mc := match valid with Some _ => _ | None => _ end).
  assert (Hmc : mc = true \/ masks_one D (q_mask qp)).
  { unfold mc. destruct valid as [b|]; [exact Hv|]. destruct (any_mask D (q_mask qp)) eqn:E; [left; reflexivity|right; apply any_mask_R; exact E]. }
  clearbody mc.
  enough (H : forall n, (n <= dN D + 1)%nat -> let r := fst (loop n (treelin_node mc T qp sol stp) (res0, ws0)) in
    (forall i k, (i < n)%nat -> (k < nvt D i)%nat -> r_g r i k = tkkt_g T qp (s_ux stp) (s_pi stp) (s_lam stp) i k) /\
    (forall i jj j, (i < n)%nat -> (jj < t_nk T i)%nat -> (j < dnx D (t_kid T i jj))%nat -> r_b r (t_kid T i jj - 1)%nat j = tdyn qp (s_ux stp) i (t_kid T i jj) j) /\
    (forall i c, (i < n)%nat -> (c < nct D i)%nat -> r_d r i c = kkt_d qp (s_ux stp) (s_t stp) i c) /\
    (forall i c, (i < n)%nat -> (c < nct D i)%nat -> r_m r i c = lin_m qp sol stp i c)).
  { destruct (H (dN D + 1)%nat (le_n _)) as (H1 & H2 & H3 & H4). cbv zeta.
    split; [|split; [|split]]; intros; [apply H1|apply H2|apply H3|apply H4]; try assumption; lia. }
  induction n as [|n IH]; intros Hn.
  - cbn [loop fst]. repeat split; intros; lia.
  - rewrite loop_S. specialize (IH ltac:(lia)). destruct (loop n _ _) as [res ws]. cbn [fst] in IH.
    destruct IH as (I1 & I2 & I3 & I4).
    assert (Hmn : mc = true \/ forall c, (c < nct (q_dim qp) n)%nat -> q_mask qp n c = 1).
    { destruct Hmc as [H|H]; [left; exact H|right; intros c Hc; apply H; [unfold D in *; lia|exact Hc]]. }
    pose proof (treelin_node_R mc T qp sol stp n (Hwf n ltac:(unfold D in *; lia)) Hmn (fun jj => kid_pos n jj ltac:(lia)) (fun a b => kid_inj n a b ltac:(lia)) res ws) as S.
    cbv zeta in S |- *. destruct S as (S1 & S2 & S3 & S4 & S9 & S10). fold D in S1, S2, S3, S4.
    split; [|split; [|split]].
    + intros i k Hi Hk. destruct (Nat.eq_dec i n) as [->|]; [apply S1; assumption|]. destruct (S9 i ltac:(assumption)) as (-> & _). apply I1; [lia|assumption].
    + intros i jj j Hi Hjj Hj. destruct (Nat.eq_dec i n) as [->|]; [apply S2; assumption|]. rewrite S10; [apply I2; [lia|assumption|assumption]|].
      intros b Hb. apply edge_other; auto; lia.
    + intros i k Hi Hk. destruct (Nat.eq_dec i n) as [->|]; [apply S3; assumption|]. destruct (S9 i ltac:(assumption)) as (_ & -> & _). apply I3; [lia|assumption].
    + intros i k Hi Hk. destruct (Nat.eq_dec i n) as [->|]; [apply S4; assumption|]. destruct (S9 i ltac:(assumption)) as (_ & _ & ->). apply I4; [lia|assumption].
Qed.

(** summing over the edges is summing over all nodes but the root *)
Lemma tree_sum (f : nat -> R) : rsum (dN D + 1) (fun i => rsum (t_nk T i) (fun jj => f (t_kid T i jj))) = rsum (dN D + 1) (fun k => if (0 <? k)%nat then f k else 0).
Proof.
  set (Nn := (dN D + 1)%nat) in *. destruct Ht as (H1 & H2 & H3).
  assert (A : forall k, (k < Nn)%nat -> rsum Nn (fun i => rsum (t_nk T i) (fun jj => if (t_kid T i jj =? k)%nat then f k else 0)) = if (0 <? k)%nat then f k else 0).
  { intros k Hk. destruct (Nat.ltb_spec 0 k) as [Hp|Hp].
    - destruct (H2 k ltac:(lia)) as (i0 & j0 & Hi0 & Hj0 & E0).
      etransitivity; [|exact (rsum_one Nn i0 (fun _ => f k) Hi0)]. apply rsum_ext. intros i Hi. destruct (Nat.eqb_spec i i0) as [->|Hne].
      + etransitivity; [|exact (rsum_one (t_nk T i0) j0 (fun _ => f k) Hj0)]. apply rsum_ext. intros jj Hjj.
        destruct (Nat.eqb_spec (t_kid T i0 jj) k) as [E|E], (Nat.eqb_spec jj j0) as [E'|E']; try reflexivity.
        * exfalso. apply E'. refine (proj2 (H3 i0 jj i0 j0 Hi Hjj Hi0 Hj0 _)). congruence.
        * exfalso. apply E. rewrite E'. exact E0.
      + apply rsum_0. intros jj Hjj. destruct (Nat.eqb_spec (t_kid T i jj) k) as [E|E]; [|reflexivity].
        exfalso. apply Hne. refine (proj1 (H3 i jj i0 j0 Hi Hjj Hi0 Hj0 _)). congruence.
    - apply rsum_0. intros i Hi. apply rsum_0. intros jj Hjj. destruct (Nat.eqb_spec (t_kid T i jj) k) as [E|E]; [|reflexivity].
      specialize (H1 i jj Hi Hjj). lia. }
  rewrite (rsum_ext Nn (fun k => if (0 <? k)%nat then f k else 0) (fun k => rsum Nn (fun i => rsum (t_nk T i) (fun jj => if (t_kid T i jj =? k)%nat then f k else 0)))) by (intros; symmetry; apply A; assumption).
  rewrite rsum_swap. apply rsum_ext. intros i Hi. rewrite rsum_swap. apply rsum_ext. intros jj Hjj.
  symmetry. apply rsum_one'. apply (H1 i jj Hi Hjj).
Qed.

(** ** duality *)
Section Dual.
Variables z pi lam : nat -> nat -> R.
Let N := dN D.
Let ml i c := q_mask qp i c * lam i c.
(** change of the dynamics defect in direction w *)
Definition tlin (w : nat -> nat -> R) (i k j : nat) : R := rsum (nux qp i) (fun r => q_BAbt qp (k - 1)%nat r j * w i r) - w k (dnu D k + j)%nat.
Lemma tkkt_g_dot (w : nat -> nat -> R) :
  dot2 (N + 1) (nvt D) (tkkt_g T qp z pi lam) w =
  rsum (N + 1) (fun i => rsum (nvt D i) (fun k => rsum (nvt D i) (fun l => Hess qp i k l * z i l) * w i k) + rsum (nvt D i) (fun k => q_rqz qp i k * w i k))
  + edges T qp (fun i k => rsum (dnx D k) (fun j => pi (k - 1)%nat j * tlin w i k j))
  - rsum (N + 1) (fun i => rsum (nct D i) (fun c => ml i c * con qp w i c)).
Proof.
  unfold dot2.
  set (T1 := fun i => rsum (nvt D i) (fun k => rsum (nvt D i) (fun l => Hess qp i k l * z i l) * w i k) + rsum (nvt D i) (fun k => q_rqz qp i k * w i k)).
  set (T2 := fun i => rsum (t_nk T i) (fun jj => rsum (dnx D (t_kid T i jj)) (fun j => pi (t_kid T i jj - 1)%nat j * rsum (nux qp i) (fun r => q_BAbt qp (t_kid T i jj - 1)%nat r j * w i r)))).
  set (T3 := fun i => if (0 <? i)%nat then rsum (dnx D i) (fun j => pi (i - 1)%nat j * w i (dnu D i + j)%nat) else 0).
  set (T4 := fun i => rsum (nct D i) (fun c => ml i c * con qp w i c)).
  assert (Hstage : forall i, rsum (nvt D i) (fun k => tkkt_g T qp z pi lam i k * w i k) = T1 i + T2 i - T3 i - T4 i).
  { intros i. unfold tkkt_g. fold D N. cbv zeta.
    rewrite (rsum_ext _ _ (fun k => rsum (nvt D i) (fun l => Hess qp i k l * z i l) * w i k + q_rqz qp i k * w i k
      + (if (k <? nux qp i)%nat then rsum (t_nk T i) (fun jj => rsum (dnx D (t_kid T i jj)) (fun j => q_BAbt qp (t_kid T i jj - 1)%nat k j * pi (t_kid T i jj - 1)%nat j)) else 0) * w i k
      - (if ((0 <? i) && (dnu D i <=? k) && (k <? nux qp i))%nat then pi (i - 1)%nat (k - dnu D i)%nat else 0) * w i k
      - rsum (nct D i) (fun c => G qp i c k * (q_mask qp i c * lam i c)) * w i k)) by (intros; lra).
    rewrite !rsum_sub, !rsum_add. fold (T1 i).
    assert (Env : nvt D i = (nux qp i + 2 * dns D i)%nat) by reflexivity.
    f_equal; [f_equal; [f_equal|]|].
    - unfold T2. rewrite Env, rsum_split. rewrite (rsum_0 (2 * dns D i)).
      2:{ intros k _. destruct (Nat.ltb_spec (nux qp i + k) (nux qp i)); [lia|lra]. }
      rewrite Rplus_0_r.
      rewrite (rsum_ext (nux qp i) _ (fun k => rsum (t_nk T i) (fun jj => rsum (dnx D (t_kid T i jj)) (fun j => pi (t_kid T i jj - 1)%nat j * (q_BAbt qp (t_kid T i jj - 1)%nat k j * w i k))))).
      2:{ intros k Hk. destruct (Nat.ltb_spec k (nux qp i)); [|lia]. rewrite <- rsum_scal_r. apply rsum_ext. intros jj _. rewrite <- rsum_scal_r. apply rsum_ext. intros; lra. }
      rewrite rsum_swap. apply rsum_ext. intros jj _. rewrite rsum_swap. apply rsum_ext. intros j _. rewrite rsum_scal. reflexivity.
    - unfold T3. destruct (0 <? i)%nat; cbn [andb].
      + rewrite Env. replace (nux qp i + 2 * dns D i)%nat with (dnu D i + dnx D i + 2 * dns D i)%nat by reflexivity.
        rewrite (rsum_split (dnu D i + dnx D i)), (rsum_split (dnu D i)). rewrite (rsum_0 (2 * dns D i)).
        2:{ intros k _. change (nux qp i) with (dnu D i + dnx D i)%nat. destruct (Nat.ltb_spec (dnu D i + dnx D i + k) (dnu D i + dnx D i)); [lia|]. rewrite andb_false_r. lra. }
        rewrite (rsum_0 (dnu D i)).
        2:{ intros k Hk. destruct (Nat.leb_spec (dnu D i) k); [lia|]. cbn [andb]. lra. }
        rewrite Rplus_0_l, Rplus_0_r. apply rsum_ext. intros j Hj. change (nux qp i) with (dnu D i + dnx D i)%nat.
        destruct (Nat.leb_spec (dnu D i) (dnu D i + j)); [|lia]. destruct (Nat.ltb_spec (dnu D i + j) (dnu D i + dnx D i)); [|lia]. cbn [andb].
        replace (dnu D i + j - dnu D i)%nat with j by lia. reflexivity.
      + rewrite rsum_0; [reflexivity|]. intros; lra.
    - unfold T4, con. fold D.
      rewrite (rsum_ext _ _ (fun k => rsum (nct D i) (fun c => ml i c * (G qp i c k * w i k)))).
      2:{ intros k Hk. rewrite <- rsum_scal_r. apply rsum_ext. intros; unfold ml; lra. }
      rewrite rsum_swap. apply rsum_ext. intros c _. rewrite rsum_scal. reflexivity. }
  rewrite (rsum_ext _ _ (fun i => T1 i + T2 i - T3 i - T4 i)) by (intros; apply Hstage).
  rewrite !rsum_sub, !rsum_add. fold T1 T4.
  assert (E3 : rsum (N + 1) T3 = edges T qp (fun _ k => rsum (dnx D k) (fun j => pi (k - 1)%nat j * w k (dnu D k + j)%nat))).
  { unfold edges. fold D N. symmetry. exact (tree_sum (fun k => rsum (dnx D k) (fun j => pi (k - 1)%nat j * w k (dnu D k + j)%nat))). }
  assert (E : edges T qp (fun i k => rsum (dnx D k) (fun j => pi (k - 1)%nat j * tlin w i k j)) = rsum (N + 1) T2 - rsum (N + 1) T3).
  { rewrite E3. unfold edges, T2. fold D N. rewrite <- rsum_sub. apply rsum_ext. intros i _. rewrite <- rsum_sub. apply rsum_ext. intros jj _.
    rewrite <- rsum_sub. apply rsum_ext. intros j _. unfold tlin. lra. }
  rewrite E. lra.
Qed.
Lemma tdyn_sub (y x : nat -> nat -> R) i k j : tdyn qp y i k j - tdyn qp x i k j = tlin (fun i k => y i k - x i k) i k j.
Proof.
  unfold tdyn, tlin. fold D. rewrite (rsum_ext _ (fun r => q_BAbt qp (k - 1)%nat r j * (y i r - x i r)) (fun r => q_BAbt qp (k - 1)%nat r j * y i r - q_BAbt qp (k - 1)%nat r j * x i r)) by (intros; lra).
  rewrite rsum_sub. lra.
Qed.
Lemma edges_add f g : edges T qp (fun i k => f i k + g i k) = edges T qp f + edges T qp g.
Proof. unfold edges. rewrite <- rsum_add. apply rsum_ext. intros i _. apply rsum_add. Qed.
Lemma edges_ext f g : (forall i jj, (i <= dN D)%nat -> (jj < t_nk T i)%nat -> f i (t_kid T i jj) = g i (t_kid T i jj)) -> edges T qp f = edges T qp g.
Proof. intros H. unfold edges. apply rsum_ext. intros i Hi. apply rsum_ext. intros jj Hj. apply H; [unfold D in *; lia|assumption]. Qed.

Lemma tlagr_expand (y : nat -> nat -> R) :
  tlagr T qp y pi lam = tlagr T qp z pi lam + dot2 (N + 1) (nvt D) (tkkt_g T qp z pi lam) (fun i k => y i k - z i k)
    + 1 / 2 * rsum (N + 1) (fun i => rsum (nvt D i) (fun k => rsum (nvt D i) (fun l => (y i k - z i k) * Hess qp i k l * (y i l - z i l)))).
Proof.
  rewrite tkkt_g_dot. unfold tlagr, cost. fold D N.
  assert (Hc : rsum (N + 1) (stage_cost qp y) = rsum (N + 1) (stage_cost qp z)
     + rsum (N + 1) (fun i => rsum (nvt D i) (fun k => rsum (nvt D i) (fun l => Hess qp i k l * z i l) * (y i k - z i k)) + rsum (nvt D i) (fun k => q_rqz qp i k * (y i k - z i k)))
     + 1 / 2 * rsum (N + 1) (fun i => rsum (nvt D i) (fun k => rsum (nvt D i) (fun l => (y i k - z i k) * Hess qp i k l * (y i l - z i l))))).
  { rewrite <- rsum_scal, <- !rsum_add. apply rsum_ext. intros i _. unfold stage_cost. fold D.
    rewrite (quad_expand (nvt D i) (Hess qp i) (z i) (y i)) by (intros; apply H_co_sym).
    rewrite (rsum_ext _ (fun k => q_rqz qp i k * (y i k - z i k)) (fun k => q_rqz qp i k * y i k - q_rqz qp i k * z i k)) by (intros; lra).
    rewrite rsum_sub. lra. }
  rewrite Hc.
  assert (Hd : edges T qp (fun i k => rsum (dnx D k) (fun j => pi (k - 1)%nat j * tdyn qp y i k j)) = edges T qp (fun i k => rsum (dnx D k) (fun j => pi (k - 1)%nat j * tdyn qp z i k j)) +
    edges T qp (fun i k => rsum (dnx D k) (fun j => pi (k - 1)%nat j * tlin (fun i k => y i k - z i k) i k j))).
  { rewrite <- edges_add. apply edges_ext. intros i jj _ _. rewrite <- rsum_add. apply rsum_ext. intros j _. rewrite <- tdyn_sub. lra. }
  rewrite Hd.
  assert (Hi : rsum (N + 1) (fun i => rsum (nct D i) (fun c => q_mask qp i c * lam i c * (con qp y i c - q_d qp i c))) =
    rsum (N + 1) (fun i => rsum (nct D i) (fun c => q_mask qp i c * lam i c * (con qp z i c - q_d qp i c))) +
    rsum (N + 1) (fun i => rsum (nct D i) (fun c => ml i c * con qp (fun i k => y i k - z i k) i c))).
  { rewrite <- rsum_add. apply rsum_ext. intros i _. rewrite <- rsum_add. apply rsum_ext. intros c _. rewrite con_sub. unfold ml. lra. }
  rewrite Hi. lra.
Qed.

Lemma tgap_identity t : cost qp z - (rsum (N + 1) (node_gap T qp (mksol z pi lam t)) + rsum (N + 1) (fun i => rsum (nct D i) (fun c => q_d qp i c * ((1 - q_mask qp i c) * lam i c))))
  = tlagr T qp z pi lam - dot2 (N + 1) (nvt D) (tkkt_g T qp z pi lam) z.
Proof.
  rewrite tkkt_g_dot. unfold tlagr. fold D N.
  assert (Hg : rsum (N + 1) (node_gap T qp (mksol z pi lam t)) + rsum (N + 1) (fun i => rsum (nct D i) (fun c => q_d qp i c * ((1 - q_mask qp i c) * lam i c))) =
    rsum (N + 1) (fun i => rsum (nvt D i) (fun k => rsum (nvt D i) (fun l => Hess qp i k l * z i l) * z i k) + rsum (nvt D i) (fun k => q_rqz qp i k * z i k))
    - rsum (N + 1) (fun i => rsum (nct D i) (fun c => q_d qp i c * ml i c)) - edges T qp (fun i k => rsum (dnx D k) (fun j => q_b qp (k - 1)%nat j * pi (k - 1)%nat j))).
  { unfold edges. fold D N. rewrite <- !rsum_sub, <- rsum_add. apply rsum_ext. intros i _. unfold node_gap. cbn [s_ux s_pi s_lam]. fold D N. unfold ml.
    assert (Eq : rsum (nvt D i) (fun k => rsum (nvt D i) (fun l => z i k * Hess qp i k l * z i l)) = rsum (nvt D i) (fun k => rsum (nvt D i) (fun l => Hess qp i k l * z i l) * z i k)).
    { apply rsum_ext. intros k _. rewrite <- rsum_scal_r. apply rsum_ext. intros; lra. }
    assert (Em : rsum (nct D i) (fun c => q_d qp i c * lam i c) = rsum (nct D i) (fun c => q_d qp i c * (q_mask qp i c * lam i c)) + rsum (nct D i) (fun c => q_d qp i c * ((1 - q_mask qp i c) * lam i c))).
    { rewrite <- rsum_add. apply rsum_ext. intros; lra. }
    rewrite Eq, Em. cbv zeta. lra. }
  rewrite Hg.
  assert (Hd : edges T qp (fun i k => rsum (dnx D k) (fun j => pi (k - 1)%nat j * tdyn qp z i k j)) =
    edges T qp (fun i k => rsum (dnx D k) (fun j => q_b qp (k - 1)%nat j * pi (k - 1)%nat j)) +
    edges T qp (fun i k => rsum (dnx D k) (fun j => pi (k - 1)%nat j * tlin z i k j))).
  { rewrite <- edges_add. apply edges_ext. intros i jj _ _. rewrite <- rsum_add. apply rsum_ext. intros j _. unfold tdyn, tlin. fold D. lra. }
  rewrite Hd.
  assert (Hi : rsum (N + 1) (fun i => rsum (nct D i) (fun c => q_mask qp i c * lam i c * (con qp z i c - q_d qp i c))) =
    rsum (N + 1) (fun i => rsum (nct D i) (fun c => ml i c * con qp z i c)) - rsum (N + 1) (fun i => rsum (nct D i) (fun c => q_d qp i c * ml i c))).
  { rewrite <- rsum_sub. apply rsum_ext. intros i _. rewrite <- rsum_sub. apply rsum_ext. intros c _. unfold ml. lra. }
  rewrite Hi. lra.
Qed.
Lemma tlagr_le_cost y : tfeasible T qp y -> mask01 qp -> (forall i c, (i <= N)%nat -> (c < nct D i)%nat -> q_mask qp i c <> 0 -> 0 <= lam i c) ->
  tlagr T qp y pi lam <= cost qp y.
Proof.
  intros [Hdyn Hcon] Hm Hlam. unfold tlagr, edges. fold D N. rewrite (rsum_0 (N + 1) (fun i => rsum (t_nk T i) _)).
  2:{ intros i Hi. apply rsum_0. intros jj Hjj. apply rsum_0. intros j Hj. rewrite Hdyn by (try assumption; unfold N, D in *; lia). lra. }
  assert (0 <= rsum (N + 1) (fun i => rsum (nct D i) (fun c => q_mask qp i c * lam i c * (con qp y i c - q_d qp i c)))); [|lra].
  apply rsum_nonneg. intros i Hi. apply rsum_nonneg. intros c Hc.
  destruct (Hm i c ltac:(unfold N, D in *; lia) Hc) as [E|E].
  - rewrite E. lra.
  - assert (H1 := Hcon i c ltac:(unfold N, D in *; lia) Hc ltac:(rewrite E; lra)).
    assert (H2 := Hlam i c ltac:(lia) Hc ltac:(rewrite E; lra)). rewrite E, Rmult_1_l. apply Rmult_le_pos; lra.
Qed.
End Dual.
End Whole.

Lemma tree_inf_norm_R D (res : ores R) : let '(a, b, c, e) := tree_inf_norm D res in
  max_abs (dN D + 1) (nvt D) (r_g res) a /\ max_abs (dN D) (fun i => dnx D (S i)) (r_b res) b /\
  max_abs (dN D + 1) (nct D) (r_d res) c /\ max_abs (dN D + 1) (nct D) (r_m res) e.
Proof.
  unfold tree_inf_norm. cbv zeta. replace (dN D + 1 - 1)%nat with (dN D) by lia.
  split; [apply norm_cat|]. split; [|split; apply norm_cat].
  assert (E2 : forall i, dnx D (i + 1) = dnx D (S i)) by (intros; f_equal; lia).
  pose proof (norm_cat (dN D) (fun i => dnx D (i + 1)) (r_b res)) as (A & B & C). split; [exact A|]. split.
  - intros i k Hi Hk. apply B; [exact Hi|rewrite E2; exact Hk].
  - destruct C as [C|(i & k & C1 & C2 & C3)]; [left; exact C|right; exists i, k; rewrite E2 in C2; repeat split; assumption].
Qed.
