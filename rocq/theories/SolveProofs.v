(** SolveProofs.v -- solution with a stored factorisation: the stages. *)
From Coq Require Import ZArith Bool Arith Lia Reals Lra.
From Verif Require Import Base ArithF RSum Blas Blas2 CoreModel CoreProofs OcpModel ResSpec KktSpec ResProofs CholProofs KktModel KktProofs KktProofs2 KktProofs3 KktProofs4 SolveModel.
Local Open Scope R_scope.

(** forward substitution with a lower trapezoidal matrix *)
Lemma trsv_lnn_R m n (A : rmat) (x z : rvec) : (n <= m)%nat -> (forall j, (j < n)%nat -> A j j <> 0) ->
  let z' := TRSV_LNN_MN m n A 0 0 x 0 z 0 in
  (forall i, (i < m)%nat -> x i = rsum n (fun k => z' k * lt A i k) + (if (i <? n)%nat then 0 else z' i)) /\
  (forall i, (m <= i)%nat -> z' i = z i).
Proof.
  intros Hn Hd. cbv zeta. unfold TRSV_LNN_MN. set (f := fun (i : nat) (z0 : nat -> R) => _).
  assert (H : forall t, (t <= n)%nat -> let z' := loop t f (VECCP m x 0 z 0) in
    (forall i, (i < t)%nat -> rsum (S i) (fun r => z' r * A i r) = x i) /\
    (forall i, (t <= i < m)%nat -> z' i = x i) /\ (forall i, (m <= i)%nat -> z' i = z i)).
  { induction t as [|t IH]; intros Ht; cbv zeta.
    - cbn [loop]. split; [intros; lia|]. unfold VECCP. split; intros i Hi; [rewrite vset0 by lia; reflexivity|apply vset_out; lia].
    - specialize (IH ltac:(lia)). cbv zeta in IH. cbn [loop]. set (zt := loop t f _) in *. destruct IH as (I1 & I2 & I3).
      unfold f. cbn [Nat.add]. rewrite fsum_R. rsimp. set (v := (zt t - _) * _).
      assert (Eo : forall i, i <> t -> upd zt t v i = zt i) by (intros; apply upd_other; auto).
      split; [|split].
      + intros i Hi. destruct (Nat.eq_dec i t) as [->|Hne].
        * assert (RS : forall g, rsum (S t) g = rsum t g + g t) by reflexivity. rewrite RS, upd_same.
          rewrite (rsum_ext t _ (fun r => A t r * zt r)) by (intros r Hr; rewrite Eo by lia; lra).
          unfold v. rewrite I2 by lia. rewrite R_lit11. field. apply Hd. lia.
        * rewrite <- (I1 i) by lia. apply rsum_ext. intros r Hr. rewrite Eo by lia. reflexivity.
      + intros i Hi. rewrite Eo by lia. apply I2. lia.
      + intros i Hi. rewrite Eo by lia. apply I3. lia. }
  specialize (H n (le_n _)). cbv zeta in H. set (z1 := loop n f _) in *. destruct H as (I1 & I2 & I3). clearbody z1. cbn [Nat.add].
  assert (Elow : forall i, (i < n)%nat -> vset z1 n (m - n) (fun i => (z1 (n + i)%nat - fsum n (fun r => (A (n + i)%nat r * z1 r)%F))%F) i = z1 i) by (intros; apply vset_out; lia).
  split.
  - intros i Hi. rewrite (rsum_ext n _ (fun k => z1 k * lt A i k)) by (intros k Hk; rewrite Elow by lia; reflexivity).
    destruct (Nat.ltb_spec i n) as [Hin|Hin].
    + rewrite <- I1 by assumption. rewrite Rplus_0_r. rewrite <- (rsum_low n i (fun r => z1 r * A i r)) by assumption. apply rsum_ext. intros k _. unfold lt. destruct (k <=? i)%nat; lra.
    + rewrite vset_in' by lia. replace (n + (i - n))%nat with i by lia. rewrite fsum_R. rsimp. rewrite I2 by lia.
      rewrite (rsum_ext n (fun k => z1 k * lt A i k) (fun r => A i r * z1 r)); [lra|]. intros k Hk. rewrite lt_in by lia. lra.
  - intros i Hi. rewrite vset_out by lia. apply I3. exact Hi.
Qed.

Section Slk.
Variables (n nb ng ns : nat) (reg : R) (sf : nat -> Z) (Z g Gamma gamma Zs : rvec).
Notation nbg := (nb + ng)%nat.
Hypothesis HZs : forall k, (k < 2 * ns)%nat -> Zs k = sl_inv nb ng ns reg sf Z Gamma k.
Notation rlo := (r_lo n nb ng ns reg sf Z g Gamma gamma).
Notation rup := (r_up n nb ng ns reg sf Z g Gamma gamma).
Lemma cond_slacks_solve_R tmp dux : (forall j, (j < nbg)%nat -> (sf j = -1 \/ 0 <= sf j < Z.of_nat ns)%Z) ->
  let '(tmp', dux') := cond_slacks_solve n nb ng ns sf g Gamma gamma Zs (tmp, dux) in
  (forall k, (k < 2 * ns)%nat -> dux' (n + k)%nat = sl_rhs n nb ng ns sf g gamma k) /\ (forall i, (i < n)%nat -> dux' i = dux i) /\
  (forall j, (j < nbg)%nat -> tmp' 1%nat j = T1 n nb ng ns reg sf Z g Gamma gamma j).
Proof.
  intros Hsf. unfold cond_slacks_solve.
  pose proof (two_map ns n (fun k _ => g (n + k)%nat + gamma (2 * nb + 2 * ng + k)%nat) dux ns (le_n _)) as HD. cbv beta zeta in HD.
  set (d1 := loop ns (fun idx dux => _) dux).
  match type of HD with context[loop ns ?f dux] => assert (E1 : d1 = loop ns f dux) end.
  { unfold d1. apply loop_ext. intros i v Hi. cbv beta. rsimp. rewrite !Nat.add_assoc. reflexivity. }
  rewrite <- E1 in HD. clearbody d1. clear E1. destruct HD as (HD & HDo).
  pose proof (scatter2 sf n (n + ns) gamma (fun i => gamma (nbg + i)%nat) nbg d1) as HD2.
  set (d2 := loop nbg _ d1) in *.
  match type of HD2 with forall k, ?l k = _ => change l with d2 in HD2 end || idtac.
  assert (VD : forall k, (k < 2 * ns)%nat -> d2 (n + k)%nat = sl_rhs n nb ng ns sf g gamma k).
  { intros k Hk. etransitivity; [apply HD2|]. rewrite HD by lia. unfold sl_rhs, softsum. f_equal. apply rsum_ext. intros j Hj.
    rewrite <- (soft_shift n sf 0 j k), <- (soft_shift n sf ns j k). cbn [Nat.add]. rewrite (Nat.add_comm ns n). reflexivity. }
  assert (VO : forall i, (i < n)%nat -> d2 i = dux i).
  { intros i Hi. etransitivity; [apply HD2|]. rewrite HDo by lia. rewrite (rsum_0 nbg); [lra|]. intros j Hj. unfold soft_co. destruct (Z.eqb (sf j) (-1)); [lra|].
    destruct (Nat.eqb_spec i (n + Z.to_nat (sf j))); [lia|]. destruct (Nat.eqb_spec i (n + ns + Z.to_nat (sf j))); [lia|]. lra. }
  clearbody d2.
  set (val := fun r j => match r with 2%nat => rlo j | _ => rup j end).
  assert (VT : forall p, (p <= nbg)%nat -> forall r j, (r = 2 \/ r = 3)%nat -> (j < p)%nat -> loop p (fun ii tmp =>
      let G0 := Gamma ii in let G1 := Gamma (nb + ng + ii)%nat in let g0 := gamma ii in let g1 := gamma (nb + ng + ii)%nat in
      if Z.eqb (sf ii) (-1) then upd (upd tmp 2%nat (upd (tmp 2%nat) ii g0)) 3%nat (upd (tmp 3%nat) ii g1)
      else
        let idx := Z.to_nat (sf ii) in
        upd (upd tmp 2%nat (upd (tmp 2%nat) ii (g0 - G0 * Zs idx * d2 (n + idx)%nat)))
                 3%nat (upd (tmp 3%nat) ii (g1 - G1 * Zs (ns + idx)%nat * d2 (n + ns + idx)%nat))) tmp r j = val r j).
  { induction p as [|p IH]; intros Hp r j Hr Hj; [lia|]. specialize (IH ltac:(lia)). cbn [loop].
    set (tp := loop p _ tmp) in *. cbv zeta.
    destruct (Nat.eq_dec j p) as [->|Hne].
    - destruct (Z.eqb_spec (sf p) (-1)) as [E|E].
      + destruct Hr as [-> | -> ]; unfold upd at 1; cbn [Nat.eqb]; unfold upd; cbn [Nat.eqb]; rewrite Nat.eqb_refl; unfold val, r_lo, r_up; rewrite E; reflexivity.
      + destruct (Hsf p ltac:(lia)) as [E'|Hs]; [contradiction|].
        rewrite (HZs (Z.to_nat (sf p))), (HZs (ns + Z.to_nat (sf p))%nat), VD by lia. replace (n + ns + Z.to_nat (sf p))%nat with (n + (ns + Z.to_nat (sf p)))%nat by lia. rewrite VD by lia.
        apply Z.eqb_neq in E.
        destruct Hr as [-> | -> ]; unfold upd at 1; cbn [Nat.eqb]; unfold upd; cbn [Nat.eqb]; rewrite Nat.eqb_refl; unfold val, r_lo, r_up, soft_at; rewrite E; reflexivity.
    - rewrite <- (IH r j) by (auto; lia). destruct (Z.eqb (sf p) (-1)); destruct Hr as [-> | -> ]; unfold upd; cbn [Nat.eqb]; destruct (Nat.eqb_spec j p); try contradiction; reflexivity. }
  specialize (VT nbg (le_n _)). cbv zeta in VT. rsimp.
  set (t4 := loop nbg _ tmp) in *.
  split; [exact VD|]. split; [exact VO|]. intros j Hj.
  rewrite upd_same. unfold AXPY. rewrite vset0 by assumption. cbn [Nat.add]. rsimp. rewrite !VT by (auto; lia). rewrite R_lit11. unfold T1, val. lra.
Qed.
End Slk.

Section Stage.
Variables (qp : oqp R) (reg : R) (Gam gam : nat -> rvec).
Notation D := (q_dim qp).
Notation N := (dN D).
Hypothesis Hwf : qp_wf qp.
Notation sthq := (sth qp reg Gam gam).

Lemma solve_rhs_R (Zs : rvec) ss tmp dux : (ss <= N)%nat -> (forall k, (k < 2 * dns D ss)%nat -> Zs k = Zq qp ss reg (Gam ss) k) ->
  let '(_, dux') := solve_rhs qp (Gam ss) (gam ss) Zs ss (tmp, dux) in
  (forall i, (i < nux qp ss)%nat -> dux' i = sthq ss i) /\ (forall k, (k < 2 * dns D ss)%nat -> dux' (nux qp ss + k)%nat = Rq qp ss (gam ss) k).
Proof.
  intros Hss HZ. destruct (Hwf ss Hss) as (Hib & Hsf). unfold solve_rhs. change (dnu D ss + dnx D ss)%nat with (nux qp ss).
  set (n := nux qp ss) in *. set (nb := dnb D ss) in *. set (ng := dng D ss) in *. set (ns := dns D ss) in *. set (sf := q_idxs_rev qp ss) in *.
  set (d0 := VECCP n (q_rqz qp ss) 0 dux 0). assert (E0 : forall i, (i < n)%nat -> d0 i = q_rqz qp ss i) by (intros i Hi; unfold d0, VECCP; rewrite vset0 by assumption; reflexivity).
  clearbody d0. set (s := if Nat.ltb 0 ns then _ else _).
  assert (X : let '(tmp1, d1) := s in (forall i, (i < n)%nat -> d1 i = q_rqz qp ss i) /\ (forall k, (k < 2 * ns)%nat -> d1 (n + k)%nat = Rq qp ss (gam ss) k) /\ (forall j, (j < nb + ng)%nat -> tmp1 1%nat j = T1q qp ss reg (Gam ss) (gam ss) j)).
  { unfold s. destruct (Nat.ltb_spec 0 ns) as [Hns|Hns].
    - pose proof (cond_slacks_solve_R n nb ng ns reg sf (q_Z qp ss) (q_rqz qp ss) (Gam ss) (gam ss) Zs HZ tmp d0 Hsf) as H.
      destruct (cond_slacks_solve _ _ _ _ _ _ _ _ _ _) as [t1 d1]. destruct H as (H1 & H2 & H3). split; [intros i Hi; rewrite H2 by assumption; apply E0; assumption|]. split; [exact H1|exact H3].
    - assert (Hm : forall c, (c < nb + ng)%nat -> Z.eqb (sf c) (-1) = true). { intros c Hc. apply Z.eqb_eq. destruct (Hsf c Hc); lia. }
      destruct (Nat.ltb_spec 0 (nb + ng)) as [Hb|Hb].
      + split; [exact E0|]. split; [intros; lia|]. intros j Hj. rewrite upd_same. unfold AXPY. rewrite vset0 by assumption. cbn [Nat.add]. rsimp. rewrite R_lit11.
        unfold T1q, T1, r_lo, r_up. fold nb ng ns sf. rewrite Hm by assumption. lra.
      + split; [exact E0|]. split; intros; lia. }
  destruct s as [tmp1 d1]. destruct X as (X1 & X2 & X3).
  set (d2 := if Nat.ltb 0 nb then _ else d1).
  assert (E2 : (forall i, (i < n)%nat -> d2 i = q_rqz qp ss i + rsum nb (fun c => rowq qp ss c i * T1q qp ss reg (Gam ss) (gam ss) c)) /\ (forall i, (n <= i)%nat -> d2 i = d1 i)).
  { assert (EV : forall i, d2 i = d1 i + rsum nb (fun c => if (q_idxb qp ss c =? i)%nat then tmp1 1%nat c else 0)).
    { intros i. unfold d2. destruct (Nat.ltb_spec 0 nb) as [Hb|Hb].
      - rewrite VECAD_SP_R. f_equal. apply rsum_ext. intros c Hc. cbn [Nat.add]. rsimp. rewrite R_lit11. destruct (q_idxb qp ss c =? i)%nat; cbn [Nat.add]; lra.
      - assert (nb = 0%nat) as -> by lia. cbn [rsum]. lra. }
    split; intros i Hi; rewrite EV.
    - rewrite X1 by assumption. f_equal. apply rsum_ext. intros c Hc. rewrite (rowq_b qp ss c i) by exact Hc. rewrite X3 by lia. destruct (q_idxb qp ss c =? i)%nat; lra.
    - rewrite rsum_0; [lra|]. intros c Hc. destruct (Nat.eqb_spec (q_idxb qp ss c) i); [|reflexivity]. specialize (Hib c Hc). unfold n in Hi. lia. }
  clearbody d2. destruct E2 as (E2 & E2').
  set (d3 := if Nat.ltb 0 ng then _ else d2).
  assert (E3 : (forall i, (i < n)%nat -> d3 i = sthq ss i) /\ (forall i, (n <= i)%nat -> d3 i = d2 i)).
  { unfold d3. destruct (Nat.ltb_spec 0 ng) as [Hg|Hg].
    - split; intros i Hi; unfold GEMV_N; [|apply vset_out; lia]. rewrite vset0 by assumption. cbn [Nat.add]. rewrite fsum_R. rsimp. rewrite R_lit11, !Rmult_1_l. rewrite E2 by assumption.
      rewrite sth_split. f_equal. unfold gpart1. apply rsum_ext. intros l Hl. fold nb. rewrite X3 by (fold ng in Hl; lia). lra.
    - split; [|reflexivity]. intros i Hi. rewrite E2 by assumption. rewrite sth_split. unfold gpart1. fold ng. assert (ng = 0%nat) as -> by lia. cbn [rsum]. fold nb. lra. }
  destruct E3 as (E3 & E3'). split; [exact E3|]. intros k Hk. rewrite E3', E2' by lia. apply X2. exact Hk.
Qed.
End Stage.
