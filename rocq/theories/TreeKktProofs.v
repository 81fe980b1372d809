(** TreeKktProofs.v -- the Riccati factorisation of a tree OCP QP over the real numbers. *)
From Coq Require Import ZArith Bool Arith Lia Reals Lra.
From Verif Require Import Base ArithF RSum Blas Blas2 CoreModel CoreProofs OcpModel ResSpec KktSpec ResProofs CholProofs CholPD KktModel KktProofs KktProofs2 KktProofs3 KktProofs4 KktProofs7
  SolveModel SolveProofs SolveProofs2 TreeModel TreeSpec TreeProofs TreeKktModel.
Local Open Scope R_scope.

(** ** one edge *)
Section Edge.
Variables (n nu1 nx1 : nat) (BA : rmat) (b : rvec) (L1 AL : rmat) (tx Pb : rvec).
Definition ed0 : rmat := TRMM_RLNN (n + 1) nx1 f1 L1 nu1 nu1 (ROWIN nx1 f1 b 0 (GECP n nx1 BA 0 0 AL 0 0) n 0) 0 0 (ROWIN nx1 f1 b 0 (GECP n nx1 BA 0 0 AL 0 0) n 0) 0 0.
Definition ed1 : rmat := GEAD 1 nx1 f1 L1 (nu1 + nx1) nu1 ed0 n 0.
Definition edp : rvec := TRMV_LNN nx1 L1 nu1 nu1 (ROWEX nx1 f1 ed0 n 0 tx 0) 0 Pb 0.
Notation P := (VPs L1 nu1 nx1).
Notation p := (vps L1 nu1 nx1).

Lemma ed0_R : (forall i l, (i < n)%nat -> (l < nx1)%nat -> ed0 i l = rsum nx1 (fun k => BA i k * lt L1 (nu1 + k) (nu1 + l))) /\
  (forall l, (l < nx1)%nat -> ed0 n l = rsum nx1 (fun k => b k * lt L1 (nu1 + k) (nu1 + l))).
Proof.
  set (BB := ROWIN nx1 f1 b 0 (GECP n nx1 BA 0 0 AL 0 0) n 0).
  assert (HB1 : forall i l, (i < n)%nat -> (l < nx1)%nat -> BB i l = BA i l).
  { intros i l Hi Hl. unfold BB, ROWIN. rewrite mblk_o by lia. unfold GECP. rewrite mblk_i by lia. cbn [Nat.add]. rewrite !Nat.sub_0_r. reflexivity. }
  assert (HB2 : forall l, (l < nx1)%nat -> BB n l = b l).
  { intros l Hl. unfold BB, ROWIN. rewrite mblk_i by lia. cbn [Nat.add]. rewrite Nat.sub_0_r. rsimp. rewrite R_lit11. lra. }
  assert (H0 : forall i l, (i <= n)%nat -> (l < nx1)%nat -> ed0 i l = rsum nx1 (fun k => BB i k * lt L1 (nu1 + k) (nu1 + l))).
  { intros i l Hi Hl. unfold ed0. fold BB. unfold TRMM_RLNN. rewrite mblk_i by lia. rewrite !Nat.sub_0_r, fsum_R. cbn [Nat.add]. rsimp. rewrite R_lit11, Rmult_1_l.
    rewrite <- (rsum_high nx1 l (fun k => BB i k * L1 (nu1 + k)%nat (nu1 + l)%nat)) by lia. apply rsum_ext. intros k Hk. unfold lt.
    destruct (Nat.leb_spec l k), (Nat.leb_spec (nu1 + l) (nu1 + k)); try lia; lra. }
  split.
  - intros i l Hi Hl. rewrite H0 by lia. apply rsum_ext. intros k Hk. rewrite HB1 by assumption. reflexivity.
  - intros l Hl. rewrite H0 by lia. apply rsum_ext. intros k Hk. rewrite HB2 by assumption. reflexivity.
Qed.
Lemma ed1_R : (forall i l, (i < n)%nat -> (l < nx1)%nat -> ed1 i l = rsum nx1 (fun k => BA i k * lt L1 (nu1 + k) (nu1 + l))) /\
  (forall l, (l < nx1)%nat -> ed1 n l = rsum nx1 (fun k => b k * lt L1 (nu1 + k) (nu1 + l)) + L1 (nu1 + nx1)%nat (nu1 + l)%nat).
Proof.
  destruct ed0_R as (H0 & H1). split.
  - intros i l Hi Hl. unfold ed1, GEAD. rewrite mblk_o by lia. apply H0; assumption.
  - intros l Hl. unfold ed1, GEAD. rewrite mblk_i by lia. replace (n + (n - n))%nat with n by lia. replace (nu1 + nx1 + (n - n))%nat with (nu1 + nx1)%nat by lia. rewrite !Nat.sub_0_r. cbn [Nat.add].
    rewrite H1 by lia. rsimp. rewrite R_lit11, Rmult_1_l. reflexivity.
Qed.
Lemma ed_Q1 i j : (i < n)%nat -> (j < n)%nat -> rsum nx1 (fun l => ed1 i l * ed1 j l) = rsum nx1 (fun l => rsum nx1 (fun m => BA i l * P l m * BA j m)).
Proof.
  intros Hi Hj. destruct ed1_R as (H1 & _).
  rewrite (rsum_ext nx1 _ (fun l => rsum nx1 (fun k => BA i k * lt L1 (nu1 + k) (nu1 + l)) * rsum nx1 (fun m => BA j m * lt L1 (nu1 + m) (nu1 + l)))).
  2:{ intros l Hl. rewrite !H1 by assumption. reflexivity. }
  exact (quad_factor nx1 nx1 (BA i) (BA j) (fun k l => lt L1 (nu1 + k) (nu1 + l))).
Qed.
Lemma ed_Q2 j : (j < n)%nat -> rsum nx1 (fun l => ed1 n l * ed1 j l) = rsum nx1 (fun l => BA j l * (rsum nx1 (fun m => P l m * b m) + p l)).
Proof.
  intros Hj. destruct ed1_R as (H1 & H2).
  rewrite (rsum_ext nx1 _ (fun l => rsum nx1 (fun k => b k * lt L1 (nu1 + k) (nu1 + l)) * rsum nx1 (fun m => BA j m * lt L1 (nu1 + m) (nu1 + l)) + L1 (nu1 + nx1)%nat (nu1 + l)%nat * rsum nx1 (fun m => BA j m * lt L1 (nu1 + m) (nu1 + l)))).
  2:{ intros l Hl. rewrite H2, (H1 j) by assumption. lra. }
  rewrite rsum_add. rewrite (quad_factor nx1 nx1 b (BA j) (fun k l => lt L1 (nu1 + k) (nu1 + l))).
  rewrite (rsum_ext nx1 (fun l => L1 _ _ * _) (fun l => rsum nx1 (fun m => BA j m * (L1 (nu1 + nx1)%nat (nu1 + l)%nat * lt L1 (nu1 + m) (nu1 + l))))).
  2:{ intros l _. rewrite <- rsum_scal. apply rsum_ext. intros; lra. }
  rewrite (rsum_swap nx1 nx1 (fun l m => BA j m * (L1 (nu1 + nx1)%nat (nu1 + l)%nat * lt L1 (nu1 + m) (nu1 + l)))).
  rewrite rsum_swap. rewrite <- rsum_add. apply rsum_ext. intros m Hm. rewrite rsum_scal. fold (vps L1 nu1 nx1 m).
  rewrite Rmult_plus_distr_l. f_equal. rewrite <- rsum_scal. apply rsum_ext. intros k Hk. rewrite (VPs_sym L1 nu1 nx1 m k). unfold VPs. cbv beta. ring.
Qed.
Lemma edp_R j : (j < nx1)%nat -> edp j = rsum nx1 (fun m => P j m * b m).
Proof.
  intros Hj. destruct ed0_R as (_ & H0). unfold edp. set (v := ROWEX _ _ _ _ _ _ _).
  assert (Hv : forall l, (l < nx1)%nat -> v l = rsum nx1 (fun k => b k * lt L1 (nu1 + k) (nu1 + l))).
  { intros l Hl. unfold v, ROWEX. rewrite vset0 by assumption. cbn [Nat.add]. rewrite H0 by assumption. rsimp. lra. }
  clearbody v. unfold TRMV_LNN. rewrite vset0 by assumption. rewrite fsum_R. cbn [Nat.add]. rsimp.
  rewrite <- (rsum_low nx1 j (fun k => L1 (nu1 + j)%nat (nu1 + k)%nat * v k)) by assumption.
  rewrite (rsum_ext nx1 _ (fun k => rsum nx1 (fun m => lt L1 (nu1 + j) (nu1 + k) * lt L1 (nu1 + m) (nu1 + k) * b m))).
  2:{ intros k Hk. unfold lt at 1. destruct (Nat.leb_spec k j), (Nat.leb_spec (nu1 + k) (nu1 + j)); try lia.
      - rewrite Hv by assumption. rewrite <- rsum_scal. apply rsum_ext. intros; lra.
      - rewrite (rsum_0 nx1) by (intros; lra). reflexivity. }
  rewrite rsum_swap. apply rsum_ext. intros m Hm. rewrite rsum_scal_r. reflexivity.
Qed.
End Edge.

Section TK.
Variables (T : ttree) (qp : oqp R) (reg : R) (Gam gam : nat -> rvec).
Notation D := (q_dim qp).
Notation N := (dN D).
Hypothesis Hwf : qp_wf qp.
Hypothesis HT : tree_ok (N + 1) T.
Notation Gs ss := (Gam ss).
Notation T0s ss := (T0q qp ss reg (Gam ss)).
Notation T1s ss := (T1q qp ss reg (Gam ss) (gam ss)).
Notation Pk LL k := (VPs (LL k) (dnu D k) (dnx D k)).
Notation stHt := (stH qp reg Gam (fun _ => reg)).
Notation stht := (sth qp reg Gam gam).

(** contribution of the kids of node i to its matrix and to its gradient (value functions of the kids, composed with the dynamics) *)
Definition kX (LL : nat -> rmat) (i r c : nat) : R := rsum (t_nk T i) (fun jj => let k := t_kid T i jj in
  rsum (dnx D k) (fun l => rsum (dnx D k) (fun m => q_BAbt qp (k - 1)%nat r l * Pk LL k l m * q_BAbt qp (k - 1)%nat c m))).
Definition kx (LL : nat -> rmat) (p : nat -> rvec) (i r : nat) : R := rsum (t_nk T i) (fun jj => let k := t_kid T i jj in
  rsum (dnx D k) (fun l => q_BAbt qp (k - 1)%nat r l * (rsum (dnx D k) (fun m => Pk LL k l m * q_b qp (k - 1)%nat m) + p k l))).
Definition pvec (LL : nat -> rmat) (k : nat) : rvec := vps (LL k) (dnu D k) (dnx D k).

Lemma kX_sym LL i r c : kX LL i r c = kX LL i c r.
Proof.
  unfold kX. apply rsum_ext. intros jj _. cbv zeta. rewrite rsum_swap. apply rsum_ext. intros l _. apply rsum_ext. intros m _. rewrite VPs_sym. lra.
Qed.
Lemma kX_ext LL LL' i r c : (i <= N)%nat -> (forall k, (i < k)%nat -> LL k = LL' k) -> kX LL i r c = kX LL' i r c.
Proof. intros Hi H. unfold kX. apply rsum_ext. intros jj Hjj. cbv zeta. rewrite (H (t_kid T i jj)); [reflexivity|]. apply (proj1 HT i jj); [lia|exact Hjj]. Qed.
Lemma kx_ext LL LL' p p' i r : (i <= N)%nat -> (forall k, (i < k)%nat -> LL k = LL' k) ->
  (forall jj l, (jj < t_nk T i)%nat -> (l < dnx D (t_kid T i jj))%nat -> p (t_kid T i jj) l = p' (t_kid T i jj) l) -> kx LL p i r = kx LL' p' i r.
Proof.
  intros Hi H Hp. unfold kx. apply rsum_ext. intros jj Hjj. cbv zeta. rewrite (H (t_kid T i jj)) by (apply (proj1 HT i jj); [lia|exact Hjj]).
  apply rsum_ext. intros l Hl. rewrite Hp by assumption. reflexivity.
Qed.
Lemma kX_psd LL i n : PSD n (kX LL i).
Proof.
  intros v. unfold kX. induction (t_nk T i) as [|p IH].
  - cbn [rsum]. unfold quadf. apply rsum_nonneg. intros. apply rsum_nonneg. intros; lra.
  - cbn [rsum]. rewrite (quadf_add n (fun i0 j => rsum p _) (fun i0 j => _)). apply Rplus_le_le_0_compat; [exact IH|]. cbv zeta. rewrite quadf_congr. apply VPs_psd.
Qed.

Lemma kids_fact_R LL i L AL tx Pb : (i <= N)%nat -> let n := nux qp i in
  let '(L', _, _, Pb') := kids_fact T qp LL i (L, AL, tx, Pb) in
  (forall r c, (c <= r < n)%nat -> L' r c = L r c + kX LL i r c) /\
  (forall c, (c < n)%nat -> L' n c = L n c + kx LL (pvec LL) i c) /\
  (forall jj j, (jj < t_nk T i)%nat -> let k := t_kid T i jj in (j < dnx D k)%nat -> Pb' (k - 1)%nat j = rsum (dnx D k) (fun m => Pk LL k j m * q_b qp (k - 1)%nat m)) /\
  (forall e, (forall jj, (jj < t_nk T i)%nat -> e <> (t_kid T i jj - 1)%nat) -> Pb' e = Pb e).
Proof.
  intros Hi. cbv zeta. unfold kids_fact, kX, kx. change (dnu D i + dnx D i)%nat with (nux qp i). set (n := nux qp i).
  set (f := fun (jj : nat) '((L, AL, tx, Pb) : rmat * rmat * rvec * (nat -> rvec)) => _).
  assert (G : forall p, (p <= t_nk T i)%nat -> let '(L', _, _, Pb') := loop p f (L, AL, tx, Pb) in
    (forall r c, (c <= r < n)%nat -> L' r c = L r c + rsum p (fun jj => let k := t_kid T i jj in
       rsum (dnx D k) (fun l => rsum (dnx D k) (fun m => q_BAbt qp (k - 1)%nat r l * Pk LL k l m * q_BAbt qp (k - 1)%nat c m)))) /\
    (forall c, (c < n)%nat -> L' n c = L n c + rsum p (fun jj => let k := t_kid T i jj in
       rsum (dnx D k) (fun l => q_BAbt qp (k - 1)%nat c l * (rsum (dnx D k) (fun m => Pk LL k l m * q_b qp (k - 1)%nat m) + pvec LL k l)))) /\
    (forall jj j, (jj < p)%nat -> let k := t_kid T i jj in (j < dnx D k)%nat -> Pb' (k - 1)%nat j = rsum (dnx D k) (fun m => Pk LL k j m * q_b qp (k - 1)%nat m)) /\
    (forall e, (forall jj, (jj < p)%nat -> e <> (t_kid T i jj - 1)%nat) -> Pb' e = Pb e)).
  { induction p as [|p IH]; intros Hp.
    - cbn [loop]. split; [intros; cbn [rsum]; lra|]. split; [intros; cbn [rsum]; lra|]. split; [intros; lia|reflexivity].
    - specialize (IH ltac:(lia)). cbn [loop]. destruct (loop p f (L, AL, tx, Pb)) as [[[La ALa] txa] Pba]. destruct IH as (I1 & I2 & I3 & I4).
      unfold f at 1. set (k := t_kid T i p). set (nu1 := dnu D k). set (nx1 := dnx D k). set (BA := q_BAbt qp (k - 1)%nat). set (b := q_b qp (k - 1)%nat).
      change (TRMM_RLNN (n + 1) nx1 f1 (LL k) nu1 nu1 (ROWIN nx1 f1 b 0 (GECP n nx1 BA 0 0 ALa 0 0) n 0) 0 0 (ROWIN nx1 f1 b 0 (GECP n nx1 BA 0 0 ALa 0 0) n 0) 0 0)
        with (ed0 n nu1 nx1 BA b (LL k) ALa).
      change (GEAD 1 nx1 f1 (LL k) (nu1 + nx1) nu1 (ed0 n nu1 nx1 BA b (LL k) ALa) n 0) with (ed1 n nu1 nx1 BA b (LL k) ALa).
      change (TRMV_LNN nx1 (LL k) nu1 nu1 (ROWEX nx1 f1 (ed0 n nu1 nx1 BA b (LL k) ALa) n 0 txa 0) 0 (Pba (k - 1)%nat) 0) with (edp n nu1 nx1 BA b (LL k) ALa txa (Pba (k - 1)%nat)).
      split; [|split; [|split]].
      + intros r c Hrc. rewrite SYRK_R by lia. cbn [Nat.add]. rsimp. rewrite R_lit11, !Rmult_1_l. rewrite I1 by assumption. cbn [rsum]. cbv zeta. fold k. rewrite ed_Q1 by lia. unfold nu1, nx1, BA. lra.
      + intros c Hc. rewrite SYRK_R by lia. cbn [Nat.add]. rsimp. rewrite R_lit11, !Rmult_1_l. rewrite I2 by assumption. cbn [rsum]. cbv zeta. fold k. rewrite ed_Q2 by lia. unfold nu1, nx1, BA, b, pvec. lra.
      + intros jj j Hjj. cbv zeta. intros Hj. destruct (Nat.eq_dec jj p) as [->|Hne].
        * fold k in Hj |- *. rewrite upd_same. apply edp_R. exact Hj.
        * rewrite upd_other; [apply I3; [lia|exact Hj]|]. intros E. apply Hne. pose proof (kid_pos T qp HT i jj Hi ltac:(lia)). pose proof (kid_pos T qp HT i p Hi ltac:(lia)).
          apply (kid_inj T qp HT i jj p Hi); [lia|lia|]. unfold k in E. lia.
      + intros e He. rewrite upd_other by (apply He; lia). apply I4. intros jj Hjj. apply He. lia. }
  apply (G (t_nk T i) (le_n _)).
Qed.

Lemma node_cons_R ss L tmp Zs dux : (ss <= N)%nat -> let n := nux qp ss in let nb := dnb D ss in
  let '(L', (tmp', Zs', dux')) := node_cons reg qp (Gam ss) (gam ss) ss L (tmp, Zs, dux) in
  (forall i j, (j <= i < n)%nat -> L' i j = L i j + rsum nb (fun c => rowq qp ss c i * T0s ss c * rowq qp ss c j)) /\
  (forall j, (j < n)%nat -> L' n j = L n j + rsum nb (fun c => rowq qp ss c j * T1s ss c)) /\
  (forall c, (c < nb + dng D ss)%nat -> tmp' 0%nat c = T0s ss c /\ tmp' 1%nat c = T1s ss c) /\
  (forall k, (k < 2 * dns D ss)%nat -> Zs' k = Zq qp ss reg (Gam ss) k /\ dux' (n + k)%nat = Rq qp ss (gam ss) k).
Proof.
  intros Hss. cbv zeta. destruct (Hwf ss Hss) as (Hib & Hsf). unfold node_cons. change (dnu D ss + dnx D ss)%nat with (nux qp ss).
  set (n := nux qp ss) in *. set (nb := dnb D ss) in *. set (ng := dng D ss) in *. set (ns := dns D ss) in *.
  set (r := if Nat.ltb 0 ns then _ else _).
  assert (Hr : let '(tmp', Zs', dux') := r in
    (forall c, (c < nb + ng)%nat -> tmp' 0%nat c = T0s ss c /\ tmp' 1%nat c = T1s ss c) /\
    (forall k, (k < 2 * ns)%nat -> Zs' k = Zq qp ss reg (Gam ss) k /\ dux' (n + k)%nat = Rq qp ss (gam ss) k)).
  { unfold r. destruct (Nat.ltb_spec 0 ns) as [Hns|Hns].
    - pose proof (cond_slacks_R n nb ng ns reg (q_idxs_rev qp ss) (q_Z qp ss) (q_rqz qp ss) (Gam ss) (gam ss) tmp Zs dux Hsf) as H.
      destruct (cond_slacks _ _ _ _ _ _ _ _ _ _ _) as [[tmp' Zs'] dux']. destruct H as (H1 & H2 & H3). split; [exact H3|]. intros k Hk. split; [apply H1|apply H2]; exact Hk.
    - assert (Hm : forall c, (c < nb + ng)%nat -> Z.eqb (q_idxs_rev qp ss c) (-1) = true). { intros c Hc. apply Z.eqb_eq. destruct (Hsf c Hc); lia. }
      assert (HTT : forall c, (c < nb + ng)%nat -> T0s ss c = (Gam ss) c + (Gam ss) (nb + ng + c)%nat /\ T1s ss c = (gam ss) c - (gam ss) (nb + ng + c)%nat).
      { intros c Hc. unfold T0q, T1q, T0, T1, w_lo, w_up, r_lo, r_up. rewrite Hm by assumption. split; reflexivity. }
      destruct (Nat.ltb_spec 0 (nb + ng)) as [Hbg|Hbg].
      + split; [|intros; lia]. intros c Hc. destruct (HTT c Hc) as (E0 & E1). rewrite E0, E1. split.
        * unfold upd at 1. cbn [Nat.eqb]. rewrite upd_same. unfold AXPY. rewrite vset0 by assumption. cbn [Nat.add]. rsimp. rewrite R_lit11. lra.
        * rewrite upd_same. unfold AXPY. rewrite vset0 by assumption. cbn [Nat.add]. rsimp. rewrite R_lit11. lra.
      + split; intros; lia. }
  destruct r as [[tmp' Zs'] dux']. destruct Hr as (HTT & HZ).
  destruct (Nat.ltb_spec 0 nb) as [Hnb|Hnb]; (split; [|split; [|split; assumption]]).
  - intros i j Hij. rewrite ROWAD_SP_R, DIAAD_SP_R. destruct (Nat.eqb_spec i n); [lia|]. rewrite Rplus_0_r. f_equal.
    destruct (Nat.eqb_spec i j) as [->|Hne].
    + apply rsum_ext. intros c Hc. rewrite !rowq_b by assumption. destruct (HTT c ltac:(lia)) as (E & _). cbn [Nat.add]. rewrite E. rsimp. rewrite R_lit11. destruct (q_idxb qp ss c =? j)%nat; lra.
    + symmetry. apply rsum_0. intros c Hc. rewrite !rowq_b by assumption. destruct (Nat.eqb_spec (q_idxb qp ss c) i), (Nat.eqb_spec (q_idxb qp ss c) j); try lra. lia.
  - intros j Hj. rewrite ROWAD_SP_R, DIAAD_SP_R. rewrite Nat.eqb_refl. destruct (Nat.eqb_spec n j); [lia|]. rewrite Rplus_0_r. f_equal.
    apply rsum_ext. intros c Hc. rewrite rowq_b by assumption. destruct (HTT c ltac:(lia)) as (_ & E). cbn [Nat.add]. rewrite E. rsimp. rewrite R_lit11. destruct (q_idxb qp ss c =? j)%nat; lra.
  - intros i j Hij. assert (E : nb = 0%nat) by lia. rewrite E. cbn [rsum]. lra.
  - intros j Hj. assert (E : nb = 0%nat) by lia. rewrite E. cbn [rsum]. lra.
Qed.

(** node i of the workspace: factorised matrix, transformed gradient, slack data *)
Definition nd_lhs (w : kws R) (i : nat) : Prop :=
  (forall r c, (r < nux qp i)%nat -> (c < nux qp i)%nat -> stHt i r c + kX (k_L w) i r c = rsum (nux qp i) (fun k => lt (k_L w i) r k * lt (k_L w i) c k)) /\
  (forall k, (k < nux qp i)%nat -> 0 < k_L w i k k) /\
  (forall k, (k < 2 * dns D i)%nat -> k_Zs w i k = Zq qp i reg (Gam i) k).
Definition nd_rhs (w : kws R) (i : nat) : Prop :=
  (forall r, (r < nux qp i)%nat -> stht i r + kx (k_L w) (pvec (k_L w)) i r = rsum (nux qp i) (fun k => k_L w i (nux qp i) k * lt (k_L w i) r k)) /\
  (forall k, (k < 2 * dns D i)%nat -> k_ux w i (nux qp i + k)%nat = Rq qp i (gam i) k).
Definition nd_Pb (w : kws R) (i : nat) : Prop :=
  forall jj j, (jj < t_nk T i)%nat -> let k := t_kid T i jj in (j < dnx D k)%nat -> k_Pb w (k - 1)%nat j = rsum (dnx D k) (fun m => Pk (k_L w) k j m * q_b qp (k - 1)%nat m).

Hypothesis Hpd : forall i, (i <= N)%nat -> PD (nux qp i) (stHt i).

Lemma tfact_node_R i w : (i <= N)%nat -> let w' := tfact_node reg T qp Gam gam i w in
  nd_lhs w' i /\ nd_rhs w' i /\ nd_Pb w' i /\
  (forall j, j <> i -> k_L w' j = k_L w j /\ k_Zs w' j = k_Zs w j /\ k_ux w' j = k_ux w j) /\
  (forall e, (forall jj, (jj < t_nk T i)%nat -> e <> (t_kid T i jj - 1)%nat) -> k_Pb w' e = k_Pb w e).
Proof.
  intros Hi. cbv zeta. unfold tfact_node. change (dnu D i + dnx D i)%nat with (nux qp i).
  set (n := nux qp i) in *. set (nb := dnb D i) in *. set (ng := dng D i) in *.
  set (La := ROWIN n f1 (q_rqz qp i) 0 _ n 0).
  assert (A1 : forall r c, (c <= r < n)%nat -> La r c = q_RSQ qp i r c + if (r =? c)%nat then reg else 0).
  { intros r c H. unfold La, ROWIN. rewrite mblk_o by lia. rewrite DIARE_R. unfold TRCP_L. rewrite mupd_i by (try lia; unfold low; apply Nat.leb_le; lia).
    cbn [Nat.add]. rewrite !Nat.sub_0_r. f_equal. destruct (Nat.eqb_spec r c); cbn [andb]; [|reflexivity]. destruct (Nat.leb_spec 0 r); [|lia]. destruct (Nat.ltb_spec r n); [reflexivity|lia]. }
  assert (A2 : forall c, (c < n)%nat -> La n c = q_rqz qp i c).
  { intros c H. unfold La, ROWIN. rewrite mblk_i by lia. cbn [Nat.add]. rewrite Nat.sub_0_r. rsimp. rewrite R_lit11. lra. }
  clearbody La.
  pose proof (kids_fact_R (k_L w) i La (k_AL0 w) (k_nux w) (k_Pb w) Hi) as HK. cbv zeta in HK.
  destruct (kids_fact _ _ _ _ _) as [[[Lb AL] tx] Pb]. destruct HK as (K1 & K2 & K3 & K4). fold n in K1, K2.
  pose proof (node_cons_R i Lb (k_tmp w) (k_Zs w i) (k_ux w i) Hi) as HC. cbv zeta in HC.
  destruct (node_cons _ _ _ _ _ _ _) as [Lc [[tmp Zs] dux]]. destruct HC as (C1 & C2 & C3 & C4). fold n nb in C1, C2. fold nb ng in C3. fold n in C4.
  assert (HX : forall C D0 dA L0 dA', (forall r c, (c <= r < n)%nat -> C r c = Lc r c + gpart qp reg Gam i r c) -> (forall c, (c < n)%nat -> C n c = Lc n c + gpart1 qp reg Gam gam i c) ->
    POTRF_L_MN (n + 1) n C 0 0 D0 0 0 dA = (L0, dA') ->
    (forall r c, (r < n)%nat -> (c < n)%nat -> stHt i r c + kX (k_L w) i r c = rsum n (fun k => lt L0 r k * lt L0 c k)) /\
    (forall k, (k < n)%nat -> 0 < L0 k k) /\ (forall r, (r < n)%nat -> stht i r + kx (k_L w) (pvec (k_L w)) i r = rsum n (fun k => L0 n k * lt L0 r k))).
  { intros C D0 dA L0 dA' HC Hc E.
    assert (V1 : forall r c, (c <= r < n)%nat -> C r c = stHt i r c + kX (k_L w) i r c).
    { intros r c Hrc. rewrite HC, C1, K1, A1 by assumption. rewrite stH_split by lia. fold nb. lra. }
    assert (V2 : forall c, (c < n)%nat -> C n c = stht i c + kx (k_L w) (pvec (k_L w)) i c).
    { intros c Hc'. rewrite Hc, C2, K2, A2 by assumption. rewrite sth_split. fold nb. lra. }
    assert (VS : forall r c, (r < n)%nat -> (c < n)%nat -> symL C r c = stHt i r c + kX (k_L w) i r c).
    { intros r c Hr Hc'. unfold symL. destruct (Nat.leb_spec c r); [apply V1; lia|]. rewrite V1 by lia. rewrite stH_sym, kX_sym. reflexivity. }
    assert (Hs : singular n dA' = false).
    { eapply potrf_pd; [| |exact E]; [lia|]. apply (PD_ext n (fun r c => stHt i r c + kX (k_L w) i r c)); [intros r c Hr Hc'; symmetry; apply VS; assumption|].
      apply PD_plus; [apply Hpd; exact Hi|apply kX_psd]. }
    pose proof (potrf_FR n n C D0 dA (le_n _)) as H. rewrite E in H. destruct (H Hs) as (H1 & H2 & H3 & _). split; [|split; [exact H3|]].
    - intros r c Hr Hc'. rewrite <- VS by assumption. apply H1; auto.
    - intros r Hr. rewrite <- V2 by assumption. apply H2. exact Hr. }
  set (FX := if Nat.ltb 0 ng then _ else _).
  assert (HF : let '(L0, _, _) := FX in
    (forall r c, (r < n)%nat -> (c < n)%nat -> stHt i r c + kX (k_L w) i r c = rsum n (fun k => lt L0 r k * lt L0 c k)) /\
    (forall k, (k < n)%nat -> 0 < L0 k k) /\ (forall r, (r < n)%nat -> stht i r + kx (k_L w) (pvec (k_L w)) i r = rsum n (fun k => L0 n k * lt L0 r k))).
  { unfold FX. destruct (Nat.ltb_spec 0 ng) as [Hng|Hng].
    - cbv zeta. set (A := ROWIN ng f1 (tmp 1%nat) nb _ n 0).
      assert (B1 : forall r l, (r < n)%nat -> (l < ng)%nat -> A r l = q_DCt qp i r l * T0s i (nb + l)%nat).
      { intros r l Hr Hl. unfold A, ROWIN. rewrite mblk_o by lia. unfold GEMM_ND. rewrite mblk_i by lia. rewrite !Nat.sub_0_r. cbn [Nat.add].
        destruct (C3 (nb + l)%nat ltac:(lia)) as (E & _). rewrite E. rsimp. rewrite R_lit01, R_lit11. lra. }
      assert (B2 : forall l, (l < ng)%nat -> A n l = T1s i (nb + l)%nat).
      { intros l Hl. unfold A, ROWIN. rewrite mblk_i by lia. rewrite !Nat.sub_0_r. destruct (C3 (nb + l)%nat ltac:(lia)) as (_ & E). rewrite E. rsimp. rewrite R_lit11. lra. }
      clearbody A. unfold SYRK_POTRF_LN_MN. set (C := SYRK_LN_MN _ _ _ _ _ _ _ _ _ _ _ _ _ _ _ _ _).
      specialize (HX C Lc (k_dA w i)). destruct (POTRF_L_MN _ _ _ _ _ _ _ _ _) as [L0 dA'] eqn:EP. apply (HX L0 dA'); [| |reflexivity].
      + intros r c Hrc. unfold C. rewrite SYRK_R by lia. cbn [Nat.add]. rsimp. rewrite R_lit11, !Rmult_1_l. f_equal. unfold gpart. fold ng nb. apply rsum_ext. intros l Hl. rewrite B1 by lia. reflexivity.
      + intros c Hc. unfold C. rewrite SYRK_R by lia. cbn [Nat.add]. rsimp. rewrite R_lit11, !Rmult_1_l. f_equal. unfold gpart1. fold ng nb. apply rsum_ext. intros l Hl. rewrite B2 by lia. reflexivity.
    - specialize (HX Lc Lc (k_dA w i)). destruct (POTRF_L_MN _ _ _ _ _ _ _ _ _) as [L0 dA'] eqn:EP. assert (Eg : ng = 0%nat) by lia.
      apply (HX L0 dA'); [| |reflexivity]; intros; unfold gpart, gpart1; fold ng; rewrite Eg; cbn [rsum]; lra. }
  clear HX. destruct FX as [[L0 dA0] AL0]. destruct HF as (F1 & F2 & F3).
  unfold nd_lhs, nd_rhs, nd_Pb. cbn [k_L k_Zs k_ux k_Pb]. rewrite !upd_same. fold n.
  assert (EL : forall k, (i < k)%nat -> k_L w k = upd (k_L w) i L0 k) by (intros; rewrite upd_other by lia; reflexivity).
  split; [|split; [|split; [|split]]].
  - split; [|split; [exact F2|]].
    + intros r c Hr Hc. rewrite <- F1 by assumption. f_equal. symmetry. apply kX_ext; [exact Hi|exact EL].
    + intros k Hk. apply C4. exact Hk.
  - split.
    + intros r Hr. rewrite <- F3 by assumption. f_equal. symmetry. apply kx_ext; [exact Hi|exact EL|]. intros jj l Hjj Hl. unfold pvec. rewrite <- EL; [reflexivity|]. apply (proj1 HT i jj); [lia|exact Hjj].
    + intros k Hk. apply C4. exact Hk.
  - intros jj j Hjj. cbv zeta. intros Hj. rewrite K3 by assumption. rewrite <- EL; [reflexivity|]. apply (proj1 HT i jj); [lia|exact Hjj].
  - intros j Hj. rewrite !upd_other by assumption. auto.
  - exact K4.
Qed.

(** the whole backward sweep *)
Lemma tfact_R w : let w' := tfact reg T qp Gam gam w in forall i, (i <= N)%nat -> nd_lhs w' i /\ nd_rhs w' i /\ nd_Pb w' i.
Proof.
  cbv zeta. unfold tfact.
  assert (G : forall K, (K <= N + 1)%nat -> let w' := loop K (fun ss w => tfact_node reg T qp Gam gam (N + 1 - ss - 1) w) w in
    forall i, (N + 1 - K <= i <= N)%nat -> nd_lhs w' i /\ nd_rhs w' i /\ nd_Pb w' i).
  { induction K as [|K IH]; intros HK; cbv zeta; [intros; lia|]. specialize (IH ltac:(lia)). cbv zeta in IH. cbn [loop]. set (wk := loop K _ w) in *. clearbody wk.
    set (q := (N + 1 - K - 1)%nat). pose proof (tfact_node_R q wk ltac:(unfold q; lia)) as H. cbv zeta in H. set (w' := tfact_node _ _ _ _ _ q wk) in *. clearbody w'. destruct H as (H1 & H2 & H3 & H4 & H5).
    intros i Hi. destruct (Nat.eq_dec i q) as [->|Hne]; [auto|]. specialize (IH i ltac:(unfold q in Hne; lia)). destruct IH as ((I1 & I2 & I3) & (I4 & I5) & I6).
    destruct (H4 i Hne) as (EL & EZ & EU). assert (ELk : forall k, (i < k)%nat -> k_L w' k = k_L wk k) by (intros k Hk; apply H4; unfold q in Hne; lia).
    split; [|split].
    - unfold nd_lhs. rewrite EL, EZ. split; [|split; assumption]. intros r c Hr Hc. rewrite <- I1 by assumption. f_equal. apply kX_ext; [lia|exact ELk].
    - unfold nd_rhs. rewrite EL, EU. split; [|assumption]. intros r Hr. rewrite <- I4 by assumption. f_equal. apply kx_ext; [lia|exact ELk|]. intros jj l Hjj Hl. unfold pvec. rewrite ELk; [reflexivity|].
      apply (proj1 HT i jj); [lia|exact Hjj].
    - intros jj j Hjj. cbv zeta. intros Hj. rewrite H5.
      + rewrite (I6 jj j) by assumption. rewrite ELk; [reflexivity|]. apply (proj1 HT i jj); [lia|exact Hjj].
      + intros b Hb. apply (edge_other T qp HT i jj q); [lia|unfold q; lia|exact Hjj|exact Hne|exact Hb]. }
  intros i Hi. apply (G (N + 1)%nat (le_n _)). lia.
Qed.
End TK.
