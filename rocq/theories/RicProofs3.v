(** RicProofs3.v -- the returned values do not depend on earlier getter calls; the law for the Newton solution and for trajectories from any state. *)
From Coq Require Import ZArith Bool Arith Lia Reals Lra.
From Verif Require Import Base ArithF RSum Blas Blas2 CoreModel CoreProofs OcpModel ResSpec KktSpec ResProofs ResProofs2 ResProps CholProofs KktModel KktProofs KktProofs2 KktProofs3 KktProofs4 KktProofs5 KktProofs6 KktProofs7 KktProps.
From Verif Require Import SolveModel SolveProofs SolveProofs2 SolveProofs3 NewtonUniq SolveProps QpDataModel QpDataProofs SensModel SensSpec SensProofs SensProofs2 RicModel RicSpec RicProofs RicProofs2.
Local Open Scope R_scope.

Lemma low_uniq n (L : rmat) (e : rvec) : (forall k, (k < n)%nat -> L k k <> 0) -> (forall i, (i < n)%nat -> rsum n (fun k => e k * lt L i k) = 0) -> forall k, (k < n)%nat -> e k = 0.
Proof.
  intros Hd H. assert (G : forall d k, (k < d)%nat -> (k < n)%nat -> e k = 0).
  { induction d as [|d IH]; intros k Hk Hn; [lia|]. destruct (Nat.eq_dec k d) as [->|Hne]; [|apply IH; lia]. pose proof (H d Hn) as E.
    rewrite (rsum_ext n _ (fun q => if (q =? d)%nat then e d * L d d else 0)) in E.
    - rewrite (rsum_one n d (fun _ => e d * L d d) Hn) in E. apply Rmult_integral in E. destruct E as [E|E]; [exact E|]. exfalso. exact (Hd d Hn E).
    - intros q Hq. destruct (Nat.eqb_spec q d) as [->|Hne].
      + unfold lt. rewrite Nat.leb_refl. reflexivity.
      + unfold lt. destruct (Nat.leb_spec q d); [|lra]. rewrite (IH q) by lia. lra. }
  intros k Hk. apply (G n); lia.
Qed.

(** ** trajectories *)
Section Tail.
Variables (a : kargs R) (qp : oqp R).
Notation D := (q_dim qp).
Notation N := (dN D).
Hypothesis Hwf : qp_wf qp.
Hypothesis Hinj : soft_inj qp.
Hypothesis Hm : mask01 qp.
Hypothesis Hip : ipm_point a qp.
Variables (preg : R) (Gam gam : nat -> rvec) (L PP : nat -> rmat) (lv pp : nat -> rvec) (K : nat -> rmat) (kv : nat -> rvec).
Hypothesis HG : forall ss c, (ss <= N)%nat -> (c < nct D ss)%nat -> Gam ss c = wgt a ss c /\ gam ss c = 1 / a_t a ss c * (q_m qp ss c - a_lam a ss c * q_d qp ss c).
Hypothesis HL : law qp (a_reg a) Gam gam (reg_diag qp (a_reg a) preg) L PP lv pp.
Hypothesis HK : forall ss, (ss <= N)%nat -> forall k m, (k < dnu D ss)%nat -> (m < dnx D ss)%nat -> rsum (dnu D ss) (fun r => lt (L ss) r k * K ss r m) = - L ss (dnu D ss + m)%nat k.
Hypothesis Hk : forall ss, (ss <= N)%nat -> forall k, (k < dnu D ss)%nat -> rsum (dnu D ss) (fun r => lt (L ss) r k * kv ss r) = - lv ss k.
Variables (i0 : nat) (x : rvec).
(** variables of stage ss in state y under the feedback *)
Definition zfb (ss : nat) (y : rvec) : rvec := fun r =>
  if (r <? dnu D ss)%nat then rsum (dnx D ss) (fun m => K ss r m * y m) + kv ss r
  else if (r <? nux qp ss)%nat then y (r - dnu D ss)%nat else Rq qp ss (gam ss) (r - nux qp ss)%nat.
Fixpoint xst (n : nat) : rvec := match n with
  | O => x
  | S n => fun j => rsum (nux qp (i0 + n)) (fun i => q_BAbt qp (i0 + n) i j * zfb (i0 + n) (xst n) i) + q_b qp (i0 + n) j end.
Definition xs (ss : nat) : rvec := xst (ss - i0).
Definition zs (ss : nat) : rvec := zfb ss (xs ss).
Definition pis (ss : nat) : rvec := fun j => rsum (dnx D (S ss)) (fun m => PP (S ss) j m * xs (S ss) m) + pp (S ss) j.
Definition uts (ss : nat) : rvec * rvec := lin_stage qp (Gam ss) (Zq qp ss (a_reg a) (Gam ss)) ss (zs ss, fun _ => 0).
Definition tail : osol R :=
  mksol (fun ss => fst (uts ss)) pis (fun ss c => - (Gam ss c * snd (uts ss) c + gam ss c)) (fun ss c => snd (uts ss) c - q_d qp ss c).
Lemma zs_u ss r : (r < dnu D ss)%nat -> zs ss r = rsum (dnx D ss) (fun m => K ss r m * xs ss m) + kv ss r.
Proof. intros H. unfold zs, zfb. apply Nat.ltb_lt in H. rewrite H. reflexivity. Qed.
Lemma zs_x ss j : (j < dnx D ss)%nat -> zs ss (dnu D ss + j)%nat = xs ss j.
Proof. intros H. unfold zs, zfb. destruct (Nat.ltb_spec (dnu D ss + j) (dnu D ss)); [lia|]. destruct (Nat.ltb_spec (dnu D ss + j) (nux qp ss)); [|unfold nux in *; lia]. f_equal. lia. Qed.
Lemma zs_s ss k : zs ss (nux qp ss + k)%nat = Rq qp ss (gam ss) k.
Proof.
  unfold zs, zfb. destruct (Nat.ltb_spec (nux qp ss + k) (dnu D ss)); [unfold nux in *; lia|]. destruct (Nat.ltb_spec (nux qp ss + k) (nux qp ss)); [lia|]. f_equal. lia.
Qed.
Lemma xs_next ss j : (i0 <= ss)%nat -> xs (S ss) j = rsum (nux qp ss) (fun i => q_BAbt qp ss i j * zs ss i) + q_b qp ss j.
Proof. intros H. unfold zs, xs. replace (S ss - i0)%nat with (S (ss - i0)) by lia. cbn [xst]. replace (i0 + (ss - i0))%nat with ss by lia. reflexivity. Qed.
Lemma uts_R ss : (ss <= N)%nat -> (forall i, (i < nux qp ss)%nat -> fst (uts ss) i = zs ss i) /\ (forall c, (c < nct D ss)%nat -> snd (uts ss) c = con qp (fun s => fst (uts s)) ss c).
Proof.
  intros Hss. unfold con. pose proof (lin_stage_R qp (Gam ss) (Zq qp ss (a_reg a) (Gam ss)) ss (zs ss) (fun _ => 0) (Hwf ss Hss)) as HC. fold (uts ss) in HC.
  destruct (uts ss) as [u t]. cbn [fst snd]. destruct HC as (U & _ & T). split; assumption.
Qed.
(** the trajectory from x at stage i0 under the feedback solves the equations of all stages from i0 on *)
Lemma tail_R :
  (forall j, (j < dnx D i0)%nat -> (i0 <= N)%nat -> s_ux tail i0 (dnu D i0 + j)%nat = x j) /\
  (forall i r, (i0 <= i <= N)%nat -> (r < dnu D i)%nat -> s_ux tail i r = rsum (dnx D i) (fun m => K i r m * s_ux tail i (dnu D i + m)%nat) + kv i r) /\
  (forall i j, (i0 <= i <= N)%nat -> (1 <= i)%nat -> (j < dnx D i)%nat -> s_pi tail (i - 1)%nat j = rsum (dnx D i) (fun m => PP i j m * s_ux tail i (dnu D i + m)%nat) + pp i j) /\
  (forall i k, (i0 <= i <= N)%nat -> (k < nvt D i)%nat -> kkt_g qp (s_ux tail) (s_pi tail) (s_lam tail) i k + reg_diag qp (a_reg a) preg i k * s_ux tail i k
      = if ((i =? 0) && (dnu D 0 <=? k) && (k <? nux qp 0))%nat then rsum (dnx D 0) (fun m => PP 0%nat (k - dnu D 0)%nat m * s_ux tail 0%nat (dnu D 0 + m)%nat) + pp 0%nat (k - dnu D 0)%nat else 0) /\
  (forall i j, (i0 <= i < N)%nat -> (j < dnx D (S i))%nat -> dyn qp (s_ux tail) i j = 0) /\
  (forall i c, (i0 <= i <= N)%nat -> (c < nct D i)%nat -> q_d qp i c + s_t tail i c - con qp (s_ux tail) i c = 0) /\
  (forall i c, (i0 <= i <= N)%nat -> (c < nct D i)%nat -> q_m qp i c + a_lam a i c * s_t tail i c + s_lam tail i c * a_t a i c = 0).
Proof.
  assert (Ux : forall i j, (i <= N)%nat -> (j < dnx D i)%nat -> s_ux tail i (dnu D i + j)%nat = xs i j).
  { intros i j Hi Hj. cbn [tail s_ux]. destruct (uts_R i Hi) as (U & _). rewrite U by (unfold nux; lia). apply zs_x. exact Hj. }
  assert (Ur : forall i r, (i <= N)%nat -> (r < dnu D i)%nat -> s_ux tail i r = zs i r).
  { intros i r Hi Hr. cbn [tail s_ux]. destruct (uts_R i Hi) as (U & _). apply U. unfold nux. lia. }
  assert (Uz : forall i r, (i <= N)%nat -> (r < nux qp i)%nat -> s_ux tail i r = zs i r).
  { intros i r Hi Hr. cbn [tail s_ux]. destruct (uts_R i Hi) as (U & _). apply U. exact Hr. }
  assert (Pl : forall i j, (1 <= i <= N)%nat -> (j < dnx D i)%nat -> s_pi tail (i - 1)%nat j = rsum (dnx D i) (fun m => PP i j m * s_ux tail i (dnu D i + m)%nat) + pp i j).
  { intros i j Hi Hj. cbn [tail s_pi]. unfold pis. replace (S (i - 1)) with i by lia. f_equal. apply rsum_ext. intros m Hmm. rewrite <- Ux by (try lia; assumption). reflexivity. }
  split; [|split; [|split; [|split; [|split; [|split]]]]].
  - intros j Hj Hi. rewrite Ux by (try lia; assumption). unfold xs. rewrite Nat.sub_diag. reflexivity.
  - intros i r Hi Hr. rewrite Ur by (try lia; assumption). rewrite zs_u by assumption. f_equal. apply rsum_ext. intros m Hmm. rewrite Ux by (try lia; assumption). reflexivity.
  - intros i j Hi H1 Hj. apply Pl; [lia|exact Hj].
  - intros i k Hi Hkk. assert (HiN : (i <= N)%nat) by lia.
    pose proof (stage_law qp (a_reg a) Gam gam (reg_diag qp (a_reg a) preg) L PP lv pp HL i (zs i) (xs (S i)) (pis i) HiN) as SL.
    assert (Z1 : forall k, (k < dnu D i)%nat -> rsum (nux qp i) (fun r => lt (L i) r k * zs i r) = - lv i k).
    { apply (fb_conv (dnu D i) (dnx D i) (L i) (K i) (lv i) (kv i)); [intros; apply HK; assumption|intros; apply Hk; assumption|].
      intros r Hr. rewrite zs_u by assumption. f_equal. apply rsum_ext. intros m Hmm. rewrite zs_x by assumption. reflexivity. }
    specialize (SL Z1 (fun _ j _ => xs_next i j ltac:(lia)) (fun _ j _ => eq_refl)).
    assert (EPi : forall j, (1 <= i)%nat -> (j < dnx D i)%nat -> pis (i - 1)%nat j = rsum (dnx D i) (fun m => PP i j m * zs i (dnu D i + m)%nat) + pp i j).
    { intros j H1 Hj. unfold pis. replace (S (i - 1)) with i by lia. f_equal. apply rsum_ext. intros m Hmm. rewrite zs_x by assumption. reflexivity. }
    set (q0 := fun k => if ((i =? 0) && (dnu D 0 <=? k) && (k <? nux qp 0))%nat then rsum (dnx D 0) (fun m => PP 0%nat (k - dnu D 0)%nat m * zs 0 (dnu D 0 + m)%nat) + pp 0%nat (k - dnu D 0)%nat else 0).
    set (qp' := mkqp D (q_BAbt qp) (q_RSQ qp) (q_DCt qp) (q_b qp) (fun s k => q_rqz qp s k - if (s =? i)%nat then q0 k else 0) (q_d qp) (q_mask qp) (q_m qp) (q_Z qp) (q_idxb qp) (q_idxs_rev qp)).
    assert (Q0s : forall k, (nux qp i <= k)%nat -> q0 k = 0). { intros k' Hk'. unfold q0. destruct (Nat.eqb_spec i 0) as [->|]; cbn [andb]; [|reflexivity]. destruct (Nat.ltb_spec k' (nux qp 0)); [lia|]. rewrite andb_false_r. reflexivity. }
    pose proof (newton_stage qp' (a_reg a) Gam gam (reg_diag qp (a_reg a) preg i) i (zs i) (fun _ => 0) (Zq qp' i (a_reg a) (Gam i)) pis (s_lam tail i) HiN Hwf Hinj) as NS.
    assert (Epiv : forall l, (l < 2 * dns D i)%nat -> slack_pivot qp' (a_reg a) (Gam i) i l <> 0).
    { intros l Hl. replace (slack_pivot qp' (a_reg a) (Gam i) i l) with (slack_pivot qp (a_reg a) (wgt a i) i l); [apply Hip; assumption|].
      unfold slack_pivot. f_equal; [f_equal; symmetry; apply HG; [lia|unfold nct; lia]|]. apply rsum_ext. intros j Hj. change (q_dim qp') with D in *. change (q_idxs_rev qp') with (q_idxs_rev qp).
      destruct (HG i j HiN ltac:(unfold nct; lia)) as (-> & _). destruct (HG i (dnb D i + dng D i + j)%nat HiN ltac:(unfold nct; lia)) as (-> & _). reflexivity. }
    specialize (NS Epiv).
    assert (EG : forall k, q_rqz qp' i (nux qp i + k)%nat = q_rqz qp i (nux qp i + k)%nat).
    { intros k'. cbn [qp' q_rqz]. rewrite Nat.eqb_refl. rewrite Q0s by lia. lra. }
    assert (ESl : forall k, sl_rhs (nux qp i) (dnb D i) (dng D i) (dns D i) (q_idxs_rev qp i) (q_rqz qp' i) (gam i) k = sl_rhs (nux qp i) (dnb D i) (dng D i) (dns D i) (q_idxs_rev qp i) (q_rqz qp i) (gam i) k).
    { intros k'. unfold sl_rhs. rewrite EG. reflexivity. }
    assert (ERq : forall k, Rq qp' i (gam i) k = Rq qp i (gam i) k) by exact ESl.
    assert (ET : forall c, T1q qp' i (a_reg a) (Gam i) (gam i) c = T1q qp i (a_reg a) (Gam i) (gam i) c).
    { intros c. unfold T1q, T1, r_lo, r_up. change (nux qp' i) with (nux qp i). change (q_dim qp') with D. change (q_idxs_rev qp') with (q_idxs_rev qp). change (q_Z qp') with (q_Z qp). rewrite !ESl. reflexivity. }
    assert (Eh : forall r, sth qp' (a_reg a) Gam gam i r = sth qp (a_reg a) Gam gam i r - q0 r).
    { intros r. assert (EQr : q_rqz qp' i r = q_rqz qp i r - q0 r) by (cbn [qp' q_rqz]; rewrite Nat.eqb_refl; reflexivity).
      unfold sth. change (q_dim qp') with D. rewrite (rsum_ext _ _ (fun c => rowq qp i c r * T1q qp i (a_reg a) (Gam i) (gam i) c)); [rewrite EQr; lra|]. intros c _. rewrite ET. reflexivity. }
    specialize (NS (fun k _ => conj eq_refl (eq_trans (zs_s i k) (eq_sym (ERq k))))).
    assert (HS : forall r, (r < nux qp' i)%nat -> rsum (nux qp' i) (fun j => stH qp' (a_reg a) Gam (reg_diag qp (a_reg a) preg i) i r j * zs i j) + sth qp' (a_reg a) Gam gam i r
       + (if (i <? dN (q_dim qp'))%nat then rsum (dnx (q_dim qp') (S i)) (fun l => q_BAbt qp' i r l * pis i l) else 0)
       - (if ((0 <? i) && (dnu (q_dim qp') i <=? r))%nat then pis (i - 1)%nat (r - dnu (q_dim qp') i)%nat else 0) = 0).
    { intros r Hr. rewrite Eh. change (nux qp' i) with (nux qp i) in *. change (q_dim qp') with D. change (q_BAbt qp') with (q_BAbt qp).
      change (fun j => stH qp' (a_reg a) Gam (reg_diag qp (a_reg a) preg i) i r j * zs i j) with (fun j => stH qp (a_reg a) Gam (reg_diag qp (a_reg a) preg i) i r j * zs i j).
      specialize (SL r Hr).
      assert (EE : (if (r <? dnu D i)%nat then 0 else rsum (dnx D i) (fun m => PP i (r - dnu D i)%nat m * zs i (dnu D i + m)%nat) + pp i (r - dnu D i)%nat) = q0 r + (if ((0 <? i) && (dnu D i <=? r))%nat then pis (i - 1)%nat (r - dnu D i)%nat else 0)).
      { unfold q0. destruct (Nat.eqb_spec i 0) as [Ei|Ei]; cbn [andb].
        - subst i. change (0 <? 0)%nat with false. cbn [andb]. destruct (Nat.ltb_spec r (dnu D 0)), (Nat.leb_spec (dnu D 0) r); try lia; cbn [andb]; [lra|]. destruct (Nat.ltb_spec r (nux qp 0)); [lra|lia].
        - destruct (Nat.ltb_spec 0 i); [|lia]. cbn [andb]. destruct (Nat.ltb_spec r (dnu D i)), (Nat.leb_spec (dnu D i) r); try lia; [lra|]. rewrite EPi by (unfold nux in Hr; lia). lra. }
      rewrite EE in SL. lra. }
    specialize (NS HS). change (lin_stage qp' (Gam i) (Zq qp' i (a_reg a) (Gam i)) i (zs i, fun _ => 0)) with (uts i) in NS. destruct (uts i) as [u t] eqn:EU.
    assert (Eu : s_ux tail i = u) by (cbn [tail s_ux]; rewrite EU; reflexivity).
    specialize (NS ltac:(intros c Hc; cbn [tail s_lam]; rewrite EU; reflexivity) k Hkk).
    assert (ER : (if (k <? nux qp i)%nat then reg_diag qp (a_reg a) preg i k else a_reg a) = reg_diag qp (a_reg a) preg i k).
    { unfold reg_diag. destruct (Nat.ltb_spec k (nux qp i)); [reflexivity|]. replace (k <? dnu D i)%nat with false by (symmetry; apply Nat.ltb_ge; unfold nux in *; lia).
      destruct (Nat.eqb_spec i 0) as [-> | ]; cbn [andb orb]; [|reflexivity]. replace (k <? nux qp 0)%nat with false by (symmetry; apply Nat.ltb_ge; lia). reflexivity. }
    change (nux qp' i) with (nux qp i) in NS. rewrite ER in NS.
    assert (EQ : (if ((i =? 0) && (dnu D 0 <=? k) && (k <? nux qp 0))%nat then rsum (dnx D 0) (fun m => PP 0%nat (k - dnu D 0)%nat m * s_ux tail 0%nat (dnu D 0 + m)%nat) + pp 0%nat (k - dnu D 0)%nat else 0) = q0 k).
    { unfold q0. destruct ((i =? 0) && _ && _)%nat; [|reflexivity]. f_equal. apply rsum_ext. intros m Hmm. rewrite Ux by (try lia; assumption). rewrite zs_x by assumption. reflexivity. }
    rewrite EQ. unfold kkt_g. rewrite Eu. cbn [qp' q_dim q_rqz q_BAbt] in NS. rewrite Nat.eqb_refl in NS. 
    assert (ELm : rsum (nct D i) (fun c => G qp i c k * (q_mask qp i c * s_lam tail i c)) = rsum (nct D i) (fun c => G qp' i c k * s_lam tail i c)).
    { apply rsum_ext. intros c Hc. change (G qp' i c k) with (G qp i c k). f_equal. destruct (Req_EM_T (q_mask qp i c) 0) as [E|E].
      - destruct (ip_mask _ _ Hip i c HiN Hc E) as (M1 & M2). rewrite E, Rmult_0_l. cbn [tail s_lam]. destruct (HG i c HiN Hc) as (-> & ->). unfold wgt. rewrite M1, M2. unfold Rdiv. ring.
      - destruct (Hm i c HiN Hc) as [E0|E0]; [contradiction|]. rewrite E0. lra. }
    rewrite ELm. change (s_pi tail) with pis. change (Hess qp') with (Hess qp) in NS.
    lra.
  - intros i j Hi Hj. unfold dyn. rewrite Ux by (try lia; assumption). rewrite xs_next by lia.
    rewrite (rsum_ext (nux qp i) (fun k => q_BAbt qp i k j * s_ux tail i k) (fun k => q_BAbt qp i k j * zs i k)); [lra|]. intros k Hkk. rewrite Uz by (try lia; assumption). reflexivity.
  - intros i c Hi Hc. destruct (uts_R i ltac:(lia)) as (_ & T). cbn [tail s_t s_ux]. rewrite T by exact Hc. lra.
  - intros i c Hi Hc. cbn [tail s_t s_lam]. destruct (HG i c ltac:(lia) Hc) as (-> & ->). unfold wgt. field. apply Hip; [lia|exact Hc].
Qed.
End Tail.

(** ** the values do not depend on the calls made before *)
Lemma sth_ext (qp : oqp R) reg Gam gam gam' ss r : qp_wf qp -> (ss <= dN (q_dim qp))%nat -> (forall c, (c < nct (q_dim qp) ss)%nat -> gam ss c = gam' ss c) -> sth qp reg Gam gam ss r = sth qp reg Gam gam' ss r.
Proof.
  intros Hwf Hss H. destruct (Hwf ss Hss) as (_ & Hsf). unfold sth. f_equal. apply rsum_ext. intros c Hc. f_equal. set (D := q_dim qp) in *.
  assert (ES : forall k, (k < 2 * dns D ss)%nat -> sl_rhs (nux qp ss) (dnb D ss) (dng D ss) (dns D ss) (q_idxs_rev qp ss) (q_rqz qp ss) (gam ss) k = sl_rhs (nux qp ss) (dnb D ss) (dng D ss) (dns D ss) (q_idxs_rev qp ss) (q_rqz qp ss) (gam' ss) k).
  { intros k Hk. unfold sl_rhs, softsum. rewrite H by (unfold nct; lia). f_equal. apply rsum_ext. intros j Hj. rewrite !H by (unfold nct; lia). reflexivity. }
  unfold T1q, T1, r_lo, r_up. fold D. rewrite !H by (unfold nct; lia). pose proof (Hsf c Hc) as Hs. unfold soft_at.
  destruct (Z.eqb_spec (q_idxs_rev qp ss c) (-1)); [reflexivity|]. destruct Hs as [Hs|Hs]; [contradiction|]. rewrite !ES; [reflexivity| |]; fold D in Hs; lia.
Qed.
Section Same.
Variables (sq : bool) (a : kargs R) (qp : oqp R).
Notation D := (q_dim qp).
Notation N := (dN D).
Hypothesis Hwf : qp_wf qp.
Hypothesis HN : (1 <= N)%nat.
Variables (rho : nat -> rvec) (Gam : nat -> rvec) (w0 : kws R).
Hypothesis HL : lhs_ok qp (a_reg a) Gam sq rho w0.
Lemma bwd_uniq gam gam' wb wb' : (forall ss c, (ss <= N)%nat -> (c < nct D ss)%nat -> gam ss c = gam' ss c) ->
  (forall ss, (ss <= N)%nat -> bwd_all qp (a_reg a) Gam gam sq w0 wb ss) -> (forall ss, (ss <= N)%nat -> bwd_all qp (a_reg a) Gam gam' sq w0 wb' ss) ->
  forall ss, (ss <= N)%nat -> (forall k, (k < nf qp ss)%nat -> k_ux wb ss k = k_ux wb' ss k) /\ ((1 <= ss)%nat -> forall j, (j < dnx D ss)%nat -> nxt qp wb ss j = nxt qp wb' ss j).
Proof.
  intros Hg B B'. destruct HL as (_ & L2 & _).
  assert (G : forall d ss, (ss <= N)%nat -> (N - ss <= d)%nat -> (forall k, (k < nf qp ss)%nat -> k_ux wb ss k = k_ux wb' ss k) /\ ((1 <= ss)%nat -> forall j, (j < dnx D ss)%nat -> nxt qp wb ss j = nxt qp wb' ss j)).
  { induction d as [|d IH]; intros ss Hss Hd.
    all: assert (EX : forall i, stx qp (valP qp sq w0 (S ss)) (nxt qp wb (S ss)) ss i = stx qp (valP qp sq w0 (S ss)) (nxt qp wb' (S ss)) ss i).
    1,3: intros i; unfold stx; destruct (Nat.ltb_spec ss N) as [Hlt|]; [|reflexivity]; try lia; apply rsum_ext; intros l Hl; f_equal; f_equal; apply IH; lia.
    all: destruct (B ss Hss) as (X & _); destruct (B' ss Hss) as (X' & _);
      assert (E : forall i, (i < nux qp ss)%nat -> rsum (nf qp ss) (fun k => (k_ux wb ss k - k_ux wb' ss k) * lt (k_L w0 ss) i k)
        + ((if (ss =? 0)%nat then 0 else embq (dnu D ss) (nxt qp wb ss) i) - (if (ss =? 0)%nat then 0 else embq (dnu D ss) (nxt qp wb' ss) i)) = 0) by
      (intros i Hi; specialize (X i Hi); specialize (X' i Hi); rewrite EX in X; rewrite (sth_ext qp (a_reg a) Gam gam gam' ss i Hwf Hss (fun c Hc => Hg ss c Hss Hc)) in X;
       rewrite (rsum_ext (nf qp ss) _ (fun k => k_ux wb ss k * lt (k_L w0 ss) i k + (-1) * (k_ux wb' ss k * lt (k_L w0 ss) i k))) by (intros; lra);
       rewrite rsum_add, rsum_scal; lra).
    all: assert (E1 : forall k, (k < nf qp ss)%nat -> k_ux wb ss k = k_ux wb' ss k) by
      (intros k Hk; apply Rminus_diag_uniq; apply (low_uniq (nf qp ss) (k_L w0 ss) (fun k => k_ux wb ss k - k_ux wb' ss k)); [intros q Hq; apply Rgt_not_eq; apply L2; assumption| |exact Hk];
       intros i Hi; pose proof (E i ltac:(pose proof (nf_le qp ss); lia)) as Ei; destruct (Nat.eqb_spec ss 0) as [Es|Es]; [lra|];
       unfold nf in Hi; apply Nat.eqb_neq in Es; rewrite Es in Hi; unfold embq in Ei; apply Nat.ltb_lt in Hi; rewrite Hi in Ei; lra).
    all: split; [exact E1|]; intros H1 j Hj; pose proof (E (dnu D ss + j)%nat ltac:(unfold nux; lia)) as Ei; rewrite rsum_0 in Ei by (intros k Hk; rewrite E1 by exact Hk; lra);
      destruct (Nat.eqb_spec ss 0) as [Es|Es]; [lia|]; unfold embq in Ei; destruct (Nat.ltb_spec (dnu D ss + j) (dnu D ss)); [lia|]; replace (dnu D ss + j - dnu D ss)%nat with j in Ei by lia; lra. }
  intros ss Hss. apply (G N); lia.
Qed.
End Same.

Section Final.
Variables (sq : bool) (a : kargs R) (qp : oqp R).
Notation D := (q_dim qp).
Notation N := (dN D).
Hypothesis Hwf : qp_wf qp.
Hypothesis HN : (1 <= N)%nat.
Hypothesis Hinj : soft_inj qp.
Hypothesis Hm : mask01 qp.
Hypothesis Hip : interior a qp.
Hypothesis Hmz : masked_zero qp (q_m qp).
Hypothesis Hdual : a_dual a = true.
Variables (preg : R) (tinv Gam : nat -> rvec) (w0 : kws R) (bkp : osol R).
Hypothesis HtG : forall ss c, (ss <= N)%nat -> (c < nct D ss)%nat -> tinv ss c = 1 / a_t a ss c /\ Gam ss c = wgt a ss c.
Hypothesis HL : lhs_ok qp (a_reg a) Gam sq (reg_diag qp (a_reg a) preg) w0.
Hypothesis Hbkp : saved_point a D bkp.
Notation rok := (ric_ok sq a qp preg Gam w0).
Notation rv := (ric_vec sq a qp bkp tinv Gam).
Notation gK i s o := (fst (get_K qp i s o)).
Notation gk i s o := (fst (get_k sq a qp bkp tinv Gam i s o)).
Notation gP i s m0 m1 o := (get_P sq qp i s m0 m1 o).
Notation gp i s o := (fst (get_p sq a qp bkp tinv Gam i s o)).
Notation glr i s o := (fst (get_lr sq a qp bkp tinv Gam i s o)).

Lemma rok_vec s : rok s -> same_lhs w0 (ri_w (rv s)) /\ vec_ok sq a qp preg Gam w0 (rv s) /\ ri_vec (rv s) = true.
Proof. intros H. eapply ric_vec_ok; eassumption. Qed.
Lemma diag_pos ss k : (ss <= N)%nat -> (k < dnu D ss)%nat -> k_L w0 ss k k <> 0.
Proof. intros Hss Hk. apply Rgt_not_eq. apply HL; [exact Hss|]. unfold nf. destruct (Nat.eqb_spec ss 0) as [->|]; [unfold nux; lia|exact Hk]. Qed.
Lemma rok_L s : rok s -> k_L (ri_w s) = k_L w0 /\ (forall i, ricP qp sq (ri_w s) i = ricP qp sq w0 i).
Proof. intros ((E1 & E2 & E3 & _) & _). split; [exact E2|]. intros i. unfold ricP, valP. rewrite E2, E3. reflexivity. Qed.

(** everything the laws need, in terms of what the getters return *)
Lemma law_get s : rok s -> exists gam lv pp st,
  (forall ss c, (ss <= N)%nat -> (c < nct D ss)%nat -> Gam ss c = wgt a ss c /\ gam ss c = 1 / a_t a ss c * (q_m qp ss c - a_lam a ss c * q_d qp ss c)) /\
  law qp (a_reg a) Gam gam (reg_diag qp (a_reg a) preg) (k_L w0) (ricP qp sq w0) lv pp /\
  (forall ss, (ss <= N)%nat -> forall k m o, (k < dnu D ss)%nat -> (m < dnx D ss)%nat -> rsum (dnu D ss) (fun r => lt (k_L w0 ss) r k * gK ss s o (r + m * dnu D ss)%nat) = - k_L w0 ss (dnu D ss + m)%nat k) /\
  (forall ss, (ss <= N)%nat -> forall k o, (k < dnu D ss)%nat -> rsum (dnu D ss) (fun r => lt (k_L w0 ss) r k * gk ss s o r) = - lv ss k) /\
  (forall ss j m m0 m1 o, (ss <= N)%nat -> (j < dnx D ss)%nat -> (m < dnx D ss)%nat -> gP ss s m0 m1 o (j + m * dnx D ss)%nat = ricP qp sq w0 ss j m) /\
  (forall ss j o, (ss <= N)%nat -> (j < dnx D ss)%nat -> gp ss s o j = pp ss j) /\
  (forall ss k o, (ss <= N)%nat -> (k < dnu D ss)%nat -> glr ss s o k = lv ss k) /\
  newton_solution a qp preg st /\
  (forall ss k, (ss <= N)%nat -> (k < nf qp ss)%nat -> rsum (nux qp ss) (fun r => lt (k_L w0 ss) r k * s_ux st ss r) = - lv ss k) /\
  (forall ss j, (ss < N)%nat -> (j < dnx D (S ss))%nat -> s_pi st ss j = rsum (dnx D (S ss)) (fun m => ricP qp sq w0 (S ss) j m * s_ux st (S ss) (dnu D (S ss) + m)%nat) + pp (S ss) j) /\
  (forall j, (j < dnx D 0)%nat -> rsum (dnx D 0) (fun m => ricP qp sq w0 0 j m * s_ux st 0%nat (dnu D 0 + m)%nat) + pp 0%nat j = 0).
Proof.
  intros Hs. destruct (rok_vec s Hs) as (Hsl & HV & EV). destruct HV as (Ep & gam & wb & st & V1 & V2 & V3 & V4 & V5 & V6).
  destruct (rok_L s Hs) as (EL & EP). assert (ELv : k_L (ri_w (rv s)) = k_L w0) by apply Hsl. destruct V3 as (Sl & Sx).
  exists gam, (k_ux wb), (ricp qp w0 (k_ux wb) (nxt qp wb)), st.
  assert (Hnf : forall ss, (dnu D ss <= nf qp ss)%nat). { intros ss. unfold nf, nux. destruct (Nat.eqb_spec ss 0) as [->|]; lia. }
  split; [|split; [|split; [|split; [|split; [|split; [|split; [|split; [|split; [|split]]]]]]]]].
  - intros ss c Hss Hc. split; [apply HtG; assumption|apply V1; assumption].
  - apply law_of_lhs; [exact HN|exact HL|]. intros ss i Hss Hi. destruct (V2 ss Hss) as (X & _). exact (X i Hi).
  - intros ss Hss k m o Hk Hmm. rewrite <- EL. apply get_K_HK; try assumption. intros q Hq. rewrite EL. apply diag_pos; assumption.
  - intros ss Hss k o Hk. rewrite <- (Sl ss k) by (try assumption; specialize (Hnf ss); lia). rewrite <- ELv. apply get_k_Hk; try assumption. intros q Hq. rewrite ELv. apply diag_pos; assumption.
  - intros ss j m m0 m1 o Hss Hj Hmm. rewrite get_P_out by assumption. rewrite EP. reflexivity.
  - intros ss j o Hss Hj. rewrite get_p_out by assumption. unfold ricp. destruct (Nat.eqb_spec ss 0) as [->|Hne].
    + rewrite ELv. apply rsum_ext. intros k Hk. rewrite Sl by (try lia; unfold nf, nux; cbn [Nat.eqb]; lia). reflexivity.
    + rewrite Sx by (try lia; assumption). reflexivity.
  - intros ss k o Hss Hk. cbn [get_lr fst]. unfold UNPACK_VEC. rewrite vset0 by assumption. cbn [Nat.add]. apply Sl; [exact Hss|specialize (Hnf ss); lia].
  - exact V4.
  - exact V5.
  - exact V6.
  - intros j Hj. unfold ricP, ricp. cbn [Nat.eqb]. unfold VPs.
    rewrite (rsum_ext (dnx D 0) (fun m => rsum (dnx D 0) (fun k => lt (k_L w0 0%nat) (dnu D 0 + j) (dnu D 0 + k) * lt (k_L w0 0%nat) (dnu D 0 + m) (dnu D 0 + k)) * s_ux st 0%nat (dnu D 0 + m)%nat)
      (fun m => rsum (dnx D 0) (fun k => lt (k_L w0 0%nat) (dnu D 0 + j) (dnu D 0 + k) * (lt (k_L w0 0%nat) (dnu D 0 + m) (dnu D 0 + k) * s_ux st 0%nat (dnu D 0 + m)%nat)))).
    2:{ intros m Hmm. rewrite <- rsum_scal_r. apply rsum_ext. intros; lra. }
    rewrite rsum_swap, <- rsum_add. apply rsum_0. intros k Hk. rewrite rsum_scal.
    pose proof (V5 0%nat (dnu D 0 + k)%nat ltac:(lia) ltac:(unfold nf, nux; cbn [Nat.eqb]; lia)) as E. unfold nux in E. rewrite rsum_split in E. rewrite (rsum_0 (dnu D 0)) in E.
    2:{ intros r Hr. rewrite lt_out by lia. lra. }
    rewrite Rplus_0_l in E. rewrite E. lra.
Qed.

Lemma newton_law s : rok s -> exists st, newton_solution a qp preg st /\
  (forall i r o o', (i <= N)%nat -> (r < dnu D i)%nat -> s_ux st i r = rsum (dnx D i) (fun m => gK i s o (r + m * dnu D i)%nat * s_ux st i (dnu D i + m)%nat) + gk i s o' r) /\
  (forall i j m0 m1 o o', (1 <= i <= N)%nat -> (j < dnx D i)%nat -> s_pi st (i - 1)%nat j = rsum (dnx D i) (fun m => gP i s m0 m1 o (j + m * dnx D i)%nat * s_ux st i (dnu D i + m)%nat) + gp i s o' j) /\
  (forall j m0 m1 o o', (j < dnx D 0)%nat -> rsum (dnx D 0) (fun m => gP 0%nat s m0 m1 o (j + m * dnx D 0)%nat * s_ux st 0%nat (dnu D 0 + m)%nat) + gp 0%nat s o' j = 0).
Proof.
  intros Hs. destruct (law_get s Hs) as (gam & lv & pp & st & A1 & A2 & A3 & A4 & A5 & A6 & A7 & A8 & A9 & A10 & A11). exists st. split; [exact A8|]. split; [|split].
  - intros i r o o' Hi Hr. apply (fb_law (dnu D i) (dnx D i) (k_L w0 i) (fun r m => gK i s o (r + m * dnu D i)%nat) (lv i) (fun r => gk i s o' r)); [intros; apply diag_pos; assumption|intros; apply A3; assumption|intros; apply A4; assumption| |exact Hr].
    intros k Hk. apply A9; [exact Hi|]. unfold nf. destruct (Nat.eqb_spec i 0) as [->|]; [unfold nux; lia|exact Hk].
  - intros i j m0 m1 o o' Hi Hj. destruct i as [|i]; [lia|]. rewrite A6 by (try lia; assumption). replace (S i - 1)%nat with i by lia. rewrite A10 by (try lia; assumption). f_equal. apply rsum_ext. intros m Hmm. rewrite A5 by (try lia; assumption). reflexivity.
  - intros j m0 m1 o o' Hj. rewrite A6 by (try lia; assumption). rewrite <- (A11 j Hj). f_equal. apply rsum_ext. intros m Hmm. rewrite A5 by (try lia; assumption). reflexivity.
Qed.

Lemma every_state s i0 (x : rvec) : rok s -> (i0 <= N)%nat -> exists st,
  (forall j, (j < dnx D i0)%nat -> s_ux st i0 (dnu D i0 + j)%nat = x j) /\
  (forall i r o o', (i0 <= i <= N)%nat -> (r < dnu D i)%nat -> s_ux st i r = rsum (dnx D i) (fun m => gK i s o (r + m * dnu D i)%nat * s_ux st i (dnu D i + m)%nat) + gk i s o' r) /\
  (forall i j m0 m1 o o', (i0 <= i <= N)%nat -> (1 <= i)%nat -> (j < dnx D i)%nat -> s_pi st (i - 1)%nat j = rsum (dnx D i) (fun m => gP i s m0 m1 o (j + m * dnx D i)%nat * s_ux st i (dnu D i + m)%nat) + gp i s o' j) /\
  (forall i k m0 m1 o o', (i0 <= i <= N)%nat -> (k < nvt D i)%nat -> kkt_g qp (s_ux st) (s_pi st) (s_lam st) i k + reg_diag qp (a_reg a) preg i k * s_ux st i k
      = if ((i =? 0) && (dnu D 0 <=? k) && (k <? nux qp 0))%nat then rsum (dnx D 0) (fun m => gP 0%nat s m0 m1 o (k - dnu D 0 + m * dnx D 0)%nat * s_ux st 0%nat (dnu D 0 + m)%nat) + gp 0%nat s o' (k - dnu D 0)%nat else 0) /\
  (forall i j, (i0 <= i < N)%nat -> (j < dnx D (S i))%nat -> dyn qp (s_ux st) i j = 0) /\
  (forall i c, (i0 <= i <= N)%nat -> (c < nct D i)%nat -> q_d qp i c + s_t st i c - con qp (s_ux st) i c = 0) /\
  (forall i c, (i0 <= i <= N)%nat -> (c < nct D i)%nat -> q_m qp i c + a_lam a i c * s_t st i c + s_lam st i c * a_t a i c = 0).
Proof.
  intros Hs Hi0. destruct (law_get s Hs) as (gam & lv & pp & st & A1 & A2 & A3 & A4 & A5 & A6 & A7 & A8 & A9 & A10 & A11).
  set (K := fun i r m => gK i s (fun _ => 0) (r + m * dnu D i)%nat). set (kv := fun i r => gk i s (fun _ => 0) r).
  assert (EK : forall i r m o, (i <= N)%nat -> (r < dnu D i)%nat -> (m < dnx D i)%nat -> gK i s o (r + m * dnu D i)%nat = K i r m). { intros. unfold K. rewrite !get_K_out by assumption. reflexivity. }
  assert (Ek : forall i r o, (i <= N)%nat -> (r < dnu D i)%nat -> gk i s o r = kv i r). { intros. unfold kv. rewrite !get_k_out by assumption. reflexivity. }
  assert (HP : ipm_point a qp) by (eapply (qp_ip sq a qp); eassumption).
  pose proof (tail_R a qp Hwf Hinj Hm HP preg Gam gam (k_L w0) (ricP qp sq w0) lv pp K kv A1 A2) as T.
  specialize (T ltac:(intros; apply A3; assumption) ltac:(intros; apply A4; assumption) i0 x). destruct T as (T1 & T2 & T3 & T4 & T5 & T6 & T7).
  set (tl := tail _ _ _ _ _ _ _ _ _ _) in *. clearbody tl. exists tl. split; [intros; apply T1; assumption|]. split; [|split; [|split; [|split; [exact T5|split; [exact T6|exact T7]]]]].
  - intros i r o o' Hi Hr. rewrite Ek by (try lia; assumption). rewrite T2 by assumption. f_equal. apply rsum_ext. intros m Hmm. rewrite EK by (try lia; assumption). reflexivity.
  - intros i j m0 m1 o o' Hi H1 Hj. rewrite A6 by (try lia; assumption). rewrite T3 by assumption. f_equal. apply rsum_ext. intros m Hmm. rewrite A5 by (try lia; assumption). reflexivity.
  - intros i k m0 m1 o o' Hi Hk. rewrite T4 by assumption. destruct (Nat.eqb_spec i 0) as [->|]; cbn [andb]; [|reflexivity].
    destruct (Nat.leb_spec (dnu D 0) k); cbn [andb]; [|reflexivity]. destruct (Nat.ltb_spec k (nux qp 0)) as [Hlt|]; [|reflexivity]. unfold nux in Hlt.
    rewrite A6 by (try lia). f_equal. apply rsum_ext. intros m Hmm. rewrite A5 by (try lia). reflexivity.
Qed.

(** a getter returns the same values whatever getters were called before, and whatever the output array held *)
Lemma getters_same s s' : rok s -> rok s' ->
  (forall i r m o o', (i <= N)%nat -> (r < dnu D i)%nat -> (m < dnx D i)%nat -> gK i s o (r + m * dnu D i)%nat = gK i s' o' (r + m * dnu D i)%nat) /\
  (forall i r o o', (i <= N)%nat -> (r < dnu D i)%nat -> gk i s o r = gk i s' o' r) /\
  (forall i j m m0 m1 o m0' m1' o', (i <= N)%nat -> (j < dnx D i)%nat -> (m < dnx D i)%nat -> gP i s m0 m1 o (j + m * dnx D i)%nat = gP i s' m0' m1' o' (j + m * dnx D i)%nat) /\
  (forall i j o o', (i <= N)%nat -> (j < dnx D i)%nat -> gp i s o j = gp i s' o' j) /\
  (forall i r o o', (i <= N)%nat -> (r < dnu D i)%nat -> glr i s o r = glr i s' o' r).
Proof.
  intros Hs Hs'. destruct (rok_vec s Hs) as (Hsl & (Ep & gam & wb & st & V1 & V2 & (Sl & Sx) & _) & _). destruct (rok_vec s' Hs') as (Hsl' & (Ep' & gam' & wb' & st' & V1' & V2' & (Sl' & Sx') & _) & _).
  destruct (rok_L s Hs) as (EL & EP). destruct (rok_L s' Hs') as (EL' & EP').
  assert (ELv : k_L (ri_w (rv s)) = k_L w0) by apply Hsl. assert (ELv' : k_L (ri_w (rv s')) = k_L w0) by apply Hsl'.
  pose proof (bwd_uniq sq a qp Hwf HN _ Gam w0 HL gam gam' wb wb' ltac:(intros; rewrite V1, V1' by assumption; reflexivity) V2 V2') as U.
  assert (Hnf : forall ss, (dnu D ss <= nf qp ss)%nat). { intros ss. unfold nf, nux. destruct (Nat.eqb_spec ss 0) as [->|]; lia. }
  assert (El : forall i k, (i <= N)%nat -> (k < nf qp i)%nat -> k_l (ri_w (rv s)) i k = k_l (ri_w (rv s')) i k). { intros i k Hi Hk. rewrite Sl, Sl' by assumption. apply U; assumption. }
  split; [|split; [|split; [|split]]].
  - intros i r m o o' Hi Hr Hmm. rewrite !get_K_out by assumption. rewrite EL, EL'. reflexivity.
  - intros i r o o' Hi Hr. apply Rminus_diag_uniq. apply (tri_uniq (dnu D i) (k_L w0 i) (fun r => gk i s o r - gk i s' o' r)); [intros; apply diag_pos; assumption| |exact Hr].
    intros k Hk. rewrite (rsum_ext (dnu D i) _ (fun r => lt (k_L w0 i) r k * gk i s o r + (-1) * (lt (k_L w0 i) r k * gk i s' o' r))) by (intros; lra).
    rewrite rsum_add, rsum_scal. pose proof (get_k_Hk sq qp a bkp tinv Gam i s o ltac:(intros; rewrite ELv; apply diag_pos; assumption) k Hk) as X. rewrite ELv in X.
    pose proof (get_k_Hk sq qp a bkp tinv Gam i s' o' ltac:(intros; rewrite ELv'; apply diag_pos; assumption) k Hk) as X'. rewrite ELv' in X'. rewrite X, X'.
    rewrite El by (try assumption; specialize (Hnf i); lia). lra.
  - intros. rewrite !get_P_out by assumption. rewrite EP, EP'. reflexivity.
  - intros i j o o' Hi Hj. rewrite !get_p_out by assumption. destruct (Nat.eqb_spec i 0) as [->|Hne].
    + rewrite ELv, ELv'. apply rsum_ext. intros k Hk. rewrite El by (try lia; unfold nf, nux; cbn [Nat.eqb]; lia). reflexivity.
    + rewrite Sx, Sx' by (try lia; assumption). apply U; [exact Hi|lia|exact Hj].
  - intros i r o o' Hi Hr. cbn [get_lr fst]. unfold UNPACK_VEC. rewrite !vset0 by assumption. cbn [Nat.add]. apply El; [exact Hi|specialize (Hnf i); lia].
Qed.
End Final.
