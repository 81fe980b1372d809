(** SolveProofs4.v -- OCP_QP_FACT_KKT_STEP: the factorisation without right-hand side. *)
From Coq Require Import ZArith Bool Arith Lia Reals Lra.
From Verif Require Import Base ArithF RSum Blas Blas2 CoreModel CoreProofs OcpModel ResSpec KktSpec ResProofs CholProofs CholPD KktModel KktProofs KktProofs2 KktProofs3 KktProofs4 KktProofs5 KktProofs6 KktProofs7 SolveModel SolveProofs SolveProofs2 SolveProofs3.
Local Open Scope R_scope.

Section Slk.
Variables (n nb ng ns : nat) (reg : R) (sf : nat -> Z) (Z Gamma : rvec).
Notation nbg := (nb + ng)%nat.
Notation wlo := (w_lo nb ng ns reg sf Z Gamma).
Notation wup := (w_up nb ng ns reg sf Z Gamma).
Notation slinv := (sl_inv nb ng ns reg sf Z Gamma).
Lemma cond_slacks_fact_R tmp Zs : (forall j, (j < nbg)%nat -> (sf j = -1 \/ 0 <= sf j < Z.of_nat ns)%Z) ->
  let '(tmp', Zs') := cond_slacks_fact nb ng ns reg sf Z Gamma (tmp, Zs) in
  (forall k, (k < 2 * ns)%nat -> Zs' k = slinv k) /\ (forall j, (j < nbg)%nat -> tmp' 0%nat j = T0 nb ng ns reg sf Z Gamma j).
Proof.
  intros Hsf. unfold cond_slacks_fact.
  pose proof (two_map ns 0 (fun k _ => Z k + reg + Gamma (2 * nb + 2 * ng + k)%nat) Zs ns (le_n _)) as HZ. cbv beta zeta in HZ.
  set (Z1 := loop ns (fun idx Zs => _) Zs).
  match type of HZ with context[loop ns ?f Zs] => assert (E1 : Z1 = loop ns f Zs) end.
  { unfold Z1. apply loop_ext. intros i v Hi. cbv beta. rsimp. rewrite !Nat.add_assoc. reflexivity. }
  rewrite <- E1 in HZ. clearbody Z1. clear E1. destruct HZ as (HZ & _).
  pose proof (scatter2 sf 0 ns Gamma (fun i => Gamma (nbg + i)%nat) nbg Z1) as HZ2.
  set (Z2 := loop nbg _ Z1) in *.
  match type of HZ2 with forall k, ?l k = _ => change l with Z2 in HZ2 end || idtac.
  clearbody Z2.
  pose proof (two_map ns 0 (fun _ x => 1 / x) Z2 ns (le_n _)) as HI. cbv beta zeta in HI.
  set (Z3 := loop ns (fun idx Zs => _) Z2).
  assert (E3 : Z3 = loop ns (fun (i : nat) (v : nat -> R) => upd (upd v (0 + i)%nat (1 / v (0 + i)%nat)) (0 + ns + i)%nat (1 / upd v (0 + i)%nat (1 / v (0 + i)%nat) (0 + ns + i)%nat)) Z2).
  { unfold Z3. cbn [Nat.add]. rsimp. rewrite ?R_lit11. reflexivity. }
  rewrite <- E3 in HI. clearbody Z3. clear E3. destruct HI as (HI & _).
  assert (VZ : forall k, (k < 2 * ns)%nat -> Z3 k = slinv k).
  { intros k Hk. change k with (0 + k)%nat at 1. rewrite HI by lia. rewrite HZ2. change (Z1 (0 + k)%nat) with (Z1 (0 + k)%nat). rewrite HZ by lia. reflexivity. }
  set (val := fun r j => match r with O => wlo j | _ => wup j end).
  assert (VT : forall p, (p <= nbg)%nat -> forall r j, (r < 2)%nat -> (j < p)%nat -> loop p (fun ii tmp =>
      let G0 := Gamma ii in let G1 := Gamma (nb + ng + ii)%nat in
      if Z.eqb (sf ii) (-1) then upd (upd tmp 0%nat (upd (tmp 0%nat) ii G0)) 1%nat (upd (tmp 1%nat) ii G1)
      else
        let idx := Z.to_nat (sf ii) in
        upd (upd tmp 0%nat (upd (tmp 0%nat) ii (G0 - G0 * Z3 idx * G0)))
                 1%nat (upd (tmp 1%nat) ii (G1 - G1 * Z3 (ns + idx)%nat * G1))) tmp r j = val r j).
  { induction p as [|p IH]; intros Hp r j Hr Hj; [lia|]. specialize (IH ltac:(lia)). cbn [loop].
    set (tp := loop p _ tmp) in *. cbv zeta.
    destruct (Nat.eq_dec j p) as [->|Hne].
    - destruct (Z.eqb_spec (sf p) (-1)) as [E|E].
      + destruct r as [|[|]]; [| |lia]; unfold upd; cbn [Nat.eqb]; rewrite Nat.eqb_refl; unfold val, w_lo, w_up; rewrite E; reflexivity.
      + destruct (Hsf p ltac:(lia)) as [E'|Hs]; [contradiction|].
        rewrite (VZ (Z.to_nat (sf p))), (VZ (ns + Z.to_nat (sf p))%nat) by lia.
        apply Z.eqb_neq in E.
        destruct r as [|[|]]; [| |lia]; unfold upd; cbn [Nat.eqb]; rewrite Nat.eqb_refl; unfold val, w_lo, w_up, soft_at; rewrite E; reflexivity.
    - rewrite <- (IH r j) by (auto; lia). destruct (Z.eqb (sf p) (-1)); destruct r as [|[|]]; try lia; unfold upd; cbn [Nat.eqb]; destruct (Nat.eqb_spec j p); try contradiction; reflexivity. }
  specialize (VT nbg (le_n _)). cbv zeta in VT. rsimp.
  set (t4 := loop nbg _ tmp) in *.
  split; [exact VZ|]. intros j Hj.
  rewrite upd_same. unfold AXPY. rewrite vset0 by assumption. cbn [Nat.add]. rsimp. rewrite !VT by (auto; lia). rewrite R_lit11. unfold T0, val. lra.
Qed.
End Slk.

Section Kf.
Variables (qp : oqp R) (reg : R) (Gam gam : nat -> rvec).
Notation D := (q_dim qp).
Notation N := (dN D).
Hypothesis Hwf : qp_wf qp.
Notation stHq ss := (stH qp reg Gam (fun _ => reg) ss).
Notation FRq ss := (FR qp reg Gam gam (fun _ => reg)).

Lemma stage_fact_R ss L tmp Zs : (ss <= N)%nat ->
  let '(L', (tmp', Zs')) := stage_fact qp reg (Gam ss) ss L (tmp, Zs) in
  (forall i j, (j <= i < nux qp ss)%nat -> L' i j = q_RSQ qp ss i j + (if (i =? j)%nat then reg else 0) + rsum (dnb D ss) (fun c => rowq qp ss c i * T0q qp ss reg (Gam ss) c * rowq qp ss c j)) /\
  (forall c, (c < dnb D ss + dng D ss)%nat -> tmp' 0%nat c = T0q qp ss reg (Gam ss) c) /\
  (forall k, (k < 2 * dns D ss)%nat -> Zs' k = Zq qp ss reg (Gam ss) k).
Proof.
  intros Hss. destruct (Hwf ss Hss) as (Hib & Hsf). unfold stage_fact. change (dnu D ss + dnx D ss)%nat with (nux qp ss).
  set (n := nux qp ss) in *. set (nb := dnb D ss) in *. set (ng := dng D ss) in *. set (ns := dns D ss) in *.
  set (L1 := DIARE n reg _ 0 0).
  assert (A1 : forall i j, (j <= i < n)%nat -> L1 i j = q_RSQ qp ss i j + if (i =? j)%nat then reg else 0).
  { intros i j H. unfold L1. pose proof (rg_full qp ss reg (TRCP_L n (q_RSQ qp ss) 0 0 L 0 0) i j H) as E. fold n in E. cbv beta in E. rewrite E. f_equal. unfold TRCP_L. rewrite mupd_i by (try lia; unfold low; apply Nat.leb_le; lia).
    cbn [Nat.add]. rewrite !Nat.sub_0_r. reflexivity. }
  clearbody L1. set (r := if Nat.ltb 0 ns then _ else _).
  assert (Hr : let '(tmp', Zs') := r in (forall c, (c < nb + ng)%nat -> tmp' 0%nat c = T0q qp ss reg (Gam ss) c) /\ (forall k, (k < 2 * ns)%nat -> Zs' k = Zq qp ss reg (Gam ss) k)).
  { unfold r. destruct (Nat.ltb_spec 0 ns) as [Hns|Hns].
    - pose proof (cond_slacks_fact_R nb ng ns reg (q_idxs_rev qp ss) (q_Z qp ss) (Gam ss) tmp Zs Hsf) as H.
      destruct (cond_slacks_fact _ _ _ _ _ _ _ _) as [tmp' Zs']. destruct H as (H1 & H2). split; [exact H2|exact H1].
    - assert (Hm : forall c, (c < nb + ng)%nat -> Z.eqb (q_idxs_rev qp ss c) (-1) = true). { intros c Hc. apply Z.eqb_eq. destruct (Hsf c Hc); lia. }
      destruct (Nat.ltb_spec 0 (nb + ng)) as [Hbg|Hbg].
      + split; [|intros; lia]. intros c Hc. unfold T0q, T0, w_lo, w_up. fold nb ng ns. rewrite Hm by assumption. rewrite upd_same. unfold AXPY. rewrite vset0 by assumption. cbn [Nat.add]. rsimp. rewrite R_lit11. lra.
      + split; intros; lia. }
  destruct r as [tmp' Zs']. destruct Hr as (HT & HZ). split; [|split; assumption].
  intros i j Hij. destruct (Nat.ltb_spec 0 nb) as [Hnb|Hnb].
  - rewrite DIAAD_SP_R. rewrite A1 by assumption. f_equal. destruct (Nat.eqb_spec i j) as [->|Hne].
    + apply rsum_ext. intros c Hc. rewrite !rowq_b by assumption. cbn [Nat.add]. rewrite HT by lia. rsimp. rewrite R_lit11. destruct (q_idxb qp ss c =? j)%nat; lra.
    + symmetry. apply rsum_0. intros c Hc. rewrite !rowq_b by assumption. destruct (Nat.eqb_spec (q_idxb qp ss c) i), (Nat.eqb_spec (q_idxb qp ss c) j); try lra. lia.
  - rewrite A1 by assumption. assert (E : nb = 0%nat) by lia. rewrite E. cbn [rsum]. lra.
Qed.

(** a factorised stage, whatever the gradient *)
Lemma FR_any P p ss nf0 L Q : (forall i j, (i < nux qp ss)%nat -> (j < nux qp ss)%nat -> stHq ss i j + stX qp P ss i j = rsum nf0 (fun k => lt L i k * lt L j k) + Q i j) ->
  (forall k, (k < nf0)%nat -> 0 < L k k) -> exists q, FRq ss P p ss nf0 L Q q.
Proof.
  intros H1 H2. exists (fun i => sth qp reg Gam gam ss i + stx qp P p ss i - rsum nf0 (fun k => L (nux qp ss) k * lt L i k)). split; [exact H1|]. split; [|exact H2]. intros i Hi. lra.
Qed.
Lemma chol_lhs P ss nf0 (C D0 : rmat) dA L dA' : (nf0 <= nux qp ss)%nat -> Psym P (dnx D (S ss)) ->
  (forall i j, (j <= i < nux qp ss)%nat -> C i j = stHq ss i j + stX qp P ss i j) -> PD nf0 (fun i j => stHq ss i j + stX qp P ss i j) ->
  POTRF_L_MN (nux qp ss) nf0 C 0 0 D0 0 0 dA = (L, dA') ->
  (forall i j, (i < nux qp ss)%nat -> (j < nux qp ss)%nat -> stHq ss i j + stX qp P ss i j =
     rsum nf0 (fun k => lt L i k * lt L j k) + (if ((i <? nf0) || (j <? nf0))%nat then 0 else symL C i j - rsum nf0 (fun k => L i k * L j k))) /\
  (forall k, (k < nf0)%nat -> 0 < L k k) /\ (forall i j, (nf0 <= j \/ i < j)%nat -> L i j = D0 i j).
Proof.
  intros Hnf HP HC HPD E.
  assert (HS : forall i j, (i < nux qp ss)%nat -> (j < nux qp ss)%nat -> symL C i j = stHq ss i j + stX qp P ss i j).
  { intros i j Hi Hj. unfold symL. destruct (Nat.leb_spec j i); [apply HC; lia|]. rewrite HC by lia. rewrite stH_sym. f_equal. apply stX_sym. exact HP. }
  assert (Hs : singular nf0 dA' = false).
  { eapply potrf_pd; [exact Hnf| |exact E]. intros v Hv. rewrite (quadf_ext nf0 _ (fun i j => stHq ss i j + stX qp P ss i j) v v); [apply HPD; exact Hv| |reflexivity]. intros i j Hi Hj. apply HS; lia. }
  pose proof (potrf_R (nux qp ss) nf0 C D0 dA Hnf) as H. rewrite E in H. specialize (H (singular_false _ _ Hs)). destruct H as (H1 & H2 & H3).
  assert (K : forall i j, (j <= i)%nat -> (i < nux qp ss)%nat -> (j < nf0)%nat -> C i j = rsum nf0 (fun k => lt L i k * lt L j k)).
  { intros i j Hij Hi Hj. rewrite lt_sum by assumption. symmetry. apply H1; lia. }
  split; [|split; [exact H2|intros; apply H3; lia]].
  intros i j Hi Hj. rewrite <- HS by assumption. unfold symL. destruct (Nat.ltb_spec i nf0) as [Hi'|Hi']; [|destruct (Nat.ltb_spec j nf0) as [Hj'|Hj']]; cbn [orb].
  - rewrite Rplus_0_r. destruct (Nat.leb_spec j i); [apply K; lia|]. rewrite (K j i) by lia. apply rsum_ext. intros; lra.
  - rewrite Rplus_0_r. destruct (Nat.leb_spec j i); [apply K; lia|]. lia.
  - rewrite (rsum_ext nf0 (fun k => lt L i k * lt L j k) (fun k => L i k * L j k)); [lra|]. intros k Hk. rewrite !lt_in by lia. reflexivity.
Qed.
Lemma chol_full P ss (C D0 : rmat) dA L dA' p : Psym P (dnx D (S ss)) ->
  (forall i j, (j <= i < nux qp ss)%nat -> C i j = stHq ss i j + stX qp P ss i j) -> PD (nux qp ss) (fun i j => stHq ss i j + stX qp P ss i j) ->
  POTRF_L_MN (nux qp ss) (nux qp ss) C 0 0 D0 0 0 dA = (L, dA') -> exists q, FRq ss P p ss (nux qp ss) L (fun _ _ => 0) q.
Proof.
  intros HP HC HPD E. destruct (chol_lhs P ss (nux qp ss) C D0 dA L dA' (le_n _) HP HC HPD E) as (H1 & H2 & _). apply FR_any; [|exact H2].
  intros i j Hi Hj. rewrite H1 by assumption. apply Nat.ltb_lt in Hi. rewrite Hi. reflexivity.
Qed.
Lemma chol_part P ss (C : rmat) dA L dA' p Ls Pold Ls' P' : Psym P (dnx D (S ss)) ->
  (forall i j, (j <= i < nux qp ss)%nat -> C i j = stHq ss i j + stX qp P ss i j) -> PD (nux qp ss) (fun i j => stHq ss i j + stX qp P ss i j) ->
  POTRF_L_MN (nux qp ss) (dnu D ss) C 0 0 C 0 0 dA = (L, dA') -> kf_P_of_L (dnu D ss) (dnx D ss) L Ls Pold = (Ls', P') ->
  (exists q, FRq ss P p ss (dnu D ss) L (embQ (dnu D ss) P') q) /\ Psym P' (dnx D ss).
Proof.
  intros HP HC HPD E EP. assert (En : nux qp ss = (dnu D ss + dnx D ss)%nat) by reflexivity.
  assert (HPD' : PD (dnu D ss) (fun i j => stHq ss i j + stX qp P ss i j)) by (eapply PD_lead; [|exact HPD]; rewrite En; apply Nat.le_add_r).
  destruct (chol_lhs P ss (dnu D ss) C C dA L dA' ltac:(rewrite En; apply Nat.le_add_r) HP HC HPD' E) as (H1 & H2 & H3).
  set (nu := dnu D ss) in *. set (nx := dnx D ss) in *.
  assert (EPv : forall l m, (l < nx)%nat -> (m < nx)%nat -> P' l m = symL L (nu + l) (nu + m) - rsum nu (fun k => L (nu + l)%nat k * L (nu + m)%nat k)).
  { unfold kf_P_of_L in EP. set (Ls1 := GECP _ _ _ _ _ _ _ _) in EP. set (P1 := SYRK_LN_MN _ _ _ _ _ _ _ _ _ _ _ _ _ _ _ _ _) in EP. apply pair_inj in EP. destruct EP as (_ & <-).
    assert (E0 : forall l k, (l < nx)%nat -> (k < nu)%nat -> Ls1 l k = L (nu + l)%nat k). { intros l k Hl Hk. unfold Ls1, GECP. rewrite mblk_i by lia. rewrite !Nat.sub_0_r. reflexivity. }
    clearbody Ls1.
    assert (E1 : forall r c, (r < nx)%nat -> (c <= r)%nat -> P1 r c = L (nu + r)%nat (nu + c)%nat - rsum nu (fun k => L (nu + r)%nat k * L (nu + c)%nat k)).
    { intros r c Hr Hrc. unfold P1. rewrite SYRK_R by lia. cbn [Nat.add]. rsimp. rewrite R_lit11.
      rewrite (rsum_ext nu (fun l => Ls1 r l * Ls1 c l) (fun k => L (nu + r)%nat k * L (nu + c)%nat k)); [lra|]. intros k Hk. rewrite !E0 by lia. reflexivity. }
    clearbody P1. intros l m Hl Hm. unfold TRTR_L. rewrite mupd_at. rewrite !Nat.sub_0_r. cbn [Nat.add]. destruct (Nat.ltb_spec l nx); [|lia]. destruct (Nat.ltb_spec m nx); [|lia]. cbn [andb Nat.leb].
    unfold symL. destruct (Nat.leb_spec l m); destruct (Nat.leb_spec (nu + m) (nu + l)); try lia.
    + assert (m = l) as -> by lia. apply E1; lia.
    + rewrite E1 by lia. f_equal. apply rsum_ext. intros; lra.
    + apply E1; lia. }
  split.
  - apply FR_any; [|exact H2]. intros i j Hi Hj. rewrite H1 by assumption. f_equal. unfold embQ. destruct (Nat.ltb_spec i nu) as [Hi'|Hi']; [reflexivity|]. destruct (Nat.ltb_spec j nu) as [Hj'|Hj']; [reflexivity|]. cbn [orb].
    rewrite EPv by lia. replace (nu + (i - nu))%nat with i by lia. replace (nu + (j - nu))%nat with j by lia. f_equal. unfold symL. destruct (Nat.leb_spec j i); rewrite H3 by lia; reflexivity.
  - intros l m Hl Hm. rewrite !EPv by assumption. f_equal; [|apply rsum_ext; intros; lra]. unfold symL. destruct (Nat.leb_spec (nu + m) (nu + l)), (Nat.leb_spec (nu + l) (nu + m)); try lia; try reflexivity. assert (l = m) as -> by lia. reflexivity.
Qed.

(** positive definiteness of the stage matrices, given that of the stage Hessians *)
Hypothesis Hpd : forall ss, (ss <= N)%nat -> PD (nux qp ss) (stHq ss).
Lemma zero_psd n : PSD n (fun _ _ => 0).
Proof. intros v. unfold quadf. apply rsum_nonneg. intros i _. apply rsum_nonneg. intros; lra. Qed.
Lemma st_pd P ss : (ss <= N)%nat -> PSD (dnx D (S ss)) P -> PD (nux qp ss) (fun i j => stHq ss i j + stX qp P ss i j).
Proof. intros Hss HP. apply PD_plus; [apply Hpd; exact Hss|]. apply stX_psd. exact HP. Qed.

Definition kframe (ss : nat) (w w' : kws R) : Prop :=
  (forall t, t <> ss -> k_L w' t = k_L w t /\ k_P w' t = k_P w t /\ k_Zs w' t = k_Zs w t) /\ k_BAbt w' = k_BAbt w.
Definition zok (w : kws R) ss : Prop := forall k, (k < 2 * dns D ss)%nat -> k_Zs w ss k = Zq qp ss reg (Gam ss) k.

Lemma set_fact_frame w ss L dA P A0 A1 Ls Zs tmp : kframe ss w (set_fact w ss L dA P A0 A1 Ls Zs tmp).
Proof. unfold set_fact. split; [|reflexivity]. intros t Ht. cbn [k_L k_P k_Zs]. rewrite !upd_other by assumption. auto. Qed.

(** general constraints in the last stage *)
Lemma gen_syrk ss (L AL0 : rmat) (t0 : rvec) (D1 : rmat) (c0 : nat) i j :
  (forall l, (l < dng D ss)%nat -> t0 (dnb D ss + l)%nat = T0q qp ss reg (Gam ss) (dnb D ss + l)%nat) -> (j <= i < nux qp ss)%nat ->
  SYRK_LN_MN (nux qp ss) (nux qp ss) (dng D ss) f1 (GEMM_ND (nux qp ss) (dng D ss) f1 (q_DCt qp ss) 0 0 t0 (dnb D ss) f0 AL0 0 c0 AL0 0 c0) 0 c0 (q_DCt qp ss) 0 0 f1 L 0 0 D1 0 0 i j = L i j + gpart qp reg Gam ss i j.
Proof.
  intros HT Hij. rewrite SYRK_R by lia. cbn [Nat.add]. rsimp. rewrite R_lit11, !Rmult_1_l. f_equal. unfold gpart. apply rsum_ext. intros l Hl. f_equal.
  unfold GEMM_ND. rewrite mblk_i by lia. rewrite !Nat.sub_0_r. replace (c0 + l - c0)%nat with l by lia. cbn [Nat.add]. rewrite HT by assumption. rsimp. rewrite ?R_lit01, ?R_lit11. lra.
Qed.

Lemma kf_sqrt_last_R w P p : (forall i j, stX qp P N i j = 0) -> let w' := kf_sqrt_last qp reg Gam w in
  (exists q, FRq N P p N (nux qp N) (k_L w' N) (fun _ _ => 0) q) /\ zok w' N /\ kframe N w w'.
Proof.
  intros HX. cbv zeta. unfold kf_sqrt_last. change (dnu D N + dnx D N)%nat with (nux qp N).
  pose proof (stage_fact_R N (k_L w N) (k_tmp w) (k_Zs w N) (le_n _)) as HB. destruct (stage_fact _ _ _ _ _ _) as [L [tmp Zs]]. destruct HB as (B1 & B3 & B4).
  assert (X : forall C D0 dA L0 dA', (forall i j, (j <= i < nux qp N)%nat -> C i j = L i j + gpart qp reg Gam N i j) -> POTRF_L_MN (nux qp N) (nux qp N) C 0 0 D0 0 0 dA = (L0, dA') -> exists q, FRq N P p N (nux qp N) L0 (fun _ _ => 0) q).
  { intros C D0 dA L0 dA' HC E. destruct (chol_full (fun _ _ => 0) N C D0 dA L0 dA' p) as (q & A1 & A2 & A3).
    - intros l m _ _. reflexivity.
    - intros i j Hij. rewrite HC, stH_split, B1 by lia. unfold stX. rewrite Nat.ltb_irrefl. lra.
    - apply st_pd; [apply le_n|apply zero_psd].
    - exact E.
    - exists q. split; [|split; [|exact A3]].
      + intros i j Hi Hj. rewrite <- A1 by assumption. unfold stX. rewrite Nat.ltb_irrefl. reflexivity.
      + intros i Hi. rewrite <- A2 by assumption. unfold stx. rewrite Nat.ltb_irrefl. reflexivity. }
  destruct (Nat.ltb_spec 0 (dng D N)) as [Hng|Hng].
  - unfold SYRK_POTRF_LN_MN. destruct (POTRF_L_MN _ _ _ _ _ _ _ _ _) as [L0 dA'] eqn:EC. split; [|split; [|apply set_fact_frame]].
    + unfold set_fact. cbn [k_L]. rewrite upd_same. eapply X; [|exact EC]. intros i j Hij. apply (gen_syrk N L (k_AL0 w) (tmp 0%nat) L 0 i j); [|exact Hij]. intros l Hl. apply B3. lia.
    + unfold zok, set_fact. cbn [k_Zs]. rewrite upd_same. exact B4.
  - destruct (POTRF_L_MN _ _ _ _ _ _ _ _ _) as [L0 dA'] eqn:EC. split; [|split; [|apply set_fact_frame]].
    + unfold set_fact. cbn [k_L]. rewrite upd_same. eapply X; [|exact EC]. intros i j Hij. unfold gpart. assert (Eg : dng D N = 0%nat) by lia. rewrite Eg. cbn [rsum]. lra.
    + unfold zok, set_fact. cbn [k_Zs]. rewrite upd_same. exact B4.
Qed.

Lemma kf_sqrt_mid_R ss w p : (ss < N)%nat -> BAok qp w -> let w' := kf_sqrt_mid qp reg Gam ss w in
  (exists q, FRq ss (VPs (k_L w (S ss)) (dnu D (S ss)) (dnx D (S ss))) p ss (nux qp ss) (k_L w' ss) (fun _ _ => 0) q) /\ zok w' ss /\ kframe ss w w'.
Proof.
  intros Hss HBA. cbv zeta. unfold kf_sqrt_mid. rewrite (Nat.add_1_r ss). change (dnu D ss + dnx D ss)%nat with (nux qp ss).
  set (L1 := k_L w (S ss)) in *. set (nu1 := dnu D (S ss)) in *. set (nx1 := dnx D (S ss)) in *. set (n := nux qp ss) in *.
  pose proof (stage_fact_R ss (k_L w ss) (k_tmp w) (k_Zs w ss) ltac:(lia)) as HB.
  set (A0 := TRMM_RLNN _ _ _ _ _ _ _ _ _ _ _ _) in *.
  assert (H1 : forall i l, (i < n)%nat -> (l < nx1)%nat -> A0 i l = rsum nx1 (fun k => q_BAbt qp ss i k * lt L1 (nu1 + k) (nu1 + l))).
  { intros i l Hi Hl. unfold A0, TRMM_RLNN. rewrite mblk_i by lia. rewrite !Nat.sub_0_r, fsum_R. cbn [Nat.add]. rsimp. rewrite R_lit11, Rmult_1_l.
    rewrite <- (rsum_high nx1 l (fun k => k_BAbt w ss i k * L1 (nu1 + k)%nat (nu1 + l)%nat)) by lia. apply rsum_ext. intros k Hk. rewrite HBA by assumption. unfold lt.
    destruct (Nat.leb_spec l k), (Nat.leb_spec (nu1 + l) (nu1 + k)); try lia; lra. }
  clearbody A0. set (P := VPs L1 nu1 nx1).
  assert (Q1 : forall i j, (i < n)%nat -> (j < n)%nat -> rsum nx1 (fun l => A0 i l * A0 j l) = stX qp P ss i j).
  { intros i j Hi Hj. unfold stX. apply Nat.ltb_lt in Hss. rewrite Hss. fold nx1.
    rewrite (rsum_ext nx1 _ (fun l => rsum nx1 (fun k => q_BAbt qp ss i k * lt L1 (nu1 + k) (nu1 + l)) * rsum nx1 (fun m => q_BAbt qp ss j m * lt L1 (nu1 + m) (nu1 + l)))).
    2:{ intros l Hl. rewrite !H1 by assumption. reflexivity. }
    exact (quad_factor nx1 nx1 (q_BAbt qp ss i) (q_BAbt qp ss j) (fun k l => lt L1 (nu1 + k) (nu1 + l))). }
  destruct (stage_fact _ _ _ _ _ _) as [L [tmp Zs]]. destruct HB as (B1 & B3 & B4). fold n in B1.
  assert (X : forall C D0 dA L0 dA', (forall i j, (j <= i < n)%nat -> C i j = L i j + rsum nx1 (fun l => A0 i l * A0 j l) + gpart qp reg Gam ss i j) -> POTRF_L_MN n n C 0 0 D0 0 0 dA = (L0, dA') -> exists q, FRq ss P p ss n L0 (fun _ _ => 0) q).
  { intros C D0 dA L0 dA' HC E. eapply (chol_full P ss C D0 dA L0 dA' p); [| | |exact E].
    - intros l m _ _. apply VPs_sym.
    - intros i j Hij. fold n in Hij. rewrite HC, stH_split, B1, Q1 by lia. lra.
    - apply st_pd; [lia|apply VPs_psd]. }
  destruct (Nat.ltb_spec 0 (dng D ss)) as [Hng|Hng].
  - set (A2 := GEMM_ND _ _ _ _ _ _ _ _ _ _ _ _ _ _ _). set (A3 := GECP n (dng D ss) _ _ _ _ _ _).
    assert (E1 : forall i l, (i < n)%nat -> (l < nx1)%nat -> A2 i l = A0 i l). { intros i l Hi Hl. unfold A2, GEMM_ND. rewrite mblk_o by lia. reflexivity. }
    assert (E2 : forall i l, (i < n)%nat -> (l < dng D ss)%nat -> A2 i (nx1 + l)%nat = q_DCt qp ss i l * T0q qp ss reg (Gam ss) (dnb D ss + l)%nat).
    { intros i l Hi Hl. unfold A2, GEMM_ND. rewrite mblk_i by lia. rewrite !Nat.sub_0_r. replace (nx1 + l - nx1)%nat with l by lia. cbn [Nat.add]. rewrite B3 by lia. rsimp. rewrite ?R_lit01, ?R_lit11. lra. }
    assert (E3 : forall i l, (i < n)%nat -> (l < nx1)%nat -> A3 i l = A0 i l). { intros i l Hi Hl. unfold A3, GECP. rewrite mblk_o by lia. rewrite mblk_i by lia. rewrite !Nat.sub_0_r. cbn [Nat.add]. apply E1; assumption. }
    assert (E4 : forall i l, (i < n)%nat -> (l < dng D ss)%nat -> A3 i (nx1 + l)%nat = q_DCt qp ss i l). { intros i l Hi Hl. unfold A3, GECP. rewrite mblk_i by lia. replace (nx1 + l - nx1)%nat with l by lia. rewrite !Nat.sub_0_r. reflexivity. }
    clearbody A2 A3. unfold SYRK_POTRF_LN_MN. destruct (POTRF_L_MN _ _ _ _ _ _ _ _ _) as [L0 dA'] eqn:EC. split; [|split; [|apply set_fact_frame]].
    + unfold set_fact. cbn [k_L]. rewrite upd_same. eapply X; [|exact EC]. intros i j Hij. rewrite SYRK_R by lia. cbn [Nat.add]. rsimp. rewrite R_lit11, !Rmult_1_l. rewrite rsum_split, Rplus_assoc. f_equal. f_equal.
      * apply rsum_ext. intros l Hl. rewrite E1, E3 by lia. reflexivity.
      * unfold gpart. apply rsum_ext. intros l Hl. rewrite E2, E4 by lia. reflexivity.
    + unfold zok, set_fact. cbn [k_Zs]. rewrite upd_same. exact B4.
  - unfold SYRK_POTRF_LN_MN. destruct (POTRF_L_MN _ _ _ _ _ _ _ _ _) as [L0 dA'] eqn:EC. split; [|split; [|apply set_fact_frame]].
    + unfold set_fact. cbn [k_L]. rewrite upd_same. eapply X; [|exact EC]. intros i j Hij. rewrite SYRK_R by lia. cbn [Nat.add]. rsimp. rewrite R_lit11, !Rmult_1_l. unfold gpart. assert (Eg : dng D ss = 0%nat) by lia. rewrite Eg. cbn [rsum]. lra.
    + unfold zok, set_fact. cbn [k_Zs]. rewrite upd_same. exact B4.
Qed.

Lemma kf_cls_last_R w P p : (forall i j, stX qp P N i j = 0) -> let w' := kf_cls_last qp reg Gam w in
  ((exists q, FRq N P p N (dnu D N) (k_L w' N) (embQ (dnu D N) (k_P w' N)) q) /\ Psym (k_P w' N) (dnx D N)) /\ zok w' N /\ kframe N w w'.
Proof.
  intros HX. cbv zeta. unfold kf_cls_last. change (dnu D N + dnx D N)%nat with (nux qp N).
  pose proof (stage_fact_R N (k_L w N) (k_tmp w) (k_Zs w N) (le_n _)) as HB. destruct (stage_fact _ _ _ _ _ _) as [L [tmp Zs]]. destruct HB as (B1 & B3 & B4).
  set (s := if Nat.ltb 0 _ then _ else _).
  assert (X : forall i j, (j <= i < nux qp N)%nat -> fst s i j = L i j + gpart qp reg Gam N i j).
  { unfold s. destruct (Nat.ltb_spec 0 (dng D N)) as [Hng|Hng]; cbn [fst].
    - intros i j Hij. apply (gen_syrk N L (k_AL0 w) (tmp 0%nat) L 0 i j); [|exact Hij]. intros l Hl. apply B3. lia.
    - intros i j Hij. unfold gpart. assert (Eg : dng D N = 0%nat) by lia. rewrite Eg. cbn [rsum]. lra. }
  destruct s as [L' AL]. cbn [fst] in X. destruct (POTRF_L_MN _ _ _ _ _ _ _ _ _) as [L0 dA'] eqn:EC. destruct (kf_P_of_L _ _ _ _ _) as [Ls' P'] eqn:EP. split; [|split; [|apply set_fact_frame]].
  - unfold set_fact. cbn [k_L k_P]. rewrite !upd_same.
    destruct (chol_part (fun _ _ => 0) N L' (k_dA w N) L0 dA' p (k_Ls w) (k_P w N) Ls' P') as ((q & A1 & A2 & A3) & A4).
    + intros l m _ _. reflexivity.
    + intros i j Hij. rewrite X, stH_split, B1 by lia. unfold stX. rewrite Nat.ltb_irrefl. lra.
    + apply st_pd; [apply le_n|apply zero_psd].
    + exact EC.
    + exact EP.
    + split; [|exact A4]. exists q. split; [|split; [|exact A3]].
      * intros i j Hi Hj. rewrite <- A1 by assumption. unfold stX. rewrite Nat.ltb_irrefl. reflexivity.
      * intros i Hi. rewrite <- A2 by assumption. unfold stx. rewrite Nat.ltb_irrefl. reflexivity.
  - unfold zok, set_fact. cbn [k_Zs]. rewrite upd_same. exact B4.
Qed.

Lemma kf_cls_mid_R full ss w p : (ss < N)%nat -> BAok qp w -> Psym (k_P w (S ss)) (dnx D (S ss)) -> PSD (dnx D (S ss)) (k_P w (S ss)) ->
  let w' := kf_cls_mid full qp reg Gam ss w in
  (if full then (exists q, FRq ss (k_P w (S ss)) p ss (nux qp ss) (k_L w' ss) (fun _ _ => 0) q)
   else (exists q, FRq ss (k_P w (S ss)) p ss (dnu D ss) (k_L w' ss) (embQ (dnu D ss) (k_P w' ss)) q) /\ Psym (k_P w' ss) (dnx D ss)) /\ zok w' ss /\ kframe ss w w'.
Proof.
  intros Hss HBA HPs HPp. cbv zeta. unfold kf_cls_mid. rewrite (Nat.add_1_r ss). change (dnu D ss + dnx D ss)%nat with (nux qp ss).
  set (P := k_P w (S ss)) in *. set (nx1 := dnx D (S ss)) in *. set (n := nux qp ss) in *.
  pose proof (stage_fact_R ss (k_L w ss) (k_tmp w) (k_Zs w ss) ltac:(lia)) as HB.
  set (A0 := GEMM_NT _ _ _ _ _ _ _ _ _ _ _ _ _ _ _ _ _) in *.
  assert (H1 : forall i l, (i < n)%nat -> (l < nx1)%nat -> A0 i l = rsum nx1 (fun m => q_BAbt qp ss i m * P l m)).
  { intros i l Hi Hl. unfold A0, GEMM_NT. rewrite mblk_i by lia. rewrite !Nat.sub_0_r, fsum_R. cbn [Nat.add]. rsimp. rewrite ?R_lit01, ?R_lit11.
    rewrite (rsum_ext nx1 (fun k => k_BAbt w ss i k * P l k) (fun m => q_BAbt qp ss i m * P l m)); [lra|]. intros k Hk. rewrite HBA by assumption. reflexivity. }
  clearbody A0.
  assert (Q1 : forall i j, (i < n)%nat -> (j < n)%nat -> rsum nx1 (fun l => A0 i l * k_BAbt w ss j l) = stX qp P ss i j).
  { intros i j Hi Hj. rewrite (stX_sym qp P ss i j HPs). unfold stX. apply Nat.ltb_lt in Hss as Hss'. rewrite Hss'. fold nx1. apply rsum_ext. intros l Hl. rewrite H1, HBA by assumption.
    rewrite Rmult_comm, <- rsum_scal. apply rsum_ext. intros; lra. }
  destruct (stage_fact _ _ _ _ _ _) as [L [tmp Zs]]. destruct HB as (B1 & B3 & B4). fold n in B1.
  set (s := if Nat.ltb 0 _ then _ else _).
  assert (X : (forall i j, (j <= i < n)%nat -> fst s i j = L i j + gpart qp reg Gam ss i j) /\ (forall i l, (i < n)%nat -> (l < nx1)%nat -> snd s i l = A0 i l)).
  { unfold s. destruct (Nat.ltb_spec 0 (dng D ss)) as [Hng|Hng]; cbn [fst snd].
    - split; [|intros i l Hi Hl; unfold GEMM_ND; rewrite mblk_o by lia; reflexivity]. intros i j Hij. apply (gen_syrk ss L A0 (tmp 0%nat) L nx1 i j); [|exact Hij]. intros l Hl. apply B3. lia.
    - split; [|reflexivity]. intros i j Hij. unfold gpart. assert (Eg : dng D ss = 0%nat) by lia. rewrite Eg. cbn [rsum]. lra. }
  destruct s as [L' AL]. cbn [fst snd] in X. destruct X as (X1 & X2).
  assert (Y : forall D1 i j, (j <= i < n)%nat -> SYRK_LN_MN n n nx1 f1 AL 0 0 (k_BAbt w ss) 0 0 f1 L' 0 0 D1 0 0 i j = stHq ss i j + stX qp P ss i j).
  { intros D1 i j Hij. rewrite SYRK_R by lia. cbn [Nat.add]. rsimp. rewrite R_lit11, !Rmult_1_l. rewrite (rsum_ext nx1 _ (fun l => A0 i l * k_BAbt w ss j l)) by (intros l Hl; rewrite X2 by lia; reflexivity).
    rewrite X1, stH_split, B1, Q1 by lia. lra. }
  assert (HPD : PD n (fun i j => stHq ss i j + stX qp P ss i j)) by (apply st_pd; [lia|exact HPp]).
  destruct full.
  - unfold SYRK_POTRF_LN_MN. destruct (POTRF_L_MN _ _ _ _ _ _ _ _ _) as [L0 dA'] eqn:EC. split; [|split; [|apply set_fact_frame]].
    + unfold set_fact. cbn [k_L]. rewrite upd_same. eapply (chol_full P ss); [exact HPs|apply Y|exact HPD|exact EC].
    + unfold zok, set_fact. cbn [k_Zs]. rewrite upd_same. exact B4.
  - destruct (POTRF_L_MN _ _ _ _ _ _ _ _ _) as [L0 dA'] eqn:EC. destruct (kf_P_of_L _ _ _ _ _) as [Ls' P'] eqn:EP. split; [|split; [|apply set_fact_frame]].
    + unfold set_fact. cbn [k_L k_P]. rewrite !upd_same. eapply (chol_part P ss); [exact HPs|apply Y|exact HPD|exact EC|exact EP].
    + unfold zok, set_fact. cbn [k_Zs]. rewrite upd_same. exact B4.
Qed.

(** ** the sweeps *)
Lemma kf_sqrt_R w : BAok qp w -> let w' := kf_sqrt qp reg Gam w in BAok qp w' /\ forall ss, (ss <= N)%nat ->
  (exists q, FRq ss (VPs (k_L w' (S ss)) (dnu D (S ss)) (dnx D (S ss))) (fun _ => 0) ss (nux qp ss) (k_L w' ss) (fun _ _ => 0) q) /\ zok w' ss.
Proof.
  intros HB. cbv zeta. unfold kf_sqrt.
  enough (G : forall K, (K <= N)%nat -> let w' := loop K (fun nn w => kf_sqrt_mid qp reg Gam (N - nn - 1) w) (kf_sqrt_last qp reg Gam w) in
    BAok qp w' /\ forall ss, (N - K <= ss <= N)%nat -> (exists q, FRq ss (VPs (k_L w' (S ss)) (dnu D (S ss)) (dnx D (S ss))) (fun _ => 0) ss (nux qp ss) (k_L w' ss) (fun _ _ => 0) q) /\ zok w' ss).
  { destruct (G N (le_n _)) as (G1 & G2). split; [exact G1|]. intros ss Hss. apply G2. lia. }
  induction K as [|K IH]; intros HK; cbv zeta; cbn [loop].
  - assert (HX : forall P i j, stX qp P N i j = 0) by (intros; unfold stX; rewrite Nat.ltb_irrefl; reflexivity).
    pose proof (fun P => kf_sqrt_last_R w P (fun _ => 0) (HX P)) as H. cbv zeta in H. set (w' := kf_sqrt_last qp reg Gam w) in *. clearbody w'. split.
    + destruct (H (fun _ _ => 0)) as (_ & _ & (_ & EB)). unfold BAok. rewrite EB. exact HB.
    + intros ss Hss. assert (ss = N) as -> by lia. destruct (H (VPs (k_L w' (S N)) (dnu D (S N)) (dnx D (S N)))) as (A & B & _). split; assumption.
  - destruct (IH ltac:(lia)) as (B1 & I1). set (w1 := loop K _ _) in *. clearbody w1. set (q := (N - K - 1)%nat) in *.
    destruct (kf_sqrt_mid_R q w1 (fun _ => 0) ltac:(unfold q; lia) B1) as (M1 & M2 & (M3 & M4)). set (w' := kf_sqrt_mid qp reg Gam q w1) in *. clearbody w'. split; [unfold BAok; rewrite M4; exact B1|].
    intros ss Hss. destruct (Nat.eq_dec ss q) as [->|Hne].
    + split; [|exact M2]. destruct (M3 (S q) ltac:(lia)) as (E & _). rewrite E. exact M1.
    + destruct (I1 ss ltac:(unfold q in Hne; lia)) as (A & B). destruct (M3 ss Hne) as (E1 & _ & E3). destruct (M3 (S ss) ltac:(unfold q in *; lia)) as (E2 & _). rewrite E1, E2. split; [exact A|]. unfold zok. rewrite E3. exact B.
Qed.

Definition ccl (w : kws R) ss : Prop :=
  (exists q, FRq ss (k_P w (S ss)) (fun _ => 0) ss (dnu D ss) (k_L w ss) (embQ (dnu D ss) (k_P w ss)) q) /\ Psym (k_P w ss) (dnx D ss) /\ zok w ss.
Lemma kf_cls_R w : (1 <= N)%nat -> BAok qp w -> let w' := kf_cls qp reg Gam w in BAok qp w' /\ (forall ss, (1 <= ss <= N)%nat -> ccl w' ss) /\
  (exists q, FRq 0%nat (k_P w' 1%nat) (fun _ => 0) 0%nat (nux qp 0) (k_L w' 0%nat) (fun _ _ => 0) q) /\ zok w' 0.
Proof.
  intros HN HB. cbv zeta. unfold kf_cls.
  assert (G : forall K, (K < N)%nat -> let w' := loop K (fun nn w => kf_cls_mid false qp reg Gam (N - nn - 1) w) (kf_cls_last qp reg Gam w) in
    BAok qp w' /\ (forall ss, (N - K <= ss <= N)%nat -> ccl w' ss) /\ PSD (dnx D (N - K)) (k_P w' (N - K)%nat)).
  { induction K as [|K IH]; intros HK; cbv zeta; cbn [loop].
    - assert (HX : forall P i j, stX qp P N i j = 0) by (intros; unfold stX; rewrite Nat.ltb_irrefl; reflexivity).
      pose proof (fun P => kf_cls_last_R w P (fun _ => 0) (HX P)) as H. cbv zeta in H. set (w' := kf_cls_last qp reg Gam w) in *. clearbody w'. split; [|split].
      + destruct (H (fun _ _ => 0)) as (_ & _ & (_ & EB)). unfold BAok. rewrite EB. exact HB.
      + intros ss Hss. assert (ss = N) as -> by lia. destruct (H (k_P w' (S N))) as ((A & A') & B & _). split; [exact A|split; assumption].
      + rewrite Nat.sub_0_r. destruct (H (fun _ _ => 0)) as (((q & A) & _) & _). eapply cls_P_psd; [exact A|]. apply PD_PSD. apply st_pd; [apply le_n|apply zero_psd].
    - destruct (IH ltac:(lia)) as (B1 & I1 & I2). set (w1 := loop K _ _) in *. clearbody w1. set (q := (N - K - 1)%nat) in *. assert (Eq : (N - K)%nat = S q) by (unfold q; lia). rewrite Eq in *. replace (N - S K)%nat with q by (unfold q; lia).
      destruct (I1 (S q) ltac:(lia)) as (_ & HPs & _).
      destruct (kf_cls_mid_R false q w1 (fun _ => 0) ltac:(unfold q; lia) B1 HPs I2) as ((M1 & M1') & M2 & (M3 & M4)). set (w' := kf_cls_mid false qp reg Gam q w1) in *. clearbody w'. split; [unfold BAok; rewrite M4; exact B1|]. split.
      + intros ss Hss. destruct (Nat.eq_dec ss q) as [->|Hne].
        * destruct (M3 (S q) ltac:(lia)) as (_ & E & _). unfold ccl. rewrite E. split; [exact M1|split; assumption].
        * destruct (I1 ss ltac:(lia)) as (A & A' & B). destruct (M3 ss Hne) as (E1 & E2 & E3). destruct (M3 (S ss) ltac:(lia)) as (_ & E4 & _). unfold ccl, zok. rewrite E1, E2, E3, E4. split; [exact A|split; assumption].
      + destruct M1 as (q0 & M1). eapply cls_P_psd; [exact M1|]. apply PD_PSD. apply st_pd; [unfold q; lia|exact I2]. }
  specialize (G (N - 1)%nat ltac:(lia)). cbv zeta in G. set (w1 := loop (N - 1) _ _) in *. clearbody w1. destruct G as (B1 & I1 & I2). replace (N - (N - 1))%nat with 1%nat in * by lia.
  destruct (Nat.ltb_spec 0 N); [|lia]. destruct (I1 1%nat ltac:(lia)) as (_ & HPs & _).
  destruct (kf_cls_mid_R true 0 w1 (fun _ => 0) ltac:(lia) B1 HPs I2) as (M1 & M2 & (M3 & M4)). set (w' := kf_cls_mid true qp reg Gam 0 w1) in *. clearbody w'. split; [unfold BAok; rewrite M4; exact B1|]. split; [|split; [|exact M2]].
  - intros ss Hss. destruct (I1 ss ltac:(lia)) as (A & A' & B). destruct (M3 ss ltac:(lia)) as (E1 & E2 & E3). destruct (M3 (S ss) ltac:(lia)) as (_ & E4 & _). unfold ccl, zok. rewrite E1, E2, E3, E4. split; [exact A|split; assumption].
  - destruct (M3 1%nat ltac:(lia)) as (_ & E & _). rewrite E. exact M1.
Qed.

Lemma fact_kkt_lhs (sq : bool) w : (1 <= N)%nat -> BAok qp w -> lhs_ok qp reg Gam sq (reg_diag qp reg reg) (if sq then kf_sqrt qp reg Gam w else kf_cls qp reg Gam w).
Proof.
  intros HN HB.
  assert (Er : forall ss i, reg = reg_diag qp reg reg ss i). { intros. unfold reg_diag. destruct (_ || _)%bool; reflexivity. }
  assert (Eh : forall ss i j, stH qp reg Gam (reg_diag qp reg reg ss) ss i j = stHq ss i j). { intros. unfold stH. rewrite <- Er. reflexivity. }
  destruct sq.
  - destruct (kf_sqrt_R w HB) as (HB' & HS). set (w' := kf_sqrt qp reg Gam w) in *. clearbody w'.
    assert (FA : forall ss, (ss <= N)%nat -> exists p q, FRq ss (valP qp true w' (S ss)) p ss (nf qp ss) (k_L w' ss) (if (ss =? 0)%nat then fun _ _ => 0 else embQ (dnu D ss) (valP qp true w' ss)) q).
    { intros ss Hss. destruct (HS ss Hss) as ((q & A1 & A2 & A3) & _). unfold nf, valP. destruct (Nat.eqb_spec ss 0) as [->|Hne]; [exists (fun _ => 0), q; split; [exact A1|split; assumption]|].
      destruct (FR_any (VPs (k_L w' (S ss)) (dnu D (S ss)) (dnx D (S ss))) (fun _ => 0) ss (dnu D ss) (k_L w' ss) (embQ (dnu D ss) (VPs (k_L w' ss) (dnu D ss) (dnx D ss)))) as (q' & F); [| |exists (fun _ => 0), q'; exact F].
      - intros i j Hi Hj. rewrite A1 by assumption. rewrite Rplus_0_r. change (nux qp ss) with (dnu D ss + dnx D ss)%nat. rewrite rsum_split. f_equal. unfold embQ, VPs.
        destruct (Nat.ltb_spec i (dnu D ss)); [|destruct (Nat.ltb_spec j (dnu D ss))]; cbn [orb].
        + apply rsum_0. intros k Hk. rewrite (lt_out (k_L w' ss) i) by lia. lra.
        + apply rsum_0. intros k Hk. rewrite (lt_out (k_L w' ss) j) by lia. lra.
        + apply rsum_ext. intros k Hk. replace (dnu D ss + (i - dnu D ss))%nat with i by lia. replace (dnu D ss + (j - dnu D ss))%nat with j by lia. reflexivity.
      - intros k Hk. apply A3. unfold nux. lia. }
    split; [|split; [|split; [|split]]].
    + intros ss i j Hss Hi Hj. destruct (FA ss Hss) as (p & q & A & _). rewrite Eh, A by assumption. f_equal. destruct (ss =? 0)%nat; reflexivity.
    + intros ss k Hss Hk. destruct (FA ss Hss) as (p & q & _ & _ & A). apply A. exact Hk.
    + intros ss k Hss Hk. destruct (HS ss Hss) as (_ & A). apply A. exact Hk.
    + intros ss _ l m _ _. apply VPs_sym.
    + exact HB'.
  - destruct (kf_cls_R w HN HB) as (HB' & HS & (q0 & H0) & HS0). set (w' := kf_cls qp reg Gam w) in *. clearbody w'.
    assert (FA : forall ss, (ss <= N)%nat -> exists p q, FRq ss (valP qp false w' (S ss)) p ss (nf qp ss) (k_L w' ss) (if (ss =? 0)%nat then fun _ _ => 0 else embQ (dnu D ss) (valP qp false w' ss)) q).
    { intros ss Hss. unfold nf, valP. destruct (Nat.eqb_spec ss 0) as [->|Hne]; [exists (fun _ => 0), q0; exact H0|]. destruct (HS ss ltac:(lia)) as ((q & A) & _). exists (fun _ => 0), q. exact A. }
    split; [|split; [|split; [|split]]].
    + intros ss i j Hss Hi Hj. destruct (FA ss Hss) as (p & q & A & _). rewrite Eh, A by assumption. f_equal. destruct (ss =? 0)%nat; reflexivity.
    + intros ss k Hss Hk. destruct (FA ss Hss) as (p & q & _ & _ & A). apply A. exact Hk.
    + intros ss k Hss Hk. destruct (Nat.eq_dec ss 0) as [->|Hne]; [apply HS0; exact Hk|]. destruct (HS ss ltac:(lia)) as (_ & _ & A). apply A. exact Hk.
    + intros ss Hss. destruct (HS ss Hss) as (_ & A & _). exact A.
    + exact HB'.
Qed.
End Kf.
