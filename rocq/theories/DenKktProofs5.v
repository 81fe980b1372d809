(** DenKktProofs5.v -- dense KKT solver over the reals: one attempt, the retry loop, and the re-solve with given factors. *)
From Coq Require Import ZArith Bool Arith Lia Reals Lra FunctionalExtensionality.
From Verif Require Import Base ArithF RSum Blas Blas2 CoreModel CoreProofs OcpModel ResSpec ResProofs CholProofs CholPD KktModel KktSpec KktProofs KktProofs2 KktProofs3 KktProofs4 KktProofs5 KktProofs6 KktProofs7 SolveProofs DenModel DenSpec DenProofs DenKktModel DenKktSpec DenKktProofs DenKktAlg DenKktProofs2 DenKktProofs3 DenKktProofs4.
Local Open Scope R_scope.

Section Den.
Variables (a : dka R) (q : dqp R) (lq : nat -> nat -> rmat -> rmat * rmat -> rmat * rmat) (scr : nat -> rvec).
Notation nv := (d_nv q). Notation ne := (d_ne q). Notation nb := (d_nb q). Notation ng := (d_ng q). Notation ns := (d_ns q).
Notation reg := (da_reg a).
Notation oq := (one_stage q).
Hypothesis Hwf : den_wf q.

(** the factors at hand belong to the matrix given by Gamma *)
Definition fac_ok (sc : bool) (Gamma : rvec) (preg dreg : R) (w : dkw R) : Prop :=
  Zok a q Gamma w /\
  if (ne =? 0)%nat then (if sc then Lok a q Gamma (w_sv w) preg w else Lok a q Gamma (fun _ => 1) preg w)
  else if Z.eqb (da_alg a) 0 then (ne <= nv)%nat /\ Nok a q Gamma preg w
  else if sc then Lok a q Gamma (w_sv w) preg w /\ Sok q (w_sv w) (w_se w) dreg w
  else Lok a q Gamma (fun _ => 1) reg w /\ Sok q (fun _ => 1) (fun _ => 1) dreg w.
(** reduced system *)
Definition red_ok (sc : bool) (Gamma gamma : rvec) (preg dreg : R) (dv dpi : rvec) : Prop :=
  exists rp rd, den_forces sc a q preg dreg dv dpi rp rd /\
    (forall i, (i < nv)%nat -> rsum nv (fun j => dM a q Gamma i j * dv j) + rp i + dh a q Gamma gamma i - rsum ne (fun j => d_A q j i * dpi j) = 0) /\
    (forall j, (j < ne)%nat -> d_b q j - rsum nv (fun k => d_A q j k * dv k) = rd j).

Lemma red0_ok Gamma gamma sc s preg dreg dv dpi : ne = 0%nat -> (sc = false -> s = fun _ => 1) -> (forall i, (i < nv)%nat -> 0 < s i) -> red_stat0 a q Gamma gamma s preg dv -> red_ok sc Gamma gamma preg dreg dv dpi.
Proof.
  intros E0 Hsc Hs H. exists (fun i => preg / (s i * s i) * dv i), (fun _ => 0). split; [|split].
  - unfold den_forces. rewrite E0, Nat.eqb_refl. exists (fun i => / (s i * s i)). split; [|split].
    + intros k Hk. apply Rinv_0_lt_compat. specialize (Hs k Hk). nra.
    + intros F k. rewrite (Hsc F). field.
    + intros k Hk. unfold Rdiv. ring.
  - intros i Hi. specialize (H i Hi). rewrite E0. cbn [rsum]. lra.
  - intros j Hj. lia.
Qed.
Lemma redS_ok Gamma gamma sc s e preg dreg dv dpi : ne <> 0%nat -> (da_alg a =? 0)%Z = false -> (sc = false -> s = (fun _ => 1) /\ e = (fun _ => 1)) -> (forall i, (i < nv)%nat -> 0 < s i) -> (forall i, (i < ne)%nat -> 0 < e i) ->
  red_stat a q Gamma gamma s (if sc then preg else reg) dv dpi -> red_eq q e dreg dv dpi -> red_ok sc Gamma gamma preg dreg dv dpi.
Proof.
  intros E0 Ea Hsc Hs He H H2. exists (fun i => (if sc then preg else reg) / (s i * s i) * dv i), (fun j => dreg / (e j * e j) * dpi j). split; [|split].
  - unfold den_forces. apply Nat.eqb_neq in E0. rewrite E0, Ea. exists (fun i => / (s i * s i)), (fun i => / (e i * e i)). split; [|split; [|split; [|split]]].
    + intros k Hk. apply Rinv_0_lt_compat. specialize (Hs k Hk). nra.
    + intros k Hk. apply Rinv_0_lt_compat. specialize (He k Hk). nra.
    + intros F. destruct (Hsc F) as (-> & ->). split; intros; field.
    + intros k Hk. unfold Rdiv. ring.
    + intros k Hk. unfold Rdiv. ring.
  - intros i Hi. exact (H i Hi).
  - intros j Hj. exact (H2 j Hj).
Qed.

(** solution with the factors at hand, common part of FACT_SOLVE_KKT_STEP and SOLVE_KKT_STEP *)
Lemma solve_ne_R sc Gamma gamma preg dreg w lv dv dpi : ne <> 0%nat -> fac_ok sc Gamma preg dreg w -> (forall i, (i < nv)%nat -> lv i = dh a q Gamma gamma i) ->
  let '(dv', dpi') := den_solve_ne a q scr sc lv w (dv, dpi) in red_ok sc Gamma gamma preg dreg dv' dpi' /\ (forall k, (nv <= k)%nat -> dv' k = dv k).
Proof.
  intros E0 (HZ & HF) Hlv. assert (E0' := E0). apply Nat.eqb_neq in E0'. rewrite E0' in HF. unfold den_solve_ne.
  destruct (da_alg a =? 0)%Z eqn:Ea.
  - destruct HF as (Hle & HF). pose proof (den_solve_null_R a q Gamma gamma lv w (scr 1%nat) (scr 2%nat) (scr 3%nat) (scr 4%nat) dv dpi preg Hle HF Hlv) as X.
    destruct (den_solve_null _ _ _ _ _ _ _ _) as [dv' dpi']. destruct X as ((p & y & X1 & X2 & X3) & X4 & X5). split; [|exact X5].
    exists (fun i => preg * p i), (fun _ => 0). split; [|split; [exact X3|exact X4]].
    unfold den_forces. rewrite E0', Ea. split; [|reflexivity]. exists p, y. split; [exact X1|]. split; [exact X2|reflexivity].
  - destruct sc; destruct HF as (HL & HS).
    + pose proof (den_solve_schur_sc_R a q Gamma gamma lv w dv dpi preg dreg HL HS Hlv) as X. destruct (den_solve_schur_sc _ _ _ _) as [dv' dpi']. destruct X as (X1 & X2 & X3). split; [|exact X3].
      eapply redS_ok; [exact E0|exact Ea|discriminate|exact (proj1 HL)|exact (proj1 HS)|exact X1|exact X2].
    + pose proof (den_solve_schur_R a q Gamma gamma lv w dv dpi reg dreg HL HS Hlv) as X. destruct (den_solve_schur _ _ _ _) as [dv' dpi']. destruct X as (X1 & X2 & X3). split; [|exact X3].
      eapply redS_ok; [exact E0|exact Ea|intros _; split; reflexivity|exact (proj1 HL)|exact (proj1 HS)|exact X1|exact X2].
Qed.

Notation lq_inv := (lq_ready a q lq).

(** enough for every pivot of an attempt with regularisation preg, dreg to be positive *)
Definition ppos (Gamma : rvec) (preg : R) : Prop :=
  if (ne =? 0)%nat then Mpd a q Gamma preg
  else if Z.eqb (da_alg a) 0 then Npd a q Gamma preg
  else if da_scale a then Mpd a q Gamma preg else Mpd a q Gamma reg.
Definition dpos (dreg : R) : Prop := ne <> 0%nat -> da_alg a <> 0%Z -> Apd q dreg.
Lemma st_ok st : st <> Fpreg -> st <> Fdreg -> st = Fok.
Proof. destruct st; congruence. Qed.
Lemma fact_ne_R Gamma preg dreg w w' st : ne <> 0%nat -> lq_inv w -> den_fact_ne a q lq Gamma preg dreg w = (w', st) -> lq_inv w' /\ (ppos Gamma preg -> st <> Fpreg) /\ (dpos dreg -> st <> Fdreg) /\ (st = Fok -> fac_ok (da_scale a) Gamma preg dreg w').
Proof.
  intros E0 Hlq. assert (E0' := E0). apply Nat.eqb_neq in E0'. unfold den_fact_ne, fac_ok, ppos, dpos. rewrite E0'. destruct (da_alg a =? 0)%Z eqn:Ea.
  - intros E. apply Z.eqb_eq in Ea. destruct (Hlq E0 Ea) as (Hle & Hg). destruct (den_fact_null_R a q Gamma Hwf lq preg w w' st Hle Hg E) as (X0 & X1 & X2 & X3). split; [intros _ _; split; [exact Hle|exact X3]|]. split; [intros P; rewrite (X0 P); discriminate|]. split; [intros _ F; rewrite F in E; unfold den_fact_null in E; destruct (den_lq _ _ _) as [[? ?] ?], (den_tmp0 _ _ _ _), (den_syrk _ _ _ _), (POTRF_L_MN _ _ _ _ _ _ _ _ _); destruct (singular _ _); discriminate|]. intros Es. split; [exact X1|]. split; [exact Hle|apply X2; exact Es].
  - apply Z.eqb_neq in Ea. destruct (da_scale a); intros E; (split; [intros _ F; contradiction|]).
    + destruct (den_fact_schur_sc_R a q Gamma Hwf preg dreg w w' st E) as (X0 & X0' & X). split; [exact X0|]. split; [intros P; apply X0', P; assumption|]. intros Es. destruct (X Es) as (X1 & X2 & X3). auto.
    + destruct (den_fact_schur_R a q Gamma Hwf preg dreg w w' st E) as (X0 & X0' & X). split; [exact X0|]. split; [intros P; apply X0', P; assumption|]. intros Es. destruct (X Es) as (X1 & X2 & X3). auto.
Qed.

Lemma fac_ok_tmp sc Gamma preg dreg tmp w : fac_ok sc Gamma preg dreg (set_tmp tmp w) <-> fac_ok sc Gamma preg dreg w.
Proof. unfold fac_ok, set_tmp, Zok, Lok, Sok, Nok. cbn [w_Zs w_Lv w_AL w_Le w_LQ w_Q w_Zt w_ZtH w_ZtHZ w_sv w_se]. reflexivity. Qed.

Lemma attempt_R Gamma gamma preg dreg w dv dpi w' s' st : lq_inv w -> den_attempt a q lq scr Gamma gamma preg dreg w (dv, dpi) = (w', s', st) ->
  lq_inv w' /\ (ppos Gamma preg -> st <> Fpreg) /\ (dpos dreg -> st <> Fdreg) /\ (st = Fok -> fac_ok (da_scale a) Gamma preg dreg w' /\ red_ok (da_scale a) Gamma gamma preg dreg (fst s') (snd s') /\ forall k, (k < 2 * ns)%nat -> fst s' (nv + k)%nat = Rq oq 0 gamma k).
Proof.
  intros Hlq. unfold den_attempt. destruct (Nat.ltb_spec 0 ne) as [H0|H0].
  - assert (E0 : ne <> 0%nat) by lia. destruct (den_fact_ne a q lq Gamma preg dreg w) as [w1 st1] eqn:E1. destruct (fact_ne_R Gamma preg dreg w w1 st1 E0 Hlq E1) as (I1 & P1 & P2 & F1).
    destruct st1; [|intros X; injection X as <- <- <-; split; [exact I1|split; [exact P1|split; [exact P2|discriminate]]]..]. specialize (F1 eq_refl). clear P1 P2.
    pose proof (den_tmp1_R a q Gamma gamma Hwf (w_tmp w1) dv (w_Zs w1) (proj1 F1)) as T. destruct (den_tmp1 _ _ _ _ _) as [tmp dv1]. destruct T as (T1 & T2 & _).
    pose proof (solve_ne_R (da_scale a) Gamma gamma preg dreg w1 (den_lv q tmp (scr 0%nat)) dv1 dpi E0 F1 (den_lv_R a q Gamma gamma tmp (scr 0%nat) T1)) as S.
    destruct (den_solve_ne _ _ _ _ _ _ _) as [dv2 dpi2]. destruct S as (S1 & S2). intros X. injection X as <- <- <-. split; [exact I1|]. split; [discriminate|]. split; [discriminate|]. intros _. split; [apply fac_ok_tmp; exact F1|]. split; [exact S1|].
    intros k Hk. cbn [fst]. rewrite S2 by lia. apply T2. exact Hk.
  - assert (E0 : ne = 0%nat) by lia. assert (PE : ppos Gamma preg -> Mpd a q Gamma preg) by (unfold ppos; rewrite E0, Nat.eqb_refl; auto). destruct (da_scale a) eqn:Esc.
    + destruct (den_fact_sc a q Gamma preg w) as [w1 st1] eqn:E1. destruct (den_fact_sc_R a q Gamma Hwf preg w w1 st1 E1) as (P1 & F).
      destruct st1; [|intros X; injection X as <- <- <-; split; [intros Z; lia|split; [intros P; discriminate (P1 (PE P))|split; [discriminate|discriminate]]]|exfalso; clear - E1; unfold den_fact_sc in E1; destruct (den_tmp0 _ _ _ _), (den_syrk _ _ _ _), (POTRF_L_MN _ _ _ _ _ _ _ _ _); destruct (singular _ _); discriminate]. destruct (F eq_refl) as (F1 & F2). clear F P1.
      pose proof (den_tmp1_R a q Gamma gamma Hwf (w_tmp w1) dv (w_Zs w1) F1) as T. destruct (den_tmp1 _ _ _ _ _) as [tmp dv1]. destruct T as (T1 & T2 & _).
      destruct (den_solve_sc_R a q Gamma gamma (den_lv q tmp (scr 0%nat)) w1 dv1 preg F2 (den_lv_R a q Gamma gamma tmp (scr 0%nat) T1)) as (S1 & S2).
      intros X. injection X as <- <- <-. split; [intros Z; lia|]. split; [discriminate|]. split; [discriminate|]. intros _. split; [apply fac_ok_tmp; split; [exact F1|rewrite E0, Nat.eqb_refl; exact F2]|]. cbn [fst snd]. split.
      * eapply red0_ok; [exact E0|discriminate|exact (proj1 F2)|exact S1].
      * intros k Hk. rewrite S2 by lia. apply T2. exact Hk.
    + destruct (den_fact_plain a q Gamma gamma preg w dv) as [[w1 dv1] st1] eqn:E1. destruct (den_plain_R a q Gamma gamma Hwf preg w dv w1 dv1 st1 E1) as (P1 & F).
      destruct st1; [|intros X; injection X as <- <- <-; split; [intros Z; lia|split; [intros P; discriminate (P1 (PE P))|split; [discriminate|discriminate]]]|exfalso; clear - E1; unfold den_fact_plain in E1; destruct (den_tmp0 _ _ _ _), (den_tmp1 _ _ _ _ _), (if (0 <? ng)%nat then _ else _) as [[? ?] ?]; destruct (singular _ _); discriminate]. destruct (F eq_refl) as (F1 & F2 & S1 & S2). clear F P1.
      intros X. injection X as <- <- <-. split; [intros Z; lia|]. split; [discriminate|]. split; [discriminate|]. intros _. split; [split; [exact F1|rewrite E0, Nat.eqb_refl; exact F2]|]. cbn [fst snd]. split; [|exact S2].
      eapply red0_ok; [exact E0|reflexivity|intros; lra|exact S1].
Qed.

Lemma loop_R Gamma gamma fuel : forall pi preg di dreg w s w' s' p' d', lq_inv w -> den_loop a q lq scr fuel Gamma gamma pi preg di dreg w s = Some (w', s', p', d') ->
  lq_inv w' /\ fac_ok (da_scale a) Gamma (snd p') (snd d') w' /\ red_ok (da_scale a) Gamma gamma (snd p') (snd d') (fst s') (snd s') /\ forall k, (k < 2 * ns)%nat -> fst s' (nv + k)%nat = Rq oq 0 gamma k.
Proof.
  induction fuel as [|fuel IH]; intros pi preg di dreg w [dv dpi] w' s' p' d' Hlq; cbn [den_loop]; [discriminate|].
  destruct (den_attempt a q lq scr Gamma gamma preg dreg w (dv, dpi)) as [[w1 s1] st] eqn:E. destruct (attempt_R Gamma gamma preg dreg w dv dpi w1 s1 st Hlq E) as (I & _ & _ & HS). destruct st.
  - intros X. injection X as <- <- <- <-. cbn [snd fst]. split; [exact I|]. apply HS. reflexivity.
  - apply IH. exact I.
  - apply IH. exact I.
Qed.

Hypothesis Hinj : den_soft_inj q.
Hypothesis Hp : den_point a q.
Hypothesis Hm : den_mask01 q.

Lemma finish sc tinv Gamma gamma Zs dv dpi dlam dt preg dreg : Gg_ok a q tinv Gamma gamma -> (forall k, (k < 2 * ns)%nat -> Zs k = Zq oq 0 reg Gamma k) -> red_ok sc Gamma gamma preg dreg dv dpi -> (forall k, (k < 2 * ns)%nat -> dv (nv + k)%nat = Rq oq 0 gamma k) ->
  let '(v', lam', t') := den_epilogue a q tinv Gamma Zs dv dlam dt in den_newton_reg sc a q preg dreg (mkdsol v' dpi lam' t').
Proof.
  intros HG HZ (rp & rd & HF & Hst & Heq) HR.
  pose proof (den_assemble a q Hwf Hinj Hp Hm tinv Gamma gamma Zs dv dpi dlam dt rp HG HZ HR Hst) as A. destruct (den_epilogue _ _ _ _ _ _ _ _) as [[v' lam'] t']. destruct A as (A1 & A2 & A3 & A4).
  exists (fun k => if (k <? nv)%nat then rp k else reg * v' k), rd. cbn [ds_v ds_pi ds_lam ds_t]. split; [|split; [|split; [|split; [|split]]]].
  - unfold den_forces in *. destruct (ne =? 0)%nat; [|destruct (da_alg a =? 0)%Z].
    + destruct HF as (wv & H1 & H2 & H3). exists wv. split; [exact H1|]. split; [exact H2|]. intros k Hk. apply Nat.ltb_lt in Hk as Hk'. rewrite Hk', A1 by exact Hk. apply H3. exact Hk.
    + destruct HF as ((p & y & H1 & H2 & H3) & H4). split; [|exact H4]. exists p, y. split; [|split; [exact H2|]].
      * intros k Hk. rewrite A1 by exact Hk. apply H1. exact Hk.
      * intros k Hk. apply Nat.ltb_lt in Hk as Hk'. rewrite Hk'. apply H3. exact Hk.
    + destruct HF as (wv & we & H1 & H2 & H3 & H4 & H5). exists wv, we. split; [exact H1|]. split; [exact H2|]. split; [exact H3|]. split; [|exact H5].
      intros k Hk. apply Nat.ltb_lt in Hk as Hk'. rewrite Hk', A1 by exact Hk. apply H4. exact Hk.
  - intros k Hk. destruct (Nat.ltb_spec k nv); [lia|]. reflexivity.
  - exact A2.
  - cbn [ds_v ds_pi]. intros j Hj. rewrite <- Heq by exact Hj. unfold den_eq. f_equal. apply rsum_ext. intros k Hk. rewrite A1 by exact Hk. reflexivity.
  - exact A3.
  - exact A4.
Qed.

Lemma fact_solve_R fuel g3 stp w s preg dreg tinv Gamma gamma w' : lq_inv w -> den_fact_solve a q lq scr fuel g3 stp w = Some (s, (preg, dreg), (tinv, Gamma, gamma), w') ->
  den_newton_reg (da_scale a) a q preg dreg s /\ Gg_ok a q tinv Gamma gamma /\ fac_ok (da_scale a) Gamma preg dreg w' /\ lq_inv w'.
Proof.
  intros Hlq. unfold den_fact_solve. pose proof (den_Gg_R a q Hp g3) as HG. destruct (den_Gg a q g3) as [[ti Gm] gm].
  destruct (den_loop _ _ _ _ _ _ _ _ _ _ _ _ _) as [[[[w1 [dv dpi]] [pi1 pr1]] [di1 dr1]]|] eqn:EL; [|discriminate].
  destruct (loop_R Gm gm fuel _ _ _ _ _ _ _ _ _ _ (Hlq : lq_inv (clear_npd w)) EL) as (I & F & Rd & Sl). cbn [fst snd] in *.
  pose proof (finish (da_scale a) ti Gm gm (w_Zs w1) dv dpi (ds_lam stp) (ds_t stp) pr1 dr1 HG (proj1 F) Rd Sl) as X. destruct (den_epilogue _ _ _ _ _ _ _ _) as [[v' lam'] t'].
  intros Y. injection Y as <- <- <- <- <- <- <-. split; [exact X|]. split; [exact HG|]. split; [exact F|exact I].
Qed.

(** SOLVE_KKT_STEP *)
Lemma solve_kkt_R tinv Gamma gamma0 stp w preg dreg : Gg_ok a q tinv Gamma (fun c => 1 / da_t a c * (d_m q c - da_lam a c * d_d q c)) -> fac_ok (w_scale w) Gamma preg dreg w ->
  let '(s, _, w') := den_solve_kkt a q scr tinv Gamma gamma0 stp w in den_newton_reg (w_scale w) a q preg dreg s /\ fac_ok (w_scale w) Gamma preg dreg w' /\ w_scale w' = w_scale w.
Proof.
  intros HG HF. unfold den_solve_kkt. set (gamma := if (0 <? nb + ng + ns)%nat then _ else gamma0).
  assert (HG' : Gg_ok a q tinv Gamma gamma).
  { intros c Hc. destruct (HG c Hc) as (G1 & G2 & G3). split; [exact G1|]. split; [exact G2|]. unfold gamma. destruct (Nat.ltb_spec 0 (nb + ng + ns)) as [H|H]; [|unfold d_nct in Hc; lia].
    unfold compute_gamma. pose proof (loop_upd_vset gamma0 0 (d_nct q) (fun ii => (tinv ii * (d_m q ii - da_lam a ii * d_d q ii))%F) c) as LV. cbn [Nat.add] in LV. rewrite LV. rewrite vset0 by exact Hc. rsimp. rewrite G1. reflexivity. }
  clearbody gamma. pose proof (den_tmp1_R a q Gamma gamma Hwf (w_tmp w) (ds_v stp) (w_Zs w) (proj1 HF)) as T. destruct (den_tmp1 _ _ _ _ _) as [tmp dv]. destruct T as (T1 & T2 & _).
  pose proof (den_lv_R a q Gamma gamma tmp (scr 0%nat) T1) as Hlv. set (lv := den_lv q tmp (scr 0%nat)) in *. clearbody lv.
  set (vp := if (0 <? ne)%nat then _ else _).
  assert (HV : red_ok (w_scale w) Gamma gamma preg dreg (fst vp) (snd vp) /\ forall k, (nv <= k)%nat -> fst vp k = dv k).
  { unfold vp. destruct (Nat.ltb_spec 0 ne) as [H0|H0].
    - pose proof (solve_ne_R (w_scale w) Gamma gamma preg dreg w lv dv (ds_pi stp) ltac:(lia) HF Hlv) as S. destruct (den_solve_ne _ _ _ _ _ _ _) as [dv' dpi']. exact S.
    - assert (E0 : ne = 0%nat) by lia. destruct HF as (HZ & HF). rewrite E0, Nat.eqb_refl in HF. destruct (w_scale w) eqn:Esc; cbn [fst snd].
      + destruct (den_solve_sc_R a q Gamma gamma lv w dv preg HF Hlv) as (S1 & S2). split; [|exact S2]. eapply red0_ok; [exact E0|discriminate|exact (proj1 HF)|exact S1].
      + destruct (den_solve_plain_R a q Gamma gamma lv w dv preg HF Hlv) as (S1 & S2). split; [|exact S2]. eapply red0_ok; [exact E0|reflexivity|intros; lra|exact S1]. }
  destruct vp as [dv' dpi']. cbn [fst snd] in HV. destruct HV as (V1 & V2).
  pose proof (finish (w_scale w) tinv Gamma gamma (w_Zs w) dv' dpi' (ds_lam stp) (ds_t stp) preg dreg HG' (proj1 HF) V1) as X.
  specialize (X ltac:(intros k Hk; rewrite V2 by lia; apply T2; exact Hk)). destruct (den_epilogue _ _ _ _ _ _ _ _) as [[v' lam'] t']. split; [exact X|]. split; [apply fac_ok_tmp; exact HF|reflexivity].
Qed.
End Den.

(** FACT_KKT_STEP *)
Lemma fact_kkt_R (a : dka R) (q : dqp R) lq g2 w : den_wf q -> den_point a q -> lq_ready a q lq w ->
  let '((tinv, Gamma), w') := den_fact_kkt a q lq g2 w in Gg_ok a q tinv Gamma (fun c => 1 / da_t a c * (d_m q c - da_lam a c * d_d q c)) /\
  (ppos a q Gamma (da_reg a) -> dpos a q (da_dreg a) -> fac_ok a q (da_scale a) Gamma (da_reg a) (da_dreg a) w').
Proof.
  intros Hwf Hp Hlq. unfold den_fact_kkt. destruct g2 as [ti0 G0]. set (g2 := if (0 <? d_nb q + d_ng q + d_ns q)%nat then _ else _).
  assert (HG : Gg_ok a q (fst g2) (snd g2) (fun c => 1 / da_t a c * (d_m q c - da_lam a c * d_d q c))).
  { intros c Hc. unfold g2. destruct (Nat.ltb_spec 0 (d_nb q + d_ng q + d_ns q)) as [H|H]; [|unfold d_nct in Hc; lia].
    pose proof (compute_Ggamma_spec (da_tlm a) (d_nct q) (da_lam a) (da_t a) (da_lam_min a) (da_t_min a) (da_t_min_inv a) ti0 G0 c) as X. destruct (compute_Ggamma _ _ _ _ _ _ _ _) as [ti Gm]. cbn [fst snd].
    apply Nat.ltb_lt in Hc as Hc'. rewrite Hc' in X. destruct X as (X1 & X2). revert X1 X2. rsimp. rewrite R_lit11. intros X1 X2. split; [exact X1|]. split; [|reflexivity]. rewrite X2. apply (clip_wgt a q Hp). exact Hc. }
  clearbody g2. destruct g2 as [tinv Gamma]. cbn [fst snd] in *. split; [exact HG|]. intros HP HD. destruct (Nat.ltb_spec 0 (d_ne q)) as [H0|H0].
  - destruct (den_fact_ne a q lq Gamma (da_reg a) (da_dreg a) w) as [w1 st] eqn:E. destruct (fact_ne_R a q lq Hwf Gamma _ _ w w1 st ltac:(lia) Hlq E) as (_ & P & P' & F). cbn [fst]. apply F, st_ok; auto.
  - assert (E0 : d_ne q = 0%nat) by lia. unfold ppos in HP. unfold fac_ok. rewrite E0, Nat.eqb_refl in *. destruct (da_scale a).
    + destruct (den_fact_sc a q Gamma (da_reg a) w) as [w1 st] eqn:E. destruct (den_fact_sc_R a q Gamma Hwf _ w w1 st E) as (P & F). cbn [fst]. apply F, P. exact HP.
    + destruct (den_fact_plain0_R a q Gamma Hwf w _ eq_refl) as (P & F). apply F, P. exact HP.
Qed.

(** convexity makes every pivot positive *)
Section Convex.
Variables (a : dka R) (q : dqp R).
Hypothesis Hwf : den_wf q.
Hypothesis Hc : den_convex a q.
Notation nv := (d_nv q). Notation nb := (d_nb q). Notation ng := (d_ng q). Notation ns := (d_ns q).

Lemma cx_wgt c : (c < d_nct q)%nat -> 0 <= den_wgt a c.
Proof. intros H. destruct (dc_t _ _ Hc c H). unfold den_wgt, Rdiv. apply Rmult_le_pos; [assumption|]. left. apply Rinv_0_lt_compat. assumption. Qed.
Lemma cx_piv k : (k < 2 * ns)%nat -> 0 < den_pivot q (da_reg a) (den_wgt a) k.
Proof.
  intros Hk. unfold den_pivot. pose proof (dc_Z _ _ Hc k Hk) as HZ.
  assert (Hg : 0 <= den_wgt a (2 * nb + 2 * ng + k)%nat) by (apply cx_wgt; unfold d_nct; lia).
  set (S := rsum _ _). assert (HS : 0 <= S).
  { unfold S. apply rsum_nonneg. intros j Hj. assert (0 <= den_wgt a j) by (apply cx_wgt; unfold d_nct; lia). assert (0 <= den_wgt a (nb + ng + j)%nat) by (apply cx_wgt; unfold d_nct; lia).
    assert (0 <= soft_co (d_idxs_rev q) 0 j k * den_wgt a j) by (apply Rmult_le_pos; [apply soft_co_01|assumption]).
    assert (0 <= soft_co (d_idxs_rev q) ns j k * den_wgt a (nb + ng + j)%nat) by (apply Rmult_le_pos; [apply soft_co_01|assumption]). lra. }
  destruct (dc_slack _ _ Hc k Hk) as [H|H]; [lra|].
  assert (0 < den_wgt a (2 * nb + 2 * ng + k)%nat); [|lra]. destruct (dc_t _ _ Hc (2 * nb + 2 * ng + k)%nat ltac:(unfold d_nct; lia)). unfold den_wgt. apply Rdiv_lt_0_compat; assumption.
Qed.
Lemma cx_den_point : (forall c, (c < d_nct q)%nat -> d_mask q c = 0 -> da_lam a c = 0 /\ d_m q c = 0) -> den_point a q.
Proof.
  intros Hm. split; [intros c H; destruct (dc_t _ _ Hc c H); lra|exact (dc_clip _ _ Hc)|exact Hm|]. intros k Hk. pose proof (cx_piv k Hk). lra.
Qed.
Variable Gamma : rvec.
Hypothesis HG : forall c, (c < d_nct q)%nat -> Gamma c = den_wgt a c.
Lemma cx_dM p : den_quad q p <= quadf nv (dM a q Gamma) p.
Proof.
  set (o := one_stage q).
  assert (H1 : forall i c, (i <= dN (q_dim o))%nat -> (c < nct (q_dim o) i)%nat -> 0 <= (fun _ : nat => Gamma) i c) by (intros i c _ H; cbv beta; rewrite HG by exact H; apply cx_wgt; exact H).
  assert (H2 : forall i k, (i <= dN (q_dim o))%nat -> (k < 2 * dns (q_dim o) i)%nat -> 0 <= q_Z o i k + da_reg a) by (intros i k _ H; exact (dc_Z _ _ Hc k H)).
  assert (H3 : forall i k, (i <= dN (q_dim o))%nat -> (k < 2 * dns (q_dim o) i)%nat -> 0 < slack_pivot o (da_reg a) ((fun _ : nat => Gamma) i) i k).
  { intros i k _ Hk. pose proof (cx_piv k Hk) as P. replace (slack_pivot o (da_reg a) Gamma i k) with (den_pivot q (da_reg a) (den_wgt a) k); [exact P|]. unfold den_pivot, slack_pivot. cbn [o one_stage q_dim q_Z dnb dng dns q_idxs_rev].
    cbn in Hk. f_equal; [f_equal; symmetry; apply HG; unfold d_nct; lia|]. apply rsum_ext. intros j Hj. rewrite !HG by (unfold d_nct; lia). reflexivity. }
  assert (HT : forall c, (c < nb + ng)%nat -> 0 <= T0q o 0 (da_reg a) Gamma c) by (intros c H; exact (T0_nonneg o (da_reg a) (fun _ => Gamma) (one_wf q Hwf) H1 H2 H3 0%nat c ltac:(lia) H)).
  unfold dM. rewrite (quadf_ext nv _ (fun i j => den_Hess q i j + rsum (nb + ng) (fun c => (rowq o 0 c i * sqrt (T0q o 0 (da_reg a) Gamma c)) * (rowq o 0 c j * sqrt (T0q o 0 (da_reg a) Gamma c)))) p p); [|intros i j Hi Hj|reflexivity].
  - rewrite quadf_add, quadf_sq. change (quadf nv (den_Hess q) p) with (den_quad q p). match goal with |- _ <= _ + rsum ?n ?f => assert (0 <= rsum n f) by (apply rsum_nonneg; intros; nra) end. lra.
  - unfold stH. assert (E : symL (q_RSQ (one_stage q) 0) i j = den_Hess q i j).
    { unfold den_Hess, H_co, symL. cbn [one_stage q_RSQ]. destruct (Nat.ltb_spec i nv); [|lia]. destruct (Nat.ltb_spec j nv); [reflexivity|lia]. }
    rewrite E. rewrite (rsum_ext _ _ (fun c => (rowq o 0 c i * sqrt (T0q o 0 (da_reg a) Gamma c)) * (rowq o 0 c j * sqrt (T0q o 0 (da_reg a) Gamma c)))).
    + change (dnb (q_dim (one_stage q)) 0 + dng (q_dim (one_stage q)) 0)%nat with (nb + ng)%nat. destruct (i =? j)%nat; lra.
    + intros c Hcc. fold o. rewrite <- (sqrt_sqrt (T0q o 0 (da_reg a) Gamma c)) at 1 by (apply HT; exact Hcc). ring.
Qed.
Lemma nz_dec n (z : rvec) : (exists l, (l < n)%nat /\ z l <> 0) \/ forall l, (l < n)%nat -> z l = 0.
Proof.
  induction n as [|n IH]; [right; intros; lia|]. destruct IH as [(l & Hl & E)|E]; [left; exists l; split; [lia|exact E]|].
  destruct (Req_EM_T (z n) 0) as [E'|E']; [right; intros l Hl; destruct (Nat.eq_dec l n) as [->|]; [exact E'|apply E; lia]|left; exists n; split; [lia|exact E']].
Qed.
Lemma cx_pos : ppos a q Gamma (da_reg a) /\ dpos a q (da_dreg a).
Proof.
  assert (HMpd : (forall p, den_dir a q p) -> Mpd a q Gamma (da_reg a)).
  { intros Hd s Hs0 v (k & Hk & Ev). assert (Hs : forall i, (i < nv)%nat -> 0 < s i) by (intros i Hi; destruct Hs0 as [E|E]; rewrite E by exact Hi; [lra|apply scl_pos]). rewrite quadf_add, quadf_delta. set (u := fun i => s i * v i).
    assert (Eu : quadf nv (fun i j => s i * dM a q Gamma i j * s j) v = quadf nv (dM a q Gamma) u) by (unfold quadf, u; apply rsum_ext; intros; apply rsum_ext; intros; ring). rewrite Eu.
    pose proof (cx_dM u) as D. pose proof (dc_H0 _ _ Hc u (Hd u)) as D0. pose proof (sq_pos nv v k Hk Ev) as Pv. pose proof (dc_reg _ _ Hc) as Hr. destruct (Req_EM_T (da_reg a) 0) as [Er|Er].
    - assert (Uk : u k <> 0) by (unfold u; specialize (Hs k Hk); intros Z; apply Ev; nra). pose proof (dc_H _ _ Hc u (Hd u) (ex_intro _ k (conj Hk Uk))) as P. rewrite Er in *. lra.
    - assert (0 < da_reg a * rsum nv (fun i => v i * v i)) by (apply Rmult_lt_0_compat; lra). lra. }
  split; [|intros E0 Ea; exact (dc_A _ _ Hc E0 Ea)]. unfold ppos. destruct (Nat.eqb_spec (d_ne q) 0) as [E0|E0].
  - apply HMpd. intros p _ j Hj. lia.
  - destruct (Z.eqb_spec (da_alg a) 0) as [Ea|Ea].
    + intros p Hp Hnz. assert (Hd : den_dir a q p) by (intros _; exact Hp). pose proof (cx_dM p). pose proof (dc_H _ _ Hc p Hd Hnz). lra.
    + assert (Hd : forall p, den_dir a q p) by (intros p F; contradiction). destruct (da_scale a); apply HMpd; exact Hd.
Qed.
End Convex.
