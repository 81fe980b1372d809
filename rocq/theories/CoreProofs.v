(** CoreProofs.v -- lemmas on the core interior point routines. *)
From Coq Require Import ZArith Bool Arith Lia Reals Lra Psatz.
From Coq Require Import Floats.SpecFloat.
From Verif Require Import Base ArithF CoreModel.
Local Open Scope R_scope.

(** ** Elementwise loops *)
Lemma loop_map {A} (n : nat) (g : nat -> A -> A) (a : nat -> A) k :
  loop n (fun i b => upd b i (g i (b i))) a k = if Nat.ltb k n then g k (a k) else a k.
Proof.
  revert k. induction n as [|n IH]; intros k; [reflexivity|]. cbn [loop].
  destruct (Nat.eq_dec k n) as [->|Hne].
  - rewrite upd_same, IH, Nat.ltb_irrefl. destruct (Nat.ltb_spec n (S n)); [reflexivity|lia].
  - rewrite upd_other by assumption. rewrite IH.
    destruct (Nat.ltb_spec k n); destruct (Nat.ltb_spec k (S n)); try reflexivity; lia.
Qed.
Lemma loop_fill {A} (n : nat) (g : nat -> A) (a : nat -> A) k :
  loop n (fun i b => upd b i (g i)) a k = if Nat.ltb k n then g k else a k.
Proof. exact (loop_map n (fun i _ => g i) a k). Qed.

Section Generic.
Context {F : Type} {AF : Arith F}.
Notation vec := (nat -> F).
Local Open Scope F_scope.

Lemma compute_lam_t_spec nc (lam t_inv res_d res_m dlam dt : vec) k :
  let '(dlam', dt') := compute_lam_t nc lam t_inv res_d res_m (dlam, dt) in
  dlam' k = (if Nat.ltb k nc then - t_inv k * (res_m k + (lam k * dt k) - (lam k * res_d k)) else dlam k) /\
  dt' k = (if Nat.ltb k nc then dt k - res_d k else dt k).
Proof.
  unfold compute_lam_t.
  set (body := fun ii '(dlam, dt) => _).
  enough (H : forall n, forall k, let '(dlam', dt') := loop n body (dlam, dt) in
    dlam' k = (if Nat.ltb k n then - t_inv k * (res_m k + (lam k * dt k) - (lam k * res_d k)) else dlam k) /\
    dt' k = (if Nat.ltb k n then dt k - res_d k else dt k)) by apply H.
  clear k. induction n as [|n IH]; intros k; cbn [loop]; [cbn; auto|].
  destruct (loop n body (dlam, dt)) as [dl dtt]. unfold body at 1.
  destruct (IH n) as [H1 H2]. rewrite Nat.ltb_irrefl in H1, H2.
  destruct (Nat.eq_dec k n) as [->|Hne].
  - rewrite !upd_same, H2. destruct (Nat.ltb_spec n (S n)); [auto|lia].
  - rewrite !upd_other by assumption. destruct (IH k) as [K1 K2]. rewrite K1, K2.
    destruct (Nat.ltb_spec k n); destruct (Nat.ltb_spec k (S n)); try lia; auto.
Qed.

Lemma compute_Gamma_gamma_spec tl nc (lam t : vec) lam_min t_min t_min_inv res_d res_m ti0 G0 g0 k :
  let '(t_inv, Gamma, gamma) := compute_Gamma_gamma tl nc lam t lam_min t_min t_min_inv res_d res_m (ti0, G0, g0) in
  t_inv k = (if Nat.ltb k nc then f1 / t k else ti0 k) /\
  Gamma k = (if Nat.ltb k nc then
     (if Z.eqb tl 1 then (if t k <? t_min then t_min_inv else f1 / t k) * (if lam k <? lam_min then lam_min else lam k)
      else f1 / t k * lam k) else G0 k) /\
  gamma k = (if Nat.ltb k nc then f1 / t k * (res_m k - lam k * res_d k) else g0 k).
Proof.
  unfold compute_Gamma_gamma. destruct (Z.eqb tl 1).
  all: set (body := fun ii '(t_inv, Gamma, gamma) => _).
  all: revert k; induction nc as [|n IH]; intros k; cbn [loop]; [cbn; auto|].
  all: destruct (loop n body (ti0, G0, g0)) as [[ti G] g]; unfold body at 1.
  all: destruct (Nat.eq_dec k n) as [->|Hne];
    [rewrite !upd_same; destruct (Nat.ltb_spec n (S n)); [auto|lia]
    |rewrite !upd_other by assumption; destruct (IH k) as (K1 & K2 & K3); rewrite K1, K2, K3;
     destruct (Nat.ltb_spec k n); destruct (Nat.ltb_spec k (S n)); try lia; auto].
Qed.
Lemma compute_Ggamma_spec tl nc (lam t : vec) lam_min t_min t_min_inv ti0 G0 k :
  let '(t_inv, Gamma) := compute_Ggamma tl nc lam t lam_min t_min t_min_inv (ti0, G0) in
  t_inv k = (if Nat.ltb k nc then f1 / t k else ti0 k) /\
  Gamma k = (if Nat.ltb k nc then
     (if Z.eqb tl 1 then (if t k <? t_min then t_min_inv else f1 / t k) * (if lam k <? lam_min then lam_min else lam k)
      else f1 / t k * lam k) else G0 k).
Proof.
  unfold compute_Ggamma. destruct (Z.eqb tl 1).
  all: set (body := fun ii '(t_inv, Gamma) => _).
  all: revert k; induction nc as [|n IH]; intros k; cbn [loop]; [cbn; auto|].
  all: destruct (loop n body (ti0, G0)) as [ti G]; unfold body at 1.
  all: destruct (Nat.eq_dec k n) as [->|Hne];
    [rewrite !upd_same; destruct (Nat.ltb_spec n (S n)); [auto|lia]
    |rewrite !upd_other by assumption; destruct (IH k) as (K1 & K2); rewrite K1, K2;
     destruct (Nat.ltb_spec k n); destruct (Nat.ltb_spec k (S n)); try lia; auto].
Qed.

Lemma step_arr_spec n a (dx x b : vec) k :
  let '(x', b') := step_arr n a dx (x, b) in
  x' k = (if Nat.ltb k n then x k + a * dx k else x k) /\ b' k = (if Nat.ltb k n then x k else b k).
Proof.
  unfold step_arr. set (body := fun ii '(x, bkp) => _).
  revert k; induction n as [|n IH]; intros k; cbn [loop]; [cbn; auto|].
  destruct (loop n body (x, b)) as [x1 b1]; unfold body at 1.
  destruct (IH n) as [N1 N2]. rewrite Nat.ltb_irrefl in N1, N2.
  destruct (Nat.eq_dec k n) as [->|Hne].
  - rewrite !upd_same, N1; destruct (Nat.ltb_spec n (S n)); [auto|lia].
  - rewrite !upd_other by assumption; destruct (IH k) as (K1 & K2); rewrite K1, K2.
    destruct (Nat.ltb_spec k n); destruct (Nat.ltb_spec k (S n)); try lia; auto.
Qed.
Lemma step_clip_spec n a xmin (dx x b : vec) k :
  let '(x', b') := step_clip n a xmin dx (x, b) in
  x' k = (if Nat.ltb k n then (if x k + a * dx k <=? xmin then xmin else x k + a * dx k) else x k) /\
  b' k = (if Nat.ltb k n then x k else b k).
Proof.
  unfold step_clip. set (body := fun ii '(x, bkp) => _).
  revert k; induction n as [|n IH]; intros k; cbn [loop]; [cbn; auto|].
  destruct (loop n body (x, b)) as [x1 b1]; unfold body at 1.
  destruct (IH n) as [N1 N2]. rewrite Nat.ltb_irrefl in N1, N2.
  destruct (Nat.eq_dec k n) as [->|Hne].
  - rewrite !upd_same, N1; destruct (Nat.ltb_spec n (S n)); [auto|lia].
  - rewrite !upd_other by assumption; destruct (IH k) as (K1 & K2); rewrite K1, K2.
    destruct (Nat.ltb_spec k n); destruct (Nat.ltb_spec k (S n)); try lia; auto.
Qed.
Lemma copy_arr_spec n (x b : vec) k : copy_arr n x b k = if Nat.ltb k n then x k else b k.
Proof. exact (loop_fill n x b k). Qed.

(** The update as a whole. *)
Lemma update_var_spec nv ne nc tl lam_min t_min ap ad d x bkp k :
  let '(x', bkp') := update_var nv ne nc tl lam_min t_min ap ad d (x, bkp) in
  let '(p, q) := damped ap ad in
  let clip z zmin := if Z.eqb tl 2 then (if z <=? zmin then zmin else z) else z in
  va_v x' k = (if Nat.ltb k nv then va_v x k + p * va_v d k else va_v x k) /\
  va_pi x' k = (if Nat.ltb k ne then va_pi x k + q * va_pi d k else va_pi x k) /\
  va_lam x' k = (if Nat.ltb k nc then clip (va_lam x k + q * va_lam d k) lam_min else va_lam x k) /\
  va_t x' k = (if Nat.ltb k nc then clip (va_t x k + p * va_t d k) t_min else va_t x k) /\
  va_v bkp' k = (if Nat.ltb k nv then va_v x k else va_v bkp k) /\
  va_pi bkp' k = (if Nat.ltb k ne then va_pi x k else va_pi bkp k) /\
  va_lam bkp' k = (if Nat.ltb k nc then va_lam x k else va_lam bkp k) /\
  va_t bkp' k = (if Nat.ltb k nc then va_t x k else va_t bkp k).
Proof.
  unfold update_var. destruct (damped ap ad) as [p q].
  pose proof (step_arr_spec nv p (va_v d) (va_v x) (va_v bkp) k) as Hv.
  destruct (step_arr nv p (va_v d) (va_v x, va_v bkp)) as [v v_b]. destruct Hv as [Hv1 Hv2].
  pose proof (step_arr_spec ne q (va_pi d) (va_pi x) (va_pi bkp) k) as Hp.
  destruct (step_arr ne q (va_pi d) (va_pi x, va_pi bkp)) as [pi pi_b]. destruct Hp as [Hp1 Hp2].
  destruct (Z.eqb tl 2).
  - pose proof (step_clip_spec nc q lam_min (va_lam d) (va_lam x) (va_lam bkp) k) as Hl.
    destruct (step_clip nc q lam_min (va_lam d) (va_lam x, va_lam bkp)) as [l l_b]. destruct Hl as [Hl1 Hl2].
    pose proof (step_clip_spec nc p t_min (va_t d) (va_t x) (va_t bkp) k) as Ht.
    destruct (step_clip nc p t_min (va_t d) (va_t x, va_t bkp)) as [tt t_b]. destruct Ht as [Ht1 Ht2].
    cbn [va_v va_pi va_lam va_t]. repeat split; assumption.
  - pose proof (step_arr_spec nc q (va_lam d) (va_lam x) (va_lam bkp) k) as Hl.
    destruct (step_arr nc q (va_lam d) (va_lam x, va_lam bkp)) as [l l_b]. destruct Hl as [Hl1 Hl2].
    pose proof (step_arr_spec nc p (va_t d) (va_t x) (va_t bkp) k) as Ht.
    destruct (step_arr nc p (va_t d) (va_t x, va_t bkp)) as [tt t_b]. destruct Ht as [Ht1 Ht2].
    cbn [va_v va_pi va_lam va_t]. repeat split; assumption.
Qed.
End Generic.

(** ** Real arithmetic: the step length *)
Lemma shrink l dl a b : 0 < l -> 0 <= b -> b <= a -> 0 <= l + a * dl -> 0 <= l + b * dl.
Proof. intros. destruct (Rle_dec 0 dl); nra. Qed.
Lemma ratio_bounds l dl a : 0 < l -> 0 < a -> l + a * dl < 0 -> 0 < - l / dl /\ - l / dl < a /\ l + - l / dl * dl = 0.
Proof.
  intros Hl Ha H. assert (dl < 0) by nra.
  assert (E : - l / dl = l / - dl) by (field; lra).
  split; [rewrite E; apply Rdiv_lt_0_compat; lra|]. split; [|field; lra].
  rewrite E. apply Rmult_lt_reg_r with (- dl); [lra|]. unfold Rdiv. rewrite Rmult_assoc, Rinv_l by lra. nra.
Qed.

Lemma alpha_split_mzero_spec nc (lam t dlam dt : nat -> R) :
  (forall i, (i < nc)%nat -> 0 < lam i /\ 0 < t i) ->
  let '(ap, ad) := alpha_split_mzero nc lam t dlam dt in
  0 < ap <= 1 /\ 0 < ad <= 1 /\
  (forall i, (i < nc)%nat -> 0 <= lam i + ad * dlam i /\ 0 <= t i + ap * dt i) /\
  (ap = 1 \/ exists i, (i < nc)%nat /\ t i + ap * dt i = 0) /\
  (ad = 1 \/ exists i, (i < nc)%nat /\ lam i + ad * dlam i = 0).
Proof.
  intros Hpos. unfold alpha_split_mzero.
  set (P := fun (k : nat) (a : R * R) => let '(ap, ad) := a in
    0 < ap <= 1 /\ 0 < ad <= 1 /\
    (forall i, (i < k)%nat -> 0 <= lam i + ad * dlam i /\ 0 <= t i + ap * dt i) /\
    (ap = 1 \/ exists i, (i < k)%nat /\ t i + ap * dt i = 0) /\
    (ad = 1 \/ exists i, (i < k)%nat /\ lam i + ad * dlam i = 0)).
  change (P nc (loop nc (ratio_split lam t dlam dt) (f1, f1))).
  apply loop_ind.
  - unfold P. rsimp. rewrite R_lit11. split; [lra|]. split; [lra|]. split; [intros; lia|]. split; left; reflexivity.
  - intros k [ap ad] Hk (Hap & Had & Hall & Hmp & Hmd). unfold P, ratio_split. rsimp. rewrite !R_lit01.
    destruct (Hpos k Hk) as [Hl Ht].
    assert (D : let ad' := if Rltb (lam k + ad * dlam k) 0 then - lam k / dlam k else ad in
      0 < ad' <= ad /\ 0 <= lam k + ad' * dlam k /\ (ad' = ad \/ lam k + ad' * dlam k = 0)).
    { destruct (Rltb_spec (lam k + ad * dlam k) 0) as [H|H]; cbn zeta.
      - destruct (ratio_bounds (lam k) (dlam k) ad ltac:(lra) ltac:(lra) H) as (B1 & B2 & B3). rewrite B3. split; [lra|]. split; [lra|]. right; reflexivity.
      - split; [lra|]. split; [lra|]. left; reflexivity. }
    assert (Pp : let ap' := if Rltb (t k + ap * dt k) 0 then - t k / dt k else ap in
      0 < ap' <= ap /\ 0 <= t k + ap' * dt k /\ (ap' = ap \/ t k + ap' * dt k = 0)).
    { destruct (Rltb_spec (t k + ap * dt k) 0) as [H|H]; cbn zeta.
      - destruct (ratio_bounds (t k) (dt k) ap ltac:(lra) ltac:(lra) H) as (B1 & B2 & B3). rewrite B3. split; [lra|]. split; [lra|]. right; reflexivity.
      - split; [lra|]. split; [lra|]. left; reflexivity. }
    cbn zeta in *.
    set (ad' := if Rltb (lam k + ad * dlam k) 0 then _ else _) in *.
    set (ap' := if Rltb (t k + ap * dt k) 0 then _ else _) in *.
    destruct D as (D1 & D2 & D3). destruct Pp as (P1 & P2 & P3).
    split; [lra|]. split; [lra|]. split; [|split].
    + intros i Hi. destruct (Nat.eq_dec i k) as [->|Hne]; [split; assumption|].
      destruct (Hall i ltac:(lia)) as [A1 A2]. destruct (Hpos i ltac:(lia)) as [B1 B2].
      split; [apply shrink with ad|apply shrink with ap]; lra.
    + destruct P3 as [E|E]; [|right; exists k; split; [lia|assumption]].
      rewrite E. destruct Hmp as [H|(i & Hi & H)]; [left; assumption|right; exists i; split; [lia|assumption]].
    + destruct D3 as [E|E]; [|right; exists k; split; [lia|assumption]].
      rewrite E. destruct Hmd as [H|(i & Hi & H)]; [left; assumption|right; exists i; split; [lia|assumption]].
Qed.

(** The formula used for the first point where a quadratic that is positive at 0 vanishes. *)
Lemma quad_root a b c x : a <> 0 -> 0 < c -> 0 < x -> a * x * x + b * x + c < 0 ->
  let r := (- b - sqrt (b * b - 4 * a * c)) * (1 / 2 / a) in
  0 < r < x /\ a * r * r + b * r + c = 0.
Proof.
  intros Ha Hc Hx Hg r.
  assert (Hd : 0 <= b * b - 4 * a * c).
  { destruct (Rlt_dec 0 a) as [Hp|Hn]; [|apply Rnot_lt_le in Hn; assert (0 <= - a * c) by (apply Rmult_le_pos; lra); pose proof (Rle_0_sqr b) as Hq; unfold Rsqr in Hq; lra].
    assert (0 < a * - (a * x * x + b * x + c)) by (apply Rmult_lt_0_compat; lra).
    pose proof (Rle_0_sqr (2 * a * x + b)) as Hq. unfold Rsqr in Hq. lra. }
  set (s := sqrt (b * b - 4 * a * c)) in *.
  assert (Hs0 : 0 <= s) by apply sqrt_pos.
  assert (Hs : s * s = b * b - 4 * a * c) by (unfold s; apply sqrt_sqrt; assumption).
  assert (Er : 2 * a * r = - b - s) by (unfold r; field; assumption).
  assert (Hroot : a * r * r + b * r + c = 0).
  { apply Rmult_eq_reg_l with (4 * a); [|lra].
    replace (4 * a * (a * r * r + b * r + c)) with ((2 * a * r) * (2 * a * r) + 2 * b * (2 * a * r) + 4 * a * c) by ring.
    rewrite Er. replace (- b - s) with (- (b + s)) by ring. nra. }
  split; [|exact Hroot].
  destruct (Rlt_dec 0 a) as [Hp|Hn].
  - assert (Hb : b < 0) by nra.
    assert (Hsb : s < - b) by nra.
    assert (0 < r) by nra. split; [assumption|].
    (* x lies strictly between the roots *)
    apply Rnot_le_lt. intros Hle.
    assert (2 * a * x <= - b - s) by nra.
    assert ((2 * a * x + b) * (2 * a * x + b) < s * s) by nra.
    nra.
  - assert (Hn' : a < 0) by lra.
    assert (Hsb : Rabs b < s) by (apply Rsqr_incrst_0; [unfold Rsqr; rewrite Hs; assert (Rabs b * Rabs b = b * b) by (rewrite <- Rabs_mult; apply Rabs_right; nra); nra|apply Rabs_pos|assumption]).
    assert (b < s /\ - b < s) as [Hb1 Hb2]. { pose proof (Rle_abs b). pose proof (Rle_abs (- b)) as H0. rewrite Rabs_Ropp in H0. lra. }
    assert (0 < r) by nra. split; [assumption|].
    apply Rnot_le_lt. intros Hle.
    assert (2 * a * x >= - b - s) by nra.
    assert (2 * a * x + b <= s) by nra. 
    assert ((2 * a * x + b) * (2 * a * x + b) > s * s) by nra. nra.
Qed.

Lemma tiny_pos : 0 < 1 / 1000000000000. Proof. lra. Qed.

(** ** Separate steps, complementarity target m *)
Section SplitM.
Variables (nc : nat) (ms : R) (lam t dlam dt m : nat -> R).
Hypothesis Hpos : forall i, (i < nc)%nat -> 0 < lam i /\ 0 < t i.
Hypothesis Hctr : forall i, (i < nc)%nat -> ms * m i < lam i * t i.

Definition okA (k : nat) (a : R * R) : Prop :=
  0 < fst a <= 1 /\ 0 < snd a <= 1 /\ (forall i, (i < k)%nat -> 0 <= lam i + snd a * dlam i /\ 0 <= t i + fst a * dt i).
Lemma okA_shrink k a b : (k <= nc)%nat -> okA k a -> 0 < fst b <= fst a -> 0 < snd b <= snd a -> okA k b.
Proof.
  intros Hk (H1 & H2 & H3) Hf Hs. split; [lra|]. split; [lra|]. intros i Hi.
  destruct (H3 i Hi) as [A1 A2]. destruct (Hpos i ltac:(lia)) as [B1 B2].
  split; [apply shrink with (snd a)|apply shrink with (fst a)]; lra.
Qed.
Lemma ratio_split_ok k a : (k < nc)%nat -> okA k a -> okA (S k) (ratio_split lam t dlam dt k a).
Proof.
  intros Hk Ha. destruct a as [ap ad]. pose proof Ha as ((A1 & A2) & (A3 & A4) & A5). cbn [fst snd] in *.
  destruct (Hpos k Hk) as [Hl Ht].
  assert (E : let b := ratio_split lam t dlam dt k (ap, ad) in
     0 < fst b <= ap /\ 0 < snd b <= ad /\ 0 <= lam k + snd b * dlam k /\ 0 <= t k + fst b * dt k).
  { unfold ratio_split. rsimp. rewrite !R_lit01.
    destruct (Rltb_spec (lam k + ad * dlam k) 0) as [H|H]; destruct (Rltb_spec (t k + ap * dt k) 0) as [H'|H']; cbn [fst snd];
    repeat match goal with
    | H : lam k + ad * dlam k < 0 |- _ => destruct (ratio_bounds (lam k) (dlam k) ad ltac:(lra) ltac:(lra) H) as (? & ? & ?); clear H
    | H : t k + ap * dt k < 0 |- _ => destruct (ratio_bounds (t k) (dt k) ap ltac:(lra) ltac:(lra) H) as (? & ? & ?); clear H
    end; repeat split; lra. }
  cbn zeta in E. destruct E as (E1 & E2 & E3 & E4).
  pose proof (okA_shrink k (ap, ad) (ratio_split lam t dlam dt k (ap, ad)) ltac:(lia) Ha E1 E2) as (B1 & B2 & B3).
  split; [assumption|]. split; [assumption|]. intros i Hi. destruct (Nat.eq_dec i k) as [->|]; [split; assumption|]. apply B3. lia.
Qed.
(** One-sided product cuts never lengthen a step and never make it non-positive. *)
Lemma prod_onesided_le i a : (i < nc)%nat -> 0 < fst a -> 0 < snd a ->
  0 < fst (prod_onesided ms lam t dlam dt m i a) <= fst a /\ 0 < snd (prod_onesided ms lam t dlam dt m i a) <= snd a.
Proof.
  intros Hi Hf Hs. destruct a as [ap ad]. cbn [fst snd] in *. unfold prod_onesided. rsimp. rewrite !R_lit01.
  destruct (Hpos i Hi) as [Hl Ht]. pose proof (Hctr i Hi) as Hc. pose proof tiny_pos as Htp.
  destruct (Rltb_spec ((lam i + ad * dlam i) * (t i + ap * dt i) - ms * m i) (- (1 / 1000000000000))) as [Hv|Hv]; [|cbn [fst snd]; lra].
  set (m1 := ms * m i) in *.
  destruct (Rltb_spec (dlam i) 0) as [Hd|Hd]; destruct (Rltb_spec (dt i) 0) as [He|He]; cbn [fst snd]; try lra.
  - assert (T1 : t i <= t i + ap * dt i) by nra. set (t1 := t i + ap * dt i) in *.
    assert (Hlt : m1 < lam i * t1) by nra.
    assert (Hden : 0 < - (dlam i * t1)) by nra.
    assert (Hx : (m1 - lam i * t1) / (dlam i * t1) = (lam i * t1 - m1) / - (dlam i * t1)) by (field; split; lra).
    rewrite Hx. split; [lra|]. split; [apply Rdiv_lt_0_compat; lra|].
    apply Rmult_le_reg_r with (- (dlam i * t1)); [assumption|]. unfold Rdiv. rewrite Rmult_assoc, Rinv_l by lra. nra.
  - assert (T1 : lam i <= lam i + ad * dlam i) by nra. set (l1 := lam i + ad * dlam i) in *.
    assert (Hlt : m1 < t i * l1) by nra.
    assert (Hden : 0 < - (dt i * l1)) by nra.
    assert (Hx : (m1 - t i * l1) / (dt i * l1) = (t i * l1 - m1) / - (dt i * l1)) by (field; split; lra).
    rewrite Hx. split; [|lra]. split; [apply Rdiv_lt_0_compat; lra|].
    apply Rmult_le_reg_r with (- (dt i * l1)); [assumption|]. unfold Rdiv. rewrite Rmult_assoc, Rinv_l by lra. nra.
Qed.
Lemma prod_quad_le i a : (i < nc)%nat -> 0 < fst a -> 0 < snd a ->
  0 < fst (prod_quad ms lam t dlam dt m i a) <= fst a /\ 0 < snd (prod_quad ms lam t dlam dt m i a) <= snd a.
Proof.
  intros Hi Hf Hs. destruct a as [ap ad]. cbn [fst snd] in *. unfold prod_quad. rsimp. rewrite !R_lit01.
  destruct (Hpos i Hi) as [Hl Ht]. pose proof (Hctr i Hi) as Hc. pose proof tiny_pos as Htp.
  destruct (Rltb_spec (dlam i) 0) as [Hd|Hd]; destruct (Rltb_spec (dt i) 0) as [He|He]; cbn [andb fst snd]; try lra.
  destruct (Rltb_spec ((lam i + ad * dlam i) * (t i + ap * dt i) - ms * m i) (- (1 / 1000000000000))) as [Hv|Hv]; [|cbn [fst snd]; lra].
  destruct (Rltb_spec 0 (lam i * t i - ms * m i)) as [Hcp|Hcp]; [|lra].
  set (x := ad * dlam i) in *. set (y := ap * dt i) in *.
  assert (x < 0) by (unfold x; nra). assert (y < 0) by (unfold y; nra).
  assert (Ha : x * y <> 0) by nra.
  destruct (quad_root (x * y) (x * t i + lam i * y) (lam i * t i - ms * m i) 1 Ha Hcp Rlt_0_1) as [Hr _]; [lra|].
  replace (4 / 1) with 4 by lra.
  set (r := (- (x * t i + lam i * y) - sqrt ((x * t i + lam i * y) * (x * t i + lam i * y) - 4 * (x * y) * (lam i * t i - ms * m i))) * (1 / 2 / (x * y))) in *.
  destruct (Rltb_spec 0 r) as [Hrp|Hrp]; [|lra]. cbn [fst snd]. nra.
Qed.
Lemma alpha_split_m_ok : okA nc (alpha_split_m nc ms lam t dlam dt m).
Proof.
  unfold alpha_split_m.
  assert (H1 : okA nc (loop nc (fun ii a => prod_onesided ms lam t dlam dt m ii (ratio_split lam t dlam dt ii a)) (f1, f1))).
  { apply loop_ind with (P := okA).
    - unfold okA. cbn [fst snd]. rsimp. rewrite R_lit11. repeat split; try lra; lia.
    - intros k a Hk Ha. pose proof (ratio_split_ok k a Hk Ha) as Hb.
      destruct Hb as (B1 & B2 & B3).
      destruct (prod_onesided_le k (ratio_split lam t dlam dt k a) Hk (proj1 B1) (proj1 B2)) as [C1 C2].
      eapply okA_shrink; [lia|split; [exact B1|split; [exact B2|exact B3]]|exact C1|exact C2]. }
  set (a1 := loop nc _ (f1, f1)) in *.
  assert (H2 : okA nc (loop nc (prod_quad ms lam t dlam dt m) a1)).
  { apply (loop_ind (fun _ a => okA nc a)); [assumption|]. intros k a Hk Ha. pose proof Ha as (B1 & B2 & B3).
    destruct (prod_quad_le k a Hk (proj1 B1) (proj1 B2)) as [C1 C2].
    eapply okA_shrink; [lia|exact Ha|exact C1|exact C2]. }
  apply (loop_ind (fun _ a => okA nc a)); [assumption|]. intros k a Hk Ha. pose proof Ha as (B1 & B2 & B3).
  destruct (prod_onesided_le k a Hk (proj1 B1) (proj1 B2)) as [C1 C2].
  eapply okA_shrink; [lia|exact Ha|exact C1|exact C2].
Qed.
End SplitM.

(** ** Common step, m = 0, no constraint with both steps negative *)
Lemma alpha_joint_mzero_ok nc (lam t dlam dt : nat -> R) :
  (forall i, (i < nc)%nat -> 0 < lam i /\ 0 < t i) ->
  (forall i, (i < nc)%nat -> 0 <= dlam i \/ 0 <= dt i) ->
  let a := alpha_joint_mzero nc lam t dlam dt in
  0 < a <= 1 /\ (forall i, (i < nc)%nat -> 0 <= lam i + a * dlam i /\ 0 <= t i + a * dt i).
Proof.
  intros Hpos Hone. unfold alpha_joint_mzero. cbn zeta.
  apply (loop_ind (fun k a => 0 < a <= 1 /\ (forall i, (i < k)%nat -> 0 <= lam i + a * dlam i /\ 0 <= t i + a * dt i))).
  - rsimp. rewrite R_lit11. split; [lra|]. lia.
  - intros k a Hk [Ha Hall]. destruct (Hpos k Hk) as [Hl Ht].
    assert (E : let b := fst (fst (ratio_joint lam t dlam dt k a)) in 0 < b <= a /\ 0 <= lam k + b * dlam k /\ 0 <= t k + b * dt k).
    { unfold ratio_joint. rsimp. rewrite !R_lit01.
      destruct (Rltb_spec (lam k + a * dlam k) 0) as [H|H]; destruct (Rltb_spec (t k + a * dt k) 0) as [H'|H']; cbn [fst snd].
      - exfalso. destruct (Hone k Hk); nra.
      - destruct (ratio_bounds (lam k) (dlam k) a ltac:(lra) ltac:(lra) H) as (B1 & B2 & B3).
        split; [lra|]. split; [lra|]. apply shrink with a; lra.
      - destruct (ratio_bounds (t k) (dt k) a ltac:(lra) ltac:(lra) H') as (B1 & B2 & B3).
        split; [lra|]. split; [|lra]. apply shrink with a; lra.
      - lra. }
    cbn zeta in E. set (b := fst (fst (ratio_joint lam t dlam dt k a))) in *. destruct E as (E1 & E2 & E3).
    split; [lra|]. intros i Hi. destruct (Nat.eq_dec i k) as [->|]; [split; assumption|].
    destruct (Hall i ltac:(lia)). destruct (Hpos i ltac:(lia)). split; apply shrink with a; lra.
Qed.

(** ** Common step with a complementarity target above the tolerance *)
Section JointM.
Variables (nc : nat) (ms : R) (lam t dlam dt m : nat -> R).
Hypothesis Hpos : forall i, (i < nc)%nat -> 0 < lam i /\ 0 < t i.
Hypothesis Hctr : forall i, (i < nc)%nat -> 1 / 1000000000000 < ms * m i /\ ms * m i < lam i * t i.
Hypothesis Hnz : forall i, (i < nc)%nat -> dlam i <> 0 /\ dt i <> 0.

(** Constraint i is safe on the whole segment [0,a]. *)
Definition safe (a : R) (i : nat) : Prop := forall x, 0 <= x <= a ->
  0 <= lam i + x * dlam i /\ 0 <= t i + x * dt i /\ ms * m i - 1 / 1000000000000 <= (lam i + x * dlam i) * (t i + x * dt i).
Lemma safe_le a b i : b <= a -> safe a i -> safe b i.
Proof. intros H S x Hx. apply S. lra. Qed.

Lemma alpha_joint_m_ok : let a := alpha_joint_m nc ms lam t dlam dt m in
  0 < a <= 1 /\ forall i, (i < nc)%nat -> safe a i.
Proof.
  unfold alpha_joint_m. cbn zeta.
  apply (loop_ind (fun k a => 0 < a <= 1 /\ forall i, (i < k)%nat -> safe a i)).
  - rsimp. rewrite R_lit11. split; [lra|]. lia.
  - intros k a Hk [Ha Hall]. destruct (Hpos k Hk) as [Hl Ht]. destruct (Hctr k Hk) as [Hm Hc]. destruct (Hnz k Hk) as [Hn1 Hn2].
    set (g := fun x => (lam k + x * dlam k) * (t k + x * dt k) - ms * m k).
    (* the cut: first zero of the product *)
    assert (Cut : forall x, 0 < x <= a -> g x < 0 ->
      let r := (- (dlam k * t k + lam k * dt k) - sqrt ((dlam k * t k + lam k * dt k) * (dlam k * t k + lam k * dt k) - 4 * (dlam k * dt k) * (lam k * t k - ms * m k))) * (1 / 2 / (dlam k * dt k)) in
      0 < r <= a /\ safe r k).
    { intros x Hx Hg.
      assert (Hna : dlam k * dt k <> 0) by (apply Rmult_integral_contrapositive; split; assumption).
      assert (Gq : forall y, g y = dlam k * dt k * y * y + (dlam k * t k + lam k * dt k) * y + (lam k * t k - ms * m k)) by (intros; unfold g; ring).
      destruct (quad_root (dlam k * dt k) (dlam k * t k + lam k * dt k) (lam k * t k - ms * m k) x Hna ltac:(lra) ltac:(lra)) as [Hr Hroot]; [rewrite Gq in Hg; exact Hg|].
      cbn zeta. set (r := (- (dlam k * t k + lam k * dt k) - _) * _) in *.
      assert (Gr : g r = 0) by (rewrite Gq; exact Hroot).
      split; [lra|].
      (* positivity at r *)
      assert (Bl : dlam k < 0 -> r < - lam k / dlam k).
      { intros Hd. assert (Hz : 0 < - lam k / dlam k) by (replace (- lam k / dlam k) with (lam k / - dlam k) by (field; lra); apply Rdiv_lt_0_compat; lra).
        assert (Gz : g (- lam k / dlam k) < 0). { unfold g. replace (lam k + - lam k / dlam k * dlam k) with 0 by (field; lra). lra. }
        destruct (quad_root (dlam k * dt k) (dlam k * t k + lam k * dt k) (lam k * t k - ms * m k) (- lam k / dlam k) Hna ltac:(lra) Hz) as [Hr' _]; [rewrite Gq in Gz; exact Gz|].
        exact (proj2 Hr'). }
      assert (Bt : dt k < 0 -> r < - t k / dt k).
      { intros Hd. assert (Hz : 0 < - t k / dt k) by (replace (- t k / dt k) with (t k / - dt k) by (field; lra); apply Rdiv_lt_0_compat; lra).
        assert (Gz : g (- t k / dt k) < 0). { unfold g. replace (t k + - t k / dt k * dt k) with 0 by (field; lra). lra. }
        destruct (quad_root (dlam k * dt k) (dlam k * t k + lam k * dt k) (lam k * t k - ms * m k) (- t k / dt k) Hna ltac:(lra) Hz) as [Hr' _]; [rewrite Gq in Gz; exact Gz|].
        exact (proj2 Hr'). }
      assert (Pl : 0 < lam k + r * dlam k).
      { destruct (Rlt_dec (dlam k) 0) as [Hd|Hd]; [|nra]. specialize (Bl Hd).
        assert (r * - dlam k < - lam k / dlam k * - dlam k) by (apply Rmult_lt_compat_r; lra).
        replace (- lam k / dlam k * - dlam k) with (lam k) in H by (field; lra). lra. }
      assert (Pt : 0 < t k + r * dt k).
      { destruct (Rlt_dec (dt k) 0) as [Hd|Hd]; [|nra]. specialize (Bt Hd).
        assert (r * - dt k < - t k / dt k * - dt k) by (apply Rmult_lt_compat_r; lra).
        replace (- t k / dt k * - dt k) with (t k) in H by (field; lra). lra. }
      intros y Hy. assert (0 <= lam k + y * dlam k) by (apply shrink with r; lra).
      assert (0 <= t k + y * dt k) by (apply shrink with r; lra).
      split; [assumption|]. split; [assumption|].
      enough (0 <= g y) by (unfold g in *; lra).
      apply Rnot_lt_le. intros Hneg. destruct (Req_dec y 0) as [->|Hy0]; [unfold g in Hneg; lra|].
      destruct (quad_root (dlam k * dt k) (dlam k * t k + lam k * dt k) (lam k * t k - ms * m k) y Hna ltac:(lra) ltac:(lra)) as [Hr' _]; [rewrite Gq in Hneg; exact Hneg|].
      change (0 < r < y) in Hr'. lra. }
    assert (E : forall b, 0 < b <= a /\ safe b k -> 0 < b <= 1 /\ forall i, (i < S k)%nat -> safe b i).
    { intros b [Hb Hs]. split; [lra|]. intros i Hi. destruct (Nat.eq_dec i k) as [->|]; [assumption|]. apply safe_le with a; [lra|]. apply Hall. lia. }
    apply E. clear E.
    unfold ratio_joint. rsimp. rewrite !R_lit01. replace (4 / 1) with 4 by lra.
    assert (Hcp : Rltb 0 (lam k * t k - ms * m k) = true) by (destruct (Rltb_spec 0 (lam k * t k - ms * m k)); [reflexivity|lra]).
    destruct (Rltb_spec (lam k + a * dlam k) 0) as [H|H]; destruct (Rltb_spec (t k + a * dt k) 0) as [H'|H']; cbn [fst snd].
    + destruct (ratio_bounds (lam k) (dlam k) a ltac:(lra) ltac:(lra) H) as (B1 & B2 & B3).
      destruct (ratio_bounds (t k) (dt k) a ltac:(lra) ltac:(lra) H') as (C1 & C2 & C3).
      rewrite B3, C3. destruct (Rltb_spec (0 * 0 - ms * m k) (- (1 / 1000000000000))) as [V|V]; [|lra].
      rewrite Hcp. apply (Cut (- lam k / dlam k)); [lra|]. unfold g. rewrite B3. lra.
    + destruct (ratio_bounds (lam k) (dlam k) a ltac:(lra) ltac:(lra) H) as (B1 & B2 & B3).
      rewrite B3. destruct (Rltb_spec (0 * (t k + a * dt k) - ms * m k) (- (1 / 1000000000000))) as [V|V]; [|lra].
      rewrite Hcp. apply (Cut (- lam k / dlam k)); [lra|]. unfold g. rewrite B3. lra.
    + destruct (ratio_bounds (t k) (dt k) a ltac:(lra) ltac:(lra) H') as (C1 & C2 & C3).
      rewrite C3. destruct (Rltb_spec ((lam k + a * dlam k) * 0 - ms * m k) (- (1 / 1000000000000))) as [V|V]; [|lra].
      rewrite Hcp. apply (Cut (- t k / dt k)); [lra|]. unfold g. rewrite C3. lra.
    + destruct (Rltb_spec ((lam k + a * dlam k) * (t k + a * dt k) - ms * m k) (- (1 / 1000000000000))) as [V|V].
      * rewrite Hcp. apply (Cut a); [lra|]. unfold g. lra.
      * split; [lra|]. intros x Hx. assert (0 <= lam k + x * dlam k) by (apply shrink with a; lra).
        assert (0 <= t k + x * dt k) by (apply shrink with a; lra). split; [assumption|]. split; [assumption|].
        destruct (Rlt_dec (dlam k) 0) as [D|D]; destruct (Rlt_dec (dt k) 0) as [D'|D'].
        -- assert (lam k + a * dlam k <= lam k + x * dlam k) by nra. assert (t k + a * dt k <= t k + x * dt k) by nra. nra.
        -- (* concave along the segment *)
           set (L0 := lam k) in *. set (T0 := t k) in *. set (A := dlam k * dt k).
           assert (A <= 0) by (unfold A; nra).
           assert (K : a * ((L0 + x * dlam k) * (T0 + x * dt k)) = (a - x) * (L0 * T0) + x * ((L0 + a * dlam k) * (T0 + a * dt k)) - A * (a * x * (a - x))) by (unfold A; ring).
           assert (0 <= a * x * (a - x)) by (apply Rmult_le_pos; [apply Rmult_le_pos; lra|lra]).
           assert (a * (ms * m k - 1 / 1000000000000) <= a * ((L0 + x * dlam k) * (T0 + x * dt k))); [|nra].
           rewrite K. assert ((a - x) * (ms * m k) <= (a - x) * (L0 * T0)) by (apply Rmult_le_compat_l; lra).
           assert (x * (ms * m k - 1 / 1000000000000) <= x * ((L0 + a * dlam k) * (T0 + a * dt k))) by (apply Rmult_le_compat_l; lra).
           assert (0 <= - A * (a * x * (a - x))) by (apply Rmult_le_pos; lra). assert (0 <= (a - x) * (1 / 1000000000000)) by (apply Rmult_le_pos; lra). lra.
        -- set (L0 := lam k) in *. set (T0 := t k) in *. set (A := dlam k * dt k).
           assert (A <= 0) by (unfold A; nra).
           assert (K : a * ((L0 + x * dlam k) * (T0 + x * dt k)) = (a - x) * (L0 * T0) + x * ((L0 + a * dlam k) * (T0 + a * dt k)) - A * (a * x * (a - x))) by (unfold A; ring).
           assert (0 <= a * x * (a - x)) by (apply Rmult_le_pos; [apply Rmult_le_pos; lra|lra]).
           assert (a * (ms * m k - 1 / 1000000000000) <= a * ((L0 + x * dlam k) * (T0 + x * dt k))); [|nra].
           rewrite K. assert ((a - x) * (ms * m k) <= (a - x) * (L0 * T0)) by (apply Rmult_le_compat_l; lra).
           assert (x * (ms * m k - 1 / 1000000000000) <= x * ((L0 + a * dlam k) * (T0 + a * dt k))) by (apply Rmult_le_compat_l; lra).
           assert (0 <= - A * (a * x * (a - x))) by (apply Rmult_le_pos; lra). assert (0 <= (a - x) * (1 / 1000000000000)) by (apply Rmult_le_pos; lra). lra.
        -- assert (lam k <= lam k + x * dlam k) by nra. assert (t k <= t k + x * dt k) by nra. nra.
Qed.
End JointM.

(** ** Damping *)
Lemma damp_bounds a : 0 < a <= 1 -> 0 < damp a < a.
Proof. intros H. unfold damp. rsimp. rewrite R_lit11. nra. Qed.
Lemma strict_inside l dl a b : 0 < l -> 0 <= b < a -> 0 <= l + a * dl -> 0 < l + b * dl.
Proof. intros. destruct (Rle_dec 0 dl); nra. Qed.

(** ** IEEE comparison *)
Lemma SFcompare_antisym x y : SFcompare y x = option_map CompOpp (SFcompare x y).
Proof.
  destruct x as [sx|sx| |sx mx ex]; destruct y as [sy|sy| |sy my ey];
  try destruct sx; try destruct sy; cbn [SFcompare option_map CompOpp]; try reflexivity.
  - rewrite (Z.compare_antisym ex ey). destruct (Z.compare ex ey); cbn [CompOpp]; try reflexivity.
    fold (Pos.compare mx my) (Pos.compare my mx). rewrite (Pos.compare_antisym mx my). destruct (Pos.compare mx my); reflexivity.
  - rewrite (Z.compare_antisym ex ey). destruct (Z.compare ex ey); cbn [CompOpp]; try reflexivity.
    fold (Pos.compare mx my) (Pos.compare my mx). rewrite (Pos.compare_antisym mx my). destruct (Pos.compare mx my); reflexivity.
Qed.
Definition is_nan_sf (x : spec_float) : bool := match x with S754_nan => true | _ => false end.
Lemma SFcompare_num x y : is_nan_sf x = false -> is_nan_sf y = false -> SFcompare x y <> None.
Proof.
  destruct x as [sx|sx| |sx mx ex]; destruct y as [sy|sy| |sy my ey]; cbn; intros; try discriminate; try destruct sx; try destruct sy; try discriminate;
  destruct (Z.compare ex ey); discriminate.
Qed.
Lemma SFleb_total x y : is_nan_sf x = false -> is_nan_sf y = false -> SFleb x y = false -> SFleb y x = true.
Proof.
  intros Hx Hy. unfold SFleb. rewrite (SFcompare_antisym x y). pose proof (SFcompare_num x y Hx Hy) as Hn.
  destruct (SFcompare x y) as [[]|]; cbn; congruence.
Qed.
Lemma SFleb_refl x : is_nan_sf x = false -> SFleb x x = true.
Proof.
  intros Hx. unfold SFleb. pose proof (SFcompare_antisym x x) as E. pose proof (SFcompare_num x x Hx Hx) as Hn.
  destruct (SFcompare x x) as [[]|]; cbn in *; congruence.
Qed.
Lemma SFpos_le z x : SFltb (S754_zero false) z = true -> SFleb z x = true -> SFltb (S754_zero false) x = true.
Proof.
  destruct z as [sz|sz| |sz mz ez]; destruct x as [sx|sx| |sx mx ex]; try destruct sz; try destruct sx; cbn; congruence.
Qed.

Lemma clip_floor_sf z zmin : is_nan_sf zmin = false ->
  let z' := if SFleb z zmin then zmin else z in is_nan_sf z' = true \/ SFleb zmin z' = true.
Proof.
  intros Hm. cbn zeta. destruct (SFleb z zmin) eqn:E; [right; apply SFleb_refl; assumption|].
  destruct (is_nan_sf z) eqn:Hz; [left; reflexivity|right]. apply SFleb_total; assumption.
Qed.
