(** DenKktProofs2.v -- dense KKT solver over the reals: what the assembly and factorisation code leaves in the workspace. *)
From Coq Require Import ZArith Bool Arith Lia Reals Lra.
From Verif Require Import Base ArithF RSum Blas Blas2 CoreModel CoreProofs OcpModel ResSpec ResProofs CholProofs CholPD KktModel KktSpec KktProofs KktProofs2 KktProofs7 SolveProofs DenModel DenSpec DenProofs DenKktModel DenKktProofs DenKktAlg.
Local Open Scope R_scope.

Lemma chol_sq n (C D : rmat) dA L dA' : POTRF_L_MN n n C 0 0 D 0 0 dA = (L, dA') -> singular n dA' = false ->
  (forall i j, (i < n)%nat -> (j < n)%nat -> symL C i j = rsum n (fun k => lt L i k * lt L j k)) /\ (forall k, (k < n)%nat -> 0 < L k k).
Proof.
  intros E Hs. pose proof (potrf_R n n C D dA (le_n _)) as H. rewrite E in H. specialize (H (singular_false _ _ Hs)). destruct H as (H1 & H2 & _). split; [|exact H2].
  assert (K : forall i j, (j <= i < n)%nat -> C i j = rsum n (fun k => lt L i k * lt L j k)). { intros i j Hij. rewrite lt_sum by lia. symmetry. apply H1; lia. }
  intros i j Hi Hj. unfold symL. destruct (Nat.leb_spec j i); [apply K; lia|]. rewrite K by lia. apply rsum_ext. intros; ring.
Qed.

Section Den.
Variables (a : dka R) (q : dqp R) (Gamma gamma : rvec).
Notation nv := (d_nv q). Notation ne := (d_ne q). Notation nb := (d_nb q). Notation ng := (d_ng q). Notation ns := (d_ns q).
Notation reg := (da_reg a).
Notation oq := (one_stage q).
Hypothesis Hwf : den_wf q.
Notation T0d := (T0q oq 0 reg Gamma). Notation T1d := (T1q oq 0 reg Gamma gamma). Notation Zd := (Zq oq 0 reg Gamma). Notation Rd := (Rq oq 0 gamma).
(** reduced Hessian (not regularised on v) and gradient, inequalities and slacks eliminated *)
Definition dM (i j : nat) : R := stH oq reg (fun _ => Gamma) (fun _ => 0) 0 i j.
Definition dh (j : nat) : R := sth oq reg (fun _ => Gamma) (fun _ => gamma) 0 j.

Lemma dM_sym i j : dM i j = dM j i.
Proof. apply stH_sym. Qed.
Lemma Hsf : forall j, (j < nb + ng)%nat -> (d_idxs_rev q j = -1 \/ 0 <= d_idxs_rev q j < Z.of_nat ns)%Z.
Proof. intros j Hj. apply Hwf. exact Hj. Qed.
Lemma no_slack : (ns <= 0)%nat -> forall c, (c < nb + ng)%nat -> Z.eqb (d_idxs_rev q c) (-1) = true.
Proof. intros H c Hc. apply Z.eqb_eq. destruct (Hsf c Hc); lia. Qed.

Lemma den_tmp0_R tmp Zs : let '(tmp', Zs') := den_tmp0 a q Gamma (tmp, Zs) in
  (forall c, (c < nb + ng)%nat -> tmp' 0%nat c = T0d c) /\ (forall k, (k < 2 * ns)%nat -> Zs' k = Zd k).
Proof.
  unfold den_tmp0. destruct (Nat.ltb_spec 0 ns) as [Hns|Hns].
  - pose proof (den_slacks_fact_R nb ng ns reg (d_idxs_rev q) (d_Z q) Gamma Hsf tmp Zs) as H. destruct (den_slacks_fact _ _ _ _ _ _ _ _) as [tmp' Zs']. destruct H as (H1 & H2).
    split; [exact H2|exact H1].
  - pose proof (no_slack Hns) as Hm. destruct (Nat.ltb_spec 0 (nb + ng)) as [Hbg|Hbg]; (split; [|intros; lia]); [|intros; lia].
    intros c Hc. rewrite upd_same. unfold AXPY. rewrite vset0 by exact Hc. cbn [Nat.add]. rsimp. rewrite R_lit11.
    unfold T0q, T0, w_lo, w_up. cbn [q_dim one_stage dnb dng dns q_idxs_rev]. rewrite Hm by exact Hc. lra.
Qed.
Lemma den_tmp1_R tmp dv Zs : (forall k, (k < 2 * ns)%nat -> Zs k = Zd k) -> let '(tmp', dv') := den_tmp1 q Gamma gamma Zs (tmp, dv) in
  (forall c, (c < nb + ng)%nat -> tmp' 1%nat c = T1d c) /\ (forall k, (k < 2 * ns)%nat -> dv' (nv + k)%nat = Rd k) /\ (forall c, tmp' 0%nat c = tmp 0%nat c).
Proof.
  intros HZ. unfold den_tmp1. destruct (Nat.ltb_spec 0 ns) as [Hns|Hns].
  - pose proof (den_slacks_solve_R nv nb ng ns reg (d_idxs_rev q) (d_Z q) (d_gz q) Gamma gamma Hsf tmp dv Zs HZ) as H. destruct (den_slacks_solve _ _ _ _ _ _ _ _ _ _) as [tmp' dv']. destruct H as (H1 & H2 & H3).
    split; [exact H2|]. split; [exact H1|exact H3].
  - pose proof (no_slack Hns) as Hm. destruct (Nat.ltb_spec 0 (nb + ng)) as [Hbg|Hbg].
    + split; [|split; [intros; lia|intros; reflexivity]]. intros c Hc. rewrite upd_same. unfold AXPY. rewrite vset0 by exact Hc. cbn [Nat.add]. rsimp. rewrite R_lit11.
      unfold T1q, T1, r_lo, r_up. cbn [q_dim one_stage dnb dng dns q_idxs_rev]. rewrite Hm by exact Hc. lra.
    + split; [intros; lia|]. split; [intros; lia|reflexivity].
Qed.
Lemma den_lv_R tmp lv : (forall c, (c < nb + ng)%nat -> tmp 1%nat c = T1d c) -> forall j, (j < nv)%nat -> den_lv q tmp lv j = dh j.
Proof.
  intros HT j Hj. unfold den_lv, dh. rewrite sth_split. cbn [q_rqz one_stage q_dim dnb]. unfold gpart1. cbn [q_dim one_stage dng dnb q_DCt].
  set (l1 := VECCP _ _ _ _ _). assert (E1 : forall k, (k < nv)%nat -> l1 k = d_gz q k) by (intros k Hk; unfold l1, VECCP; rewrite vset0 by exact Hk; reflexivity). clearbody l1.
  set (l2 := if (0 <? nb)%nat then _ else _). assert (E2 : forall k, (k < nv)%nat -> l2 k = d_gz q k + rsum nb (fun c => rowq oq 0 c k * T1d c)).
  { intros k Hk. unfold l2. destruct (Nat.ltb_spec 0 nb) as [H|H].
    - rewrite VECAD_SP_R, E1 by exact Hk. f_equal. apply rsum_ext. intros c Hc. cbn [Nat.add]. rewrite HT by lia. rewrite rowq_b by exact Hc. cbn [q_idxb one_stage]. rsimp. rewrite R_lit11. destruct (Nat.eqb _ _); lra.
    - rewrite E1 by exact Hk. replace (d_nb q) with 0%nat by lia. cbn [rsum]. lra. }
  clearbody l2. destruct (Nat.ltb_spec 0 ng) as [H|H].
  - unfold GEMV_N. rewrite vset0 by exact Hj. cbn [Nat.add]. rewrite fsum_R, E2 by exact Hj. rsimp. rewrite R_lit11. rewrite !Rmult_1_l. f_equal. apply rsum_ext. intros l Hl. rewrite HT by lia. ring.
  - rewrite E2 by exact Hj. replace (d_ng q) with 0%nat by lia. cbn [rsum]. lra.
Qed.
(** the assembled matrix: lower triangle *)
Lemma den_mat_R (rho : R) tmp Lv Ctx : (forall c, (c < nb + ng)%nat -> tmp 0%nat c = T0d c) -> (forall i j, (j <= i < nv)%nat -> Lv i j = d_H q i j + if (i =? j)%nat then rho else 0) ->
  forall i j, (j <= i < nv)%nat -> fst (den_syrk q tmp (den_diag q tmp Lv) Ctx) i j = dM i j + if (i =? j)%nat then rho else 0.
Proof.
  intros HT HL i j Hij. unfold dM. rewrite stH_split by lia. cbn [q_RSQ one_stage q_dim dnb]. unfold gpart. cbn [q_dim one_stage dng dnb q_DCt].
  set (L1 := den_diag q tmp Lv).
  assert (E : L1 i j = d_H q i j + (if (i =? j)%nat then rho else 0) + rsum nb (fun c => rowq oq 0 c i * T0d c * rowq oq 0 c j)).
  { unfold L1, den_diag. destruct (Nat.ltb_spec 0 nb) as [H|H].
    - rewrite DIAAD_SP_R, HL by exact Hij. f_equal. destruct (Nat.eqb_spec i j) as [->|Hne].
      + apply rsum_ext. intros c Hc. rewrite !rowq_b by exact Hc. cbn [q_idxb one_stage Nat.add]. rewrite HT by lia. rsimp. rewrite R_lit11. destruct (Nat.eqb _ _); lra.
      + symmetry. apply rsum_0. intros c Hc. rewrite !rowq_b by exact Hc. cbn [q_idxb one_stage]. destruct (Nat.eqb_spec (d_idxb q c) i), (Nat.eqb_spec (d_idxb q c) j); try lra. lia.
    - rewrite HL by exact Hij. replace (d_nb q) with 0%nat by lia. cbn [rsum]. lra. }
  clearbody L1. unfold den_syrk. destruct (Nat.ltb_spec 0 ng) as [H|H]; cbn [fst].
  - rewrite SYRK_R by lia. cbn [Nat.add]. rewrite E. rsimp. rewrite R_lit11.
    rewrite (rsum_ext ng _ (fun l => d_Ct q i l * T0d (nb + l)%nat * d_Ct q j l)).
    + destruct (i =? j)%nat; lra.
    + intros l Hl. unfold den_ctx, GEMM_ND. rewrite mblk_i by lia. cbn [Nat.add]. rewrite !Nat.sub_0_r. rsimp. rewrite R_lit01, R_lit11. rewrite HT by lia. ring.
  - rewrite E. replace (d_ng q) with 0%nat by lia. cbn [rsum]. destruct (i =? j)%nat; lra.
Qed.

(** ** scaling *)
Definition scl (x : R) : R := if Req_EM_T (sqrt x) 0 then 1 else 1 / sqrt x.
Lemma scl_pos x : 0 < scl x.
Proof. unfold scl. destruct (Req_EM_T (sqrt x) 0) as [E|E]; [lra|]. pose proof (sqrt_pos x). apply Rdiv_lt_0_compat; lra. Qed.
Lemma den_scaling_R n (L : rmat) s i : (i < n)%nat -> den_scaling n L s i = scl (L i i).
Proof.
  intros Hi. unfold den_scaling. set (d := DIAEX _ _ _ _ _ _ _).
  assert (Ed : forall k, (k < n)%nat -> d k = L k k). { intros k Hk. unfold d, DIAEX. rewrite vset0 by exact Hk. cbn [Nat.add]. rsimp. rewrite R_lit11. lra. }
  set (f := fun (ii : nat) (s : nat -> R) => _).
  assert (H : forall p, (p <= n)%nat -> forall k, loop p f d k = if (k <? p)%nat then (if Req_EM_T (sqrt (d k)) 0 then 1 else 1 / sqrt (d k)) else d k).
  { induction p as [|p IH]; intros Hp k; cbn [loop]; [reflexivity|]. specialize (IH ltac:(lia)). set (x := loop p f d) in *. unfold f. rsimp.
    assert (Ex : x p = d p) by (rewrite IH; rewrite Nat.ltb_irrefl; reflexivity). rewrite Ex. unfold upd. destruct (Nat.eqb_spec k p) as [->|Hne].
    - destruct (Nat.ltb_spec p (S p)); [|lia]. rewrite R_lit01, R_lit11. destruct (Reqb_spec (sqrt (d p)) 0), (Req_EM_T (sqrt (d p)) 0); try contradiction; reflexivity.
    - rewrite IH. destruct (Nat.ltb_spec k p), (Nat.ltb_spec k (S p)); try lia; reflexivity. }
  rewrite (H n (le_n _)). apply Nat.ltb_lt in Hi as Hi'. rewrite Hi'. rewrite Ed by exact Hi. reflexivity.
Qed.
Lemma den_scale_mat_R n (s : rvec) (L : rmat) i j : (i < n)%nat -> (j < n)%nat -> den_scale_mat n s L i j = s i * L i j * s j.
Proof.
  intros Hi Hj. unfold den_scale_mat, GEMM_ND, GEMM_L_DIAG. rewrite mblk_i by lia. cbn [Nat.add]. rewrite !Nat.sub_0_r. rewrite !mblk_i by lia. cbn [Nat.add]. rewrite !Nat.sub_0_r. rsimp. rewrite R_lit01, R_lit11. ring.
Qed.

(** ** what a successful factorisation leaves behind *)
Definition Zok (w : dkw R) : Prop := forall k, (k < 2 * ns)%nat -> w_Zs w k = Zd k.
Definition Lok (s : rvec) (rho : R) (w : dkw R) : Prop :=
  (forall i, (i < nv)%nat -> 0 < s i) /\ (forall i, (i < nv)%nat -> 0 < w_Lv w i i) /\
  (forall i j, (i < nv)%nat -> (j < nv)%nat -> s i * dM i j * s j + (if (i =? j)%nat then rho else 0) = rsum nv (fun k => lt (w_Lv w) i k * lt (w_Lv w) j k)).
Definition Sok (s e : rvec) (del : R) (w : dkw R) : Prop :=
  (forall j, (j < ne)%nat -> 0 < e j) /\ (forall j, (j < ne)%nat -> 0 < w_Le w j j) /\
  (forall i j, (i < ne)%nat -> (j < nv)%nat -> rsum nv (fun k => w_AL w i k * lt (w_Lv w) j k) = d_A q i j * s j) /\
  (forall i j, (i < ne)%nat -> (j < ne)%nat -> e i * rsum nv (fun k => w_AL w i k * w_AL w j k) * e j + (if (i =? j)%nat then del else 0) = rsum ne (fun k => lt (w_Le w) i k * lt (w_Le w) j k)).

Lemma sym_ext n (C : rmat) (M : rmat) : (forall i j, (j <= i < n)%nat -> C i j = M i j) -> (forall i j, M i j = M j i) -> forall i j, (i < n)%nat -> (j < n)%nat -> symL C i j = M i j.
Proof. intros H HS i j Hi Hj. unfold symL. destruct (Nat.leb_spec j i); [apply H; lia|]. rewrite HS. apply H. lia. Qed.
Lemma delta_sym (c : R) i j : (if (i =? j)%nat then c else 0) = (if (j =? i)%nat then c else 0).
Proof. rewrite Nat.eqb_sym. reflexivity. Qed.
Lemma GECP_at m n (A B : rmat) i j : (i < m)%nat -> (j < n)%nat -> GECP m n A 0 0 B 0 0 i j = A i j.
Proof. intros Hi Hj. unfold GECP. rewrite mblk_i by lia. cbn [Nat.add]. rewrite !Nat.sub_0_r. reflexivity. Qed.
Lemma TRCP_at n (A B : rmat) i j : (j <= i < n)%nat -> TRCP_L n A 0 0 B 0 0 i j = A i j.
Proof. intros H. unfold TRCP_L. rewrite mupd_i by (try lia; unfold low; apply Nat.leb_le; lia). cbn [Nat.add]. rewrite !Nat.sub_0_r. reflexivity. Qed.
Lemma DIARE_at n c (A : rmat) i j : (j <= i < n)%nat -> DIARE n c A 0 0 i j = A i j + if (i =? j)%nat then c else 0.
Proof. intros H. rewrite DIARE_R. destruct (i =? j)%nat; cbn [andb]; [|reflexivity]. destruct (Nat.ltb_spec i (0 + n)); [|lia]. cbn [andb Nat.leb]. reflexivity. Qed.

(** positive definiteness that makes the factorisation succeed: of the Hessian, scaled or not, and of the Schur complement *)
Definition Mpd (rho : R) : Prop := forall s : rvec, ((forall i, s i = 1) \/ (forall i, (i < nv)%nat -> s i = scl (dM i i))) -> PD nv (fun i j => s i * dM i j * s j + (if (i =? j)%nat then rho else 0)).
Definition Apd (del : R) : Prop := 0 <= del /\ forall y : rvec, (exists j, (j < ne)%nat /\ y j <> 0) -> 0 < del \/ exists k, (k < nv)%nat /\ rsum ne (fun j => y j * d_A q j k) <> 0.
Lemma PD_sym n (C M : rmat) : (forall i j, (i < n)%nat -> (j < n)%nat -> symL C i j = M i j) -> PD n M -> PD n (symL C).
Proof. intros H HP. apply (PD_ext n M); [|exact HP]. intros i j Hi Hj. symmetry. apply H; assumption. Qed.
Lemma Mpd_1 rho : Mpd rho -> PD nv (fun i j => dM i j + (if (i =? j)%nat then rho else 0)).
Proof. intros H. apply (PD_ext nv (fun i j => 1 * dM i j * 1 + (if (i =? j)%nat then rho else 0))); [intros; lra|]. apply (H (fun _ => 1)). left. reflexivity. Qed.
Lemma quadf_delta n rho (v : rvec) : quadf n (fun i j => if (i =? j)%nat then rho else 0) v = rho * rsum n (fun i => v i * v i).
Proof.
  unfold quadf. rewrite <- rsum_scal. apply rsum_ext. intros i Hi. rewrite (rsum_ext n _ (fun j => (if (i =? j)%nat then rho else 0) * (v i * v j))) by (intros; ring).
  rewrite (rsum_ext n _ (fun j => if (j =? i)%nat then rho * (v i * v j) else 0)); [|intros j Hj; rewrite (Nat.eqb_sym j i); destruct (i =? j)%nat; ring].
  rewrite (rsum_one n i (fun j => rho * (v i * v j)) Hi). reflexivity.
Qed.
Lemma sq_pos n (f : rvec) k : (k < n)%nat -> f k <> 0 -> 0 < rsum n (fun l => f l * f l).
Proof.
  intros Hk Hf. replace n with (k + S (n - S k))%nat by lia. rewrite rsum_split, rsum_S_l, Nat.add_0_r.
  pose proof (sq_nonneg k f). pose proof (sq_nonneg (n - S k) (fun l => f (k + S l)%nat)). cbv beta in *. assert (0 < f k * f k) by nra. lra.
Qed.
Lemma schur_pd (AL Lv : rmat) (s e : rvec) del : (forall i, (i < nv)%nat -> 0 < s i) -> (forall i, (i < ne)%nat -> 0 < e i) ->
  (forall i j, (i < ne)%nat -> (j < nv)%nat -> rsum nv (fun k => AL i k * lt Lv j k) = d_A q i j * s j) -> Apd del ->
  PD ne (fun i j => e i * rsum nv (fun k => AL i k * AL j k) * e j + (if (i =? j)%nat then del else 0)).
Proof.
  intros Hs He HAL (Hd & HA) y (j0 & Hj0 & Ey). rewrite quadf_add, quadf_delta.
  rewrite (quadf_ext ne _ (fun i j => rsum nv (fun k => (e i * AL i k) * (e j * AL j k))) y y); [|intros i j _ _; rewrite <- rsum_scal, <- rsum_scal_r; apply rsum_ext; intros; ring|reflexivity].
  rewrite quadf_sq. set (z := fun l => rsum ne (fun i => y i * (e i * AL i l))). change (0 < rsum nv (fun l => z l * z l) + del * rsum ne (fun i => y i * y i)).
  assert (P1 : 0 <= rsum nv (fun l => z l * z l)) by apply sq_nonneg. assert (P2 : 0 < rsum ne (fun i => y i * y i)) by (apply (sq_pos ne y j0 Hj0 Ey)).
  destruct (HA (fun i => y i * e i)) as [D|(k & Hk & Ek)].
  - exists j0. split; [exact Hj0|]. specialize (He j0 Hj0). intros Z. apply Ey. nra.
  - assert (0 < del * rsum ne (fun i => y i * y i)) by (apply Rmult_lt_0_compat; assumption). lra.
  - assert (0 <= del * rsum ne (fun i => y i * y i)) by (apply Rmult_le_pos; lra). enough (0 < rsum nv (fun l => z l * z l)) by lra.
    assert (EZ : rsum nv (fun l => z l * lt Lv k l) = rsum ne (fun j => y j * e j * d_A q j k) * s k).
    { unfold z. rewrite (rsum_ext nv _ (fun l => rsum ne (fun i => y i * e i * (AL i l * lt Lv k l)))) by (intros l Hl; rewrite <- rsum_scal_r; apply rsum_ext; intros; ring).
      rewrite rsum_swap, <- rsum_scal_r. apply rsum_ext. intros i Hi. rewrite rsum_scal, HAL by assumption. ring. }
    assert (NZ : exists l, (l < nv)%nat /\ z l <> 0).
    { assert (Dec : (exists l, (l < nv)%nat /\ z l <> 0) \/ forall l, (l < nv)%nat -> z l = 0).
      { clear. generalize nv. induction n as [|n IH]; [right; intros; lia|]. destruct IH as [(l & Hl & E)|E]; [left; exists l; split; [lia|exact E]|].
        destruct (Req_EM_T (z n) 0) as [E'|E']; [right; intros l Hl; destruct (Nat.eq_dec l n) as [->|]; [exact E'|apply E; lia]|left; exists n; split; [lia|exact E']]. }
      destruct Dec as [X|X]; [exact X|]. exfalso. rewrite rsum_0 in EZ by (intros l Hl; rewrite X by exact Hl; lra). specialize (Hs k Hk). apply Ek. nra. }
    destruct NZ as (l & Hl & El). apply (sq_pos nv z l Hl El).
Qed.
(** Schur complement block, in both versions *)
Lemma schur_le (AL : rmat) (Le0 : rmat) i j : (j <= i < ne)%nat -> SYRK_LN_MN ne ne nv f1 AL 0 0 AL 0 0 f1 (GESE ne ne f0 Le0 0 0) 0 0 (GESE ne ne f0 Le0 0 0) 0 0 i j = rsum nv (fun k => AL i k * AL j k).
Proof. intros H. rewrite SYRK_R by lia. cbn [Nat.add]. unfold GESE. rewrite mblk_i by lia. rsimp. rewrite R_lit01, R_lit11. lra. Qed.

Lemma den_fact_schur_sc_R preg dreg w w' st : den_fact_schur_sc a q Gamma preg dreg w = (w', st) ->
  (Mpd preg -> st <> Fpreg) /\ (Apd dreg -> st <> Fdreg) /\ (st = Fok -> Zok w' /\ Lok (w_sv w') preg w' /\ Sok (w_sv w') (w_se w') dreg w').
Proof.
  unfold den_fact_schur_sc. pose proof (den_tmp0_R (w_tmp w) (w_Zs w)) as HT. destruct (den_tmp0 _ _ _ _) as [tmp Zs]. destruct HT as (HT & HZ).
  pose proof (den_mat_R 0 tmp (GECP nv nv (d_H q) 0 0 (w_Lv w) 0 0) (w_Ctx w) HT) as HM.
  specialize (HM ltac:(intros i j Hij; rewrite GECP_at by lia; destruct (i =? j)%nat; lra)).
  destruct (den_syrk _ _ _ _) as [L1 Ctx]. cbn [fst] in HM.
  assert (HM' : forall i j, (j <= i < nv)%nat -> L1 i j = dM i j) by (intros i j Hij; rewrite HM by exact Hij; destruct (i =? j)%nat; lra). clear HM.
  set (sv := den_scaling nv L1 (w_sv w)). assert (Esv : forall i, (i < nv)%nat -> sv i = scl (dM i i)) by (intros i Hi; unfold sv; rewrite den_scaling_R by exact Hi; f_equal; apply HM'; lia).
  assert (Hsv : forall i, (i < nv)%nat -> 0 < sv i) by (intros i Hi; rewrite Esv by exact Hi; apply scl_pos). clearbody sv.
  set (L2 := DIARE _ _ _ _ _).
  assert (H2 : forall i j, (j <= i < nv)%nat -> L2 i j = sv i * dM i j * sv j + if (i =? j)%nat then preg else 0).
  { intros i j Hij. unfold L2. rewrite DIARE_at by exact Hij. rewrite den_scale_mat_R by lia. rewrite HM' by exact Hij. reflexivity. }
  destruct (POTRF_L_MN nv nv L2 0 0 L2 0 0 (w_dLv w)) as [Lv dLv] eqn:EP. 
  assert (S2 : forall i j, (i < nv)%nat -> (j < nv)%nat -> symL L2 i j = sv i * dM i j * sv j + (if (i =? j)%nat then preg else 0)).
  { apply (sym_ext nv L2 (fun i j => sv i * dM i j * sv j + (if (i =? j)%nat then preg else 0))); [exact H2|]. intros i j. rewrite (dM_sym i j), (delta_sym preg i j). ring. }
  destruct (singular nv dLv) eqn:ES.
  { intros E. injection E as _ <-. split; [|split; discriminate]. intros HP. exfalso. rewrite (potrf_pd nv nv L2 L2 _ Lv dLv (le_n _) (PD_sym nv L2 _ S2 (HP sv (or_intror Esv))) EP) in ES. discriminate. }
  destruct (chol_sq nv L2 L2 _ Lv dLv EP ES) as (C1 & C2).
  set (AL1 := GEMM_ND ne nv _ _ _ _ _ _ _ _ _ _ _ _ _). set (AL := TRSM_RLTN _ _ _ _ _ _ _ _ _ _ _ _).
  assert (HA1 : forall i j, (i < ne)%nat -> (j < nv)%nat -> AL1 i j = d_A q i j * sv j).
  { intros i j Hi Hj. unfold AL1, GEMM_ND. rewrite mblk_i by lia. cbn [Nat.add]. rewrite !Nat.sub_0_r. rewrite GECP_at by lia. rsimp. rewrite R_lit01, R_lit11. ring. }
  assert (HAL : forall i j, (i < ne)%nat -> (j < nv)%nat -> rsum nv (fun k => AL i k * lt Lv j k) = d_A q i j * sv j).
  { intros i j Hi Hj. unfold AL. rewrite (trsm_R ne nv Lv AL1 AL1) by (try assumption; intros k Hk; specialize (C2 k Hk); lra). apply HA1; assumption. }
  clearbody AL. clear AL1 HA1.
  set (Le1 := SYRK_LN_MN _ _ _ _ _ _ _ _ _ _ _ _ _ _ _ _ _).
  assert (HL1 : forall i j, (j <= i < ne)%nat -> Le1 i j = rsum nv (fun k => AL i k * AL j k)) by (intros i j Hij; apply schur_le; exact Hij). clearbody Le1.
  set (se := den_scaling ne Le1 (w_se w)). assert (Hse : forall i, (i < ne)%nat -> 0 < se i) by (intros i Hi; unfold se; rewrite den_scaling_R by exact Hi; apply scl_pos). clearbody se.
  set (Le2 := DIARE ne _ _ _ _).
  assert (HL2 : forall i j, (j <= i < ne)%nat -> Le2 i j = se i * rsum nv (fun k => AL i k * AL j k) * se j + if (i =? j)%nat then dreg else 0).
  { intros i j Hij. unfold Le2. rewrite DIARE_at by exact Hij. rewrite den_scale_mat_R by lia. rewrite HL1 by exact Hij. reflexivity. }
  clearbody Le2. destruct (POTRF_L_MN ne ne Le2 0 0 Le2 0 0 (w_dLe w)) as [Le dLe] eqn:EP2. 
  assert (S3 : forall i j, (i < ne)%nat -> (j < ne)%nat -> symL Le2 i j = se i * rsum nv (fun k => AL i k * AL j k) * se j + (if (i =? j)%nat then dreg else 0)).
  { apply (sym_ext ne Le2 (fun i j => se i * rsum nv (fun k => AL i k * AL j k) * se j + (if (i =? j)%nat then dreg else 0))); [exact HL2|].
    intros i j. rewrite (delta_sym dreg i j). rewrite (rsum_ext nv (fun k => AL i k * AL j k) (fun k => AL j k * AL i k)) by (intros; ring). ring. }
  destruct (singular ne dLe) eqn:ES2.
  { intros E. injection E as _ <-. split; [discriminate|split; [|discriminate]]. intros HP. exfalso. rewrite (potrf_pd ne ne Le2 Le2 _ Le dLe (le_n _) (PD_sym ne Le2 _ S3 (schur_pd AL Lv sv se dreg Hsv Hse HAL HP)) EP2) in ES2. discriminate. }
  destruct (chol_sq ne Le2 Le2 _ Le dLe EP2 ES2) as (C3 & C4). intros E. pose proof (f_equal snd E) as Es. apply (f_equal fst) in E. cbn [fst snd] in E, Es. subst w' st. split; [discriminate|]. split; [discriminate|]. intros _. unfold Zok, Lok, Sok. cbn [w_Zs w_sv w_se w_Lv w_AL w_Le]. split; [exact HZ|]. split.
  - split; [exact Hsv|]. split; [exact C2|]. intros i j Hi Hj. rewrite <- C1 by assumption. symmetry. apply S2; assumption.
  - split; [exact Hse|]. split; [exact C4|]. split; [exact HAL|]. intros i j Hi Hj. rewrite <- C3 by assumption. symmetry. apply S3; assumption.
Qed.

(** factorisation without scaling: the SYRK and POTRF steps are fused *)
Lemma fused_syrk m tmp Lv Ctx (dA : rvec) : (if (0 <? ng)%nat then
      let Ctx := den_ctx q tmp Ctx in
      let '(Lv, dLv) := SYRK_POTRF_LN_MN nv nv ng Ctx 0 0 (d_Ct q) 0 0 Lv 0 0 Lv 0 0 dA in (Lv, Ctx, dLv)
    else let '(Lv, dLv) := POTRF_L_MN nv nv Lv 0 0 Lv 0 0 dA in (Lv, Ctx, dLv)) = m ->
  POTRF_L_MN nv nv (fst (den_syrk q tmp Lv Ctx)) 0 0 Lv 0 0 dA = (fst (fst m), snd m).
Proof.
  intros <-. unfold den_syrk, SYRK_POTRF_LN_MN. destruct (0 <? ng)%nat; cbn [fst].
  - destruct (POTRF_L_MN _ _ _ _ _ _ _ _ _). reflexivity.
  - destruct (POTRF_L_MN _ _ _ _ _ _ _ _ _). reflexivity.
Qed.
Lemma den_fact_schur_R preg dreg w w' st : den_fact_schur a q Gamma preg dreg w = (w', st) ->
  (Mpd reg -> st <> Fpreg) /\ (Apd dreg -> st <> Fdreg) /\ (st = Fok -> Zok w' /\ Lok (fun _ => 1) reg w' /\ Sok (fun _ => 1) (fun _ => 1) dreg w').
Proof.
  unfold den_fact_schur. pose proof (den_tmp0_R (w_tmp w) (w_Zs w)) as HT. destruct (den_tmp0 _ _ _ _) as [tmp Zs]. destruct HT as (HT & HZ).
  set (L0 := DIARE nv (da_reg a) _ _ _).
  pose proof (den_mat_R reg tmp L0 (w_Ctx w) HT) as HM. specialize (HM ltac:(intros i j Hij; unfold L0; rewrite DIARE_at by exact Hij; rewrite GECP_at by lia; reflexivity)).
  pose proof (fused_syrk _ tmp (den_diag q tmp L0) (w_Ctx w) (w_dLv w) eq_refl) as EF. destruct (if (0 <? ng)%nat then _ else _) as [[Lv Ctx] dLv]. cbn [fst snd] in EF.
  set (L1 := fst (den_syrk _ _ _ _)) in *. clearbody L1. 
  assert (S2 : forall i j, (i < nv)%nat -> (j < nv)%nat -> symL L1 i j = dM i j + (if (i =? j)%nat then reg else 0)).
  { apply (sym_ext nv L1 (fun i j => dM i j + (if (i =? j)%nat then reg else 0))); [exact HM|]. intros i j. rewrite (dM_sym i j), (delta_sym reg i j). ring. }
  destruct (singular nv dLv) eqn:ES.
  { intros E. injection E as _ <-. split; [|split; discriminate]. intros HP. exfalso. rewrite (potrf_pd nv nv L1 _ _ Lv dLv (le_n _) (PD_sym nv L1 _ S2 (Mpd_1 reg HP)) EF) in ES. discriminate. }
  destruct (chol_sq nv L1 _ _ Lv dLv EF ES) as (C1 & C2).
  set (AL := TRSM_RLTN _ _ _ _ _ _ _ _ _ _ _ _).
  assert (HAL : forall i j, (i < ne)%nat -> (j < nv)%nat -> rsum nv (fun k => AL i k * lt Lv j k) = d_A q i j).
  { intros i j Hi Hj. unfold AL. apply (trsm_R ne nv Lv (d_A q) (w_AL w)); [intros k Hk; specialize (C2 k Hk); lra|exact Hi|exact Hj]. }
  clearbody AL. unfold SYRK_POTRF_LN_MN. set (Le1 := SYRK_LN_MN _ _ _ _ _ _ _ _ _ _ _ _ _ _ _ _ _).
  assert (HL1 : forall i j, (j <= i < ne)%nat -> Le1 i j = rsum nv (fun k => AL i k * AL j k) + if (i =? j)%nat then dreg else 0).
  { intros i j Hij. unfold Le1. rewrite SYRK_R by lia. cbn [Nat.add]. rewrite DIARE_at by exact Hij. unfold GESE. rewrite mblk_i by lia. rsimp. rewrite R_lit01, R_lit11. destruct (i =? j)%nat; lra. }
  clearbody Le1. set (Le0 := DIARE ne _ _ _ _). destruct (POTRF_L_MN ne ne Le1 0 0 Le0 0 0 (w_dLe w)) as [Le dLe] eqn:EP2. 
  assert (S3 : forall i j, (i < ne)%nat -> (j < ne)%nat -> symL Le1 i j = rsum nv (fun k => AL i k * AL j k) + (if (i =? j)%nat then dreg else 0)).
  { apply (sym_ext ne Le1 (fun i j => rsum nv (fun k => AL i k * AL j k) + (if (i =? j)%nat then dreg else 0))); [exact HL1|]. intros i j. rewrite (delta_sym dreg i j). f_equal. apply rsum_ext. intros; ring. }
  destruct (singular ne dLe) eqn:ES2.
  { intros E. injection E as _ <-. split; [discriminate|split; [|discriminate]]. intros HP. exfalso.
    assert (X : PD ne (fun i j => rsum nv (fun k => AL i k * AL j k) + (if (i =? j)%nat then dreg else 0))).
    { apply (PD_ext ne (fun i j => 1 * rsum nv (fun k => AL i k * AL j k) * 1 + (if (i =? j)%nat then dreg else 0))); [intros; lra|].
      apply (schur_pd AL Lv (fun _ => 1) (fun _ => 1) dreg); [intros; lra|intros; lra|intros i j Hi Hj; rewrite HAL by assumption; lra|exact HP]. }
    rewrite (potrf_pd ne ne Le1 Le0 _ Le dLe (le_n _) (PD_sym ne Le1 _ S3 X) EP2) in ES2. discriminate. }
  destruct (chol_sq ne Le1 Le0 _ Le dLe EP2 ES2) as (C3 & C4). intros E. pose proof (f_equal snd E) as Es. apply (f_equal fst) in E. cbn [fst snd] in E, Es. subst w' st. split; [discriminate|]. split; [discriminate|]. intros _. unfold Zok, Lok, Sok. cbn [w_Zs w_sv w_se w_Lv w_AL w_Le]. split; [exact HZ|]. split.
  - split; [intros; lra|]. split; [exact C2|]. intros i j Hi Hj. rewrite <- C1 by assumption. rewrite Rmult_1_l, Rmult_1_r. symmetry. apply S2; assumption.
  - split; [intros; lra|]. split; [exact C4|]. split; [intros i j Hi Hj; rewrite HAL by assumption; lra|]. intros i j Hi Hj. rewrite <- C3 by assumption. rewrite Rmult_1_l, Rmult_1_r. symmetry. apply S3; assumption.
Qed.
Lemma den_fact_sc_R preg w w' st : den_fact_sc a q Gamma preg w = (w', st) -> (Mpd preg -> st = Fok) /\ (st = Fok -> Zok w' /\ Lok (w_sv w') preg w').
Proof.
  unfold den_fact_sc. pose proof (den_tmp0_R (w_tmp w) (w_Zs w)) as HT. destruct (den_tmp0 _ _ _ _) as [tmp Zs]. destruct HT as (HT & HZ).
  pose proof (den_mat_R 0 tmp (TRCP_L nv (d_H q) 0 0 (w_Lv w) 0 0) (w_Ctx w) HT) as HM.
  specialize (HM ltac:(intros i j Hij; rewrite TRCP_at by lia; destruct (i =? j)%nat; lra)).
  destruct (den_syrk _ _ _ _) as [L1 Ctx]. cbn [fst] in HM.
  assert (HM' : forall i j, (j <= i < nv)%nat -> L1 i j = dM i j) by (intros i j Hij; rewrite HM by exact Hij; destruct (i =? j)%nat; lra). clear HM.
  set (sv := den_scaling nv L1 (w_sv w)). assert (Esv : forall i, (i < nv)%nat -> sv i = scl (dM i i)) by (intros i Hi; unfold sv; rewrite den_scaling_R by exact Hi; f_equal; apply HM'; lia).
  assert (Hsv : forall i, (i < nv)%nat -> 0 < sv i) by (intros i Hi; rewrite Esv by exact Hi; apply scl_pos). clearbody sv.
  set (L2 := DIARE _ _ _ _ _).
  assert (H2 : forall i j, (j <= i < nv)%nat -> L2 i j = sv i * dM i j * sv j + if (i =? j)%nat then preg else 0).
  { intros i j Hij. unfold L2. rewrite DIARE_at by exact Hij. rewrite den_scale_mat_R by lia. rewrite HM' by exact Hij. reflexivity. }
  destruct (POTRF_L_MN nv nv L2 0 0 L2 0 0 (w_dLv w)) as [Lv dLv] eqn:EP. 
  assert (S2 : forall i j, (i < nv)%nat -> (j < nv)%nat -> symL L2 i j = sv i * dM i j * sv j + (if (i =? j)%nat then preg else 0)).
  { apply (sym_ext nv L2 (fun i j => sv i * dM i j * sv j + (if (i =? j)%nat then preg else 0))); [exact H2|]. intros i j. rewrite (dM_sym i j), (delta_sym preg i j). ring. }
  destruct (singular nv dLv) eqn:ES.
  { intros E. injection E as _ <-. split; [|discriminate]. intros HP. rewrite (potrf_pd nv nv L2 L2 _ Lv dLv (le_n _) (PD_sym nv L2 _ S2 (HP sv (or_intror Esv))) EP) in ES. discriminate. }
  destruct (chol_sq nv L2 L2 _ Lv dLv EP ES) as (C1 & C2). intros E. pose proof (f_equal snd E) as Es. apply (f_equal fst) in E. cbn [fst snd] in E, Es. subst w' st. split; [reflexivity|]. intros _. unfold Zok, Lok. cbn [w_Zs w_sv w_Lv]. split; [exact HZ|].
  split; [exact Hsv|]. split; [exact C2|]. intros i j Hi Hj. rewrite <- C1 by assumption. symmetry. apply S2; assumption.
Qed.
(** FACT_KKT_STEP, no equality constraints, no scaling *)
Lemma den_fact_plain0_R w w' : den_fact_plain0 a q Gamma w = w' -> (Mpd reg -> singular nv (w_dLv w') = false) /\ (singular nv (w_dLv w') = false -> Zok w' /\ Lok (fun _ => 1) reg w').
Proof.
  unfold den_fact_plain0. pose proof (den_tmp0_R (w_tmp w) (w_Zs w)) as HT. destruct (den_tmp0 _ _ _ _) as [tmp Zs]. destruct HT as (HT & HZ).
  set (L0 := DIARE nv (da_reg a) _ _ _).
  pose proof (den_mat_R reg tmp L0 (w_Ctx w) HT) as HM. specialize (HM ltac:(intros i j Hij; unfold L0; rewrite DIARE_at by exact Hij; rewrite GECP_at by lia; reflexivity)).
  pose proof (fused_syrk _ tmp (den_diag q tmp L0) (w_Ctx w) (w_dLv w) eq_refl) as EF. destruct (if (0 <? ng)%nat then _ else _) as [[Lv Ctx] dLv]. cbn [fst snd] in EF.
  set (L1 := fst (den_syrk _ _ _ _)) in *. clearbody L1. intros <-. cbn [w_dLv].
  assert (S2 : forall i j, (i < nv)%nat -> (j < nv)%nat -> symL L1 i j = dM i j + (if (i =? j)%nat then reg else 0)).
  { apply (sym_ext nv L1 (fun i j => dM i j + (if (i =? j)%nat then reg else 0))); [exact HM|]. intros i j. rewrite (dM_sym i j), (delta_sym reg i j). ring. }
  split; [intros HP; exact (potrf_pd nv nv L1 _ _ Lv dLv (le_n _) (PD_sym nv L1 _ S2 (Mpd_1 reg HP)) EF)|]. intros ES.
  destruct (chol_sq nv L1 _ _ Lv dLv EF ES) as (C1 & C2). unfold Zok, Lok. cbn [w_Zs w_Lv]. split; [exact HZ|].
  split; [intros; lra|]. split; [exact C2|]. intros i j Hi Hj. rewrite <- C1 by assumption. rewrite Rmult_1_l, Rmult_1_r. symmetry. apply S2; assumption.
Qed.
End Den.
