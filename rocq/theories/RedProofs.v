(** RedProofs.v -- the code of RedModel.v computes the restriction of RedSpec.v. *)
From Coq Require Import ZArith Bool Arith List Lia Reals Lra.
From Verif Require Import Base ArithF RSum Blas OcpModel ResSpec ResProofs ResProofs2 KktProofs RedModel RedSpec RedSem.
Local Open Scope R_scope.
Notation rvec := (nat -> R).
Notation rmat := (nat -> nat -> R).

Lemma comp_ind {S} n m (f : nat -> nat -> S -> S) s (Q : nat -> S -> Prop) : Q 0%nat s -> (forall k x, (k < n)%nat -> m k = true -> Q k x -> Q (Datatypes.S k) x) ->
  (forall k x, (k < n)%nat -> m k = false -> Q k x -> Q (Datatypes.S k) (f k (rk m k) x)) -> Q n (comp n m f s).
Proof.
  intros H0 H1 H2. unfold comp.
  apply (loop_ind (fun k (st : S * nat) => Q k (fst st) /\ snd st = rk m k) n).
  - split; [exact H0|reflexivity].
  - intros k [x p] Hk (A & B). cbn in A, B. subst p. cbv beta iota. rewrite rk_S. destruct (m k) eqn:E; cbn [fst snd]; (split; [|lia]); [apply H1|apply H2]; assumption.
Qed.
Lemma comp_ext {S} n m m' (f : nat -> nat -> S -> S) s : (forall k, (k < n)%nat -> m k = m' k) -> comp n m f s = comp n m' f s.
Proof. intros H. unfold comp. f_equal. apply loop_ext. intros k [x p] Hk. rewrite H by exact Hk. reflexivity. Qed.

(** counting the values of an injective map *)
Lemma existsb_seq_S f q : existsb f (seq 0 (S q)) = (existsb f (seq 0 q) || f q)%bool.
Proof. rewrite seq_S, existsb_app. cbn. rewrite orb_false_r. reflexivity. Qed.
Lemma nsum_delta n k : (k < n)%nat -> nsum n (fun l => if (l =? k)%nat then 1 else 0)%nat = 1%nat.
Proof.
  induction n as [|n IH]; intros H; [lia|]. cbn [nsum]. destruct (Nat.eqb_spec n k) as [->|N].
  - assert (Z0 : nsum k (fun l => if (l =? k)%nat then 1 else 0)%nat = 0%nat). { rewrite (nsum_ext _ _ (fun _ => 0%nat)); [clear; induction k; cbn; lia|]. intros l Hl. destruct (Nat.eqb_spec l k); [lia|reflexivity]. }
    lia.
  - rewrite IH by lia. lia.
Qed.
Lemma count_inj n ne (f : nat -> nat) : (forall q, (q < ne)%nat -> (f q < n)%nat) -> (forall q q', (q < ne)%nat -> (q' < ne)%nat -> f q = f q' -> q = q') ->
  nsum n (fun l => if existsb (fun q => (l =? f q)%nat) (seq 0 ne) then 1 else 0)%nat = ne.
Proof.
  induction ne as [|ne IH]; intros H1 H2; [rewrite (nsum_ext _ _ (fun _ => 0%nat)) by reflexivity; clear; induction n; cbn; lia|].
  rewrite (nsum_ext _ _ (fun l => (if existsb (fun q => (l =? f q)%nat) (seq 0 ne) then 1 else 0) + (if (l =? f ne)%nat then 1 else 0))%nat).
  - rewrite nsum_add, nsum_delta by (apply H1; lia). rewrite IH; [lia| |]; intros; [apply H1; lia|apply H2; auto; lia].
  - intros l Hl. rewrite existsb_seq_S. destruct (existsb (fun q => (l =? f q)%nat) (seq 0 ne)) eqn:E; cbn [orb].
    + destruct (Nat.eqb_spec l (f ne)) as [->|_]; [|reflexivity]. exfalso. apply existsb_exists in E. destruct E as (q & A & B). apply in_seq in A. apply Nat.eqb_eq in B. pose proof (H2 ne q ltac:(lia) ltac:(lia) B). lia.
    + destruct (l =? f ne)%nat; reflexivity.
Qed.
Lemma rk_count m n : (rk m n + nsum n (fun l => if m l then 1 else 0) = n)%nat.
Proof. induction n as [|n IH]; [reflexivity|]. rewrite rk_S. cbn [nsum]. destruct (m n); lia. Qed.

(** *** the pieces *)
Lemma red_rows_R nux ncol mx (A B : rmat) k j : (k < nux)%nat -> mx k = false -> (j < ncol)%nat -> red_rows nux ncol mx A B (rk mx k) j = A k j.
Proof.
  unfold red_rows. intros Hk Hm Hj.
  apply (comp_ind nux mx (fun jj idx0 B => GECP 1 ncol A jj 0 B idx0 0) B (fun n (M : rmat) => forall k, (k < n)%nat -> mx k = false -> M (rk mx k) j = A k j)); [lia| | |exact Hk|exact Hm]; clear k Hk Hm.
  - intros n M Hn E IH k Hk Hm. destruct (Nat.eq_dec k n) as [->|N]; [congruence|]. apply IH; [lia|exact Hm].
  - intros n M Hn E IH k Hk Hm. unfold GECP. destruct (Nat.eq_dec k n) as [->|N].
    + rewrite mblk_i by lia. f_equal; lia.
    + pose proof (rk_lt mx k n ltac:(lia) Hm). rewrite mblk_o by lia. apply IH; [lia|exact Hm].
Qed.
Lemma mset_at (A : rmat) i j v : mset A i j v i j = v.
Proof. unfold mset. rewrite !Nat.eqb_refl. reflexivity. Qed.
Lemma mset_o (A : rmat) i j v r c : (r <> i \/ c <> j)%nat -> mset A i j v r c = A r c.
Proof. unfold mset. intros H. destruct (Nat.eqb_spec r i); destruct (Nat.eqb_spec c j); try reflexivity. lia. Qed.
Lemma red_hess_R nux mx (A B : rmat) k l : (l <= k < nux)%nat -> mx k = false -> mx l = false -> red_hess nux mx A B (rk mx k) (rk mx l) = A k l.
Proof.
  intros Hk Hm Hl. unfold red_hess.
  set (f := fun jj idx0 (B : rmat) => fst (loop (nux - jj) (fun q '(B, idx1) => let kk := (jj + q)%nat in if mx kk then (B, idx1) else (mset B idx1 idx0 (A kk jj), S idx1)) (B, idx0))).
  apply (comp_ind nux mx f B (fun n (M : rmat) => forall l, (l < n)%nat -> mx l = false -> forall k, (l <= k < nux)%nat -> mx k = false -> M (rk mx k) (rk mx l) = A k l)); try lia; try assumption; clear k l Hk Hm Hl.
  - intros n M Hn E IH l Hl Hm. destruct (Nat.eq_dec l n) as [->|N]; [congruence|]. apply IH; [lia|exact Hm].
  - intros n M Hn E IH.
    assert (X : forall q, (q <= nux - n)%nat -> let '(M', i1) := loop q (fun q '(B, idx1) => let kk := (n + q)%nat in if mx kk then (B, idx1) else (mset B idx1 (rk mx n) (A kk n), S idx1)) (M, rk mx n) in
      i1 = rk mx (n + q) /\ (forall k, (n <= k < n + q)%nat -> mx k = false -> M' (rk mx k) (rk mx n) = A k n) /\ (forall a c, (c <> rk mx n)%nat -> M' a c = M a c)).
    { induction q as [|q IHq]; intros Hq.
      - cbn [loop]. split; [f_equal; lia|]. split; [lia|reflexivity].
      - rewrite loop_S. specialize (IHq ltac:(lia)). destruct (loop q _ _) as [M' i1]. destruct IHq as (P1 & P2 & P3). cbv beta iota zeta. rewrite Nat.add_succ_r, rk_S. destruct (mx (n + q)%nat) eqn:Eq.
        + split; [lia|]. split; [|exact P3]. intros k Hk Hm. destruct (Nat.eq_dec k (n + q)) as [->|N]; [congruence|]. apply P2; [lia|exact Hm].
        + split; [lia|]. split.
          * intros k Hk Hm. destruct (Nat.eq_dec k (n + q)) as [->|N]; [rewrite P1; apply mset_at|]. pose proof (rk_lt mx k (n + q) ltac:(lia) Hm). rewrite mset_o by lia. apply P2; [lia|exact Hm].
          * intros a c Hc. rewrite mset_o by lia. apply P3. exact Hc. }
    specialize (X (nux - n)%nat (le_n _)). intros l Hl Hm k Hk Hm'. unfold f. destruct (loop (nux - n) _ _) as [M' i1]. cbn [fst]. destruct X as (_ & X1 & X2). destruct (Nat.eq_dec l n) as [->|N].
    + apply X1; [lia|exact Hm'].
    + pose proof (rk_lt mx l n ltac:(lia) Hm). rewrite X2 by lia. apply IH; try assumption; lia.
Qed.
Lemma red_idx_R {A} nb md (x v : nat -> A) k : (k < nb)%nat -> md k = false -> red_idx nb md x v (rk md k) = x k.
Proof.
  unfold red_idx. intros Hk Hm.
  apply (comp_ind nb md (fun jj idx0 v => upd v idx0 (x jj)) v (fun n (M : nat -> A) => forall k, (k < n)%nat -> md k = false -> M (rk md k) = x k)); [lia| | |exact Hk|exact Hm]; clear k Hk Hm.
  - intros n M Hn E IH k Hk Hm. destruct (Nat.eq_dec k n) as [->|N]; [congruence|]. apply IH; [lia|exact Hm].
  - intros n M Hn E IH k Hk Hm. destruct (Nat.eq_dec k n) as [->|N]; [apply upd_same|]. pose proof (rk_lt md k n ltac:(lia) Hm). rewrite upd_other by lia. apply IH; [lia|exact Hm].
Qed.
Lemma red_bnd_R nb ng nbr ngr md (x v : rvec) k : nbr = rk md nb -> (k < nb)%nat -> md k = false ->
  red_bnd nb ng nbr ngr md x v (rk md k) = x k /\ red_bnd nb ng nbr ngr md x v (nbr + ngr + rk md k)%nat = x (nb + ng + k)%nat.
Proof.
  unfold red_bnd. intros E0 Hk Hm.
  apply (comp_ind nb md (fun jj idx0 v => upd (upd v idx0 (x jj)) (nbr + ngr + idx0)%nat (x (nb + ng + jj)%nat)) v
    (fun n (M : rvec) => forall k, (k < n)%nat -> md k = false -> M (rk md k) = x k /\ M (nbr + ngr + rk md k)%nat = x (nb + ng + k)%nat)); [lia| | |exact Hk|exact Hm]; clear k Hk Hm.
  - intros n M Hn E IH k Hk Hm. destruct (Nat.eq_dec k n) as [->|N]; [congruence|]. apply IH; [lia|exact Hm].
  - intros n M Hn E IH k Hk Hm. pose proof (rk_lt md n nb Hn E). pose proof (rk_lt md k nb ltac:(lia) Hm). destruct (Nat.eq_dec k n) as [->|N].
    + split; [rewrite upd_other by lia; apply upd_same|apply upd_same].
    + pose proof (rk_lt md k n ltac:(lia) Hm). rewrite !upd_other by lia. apply IH; [lia|exact Hm].
Qed.

Section Stage.
Variables (qp : oqp R) (e : eqd) (i : nat).
Let D := q_dim qp.
Let Dr := dim_reduce D e.
Let n := nux qp i.
Let nb := dnb D i.
Let ng := dng D i.
Let ns := dns D i.
Let nbr := dnb Dr i.
Hypothesis Hi : (i <= dN D)%nat.
Hypothesis WF : qp_wf qp.
Hypothesis EW : eq_wf qp e.
Notation fx := (fixed qp e i).
Notation rm := (removed e i).
Notation vp := (vplace qp e i).
Notation cp := (cplace qp e i).
Notation rmc := (removedc qp e i).
Notation fv := (fixval qp e i).
Notation ne := (ne_thr e i).
Notation ib q := (q_idxb qp i (e_idxe e i q)).

Lemma ew_idxe q : (q < ne)%nat -> (e_idxe e i q < nb)%nat.
Proof. intros H. destruct (EW i Hi) as (_ & _ & _ & A & _). apply A. exact H. Qed.
Lemma ew_ib q : (q < ne)%nat -> (ib q < n)%nat.
Proof. intros H. apply (WF i Hi). apply ew_idxe. exact H. Qed.
Lemma ew_inj q q' : (q < ne)%nat -> (q' < ne)%nat -> ib q = ib q' -> q = q'.
Proof. destruct (EW i Hi) as (_ & _ & _ & _ & _ & _ & A & _). apply A. Qed.
Lemma fixed_eq k : (k < n)%nat -> fx k = existsb (fun q => (k =? ib q)%nat) (seq 0 ne).
Proof. intros H. unfold fixed. fold n. destruct (Nat.ltb_spec k n); [reflexivity|lia]. Qed.
Lemma fixed_big k : (n <= k)%nat -> fx k = false.
Proof. intros H. unfold fixed. fold n. destruct (Nat.ltb_spec k n); [lia|reflexivity]. Qed.
(** sizes *)
Lemma nbr_eq : nbr = rk rm nb.
Proof.
  pose proof (rk_count rm nb) as X. unfold removed in X at 2. rewrite (count_inj nb ne (e_idxe e i)) in X; [|exact ew_idxe|intros q q' A B E; apply ew_inj; [exact A|exact B|rewrite E; reflexivity]].
  destruct (EW i Hi) as (A & B & C & _). fold D in A. unfold nbr, Dr, dim_reduce. cbn [dnb]. unfold ne_thr in X. fold nb in A. destruct (Nat.eqb_spec i 0) as [E|E]; [specialize (C E)|]; lia.
Qed.
Lemma nur_eq : dnu Dr i = vp (dnu D i).
Proof.
  pose proof (rk_count fx (dnu D i)) as X. destruct (EW i Hi) as (A & B & C & _ & U1 & U2 & _). fold D in U1, U2.
  assert (LE : (e_nbue e i <= ne)%nat) by (unfold ne_thr; destruct (i =? 0)%nat; lia).
  rewrite (nsum_ext _ _ (fun l => if existsb (fun q => (l =? ib q)%nat) (seq 0 (e_nbue e i)) then 1 else 0)%nat) in X.
  - rewrite (count_inj (dnu D i) (e_nbue e i) (fun q => ib q)) in X; [|exact U1|intros q q' Q1 Q2; apply ew_inj; lia]. unfold vplace. unfold Dr, dim_reduce. cbn [dnu]. lia.
  - intros l Hl. rewrite fixed_eq by (unfold n, nux; fold D; lia). destruct (existsb (fun q => (l =? ib q)%nat) (seq 0 ne)) eqn:E1; destruct (existsb (fun q => (l =? ib q)%nat) (seq 0 (e_nbue e i))) eqn:E2; try reflexivity; exfalso.
    + apply existsb_exists in E1. destruct E1 as (q & Q1 & Q2). apply in_seq in Q1. apply Nat.eqb_eq in Q2. destruct (Nat.lt_ge_cases q (e_nbue e i)) as [L|L].
      * rewrite <- not_true_iff_false in E2. apply E2. apply existsb_exists. exists q. split; [apply in_seq; lia|apply Nat.eqb_eq; exact Q2].
      * pose proof (U2 q ltac:(lia)). lia.
    + apply existsb_exists in E2. destruct E2 as (q & Q1 & Q2). apply in_seq in Q1. rewrite <- not_true_iff_false in E1. apply E1. apply existsb_exists. exists q. split; [apply in_seq; lia|exact Q2].
Qed.
Lemma nuxr_eq : (dnu Dr i + dnx Dr i)%nat = vp n.
Proof.
  pose proof (rk_count fx n) as X. rewrite (nsum_ext _ _ (fun l => if existsb (fun q => (l =? ib q)%nat) (seq 0 ne) then 1 else 0)%nat) in X by (intros l Hl; rewrite fixed_eq by exact Hl; reflexivity).
  rewrite (count_inj n ne (fun q => ib q)) in X; [|exact ew_ib|exact ew_inj]. unfold vplace.
  pose proof nur_eq as Y. unfold vplace in Y. pose proof (rk_count fx (dnu D i)) as Z0. destruct (EW i Hi) as (A & B & C & _ & U1 & U2 & _). fold D in U1, U2.
  (* number of fixed states *)
  assert (W : (e_nbue e i <= dnu D i)%nat /\ (ne - e_nbue e i <= dnx D i)%nat /\ (e_nbue e i <= ne)%nat).
  { assert (LE : (e_nbue e i <= ne)%nat) by (unfold ne_thr; destruct (i =? 0)%nat; lia). split; [|split; [|exact LE]].
    - pose proof (count_inj (dnu D i) (e_nbue e i) (fun q => ib q) U1 ltac:(intros q q' Q1 Q2; apply ew_inj; lia)) as K. rewrite <- K at 1. clear. generalize (dnu D i). intros m. induction m as [|m IH]; [apply le_n|]. cbn [nsum]. destruct (existsb _ _); lia.
    - pose proof (count_inj (dnx D i) (ne - e_nbue e i) (fun q => ib (q + e_nbue e i) - dnu D i)%nat) as K. rewrite <- K at 1.
      + clear. generalize (dnx D i). intros m. induction m as [|m IH]; [apply le_n|]. cbn [nsum]. destruct (existsb _ _); lia.
      + intros q Hq. pose proof (ew_ib (q + e_nbue e i) ltac:(lia)) as K1. pose proof (U2 (q + e_nbue e i)%nat ltac:(lia)) as K2. unfold n, nux in K1. fold D in K1. lia.
      + intros q q' Q1 Q2 E. pose proof (U2 (q + e_nbue e i)%nat ltac:(lia)) as K2. pose proof (U2 (q' + e_nbue e i)%nat ltac:(lia)) as K3. assert (q + e_nbue e i = q' + e_nbue e i)%nat by (apply ew_inj; lia). lia. }
  unfold Dr, dim_reduce in *. cbn [dnu dnx] in *. unfold ne_thr in *. unfold n, nux in X |- *. fold D in X |- *. destruct (Nat.eqb_spec i 0) as [E|E]; lia.
Qed.
Lemma vp_slack s : vp (n + s)%nat = (vp n + s)%nat.
Proof. apply rk_free. intros k Hk. apply fixed_big. lia. Qed.
Lemma rm_rmc_lo j : (j < nb)%nat -> rmc j = rm j.
Proof. intros H. unfold removedc. fold D. fold nb ng. destruct (Nat.ltb_spec j nb); [|lia]. destruct (Nat.leb_spec (nb + ng) j); [lia|]. cbn [andb]. rewrite orb_false_r. reflexivity. Qed.
Lemma rm_rmc_up j : (j < nb)%nat -> rmc (nb + ng + j)%nat = rm j.
Proof.
  intros H. unfold removedc. fold D. fold nb ng. destruct (Nat.ltb_spec (nb + ng + j) nb); [lia|]. destruct (Nat.leb_spec (nb + ng) (nb + ng + j)); [|lia]. destruct (Nat.ltb_spec (nb + ng + j) (2 * nb + ng)); [|lia]. cbn [andb orb]. f_equal. lia.
Qed.
Lemma rmc_gen j : (nb <= j < nb + ng \/ 2 * nb + ng <= j)%nat -> rmc j = false.
Proof. intros H. unfold removedc. fold D. fold nb ng. destruct (Nat.ltb_spec j nb); [lia|]. destruct (Nat.leb_spec (nb + ng) j); [|reflexivity]. destruct (Nat.ltb_spec j (2 * nb + ng)); [lia|]. reflexivity. Qed.
Lemma cp_lo j : (j <= nb)%nat -> cp j = rk rm j.
Proof. intros H. apply rk_ext. intros l Hl. apply rm_rmc_lo. lia. Qed.
Lemma cp_g j : (j <= ng)%nat -> cp (nb + j)%nat = (nbr + j)%nat.
Proof. intros H. unfold cplace. rewrite rk_free by (intros k Hk; apply rmc_gen; lia). change (rk rmc nb) with (cp nb). rewrite cp_lo by lia. rewrite nbr_eq. reflexivity. Qed.
Lemma cp_up j : (j <= nb)%nat -> cp (nb + ng + j)%nat = (nbr + ng + rk rm j)%nat.
Proof.
  intros H. unfold cplace. unfold rk at 1. rewrite nsum_split. change (nsum (nb + ng) _) with (cp (nb + ng)%nat). rewrite cp_g by lia. f_equal. apply nsum_ext. intros l Hl. rewrite rm_rmc_up by lia. reflexivity.
Qed.
Lemma cp_rest j : cp (2 * nb + ng + j)%nat = (2 * nbr + ng + j)%nat.
Proof.
  unfold cplace. rewrite rk_free by (intros k Hk; apply rmc_gen; lia). change (rk rmc (2 * nb + ng)) with (cp (2 * nb + ng)%nat). replace (2 * nb + ng)%nat with (nb + ng + nb)%nat by lia. rewrite cp_up by lia. rewrite nbr_eq. lia.
Qed.
Lemma dngr : dng Dr i = ng. Proof. reflexivity. Qed.
Lemma dnsr : dns Dr i = ns. Proof. reflexivity. Qed.
(** marks *)
Lemma red_marks_R (nbm : nat) (w : rwork (F := R)) : nbm = nb -> let w' := red_marks n nbm ne (q_idxb qp i) (e_idxe e i) (q_d qp i) w in
  (forall k, (k < n)%nat -> rw_x0 w' k = fv k /\ rw_mx w' k = fx k) /\ (forall j, (j < nb)%nat -> rw_md w' j = rm j).
Proof.
  intros ->. cbv zeta. unfold red_marks.
  set (x0 := VECSE n f0 (rw_x0 w) 0). set (mx := loop n _ _). set (md := loop nb _ _).
  assert (Y : forall q, (q <= ne)%nat -> let '(x0', mx', md') := loop q (fun jj '(x0, mx, md) => (upd x0 (ib jj) (q_d qp i (e_idxe e i jj)), upd mx (ib jj) true, upd md (e_idxe e i jj) true)) (x0, mx, md) in
    (forall k, (k < n)%nat -> x0' k = rsum q (fun q => if (k =? ib q)%nat then q_d qp i (e_idxe e i q) else 0) /\ mx' k = existsb (fun q => (k =? ib q)%nat) (seq 0 q)) /\
    (forall j, (j < nb)%nat -> md' j = existsb (fun q => (j =? e_idxe e i q)%nat) (seq 0 q))).
  { induction q as [|q IH]; intros Hq.
    - cbn [loop]. split; intros k Hk.
      + split; [unfold x0, VECSE; rewrite vset_in' by lia; cbn [rsum]; rsimp; rewrite ?R_lit01; reflexivity|]. unfold mx. etransitivity; [exact (loop_upd_vset (rw_mx w) 0 n (fun _ => false) k)|]. rewrite vset_in' by lia. reflexivity.
      + unfold md. etransitivity; [exact (loop_upd_vset (rw_md w) 0 nb (fun _ => false) k)|]. rewrite vset_in' by lia. reflexivity.
    - rewrite loop_S. specialize (IH ltac:(lia)). destruct (loop q _ _) as [[x0' mx'] md']. destruct IH as (IH1 & IH2). split.
      + intros k Hk. destruct (IH1 k Hk) as (I1 & I2). rewrite existsb_seq_S. cbn [rsum]. destruct (Nat.eqb_spec k (ib q)) as [E|E].
        * rewrite E, !upd_same. split; [|rewrite orb_true_r; reflexivity]. rewrite rsum_0; [ring|]. intros q' Hq'. destruct (Nat.eqb_spec (ib q) (ib q')) as [E2|_]; [|reflexivity]. pose proof (ew_inj q q' ltac:(lia) ltac:(lia) E2). lia.
        * rewrite !upd_other by exact E. rewrite orb_false_r. split; [rewrite I1; ring|exact I2].
      + intros j Hj. rewrite existsb_seq_S. destruct (Nat.eqb_spec j (e_idxe e i q)) as [E|E]; [rewrite E, upd_same, orb_true_r; reflexivity|]. rewrite upd_other by exact E. rewrite orb_false_r. apply IH2. exact Hj. }
  specialize (Y ne (le_n _)). destruct (loop ne _ _) as [[x0' mx'] md']. destruct Y as (Y1 & Y2). cbn [rw_x0 rw_mx rw_md]. split.
  - intros k Hk. destruct (Y1 k Hk) as (A & B). split; [exact A|]. rewrite fixed_eq by exact Hk. exact B.
  - exact Y2.
Qed.
(** d, d_mask, m: the entries kept, in order *)
Lemma red_cp_R md (x v : rvec) : (forall j, (j < nb)%nat -> md j = rm j) -> forall c, (c < nct D i)%nat -> rmc c = false ->
  red_gen nb ng ns nbr ng x (red_bnd nb ng nbr ng md x v) (cp c) = x c.
Proof.
  intros Hmd c Hc Hr. unfold nct in Hc. fold nb ng ns in Hc.
  assert (RK : forall j, (j <= nb)%nat -> rk md j = rk rm j) by (intros j Hj; apply rk_ext; intros l Hl; apply Hmd; lia).
  assert (E0 : nbr = rk md nb) by (rewrite RK by lia; apply nbr_eq).
  unfold red_gen, VECCP. destruct (Nat.lt_ge_cases c nb) as [L1|L1]; [|destruct (Nat.lt_ge_cases c (nb + ng)) as [L2|L2]; [|destruct (Nat.lt_ge_cases c (2 * nb + ng)) as [L3|L3]]].
  - rewrite cp_lo by lia. rewrite rm_rmc_lo in Hr by lia. pose proof (rk_lt rm c nb L1 Hr) as K. rewrite <- nbr_eq in K. rewrite !vset_out by lia. rewrite <- RK by lia. apply red_bnd_R; [exact E0|exact L1|rewrite Hmd by lia; exact Hr].
  - replace c with (nb + (c - nb))%nat by lia. rewrite cp_g by lia. rewrite vset_out by lia. rewrite vset_in by lia. reflexivity.
  - replace c with (nb + ng + (c - nb - ng))%nat in Hr |- * by lia. rewrite rm_rmc_up in Hr by lia. rewrite cp_up by lia. pose proof (rk_lt rm (c - nb - ng) nb ltac:(lia) Hr) as K. rewrite <- nbr_eq in K. rewrite !vset_out by lia. rewrite <- RK by lia. apply red_bnd_R; [exact E0|lia|rewrite Hmd by lia; exact Hr].
  - replace c with (2 * nb + ng + (c - 2 * nb - ng))%nat by lia. rewrite cp_rest. rewrite vset_in by lia. reflexivity.
Qed.
(** no variable fixed at this stage *)
Lemma none_fx : ne = 0%nat -> forall k, fx k = false.
Proof. intros H k. unfold fixed. rewrite H. cbn. apply andb_false_r. Qed.
Lemma none_rm : ne = 0%nat -> forall k, rm k = false.
Proof. intros H k. unfold removed. rewrite H. reflexivity. Qed.
Lemma none_rmc : ne = 0%nat -> forall k, rmc k = false.
Proof. intros H k. unfold removedc. rewrite !none_rm by exact H. rewrite !andb_false_r. reflexivity. Qed.
Lemma rk_none m k : (forall l, m l = false) -> rk m k = k.
Proof. intros H. pose proof (rk_free m 0 k ltac:(intros; apply H)). exact H0. Qed.
Lemma none_fv : ne = 0%nat -> forall k, fv k = 0.
Proof. intros H k. unfold fixval. rewrite H. reflexivity. Qed.

(** *** what the two parts of the reduction leave in the fields of stage i *)
Definition lhs_post (r : oqp R) : Prop :=
  ((i < dN D)%nat -> forall k j, (k < n)%nat -> fx k = false -> (j < dnx D (S i))%nat -> q_BAbt r i (vp k) j = q_BAbt qp i k j) /\
  (forall k l, (l <= k < n)%nat -> fx k = false -> fx l = false -> q_RSQ r i (vp k) (vp l) = q_RSQ qp i k l) /\
  (forall k j, (k < n)%nat -> fx k = false -> (j < ng)%nat -> q_DCt r i (vp k) j = q_DCt qp i k j) /\
  (forall s, (s < 2 * ns)%nat -> q_Z r i s = q_Z qp i s) /\
  (forall j, (j < nb)%nat -> rm j = false -> q_idxb r i (rk rm j) = q_idxb qp i j /\ q_idxs_rev r i (rk rm j) = q_idxs_rev qp i j) /\
  (forall j, (j < ng)%nat -> q_idxs_rev r i (nbr + j)%nat = q_idxs_rev qp i (nb + j)%nat).
Definition gen_shift (c : nat) : R :=
  if (c <? nb)%nat then 0 else if (c <? nb + ng)%nat then - rsum n (fun k => q_DCt qp i k (c - nb)%nat * fv k)
  else if (c <? 2 * nb + ng)%nat then 0 else if (c <? 2 * nb + 2 * ng)%nat then rsum n (fun k => q_DCt qp i k (c - 2 * nb - ng)%nat * fv k) else 0.
Definition rhs_post (r : oqp R) : Prop :=
  ((i < dN D)%nat -> forall j, (j < dnx D (S i))%nat -> q_b r i j = q_b qp i j + rsum n (fun k => q_BAbt qp i k j * fv k)) /\
  (forall k, (k < n)%nat -> fx k = false -> q_rqz r i (vp k) = q_rqz qp i k + rsum n (fun l => symL (q_RSQ qp i) k l * fv l)) /\
  (forall s, (s < 2 * ns)%nat -> q_rqz r i (vp n + s)%nat = q_rqz qp i (n + s)%nat) /\
  (forall c, (c < nct D i)%nat -> rmc c = false -> q_d r i (cp c) = q_d qp i c + gen_shift c /\ q_mask r i (cp c) = q_mask qp i c /\ q_m r i (cp c) = q_m qp i c).
Lemma lhs_stage_R al (r : oqp R) w : q_dim r = Dr -> lhs_post (fst (red_lhs_stage al qp e i (r, w))).
Proof.
  intros ED. unfold red_lhs_stage. rewrite ED. fold D. change (dnu D i + dnx D i)%nat with n. fold nb ng ns. change (dnb Dr i) with nbr. replace (i + 1)%nat with (S i) by lia.
  destruct (EW i Hi) as (NB & _). fold D in NB. fold nb in NB.
  destruct (Nat.ltb_spec 0 ne) as [Hne|Hne].
  - pose proof (red_marks_R (e_nbu e i + e_nbx e i) w NB) as M. cbv zeta in M. set (w' := red_marks _ _ _ _ _ _ _) in *. clearbody w'. destruct M as (M1 & M2).
    assert (RK : forall k, (k <= n)%nat -> vp k = rk (rw_mx w') k) by (intros k Hk; apply rk_ext; intros l Hl; symmetry; apply M1; lia).
    assert (RD : forall k, (k <= nb)%nat -> rk rm k = rk (rw_md w') k) by (intros k Hk; apply rk_ext; intros l Hl; symmetry; apply M2; lia).
    cbn [fst]. unfold lhs_post. cbn [q_BAbt q_RSQ q_DCt q_Z q_idxb q_idxs_rev]. rewrite !upd_same. split; [|split; [|split; [|split; [|split]]]].
    + intros HN k j Hk Hf Hj. destruct (Nat.ltb_spec i (dN D)); [|lia]. rewrite upd_same, RK by lia. apply red_rows_R; [exact Hk|rewrite (proj2 (M1 k Hk)); exact Hf|exact Hj].
    + intros k l Hk Hf Hl. rewrite !RK by lia. apply red_hess_R; [exact Hk|rewrite (proj2 (M1 k ltac:(lia))); exact Hf|rewrite (proj2 (M1 l ltac:(lia))); exact Hl].
    + intros k j Hk Hf Hj. rewrite RK by lia. apply red_rows_R; [exact Hk|rewrite (proj2 (M1 k Hk)); exact Hf|exact Hj].
    + intros s Hs. unfold VECCP. rewrite vset_in' by lia. f_equal. lia.
    + intros j Hj Hr. pose proof (rk_lt rm j nb Hj Hr) as K. rewrite <- nbr_eq in K. rewrite RD by lia. split; [apply red_idx_R; [exact Hj|rewrite M2 by exact Hj; exact Hr]|].
      rewrite (loop_upd_vset _ nbr ng (fun jj => q_idxs_rev qp i (nb + jj)%nat)). rewrite vset_out by (rewrite <- RD by lia; lia). apply red_idx_R; [exact Hj|rewrite M2 by exact Hj; exact Hr].
    + intros j Hj. rewrite (loop_upd_vset _ nbr ng (fun jj => q_idxs_rev qp i (nb + jj)%nat)). rewrite vset_in' by lia. f_equal. lia.
  - assert (Z0 : ne = 0%nat) by lia. assert (RK : forall k, vp k = k) by (intros k; apply rk_none, none_fx, Z0). assert (RD : forall k, rk rm k = k) by (intros k; apply rk_none, none_rm, Z0).
    assert (ENB : nbr = nb) by (rewrite nbr_eq; apply RD).
    destruct al; cbn [fst]; unfold lhs_post; cbn [q_BAbt q_RSQ q_DCt q_Z q_idxb q_idxs_rev]; rewrite !upd_same.
    + split; [|split; [|split; [|split; [|split]]]].
      * intros HN k j Hk Hf Hj. destruct (Nat.ltb_spec i (dN D)); [|lia]. rewrite upd_same, RK. reflexivity.
      * intros k l _ _ _. rewrite !RK. reflexivity.
      * intros k j _ _ _. rewrite !RK. reflexivity.
      * reflexivity.
      * intros j _ _. rewrite !RD. split; reflexivity.
      * intros j _. rewrite ENB. reflexivity.
    + split; [|split; [|split; [|split; [|split]]]].
      * intros HN k j Hk Hf Hj. destruct (Nat.ltb_spec i (dN D)); [|lia]. rewrite upd_same, RK. unfold GECP. rewrite mblk_i by lia. f_equal; lia.
      * intros k l Hk _ _. rewrite !RK. unfold GECP. rewrite mblk_i by lia. f_equal; lia.
      * intros k j Hk _ Hj. rewrite !RK. unfold GECP. rewrite mblk_i by lia. f_equal; lia.
      * intros s Hs. unfold VECCP. rewrite vset_in' by lia. f_equal. lia.
      * intros j Hj _. rewrite !RD. split; [etransitivity; [exact (loop_upd_vset _ 0 nb (fun jj => q_idxb qp i jj) j)|]|etransitivity; [exact (loop_upd_vset _ 0 (nb + ng) (fun jj => q_idxs_rev qp i jj) j)|]]; rewrite vset_in' by lia; rewrite Nat.sub_0_r; reflexivity.
      * intros j Hj. rewrite ENB. etransitivity; [exact (loop_upd_vset _ 0 (nb + ng) (fun jj => q_idxs_rev qp i jj) (nb + j)%nat)|]. rewrite vset_in' by lia. rewrite Nat.sub_0_r. reflexivity.
Qed.
Lemma rhs_stage_R (r : oqp R) w : q_dim r = Dr -> rhs_post (fst (red_rhs_stage qp e i (r, w))).
Proof.
  intros ED. unfold red_rhs_stage. rewrite ED. fold D. change (dnu D i + dnx D i)%nat with n. fold nb ng ns. change (dnb Dr i) with nbr. change (dng Dr i) with ng. replace (i + 1)%nat with (S i) by lia. rewrite nuxr_eq.
  destruct (EW i Hi) as (NB & _). fold D in NB. fold nb in NB.
  destruct (Nat.ltb_spec 0 ne) as [Hne|Hne].
  - pose proof (red_marks_R (e_nbu e i + e_nbx e i) w NB) as M. cbv zeta in M. set (w' := red_marks _ _ _ _ _ _ _) in *. clearbody w'. destruct M as (M1 & M2).
    assert (RK : forall k, (k <= n)%nat -> vp k = rk (rw_mx w') k) by (intros k Hk; apply rk_ext; intros l Hl; symmetry; apply M1; lia).
    cbn [fst]. unfold rhs_post. cbn [q_b q_rqz q_d q_mask q_m]. rewrite !upd_same. split; [|split; [|split]].
    + intros HN j Hj. destruct (Nat.ltb_spec i (dN D)); [|lia]. rewrite upd_same. unfold GEMV_T. rewrite vset_in' by lia. rsimp. rewrite !fsum_R, !R_lit11. rewrite (rsum_ext n _ (fun k => q_BAbt qp i k j * fv k)); [rewrite Nat.sub_0_r; cbn [Nat.add]; ring|].
      intros k Hk. cbn [Nat.add]; rewrite (proj1 (M1 k Hk)). rewrite Nat.sub_0_r. reflexivity.
    + intros k Hk Hf. unfold VECCP. rewrite vset_out by (left; unfold vplace; apply rk_lt; assumption). rewrite RK by lia. rewrite (red_idx_R n (rw_mx w')) by (try exact Hk; rewrite (proj2 (M1 k Hk)); exact Hf).
      unfold SYMV_L. rewrite vset_in' by lia. rsimp. rewrite !fsum_R, !R_lit11. rewrite Nat.sub_0_r. cbn [Nat.add]. rewrite (rsum_ext n _ (fun l => symL (q_RSQ qp i) k l * fv l)); [ring|]. intros l Hl. cbn [Nat.add]; rewrite (proj1 (M1 l Hl)). f_equal.
    + intros s Hs. unfold VECCP. rewrite vset_in by lia. reflexivity.
    + intros c Hc Hr. rewrite !(red_cp_R (rw_md w') _ _ M2 c Hc Hr). split; [|split; reflexivity].
      set (d0 := red_gen nb ng ns nbr ng (q_d qp i) _). assert (E0 : d0 (cp c) = q_d qp i c) by exact (red_cp_R (rw_md w') _ _ M2 c Hc Hr). clearbody d0.
      set (bg := GEMV_T n ng f1 (q_DCt qp i) 0 0 (rw_x0 w') 0 f0 (rw_bg w') 0 (rw_bg w') 0).
      assert (Ebg : forall j, (j < ng)%nat -> bg j = rsum n (fun k => q_DCt qp i k j * fv k)).
      { intros j Hj. unfold bg, GEMV_T. rewrite vset_in' by lia. rsimp. rewrite !fsum_R, !R_lit11, !R_lit01. rewrite (rsum_ext n _ (fun k => q_DCt qp i k j * fv k)); [ring|]. intros k Hk. cbn [Nat.add]; rewrite (proj1 (M1 k Hk)). rewrite Nat.sub_0_r. reflexivity. }
      clearbody bg. unfold nct in Hc. fold nb ng ns in Hc. unfold gen_shift, AXPY. rsimp. rewrite !R_lit11.
      destruct (Nat.ltb_spec c nb) as [L1|L1]; [|destruct (Nat.ltb_spec c (nb + ng)) as [L2|L2]; [|destruct (Nat.ltb_spec c (2 * nb + ng)) as [L3|L3]; [|destruct (Nat.ltb_spec c (2 * nb + 2 * ng)) as [L4|L4]]]].
      * assert (K : (cp c < nbr)%nat) by (rewrite cp_lo, nbr_eq by lia; apply rk_lt; [exact L1|rewrite rm_rmc_lo in Hr by lia; exact Hr]). rewrite !vset_out by lia. rewrite E0. ring.
      * replace (cp c) with (nbr + (c - nb))%nat by (rewrite <- cp_g by lia; f_equal; lia). rewrite vset_out by lia. rewrite vset_in by lia. rewrite Ebg by lia. cbn [Nat.add]. replace (nb + (c - nb))%nat with c by lia. ring.
      * assert (EC : cp c = (nbr + ng + rk rm (c - nb - ng))%nat) by (rewrite <- cp_up by lia; f_equal; lia). assert (K : (rk rm (c - nb - ng) < nbr)%nat) by (rewrite nbr_eq; apply rk_lt; [lia|]; rewrite <- rm_rmc_up by lia; rewrite <- Hr; f_equal; lia). rewrite !vset_out by lia. rewrite E0. ring.
      * assert (EC : cp c = (2 * nbr + ng + (c - 2 * nb - ng))%nat) by (rewrite <- cp_rest; f_equal; lia). rewrite EC. rewrite vset_in by lia. rewrite Ebg by lia. cbn [Nat.add]. replace (2 * nb + ng + (c - 2 * nb - ng))%nat with c by lia. ring.
      * assert (EC : cp c = (2 * nbr + ng + (c - 2 * nb - ng))%nat) by (rewrite <- cp_rest; f_equal; lia). rewrite !vset_out by lia. rewrite E0. ring.
  - assert (Z0 : ne = 0%nat) by lia. assert (RK : forall k, vp k = k) by (intros k; apply rk_none, none_fx, Z0). assert (RC : forall k, cp k = k) by (intros k; apply rk_none, none_rmc, Z0).
    assert (FV : forall m (f : nat -> R), rsum m (fun k => f k * fv k) = 0) by (intros m f; apply rsum_0; intros k _; rewrite none_fv by exact Z0; ring).
    cbn [fst]. unfold rhs_post. cbn [q_b q_rqz q_d q_mask q_m]. rewrite !upd_same. unfold VECCP. split; [|split; [|split]].
    + intros HN j Hj. destruct (Nat.ltb_spec i (dN D)); [|lia]. rewrite upd_same, vset_in' by lia. rewrite FV. rewrite Nat.sub_0_r. cbn [Nat.add]. ring.
    + intros k Hk _. rewrite RK, FV. rewrite vset_in' by lia. rewrite Nat.sub_0_r. cbn [Nat.add]. ring.
    + intros s Hs. rewrite RK. rewrite vset_in' by lia. rewrite Nat.sub_0_r. reflexivity.
    + intros c Hc _. rewrite RC. unfold nct in Hc. fold nb ng ns in Hc. rewrite !vset_in' by lia. rewrite Nat.sub_0_r. cbn [Nat.add]. split; [|split; reflexivity].
      unfold gen_shift. rewrite !FV. destruct (c <? nb)%nat; [ring|]. destruct (c <? nb + ng)%nat; [ring|]. destruct (c <? 2 * nb + ng)%nat; [ring|]. destruct (c <? 2 * nb + 2 * ng)%nat; ring.
Qed.
End Stage.
