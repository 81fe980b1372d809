(** PcsplitSeed.v -- the condensing of seeds does to the vectors of a seed what the second call does to the vectors of a QP. *)
From Coq Require Import ZArith Bool Arith Lia Reals Lra.
From Verif Require Import Base ArithF RSum Blas Blas2 OcpModel ResSpec ResProofs ResProofs2 CholProofs CholPD KktModel DenModel DenSpec CondModel CondSpec SensModel CsplitModel PartModel PcsplitModel.

(** the mask is the only thing the two variants of COND_D treat differently *)
Section Mask.
Context {F : Type} {AF : Arith F}.
Definition nomask (s : dst (F := F)) := (t_d s, t_gz s, t_tbg s, t_ib s, t_ig s, t_is s).
Definition mask_free (f f' : dst (F := F) -> dst (F := F)) : Prop := forall s s', nomask s = nomask s' -> nomask (f s) = nomask (f' s').
Lemma mf_comp f f' g g' : mask_free f f' -> mask_free g g' -> mask_free (fun s => f (g s)) (fun s => f' (g' s)).
Proof. intros Hf Hg s s' H. apply Hf, Hg, H. Qed.
Lemma mf_loop n f f' : (forall k, mask_free (f k) (f' k)) -> mask_free (loop n f) (loop n f').
Proof. intros H. induction n as [|n IH]; intros s s' E; [exact E|]. rewrite !loop_S. apply H, IH, E. Qed.
Variables (qp : oqp F) (Gb : nat -> nat -> F).
Section WithM.
Variable M : nat.
Lemma mf_put i j pl pu tl tu : mask_free (d_put qp true i j pl pu tl tu) (d_put qp false i j pl pu tl tu).
Proof. intros s s' H. unfold nomask in *. injection H as H1 H2 H3 H4 H5 H6. unfold d_put. cbn [t_d t_gz t_tbg t_ib t_ig t_is]. rewrite H1, H2, H3, H4, H5, H6. reflexivity. Qed.
Lemma mf_soft i j : mask_free (d_soft qp M true i j) (d_soft qp M false i j).
Proof.
  intros s s' H. unfold nomask in *. injection H as H1 H2 H3 H4 H5 H6. unfold d_soft. destruct (Z.leb 0 (q_idxs_rev qp i j)); cbn [t_d t_gz t_tbg t_ib t_ig t_is]; rewrite H1, H2, H3, H4, H5, H6; reflexivity.
Qed.
Lemma nomask_ib s s' x : nomask s = nomask s' -> nomask (mkdst (t_d s) (t_mask s) (t_gz s) (t_tbg s) x (t_ig s) (t_is s)) = nomask (mkdst (t_d s') (t_mask s') (t_gz s') (t_tbg s') x (t_ig s') (t_is s')).
Proof. unfold nomask. cbn [t_d t_gz t_tbg t_ib t_ig t_is]. intros H. injection H as H1 H2 H3 H4 H5 H6. rewrite H1, H2, H3, H5, H6. reflexivity. Qed.
Lemma nomask_ig s s' x : nomask s = nomask s' -> nomask (mkdst (t_d s) (t_mask s) (t_gz s) (t_tbg s) (t_ib s) x (t_is s)) = nomask (mkdst (t_d s') (t_mask s') (t_gz s') (t_tbg s') (t_ib s') x (t_is s')).
Proof. unfold nomask. cbn [t_d t_gz t_tbg t_ib t_ig t_is]. intros H. injection H as H1 H2 H3 H4 H5 H6. rewrite H1, H2, H3, H4, H6. reflexivity. Qed.
Lemma mf_bound i jj : mask_free (d_bound qp M Gb true i jj) (d_bound qp M Gb false i jj).
Proof.
  intros s s' H. assert (E : t_ib s = t_ib s' /\ t_ig s = t_ig s') by (unfold nomask in H; injection H; auto). destruct E as (E1 & E2). unfold d_bound. rewrite E1, E2. destruct (Nat.ltb (q_idxb qp i jj) (dnu (q_dim qp) i)).
  - apply nomask_ib, mf_soft, mf_put, H.
  - apply nomask_ig, mf_soft, mf_put, H.
Qed.
Lemma mf_bounds : mask_free (d_bounds qp M Gb true) (d_bounds qp M Gb false).
Proof.
  intros s s' H. unfold d_bounds. apply (mf_loop (dnb (q_dim qp) 0)
    (fun jj s => let ib := t_ib s in let s := d_soft qp M true 0 jj (d_put qp true 0 jj ib (count_nbb qp M + (count_nbg qp M + ngg_of qp M) + ib) (fun v => v) (fun v => v) s) in mkdst (t_d s) (t_mask s) (t_gz s) (t_tbg s) (S ib) (t_ig s) (t_is s))
    (fun jj s => let ib := t_ib s in let s := d_soft qp M false 0 jj (d_put qp false 0 jj ib (count_nbb qp M + (count_nbg qp M + ngg_of qp M) + ib) (fun v => v) (fun v => v) s) in mkdst (t_d s) (t_mask s) (t_gz s) (t_tbg s) (S ib) (t_ig s) (t_is s))).
  - intros k u u' Hu. assert (E : t_ib u = t_ib u') by (unfold nomask in Hu; injection Hu; auto). cbv zeta. rewrite E. apply nomask_ib, mf_soft, mf_put, Hu.
  - apply (mf_loop M (fun ii s => loop (dnb (q_dim qp) (M - ii)) (d_bound qp M Gb true (M - ii)) s) (fun ii s => loop (dnb (q_dim qp) (M - ii)) (d_bound qp M Gb false (M - ii)) s)); [|exact H].
    intros k. apply (mf_loop (dnb (q_dim qp) (M - k)) (d_bound qp M Gb true (M - k)) (d_bound qp M Gb false (M - k))). intros j. apply mf_bound.
Qed.
Lemma mf_gen_copy i n : mask_free (d_gen_copy qp M true i n) (d_gen_copy qp M false i n).
Proof.
  intros s s' H. unfold d_gen_copy. pose proof (mf_loop (dng (q_dim qp) i) (fun ig s => d_soft qp M true i (dnb (q_dim qp) i + ig) s) (fun ig s => d_soft qp M false i (dnb (q_dim qp) i + ig) s) (fun k => mf_soft i _) s s' H) as L.
  set (u := loop _ _ s) in *. set (u' := loop _ _ s') in *. clearbody u u'. unfold nomask in *. injection L as H1 H2 H3 H4 H5 H6. cbn [t_d t_gz t_tbg t_ib t_ig t_is]. rewrite H1, H2, H3, H4, H5, H6. reflexivity.
Qed.
Lemma mf_gen_mid i n : mask_free (d_gen_mid qp M Gb true i n) (d_gen_mid qp M Gb false i n).
Proof.
  intros s s' H. unfold d_gen_mid. destruct (Nat.ltb 0 (dng (q_dim qp) i)); [|exact H]. pose proof (mf_gen_copy i n s s' H) as L. set (u := d_gen_copy qp M true i n s) in *. set (u' := d_gen_copy qp M false i n s') in *. clearbody u u'.
  unfold nomask in *. injection L as H1 H2 H3 H4 H5 H6. cbn [t_d t_gz t_tbg t_ib t_ig t_is]. rewrite H1, H2, H3, H4, H5, H6. reflexivity.
Qed.
Lemma mf_gens : mask_free (d_gens qp M Gb true) (d_gens qp M Gb false).
Proof.
  intros s s' H. unfold d_gens.
  set (f := fun (dm : bool) ii '(s, ng_tmp) => let i := (M - ii)%nat in (d_gen_mid qp M Gb dm i ng_tmp s, (ng_tmp + dng (q_dim qp) i)%nat)).
  assert (L : forall n, nomask (fst (loop n (f true) (s, 0%nat))) = nomask (fst (loop n (f false) (s', 0%nat))) /\ snd (loop n (f true) (s, 0%nat)) = snd (loop n (f false) (s', 0%nat))).
  { induction n as [|n (I1 & I2)]; [split; [exact H|reflexivity]|]. rewrite !loop_S. destruct (loop n (f true) _) as [u k]. destruct (loop n (f false) _) as [u' k']. cbn [fst snd] in *. subst k'. unfold f. cbn [fst snd]. split; [apply mf_gen_mid; exact I1|reflexivity]. }
  specialize (L M). unfold f in L. destruct (loop M _ (s, 0%nat)) as [u k]. destruct (loop M _ (s', 0%nat)) as [u' k']. cbn [fst snd] in L. destruct L as (L1 & <-).
  destruct (Nat.ltb 0 (dng (q_dim qp) 0)); [apply mf_gen_copy; exact L1|exact L1].
Qed.
End WithM.
Lemma mf_d last s s' : nomask s = nomask s' -> let u := cond_d true last qp Gb s in let u' := cond_d false last qp Gb s' in t_d u = t_d u' /\ t_gz u = t_gz u' /\ t_tbg u = t_tbg u'.
Proof.
  intros H. cbv zeta. assert (X : nomask (cond_d true last qp Gb s) = nomask (cond_d false last qp Gb s')).
  { unfold cond_d. unfold nomask in H. injection H as H1 H2 H3 H4 H5 H6. destruct (andb _ last).
    - unfold d_one, nomask. cbn [t_d t_gz t_tbg t_ib t_ig t_is]. rewrite H1, H2, H3, H4, H5, H6. reflexivity.
    - unfold d_main. rewrite H1, H2, H3. apply mf_gens, mf_bounds. reflexivity. }
  unfold nomask in X. injection X; auto.
Qed.
End Mask.

Section Sim.
Context {F : Type} {AF : Arith F}.
Lemma vecs_sim last alg0 diag (qp : oqp F) b g d mask mask' w : let '(b1, g1, d1, m1, w1) := vecs_block true last alg0 diag qp b g d mask w in let '(b2, g2, d2, m2, w2) := vecs_block false last alg0 diag qp b g d mask' w in
  b1 = b2 /\ g1 = g2 /\ d1 = d2 /\ w1 = w2.
Proof.
  unfold vecs_block. destruct (cond_b last qp (cw_Gammab (sw_c w)) b) as [Gb b']. destruct (cond_rq _ _ _ _ _ _) as [w' g'].
  destruct (mf_d qp Gb last (mkdst d mask g' (cw_nbg (sw_c w')) 0 0 0) (mkdst d mask' g' (cw_nbg (sw_c w')) 0 0 0) eq_refl) as (E1 & E2 & E3). rewrite E1, E2, E3. repeat split; reflexivity.
Qed.
(** PART_COND_QP_COND_SEED gives the vectors that PART_COND_QP_COND_RHS gives for the QP with the seed in place of its vectors, and leaves the same workspace *)
Lemma seed_sim last alg0 diag bs (qp p : oqp F) (sd sd0 : seed F) ws : let s := part_seed last alg0 diag bs (dN (q_dim p)) qp sd sd0 ws in let r := part_rhs last alg0 diag bs (seed_qp qp sd) (seed_qp p sd0) ws in
  sd_g (sp_s2 s) = q_rqz (rp_q2 r) /\ sd_b (sp_s2 s) = q_b (rp_q2 r) /\ sd_d (sp_s2 s) = q_d (rp_q2 r) /\ sd_m (sp_s2 s) = sd_m sd0 /\ sp_ws s = rp_ws r /\
  q_dim (rp_q2 r) = q_dim p /\ q_BAbt (rp_q2 r) = q_BAbt p /\ q_RSQ (rp_q2 r) = q_RSQ p /\ q_DCt (rp_q2 r) = q_DCt p /\ q_Z (rp_q2 r) = q_Z p /\ q_idxb (rp_q2 r) = q_idxb p /\ q_idxs_rev (rp_q2 r) = q_idxs_rev p /\ q_m (rp_q2 r) = sd_m sd0.
Proof.
  cbv zeta. unfold part_seed, part_rhs. change (dN (q_dim (seed_qp p sd0))) with (dN (q_dim p)).
  assert (X : forall n, let s := loop n (part_seed_step last alg0 diag bs qp sd) (mkspst sd0 ws 0) in let r := loop n (part_rhs_step last alg0 diag bs (seed_qp qp sd)) (mkrpst (seed_qp p sd0) ws 0) in
    (sd_g (sp_s2 s) = q_rqz (rp_q2 r) /\ sd_b (sp_s2 s) = q_b (rp_q2 r) /\ sd_d (sp_s2 s) = q_d (rp_q2 r) /\ sd_m (sp_s2 s) = sd_m sd0 /\ sp_ws s = rp_ws r /\
     q_dim (rp_q2 r) = q_dim p /\ q_BAbt (rp_q2 r) = q_BAbt p /\ q_RSQ (rp_q2 r) = q_RSQ p /\ q_DCt (rp_q2 r) = q_DCt p /\ q_Z (rp_q2 r) = q_Z p /\ q_idxb (rp_q2 r) = q_idxb p /\ q_idxs_rev (rp_q2 r) = q_idxs_rev p /\ q_m (rp_q2 r) = sd_m sd0) /\ sp_o s = rp_o r).
  { induction n as [|n IH]; [repeat split; reflexivity|]. cbv zeta in *. rewrite !loop_S. set (s := loop n _ (mkspst sd0 ws 0)) in *. set (r := loop n _ (mkrpst (seed_qp p sd0) ws 0)) in *. clearbody s r.
    destruct IH as ((H1 & H2 & H3 & H4 & H5 & H6) & H7). unfold part_seed_step, part_rhs_step. rewrite H1, H2, H3, H4, H5, H7.
    pose proof (vecs_sim (last n) (alg0 n) (from (rp_o r) diag) (sub_qp (seed_qp qp sd) (rp_o r) (bs n)) (q_b (rp_q2 r) n) (q_rqz (rp_q2 r) n) (q_d (rp_q2 r) n) (q_mask (rp_q2 r) n) (fun _ => f0) (rp_ws r n)) as V.
    destruct (vecs_block true _ _ _ _ _ _ _ _ _) as [[[[b1 g1] d1] m1] w1]. destruct (vecs_block false _ _ _ _ _ _ _ _ _) as [[[[b2 g2] d2] m2] w2]. destruct V as (<- & <- & <- & <-).
    cbn [sp_s2 sp_ws sp_o rp_q2 rp_ws rp_o sd_g sd_b sd_d sd_m put_vecs q_rqz q_b q_d q_dim q_BAbt q_RSQ q_DCt q_Z q_idxb q_idxs_rev q_m]. split; [|reflexivity]. do 5 (split; [reflexivity|]). exact H6. }
  exact (proj1 (X (dN (q_dim p) + 1)%nat)).
Qed.
End Sim.
