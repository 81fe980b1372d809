(** LayoutIpmProofs.v -- layout of the interior-point workspace and of the stage views into the core arrays. *)
From Coq Require Import ZArith Lia List Bool Arith String.
From Verif Require Import Base LayoutModel LayoutSpec LayoutProofs.
Import ListNotations.
Open Scope string_scope.

Lemma tmp_m_fit A d : abi_ok A ->
  nsum (oN d + 1) (fun i => (2 * onb d i + 2 * ong d i + 2 * ons d i) * zreal A) <= SVEC A (nct d).
Proof. intros HA. unfold nct. rewrite Nat.add_1_r. apply part_fit; auto. Qed.

Lemma ipm_cost A d lq sm : abi_ok A -> cost (ipm_ws_create A d lq sm) <= ipm_ws_memsize A d lq sm.
Proof.
  intros HA. unfold ipm_ws_create, ipm_ws_memsize.
  eapply Nat.le_trans; [|apply round64_ge].
  pose proof (tmp_m_fit A d HA) as Hm.
  destruct (Nat.ltb 0 lq); costs.
  all: remember (nsum (oN d + 1) (fun i => (2 * onb d i + 2 * ong d i + 2 * ons d i) * zreal A + 0)) as tm eqn:Etm.
  all: assert (E : tm <= SVEC A (nct d)) by (subst tm; rewrite (nsum_ext _ _ _ (fun k _ => Nat.add_0_r _)); exact Hm); clear Etm.
  all: repeat match goal with
  | |- context [nsum ?n (fun i => @?f i + 0)] => rewrite (nsum_ext n (fun i => f i + 0) f (fun k _ => Nat.add_0_r (f k)))
  | |- context [nsum ?n (fun i => 1 * @?f i)] => rewrite (nsum_ext n (fun i => 1 * f i) f (fun k _ => Nat.mul_1_l (f k)))
  end; cbn beta.
  all: repeat match goal with |- context [nsum ?n ?f] => let x := fresh "sm" in remember (nsum n f) as x end.
  all: repeat match goal with |- context [SVEC ?B ?f] => let x := fresh "sv" in remember (SVEC B f) as x end.
  all: lia.
Qed.

Theorem ipm_ws_layout A d lq sm mem : abi_ok A ->
  layout_ok mem (ipm_ws_memsize A d lq sm) (fst (run mem (ipm_ws_create A d lq sm))) (ipm_ws_needs A d lq sm).
Proof.
  intros HA. apply layout_intro; [|apply ipm_cost; assumption|].
  - unfold ipm_ws_create. destruct (Nat.ltb 0 lq); wf_all; cbn [wf1]; try exact I; lia.
  - unfold ipm_ws_create, ipm_ws_needs. destruct (Nat.ltb 0 lq).
    + apply Forall_app; split; [unfold one, bct; meet|]. apply Forall_app; split; [unfold one; meet|].
      apply meets_flat. intros i Hi. maxes d i Hi. unfold one. vmeet HA.
    + apply Forall_app; split; [unfold one, bct; meet|]. apply Forall_app; split; [unfold one; meet|].
      apply meets_flat. intros i Hi. maxes d i Hi. unfold one. vmeet HA.
Qed.

Lemma parts_layout t c ps size n f : psum ps <= size -> (forall s, s < n -> exists b, In (s, b) ps /\ f s <= b) ->
  layout_ok c size (parts t c ps) [(t, n, f)].
Proof.
  intros Hs Hn. destruct (parts_spec t ps c) as [P1 P2]. unfold layout_ok. repeat split.
  - eapply Forall_impl; [|exact P1]. unfold inside. cbn. intros; lia.
  - clear -P2. induction P2 as [|x l Hx _ IH]; constructor; [|assumption].
    eapply Forall_impl; [|exact Hx]. unfold before, apart. intros; lia.
  - constructor; [|constructor]. intros s Hlt. destruct (Hn s Hlt) as (b & Hb & Hle).
    eapply gets_le; [exact Hle|]. apply parts_in. assumption.
Qed.

Lemma spart_psum_eq A n f g : (forall i, f i = g i * zreal A) -> psum (spart n f) = nsum n g * zreal A.
Proof. intros E. rewrite psum_spart. rewrite (nsum_ext _ _ (fun i => g i * zreal A)) by (intros; apply E). apply nsum_mulr. Qed.

Theorem ipm_alias_prim A d t c : In t ["dv"; "res_g"] ->
  layout_ok c (nvt d * zreal A) (parts t c (ipm_alias A d t)) [(t, oN d + 1, bux A d)].
Proof.
  intros Ht. assert (E : ipm_alias A d t = spart (oN d + 1) (fun i => (onu d i + onx d i) * zreal A + ons d i * zreal A + ons d i * zreal A)).
  { destruct Ht as [<-|[<-|[]]]; reflexivity. }
  rewrite E. apply parts_layout.
  - rewrite (spart_psum_eq A _ _ (snv d)); [unfold nvt; rewrite Nat.add_1_r; lia|intros; unfold snv; lia].
  - intros s Hs. eexists. split; [apply in_spart; assumption|]. unfold bux. lia.
Qed.
Theorem ipm_alias_eq A d t c : In t ["dpi"; "res_b"] ->
  layout_ok c (net d * zreal A) (parts t c (ipm_alias A d t)) [(t, oN d, bpi A d)].
Proof.
  intros Ht. assert (E : ipm_alias A d t = spart (oN d) (fun i => onx d (S i) * zreal A)).
  { destruct Ht as [<-|[<-|[]]]; reflexivity. }
  rewrite E. apply parts_layout.
  - rewrite (spart_psum_eq A _ _ (fun i => onx d (S i))); [unfold net; lia|intros; lia].
  - intros s Hs. eexists. split; [apply in_spart; assumption|]. unfold bpi. rewrite Nat.add_1_r. lia.
Qed.
Theorem ipm_alias_ineq A d t c : In t ["dlam"; "dt"; "res_d"; "res_m"; "Gamma"; "gamma"] ->
  layout_ok c (nct d * zreal A) (parts t c (ipm_alias A d t)) [(t, oN d + 1, bct A d)].
Proof.
  intros Ht. assert (E : ipm_alias A d t = spart (oN d + 1) (fun i => onb d i * zreal A + ong d i * zreal A + onb d i * zreal A + ong d i * zreal A + ons d i * zreal A + ons d i * zreal A)).
  { repeat destruct Ht as [<-|Ht]; try reflexivity; destruct Ht. }
  rewrite E. apply parts_layout.
  - rewrite (spart_psum_eq A _ _ (snc d)); [unfold nct; rewrite Nat.add_1_r; lia|intros; unfold snc; lia].
  - intros s Hs. eexists. split; [apply in_spart; assumption|]. unfold bct. lia.
Qed.
