(** DrunProofs.v -- linear parts of the dense residuals. *)
From Coq Require Import ZArith Bool Arith List Lia Reals Lra.
From Verif Require Import Base ArithF RSum ResSpec DenModel DenSpec DenKktModel DenKktSpec.
From Verif Require RunProofs.
Local Open Scope R_scope.

Section Lin.
Variable qp : dqp R.
Notation rv := (nat -> R).
Definition dq0 : dqp R := den_with_rhs qp (fun _ => 0) (fun _ => 0) (fun _ => 0) (fun _ => 0).
Lemma deq_rhs g b d m z j : den_eq (den_with_rhs qp g b d m) z j = den_eq dq0 z j + b j.
Proof. unfold den_eq. cbn [d_b d_nv d_A den_with_rhs dq0]. lra. Qed.
Lemma deq_qp z j : den_eq qp z j = den_eq dq0 z j + d_b qp j.
Proof. unfold den_eq. cbn [d_b d_nv d_A den_with_rhs dq0]. lra. Qed.
Lemma dg_rhs g b d m z pi lam k : den_kkt_g (den_with_rhs qp g b d m) z pi lam k = den_kkt_g dq0 z pi lam k + g k.
Proof.
  unfold den_kkt_g. cbn [d_ne d_gz d_nv d_A d_mask den_with_rhs dq0].
  change (dnv (den_with_rhs qp g b d m)) with (dnv qp). change (d_nct (den_with_rhs qp g b d m)) with (d_nct qp). change (den_Hess (den_with_rhs qp g b d m)) with (den_Hess qp). change (den_G (den_with_rhs qp g b d m)) with (den_G qp).
  change (dnv dq0) with (dnv qp). change (d_nct dq0) with (d_nct qp). change (den_Hess dq0) with (den_Hess qp). change (den_G dq0) with (den_G qp). lra.
Qed.
Lemma dg_qp z pi lam k : den_kkt_g qp z pi lam k = den_kkt_g dq0 z pi lam k + d_gz qp k.
Proof.
  unfold den_kkt_g. cbn [d_ne d_gz d_nv d_A d_mask den_with_rhs dq0].
  change (dnv dq0) with (dnv qp). change (d_nct dq0) with (d_nct qp). change (den_Hess dq0) with (den_Hess qp). change (den_G dq0) with (den_G qp). lra.
Qed.
Lemma deq_lin (y x z : rv) a j : (forall k, (k < dnv qp)%nat -> y k = x k + a * z k) -> den_eq dq0 y j = den_eq dq0 x j + a * den_eq dq0 z j.
Proof.
  intros H. unfold den_eq. cbn [d_b d_nv d_A den_with_rhs dq0].
  rewrite (RunProofs.rsum_lin (d_nv qp) (fun k => d_A qp j k) y z x a) by (intros k Hk; apply H; unfold dnv; lia). lra.
Qed.
Lemma dcon_lin (y x z : rv) a c : (forall k, (k < dnv qp)%nat -> y k = x k + a * z k) -> den_con qp y c = den_con qp x c + a * den_con qp z c.
Proof. intros H. unfold den_con. apply RunProofs.rsum_lin. exact H. Qed.
Lemma dg_lin (y x z yp xp zp yl xl zl : rv) a k :
  (forall k, (k < dnv qp)%nat -> y k = x k + a * z k) -> (forall j, (j < d_ne qp)%nat -> yp j = xp j + a * zp j) ->
  (forall c, (c < d_nct qp)%nat -> d_mask qp c * yl c = d_mask qp c * xl c + a * (d_mask qp c * zl c)) ->
  den_kkt_g dq0 y yp yl k = den_kkt_g dq0 x xp xl k + a * den_kkt_g dq0 z zp zl k.
Proof.
  intros H Hp Hl. unfold den_kkt_g. cbn [d_ne d_gz d_nv d_A d_mask den_with_rhs dq0].
  change (dnv dq0) with (dnv qp). change (d_nct dq0) with (d_nct qp). change (den_Hess dq0) with (den_Hess qp). change (den_G dq0) with (den_G qp).
  rewrite (RunProofs.rsum_lin (dnv qp) (den_Hess qp k) y z x a) by exact H.
  rewrite (RunProofs.rsum_lin (d_nct qp) (fun c => den_G qp c k) (fun c => d_mask qp c * yl c) (fun c => d_mask qp c * zl c) (fun c => d_mask qp c * xl c) a) by exact Hl.
  destruct (k <? d_nv qp)%nat; [|lra].
  rewrite (RunProofs.rsum_lin (d_ne qp) (fun j => d_A qp j k) yp zp xp a) by exact Hp. lra.
Qed.
End Lin.
