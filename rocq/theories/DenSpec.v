(** DenSpec.v -- the dense QP as mathematics (real numbers), independent of the code:
      min 1/2 z'Hess z + gz.z   s.t.  A v = b,  G_c . z >= d_c  for the constraints c with non-zero mask,
    z = (v, lower slacks, upper slacks); [G_co], [H_co], [stage_wf] (constraint rows, Hessian, legal indices) are those of ResSpec.v. *)
From Coq Require Import ZArith Bool Arith Reals.
From Verif Require Import Base RSum ResSpec DenModel.
Local Open Scope R_scope.
Section Dense.
Variable q : dqp R.
Definition dnv : nat := (d_nv q + 2 * d_ns q)%nat.
Definition den_wf : Prop := stage_wf (d_nv q) (d_nb q) (d_ng q) (d_ns q) (d_idxb q) (d_idxs_rev q).
Definition den_G : nat -> nat -> R := G_co (d_nv q) (d_nb q) (d_ng q) (d_ns q) (d_idxb q) (d_Ct q) (d_idxs_rev q).
Definition den_Hess : nat -> nat -> R := H_co (d_nv q) (d_H q) (d_Z q).
Definition den_cost (z : nat -> R) : R := 1 / 2 * rsum dnv (fun k => rsum dnv (fun l => z k * den_Hess k l * z l)) + rsum dnv (fun k => d_gz q k * z k).
Definition den_con (z : nat -> R) (c : nat) : R := rsum dnv (fun k => den_G c k * z k).
(** defect of the equality constraints *)
Definition den_eq (z : nat -> R) (j : nat) : R := d_b q j - rsum (d_nv q) (fun k => d_A q j k * z k).
Definition den_feasible (z : nat -> R) : Prop :=
  (forall j, (j < d_ne q)%nat -> den_eq z j = 0) /\ (forall c, (c < d_nct q)%nat -> d_mask q c <> 0 -> den_con z c >= d_d q c).
Definition den_mask01 : Prop := forall c, (c < d_nct q)%nat -> d_mask q c = 0 \/ d_mask q c = 1.
Definition den_masks_one : Prop := forall c, (c < d_nct q)%nat -> d_mask q c = 1.
Definition den_psd : Prop := forall v : nat -> R, 0 <= rsum dnv (fun k => rsum dnv (fun l => v k * den_Hess k l * v l)).
(** Lagrangian and KKT residuals *)
Definition den_lagr (z pi lam : nat -> R) : R :=
  den_cost z + rsum (d_ne q) (fun j => pi j * den_eq z j) - rsum (d_nct q) (fun c => d_mask q c * lam c * (den_con z c - d_d q c)).
Definition den_kkt_g (z pi lam : nat -> R) (k : nat) : R :=
  rsum dnv (fun l => den_Hess k l * z l) + d_gz q k - (if (k <? d_nv q)%nat then rsum (d_ne q) (fun j => d_A q j k * pi j) else 0)
  - rsum (d_nct q) (fun c => den_G c k * (d_mask q c * lam c)).
Definition den_kkt_d (z t : nat -> R) (c : nat) : R := d_mask q c * (d_d q c + t c - den_con z c).
Definition den_kkt_m (lam t : nat -> R) (c : nat) : R := d_mask q c * (d_mask q c * lam c * t c - d_m q c).
Definition den_valid_ok (valid : option (bool * R)) : Prop := match valid with None => True | Some (mc, _) => mc = true \/ den_masks_one end.
End Dense.
(** x is the largest absolute value among v 0 .. v (n-1) (0 if n = 0) *)
Definition max_abs1 (n : nat) (v : nat -> R) (x : R) : Prop :=
  0 <= x /\ (forall k, (k < n)%nat -> Rabs (v k) <= x) /\ (x = 0 \/ exists k, (k < n)%nat /\ x = Rabs (v k)).
