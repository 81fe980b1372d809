(** DqcSpec.v -- the dense QCQP as mathematics (real numbers), independent of the code:
      min 1/2 z'Hess z + gz.z   s.t.  A v = b,  con_c(z) >= d_c  for the one-sided constraints c that are imposed,
    z = (v, lower slacks, upper slacks).  The two-sided constraints are the nb bounds, the ng general linear rows and the nq quadratic functions
    1/2 v'Hq_j v + g_j'v; c = [lower sides; upper sides, negated; slacks].  The lower sides of the quadratic functions are never imposed. *)
From Coq Require Import ZArith Bool Arith Reals.
From Verif Require Import Base RSum ResSpec DenModel DenSpec DqcModel.
Local Open Scope R_scope.
Section Q.
Variable q : dqcqp R.
Definition dqnv : nat := (dq_nv q + 2 * dq_ns q)%nat.
Definition dqn2 : nat := (dq_nb q + dq_ng q + dq_nq q)%nat.
Definition dqnc : nat := (2 * dqn2 + 2 * dq_ns q)%nat.
Definition dqc_wf : Prop :=
  (forall j, (j < dq_nb q)%nat -> (dq_idxb q j < dq_nv q)%nat) /\
  (forall j, (j < dqn2)%nat -> (dq_idxs_rev q j = -1 \/ 0 <= dq_idxs_rev q j < Z.of_nat (dq_ns q))%Z).
(** symmetric Hq_j, the quadratic functions and their gradients *)
Definition dq_Hsym (j k l : nat) : R := if (l <=? k)%nat then dq_Hq q j k l else dq_Hq q j l k.
Definition dq_fun (z : nat -> R) (j : nat) : R :=
  1 / 2 * rsum (dq_nv q) (fun k => rsum (dq_nv q) (fun l => z k * dq_Hsym j k l * z l)) + rsum (dq_nv q) (fun k => dq_Ct q k (dq_ng q + j)%nat * z k).
Definition dq_grad (z : nat -> R) (j k : nat) : R := dq_Ct q k (dq_ng q + j)%nat + rsum (dq_nv q) (fun l => dq_Hsym j k l * z l).
(** two-sided constraint j and its derivative in the hard variable k *)
Definition dq_two (z : nat -> R) (j : nat) : R :=
  if (j <? dq_nb q)%nat then z (dq_idxb q j)
  else if (j <? dq_nb q + dq_ng q)%nat then rsum (dq_nv q) (fun k => dq_Ct q k (j - dq_nb q)%nat * z k)
  else dq_fun z (j - (dq_nb q + dq_ng q)).
Definition dq_dtwo (z : nat -> R) (j k : nat) : R :=
  if (j <? dq_nb q)%nat then (if (dq_idxb q j =? k)%nat then 1 else 0)
  else if (j <? dq_nb q + dq_ng q)%nat then dq_Ct q k (j - dq_nb q)%nat
  else dq_grad z (j - (dq_nb q + dq_ng q)) k.
(** the slack of constraint j *)
Definition dq_slk (off : nat) (z : nat -> R) (j : nat) : R := if Z.eqb (dq_idxs_rev q j) (-1) then 0 else z (off + Z.to_nat (dq_idxs_rev q j))%nat.
(** one-sided constraint c and its derivative in the variable k *)
Definition dq_con (z : nat -> R) (c : nat) : R :=
  if (c <? dqn2)%nat then dq_two z c + dq_slk (dq_nv q) z c
  else if (c <? 2 * dqn2)%nat then - dq_two z (c - dqn2) + dq_slk (dq_nv q + dq_ns q) z (c - dqn2)
  else z (dq_nv q + (c - 2 * dqn2))%nat.
Definition dq_dcon (z : nat -> R) (c k : nat) : R :=
  if (c <? dqn2)%nat then if (k <? dq_nv q)%nat then dq_dtwo z c k else soft_co (dq_idxs_rev q) (dq_nv q) c k
  else if (c <? 2 * dqn2)%nat then if (k <? dq_nv q)%nat then - dq_dtwo z (c - dqn2) k else soft_co (dq_idxs_rev q) (dq_nv q + dq_ns q) (c - dqn2) k
  else if (k =? dq_nv q + (c - 2 * dqn2))%nat then 1 else 0.
(** defect of the equality constraints, Hessian of the cost, cost *)
Definition dq_eq (z : nat -> R) (j : nat) : R := dq_b q j - rsum (dq_nv q) (fun k => dq_A q j k * z k).
Definition dq_Hess : nat -> nat -> R := H_co (dq_nv q) (dq_H q) (dq_Z q).
Definition dq_cost (z : nat -> R) : R := 1 / 2 * rsum dqnv (fun k => rsum dqnv (fun l => z k * dq_Hess k l * z l)) + rsum dqnv (fun k => dq_gz q k * z k).
(** lower side of a quadratic constraint; weight of the multiplier of constraint c *)
Definition dq_lower (c : nat) : bool := ((dq_nb q + dq_ng q <=? c) && (c <? dqn2))%nat.
Definition dq_act (c : nat) : R := if dq_lower c then 0 else dq_mask q c.
Definition dq_feasible (z : nat -> R) : Prop :=
  (forall j, (j < dq_ne q)%nat -> dq_eq z j = 0) /\ (forall c, (c < dqnc)%nat -> dq_act c <> 0 -> dq_con z c >= dq_d q c).
Definition dq_mask01 : Prop := forall c, (c < dqnc)%nat -> dq_mask q c = 0 \/ dq_mask q c = 1.
(** convexity of the cost and of the quadratic functions whose upper side is imposed *)
Definition dq_psd : Prop := forall v : nat -> R, 0 <= rsum dqnv (fun k => rsum dqnv (fun l => v k * dq_Hess k l * v l)).
Definition dq_con_psd : Prop := forall j (v : nat -> R), (j < dq_nq q)%nat -> dq_mask q (dqn2 + (dq_nb q + dq_ng q) + j)%nat <> 0 ->
  0 <= rsum (dq_nv q) (fun k => rsum (dq_nv q) (fun l => v k * dq_Hsym j k l * v l)).
(** Lagrangian and its Hessian *)
Definition dq_lagr (z pi lam : nat -> R) : R :=
  dq_cost z + rsum (dq_ne q) (fun j => pi j * dq_eq z j) - rsum dqnc (fun c => dq_act c * lam c * (dq_con z c - dq_d q c)).
Definition dq_lHess (lam : nat -> R) (k l : nat) : R :=
  dq_Hess k l + (if ((k <? dq_nv q) && (l <? dq_nv q))%nat then
    rsum (dq_nq q) (fun j => dq_act (dqn2 + (dq_nb q + dq_ng q) + j) * lam (dqn2 + (dq_nb q + dq_ng q) + j)%nat * dq_Hsym j k l) else 0).
(** KKT residuals *)
Definition dq_kkt_g (z pi lam : nat -> R) (k : nat) : R :=
  rsum dqnv (fun l => dq_Hess k l * z l) + dq_gz q k - (if (k <? dq_nv q)%nat then rsum (dq_ne q) (fun j => dq_A q j k * pi j) else 0)
  - rsum dqnc (fun c => dq_dcon z c k * (dq_act c * lam c)).
Definition dq_kkt_d (z t : nat -> R) (c : nat) : R := dq_mask q c * (dq_d q c + t c - dq_con z c).
Definition dq_kkt_m (lam t : nat -> R) (c : nat) : R := dq_mask q c * (dq_act c * lam c * t c - dq_m q c).
(** the cached mask information is absent or correct *)
Definition dq_valid_ok (valid : option (bool * R)) : Prop :=
  match valid with None => True | Some (mc, _) => mc = true \/ forall c, (c < dqnc)%nat -> dq_mask q c = 1 end.
(** the cached constraint values and adjoint are absent or those of the given point *)
Definition dq_cache_ok (cache : option ((nat -> R) * (nat -> R))) (z lam : nat -> R) : Prop :=
  match cache with
  | None => True
  | Some (f, a) =>
      (forall j, (j < dq_nq q)%nat -> f j = dq_fun z j) /\
      (forall k, (k < dq_nv q)%nat -> a k = rsum (dq_nq q) (fun j =>
         let c := (dqn2 + (dq_nb q + dq_ng q) + j)%nat in dq_act c * lam c * dq_grad z j k))
  end.
End Q.
