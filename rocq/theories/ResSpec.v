(** ResSpec.v -- the OCP QP as mathematics (real numbers), independent of the code.

    A stage has n "hard" variables (u then x), ns lower slacks and ns upper slacks, stored in this order, nb two-sided
    bounds on variable idxb j, ng two-sided general constraints, some of them softened.  All inequality
    constraints of a stage, one-sided, numbered c:   G_c . z >= d_c
      c = j            (j < nb+ng)  :   row_j z + sl_{soft j}  >=  d_c           (lower)
      c = nb+ng+j      (j < nb+ng)  :  -row_j z + su_{soft j}  >=  d_c  (= -ub)  (upper)
      c = 2nb+2ng+l    (l < 2ns)    :   slack_l                >=  d_c *)
From Coq Require Import ZArith Bool Arith Reals.
From Verif Require Import Base RSum OcpModel.
Local Open Scope R_scope.

Section Stage.
Variables (n nb ng ns : nat) (idxb : nat -> nat) (Ct : nat -> nat -> R) (soft : nat -> Z).
(** coefficient of hard variable k in the two-sided constraint j *)
Definition row_co (j k : nat) : R := if (j <? nb)%nat then (if (idxb j =? k)%nat then 1 else 0) else Ct k (j - nb)%nat.
(** coefficient of variable k in the softening of two-sided constraint j; its slacks start at [off] *)
Definition soft_co (off j k : nat) : R :=
  if Z.eqb (soft j) (-1) then 0 else if (k =? off + Z.to_nat (soft j))%nat then 1 else 0.
(** coefficient of variable k (hard or slack) in the one-sided constraint c *)
Definition G_co (c k : nat) : R :=
  let nbg := (nb + ng)%nat in
  if (c <? nbg)%nat then if (k <? n)%nat then row_co c k else soft_co n c k
  else if (c <? 2 * nbg)%nat then
    if (k <? n)%nat then - row_co (c - nbg) k else soft_co (n + ns) (c - nbg) k
  else if (k =? n + (c - 2 * nbg))%nat then 1 else 0.
(** Hessian of the stage cost: symmetric H (given by its lower triangle) on the hard variables, diagonal Z on the slacks *)
Variables (H : nat -> nat -> R) (Zd : nat -> R).
Definition H_co (k l : nat) : R :=
  if (k <? n)%nat then (if (l <? n)%nat then (if (l <=? k)%nat then H k l else H l k) else 0)
  else if (k =? l)%nat then Zd (k - n)%nat else 0.
(** index data legal: bounds act on existing hard variables, softened constraints point to existing slacks *)
Definition stage_wf : Prop :=
  (forall j, (j < nb)%nat -> (idxb j < n)%nat) /\ (forall j, (j < nb + ng)%nat -> (soft j = -1 \/ 0 <= soft j < Z.of_nat ns)%Z).
End Stage.

Section Ocp.
Variable qp : oqp R.
Let D := q_dim qp.
Definition nux (i : nat) : nat := (dnu (q_dim qp) i + dnx (q_dim qp) i)%nat.
Definition qp_wf : Prop := forall i, (i <= dN D)%nat -> stage_wf (nux i) (dnb D i) (dng D i) (dns D i) (q_idxb qp i) (q_idxs_rev qp i).
Definition G (i : nat) : nat -> nat -> R := G_co (nux i) (dnb D i) (dng D i) (dns D i) (q_idxb qp i) (q_DCt qp i) (q_idxs_rev qp i).
Definition Hess (i : nat) : nat -> nat -> R := H_co (nux i) (q_RSQ qp i) (q_Z qp i).
(** value of the one-sided constraint c of stage i *)
Definition con (z : nat -> nat -> R) (i c : nat) : R := rsum (nvt D i) (fun k => G i c k * z i k).
(** defect of the dynamics x_{i+1} = A x_i + B u_i + b *)
Definition dyn (z : nat -> nat -> R) (i j : nat) : R :=
  rsum (nux i) (fun k => q_BAbt qp i k j * z i k) + q_b qp i j - z (S i) (dnu D (S i) + j)%nat.
(** the objective *)
Definition stage_cost (z : nat -> nat -> R) (i : nat) : R :=
  1 / 2 * rsum (nvt D i) (fun k => rsum (nvt D i) (fun l => z i k * Hess i k l * z i l)) + rsum (nvt D i) (fun k => q_rqz qp i k * z i k).
Definition cost (z : nat -> nat -> R) : R := rsum (dN D + 1) (stage_cost z).
(** constraint c of stage i is imposed iff its mask is not zero *)
Definition feasible (z : nat -> nat -> R) : Prop :=
  (forall i j, (i < dN D)%nat -> (j < dnx D (S i))%nat -> dyn z i j = 0) /\
  (forall i c, (i <= dN D)%nat -> (c < nct D i)%nat -> q_mask qp i c <> 0 -> con z i c >= q_d qp i c).
(** masks are 0 or 1 (property C14: all the setters keep this) *)
Definition mask01 : Prop := forall i c, (i <= dN D)%nat -> (c < nct D i)%nat -> q_mask qp i c = 0 \/ q_mask qp i c = 1.
(** convexity of every stage cost *)
Definition psd : Prop := forall i (v : nat -> R), (i <= dN D)%nat -> 0 <= rsum (nvt D i) (fun k => rsum (nvt D i) (fun l => v k * Hess i k l * v l)).
(** Lagrangian with multipliers pi (dynamics) and lam (inequalities, counted with their mask) *)
Definition lagr (z pi lam : nat -> nat -> R) : R :=
  cost z + rsum (dN D) (fun i => rsum (dnx D (S i)) (fun j => pi i j * dyn z i j))
  - rsum (dN D + 1) (fun i => rsum (nct D i) (fun c => q_mask qp i c * lam i c * (con z i c - q_d qp i c))).
(** KKT residuals *)
Definition kkt_g (z pi lam : nat -> nat -> R) (i k : nat) : R :=
  rsum (nvt D i) (fun l => Hess i k l * z i l) + q_rqz qp i k
  + (if ((i <? dN D) && (k <? nux i))%nat then rsum (dnx D (S i)) (fun j => q_BAbt qp i k j * pi i j) else 0)
  - (if ((0 <? i) && (dnu D i <=? k) && (k <? nux i))%nat then pi (i - 1)%nat (k - dnu D i)%nat else 0)
  - rsum (nct D i) (fun c => G i c k * (q_mask qp i c * lam i c)).
Definition kkt_d (z t : nat -> nat -> R) (i c : nat) : R := q_mask qp i c * (q_d qp i c + t i c - con z i c).
Definition kkt_m (lam t : nat -> nat -> R) (i c : nat) : R := q_mask qp i c * (q_mask qp i c * lam i c * t i c - q_m qp i c).
End Ocp.
Definition masks_one (D : dims) (mask : nat -> nat -> R) : Prop := forall i c, (i <= dN D)%nat -> (c < nct D i)%nat -> mask i c = 1.
(** the cached mask information of the workspace is either absent or correct *)
Definition valid_ok (valid : option (bool * R)) (qp : oqp R) : Prop :=
  match valid with None => True | Some (mc, _) => mc = true \/ masks_one (q_dim qp) (q_mask qp) end.
(** x is the largest absolute value among the entries v i k (0 if there is none) *)
Definition max_abs (n : nat) (len : nat -> nat) (v : nat -> nat -> R) (x : R) : Prop :=
  0 <= x /\ (forall i k, (i < n)%nat -> (k < len i)%nat -> Rabs (v i k) <= x) /\
  (x = 0 \/ exists i k, (i < n)%nat /\ (k < len i)%nat /\ x = Rabs (v i k)).
