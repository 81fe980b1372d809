(** PartSpec.v -- what partial condensing means, independent of the code (real numbers).

    The horizon 0..N is cut into N2+1 blocks: block ii < N2 has the bs ii stages start ii .. start ii + bs ii - 1, the last block the stages
    start N2 .. N.  Stage ii of the second QP has the variables  [inputs of all stages of the block (last stage first); state at the start
    of the block; slacks]  -- the vector v of CondSpec.v for the block taken alone.  The states inside the block are eliminated. *)
From Coq Require Import ZArith Bool Arith Reals.
From Verif Require Import Base RSum OcpModel ResSpec CondSpec.
Local Open Scope R_scope.

Definition start (bs : nat -> nat) (ii : nat) : nat := nsum ii bs.
(** number of the last stage of block ii, counted from the start of the block *)
Definition blen (N2 : nat) (bs : nat -> nat) (ii : nat) : nat := if (ii =? N2)%nat then bs ii else (bs ii - 1)%nat.
(** no empty block but possibly the last; together they make up the horizon *)
Definition blocks_ok (N N2 : nat) (bs : nat -> nat) : Prop := (forall ii, (ii < N2)%nat -> (1 <= bs ii)%nat) /\ start bs (S N2) = N.
(** the block of stage i: number of later blocks that have started *)
Definition block_of (N2 : nat) (bs : nat -> nat) (i : nat) : nat := nsum N2 (fun k => if (start bs (S k) <=? i)%nat then 1 else 0)%nat.
(** the part of the QP from stage o to stage o+n, as a QP of its own *)
Definition window (qp : oqp R) (o n : nat) : oqp R :=
  let f {A : Type} (x : nat -> A) : nat -> A := fun i => x (o + i)%nat in
  let D := q_dim qp in
  mkqp (mkdims n (f (dnx D)) (f (dnu D)) (f (dnb D)) (f (dng D)) (f (dns D))) (f (q_BAbt qp)) (f (q_RSQ qp)) (f (q_DCt qp)) (f (q_b qp)) (f (q_rqz qp))
    (f (q_d qp)) (f (q_mask qp)) (f (q_m qp)) (f (q_Z qp)) (f (q_idxb qp)) (f (q_idxs_rev qp)).
Definition block (qp : oqp R) (bs : nat -> nat) (ii : nat) : oqp R := window qp (start bs ii) (bs ii).
(** the trajectory of the first QP described by a point z of the second one: within each block, the trajectory of the variables of that block *)
Definition ptraj (qp : oqp R) (N2 : nat) (bs : nat -> nat) (z : nat -> nat -> R) (i k : nat) : R :=
  let ii := block_of N2 bs i in traj (block qp bs ii) (blen N2 bs ii) (z ii) (i - start bs ii) k.
(** sizes of the second QP *)
Definition part_size (qp : oqp R) (N2 : nat) (bs : nat -> nat) (p : oqp R) : Prop :=
  dN (q_dim p) = N2 /\ forall ii, (ii <= N2)%nat -> let B := block qp bs ii in let M := blen N2 bs ii in
  dnu (q_dim p) ii = nsum (S M) (dnu (q_dim B)) /\ dnx (q_dim p) ii = dnx (q_dim qp) (start bs ii) /\
  dnb (q_dim p) ii = n_box B M /\ dng (q_dim p) ii = n_gen B M /\ dns (q_dim p) ii = nsum (S M) (dns (q_dim B)).
(** [pos i c] = place of constraint c of stage i among the constraints of the stage of the second QP standing for the block of i; one to one *)
Definition part_numbering (qp p : oqp R) (N2 : nat) (bs : nat -> nat) (pos : nat -> nat -> nat) : Prop :=
  let N := dN (q_dim qp) in let b := block_of N2 bs in
  (forall i c, (i <= N)%nat -> (c < nct (q_dim qp) i)%nat -> (b i <= N2)%nat /\ (pos i c < nct (q_dim p) (b i))%nat) /\
  (forall i c i' c', (i <= N)%nat -> (c < nct (q_dim qp) i)%nat -> (i' <= N)%nat -> (c' < nct (q_dim qp) i')%nat -> b i = b i' -> pos i c = pos i' c' -> i = i' /\ c = c') /\
  (forall ii r, (ii <= N2)%nat -> (r < nct (q_dim p) ii)%nat -> exists i c, (i <= N)%nat /\ (c < nct (q_dim qp) i)%nat /\ b i = ii /\ pos i c = r).
