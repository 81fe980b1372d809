(** IntModel.v -- integer-only code: block sizes and dimensions of partial/full condensing. *)
From Coq Require Import ZArith Lia List Bool Arith.
From Verif Require Import Base.
Import ListNotations.

(** A C array of [blen] elements; every access is bounds-checked (outside: undefined behaviour). *)
Record barr (A : Type) := mkbarr { blen : nat; bdat : nat -> A }.
Arguments mkbarr {A}. Arguments blen {A}. Arguments bdat {A}.
Definition bget {A} (a : barr A) (i : Z) : outcome A :=
  if andb (Z.leb 0 i) (Z.ltb i (Z.of_nat (blen a))) then Ok (bdat a (Z.to_nat i)) else UB.
Definition bset {A} (a : barr A) (i : Z) (v : A) : outcome (barr A) :=
  if andb (Z.leb 0 i) (Z.ltb i (Z.of_nat (blen a)))
  then Ok (mkbarr (blen a) (upd (bdat a) (Z.to_nat i) v)) else UB.

(** for(ii=lo; ii<hi; ii++) with int bounds: hi-lo iterations (none if hi<=lo). *)
Definition zfor {S} (lo hi : Z) (f : Z -> S -> outcome S) (s : S) : outcome S :=
  oloop (Z.to_nat (hi - lo)) (fun k => f (lo + Z.of_nat k)%Z) s.

(** PART_COND_QP_COMPUTE_BLOCK_SIZE, cond/x_part_cond.c lines 36-63.  N/N2 is C integer division
    (truncation; undefined for N2==0).  After the first loop ii = max(0, N-N2*bs0). *)
Definition part_cond_block_size (N N2 : Z) (bs : barr Z) : outcome (barr Z) :=
  if andb (Z.eqb N2 0) (Z.eqb N 0) then bset bs 0 0%Z
  else if Z.eqb N2 0 then UB
  else
    let bs0 := Z.quot N N2 in
    let r := (N - N2 * bs0)%Z in
    let! b1 := zfor 0 r (fun ii b => bset b ii (bs0 + 1)%Z) bs in
    let! b2 := zfor (Z.max 0 r) N2 (fun ii b => bset b ii bs0) b1 in
    bset b2 N2 0%Z.

(** One stage of struct OCP_QP_DIM (the seven int arrays nx,nu,nb,nbx,nbu,ng,ns seen as an array of records). *)
Record sdim := mksd { s_nx : Z; s_nu : Z; s_nb : Z; s_nbx : Z; s_nbu : Z; s_ng : Z; s_ns : Z }.

(** The accumulation body of the loops over jj, lines 101-110 and 125-134. *)
Definition pc_acc (a s : sdim) : sdim :=
  mksd (s_nx a + 0) (s_nu a + s_nu s) (s_nb a + s_nbu s) (s_nbx a + 0) (s_nbu a + s_nbu s)
       (s_ng a + (s_ng s + s_nbx s)) (s_ns a + s_ns s).

(** One block: copy the dimensions of stage N_tmp, then accumulate stages N_tmp+1 .. N_tmp+cnt-1. *)
Definition pc_block (src : barr sdim) (N_tmp cnt : Z) : outcome sdim :=
  let! s0 := bget src N_tmp in
  zfor 1 cnt (fun jj a => let! s := bget src (N_tmp + jj)%Z in Ok (pc_acc a s)) s0.

(** PART_COND_QP_COMPUTE_DIM, cond/x_part_cond.c lines 67-139.  [src] has N+1 stages, [dst] N2+1 stages; the
    state is (dst, N_tmp).  The equality-constraint dimensions (nbxe..) are not touched by the C code. *)
Definition part_cond_dim (N2 : Z) (src : barr sdim) (bs : barr Z) (dst : barr sdim) : outcome (barr sdim) :=
  let! st := zfor 0 N2 (fun ii st =>
       let '(d, N_tmp) := st in
       let! b := bget bs ii in
       let! s := pc_block src N_tmp b in
       let! d' := bset d ii s in
       Ok (d', (N_tmp + b)%Z)) (dst, 0%Z) in
  let '(d, N_tmp) := st in
  let! b := bget bs N2 in
  let! s := pc_block src N_tmp (b + 1)%Z in
  bset d N2 s.

(** struct DENSE_QP_DIM (nv, ne, nb, ng, ns). *)
Record ddim := mkdd { d_nv : Z; d_ne : Z; d_nb : Z; d_ng : Z; d_ns : Z }.

(** COND_QP_COMPUTE_DIM, cond/x_cond.c lines 36-76. *)
Definition cond_dim (N : Z) (src : barr sdim) : outcome ddim :=
  let! s0 := bget src 0%Z in
  zfor 1 (N + 1) (fun ii a =>
     let! s := bget src ii in
     Ok (mkdd (d_nv a + s_nu s) (d_ne a) (d_nb a + s_nbu s) (d_ng a + (s_nbx s + s_ng s)) (d_ns a + s_ns s)))%Z
    (mkdd (0 + (s_nx s0 + s_nu s0)) 0 (0 + (s_nbx s0 + s_nbu s0)) (0 + s_ng s0) (0 + s_ns s0))%Z.
