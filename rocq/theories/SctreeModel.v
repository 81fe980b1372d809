(** SctreeModel.v -- model of tree_ocp_qp/scenario_tree.c. *)
From Coq Require Import ZArith Lia List Bool Arith.
From Verif Require Import Base IntModel.
Import ListNotations.
Local Open Scope Z_scope.

(** ipow, scenario_tree.c lines 43-54: while(exp) { if(exp&1) result*=base; exp>>=1; base*=base; }.
    [fuel] bounds the number of iterations; None = out of fuel.  int overflow is not modelled. *)
Fixpoint ipow_loop (fuel : nat) (result base exp : Z) : option Z :=
  match fuel with
  | O => None
  | S f =>
    if Z.eqb exp 0 then Some result
    else ipow_loop f (if Z.odd exp then result * base else result) (base * base) (Z.shiftr exp 1)
  end.
Definition ipow (base exp : Z) : outcome Z :=
  match ipow_loop (S (Z.to_nat exp)) 1 base exp with Some r => Ok r | None => UB end.

(** sctree_node_number, lines 58-66. *)
Definition sctree_node_number (md Nr Nh : Z) : outcome Z :=
  if Z.eqb md 1 then Ok (Nh + 1)
  else
    let! p := ipow md Nr in
    let! p1 := ipow md (Nr + 1) in
    if Z.eqb (md - 1) 0 then UB
    else Ok ((Nh - Nr) * p + Z.quot (p1 - 1) (md - 1)).

(** struct node (include/hpipm_tree.h lines 48-57); kids is the offset of the pointer into st->kids. *)
Record node := mknode { n_idx : Z; n_stage : Z; n_dad : Z; n_real : Z; n_idxkid : Z; n_nkids : Z; n_kids : Z }.
(** The memory carved by sctree_create: Nn nodes, then Nn ints; and the two counters idxkid, tkids. *)
Record ststate := mkst { st_root : barr node; st_kids : barr Z; st_idxkid : Z; st_tkids : Z }.

(** One child: lines 142-149 (nkids>1) and 154-161 (nkids==1); [pos] = ii resp. 0, [real] = ii resp. node0->real. *)
Definition sct_child (idx stage off pos real : Z) (s : ststate) : outcome ststate :=
  let ik := st_idxkid s + 1 in
  let! kids := bset (st_kids s) (off + pos) ik in
  let! n1 := bget (st_root s) ik in
  let! root := bset (st_root s) ik (mknode ik (stage + 1) idx real pos (n_nkids n1) (n_kids n1)) in
  Ok (mkst root kids ik (st_tkids s)).

(** Body of the loop over idx, lines 125-164. *)
Definition sct_body (md Nr Nh idx : Z) (s : ststate) : outcome ststate :=
  let! n0 := bget (st_root s) idx in
  let stage := n_stage n0 in
  let nkids := if Z.ltb stage Nr then md else if Z.ltb stage Nh then 1 else 0 in
  let! root1 := bset (st_root s) idx
     (mknode (n_idx n0) (n_stage n0) (n_dad n0) (n_real n0) (n_idxkid n0) nkids (n_kids n0)) in
  if Z.ltb 0 nkids then
    let off := st_tkids s in
    let! root2 := bset root1 idx
       (mknode (n_idx n0) (n_stage n0) (n_dad n0) (n_real n0) (n_idxkid n0) nkids off) in
    let s1 := mkst root2 (st_kids s) (st_idxkid s) (off + nkids) in
    if Z.ltb 1 nkids then zfor 0 nkids (fun ii s' => sct_child idx stage off ii ii s') s1
    else sct_child idx stage off 0 (n_real n0) s1
  else Ok (mkst root1 (st_kids s) (st_idxkid s) (st_tkids s)).

(** sctree_create, lines 86-168, on a memory block of sctree_memsize bytes holding arbitrary initial contents
    ([jn],[jk]); the block holds exactly Nn nodes and Nn ints (lines 70-82, 98-104). *)
Definition sctree_create (md Nr Nh : Z) (jn : nat -> node) (jk : nat -> Z) : outcome (Z * ststate) :=
  let! Nn := sctree_node_number md Nr Nh in
  let root := mkbarr (Z.to_nat Nn) jn in
  let kids := mkbarr (Z.to_nat Nn) jk in
  let! n0 := bget root 0 in
  let! root := bset root 0 (mknode 0 0 (-1) (-1) 0 (n_nkids n0) (n_kids n0)) in
  let! s := zfor 0 Nn (fun idx s => sct_body md Nr Nh idx s) (mkst root kids 0 0) in
  Ok (Nn, s).
