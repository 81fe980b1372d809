(** SctreeProps.v -- property theorem C12. *)
From Coq Require Import ZArith Lia List Bool Arith.
From Verif Require Import Base IntModel IntProofs SctreeModel SctreeProofs.
Import ListNotations.

(** C12. For every md>=1 and Nr<=Nh, whatever the memory contained, sctree_create returns (no access outside the
    Nn nodes and Nn ints of sctree_memsize) and builds Nn = sum_{s<=Nh} md^min(s,Nr) nodes such that
    - every node carries its own index, a stage in 0..Nh, and md / 1 / 0 kids below Nr / below Nh / at Nh;
    - node 0 is the root (stage 0, no dad);
    - every other node k is kid number n_idxkid of its dad, which has a smaller index and the previous stage; it
      inherits the realization of its dad unless dad branches (then it is its own kid number);
    - conversely every kid entry of every node names a non-root node whose dad and kid number are that entry
      (so each non-root node is listed exactly once). *)
Theorem C12_scenario_tree_wf (md Nr Nh : nat) (jn : nat -> node) (jk : nat -> Z) :
  1 <= md -> Nr <= Nh ->
  exists (Nn : nat) (s : ststate),
    sctree_create (Z.of_nat md) (Z.of_nat Nr) (Z.of_nat Nh) jn jk = Ok (Z.of_nat Nn, s) /\
    Nn = nsum (Nh + 1) (fun st => md ^ Nat.min st Nr) /\
    let nod := bdat (st_root s) in let kid := bdat (st_kids s) in
    (forall k, k < Nn ->
        n_idx (nod k) = Z.of_nat k /\ (0 <= n_stage (nod k) <= Z.of_nat Nh)%Z /\
        n_nkids (nod k) = (if Z.ltb (n_stage (nod k)) (Z.of_nat Nr) then Z.of_nat md
                           else if Z.ltb (n_stage (nod k)) (Z.of_nat Nh) then 1%Z else 0%Z)) /\
    (n_stage (nod 0) = 0%Z /\ n_dad (nod 0) = (-1)%Z /\ n_real (nod 0) = (-1)%Z) /\
    (forall k, 1 <= k -> k < Nn -> exists d i : nat,
        n_dad (nod k) = Z.of_nat d /\ d < k /\ n_stage (nod k) = (n_stage (nod d) + 1)%Z /\
        n_idxkid (nod k) = Z.of_nat i /\ (Z.of_nat i < n_nkids (nod d))%Z /\
        kid (Z.to_nat (n_kids (nod d)) + i) = Z.of_nat k /\
        n_real (nod k) = (if Z.ltb 1 (n_nkids (nod d)) then Z.of_nat i else n_real (nod d))) /\
    (forall d i, d < Nn -> (Z.of_nat i < n_nkids (nod d))%Z -> exists k : nat,
        1 <= k /\ k < Nn /\ (0 <= n_kids (nod d))%Z /\ Z.to_nat (n_kids (nod d)) + i < Nn /\
        kid (Z.to_nat (n_kids (nod d)) + i) = Z.of_nat k /\
        n_dad (nod k) = Z.of_nat d /\ n_idxkid (nod k) = Z.of_nat i).
Proof.
  intros Hmd HN. destruct (create_inv md Nr Nh Hmd HN jn jk) as [s [E I]].
  exists (NN md Nr Nh), s. split; [exact E|]. split. { unfold NN, L, W. rewrite Nat.add_1_r. reflexivity. }
  pose proof (final_ik md Nr Nh Hmd HN s I) as Hfin.
  pose proof (NN_pos md Nr Nh Hmd) as Hp.
  destruct I as [(ik&l&Eik&Etk&Hl&Hl1&Hl2&Hik&Hlev&Hdad&Hkids&Hproc) Hroot Hlr Hlk].
  assert (Hik' : ik = NN md Nr Nh - 1) by lia.
  cbv zeta. unfold nd, kd in *. split; [|split; [|split]].
  - intros k Hk. destruct (Hlev k ltac:(lia)) as [-> [lv [H1 [H2 [H3 H4]]]]].
    split; [reflexivity|]. split; [lia|]. destruct (Hproc k Hk) as [-> _]. rewrite H4, Nat2Z.id. unfold b.
    destruct (Z.ltb_spec (Z.of_nat lv) (Z.of_nat Nr)); destruct (Nat.ltb_spec lv Nr); try lia.
    destruct (Z.ltb_spec (Z.of_nat lv) (Z.of_nat Nh)); destruct (Nat.ltb_spec lv Nh); try lia.
  - destruct Hroot as (H1&H2&H3&_). repeat split; assumption.
  - intros k Hk1 Hk2. destruct (Hdad k Hk1 ltac:(lia)) as (d&i&D1&D2&D3&D4&D5&D6&D7&D8).
    exists d, i. repeat split; try assumption.
    destruct (Hproc d D2) as [_ P2]. destruct (P2 ltac:(lia)) as (off&O1&O2&O3).
    rewrite O1 in D6 |- *. rewrite Nat2Z.id. rewrite Hkids by lia. lia.
  - intros d i Hd Hi. destruct (Hproc d Hd) as [_ P2]. destruct (P2 ltac:(lia)) as (off&O1&O2&O3).
    exists (off + i + 1). rewrite O1, Nat2Z.id. rewrite Hkids by lia.
    destruct (O3 i Hi) as [-> ->]. repeat split; lia.
Qed.
Print Assumptions C12_scenario_tree_wf.

(** C12 needs Nr <= Nh, which the code does not check: with Nr > Nh the tree is larger than the memory and
    sctree_create writes outside it. *)
Theorem C12_Nr_gt_Nh_refuted :
  exists md Nr Nh jn jk, (1 <= md)%Z /\ (0 <= Nh < Nr)%Z /\ sctree_create md Nr Nh jn jk = UB.
Proof.
  exists 2%Z, 2%Z, 1%Z, (fun _ => mknode 0 0 0 0 0 0 0), (fun _ => 0%Z).
  split; [lia|]. split; [lia|]. vm_compute. reflexivity.
Qed.
Print Assumptions C12_Nr_gt_Nh_refuted.

Example C12_nontrivial :
  match sctree_create 2 2 3 (fun _ => mknode 9 9 9 9 9 9 9) (fun _ => 5%Z) with
  | Ok (Nn, s) => Nn = 11%Z /\ map (fun k => n_stage (bdat (st_root s) k)) (seq 0 11) = [0;1;1;2;2;2;2;3;3;3;3]%Z
      /\ map (fun k => n_dad (bdat (st_root s) k)) (seq 0 11) = [-1;0;0;1;1;2;2;3;4;5;6]%Z
  | _ => False end.
Proof. vm_compute. repeat split. Qed.
