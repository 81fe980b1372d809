(** IntProps.v -- property theorems C09, C10, C11. *)
From Coq Require Import ZArith Lia List Bool Arith.
From Verif Require Import Base IntModel IntProofs.
Import ListNotations.

(** C09. For every N >= 0, N2 >= 1 and every caller array with room for N2+1 entries: the function returns, writes
    exactly entries 0..N2, the first N2 sum to N, differ by at most one, are non-increasing; the last is 0. *)
Theorem C09_block_sizes_partition (N N2 : nat) (bs : barr Z) :
  1 <= N2 -> N2 + 1 <= blen bs ->
  exists b, part_cond_block_size (Z.of_nat N) (Z.of_nat N2) bs = Ok b /\ blen b = blen bs /\
    zsum (N2 + 1) (bdat b) = Z.of_nat N /\
    (forall i j, i < N2 -> j < N2 -> (bdat b i - bdat b j <= 1)%Z) /\
    (forall i j, i <= j -> j < N2 -> (0 <= bdat b j <= bdat b i)%Z) /\
    bdat b N2 = 0%Z /\ (forall i, N2 < i -> bdat b i = bdat bs i) /\
    (N2 <= N -> forall i, i < N2 -> (1 <= bdat b i)%Z).
Proof.
  intros H1 H2. destruct (block_size_spec N N2 bs H1 ltac:(lia)) as [b [E [L [V [Z0 F]]]]].
  exists b. split; [exact E|]. split; [exact L|]. repeat split; try assumption.
  - replace (N2 + 1) with (S N2) by lia. cbn [zsum]. rewrite Z0, Z.add_0_r.
    rewrite (zsum_ext N2 _ _ V). apply block_sum. exact H1.
  - intros i j Hi Hj. rewrite !V by lia. destruct (Nat.ltb i (N mod N2)), (Nat.ltb j (N mod N2)); lia.
  - rewrite V by lia. destruct (Nat.ltb j (N mod N2)); lia.
  - rewrite !V by lia.
    destruct (Nat.ltb_spec i (N mod N2)), (Nat.ltb_spec j (N mod N2)); lia.
  - intros Hle i Hi. rewrite V by lia.
    assert (1 <= N / N2) by (apply Nat.div_le_lower_bound; lia).
    destruct (Nat.ltb i (N mod N2)); lia.
Qed.
Print Assumptions C09_block_sizes_partition.

(** C09, the corner cases of the guard at line 41: N=N2=0 writes one 0; N2=0 with N<>0 divides by zero. *)
Theorem C09_zero_blocks (bs : barr Z) (N : Z) :
  1 <= blen bs ->
  (exists b, part_cond_block_size 0 0 bs = Ok b /\ bdat b 0 = 0%Z) /\
  (N <> 0%Z -> part_cond_block_size N 0 bs = UB).
Proof.
  intros H. split.
  - unfold part_cond_block_size. cbn [Z.eqb andb]. change 0%Z with (Z.of_nat 0) at 1.
    rewrite bset_ok by lia. eexists; split; [reflexivity|]. apply upd_same.
  - intros HN. unfold part_cond_block_size. cbn [Z.eqb andb]. apply Z.eqb_neq in HN. rewrite HN. reflexivity.
Qed.
Print Assumptions C09_zero_blocks.

Example C09_nontrivial :
  match part_cond_block_size 11 4 (mkbarr 6 (fun _ => 77%Z)) with
  | Ok b => map (bdat b) (seq 0 6) = [3; 3; 3; 2; 0; 77]%Z
  | _ => False end.
Proof. vm_compute. reflexivity. Qed.

(** C10. For every OCP dimensions consistent in nb = nbx+nbu (C02) and block sizes summing to N, all but the last
    positive: no access leaves the arrays; the totals of inputs, soft constraints and inequality constraints are
    conserved; every block keeps the state dimension and state bounds of its first stage; nb2 = nbx2+nbu2. *)
Theorem C10_dims_conserved (N N2 : nat) (src dst : barr sdim) (bs : barr Z) (bsn : nat -> nat) :
  blen src = N + 1 -> blen dst = N2 + 1 -> blen bs = N2 + 1 ->
  (forall i, i <= N2 -> bdat bs i = Z.of_nat (bsn i)) ->
  (forall i, i < N2 -> 1 <= bsn i) -> nsum (N2 + 1) bsn = N ->
  (forall i, i <= N -> s_nb (bdat src i) = (s_nbx (bdat src i) + s_nbu (bdat src i))%Z) ->
  exists d, part_cond_dim (Z.of_nat N2) src bs dst = Ok d /\
    zsum (N2 + 1) (fun k => s_nu (bdat d k)) = zsum (N + 1) (fun i => s_nu (bdat src i)) /\
    zsum (N2 + 1) (fun k => s_ns (bdat d k)) = zsum (N + 1) (fun i => s_ns (bdat src i)) /\
    zsum (N2 + 1) (fun k => s_nbu (bdat d k)) = zsum (N + 1) (fun i => s_nbu (bdat src i)) /\
    zsum (N2 + 1) (fun k => (s_nb (bdat d k) + s_ng (bdat d k))%Z)
      = zsum (N + 1) (fun i => (s_nb (bdat src i) + s_ng (bdat src i))%Z) /\
    (forall k, k <= N2 -> s_nx (bdat d k) = s_nx (bdat src (nsum k bsn))
        /\ s_nbx (bdat d k) = s_nbx (bdat src (nsum k bsn))
        /\ s_nb (bdat d k) = (s_nbx (bdat d k) + s_nbu (bdat d k))%Z).
Proof.
  intros Ls Ld Lb Hb Hpos Hsum Hnb.
  destruct (part_cond_dim_spec N N2 src dst bs bsn Ls Ld Lb Hb Hpos Hsum Hnb) as [d [E [L [I1 I2]]]].
  exists d. split; [exact E|].
  split; [|split; [|split; [|split]]].
  - apply (conserve_total s_nu N N2 (bdat d) (bdat src) bsn Hsum); [intros k Hk; apply I1; exact Hk|apply I2].
  - apply (conserve_total s_ns N N2 (bdat d) (bdat src) bsn Hsum); [intros k Hk; apply I1; exact Hk|apply I2].
  - apply (conserve_total s_nbu N N2 (bdat d) (bdat src) bsn Hsum); [intros k Hk; apply I1; exact Hk|apply I2].
  - apply (conserve_total s_ineq N N2 (bdat d) (bdat src) bsn Hsum); [intros k Hk; apply I1; exact Hk|apply I2].
  - intros k Hk. destruct (Nat.eq_dec k N2) as [->|Hne].
    + destruct I2 as (?&?&?&?&?&?&?). repeat split; assumption.
    + destruct (I1 k ltac:(lia)) as (?&?&?&?&?&?&?). repeat split; assumption.
Qed.
Print Assumptions C10_dims_conserved.

(** C10 is false for a zero block before the last one -- and the block sizes of C09 contain such blocks whenever
    N2 > N: the stage is then counted twice.  Witness N=1, N2=2 (block sizes 1,0,0). *)
Theorem C10_zero_block_refuted :
  let src := mkbarr 2 (fun _ => mksd 2 1 3 2 1 0 0) in
  exists b d, part_cond_block_size 1 2 (mkbarr 3 (fun _ => 0%Z)) = Ok b /\
    part_cond_dim 2 src b (mkbarr 3 (fun _ => mksd 0 0 0 0 0 0 0)) = Ok d /\
    zsum 3 (bdat b) = 1%Z /\
    zsum 3 (fun k => s_nu (bdat d k)) = 3%Z /\ zsum 2 (fun i => s_nu (bdat src i)) = 2%Z.
Proof.
  eexists. eexists. split; [reflexivity|]. split; [reflexivity|]. vm_compute. repeat split.
Qed.
Print Assumptions C10_zero_block_refuted.

Example C10_nontrivial :
  let src := mkbarr 6 (fun i => mksd 4 (if Nat.ltb i 5 then 2 else 0) 5 4 1 3 1) in
  match part_cond_block_size 5 2 (mkbarr 3 (fun _ => 0%Z)) with
  | Ok b => map (bdat b) (seq 0 3) = [3; 2; 0]%Z /\
     match part_cond_dim 2 src b (mkbarr 3 (fun _ => mksd 0 0 0 0 0 0 0)) with
     | Ok d => map (fun k => s_nu (bdat d k)) (seq 0 3) = [6; 4; 0]%Z /\ map (fun k => s_ng (bdat d k)) (seq 0 3) = [17; 10; 3]%Z
     | _ => False end
  | _ => False end.
Proof. vm_compute. repeat split. Qed.

(** C11. Full condensing: nv = nx[0] + all inputs, no equality constraints, and as many bounds + general
    constraints, and soft constraints, as the OCP QP has in total. *)
Theorem C11_cond_dims_conserved (N : nat) (src : barr sdim) :
  blen src = N + 1 ->
  (forall i, i <= N -> s_nb (bdat src i) = (s_nbx (bdat src i) + s_nbu (bdat src i))%Z) ->
  exists d, cond_dim (Z.of_nat N) src = Ok d /\
    d_nv d = (s_nx (bdat src 0) + zsum (N + 1) (fun i => s_nu (bdat src i)))%Z /\
    d_ne d = 0%Z /\
    d_nb d = (s_nbx (bdat src 0) + zsum (N + 1) (fun i => s_nbu (bdat src i)))%Z /\
    (d_nb d + d_ng d)%Z = zsum (N + 1) (fun i => (s_nb (bdat src i) + s_ng (bdat src i))%Z) /\
    d_ns d = zsum (N + 1) (fun i => s_ns (bdat src i)).
Proof. exact (cond_dim_spec N src). Qed.
Print Assumptions C11_cond_dims_conserved.

Example C11_nontrivial :
  cond_dim 2 (mkbarr 3 (fun i => mksd 4 2 5 4 1 3 1)) = Ok (mkdd 10 0 7 17 3).
Proof. reflexivity. Qed.
