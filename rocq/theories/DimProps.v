(** DimProps.v -- property theorems C01, C02, C03 (proofs in DimProofs.v). *)
From Coq Require Import ZArith Lia List Arith String.
From Verif Require Import Base AuxModel AuxProofs DimModel DimProofs.
Import ListNotations.
Open Scope string_scope.

(** The field names of the public API (independent of the model's tables). *)
Definition known_names : list string := ["nx"; "nu"; "nbx"; "nbu"; "ng"; "ns"; "nbxe"; "nbue"; "nge"].

(** C01. For every horizon, whatever the buffer contained, and for every finite history of set calls with known
    names and stages in 0..N: all calls return, and afterwards every get returns the last value set for exactly
    that (name, stage), 0 if it was never set. *)
Theorem C01_set_get_history (N : nat) (junk : nat -> Z) (ops : list setop) :
  (forall o, In o ops -> In (so_name o) known_names /\ (0 <= so_stage o <= Z.of_nat N)%Z) ->
  exists d, run_sets ops (dim_create N junk) = Ok d /\
    forall name stage, In name known_names -> (0 <= stage <= Z.of_nat N)%Z ->
      dim_get d name stage = Ok (last_value ops name stage 0%Z).
Proof.
  intros H. destruct (run_sets_spec ops (dim_create N junk)) as [d [E [HN [HC [V _]]]]].
  - apply Forall_forall. intros o Ho. exact (H o Ho).
  - exists d. split; [exact E|]. intros name stage Hn Hs.
    destruct (in_settable name Hn) as [f Hf].
    replace stage with (Z.of_nat (Z.to_nat stage)) by lia.
    rewrite (dim_get_known d name f _ Hf).
    assert (Hc : Z.to_nat stage <= N) by lia.
    rewrite dread_ok by (rewrite HC; exact Hc).
    rewrite (V name f (Z.to_nat stage) Hf Hc). rewrite create_zero by exact Hc. reflexivity.
Qed.
Print Assumptions C01_set_get_history.

(** C01, unknown names: exit(1), for set and for get, whatever the object, the stage and the value. *)
Theorem C01_unknown_name_exits (name : string) :
  nonul name = true -> ~ In name known_names ->
  (forall s v d, dim_set name s v d = Exit) /\ (forall d s, dim_get d name s = Exit).
Proof. exact (unknown_exit name). Qed.
Print Assumptions C01_unknown_name_exits.

(** C01, the stage is not range-checked: setting nx at stage N+1 returns normally and overwrites nu at stage 0. *)
Theorem C01_out_of_range_stage_corrupts (N : nat) (junk : nat -> Z) (v : Z) :
  exists d, dim_set "nx" (Z.of_nat N + 1) v (dim_create N junk) = Ok d /\ dim_get d "nu" 0 = Ok v.
Proof.
  unfold dim_set. cbn [hpipm_strcmp]. change (hpipm_strcmp "nx" "nx") with true. cbn iota.
  unfold dim_set_plain, dwrite, daddr. cbn [fidx dcap dim_create].
  assert (E : (Z.of_nat 0 * (Z.of_nat N + 1) + (Z.of_nat N + 1))%Z = Z.of_nat (N + 1)) by lia.
  rewrite E.
  destruct (Z.leb_spec 0 (Z.of_nat (N + 1))); [|lia].
  destruct (Z.ltb_spec (Z.of_nat (N + 1)) (10 * (Z.of_nat N + 1))); [|lia]. cbn [andb].
  eexists. split; [reflexivity|].
  rewrite (dim_get_known _ "nu" Fnu) by (simpl; tauto).
  change 0%Z with (Z.of_nat 0) at 1. rewrite dread_ok by (cbn; lia).
  unfold rdv. cbn [fidx dcap dmem]. rewrite Nat2Z.id. f_equal.
  replace (1 * (N + 1) + 0) with (N + 1) by lia. apply upd_same.
Qed.
Print Assumptions C01_out_of_range_stage_corrupts.

(** Concrete instance: N=2, a history with overwrites on an initially dirty buffer. *)
Example C01_nontrivial :
  let ops := [mkset "nx" 1 4; mkset "nbx" 1 3; mkset "nx" 1 5; mkset "nbu" 2 7]%Z in
  (forall o, In o ops -> In (so_name o) known_names /\ (0 <= so_stage o <= Z.of_nat 2)%Z) /\
  match run_sets ops (dim_create 2 (fun _ => 99%Z)) with
  | Ok d => dim_get d "nx" 1 = Ok 5%Z /\ dim_get d "nu" 1 = Ok 0%Z /\ dim_get d "nbx" 1 = Ok 3%Z /\ dim_nb d 1 = Ok 3%Z
  | _ => False
  end.
Proof.
  split.
  - intros o Ho. simpl in Ho. repeat destruct Ho as [<-|Ho]; try contradiction; (split; [simpl; tauto|simpl; lia]).
  - vm_compute. repeat split.
Qed.

(** C02. In every object reachable by create, set, set_all, copy_all, deepcopy (see [reachable], DimProofs.v):
    nb = nbx + nbu at every stage 0..N. *)
Theorem C02_nb_is_nbx_plus_nbu (d : dimobj) :
  reachable d ->
  forall s, (0 <= s <= dN d)%Z ->
    exists x u, dim_get d "nbx" s = Ok x /\ dim_get d "nbu" s = Ok u /\ dim_nb d s = Ok (x + u)%Z.
Proof.
  intros Hr s Hs. destruct (reachable_inv d Hr) as [HN Hinv].
  replace s with (Z.of_nat (Z.to_nat s)) by lia.
  exists (rdv d Fnbx (Z.to_nat s)), (rdv d Fnbu (Z.to_nat s)).
  rewrite (dim_get_known _ "nbx" Fnbx) by (simpl; tauto). rewrite (dim_get_known _ "nbu" Fnbu) by (simpl; tauto).
  unfold dim_nb. rewrite !dread_ok by lia. rewrite Hinv by lia. repeat split.
Qed.
Print Assumptions C02_nb_is_nbx_plus_nbu.

Example C02_nontrivial : exists d, reachable d /\ dN d = 3%Z /\ dim_nb d 2 = Ok 9%Z.
Proof.
  destruct (dim_set "nbx" 2 4 (dim_create 3 (fun _ => 5%Z))) as [d1| |] eqn:E1; try discriminate.
  destruct (dim_set "nbu" 2 5 d1) as [d2| |] eqn:E2.
  - exists d2. split; [|split].
    + eapply reach_set; [eapply reach_set; [apply reach_create| |exact E1]| |exact E2]; simpl; [lia|].
      assert (dN d1 = 3%Z) by (vm_compute in E1; injection E1 as <-; reflexivity). lia.
    + vm_compute in E1. injection E1 as <-. vm_compute in E2. injection E2 as <-. reflexivity.
    + vm_compute in E1. injection E1 as <-. vm_compute in E2. injection E2 as <-. reflexivity.
  - vm_compute in E1. injection E1 as <-. vm_compute in E2. discriminate.
  - vm_compute in E1. injection E1 as <-. vm_compute in E2. discriminate.
Qed.

(** C03. copy_all: for any two objects with equal N (with or without runtime checks) every get on the
    destination returns what get on the source returns; deepcopy does so for every destination whose
    buffer was created for at least that horizon, and also copies N.  (The model passes objects by value: the
    source cannot change and later sets on it cannot reach the destination.) *)
Theorem C03_copy_complete (rc : bool) (src dst : dimobj) :
  reachable src -> reachable dst -> dN src = dN dst ->
  exists d', dim_copy_all rc src dst = Ok d' /\ dN d' = dN src /\
    (forall s, (0 <= s <= dN src)%Z ->
       (forall name, In name known_names -> dim_get d' name s = dim_get src name s) /\ dim_nb d' s = dim_nb src s).
Proof.
  intros Hs Hd HN. destruct (reachable_inv _ Hs) as [Ns _]. destruct (reachable_inv _ Hd) as [Nd _].
  unfold dim_copy_all. rewrite <- HN, Z.eqb_refl, Bool.andb_false_r.
  destruct (dim_copy_fields_spec (Z.to_nat (dN src)) src ltac:(lia) all_fields dst ltac:(lia) all_fields_nodup)
    as [d1 [E1 [N1 [C1 [V1 F1]]]]].
  rewrite Z2Nat.id in E1 by lia.
  exists d1. split; [exact E1|]. split; [congruence|]. intros s Hr.
  replace s with (Z.of_nat (Z.to_nat s)) by lia. split.
  - intros name Hn. destruct (in_settable name Hn) as [f Hf].
    rewrite !(dim_get_known _ name f _ Hf). rewrite !dread_ok by lia. f_equal. apply V1; [apply all_fields_all|lia].
  - unfold dim_nb. rewrite !dread_ok by lia. f_equal. apply V1; [apply all_fields_all|lia].
Qed.
Print Assumptions C03_copy_complete.

Theorem C03_deepcopy_complete (src dst : dimobj) :
  reachable src -> (dN src <= Z.of_nat (dcap dst))%Z ->
  exists d', dim_deepcopy src dst = Ok d' /\ dN d' = dN src /\
    (forall s, (0 <= s <= dN src)%Z ->
       (forall name, In name known_names -> dim_get d' name s = dim_get src name s) /\ dim_nb d' s = dim_nb src s).
Proof.
  intros Hs HN. destruct (reachable_inv _ Hs) as [Ns _].
  unfold dim_deepcopy.
  destruct (dim_copy_fields_spec (Z.to_nat (dN src)) src ltac:(lia) all_fields
     (mkdim (dN src) (dcap dst) (dmem dst)) ltac:(simpl; lia) all_fields_nodup)
    as [d1 [E1 [N1 [C1 [V1 F1]]]]].
  rewrite Z2Nat.id in E1 by lia.
  cbn [dN dcap] in N1, C1.
  exists d1. split; [exact E1|]. split; [exact N1|]. intros s Hr.
  replace s with (Z.of_nat (Z.to_nat s)) by lia. split.
  - intros name Hn. destruct (in_settable name Hn) as [f Hf].
    rewrite !(dim_get_known _ name f _ Hf). rewrite !dread_ok by lia. f_equal. apply V1; [apply all_fields_all|lia].
  - unfold dim_nb. rewrite !dread_ok by lia. f_equal. apply V1; [apply all_fields_all|lia].
Qed.
Print Assumptions C03_deepcopy_complete.

(** With RUNTIME_CHECKS a copy between different horizons exits instead of copying. *)
Theorem C03_copy_horizon_checked (src dst : dimobj) :
  dN src <> dN dst -> dim_copy_all true src dst = Exit.
Proof.
  intros H. unfold dim_copy_all. destruct (Z.eqb_spec (dN src) (dN dst)); [contradiction|reflexivity].
Qed.
Print Assumptions C03_copy_horizon_checked.

Example C03_nontrivial : exists src dst, reachable src /\ reachable dst /\ dN src = dN dst /\
  match dim_copy_all true src dst with
  | Ok d' => dim_get d' "nge" 2 = Ok 6%Z /\ dim_get dst "nge" 2 = Ok 0%Z
  | _ => False
  end.
Proof.
  assert (E : exists src, dim_set "nge" 2 6 (dim_create 2 (fun _ => 5%Z)) = Ok src) by (eexists; reflexivity).
  destruct E as [src E1].
  exists src, (dim_create 2 (fun _ => 8%Z)).
  assert (R : reachable src) by (eapply reach_set; [apply reach_create| |exact E1]; simpl; lia).
  split; [exact R|]. split; [apply reach_create|].
  injection E1 as <-. split; [reflexivity|]. vm_compute. split; reflexivity.
Qed.
