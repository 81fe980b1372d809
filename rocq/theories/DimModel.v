(** DimModel.v -- model of ocp_qp/x_ocp_qp_dim.c (struct OCP_QP_DIM and its public functions). *)
From Coq Require Import ZArith Lia List Bool Arith String.
From Verif Require Import Base AuxModel.
Import ListNotations.
Open Scope string_scope.

(** The ten arrays, numbered in the order in which OCP_QP_DIM_CREATE carves them
    (ocp_qp/x_ocp_qp_dim.c lines 72-101). *)
Inductive dfield := Fnx | Fnu | Fnb | Fnbx | Fnbu | Fng | Fns | Fnbxe | Fnbue | Fnge.
Definition fidx (f : dfield) : nat :=
  match f with Fnx => 0 | Fnu => 1 | Fnb => 2 | Fnbx => 3 | Fnbu => 4 | Fng => 5 | Fns => 6
             | Fnbxe => 7 | Fnbue => 8 | Fnge => 9 end.
Definition all_fields : list dfield := [Fnx; Fnu; Fnb; Fnbx; Fnbu; Fng; Fns; Fnbxe; Fnbue; Fnge].

(** struct OCP_QP_DIM: N, and the ten int pointers into one caller-provided buffer.
    [dcap] is the N passed to create (it fixes the distance between the pointers);
    [dmem] is the buffer seen as an array of 10*(dcap+1) ints. *)
Record dimobj := mkdim { dN : Z; dcap : nat; dmem : nat -> Z }.

(** number of ints of the buffer: OCP_QP_DIM_MEMSIZE, lines 45-56: size = 10*(N+1)*sizeof(int),
    rounded up to a multiple of 8 bytes (it already is one). *)
Definition dim_memsize (N : nat) : nat := (10 * (N + 1) * 4 + 8 - 1) / 8 * 8.

(** ptr[stage] for the array of field f: element f*(cap+1)+stage of the buffer.
    Outside the 10*(cap+1) ints the access is out of bounds. *)
Definition daddr (d : dimobj) (f : dfield) (stage : Z) : Z :=
  (Z.of_nat (fidx f) * (Z.of_nat (dcap d) + 1) + stage)%Z.
Definition dread (d : dimobj) (f : dfield) (stage : Z) : outcome Z :=
  let a := daddr d f stage in
  if andb (Z.leb 0 a) (Z.ltb a (10 * (Z.of_nat (dcap d) + 1))) then Ok (dmem d (Z.to_nat a)) else UB.
Definition dwrite (d : dimobj) (f : dfield) (stage : Z) (v : Z) : outcome dimobj :=
  let a := daddr d f stage in
  if andb (Z.leb 0 a) (Z.ltb a (10 * (Z.of_nat (dcap d) + 1)))
  then Ok (mkdim (dN d) (dcap d) (upd (dmem d) (Z.to_nat a) v)) else UB.

(** OCP_QP_DIM_CREATE, lines 60-113: memory zeroed with hpipm_zero_memset (bytes; here ints), N stored. *)
Definition dim_create (N : nat) (junk : nat -> Z) : dimobj :=
  mkdim (Z.of_nat N) N (vset junk 0 (dim_memsize N / 4) (fun _ => 0%Z)).

(** OCP_QP_DIM_SET_NX ... _NGE, lines 245-315. *)
Definition dim_set_plain (f : dfield) (stage value : Z) (d : dimobj) : outcome dimobj :=
  dwrite d f stage value.
(** lines 261-275: SET_NBX and SET_NBU also refresh nb[stage] = nbx[stage]+nbu[stage]. *)
Definition dim_set_nb_part (f : dfield) (stage value : Z) (d : dimobj) : outcome dimobj :=
  let! d1 := dwrite d f stage value in
  let! x := dread d1 Fnbx stage in
  let! u := dread d1 Fnbu stage in
  dwrite d1 Fnb stage (x + u)%Z.

(** OCP_QP_DIM_SET, lines 195-241: string dispatch, exit(1) on an unknown name. *)
Definition dim_set (name : string) (stage value : Z) (d : dimobj) : outcome dimobj :=
  if hpipm_strcmp name "nx" then dim_set_plain Fnx stage value d
  else if hpipm_strcmp name "nu" then dim_set_plain Fnu stage value d
  else if hpipm_strcmp name "nbx" then dim_set_nb_part Fnbx stage value d
  else if hpipm_strcmp name "nbu" then dim_set_nb_part Fnbu stage value d
  else if hpipm_strcmp name "ng" then dim_set_plain Fng stage value d
  else if hpipm_strcmp name "ns" then dim_set_plain Fns stage value d
  else if hpipm_strcmp name "nbxe" then dim_set_plain Fnbxe stage value d
  else if hpipm_strcmp name "nbue" then dim_set_plain Fnbue stage value d
  else if hpipm_strcmp name "nge" then dim_set_plain Fnge stage value d
  else Exit.

(** OCP_QP_DIM_GET, lines 350-396 (and _GET_NX..., lines 408-475). *)
Definition dim_get (d : dimobj) (name : string) (stage : Z) : outcome Z :=
  if hpipm_strcmp name "nx" then dread d Fnx stage
  else if hpipm_strcmp name "nu" then dread d Fnu stage
  else if hpipm_strcmp name "nbx" then dread d Fnbx stage
  else if hpipm_strcmp name "nbu" then dread d Fnbu stage
  else if hpipm_strcmp name "ng" then dread d Fng stage
  else if hpipm_strcmp name "ns" then dread d Fns stage
  else if hpipm_strcmp name "nbxe" then dread d Fnbxe stage
  else if hpipm_strcmp name "nbue" then dread d Fnbue stage
  else if hpipm_strcmp name "nge" then dread d Fnge stage
  else Exit.

(** for(ii=0; ii<=N; ii++) dst->f[ii] = g(ii), with N an int (no iteration if N<0). *)
Definition dim_fill (N : Z) (f : dfield) (g : Z -> outcome Z) (d : dimobj) : outcome dimobj :=
  oloop (Z.to_nat (N + 1)) (fun k d' => let! v := g (Z.of_nat k) in dwrite d' f (Z.of_nat k) v) d.

(** One such loop per array, in the order of the C text. *)
Fixpoint dim_copy_fields (N : Z) (fs : list dfield) (src : dimobj) (d : dimobj) : outcome dimobj :=
  match fs with
  | [] => Ok d
  | f :: r => let! d' := dim_fill N f (fun s => dread src f s) d in dim_copy_fields N r src d'
  end.

(** OCP_QP_DIM_COPY_ALL, lines 116-159. [rc] = compiled with RUNTIME_CHECKS.
    Source and destination are distinct objects. *)
Definition dim_copy_all (rc : bool) (src dst : dimobj) : outcome dimobj :=
  if andb rc (negb (Z.eqb (dN src) (dN dst))) then Exit
  else dim_copy_fields (dN src) all_fields src dst.

(** OCP_QP_DIM_DEEPCOPY, lines 319-346: also copies N. *)
Definition dim_deepcopy (src dst : dimobj) : outcome dimobj :=
  dim_copy_fields (dN src) all_fields src (mkdim (dN src) (dcap dst) (dmem dst)).

(** OCP_QP_DIM_SET_ALL, lines 164-191: seven loops; nb from nbx+nbu; nbxe, nbue, nge not touched.
    The user arrays are total functions (they must have at least N+1 entries). *)
Definition dim_set_all (nx nu nbx nbu ng ns : Z -> Z) (d : dimobj) : outcome dimobj :=
  let N := dN d in
  let! d := dim_fill N Fnx (fun s => Ok (nx s)) d in
  let! d := dim_fill N Fnu (fun s => Ok (nu s)) d in
  let! d := dim_fill N Fnb (fun s => Ok (nbx s + nbu s)%Z) d in
  let! d := dim_fill N Fnbx (fun s => Ok (nbx s)) d in
  let! d := dim_fill N Fnbu (fun s => Ok (nbu s)) d in
  let! d := dim_fill N Fng (fun s => Ok (ng s)) d in
  dim_fill N Fns (fun s => Ok (ns s)) d.

(** Reading the nb array (dim->nb[stage], used by every memsize function). *)
Definition dim_nb (d : dimobj) (stage : Z) : outcome Z := dread d Fnb stage.
