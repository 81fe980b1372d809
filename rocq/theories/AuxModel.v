(** AuxModel.v -- model of auxiliary/aux_string.c and auxiliary/aux_mem.c. *)
From Coq Require Import ZArith Lia List Bool Arith String Ascii.
From Verif Require Import Base.
Import ListNotations.

(** A C string object: the bytes readable from the pointer on, up to the end of the object.
    Reading past the object is undefined behaviour. *)
Definition rd (s : list Z) (i : nat) : outcome Z :=
  match nth_error s i with Some c => Ok c | None => UB end.

(** auxiliary/aux_string.c lines 36-45, hpipm_strcmp: the while loop
      while(str1[i] == str2[i] & str1[i] != '\0') i++;
    (bitwise &: both operands are evaluated) followed by the two comparisons.
    Fuel bounds the number of loop tests; out of fuel is reported as [None]. *)
Fixpoint strcmp_from (fuel : nat) (s1 s2 : list Z) (i : nat) : option (outcome Z) :=
  match fuel with
  | O => None
  | S fuel' =>
      match rd s1 i, rd s2 i with
      | Ok c1, Ok c2 =>
          if andb (Z.eqb c1 c2) (negb (Z.eqb c1 0))
          then strcmp_from fuel' s1 s2 (S i)
          else if orb (Z.ltb c2 c1) (Z.ltb c1 c2) then Some (Ok 0%Z) else Some (Ok 1%Z)
      | _, _ => Some UB
      end
  end.

(** auxiliary/aux_string.c lines 36-45. Fuel = one test per readable byte, plus one. *)
Definition hpipm_strcmp_c (s1 s2 : list Z) : option (outcome Z) :=
  strcmp_from (S (List.length s1)) s1 s2 0.

(** Bytes of a Coq string literal as a C string (terminating NUL appended). *)
Fixpoint bytes_of (s : string) : list Z :=
  match s with
  | EmptyString => []
  | String c r => Z.of_nat (nat_of_ascii c) :: bytes_of r
  end.
Definition cstr (s : string) : list Z := bytes_of s ++ [0%Z].

(** What   if(hpipm_strcmp(field, "lit"))   tests in every dispatch function. *)
Definition hpipm_strcmp (a b : string) : bool :=
  match hpipm_strcmp_c (cstr a) (cstr b) with
  | Some (Ok 1%Z) => true
  | _ => false
  end.

(** Byte memory. *)
Definition bytes := nat -> Z.

(** double_ptr[ii] = 0.0 : all 8 bytes of +0.0 are zero. *)
Definition store_double0 (m : bytes) (ii : nat) : bytes := vset m (8 * ii) 8 (fun _ => 0%Z).

(** auxiliary/aux_mem.c lines 68-81 (TARGET_AVX off):
      for(; ii<memsize_m8-7; ii+=8) { double_ptr[ii+0]=0.0; ... double_ptr[ii+7]=0.0; }
    executed only if memsize_m8>7 (so memsize_m8-7 does not wrap around as size_t). *)
Fixpoint memset_unrolled (fuel : nat) (m8 : nat) (st : nat * bytes) : option (nat * bytes) :=
  match fuel with
  | O => None
  | S fuel' =>
      let '(ii, m) := st in
      if Nat.ltb ii (m8 - 7)
      then memset_unrolled fuel' m8
             (ii + 8, loop 8 (fun k mm => store_double0 mm (ii + k)) m)
      else Some (ii, m)
  end.

(** auxiliary/aux_mem.c lines 54-66 (TARGET_AVX): two 32-byte stores per iteration. *)
Definition store_4double0 (m : bytes) (ii : nat) : bytes := vset m (8 * ii) 32 (fun _ => 0%Z).
Fixpoint memset_unrolled_avx (fuel : nat) (m8 : nat) (st : nat * bytes) : option (nat * bytes) :=
  match fuel with
  | O => None
  | S fuel' =>
      let '(ii, m) := st in
      if Nat.ltb ii (m8 - 7)
      then memset_unrolled_avx fuel' m8 (ii + 8, store_4double0 (store_4double0 m (ii + 0)) (ii + 4))
      else Some (ii, m)
  end.

(** auxiliary/aux_mem.c lines 83-86: for(; ii<memsize_m8; ii++) double_ptr[ii] = 0.0; *)
Fixpoint memset_doubles (fuel : nat) (m8 : nat) (st : nat * bytes) : option (nat * bytes) :=
  match fuel with
  | O => None
  | S fuel' =>
      let '(ii, m) := st in
      if Nat.ltb ii m8 then memset_doubles fuel' m8 (ii + 1, store_double0 m ii)
      else Some (ii, m)
  end.

(** auxiliary/aux_mem.c lines 47-93, hpipm_zero_memset. [avx] selects the preprocessor branch. *)
Definition hpipm_zero_memset (avx : bool) (memsize : nat) (m : bytes) : option bytes :=
  let m8 := memsize / 8 in
  let r8 := memsize mod 8 in
  let unrolled := if avx then memset_unrolled_avx else memset_unrolled in
  match (if Nat.ltb 7 m8 then unrolled (S m8) m8 (0, m) else Some (0, m)) with
  | None => None
  | Some st1 =>
      match memset_doubles (S m8) m8 st1 with
      | None => None
      | Some (ii, m2) =>
          (* char_ptr points to double_ptr[ii]; for(k<r8) char_ptr[k]=0 *)
          Some (loop r8 (fun k mm => upd mm (8 * ii + k) 0%Z) m2)
      end
  end.
