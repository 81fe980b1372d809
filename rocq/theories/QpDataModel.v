(** QpDataModel.v -- the OCP QP data object: create, field setters and getters, string dispatch, set_all, set_all_zero,
    set_rhs_zero, copy_all (ocp_qp/x_ocp_qp.c). *)
From Coq Require Import ZArith Bool Arith String.
From Verif Require Import Base ArithF Blas AuxModel OcpModel.

(** The dimensions (include/hpipm_d_ocp_qp_dim.h lines 47-61); nb = nbx+nbu is invariant (property C02). *)
Record xdim := mkxdim { xN : nat; xnx : nat -> nat; xnu : nat -> nat; xnbx : nat -> nat; xnbu : nat -> nat; xng : nat -> nat;
  xns : nat -> nat; xnbxe : nat -> nat; xnbue : nat -> nat; xnge : nat -> nat }.
Definition xnb (D : xdim) (i : nat) : nat := xnbx D i + xnbu D i.
Definition xnct (D : xdim) (i : nat) : nat := 2 * xnb D i + 2 * xng D i + 2 * xns D i.

(** struct OCP_QP (include/hpipm_d_ocp_qp.h lines 54-71).  Each vector / matrix of each stage is a separate array
    (their disjointness in memory is property C07). *)
Record qpd (F : Type) := mkqpd { p_BAbt : nat -> nat -> nat -> F; p_RSQ : nat -> nat -> nat -> F; p_DCt : nat -> nat -> nat -> F;
  p_b : nat -> nat -> F; p_rqz : nat -> nat -> F; p_d : nat -> nat -> F; p_mask : nat -> nat -> F; p_m : nat -> nat -> F; p_Z : nat -> nat -> F;
  p_idxb : nat -> nat -> Z; p_idxs_rev : nat -> nat -> Z; p_idxe : nat -> nat -> Z; p_diag : nat -> Z }.
Arguments mkqpd {F}. Arguments p_BAbt {F}. Arguments p_RSQ {F}. Arguments p_DCt {F}. Arguments p_b {F}. Arguments p_rqz {F}. Arguments p_d {F}.
Arguments p_mask {F}. Arguments p_m {F}. Arguments p_Z {F}. Arguments p_idxb {F}. Arguments p_idxs_rev {F}. Arguments p_idxe {F}. Arguments p_diag {F}.

(** Names of the REAL-valued fields with a setter (the C functions OCP_QP_SET_xxx). *)
Inductive rfield := FA | FB | Fb | FQ | FS | FR | Fq | Fr | FC | FD
| Flb | Flbu | Flbx | Fub | Fubu | Fubx | Flg | Fug | Flls | Flus
| Flb_mask | Flbu_mask | Flbx_mask | Fub_mask | Fubu_mask | Fubx_mask | Flg_mask | Fug_mask | Flls_mask | Flus_mask
| FZl | FZu | Fzl | Fzu
| Fm_lb | Fm_lbu | Fm_lbx | Fm_ub | Fm_ubu | Fm_ubx | Fm_lg | Fm_ug | Fm_lls | Fm_lus.
(** integer-valued fields, and 0/1 selection matrices given as REAL *)
Inductive ifield := Iidxb | Iidxbx | Iidxbu | Iidxs | Iidxs_rev | Iidxe | Iidxbue | Iidxbxe | Iidxge.
Inductive jfield := Jbx | Jbu | Jsbu | Jsbx | Jsg | Jbue | Jbxe | Jge.

Section Data.
Context {F : Type} {AF : Arith F}.
Local Open Scope F_scope.
Notation vec := (nat -> F).
Notation mat := (nat -> nat -> F).

(** BLASFEO conversion routines between column-major user arrays and its own storage.
    PACK_MAT(m,n,A,lda,sB,bi,bj): B(bi+i,bj+j) = A[i+j*lda];  PACK_TRAN_MAT: B(bi+j,bj+i) = A[i+j*lda];
    PACK_VEC(n,x,1,sy,yi): y(yi+i) = x[i];  CVT_STRMAT2MAT(m,n,sA,ai,aj,B,ldb): B[i+j*ldb] = A(ai+i,aj+j);
    CVT_TRAN_STRMAT2MAT: B[j+i*ldb] = A(ai+i,aj+j);  UNPACK_VEC(n,sx,xi,y,1): y[i] = x(xi+i). *)
Definition PACK_MAT (m n : nat) (A : vec) (lda : nat) (B : mat) (bi bj : nat) : mat := mblk B bi bj m n (fun i j => A (i + j * lda)%nat).
Definition PACK_TRAN_MAT (m n : nat) (A : vec) (lda : nat) (B : mat) (bi bj : nat) : mat := mblk B bi bj n m (fun j i => A (i + j * lda)%nat).
Definition PACK_VEC (n : nat) (x : vec) (y : vec) (yi : nat) : vec := vset y yi n x.
Definition CVT_STRMAT2MAT (m n : nat) (A : mat) (ai aj : nat) (B : vec) (ldb : nat) : vec :=
  fun p => let i := (p mod ldb)%nat in let j := (p / ldb)%nat in if andb (Nat.ltb i m) (Nat.ltb j n) then A (ai + i)%nat (aj + j)%nat else B p.
Definition CVT_TRAN_STRMAT2MAT (m n : nat) (A : mat) (ai aj : nat) (B : vec) (ldb : nat) : vec :=
  fun p => let j := (p mod ldb)%nat in let i := (p / ldb)%nat in if andb (Nat.ltb i m) (Nat.ltb j n) then A (ai + i)%nat (aj + j)%nat else B p.
Definition UNPACK_VEC (n : nat) (x : vec) (xi : nat) (y : vec) : vec := vset y 0 n (fun i => x (xi + i)%nat).
(** for(i=0; i<n; i++) y[i] = -y[i]; *)
Definition neg_loop (n : nat) (y : vec) : vec := loop n (fun i y => upd y i (- y i)) y.

(** in-place update of one array of one stage *)
Definition w_BAbt (i : nat) (g : mat -> mat) (p : qpd F) := mkqpd (upd (p_BAbt p) i (g (p_BAbt p i))) (p_RSQ p) (p_DCt p) (p_b p) (p_rqz p) (p_d p) (p_mask p) (p_m p) (p_Z p) (p_idxb p) (p_idxs_rev p) (p_idxe p) (p_diag p).
Definition w_RSQ (i : nat) (g : mat -> mat) (p : qpd F) := mkqpd (p_BAbt p) (upd (p_RSQ p) i (g (p_RSQ p i))) (p_DCt p) (p_b p) (p_rqz p) (p_d p) (p_mask p) (p_m p) (p_Z p) (p_idxb p) (p_idxs_rev p) (p_idxe p) (p_diag p).
Definition w_DCt (i : nat) (g : mat -> mat) (p : qpd F) := mkqpd (p_BAbt p) (p_RSQ p) (upd (p_DCt p) i (g (p_DCt p i))) (p_b p) (p_rqz p) (p_d p) (p_mask p) (p_m p) (p_Z p) (p_idxb p) (p_idxs_rev p) (p_idxe p) (p_diag p).
Definition w_b (i : nat) (g : vec -> vec) (p : qpd F) := mkqpd (p_BAbt p) (p_RSQ p) (p_DCt p) (upd (p_b p) i (g (p_b p i))) (p_rqz p) (p_d p) (p_mask p) (p_m p) (p_Z p) (p_idxb p) (p_idxs_rev p) (p_idxe p) (p_diag p).
Definition w_rqz (i : nat) (g : vec -> vec) (p : qpd F) := mkqpd (p_BAbt p) (p_RSQ p) (p_DCt p) (p_b p) (upd (p_rqz p) i (g (p_rqz p i))) (p_d p) (p_mask p) (p_m p) (p_Z p) (p_idxb p) (p_idxs_rev p) (p_idxe p) (p_diag p).
Definition w_d (i : nat) (g : vec -> vec) (p : qpd F) := mkqpd (p_BAbt p) (p_RSQ p) (p_DCt p) (p_b p) (p_rqz p) (upd (p_d p) i (g (p_d p i))) (p_mask p) (p_m p) (p_Z p) (p_idxb p) (p_idxs_rev p) (p_idxe p) (p_diag p).
Definition w_mask (i : nat) (g : vec -> vec) (p : qpd F) := mkqpd (p_BAbt p) (p_RSQ p) (p_DCt p) (p_b p) (p_rqz p) (p_d p) (upd (p_mask p) i (g (p_mask p i))) (p_m p) (p_Z p) (p_idxb p) (p_idxs_rev p) (p_idxe p) (p_diag p).
Definition w_m (i : nat) (g : vec -> vec) (p : qpd F) := mkqpd (p_BAbt p) (p_RSQ p) (p_DCt p) (p_b p) (p_rqz p) (p_d p) (p_mask p) (upd (p_m p) i (g (p_m p i))) (p_Z p) (p_idxb p) (p_idxs_rev p) (p_idxe p) (p_diag p).
Definition w_Z (i : nat) (g : vec -> vec) (p : qpd F) := mkqpd (p_BAbt p) (p_RSQ p) (p_DCt p) (p_b p) (p_rqz p) (p_d p) (p_mask p) (p_m p) (upd (p_Z p) i (g (p_Z p i))) (p_idxb p) (p_idxs_rev p) (p_idxe p) (p_diag p).
Definition w_idxb (i : nat) (g : (nat -> Z) -> nat -> Z) (p : qpd F) := mkqpd (p_BAbt p) (p_RSQ p) (p_DCt p) (p_b p) (p_rqz p) (p_d p) (p_mask p) (p_m p) (p_Z p) (upd (p_idxb p) i (g (p_idxb p i))) (p_idxs_rev p) (p_idxe p) (p_diag p).
Definition w_idxs (i : nat) (g : (nat -> Z) -> nat -> Z) (p : qpd F) := mkqpd (p_BAbt p) (p_RSQ p) (p_DCt p) (p_b p) (p_rqz p) (p_d p) (p_mask p) (p_m p) (p_Z p) (p_idxb p) (upd (p_idxs_rev p) i (g (p_idxs_rev p i))) (p_idxe p) (p_diag p).
Definition w_idxe (i : nat) (g : (nat -> Z) -> nat -> Z) (p : qpd F) := mkqpd (p_BAbt p) (p_RSQ p) (p_DCt p) (p_b p) (p_rqz p) (p_d p) (p_mask p) (p_m p) (p_Z p) (p_idxb p) (p_idxs_rev p) (upd (p_idxe p) i (g (p_idxe p i))) (p_diag p).
Definition w_diag (i : nat) (v : Z) (p : qpd F) := mkqpd (p_BAbt p) (p_RSQ p) (p_DCt p) (p_b p) (p_rqz p) (p_d p) (p_mask p) (p_m p) (p_Z p) (p_idxb p) (p_idxs_rev p) (p_idxe p) (upd (p_diag p) i v).

Variable D : xdim.
Notation nx := (xnx D). Notation nu := (xnu D). Notation nb := (xnb D). Notation nbx := (xnbx D). Notation nbu := (xnbu D).
Notation ng := (xng D). Notation ns := (xns D). Notation nbxe := (xnbxe D). Notation nbue := (xnbue D). Notation nge := (xnge D).

(** OCP_QP_CREATE, lines 117-372: all the memory is zeroed (lines 123-125), idxs_rev is set to -1 (lines 228-235) and
    d_mask to 1.0 (line 342). *)
Definition qp_create : qpd F :=
  mkqpd (fun _ _ _ => f0) (fun _ _ _ => f0) (fun _ _ _ => f0) (fun _ _ => f0) (fun _ _ => f0) (fun _ _ => f0)
    (fun i => VECSE (xnct D i) f1 (fun _ => f0) 0) (fun _ _ => f0) (fun _ _ => f0)
    (fun _ _ => 0%Z) (fun i => vset (fun _ => 0%Z) 0 (nb i + ng i) (fun _ => (-1)%Z)) (fun _ _ => 0%Z) (fun _ => 0%Z).

(** The REAL setters; line numbers of the C function at each case. *)
Definition set_r (f : rfield) (s : nat) (v : vec) (p : qpd F) : qpd F :=
  match f with
  | FA => w_BAbt s (fun M => PACK_TRAN_MAT (nx (s+1)) (nx s) v (nx (s+1)) M (nu s) 0) p (* 1035-1044 *)
  | FB => w_BAbt s (fun M => PACK_TRAN_MAT (nx (s+1)) (nu s) v (nx (s+1)) M 0 0) p (* 1048-1057 *)
  | Fb => w_b s (fun x => PACK_VEC (nx (s+1)) v x 0) (w_BAbt s (fun M => PACK_TRAN_MAT (nx (s+1)) 1 v (nx (s+1)) M (nu s + nx s) 0) p) (* 1061-1071 *)
  | FQ => w_RSQ s (fun M => PACK_MAT (nx s) (nx s) v (nx s) M (nu s) (nu s)) p (* 1075-1084 *)
  | FS => w_RSQ s (fun M => PACK_TRAN_MAT (nu s) (nx s) v (nu s) M (nu s) 0) p (* 1088-1097 *)
  | FR => w_RSQ s (fun M => PACK_MAT (nu s) (nu s) v (nu s) M 0 0) p (* 1101-1110 *)
  | Fq => w_rqz s (fun x => PACK_VEC (nx s) v x (nu s)) (w_RSQ s (fun M => PACK_TRAN_MAT (nx s) 1 v (nx s) M (nu s + nx s) (nu s)) p) (* 1114-1124 *)
  | Fr => w_rqz s (fun x => PACK_VEC (nu s) v x 0) (w_RSQ s (fun M => PACK_TRAN_MAT (nu s) 1 v (nu s) M (nu s + nx s) 0) p) (* 1128-1138 *)
  | FC => w_DCt s (fun M => PACK_TRAN_MAT (ng s) (nx s) v (ng s) M (nu s) 0) p (* 1427-1437 *)
  | FD => w_DCt s (fun M => PACK_TRAN_MAT (ng s) (nu s) v (ng s) M 0 0) p (* 1441-1450 *)
  | Flb => w_d s (fun x => PACK_VEC (nb s) v x 0) p (* 1142 *)
  | Flbu => w_d s (fun x => PACK_VEC (nbu s) v x 0) p (* 1204 *)
  | Flbx => w_d s (fun x => PACK_VEC (nbx s) v x (nbu s)) p (* 1166 *)
  | Fub => w_d s (fun x => VECSC (nb s) (- f1) (PACK_VEC (nb s) v x (nb s + ng s)) (nb s + ng s)) p (* 1228 *)
  | Fubu => w_d s (fun x => VECSC (nbu s) (- f1) (PACK_VEC (nbu s) v x (nb s + ng s)) (nb s + ng s)) p (* 1300 *)
  | Fubx => w_d s (fun x => VECSC (nbx s) (- f1) (PACK_VEC (nbx s) v x (nb s + ng s + nbu s)) (nb s + ng s + nbu s)) p (* 1255 *)
  | Flg => w_d s (fun x => PACK_VEC (ng s) v x (nb s)) p (* 1454 *)
  | Fug => w_d s (fun x => VECSC (ng s) (- f1) (PACK_VEC (ng s) v x (2 * nb s + ng s)) (2 * nb s + ng s)) p (* 1480 *)
  | Flls => w_d s (fun x => PACK_VEC (ns s) v x (2 * nb s + 2 * ng s)) p (* 1682 *)
  | Flus => w_d s (fun x => PACK_VEC (ns s) v x (2 * nb s + 2 * ng s + ns s)) p (* 1710 *)
  | Flb_mask => w_mask s (fun x => PACK_VEC (nb s) v x 0) p (* 1154 *)
  | Flbu_mask => w_mask s (fun x => PACK_VEC (nbu s) v x 0) p (* 1216 *)
  | Flbx_mask => w_mask s (fun x => PACK_VEC (nbx s) v x (nbu s)) p (* 1191 *)
  | Fub_mask => w_mask s (fun x => PACK_VEC (nb s) v x (nb s + ng s)) p (* 1242 *)
  | Fubu_mask => w_mask s (fun x => PACK_VEC (nbu s) v x (nb s + ng s)) p (* 1315 *)
  | Fubx_mask => w_mask s (fun x => PACK_VEC (nbx s) v x (nb s + ng s + nbu s)) p (* 1285 *)
  | Flg_mask => w_mask s (fun x => PACK_VEC (ng s) v x (nb s)) p (* 1467 *)
  | Fug_mask => w_mask s (fun x => PACK_VEC (ng s) v x (2 * nb s + ng s)) p (* 1494 *)
  | Flls_mask => w_mask s (fun x => PACK_VEC (ns s) v x (2 * nb s + 2 * ng s)) p (* 1696 *)
  | Flus_mask => w_mask s (fun x => PACK_VEC (ns s) v x (2 * nb s + 2 * ng s + ns s)) p (* 1724 *)
  | FZl => w_Z s (fun x => PACK_VEC (ns s) v x 0) p (* 1507 *)
  | FZu => w_Z s (fun x => PACK_VEC (ns s) v x (ns s)) p (* 1519 *)
  | Fzl => w_rqz s (fun x => PACK_VEC (ns s) v x (nu s + nx s)) p (* 1531 *)
  | Fzu => w_rqz s (fun x => PACK_VEC (ns s) v x (nu s + nx s + ns s)) p (* 1545 *)
  | Fm_lb => w_m s (fun x => PACK_VEC (nb s) v x 0) p (* 1902 *)
  | Fm_lbx => w_m s (fun x => PACK_VEC (nbx s) v x (nbu s)) p (* 1914 *)
  | Fm_lbu => w_m s (fun x => PACK_VEC (nbu s) v x 0) p (* 1927 *)
  | Fm_ub => w_m s (fun x => PACK_VEC (nb s) v x (nb s + ng s)) p (* 1939 *)
  | Fm_ubx => w_m s (fun x => PACK_VEC (nbx s) v x (nb s + ng s + nbu s)) p (* 1952 *)
  | Fm_ubu => w_m s (fun x => PACK_VEC (nbu s) v x (nb s + ng s)) p (* 1967 *)
  | Fm_lg => w_m s (fun x => PACK_VEC (ng s) v x (nb s)) p (* 1981 *)
  | Fm_ug => w_m s (fun x => PACK_VEC (ng s) v x (2 * nb s + ng s)) p (* 1994 *)
  | Fm_lls => w_m s (fun x => PACK_VEC (ns s) v x (2 * nb s + 2 * ng s)) p (* 2007 *)
  | Fm_lus => w_m s (fun x => PACK_VEC (ns s) v x (2 * nb s + 2 * ng s + ns s)) p (* 2021 *)
  end.

(** OCP_QP_SET_EL_LBX 1179-1187, OCP_QP_SET_EL_UBX 1271-1281: one element *)
Definition set_el_lbx (s index : nat) (e : F) (p : qpd F) : qpd F := w_d s (fun x => upd x (nbu s + index) e) p.
Definition set_el_ubx (s index : nat) (e : F) (p : qpd F) : qpd F := w_d s (fun x => upd x (nb s + ng s + nbu s + index) (- e)) p.

(** The REAL getters 2064-2670 ([out] = previous contents of the user's array); the m_xxx fields have no getter in C:
    for them this reads the stored vector (struct field qp->m) with the same offsets. *)
Definition get_r (f : rfield) (s : nat) (p : qpd F) (out : vec) : vec :=
  match f with
  | FA => CVT_TRAN_STRMAT2MAT (nx s) (nx (s+1)) (p_BAbt p s) (nu s) 0 out (nx (s+1)) (* 2064 *)
  | FB => CVT_TRAN_STRMAT2MAT (nu s) (nx (s+1)) (p_BAbt p s) 0 0 out (nx (s+1)) (* 2077 *)
  | Fb => UNPACK_VEC (nx (s+1)) (p_b p s) 0 out
  | FQ => CVT_STRMAT2MAT (nx s) (nx s) (p_RSQ p s) (nu s) (nu s) out (nx s)
  | FS => CVT_TRAN_STRMAT2MAT (nx s) (nu s) (p_RSQ p s) (nu s) 0 out (nu s)
  | FR => CVT_STRMAT2MAT (nu s) (nu s) (p_RSQ p s) 0 0 out (nu s)
  | Fq => UNPACK_VEC (nx s) (p_rqz p s) (nu s) out
  | Fr => UNPACK_VEC (nu s) (p_rqz p s) 0 out
  | FC => CVT_TRAN_STRMAT2MAT (nx s) (ng s) (p_DCt p s) (nu s) 0 out (ng s)
  | FD => CVT_TRAN_STRMAT2MAT (nu s) (ng s) (p_DCt p s) 0 0 out (ng s)
  | Flb => UNPACK_VEC (nb s) (p_d p s) 0 out
  | Flbu => UNPACK_VEC (nbu s) (p_d p s) 0 out
  | Flbx => UNPACK_VEC (nbx s) (p_d p s) (nbu s) out
  | Fub => neg_loop (nb s) (UNPACK_VEC (nb s) (p_d p s) (nb s + ng s) out)
  | Fubu => neg_loop (nbu s) (UNPACK_VEC (nbu s) (p_d p s) (nb s + ng s) out)
  | Fubx => neg_loop (nbx s) (UNPACK_VEC (nbx s) (p_d p s) (nb s + ng s + nbu s) out)
  | Flg => UNPACK_VEC (ng s) (p_d p s) (nb s) out
  | Fug => neg_loop (ng s) (UNPACK_VEC (ng s) (p_d p s) (2 * nb s + ng s) out)
  | Flls => UNPACK_VEC (ns s) (p_d p s) (2 * nb s + 2 * ng s) out
  | Flus => UNPACK_VEC (ns s) (p_d p s) (2 * nb s + 2 * ng s + ns s) out
  | Flb_mask => UNPACK_VEC (nb s) (p_mask p s) 0 out
  | Flbu_mask => UNPACK_VEC (nbu s) (p_mask p s) 0 out
  | Flbx_mask => UNPACK_VEC (nbx s) (p_mask p s) (nbu s) out
  | Fub_mask => UNPACK_VEC (nb s) (p_mask p s) (nb s + ng s) out
  | Fubu_mask => UNPACK_VEC (nbu s) (p_mask p s) (nb s + ng s) out
  | Fubx_mask => UNPACK_VEC (nbx s) (p_mask p s) (nb s + ng s + nbu s) out
  | Flg_mask => UNPACK_VEC (ng s) (p_mask p s) (nb s) out
  | Fug_mask => UNPACK_VEC (ng s) (p_mask p s) (2 * nb s + ng s) out
  | Flls_mask => UNPACK_VEC (ns s) (p_mask p s) (2 * nb s + 2 * ng s) out
  | Flus_mask => UNPACK_VEC (ns s) (p_mask p s) (2 * nb s + 2 * ng s + ns s) out
  | FZl => UNPACK_VEC (ns s) (p_Z p s) 0 out
  | FZu => UNPACK_VEC (ns s) (p_Z p s) (ns s) out
  | Fzl => UNPACK_VEC (ns s) (p_rqz p s) (nu s + nx s) out
  | Fzu => UNPACK_VEC (ns s) (p_rqz p s) (nu s + nx s + ns s) out
  | Fm_lb => UNPACK_VEC (nb s) (p_m p s) 0 out
  | Fm_lbu => UNPACK_VEC (nbu s) (p_m p s) 0 out
  | Fm_lbx => UNPACK_VEC (nbx s) (p_m p s) (nbu s) out
  | Fm_ub => UNPACK_VEC (nb s) (p_m p s) (nb s + ng s) out
  | Fm_ubu => UNPACK_VEC (nbu s) (p_m p s) (nb s + ng s) out
  | Fm_ubx => UNPACK_VEC (nbx s) (p_m p s) (nb s + ng s + nbu s) out
  | Fm_lg => UNPACK_VEC (ng s) (p_m p s) (nb s) out
  | Fm_ug => UNPACK_VEC (ng s) (p_m p s) (2 * nb s + ng s) out
  | Fm_lls => UNPACK_VEC (ns s) (p_m p s) (2 * nb s + 2 * ng s) out
  | Fm_lus => UNPACK_VEC (ns s) (p_m p s) (2 * nb s + 2 * ng s + ns s) out
  end.

(** Integer setters.  The user's index arrays hold nonnegative values except idxs_rev (-1 = hard). *)
Definition set_i (f : ifield) (s : nat) (v : nat -> Z) (p : qpd F) : qpd F :=
  match f with
  | Iidxb => w_idxb s (loop (nb s) (fun ii x => upd x ii (v ii))) p (* 1329-1339 *)
  | Iidxbx => w_idxb s (loop (nbx s) (fun ii x => upd x (nbu s + ii) (Z.of_nat (nu s) + v ii)%Z)) p (* 1343-1357 *)
  | Iidxbu => w_idxb s (loop (nbu s) (fun ii x => upd x ii (v ii))) p (* 1387-1399 *)
  | Iidxs => w_idxs s (loop (ns s) (fun ii x => upd x (Z.to_nat (v ii)) (Z.of_nat ii))) p (* 1559-1571 *)
  | Iidxs_rev => w_idxs s (loop (nb s + ng s) (fun ii x => upd x ii (v ii))) p (* 1575-1588 *)
  | Iidxe => w_idxe s (loop (nbxe s + nbue s + nge s) (fun ii x => upd x ii (v ii))) p (* 1738-1750 *)
  | Iidxbue => w_idxe s (loop (nbue s) (fun ii x => upd x ii (v ii))) p (* 1754-1766 *)
  | Iidxbxe => w_idxe s (loop (nbxe s) (fun ii x => upd x (nbue s + ii) (Z.of_nat (nbu s) + v ii)%Z)) p (* 1770-1783 *)
  | Iidxge => w_idxe s (loop (nge s) (fun ii x => upd x (nbue s + nbxe s + ii) (Z.of_nat (nbu s) + Z.of_nat (nbx s) + v ii)%Z)) p (* 1787-1801 *)
  end.
(** Integer getters: GET_IDXB 2391, GET_IDXE, GET_IDXS (only meaningful with one slack per softened constraint), GET_IDXS_REV.
    The other names have no getter in C (they read the stored array at the setter's offsets). *)
Definition get_idxb (s : nat) (p : qpd F) (out : nat -> Z) : nat -> Z := loop (nb s) (fun ii y => upd y ii (p_idxb p s ii)) out.
Definition get_idxe (s : nat) (p : qpd F) (out : nat -> Z) : nat -> Z := loop (nbxe s + nbue s + nge s) (fun ii y => upd y ii (p_idxe p s ii)) out.
Definition get_idxs_rev (s : nat) (p : qpd F) (out : nat -> Z) : nat -> Z := loop (nb s + ng s) (fun ii y => upd y ii (p_idxs_rev p s ii)) out.
Definition get_idxs (s : nat) (p : qpd F) (out : nat -> Z) : nat -> Z :=
  loop (nb s + ng s) (fun ii y => let t := p_idxs_rev p s ii in if Z.eqb t (-1) then y else upd y (Z.to_nat t) (Z.of_nat ii)) out.

(** The scan of one row of a selection matrix, first nonzero wins (1361-1383, 1403-1423, 1592-1678); [jj0 = -1] is
    "not found yet"; the variant "jj<ns & jj0==-1" in the loop condition of Jsbu/Jsbx/Jsg stops earlier with the same
    effect, modelled by the same loop. *)
Definition scan_row (n : nat) (nz : nat -> bool) (w : nat -> (nat -> Z) -> nat -> Z) (x : nat -> Z) : nat -> Z :=
  snd (loop n (fun jj '(jj0, x) => if andb (Z.eqb jj0 (-1)) (nz jj) then (Z.of_nat jj, w jj x) else (jj0, x)) ((-1)%Z, x)).
Definition nonzero (x : F) : bool := negb (x =? f0).
(** Jbue / Jbxe / Jge 1805-1870: "if(idx<nbue[stage] | J[ii]!=0.0)" *)
Definition sel_loop (n ne : nat) (Jv : vec) (off : nat) (val : nat -> Z) (x : nat -> Z) : nat -> Z :=
  snd (loop n (fun ii '(idx, x) => if orb (Nat.ltb idx ne) (nonzero (Jv ii)) then (S idx, upd x (off + idx) (val ii)) else (idx, x)) (0%nat, x)).
Definition set_j (f : jfield) (s : nat) (J : vec) (p : qpd F) : qpd F :=
  match f with
  | Jbx => w_idxb s (loop (nbx s) (fun ii => scan_row (nx s) (fun jj => nonzero (J (ii + jj * nbx s)%nat)) (fun jj x => upd x (nbu s + ii) (Z.of_nat (nu s + jj))))) p
  | Jbu => w_idxb s (loop (nbu s) (fun ii => scan_row (nu s) (fun jj => nonzero (J (ii + jj * nbu s)%nat)) (fun jj x => upd x ii (Z.of_nat jj)))) p
  | Jsbu => w_idxs s (loop (nbu s) (fun ii => scan_row (ns s) (fun jj => nonzero (J (ii + jj * nbu s)%nat)) (fun jj x => upd x (0 + ii) (Z.of_nat jj)))) p
  | Jsbx => w_idxs s (loop (nbx s) (fun ii => scan_row (ns s) (fun jj => nonzero (J (ii + jj * nbx s)%nat)) (fun jj x => upd x (nbu s + ii) (Z.of_nat jj)))) p
  | Jsg => w_idxs s (loop (ng s) (fun ii => scan_row (ns s) (fun jj => nonzero (J (ii + jj * ng s)%nat)) (fun jj x => upd x (nb s + ii) (Z.of_nat jj)))) p
  | Jbue => w_idxe s (sel_loop (nbu s) (nbue s) J 0 (fun ii => Z.of_nat ii)) p
  | Jbxe => w_idxe s (sel_loop (nbx s) (nbxe s) J (nbue s) (fun ii => Z.of_nat (nbu s + ii))) p
  | Jge => w_idxe s (sel_loop (ng s) (nge s) J (nbue s + nbxe s) (fun ii => Z.of_nat (nbu s + nbx s + ii))) p
  end.
(** OCP_QP_SET_DIAG_H_FLAG 1874-1879; OCP_QP_SET_M_ALL 1883-1898 *)
Definition set_diag (s : nat) (v : Z) (p : qpd F) : qpd F := w_diag s v p.
Definition set_m_all (e : F) (p : qpd F) : qpd F := loop (xN D + 1) (fun ii p => w_m ii (fun x => VECSE (xnct D ii) e x 0) p) p.

(** OCP_QP_SET_ALL_ZERO 431-475 *)
Definition set_all_zero (p : qpd F) : qpd F :=
  let p := loop (xN D) (fun ii p =>
    w_b ii (fun x => VECSE (nx (ii+1)) f0 x 0) (w_BAbt ii (fun M => GESE (nu ii + nx ii + 1) (nx (ii+1)) f0 M 0 0) p)) p in
  loop (xN D + 1) (fun ii p =>
    let p := w_RSQ ii (fun M => GESE (nu ii + nx ii + 1) (nu ii + nx ii) f0 M 0 0) p in
    let p := w_Z ii (fun x => VECSE (2 * ns ii) f0 x 0) p in
    let p := w_rqz ii (fun x => VECSE (nu ii + nx ii + 2 * ns ii) f0 x 0) p in
    let p := w_idxb ii (loop (nb ii) (fun jj x => upd x jj 0%Z)) p in
    let p := w_DCt ii (fun M => GESE (nu ii + nx ii) (ng ii) f0 M 0 0) p in
    let p := w_d ii (fun x => VECSE (xnct D ii) f0 x 0) p in
    let p := w_mask ii (fun x => VECSE (xnct D ii) f1 x 0) p in
    let p := w_m ii (fun x => VECSE (xnct D ii) f0 x 0) p in
    let p := w_idxs ii (loop (ns ii) (fun jj x => upd x jj (-1)%Z)) p in
    let p := w_idxe ii (loop (nbue ii + nbxe ii + nge ii) (fun jj x => upd x jj 0%Z)) p in
    w_diag ii 0%Z p) p.
(** OCP_QP_SET_RHS_ZERO 479-508 *)
Definition set_rhs_zero (p : qpd F) : qpd F :=
  let p := loop (xN D) (fun ii p => w_b ii (fun x => VECSE (nx (ii+1)) f0 x 0) p) p in
  loop (xN D + 1) (fun ii p =>
    let p := w_rqz ii (fun x => VECSE (nu ii + nx ii + 2 * ns ii) f0 x 0) p in
    let p := w_d ii (fun x => VECSE (xnct D ii) f0 x 0) p in
    w_m ii (fun x => VECSE (xnct D ii) f0 x 0) p) p.
(** OCP_QP_COPY_ALL 380-425: returns the new destination object *)
Definition copy_all (o p : qpd F) : qpd F :=
  let p := loop (xN D) (fun ii p =>
    w_b ii (fun x => VECCP (nx (ii+1)) (p_b o ii) 0 x 0) (w_BAbt ii (fun M => GECP (nu ii + nx ii + 1) (nx (ii+1)) (p_BAbt o ii) 0 0 M 0 0) p)) p in
  loop (xN D + 1) (fun ii p =>
    let p := w_RSQ ii (fun M => GECP (nu ii + nx ii + 1) (nu ii + nx ii) (p_RSQ o ii) 0 0 M 0 0) p in
    let p := w_Z ii (fun x => VECCP (2 * ns ii) (p_Z o ii) 0 x 0) p in
    let p := w_rqz ii (fun x => VECCP (nu ii + nx ii + 2 * ns ii) (p_rqz o ii) 0 x 0) p in
    let p := w_idxb ii (loop (nb ii) (fun jj x => upd x jj (p_idxb o ii jj))) p in
    let p := w_DCt ii (fun M => GECP (nu ii + nx ii) (ng ii) (p_DCt o ii) 0 0 M 0 0) p in
    let p := w_d ii (fun x => VECCP (xnct D ii) (p_d o ii) 0 x 0) p in
    let p := w_mask ii (fun x => VECCP (xnct D ii) (p_mask o ii) 0 x 0) p in
    let p := w_m ii (fun x => VECCP (xnct D ii) (p_m o ii) 0 x 0) p in
    let p := w_idxs ii (loop (nb ii + ng ii) (fun jj x => upd x jj (p_idxs_rev o ii jj))) p in
    let p := w_idxe ii (loop (nbue ii + nbxe ii + nge ii) (fun jj x => upd x jj (p_idxe o ii jj))) p in
    w_diag ii (p_diag o ii) p) p.

(** OCP_QP_SET_ALL 514-621 and OCP_QP_SET_ALL_ROWMAJ 625-732 differ only in how A,B,S,C,D are packed ([rm] = ROWMAJ).
    [u f i] = the user's array for field f, stage i; idxs, idxs_rev may be NULL. *)
Definition pk (rm : bool) (m n : nat) (A : vec) (B : mat) (bi bj : nat) : mat :=
  if rm then PACK_MAT n m A n B bi bj else PACK_TRAN_MAT m n A m B bi bj.
Definition set_all (rm : bool) (u : rfield -> nat -> vec) (ibx ibu : nat -> nat -> Z) (idxs idxs_rev : option (nat -> nat -> Z)) (p : qpd F) : qpd F :=
  let p := loop (xN D) (fun ii p =>
    let p := w_BAbt ii (fun M => pk rm (nx (ii+1)) (nu ii) (u FB ii) M 0 0) p in
    let p := w_BAbt ii (fun M => pk rm (nx (ii+1)) (nx ii) (u FA ii) M (nu ii) 0) p in
    let p := w_BAbt ii (fun M => PACK_TRAN_MAT (nx (ii+1)) 1 (u Fb ii) (nx (ii+1)) M (nu ii + nx ii) 0) p in
    w_b ii (fun x => PACK_VEC (nx (ii+1)) (u Fb ii) x 0) p) p in
  let p := loop (xN D + 1) (fun ii p =>
    let p := w_RSQ ii (fun M => PACK_MAT (nu ii) (nu ii) (u FR ii) (nu ii) M 0 0) p in
    let p := w_RSQ ii (fun M => pk rm (nu ii) (nx ii) (u FS ii) M (nu ii) 0) p in
    let p := w_RSQ ii (fun M => PACK_MAT (nx ii) (nx ii) (u FQ ii) (nx ii) M (nu ii) (nu ii)) p in
    let p := w_RSQ ii (fun M => PACK_TRAN_MAT (nu ii) 1 (u Fr ii) (nu ii) M (nu ii + nx ii) 0) p in
    let p := w_RSQ ii (fun M => PACK_TRAN_MAT (nx ii) 1 (u Fq ii) (nx ii) M (nu ii + nx ii) (nu ii)) p in
    let p := w_rqz ii (fun x => PACK_VEC (nu ii) (u Fr ii) x 0) p in
    w_rqz ii (fun x => PACK_VEC (nx ii) (u Fq ii) x (nu ii)) p) p in
  let p := loop (xN D + 1) (fun ii p =>
    let p := if Nat.ltb 0 (nbu ii) then
        let p := w_idxb ii (loop (nbu ii) (fun jj x => upd x jj (ibu ii jj))) p in
        let p := w_d ii (fun x => PACK_VEC (nbu ii) (u Flbu ii) x 0) p in
        w_d ii (fun x => PACK_VEC (nbu ii) (u Fubu ii) x (nb ii + ng ii)) p
      else p in
    let p := if Nat.ltb 0 (nbx ii) then
        let p := w_idxb ii (loop (nbx ii) (fun jj x => upd x (nbu ii + jj) (Z.of_nat (nu ii) + ibx ii jj)%Z)) p in
        let p := w_d ii (fun x => PACK_VEC (nbx ii) (u Flbx ii) x (nbu ii)) p in
        w_d ii (fun x => PACK_VEC (nbx ii) (u Fubx ii) x (nb ii + ng ii + nbu ii)) p
      else p in
    if Nat.ltb 0 (nb ii) then
      let p := w_d ii (fun x => VECSC (nb ii) (- f1) x (nb ii + ng ii)) p in
      let p := w_m ii (fun x => VECSE (nb ii) f0 x 0) p in
      w_m ii (fun x => VECSE (nb ii) f0 x (nb ii + ng ii)) p
    else p) p in
  let p := loop (xN D + 1) (fun ii p =>
    if Nat.ltb 0 (ng ii) then
      let p := w_DCt ii (fun M => pk rm (ng ii) (nu ii) (u FD ii) M 0 0) p in
      let p := w_DCt ii (fun M => pk rm (ng ii) (nx ii) (u FC ii) M (nu ii) 0) p in
      let p := w_d ii (fun x => PACK_VEC (ng ii) (u Flg ii) x (nb ii)) p in
      let p := w_d ii (fun x => PACK_VEC (ng ii) (u Fug ii) x (2 * nb ii + ng ii)) p in
      let p := w_d ii (fun x => VECSC (ng ii) (- f1) x (2 * nb ii + ng ii)) p in
      let p := w_m ii (fun x => VECSE (ng ii) f0 x (nb ii)) p in
      w_m ii (fun x => VECSE (ng ii) f0 x (2 * nb ii + ng ii)) p
    else p) p in
  let p := loop (xN D + 1) (fun ii p =>
    if Nat.ltb 0 (ns ii) then
      let p := match idxs with Some ix => w_idxs ii (loop (ns ii) (fun jj x => upd x (Z.to_nat (ix ii jj)) (Z.of_nat jj))) p | None => p end in
      let p := w_Z ii (fun x => PACK_VEC (ns ii) (u FZl ii) x 0) p in
      let p := w_Z ii (fun x => PACK_VEC (ns ii) (u FZu ii) x (ns ii)) p in
      let p := w_rqz ii (fun x => PACK_VEC (ns ii) (u Fzl ii) x (nu ii + nx ii)) p in
      let p := w_rqz ii (fun x => PACK_VEC (ns ii) (u Fzu ii) x (nu ii + nx ii + ns ii)) p in
      let p := w_d ii (fun x => PACK_VEC (ns ii) (u Flls ii) x (2 * nb ii + 2 * ng ii)) p in
      let p := w_d ii (fun x => PACK_VEC (ns ii) (u Flus ii) x (2 * nb ii + 2 * ng ii + ns ii)) p in
      let p := w_m ii (fun x => VECSE (ns ii) f0 x (2 * nb ii + 2 * ng ii)) p in
      w_m ii (fun x => VECSE (ns ii) f0 x (2 * nb ii + 2 * ng ii + ns ii)) p
    else p) p in
  match idxs_rev with
  | Some ir => loop (xN D + 1) (fun ii p => w_idxs ii (loop (nb ii + ng ii) (fun jj x => upd x jj (ir ii jj))) p) p
  | None => p
  end.

(** A call argument "void *value": an array of REAL or of int, as the field requires. *)
Inductive value := VR (v : vec) | VI (v : nat -> Z).
Inductive target := TR (f : rfield) | TI (f : ifield) | TJ (f : jfield) | TDiag | TMall.
(** The dispatch chain of OCP_QP_SET 736-1005: which setter a field name selects (None = exit(1)). *)
Local Open Scope string_scope.
Definition set_dispatch (n : string) : option target :=
  let is s := hpipm_strcmp n s in
  if is "A" then Some (TR FA) else if is "B" then Some (TR FB) else if is "Q" then Some (TR FQ) else if is "S" then Some (TR FS)
  else if is "R" then Some (TR FR) else if is "C" then Some (TR FC) else if is "D" then Some (TR FD) else if is "b" then Some (TR Fb)
  else if is "q" then Some (TR Fq) else if is "r" then Some (TR Fr) else if is "lb" then Some (TR Flb) else if is "lb_mask" then Some (TR Flb_mask)
  else if orb (is "lbu") (is "lu") then Some (TR Flbu) else if is "lbu_mask" then Some (TR Flbu_mask)
  else if orb (is "lbx") (is "lx") then Some (TR Flbx) else if is "lbx_mask" then Some (TR Flbx_mask)
  else if is "ub" then Some (TR Fub) else if is "ub_mask" then Some (TR Fub_mask)
  else if orb (is "ubu") (is "uu") then Some (TR Fubu) else if is "ubu_mask" then Some (TR Fubu_mask)
  else if orb (is "ubx") (is "ux") then Some (TR Fubx) else if is "ubx_mask" then Some (TR Fubx_mask)
  else if is "lg" then Some (TR Flg) else if is "lg_mask" then Some (TR Flg_mask) else if is "ug" then Some (TR Fug) else if is "ug_mask" then Some (TR Fug_mask)
  else if is "Zl" then Some (TR FZl) else if is "Zu" then Some (TR FZu) else if is "zl" then Some (TR Fzl) else if is "zu" then Some (TR Fzu)
  else if is "lls" then Some (TR Flls) else if is "lls_mask" then Some (TR Flls_mask) else if is "lus" then Some (TR Flus) else if is "lus_mask" then Some (TR Flus_mask)
  else if is "idxb" then Some (TI Iidxb) else if is "idxbx" then Some (TI Iidxbx) else if orb (is "Jbx") (is "Jx") then Some (TJ Jbx)
  else if is "idxbu" then Some (TI Iidxbu) else if orb (is "Jbu") (is "Ju") then Some (TJ Jbu) else if is "idxs" then Some (TI Iidxs)
  else if is "idxs_rev" then Some (TI Iidxs_rev) else if orb (is "Jsbu") (is "Jsu") then Some (TJ Jsbu) else if orb (is "Jsbx") (is "Jsx") then Some (TJ Jsbx)
  else if is "Jsg" then Some (TJ Jsg) else if is "idxe" then Some (TI Iidxe) else if is "idxbue" then Some (TI Iidxbue) else if is "idxbxe" then Some (TI Iidxbxe)
  else if is "idxge" then Some (TI Iidxge) else if is "Jbue" then Some (TJ Jbue) else if is "Jbxe" then Some (TJ Jbxe) else if is "Jge" then Some (TJ Jge)
  else if is "diag_H_flag" then Some TDiag else if is "m_all" then Some TMall else if is "m_lb" then Some (TR Fm_lb) else if is "m_lbu" then Some (TR Fm_lbu)
  else if is "m_lbx" then Some (TR Fm_lbx) else if is "m_ub" then Some (TR Fm_ub) else if is "m_ubu" then Some (TR Fm_ubu) else if is "m_ubx" then Some (TR Fm_ubx)
  else if is "m_lg" then Some (TR Fm_lg) else if is "m_ug" then Some (TR Fm_ug) else if is "m_lls" then Some (TR Fm_lls) else if is "m_lus" then Some (TR Fm_lus)
  else None.
(** OCP_QP_GET 2035-2060 *)
Definition get_dispatch (n : string) : option rfield :=
  let is s := hpipm_strcmp n s in
  if is "A" then Some FA else if orb (is "lbx") (is "lx") then Some Flbx else if orb (is "ubx") (is "ux") then Some Fubx else None.
(** a call d_ocp_qp_set(name, stage, value, qp); UB: the payload has the wrong C type *)
Definition qp_set (n : string) (s : nat) (v : value) (p : qpd F) : outcome (qpd F) :=
  match set_dispatch n, v with
  | None, _ => Exit
  | Some (TR f), VR v => Ok (set_r f s v p)
  | Some (TI f), VI v => Ok (set_i f s v p)
  | Some (TJ f), VR v => Ok (set_j f s v p)
  | Some TDiag, VI v => Ok (set_diag s (v 0%nat) p)
  | Some TMall, VR v => Ok (set_m_all (v 0%nat) p)
  | _, _ => UB
  end.
Definition qp_get (n : string) (s : nat) (p : qpd F) (out : vec) : outcome vec :=
  match get_dispatch n with None => Exit | Some f => Ok (get_r f s p out) end.

(** what the solver reads (OcpModel.v) *)
Definition to_oqp (p : qpd F) : oqp F :=
  mkqp (mkdims (xN D) nx nu nb ng ns) (p_BAbt p) (p_RSQ p) (p_DCt p) (p_b p) (p_rqz p) (p_d p) (p_mask p) (p_m p) (p_Z p)
    (fun i j => Z.to_nat (p_idxb p i j)) (p_idxs_rev p).
End Data.
