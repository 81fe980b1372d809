(** QpDataSpec.v -- what a user expects of the QP data object: sizes of the fields, which fields share storage, API
    histories, meaning of the fields. *)
From Coq Require Import ZArith Bool Arith List Reals.
From Verif Require Import Base ArithF QpDataModel.
Import ListNotations.

(** number of scalars in the user's array for a field of stage s (column-major for the matrices) *)
Definition flen (D : xdim) (f : rfield) (s : nat) : nat :=
  match f with
  | FA => xnx D (s+1) * xnx D s | FB => xnx D (s+1) * xnu D s | Fb => xnx D (s+1)
  | FQ => xnx D s * xnx D s | FS => xnu D s * xnx D s | FR => xnu D s * xnu D s | Fq => xnx D s | Fr => xnu D s
  | FC => xng D s * xnx D s | FD => xng D s * xnu D s
  | Flb | Fub | Flb_mask | Fub_mask | Fm_lb | Fm_ub => xnbx D s + xnbu D s
  | Flbu | Fubu | Flbu_mask | Fubu_mask | Fm_lbu | Fm_ubu => xnbu D s
  | Flbx | Fubx | Flbx_mask | Fubx_mask | Fm_lbx | Fm_ubx => xnbx D s
  | Flg | Fug | Flg_mask | Fug_mask | Fm_lg | Fm_ug => xng D s
  | Flls | Flus | Flls_mask | Flus_mask | FZl | FZu | Fzl | Fzu | Fm_lls | Fm_lus => xns D s
  end.
(** "lb" is "lbu" followed by "lbx", "ub" is "ubu" followed by "ubx", the same for their masks and m_xx; nothing else is shared *)
Definition whole (f : rfield) : option (rfield * rfield) :=
  match f with
  | Flb => Some (Flbu, Flbx) | Fub => Some (Fubu, Fubx) | Flb_mask => Some (Flbu_mask, Flbx_mask) | Fub_mask => Some (Fubu_mask, Fubx_mask)
  | Fm_lb => Some (Fm_lbu, Fm_lbx) | Fm_ub => Some (Fm_ubu, Fm_ubx) | _ => None
  end.
Definition shares (f g : rfield) : Prop :=
  f = g \/ (exists u x, whole f = Some (u, x) /\ (g = u \/ g = x)) \/ (exists u x, whole g = Some (u, x) /\ (f = u \/ f = x)).
(** fields given by the user as upper bounds *)
Definition is_upper (f : rfield) : bool := match f with Fub | Fubu | Fubx | Fug => true | _ => false end.
Definition is_mask (f : rfield) : bool :=
  match f with Flb_mask | Flbu_mask | Flbx_mask | Fub_mask | Fubu_mask | Fubx_mask | Flg_mask | Fug_mask | Flls_mask | Flus_mask => true | _ => false end.
Definition is_m (f : rfield) : bool :=
  match f with Fm_lb | Fm_lbu | Fm_lbx | Fm_ub | Fm_ubu | Fm_ubx | Fm_lg | Fm_ug | Fm_lls | Fm_lus => true | _ => false end.

(** one call of the data API *)
Inductive op (F : Type) :=
| OpR (f : rfield) (s : nat) (v : nat -> F) | OpI (f : ifield) (s : nat) (v : nat -> Z) | OpJ (f : jfield) (s : nat) (v : nat -> F)
| OpElLbx (s k : nat) (e : F) | OpElUbx (s k : nat) (e : F) | OpDiag (s : nat) (v : Z) | OpMall (e : F) | OpRhsZero | OpAllZero.
Arguments OpR {F}. Arguments OpI {F}. Arguments OpJ {F}. Arguments OpElLbx {F}. Arguments OpElUbx {F}. Arguments OpDiag {F}.
Arguments OpMall {F}. Arguments OpRhsZero {F}. Arguments OpAllZero {F}.
Section Hist.
Context {F : Type} {AF : Arith F}.
Variable D : xdim.
Definition do_op (o : op F) (p : qpd F) : qpd F :=
  match o with
  | OpR f s v => set_r D f s v p | OpI f s v => set_i D f s v p | OpJ f s v => set_j D f s v p
  | OpElLbx s k e => set_el_lbx D s k e p | OpElUbx s k e => set_el_ubx D s k e p | OpDiag s v => set_diag s v p
  | OpMall e => set_m_all D e p | OpRhsZero => set_rhs_zero D p | OpAllZero => set_all_zero D p
  end.
(** the calls in order, first call first *)
Definition run (h : list (op F)) (p : qpd F) : qpd F := fold_left (fun p o => do_op o p) h p.
(** element calls stay inside their field *)
Definition legal (o : op F) : Prop :=
  match o with OpElLbx s k _ | OpElUbx s k _ => k < xnbx D s | _ => True end.
(** the call leaves field f of stage s alone (documented effects only) *)
Definition leaves (f : rfield) (s : nat) (o : op F) : Prop :=
  match o with
  | OpR g s' _ => s' <> s \/ ~ shares g f
  | OpI _ _ _ | OpJ _ _ _ | OpDiag _ _ => True
  | OpElLbx s' _ _ => s' <> s \/ ~ shares Flbx f
  | OpElUbx s' _ _ => s' <> s \/ ~ shares Fubx f
  | OpMall _ => is_m f = false
  | OpRhsZero => (f = FA \/ f = FB \/ f = FQ \/ f = FR \/ f = FS \/ f = FC \/ f = FD \/ f = FZl \/ f = FZu) \/ is_mask f = true
  | OpAllZero => False
  end.
End Hist.
