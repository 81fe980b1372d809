(** SolModel.v -- the OCP QP solution object: field setters and getters, string dispatch, set_all, get_all, set_zero, copy_all
    (ocp_qp/x_ocp_qp_sol.c). *)
From Coq Require Import ZArith Bool Arith String.
From Verif Require Import Base ArithF Blas AuxModel QpDataModel.

(** struct OCP_QP_SOL (include/hpipm_d_ocp_qp_sol.h): one vector per stage and kind.  Each vector is a separate array
    (their disjointness in memory is property C07). *)
Record solv (F : Type) := mksol { s_ux : nat -> nat -> F; s_pi : nat -> nat -> F; s_lam : nat -> nat -> F; s_t : nat -> nat -> F }.
Arguments mksol {F}. Arguments s_ux {F}. Arguments s_pi {F}. Arguments s_lam {F}. Arguments s_t {F}.

(** The fields of the solution API (the suffixes of OCP_QP_SOL_GET_xxx / OCP_QP_SOL_SET_xxx). *)
Inductive sfield := Su | Sx | Ssl | Ssu | Spi | Slam_lb | Slam_lbu | Slam_lbx | Slam_ub | Slam_ubu | Slam_ubx | Slam_lg | Slam_ug | Slam_ls | Slam_us.

Section Sol.
Context {F : Type} {AF : Arith F}.
Notation vec := (nat -> F).

Definition w_ux (i : nat) (g : vec -> vec) (p : solv F) := mksol (upd (s_ux p) i (g (s_ux p i))) (s_pi p) (s_lam p) (s_t p).
Definition w_pi (i : nat) (g : vec -> vec) (p : solv F) := mksol (s_ux p) (upd (s_pi p) i (g (s_pi p i))) (s_lam p) (s_t p).
Definition w_lam (i : nat) (g : vec -> vec) (p : solv F) := mksol (s_ux p) (s_pi p) (upd (s_lam p) i (g (s_lam p i))) (s_t p).
Definition w_t (i : nat) (g : vec -> vec) (p : solv F) := mksol (s_ux p) (s_pi p) (s_lam p) (upd (s_t p) i (g (s_t p i))).

Variable D : xdim.
Notation N := (xN D). Notation nx := (xnx D). Notation nu := (xnu D). Notation nb := (xnb D). Notation nbx := (xnbx D). Notation nbu := (xnbu D).
Notation ng := (xng D). Notation ns := (xns D).

(** OCP_QP_SOL_GET_xxx; lines of the C function at each case ([out]: previous contents of the user's array). *)
Definition sol_get_f (f : sfield) (s : nat) (p : solv F) (out : vec) : vec :=
  match f with
  | Su => UNPACK_VEC (nu s) (s_ux p s) 0 out (* 462-466 *)
  | Sx => UNPACK_VEC (nx s) (s_ux p s) (nu s) out (* 470-475 *)
  | Ssl => UNPACK_VEC (ns s) (s_ux p s) (nu s + nx s) out (* 479-486 *)
  | Ssu => UNPACK_VEC (ns s) (s_ux p s) (nu s + nx s + ns s) out (* 490-497 *)
  | Spi => UNPACK_VEC (nx (s+1)) (s_pi p s) 0 out (* 500-504 *)
  | Slam_lb => UNPACK_VEC (nb s) (s_lam p s) 0 out (* 508-512 *)
  | Slam_lbu => UNPACK_VEC (nbu s) (s_lam p s) 0 out (* 516-520 *)
  | Slam_lbx => UNPACK_VEC (nbx s) (s_lam p s) (nbu s) out (* 524-529 *)
  | Slam_ub => UNPACK_VEC (nb s) (s_lam p s) (nb s + ng s) out (* 533-538 *)
  | Slam_ubu => UNPACK_VEC (nbu s) (s_lam p s) (nb s + ng s) out (* 542-548 *)
  | Slam_ubx => UNPACK_VEC (nbx s) (s_lam p s) (nb s + ng s + nbu s) out (* 552-559 *)
  | Slam_lg => UNPACK_VEC (ng s) (s_lam p s) (nb s) out (* 563-568 *)
  | Slam_ug => UNPACK_VEC (ng s) (s_lam p s) (2 * nb s + ng s) out (* 572-577 *)
  | Slam_ls => UNPACK_VEC (ns s) (s_lam p s) (2 * nb s + 2 * ng s) out (* 581-587 *)
  | Slam_us => UNPACK_VEC (ns s) (s_lam p s) (2 * nb s + 2 * ng s + ns s) out (* 591-597 *)
  end.

(** OCP_QP_SOL_SET_xxx; lines of the C function at each case. *)
Definition sol_set_f (f : sfield) (s : nat) (v : vec) (p : solv F) : solv F :=
  match f with
  | Su => w_ux s (fun x => PACK_VEC (nu s) v x 0) p (* 675-680 *)
  | Sx => w_ux s (fun x => PACK_VEC (nx s) v x (nu s)) p (* 684-690 *)
  | Ssl => w_ux s (fun x => PACK_VEC (ns s) v x (nu s + nx s)) p (* 694-701 *)
  | Ssu => w_ux s (fun x => PACK_VEC (ns s) v x (nu s + nx s + ns s)) p (* 705-712 *)
  | Spi => w_pi s (fun x => PACK_VEC (nx (s+1)) v x 0) p (* 716-720 *)
  | Slam_lb => w_lam s (fun x => PACK_VEC (nb s) v x 0) p (* 724-728 *)
  | Slam_lbu => w_lam s (fun x => PACK_VEC (nbu s) v x 0) p (* 732-736 *)
  | Slam_lbx => w_lam s (fun x => PACK_VEC (nbx s) v x (nbu s)) p (* 740-745 *)
  | Slam_ub => w_lam s (fun x => PACK_VEC (nb s) v x (nb s + ng s)) p (* 749-754 *)
  | Slam_ubu => w_lam s (fun x => PACK_VEC (nbu s) v x (nb s + ng s)) p (* 758-764 *)
  | Slam_ubx => w_lam s (fun x => PACK_VEC (nbx s) v x (nb s + ng s + nbu s)) p (* 768-775 *)
  | Slam_lg => w_lam s (fun x => PACK_VEC (ng s) v x (nb s)) p (* 779-784 *)
  | Slam_ug => w_lam s (fun x => PACK_VEC (ng s) v x (2 * nb s + ng s)) p (* 788-793 *)
  | Slam_ls => w_lam s (fun x => PACK_VEC (ns s) v x (2 * nb s + 2 * ng s)) p (* 797-803 *)
  | Slam_us => w_lam s (fun x => PACK_VEC (ns s) v x (2 * nb s + 2 * ng s + ns s)) p (* 807-813 *)
  end.

(** OCP_QP_SOL_COPY_ALL 216-246: for each stage < N: ux, pi, lam, t; then ux, lam, t of stage N. *)
Definition sol_copy_stage (o : solv F) (ii : nat) (d : solv F) : solv F :=
  let d := w_ux ii (fun x => VECCP (nu ii + nx ii + 2 * ns ii) (s_ux o ii) 0 x 0) d in
  let d := w_pi ii (fun x => VECCP (nx (ii+1)) (s_pi o ii) 0 x 0) d in
  let d := w_lam ii (fun x => VECCP (2 * nb ii + 2 * ng ii + 2 * ns ii) (s_lam o ii) 0 x 0) d in
  w_t ii (fun x => VECCP (2 * nb ii + 2 * ng ii + 2 * ns ii) (s_t o ii) 0 x 0) d.
Definition sol_copy_all (o d : solv F) : solv F :=
  let d := loop N (sol_copy_stage o) d in
  let d := w_ux N (fun x => VECCP (nu N + nx N + 2 * ns N) (s_ux o N) 0 x 0) d in
  let d := w_lam N (fun x => VECCP (2 * nb N + 2 * ng N + 2 * ns N) (s_lam o N) 0 x 0) d in
  w_t N (fun x => VECCP (2 * nb N + 2 * ng N + 2 * ns N) (s_t o N) 0 x 0) d.

(** OCP_QP_SOL_GET_ALL 249-291: [out f s] = the user's array for field f at stage s (lam_lbu .. lam_ubx are not arguments). *)
Definition usr := sfield -> nat -> vec.
Definition usr_w (f : sfield) (s : nat) (g : vec -> vec) (o : usr) : usr :=
  fun f' => match f, f' with
  | Su, Su | Sx, Sx | Ssl, Ssl | Ssu, Ssu | Spi, Spi | Slam_lb, Slam_lb | Slam_lbu, Slam_lbu | Slam_lbx, Slam_lbx | Slam_ub, Slam_ub
  | Slam_ubu, Slam_ubu | Slam_ubx, Slam_ubx | Slam_lg, Slam_lg | Slam_ug, Slam_ug | Slam_ls, Slam_ls | Slam_us, Slam_us => upd (o f') s (g (o f' s))
  | _, _ => o f' end.
Definition sol_get_all_stage (p : solv F) (ii : nat) (o : usr) : usr :=
  let o := usr_w Su ii (fun y => UNPACK_VEC (nu ii) (s_ux p ii) 0 y) o in
  let o := usr_w Sx ii (fun y => UNPACK_VEC (nx ii) (s_ux p ii) (nu ii) y) o in
  let o := if 0 <? nb ii then
      let o := usr_w Slam_lb ii (fun y => UNPACK_VEC (nb ii) (s_lam p ii) 0 y) o in
      usr_w Slam_ub ii (fun y => UNPACK_VEC (nb ii) (s_lam p ii) (nb ii + ng ii) y) o else o in
  let o := if 0 <? ng ii then
      let o := usr_w Slam_lg ii (fun y => UNPACK_VEC (ng ii) (s_lam p ii) (nb ii) y) o in
      usr_w Slam_ug ii (fun y => UNPACK_VEC (ng ii) (s_lam p ii) (2 * nb ii + ng ii) y) o else o in
  if 0 <? ns ii then
      let o := usr_w Ssl ii (fun y => UNPACK_VEC (ns ii) (s_ux p ii) (nu ii + nx ii) y) o in
      let o := usr_w Ssu ii (fun y => UNPACK_VEC (ns ii) (s_ux p ii) (nu ii + nx ii + ns ii) y) o in
      let o := usr_w Slam_ls ii (fun y => UNPACK_VEC (ns ii) (s_lam p ii) (2 * nb ii + 2 * ng ii) y) o in
      usr_w Slam_us ii (fun y => UNPACK_VEC (ns ii) (s_lam p ii) (2 * nb ii + 2 * ng ii + ns ii) y) o else o.
Definition sol_get_all (p : solv F) (o : usr) : usr :=
  let o := loop N (fun ii o => usr_w Spi ii (fun y => UNPACK_VEC (nx (ii+1)) (s_pi p ii) 0 y) o) o in
  loop (N + 1) (sol_get_all_stage p) o.

(** OCP_QP_SOL_SET_ALL 303-345. *)
Definition sol_set_all_stage (a : usr) (ii : nat) (p : solv F) : solv F :=
  let p := w_ux ii (fun x => PACK_VEC (nu ii) (a Su ii) x 0) p in
  let p := w_ux ii (fun x => PACK_VEC (nx ii) (a Sx ii) x (nu ii)) p in
  let p := if 0 <? nb ii then
      let p := w_lam ii (fun x => PACK_VEC (nb ii) (a Slam_lb ii) x 0) p in
      w_lam ii (fun x => PACK_VEC (nb ii) (a Slam_ub ii) x (nb ii + ng ii)) p else p in
  let p := if 0 <? ng ii then
      let p := w_lam ii (fun x => PACK_VEC (ng ii) (a Slam_lg ii) x (nb ii)) p in
      w_lam ii (fun x => PACK_VEC (ng ii) (a Slam_ug ii) x (2 * nb ii + ng ii)) p else p in
  if 0 <? ns ii then
      let p := w_ux ii (fun x => PACK_VEC (ns ii) (a Ssl ii) x (nu ii + nx ii)) p in
      let p := w_ux ii (fun x => PACK_VEC (ns ii) (a Ssu ii) x (nu ii + nx ii + ns ii)) p in
      let p := w_lam ii (fun x => PACK_VEC (ns ii) (a Slam_ls ii) x (2 * nb ii + 2 * ng ii)) p in
      w_lam ii (fun x => PACK_VEC (ns ii) (a Slam_us ii) x (2 * nb ii + 2 * ng ii + ns ii)) p else p.
Definition sol_set_all (a : usr) (p : solv F) : solv F :=
  let p := loop N (fun ii p => w_pi ii (fun x => PACK_VEC (nx (ii+1)) (a Spi ii) x 0) p) p in
  loop (N + 1) (sol_set_all_stage a) p.

(** OCP_QP_SOL_SET_ZERO 349-384. *)
Definition sol_set_zero (p : solv F) : solv F :=
  let p := loop (N + 1) (fun ii p => w_ux ii (fun x => VECSE (nu ii + nx ii + 2 * ns ii) f0 x 0) p) p in
  let p := loop N (fun ii p => w_pi ii (fun x => VECSE (nx (ii+1)) f0 x 0) p) p in
  let p := loop (N + 1) (fun ii p => w_lam ii (fun x => VECSE (2 * nb ii + 2 * ng ii + 2 * ns ii) f0 x 0) p) p in
  loop (N + 1) (fun ii p => w_t ii (fun x => VECSE (2 * nb ii + 2 * ng ii + 2 * ns ii) f0 x 0) p) p.

(** OCP_QP_SOL_GET 388-458 *)
Definition sol_get_name (field : string) : option sfield :=
  let is := hpipm_strcmp field in
  if is "u"%string then Some Su else if is "x"%string then Some Sx else if is "sl"%string then Some Ssl else if is "su"%string then Some Ssu
  else if is "pi"%string then Some Spi else if is "lam_lb"%string then Some Slam_lb else if is "lam_lbu"%string then Some Slam_lbu
  else if is "lam_lbx"%string then Some Slam_lbx else if is "lam_ub"%string then Some Slam_ub else if is "lam_ubu"%string then Some Slam_ubu
  else if is "lam_ubx"%string then Some Slam_ubx else if is "lam_lg"%string then Some Slam_lg else if is "lam_ug"%string then Some Slam_ug
  else if is "lam_ls"%string then Some Slam_ls else if is "lam_us"%string then Some Slam_us else None.
Definition sol_get (field : string) (s : nat) (p : solv F) (out : vec) : outcome vec :=
  match sol_get_name field with Some f => Ok (sol_get_f f s p out) | None => Exit end.
(** OCP_QP_SOL_SET 601-671 *)
Definition sol_set_name (field : string) : option sfield :=
  let is := hpipm_strcmp field in
  if is "u"%string then Some Su else if is "x"%string then Some Sx else if is "sl"%string then Some Ssl else if is "su"%string then Some Ssu
  else if is "pi"%string then Some Spi else if is "lam_lb"%string then Some Slam_lb else if is "lam_lbu"%string then Some Slam_lbu
  else if is "lam_lbx"%string then Some Slam_lbx else if is "lam_ub"%string then Some Slam_ub else if is "lam_ubu"%string then Some Slam_ubu
  else if is "lam_ubx"%string then Some Slam_ubx else if is "lam_lg"%string then Some Slam_lg else if is "lam_ug"%string then Some Slam_ug
  else if is "lam_ls"%string then Some Slam_ls else if is "lam_us"%string then Some Slam_us else None.
Definition sol_set (field : string) (s : nat) (v : vec) (p : solv F) : outcome (solv F) :=
  match sol_set_name field with Some f => Ok (sol_set_f f s v p) | None => Exit end.
End Sol.
