(** ErkModel.v -- sim_core/x_sim_rk.c and sim_core/x_sim_erk.c: Butcher tableaux and the explicit Runge-Kutta integrator.
    The workspace is ONE flat array of REALs, as in the C code, every pointer is an offset into it, and every access is
    checked against the size of the block: an access outside it is [UB].  Sizes are counted in REALs (every size in the C
    file is a multiple of sizeof(REAL)) and are natural numbers (int overflow is not modelled). *)
From Coq Require Import ZArith Lia List Bool Arith String.
From Verif Require Import Base ArithF AuxModel.

Section Erk.
Context {F : Type} {AF : Arith F}.
(** C conversion of a REAL argument to an int parameter (include/hpipm_d_sim_erk.h lines 59-61 declare  int t  in the callbacks). *)
Variable toint : F -> Z.

(** struct SIM_RK_DATA, include/hpipm_d_sim_rk.h lines 45-53: the memory block holds A (column major), B, C. *)
Record rkd := mkrkd { rk_mem : nat -> F; rk_ns : nat; rk_expl : Z; rk_A : nat; rk_B : nat; rk_C : nat; rk_size : nat }.

(** SIM_RK_DATA_MEMSIZE, x_sim_rk.c lines 38-49 *)
Definition rk_memsize (ns : nat) : nat := 1*ns*ns + 2*ns.

(** SIM_RK_DATA_CREATE, x_sim_rk.c lines 52-89 ([mem]: whatever the block holds; [expl] is left as it was) *)
Definition rk_create (ns : nat) (mem : nat -> F) (expl : Z) : rkd :=
  let d := 0 in let pA := d in
  let d := d + ns*ns in let pB := d in
  let d := d + ns in let pC := d in
  mkrkd mem ns expl pA pB pC (rk_memsize ns).

(** checked write into a memory block of [sz] REALs, and checked read *)
Definition wrm (sz : nat) (m : nat -> F) (i : nat) (v : F) : outcome (nat -> F) := if Nat.ltb i sz then Ok (upd m i v) else UB.
Definition rdm (sz : nat) (m : nat -> F) (i : nat) : outcome F := if Nat.ltb i sz then Ok (m i) else UB.

(** a list of assignments  m[off+i] = v *)
Fixpoint wr_list (sz : nat) (off : nat) (l : list (nat * F)) (m : nat -> F) : outcome (nat -> F) :=
  match l with nil => Ok m | (i, v) :: r => let! m' := wrm sz m (off + i) v in wr_list sz off r m' end.

(** SIM_RK_DATA_INIT_DEFAULT, x_sim_rk.c lines 93-179 *)
Definition rk_init_default (field : string) (rk : rkd) : outcome rkd :=
  let sz := rk_size rk in
  if hpipm_strcmp field "ERK4" then
    if Nat.eqb (rk_ns rk) 4 then
      let ns := 4 in
      let! m := wr_list sz (rk_A rk)
        ((0+ns*0, lit 0 1) :: (0+ns*1, lit 0 1) :: (0+ns*2, lit 0 1) :: (0+ns*3, lit 0 1) ::
         (1+ns*0, lit 1 2) :: (1+ns*1, lit 0 1) :: (1+ns*2, lit 0 1) :: (1+ns*3, lit 0 1) ::
         (2+ns*0, lit 0 1) :: (2+ns*1, lit 1 2) :: (2+ns*2, lit 0 1) :: (2+ns*3, lit 0 1) ::
         (3+ns*0, lit 0 1) :: (3+ns*1, lit 0 1) :: (3+ns*2, lit 1 1) :: (3+ns*3, lit 0 1) :: nil) (rk_mem rk) in
      let! m := wr_list sz (rk_B rk)
        ((0, fdiv (lit 1 1) (lit 6 1)) :: (1, fdiv (lit 1 1) (lit 3 1)) ::
         (2, fdiv (lit 1 1) (lit 3 1)) :: (3, fdiv (lit 1 1) (lit 6 1)) :: nil) m in
      let! m := wr_list sz (rk_C rk) ((0, lit 0 1) :: (1, lit 1 2) :: (2, lit 1 2) :: (3, lit 1 1) :: nil) m in
      Ok (mkrkd m (rk_ns rk) 1 (rk_A rk) (rk_B rk) (rk_C rk) sz)
    else Exit
  else if hpipm_strcmp field "ERK2" then
    if Nat.eqb (rk_ns rk) 2 then
      let ns := 2 in
      let! m := wr_list sz (rk_A rk) ((0+ns*0, lit 0 1) :: (0+ns*1, lit 0 1) :: (1+ns*0, lit 1 2) :: (1+ns*1, lit 0 1) :: nil) (rk_mem rk) in
      let! m := wr_list sz (rk_B rk) ((0, lit 0 1) :: (1, lit 1 1) :: nil) m in
      let! m := wr_list sz (rk_C rk) ((0, lit 0 1) :: (1, lit 1 2) :: nil) m in
      Ok (mkrkd m (rk_ns rk) 1 (rk_A rk) (rk_B rk) (rk_C rk) sz)
    else Exit
  else Exit.

(** SIM_RK_DATA_SET_ALL, x_sim_rk.c lines 183-206 *)
Definition rk_set_all (expl : Z) (A B C : nat -> F) (rk : rkd) : outcome rkd :=
  let sz := rk_size rk in let ns := rk_ns rk in
  let! m := oloop ns (fun jj m => oloop ns (fun ii m => wrm sz m (rk_A rk + (ii+ns*jj)) (A (ii+ns*jj))) m) (rk_mem rk) in
  let! m := oloop ns (fun ii m => wrm sz m (rk_B rk + ii) (B ii)) m in
  let! m := oloop ns (fun ii m => wrm sz m (rk_C rk + ii) (C ii)) m in
  Ok (mkrkd m ns expl (rk_A rk) (rk_B rk) (rk_C rk) sz).

(** struct SIM_ERK_ARG and SIM_ERK_ARG_SET_ALL, x_sim_erk.c lines 60-71.  (The struct holds a pointer to the tableau: here its value.) *)
Record earg := mkearg { e_rk : rkd; e_h : F; e_steps : nat }.

(** A callback  void ode(int t, REAL *x, REAL *p, void *ode_args, REAL *xdot).  It is assumed to read x and p only within
    their lengths, and to write exactly the entries of xdot; [ode_args] is part of the function. *)
Definition cback := Z -> (nat -> F) -> (nat -> F) -> (nat -> F).

(** struct SIM_ERK_WS, include/hpipm_d_sim_erk.h lines 57-79 *)
Record ews := mkews {
  w_arg : earg; w_nx : nat; w_np : nat; w_nf : nat; w_na : nat; w_nfmax : nat; w_namax : nat;
  w_mem : nat -> F; w_size : nat;
  w_p : nat; w_xfor : nat; w_K : nat; w_xtmp : nat; w_xtraj : nat; w_l : nat; w_adjin : nat; w_adjtmp : nat;
  w_ode : cback; w_vde : cback }.

Definition set_mem (w : ews) (m : nat -> F) : ews :=
  mkews (w_arg w) (w_nx w) (w_np w) (w_nf w) (w_na w) (w_nfmax w) (w_namax w) m (w_size w)
        (w_p w) (w_xfor w) (w_K w) (w_xtmp w) (w_xtraj w) (w_l w) (w_adjin w) (w_adjtmp w) (w_ode w) (w_vde w).
Definition set_n (w : ews) (nf na : nat) : ews :=
  mkews (w_arg w) (w_nx w) (w_np w) nf na (w_nfmax w) (w_namax w) (w_mem w) (w_size w)
        (w_p w) (w_xfor w) (w_K w) (w_xtmp w) (w_xtraj w) (w_l w) (w_adjin w) (w_adjtmp w) (w_ode w) (w_vde w).
Definition set_cb (w : ews) (ode vde : cback) : ews :=
  mkews (w_arg w) (w_nx w) (w_np w) (w_nf w) (w_na w) (w_nfmax w) (w_namax w) (w_mem w) (w_size w)
        (w_p w) (w_xfor w) (w_K w) (w_xtmp w) (w_xtraj w) (w_l w) (w_adjin w) (w_adjtmp w) ode vde.

(** SIM_ERK_WS_MEMSIZE, x_sim_erk.c lines 75-103, in REALs *)
Definition erk_memsize (a : earg) (nx np nf_max na_max : nat) : nat :=
  let ns := rk_ns (e_rk a) in
  let nX := nx*(1+nf_max) in
  let steps := e_steps a in
  let size := 0 in
  let size := size + 1*np in
  let size := size + 1*nX in
  let size := size + 1*ns*nX in
  let size := size + 1*nX in
  if Nat.ltb 0 na_max then
    let size := size + 1*nx*(ns*steps+1) in
    let size := size + 1*nf_max*(steps+1) in
    let size := size + 1*(nx+nf_max) in
    size + 1*nf_max*ns
  else size.

(** SIM_ERK_WS_CREATE, x_sim_erk.c lines 107-190 ([ode0]: the callbacks are unset until the setters run) *)
Definition erk_create (a : earg) (nx np nf_max na_max : nat) (ode0 : cback) : ews :=
  let ns := rk_ns (e_rk a) in
  let nX := nx*(1+nf_max) in
  let steps := e_steps a in
  let d := 0 in
  let p := d in let d := d + np in
  let xfor := d in let d := d + nX in
  let K := d in let d := d + ns*nX in
  let xtmp := d in let d := d + nX in
  let xtraj := d in let d := d + nx*(ns*steps+1) in
  let l := d in let d := d + nf_max*(steps+1) in
  let adjin := d in let d := d + (nx+nf_max) in
  let adjtmp := d in
  if Nat.ltb 0 na_max
  then mkews a nx np 0 0 nf_max na_max (fun _ => f0) (erk_memsize a nx np nf_max na_max) p xfor K xtmp xtraj l adjin adjtmp ode0 ode0
  else mkews a nx np 0 0 nf_max na_max (fun _ => f0) (erk_memsize a nx np nf_max na_max) p xfor K xtmp 0 0 0 0 ode0 ode0.

(** for(ii=0; ii<n; ii++) dst[ii] = src(ii), dst a pointer into the workspace *)
Definition wr_vec (sz dst n : nat) (src : nat -> F) (m : nat -> F) : outcome (nat -> F) :=
  oloop n (fun ii m => wrm sz m (dst + ii) (src ii)) m.

(** SIM_ERK_WS_SET_ALL, x_sim_erk.c lines 194-259 *)
Definition erk_set_all (nf na : nat) (x fs bs p : nat -> F) (ode vde : cback) (w : ews) : outcome ews :=
  if Nat.ltb (w_nfmax w) nf then Exit
  else if orb (Nat.ltb (w_nfmax w) nf) (Nat.ltb (w_namax w) na) then Exit
  else
    let w := set_n w nf na in
    let nx := w_nx w in let np := w_np w in
    let nA := np + nx in
    let steps := e_steps (w_arg w) in
    let sz := w_size w in
    let! m := wr_vec sz (w_xfor w) nx x (w_mem w) in
    let! m := oloop (nx*nf) (fun ii m => wrm sz m (w_xfor w + (nx + ii)) (fs ii)) m in
    let! m := wr_vec sz (w_p w) np p m in
    let! m := if Nat.ltb 0 na then
                let! m := oloop np (fun ii m => wrm sz m (w_l w + (nA*steps + ii)) f0) m in
                oloop nx (fun ii m => wrm sz m (w_l w + (nA*steps + np + ii)) (bs ii)) m
              else Ok m in
    Ok (set_cb (set_mem w m) ode vde).

(** SIM_ERK_WS_SET_NF, x_sim_erk.c lines 263-270: no check against nf_max *)
Definition erk_set_nf (nf : nat) (w : ews) : ews := set_n w nf (w_na w).
(** SIM_ERK_WS_SET_X, lines 275-289 *)
Definition erk_set_x (x : nat -> F) (w : ews) : outcome ews :=
  let! m := wr_vec (w_size w) (w_xfor w) (w_nx w) x (w_mem w) in Ok (set_mem w m).
(** SIM_ERK_WS_SET_FS, lines 294-309 *)
Definition erk_set_fs (fs : nat -> F) (w : ews) : outcome ews :=
  let! m := wr_vec (w_size w) (w_xfor w + w_nx w) (w_nx w * w_nf w) fs (w_mem w) in Ok (set_mem w m).
(** SIM_ERK_WS_GET_X, lines 314-328: what the loop writes to x, entry by entry *)
Definition erk_get_x (w : ews) (i : nat) : outcome F := if Nat.ltb i (w_nx w) then rdm (w_size w) (w_mem w) (w_xfor w + i) else UB.
(** SIM_ERK_WS_SET_P, lines 332-346 *)
Definition erk_set_p (p : nat -> F) (w : ews) : outcome ews :=
  let! m := wr_vec (w_size w) (w_p w) (w_np w) p (w_mem w) in Ok (set_mem w m).
(** SIM_ERK_WS_SET_ODE / SET_VDE_FOR, lines 350-368 *)
Definition erk_set_ode (ode : cback) (w : ews) : ews := set_cb w ode (w_vde w).
Definition erk_set_vde_for (vde : cback) (w : ews) : ews := set_cb w (w_ode w) vde.
(** SIM_ERK_WS_GET_FS, lines 384-399 *)
Definition erk_get_fs (w : ews) (i : nat) : outcome F :=
  if Nat.ltb i (w_nx w * w_nf w) then rdm (w_size w) (w_mem w) (w_xfor w + w_nx w + i) else UB.

(** the n REALs a pointer gives a callback access to *)
Definition win (m : nat -> F) (off n : nat) : nat -> F := fun i => if Nat.ltb i n then m (off + i) else f0.

(** call of a callback with x at offset px (nX entries), p at pp (np entries), xdot at po (nX entries) *)
Definition call_cb (cb : cback) (sz : nat) (t : F) (px nX pp np po : nat) (m : nat -> F) : outcome (nat -> F) :=
  if andb (andb (Nat.leb (px + nX) sz) (Nat.leb (pp + np) sz)) (Nat.leb (po + nX) sz)
  then Ok (vset m po nX (cb (toint t) (win m px nX) (win m pp np)))
  else UB.

(** body of the stage loop, x_sim_erk.c lines 471-504 *)
Definition erk_stage (rk : rkd) (h : F) (w : ews) (nX : nat) (t : F) (ss : nat) (m : nat -> F) : outcome (nat -> F) :=
  let sz := w_size w in let ns := rk_ns rk in
  let! m := oloop nX (fun ii m => let! v := rdm sz m (w_xfor w + ii) in wrm sz m (w_xtmp w + ii) v) m in
  let! m := oloop ss (fun ii m =>
      let! a := rdm (rk_size rk) (rk_mem rk) (rk_A rk + (ss + ns*ii)) in
      if negb (a =? lit 0 1)%F then
        let a := (a * h)%F in
        oloop nX (fun jj m => let! v := rdm sz m (w_xtmp w + jj) in let! k := rdm sz m (w_K w + (jj + ii*nX)) in
                              wrm sz m (w_xtmp w + jj) (v + a * k)%F) m
      else Ok m) m in
  let! c := rdm (rk_size rk) (rk_mem rk) (rk_C rk + ss) in
  call_cb (if Nat.ltb 0 (w_nf w) then w_vde w else w_ode w) sz (t + h * c)%F (w_xtmp w) nX (w_p w) (w_np w) (w_K w + ss*nX) m.

(** weighted sum of the stage derivatives, x_sim_erk.c lines 505-510 *)
Definition erk_update (rk : rkd) (h : F) (w : ews) (nX : nat) (m : nat -> F) : outcome (nat -> F) :=
  let sz := w_size w in
  oloop (rk_ns rk) (fun ss m =>
    let! b := rdm (rk_size rk) (rk_mem rk) (rk_B rk + ss) in
    let b := (h * b)%F in
    oloop nX (fun ii m => let! v := rdm sz m (w_xfor w + ii) in let! k := rdm sz m (w_K w + (ii + ss*nX)) in
                          wrm sz m (w_xfor w + ii) (v + b * k)%F) m) m.

(** body of the step loop, x_sim_erk.c lines 460-512; the time is carried along with the memory *)
Definition erk_step_c (rk : rkd) (h : F) (w : ews) (nX : nat) (mt : (nat -> F) * F) : outcome ((nat -> F) * F) :=
  let (m, t) := mt in
  let! m := oloop (rk_ns rk) (erk_stage rk h w nX t) m in
  let! m := erk_update rk h w nX m in
  Ok (m, (t + h)%F).

(** SIM_ERK_SOLVE, x_sim_erk.c lines 403-577.  steps and h come from the argument stored at creation, the tableau from
    the argument of the call; na>0 exits, so the adjoint sweep is never reached. *)
Definition erk_solve (arg : earg) (w : ews) : outcome ews :=
  let steps := e_steps (w_arg w) in
  let h := e_h (w_arg w) in
  let rk := e_rk arg in
  let nX := w_nx w * (1 + w_nf w) in
  if Nat.ltb 0 (w_na w) then Exit
  else
    let! mt := oloop steps (fun _ mt => erk_step_c rk h w nX mt) (w_mem w, lit 0 1) in
    Ok (set_mem w (fst mt)).

End Erk.
Arguments rkd F : clear implicits.
Arguments earg F : clear implicits.
Arguments ews F : clear implicits.
Arguments cback F : clear implicits.
