(** LayoutSpec.v -- what a correct memory layout is, and how many bytes each object needs.
    Written from the documented shapes of the objects, independently of the create functions. *)
From Coq Require Import ZArith Lia List Bool Arith String.
From Verif Require Import Base LayoutModel.
Import ListNotations.
Open Scope string_scope.

(** ** Specification vocabulary *)
(** Region r lies in the caller's buffer of [size] bytes at address [mem]. *)
Definition inside (mem size : nat) (r : region) : Prop := mem <= r_start r /\ r_start r + r_len r <= mem + size.
(** No byte belongs to both regions. *)
Definition apart (r1 r2 : region) : Prop :=
  forall a, ~ (r_start r1 <= a < r_start r1 + r_len r1 /\ r_start r2 <= a < r_start r2 + r_len r2).
(** The object [t] of stage [s] got at least [b] bytes. *)
Definition gets (rs : list region) (t : string) (s b : nat) : Prop :=
  exists r, In r rs /\ r_tag r = t /\ r_stage r = s /\ b <= r_len r.
(** A requirement (t, n, f): stages 0..n-1 of object t need f(stage) bytes. *)
Definition need : Type := (string * nat * (nat -> nat))%type.
Definition meets (rs : list region) (q : need) : Prop :=
  let '(t, n, f) := q in forall s, s < n -> gets rs t s (f s).
(** A correct layout: everything inside the buffer, pairwise disjoint, every object got the bytes it needs. *)
Definition layout_ok (mem size : nat) (rs : list region) (needs : list need) : Prop :=
  Forall (inside mem size) rs /\ ForallOrdPairs apart rs /\ Forall (meets rs) needs.


(** Requirement of one unstaged object. *)
Definition one (t : string) (b : nat) : need := (t, 1, fun _ => b).

(** ** Needs: core workspace -- arrays of nv, ne or nc reals *)
Definition core_needs (A : abi) (nv ne nc : nat) : list need :=
  map (fun t => one t (nv * zreal A)) ["v_bkp"; "dv"; "res_g"]
  ++ map (fun t => one t (ne * zreal A)) ["pi_bkp"; "dpi"; "res_b"]
  ++ map (fun t => one t (nc * zreal A)) ["t_inv"; "lam_bkp"; "t_bkp"; "dlam"; "dt"; "res_d"; "res_m"; "res_m_bkp"; "Gamma"; "gamma"; "m"].

(** ** Needs: OCP objects *)
(** Reals of one stage of a primal vector (u, x, lower and upper slacks), of the equality multipliers and of a
    constraint-indexed vector (lower bounds, lower general, upper bounds, upper general, slack bounds). *)
Definition bux (A : abi) (d : odim) i := (onu d i + onx d i + 2 * ons d i) * zreal A.
Definition bpi (A : abi) (d : odim) i := onx d (i + 1) * zreal A.
Definition bct (A : abi) (d : odim) i := (2 * onb d i + 2 * ong d i + 2 * ons d i) * zreal A.
Definition ocp_qp_needs (A : abi) (d : odim) : list need :=
  let N := oN d in
  [one "idxb_ptr" ((N + 1) * zptr A); one "idxs_rev_ptr" ((N + 1) * zptr A); one "idxe_ptr" ((N + 1) * zptr A);
   one "BAbt_hdr" (N * zmat A); one "RSQrq_hdr" ((N + 1) * zmat A); one "DCt_hdr" ((N + 1) * zmat A);
   one "b_hdr" (N * zvec A); one "rqz_hdr" ((N + 1) * zvec A); one "d_hdr" ((N + 1) * zvec A);
   one "d_mask_hdr" ((N + 1) * zvec A); one "m_hdr" ((N + 1) * zvec A); one "Z_hdr" ((N + 1) * zvec A);
   ("idxb", N + 1, fun i => onb d i * zint A); ("idxs_rev", N + 1, fun i => (onb d i + ong d i) * zint A);
   ("idxe", N + 1, fun i => (onbue d i + onbxe d i + onge d i) * zint A); one "diag_H_flag" ((N + 1) * zint A);
   ("BAbt", N, fun i => SMAT A (onu d i + onx d i + 1) (onx d (i + 1)));
   ("RSQrq", N + 1, fun i => SMAT A (onu d i + onx d i + 1) (onu d i + onx d i));
   ("DCt", N + 1, fun i => SMAT A (onu d i + onx d i) (ong d i)); ("Z", N + 1, fun i => SVEC A (2 * ons d i));
   ("rqz", N + 1, bux A d); ("b", N, bpi A d); ("d", N + 1, bct A d); ("d_mask", N + 1, bct A d); ("m", N + 1, bct A d)].
Definition ocp_sol_needs (A : abi) (d : odim) : list need :=
  let N := oN d in
  [one "ux_hdr" ((N + 1) * zvec A); one "pi_hdr" (N * zvec A); one "lam_hdr" ((N + 1) * zvec A); one "t_hdr" ((N + 1) * zvec A);
   ("ux", N + 1, bux A d); ("pi", N, bpi A d); ("lam", N + 1, bct A d); ("t", N + 1, bct A d)].
Definition ocp_res_needs (A : abi) (d : odim) : list need :=
  let N := oN d in
  [one "res_g_hdr" ((N + 1) * zvec A); one "res_b_hdr" (N * zvec A); one "res_d_hdr" ((N + 1) * zvec A); one "res_m_hdr" ((N + 1) * zvec A);
   ("res_g", N + 1, bux A d); ("res_b", N, bpi A d); ("res_d", N + 1, bct A d); ("res_m", N + 1, bct A d)].
(** The temporaries must be large enough for the vectors of every stage. *)
Definition ocp_res_ws_needs (A : abi) (d : odim) : list need :=
  [one "tmp_nbgM_hdr" (2 * zvec A); one "tmp_nsM_hdr" (zvec A); one "tmp_lam_mask_hdr" (zvec A)]
  ++ flat_map (fun i => [("tmp_nbgM", 2, fun _ => (onb d i + ong d i) * zreal A); one "tmp_nsM" (ons d i * zreal A); one "tmp_lam_mask" (bct A d i)]) (seq 0 (oN d + 1)).
Definition ipm_ws_needs (A : abi) (d : odim) (lq_fact stat_max : nat) : list need :=
  let N := oN d in
  [one "core_workspace" (zcore A); one "res" (zres A); one "res_itref" (zres A); one "res_workspace" (zresws A);
   one "sol_step" (zsol A); one "sol_itref" (zsol A); one "qp_step" (zqp A); one "qp_itref" (zqp A);
   one "L_hdr" ((N + 1) * zmat A); one "P_hdr" ((N + 1) * zmat A); one "tmp_nuxM_nuxM_hdr" (2 * zmat A); one "Ls_hdr" (zmat A); one "AL_hdr" (2 * zmat A);
   one "l_hdr" ((N + 1) * zvec A); one "sol_step_ux_hdr" ((N + 1) * zvec A); one "sol_step_pi_hdr" (N * zvec A);
   one "sol_step_lam_hdr" ((N + 1) * zvec A); one "sol_step_t_hdr" ((N + 1) * zvec A);
   one "res_g_hdr" ((N + 1) * zvec A); one "res_b_hdr" (N * zvec A); one "res_d_hdr" ((N + 1) * zvec A); one "res_m_hdr" ((N + 1) * zvec A);
   one "Gamma_hdr" ((N + 1) * zvec A); one "gamma_hdr" ((N + 1) * zvec A); one "Pb_hdr" (N * zvec A); one "Zs_inv_hdr" ((N + 1) * zvec A);
   one "tmp_nuxM_hdr" (zvec A); one "tmp_nbgM_hdr" (4 * zvec A); one "tmp_m_hdr" ((N + 1) * zvec A);
   (* the table: one row of 21 columns for the initial point and one per iteration up to stat_max *)
   one "stat" ((stat_max + 1) * 21 * zreal A); one "use_hess_fact" ((N + 1) * zint A);
   one "sol_itref_mem" (ocp_sol_memsize A d); one "res_itref_mem" (ocp_res_memsize A d); one "res_ws_mem" (ocp_res_ws_memsize A d);
   one "core_mem" (core_memsize A (nvt d) (net d) (nct d));
   ("L", N + 1, fun i => SMAT A (onu d i + onx d i + 1) (onu d i + onx d i)); ("P", N + 1, fun i => SMAT A (onx d i + 1) (onx d i));
   ("l", N + 1, fun i => SVEC A (onu d i + onx d i)); ("Pb", N, fun i => SVEC A (onx d (i + 1))); ("Zs_inv", N + 1, fun i => SVEC A (2 * ons d i));
   ("tmp_m", N + 1, bct A d)]
  ++ (if Nat.ltb 0 lq_fact then [one "Lh_hdr" ((N + 1) * zmat A); one "lq0_hdr" (zmat A); ("Lh", N + 1, fun i => SMAT A (onu d i + onx d i + 1) (onu d i + onx d i))] else [])
  ++ flat_map (fun i => [one "tmp_nuxM" ((onu d i + onx d i) * zreal A); ("tmp_nbgM", 4, fun _ => (onb d i + ong d i) * zreal A)]) (seq 0 (N + 1)).
Definition red_ws_needs (A : abi) (d : odim) : list need :=
  [one "tmp_nuxM_hdr" (2 * zvec A); one "tmp_nbgM_hdr" (zvec A)]
  ++ flat_map (fun i => [one "e_imask_ux" ((onu d i + onx d i) * zint A); one "e_imask_d" ((onb d i + ong d i) * zint A);
       ("tmp_nuxM", 2, fun _ => (onu d i + onx d i) * zreal A); one "tmp_nbgM" ((onb d i + ong d i) * zreal A)]) (seq 0 (oN d + 1)).
(** Condensing: Gamma[i] maps (u_i,..,u_0,x_0,1) to x_{i+1}. *)
Definition cond_ws_needs (A : abi) (d : odim) (cond_alg : nat) : list need :=
  let N := oN d in
  [one "Gamma_hdr" (N * zmat A); one "Gammab_hdr" (N * zvec A); one "tmp_nbgM_hdr" (zvec A); one "tmp_nuxM_hdr" (zvec A);
   ("Gamma", N, fun i => SMAT A (nsum (i + 1) (onu d) + onx d 0 + 1) (onx d (i + 1))); ("Gammab", N, fun i => SVEC A (onx d (i + 1)))]
  ++ (if Nat.eqb cond_alg 0
      then [one "L_hdr" ((N + 1) * zmat A); one "Lx_hdr" (zmat A); one "AL_hdr" (zmat A); one "l_hdr" ((N + 1) * zvec A);
            ("L", N + 1, fun i => SMAT A (onu d i + onx d i + 1) (onu d i + onx d i)); ("l", N + 1, fun i => SVEC A (onu d i + onx d i))]
      else [one "GammaQ_hdr" (zmat A)])
  ++ flat_map (fun i => [one "tmp_nuxM" ((onu d i + onx d i) * zreal A); one "tmp_nbgM" ((onb d i + ong d i) * zreal A)]) (seq 0 (N + 1)).

(** ** Needs: dense objects *)
Definition dense_qp_needs (A : abi) (d : dnd) : list need :=
  let nc := 2 * (xnb d + xng d + xns d) in
  [one "Hv_hdr" (zmat A); one "A_hdr" (zmat A); one "Ct_hdr" (zmat A); one "gz_hdr" (zvec A); one "b_hdr" (zvec A); one "d_hdr" (zvec A);
   one "d_mask_hdr" (zvec A); one "m_hdr" (zvec A); one "Z_hdr" (zvec A); one "idxb" (xnb d * zint A); one "idxs_rev" ((xnb d + xng d) * zint A);
   one "Hv" (SMAT A (xnv d + 1) (xnv d)); one "A" (SMAT A (xne d) (xnv d)); one "Ct" (SMAT A (xnv d) (xng d));
   one "gz" ((xnv d + 2 * xns d) * zreal A); one "b" (xne d * zreal A); one "d" (nc * zreal A); one "d_mask" (nc * zreal A); one "m" (nc * zreal A);
   one "Z" (2 * xns d * zreal A)].
Definition dense_sol_needs (A : abi) (d : dnd) : list need :=
  let nc := 2 * (xnb d + xng d + xns d) in
  [one "v_hdr" (zvec A); one "pi_hdr" (zvec A); one "lam_hdr" (zvec A); one "t_hdr" (zvec A);
   one "v" ((xnv d + 2 * xns d) * zreal A); one "pi" (xne d * zreal A); one "lam" (nc * zreal A); one "t" (nc * zreal A)].
Definition dense_res_needs (A : abi) (d : dnd) : list need :=
  let nc := 2 * (xnb d + xng d + xns d) in
  [one "res_g_hdr" (zvec A); one "res_b_hdr" (zvec A); one "res_d_hdr" (zvec A); one "res_m_hdr" (zvec A);
   one "res_g" ((xnv d + 2 * xns d) * zreal A); one "res_b" (xne d * zreal A); one "res_d" (nc * zreal A); one "res_m" (nc * zreal A)].
Definition dense_res_ws_needs (A : abi) (d : dnd) : list need :=
  [one "tmp_nbg_hdr" (2 * zvec A); one "tmp_ns_hdr" (zvec A); one "tmp_lam_mask_hdr" (zvec A);
   ("tmp_nbg", 2, fun _ => (xnb d + xng d) * zreal A); one "tmp_ns" (xns d * zreal A); one "tmp_lam_mask" (2 * (xnb d + xng d + xns d) * zreal A)].
(** ** Needs: dimension object -- ten int arrays of N+1 entries *)
Definition ocp_dim_needs (A : abi) (N : nat) : list need :=
  map (fun t => one t ((N + 1) * zint A)) ["nx"; "nu"; "nb"; "nbx"; "nbu"; "ng"; "ns"; "nbxe"; "nbue"; "nge"].
