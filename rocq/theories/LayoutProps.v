(** LayoutProps.v -- properties C06, C07, C08 (memory layouts).  Specification: LayoutSpec.v. *)
From Coq Require Import ZArith Lia List Bool Arith String.
From Verif Require Import Base LayoutModel LayoutSpec LayoutProofs LayoutIpmProofs.
Import ListNotations.
Open Scope string_scope.

(** C06: for all nv, ne, nc and every buffer address, the 17 arrays carved by create_core_qp_ipm are inside the
    memsize bytes asked from the caller, pairwise disjoint, and each has room for its nv / ne / nc reals. *)
Theorem C06_core_layout A nv ne nc mem :
  layout_ok mem (core_memsize A nv ne nc) (fst (run mem (core_create A nv ne nc))) (core_needs A nv ne nc).
Proof. exact (core_layout A nv ne nc mem). Qed.
Print Assumptions C06_core_layout.
(** ... and the stage vectors of the OCP solver aliased into these arrays stay in them, disjoint, with the bytes they need. *)
Theorem C06_stage_views A d c :
  (forall t, In t ["dv"; "res_g"] -> layout_ok c (nvt d * zreal A) (parts t c (ipm_alias A d t)) [(t, oN d + 1, bux A d)]) /\
  (forall t, In t ["dpi"; "res_b"] -> layout_ok c (net d * zreal A) (parts t c (ipm_alias A d t)) [(t, oN d, bpi A d)]) /\
  (forall t, In t ["dlam"; "dt"; "res_d"; "res_m"; "Gamma"; "gamma"] ->
     layout_ok c (nct d * zreal A) (parts t c (ipm_alias A d t)) [(t, oN d + 1, bct A d)]).
Proof. exact (conj (fun t => ipm_alias_prim A d t c) (conj (fun t => ipm_alias_eq A d t c) (fun t => ipm_alias_ineq A d t c))). Qed.
Print Assumptions C06_stage_views.

(** C07: the same for d_ocp_qp_create, for all dimensions and every buffer address (unaligned ones included). *)
Theorem C07_ocp_qp_layout A d mem : abi_ok A ->
  layout_ok mem (ocp_qp_memsize A d) (fst (run mem (ocp_qp_create A d))) (ocp_qp_needs A d).
Proof. exact (ocp_qp_layout A d mem). Qed.
Print Assumptions C07_ocp_qp_layout.

(** C08: the same for the other objects of the library. *)
Theorem C08_ocp_qp_sol_layout A d mem : abi_ok A ->
  layout_ok mem (ocp_sol_memsize A d) (fst (run mem (ocp_sol_create A d))) (ocp_sol_needs A d).
Proof. exact (ocp_sol_layout A d mem). Qed.
Print Assumptions C08_ocp_qp_sol_layout.
Theorem C08_ocp_qp_res_layout A d mem : abi_ok A ->
  layout_ok mem (ocp_res_memsize A d) (fst (run mem (ocp_res_create A d))) (ocp_res_needs A d).
Proof. exact (ocp_res_layout A d mem). Qed.
Print Assumptions C08_ocp_qp_res_layout.
Theorem C08_ocp_qp_res_ws_layout A d mem : abi_ok A ->
  layout_ok mem (ocp_res_ws_memsize A d) (fst (run mem (ocp_res_ws_create A d))) (ocp_res_ws_needs A d).
Proof. exact (ocp_res_ws_layout A d mem). Qed.
Print Assumptions C08_ocp_qp_res_ws_layout.
Theorem C08_ocp_qp_dim_layout A N mem :
  layout_ok mem (ocp_dim_memsize A N) (fst (run mem (ocp_dim_create A N))) (ocp_dim_needs A N).
Proof. exact (ocp_dim_layout A N mem). Qed.
Print Assumptions C08_ocp_qp_dim_layout.
Theorem C08_ocp_qp_ipm_ws_layout A d lq_fact stat_max mem : abi_ok A ->
  layout_ok mem (ipm_ws_memsize A d lq_fact stat_max) (fst (run mem (ipm_ws_create A d lq_fact stat_max))) (ipm_ws_needs A d lq_fact stat_max).
Proof. exact (ipm_ws_layout A d lq_fact stat_max mem). Qed.
Print Assumptions C08_ocp_qp_ipm_ws_layout.
Theorem C08_reduce_eq_dof_ws_layout A d mem : abi_ok A ->
  layout_ok mem (red_ws_memsize A d) (fst (run mem (red_ws_create A d))) (red_ws_needs A d).
Proof. exact (red_ws_layout A d mem). Qed.
Print Assumptions C08_reduce_eq_dof_ws_layout.
Theorem C08_cond_ws_layout A d cond_alg mem : abi_ok A ->
  layout_ok mem (cond_ws_memsize A d cond_alg) (fst (run mem (cond_ws_create A d cond_alg))) (cond_ws_needs A d cond_alg).
Proof. exact (cond_ws_layout A d cond_alg mem). Qed.
Print Assumptions C08_cond_ws_layout.
Theorem C08_dense_qp_layout A d mem : abi_ok A ->
  layout_ok mem (dense_qp_memsize A d) (fst (run mem (dense_qp_create A d))) (dense_qp_needs A d).
Proof. exact (dense_qp_layout A d mem). Qed.
Print Assumptions C08_dense_qp_layout.
Theorem C08_dense_qp_sol_layout A d mem : abi_ok A ->
  layout_ok mem (dense_sol_memsize A d) (fst (run mem (dense_sol_create A d))) (dense_sol_needs A d).
Proof. exact (dense_sol_layout A d mem). Qed.
Print Assumptions C08_dense_qp_sol_layout.
Theorem C08_dense_qp_res_layout A d mem : abi_ok A ->
  layout_ok mem (dense_res_memsize A d) (fst (run mem (dense_res_create A d))) (dense_res_needs A d).
Proof. exact (dense_res_layout A d mem). Qed.
Print Assumptions C08_dense_qp_res_layout.
Theorem C08_dense_qp_res_ws_layout A d mem : abi_ok A ->
  layout_ok mem (dense_res_ws_memsize A d) (fst (run mem (dense_res_ws_create A d))) (dense_res_ws_needs A d).
Proof. exact (dense_res_ws_layout A d mem). Qed.
Print Assumptions C08_dense_qp_res_ws_layout.

(** Non-vacuity: an ABI like x86-64 with BLASFEO reference sizes, a 2-stage problem with soft bounds. *)
Definition abi64 : abi := mkabi 4 8 32 24 8 400 100 40 60 120 (fun m n => round64 (m * n * 8)) (fun n => round64 (n * 8)) (fun m n => m * 8).
Definition dim_ex : odim := mkod 2 (fun i => if Nat.eqb i 0 then 0 else 3) (fun i => if Nat.eqb i 2 then 0 else 2)
  (fun i => 4) (fun i => i) (fun i => 2) (fun _ => 0) (fun _ => 0) (fun _ => 0).
Example C07_hyp_met : abi_ok abi64.
Proof. intros n. unfold abi64. cbn [zreal SVEC]. apply round64_ge. Qed.
Example C07_nontrivial : List.length (fst (run 13 (ocp_qp_create abi64 dim_ex))) = 47 /\ snd (run 13 (ocp_qp_create abi64 dim_ex)) <= 13 + ocp_qp_memsize abi64 dim_ex.
Proof. split; [vm_compute; reflexivity|]. apply Nat.leb_le. vm_compute. reflexivity. Qed.
