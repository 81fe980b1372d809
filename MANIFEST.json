{
 "claims": [
  {
   "property": "C01",
   "status": "proved",
   "theorems": [
    "C01_set_get_history",
    "C01_unknown_name_exits",
    "C01_out_of_range_stage_corrupts"
   ],
   "note": ""
  },
  {
   "property": "C02",
   "status": "proved",
   "theorems": [
    "C02_nb_is_nbx_plus_nbu"
   ],
   "note": ""
  },
  {
   "property": "C03",
   "status": "proved",
   "theorems": [
    "C03_copy_complete",
    "C03_deepcopy_complete",
    "C03_copy_horizon_checked"
   ],
   "note": ""
  },
  {
   "property": "C04",
   "status": "proved",
   "theorems": [
    "C04_strcmp_exact",
    "C04_dispatch_exact"
   ],
   "note": ""
  },
  {
   "property": "C05",
   "status": "proved",
   "theorems": [
    "C05_zero_memset_exact"
   ],
   "note": ""
  },
  {
   "property": "C09",
   "status": "proved",
   "theorems": [
    "C09_block_sizes_partition",
    "C09_zero_blocks"
   ],
   "note": ""
  },
  {
   "property": "C10",
   "status": "proved",
   "theorems": [
    "C10_dims_conserved",
    "C10_zero_block_refuted"
   ],
   "note": "holds when all blocks but the last are non-empty; the default block sizes with N2>N violate that (refuted witness)"
  },
  {
   "property": "C11",
   "status": "proved",
   "theorems": [
    "C11_cond_dims_conserved"
   ],
   "note": ""
  },
  {
   "property": "C12",
   "status": "proved",
   "theorems": [
    "C12_scenario_tree_wf",
    "C12_Nr_gt_Nh_refuted"
   ],
   "note": "proved for Nr<=Nh; refuted outside (memory overrun), int overflow not modelled"
  },
  {
   "property": "C06",
   "status": "proved",
   "theorems": [
    "C06_core_layout",
    "C06_stage_views"
   ],
   "note": ""
  },
  {
   "property": "C07",
   "status": "proved",
   "theorems": [
    "C07_ocp_qp_layout"
   ],
   "note": "BLASFEO size functions abstract; assumption abi_ok: a vector of n reals needs at least n reals"
  },
  {
   "property": "C08",
   "status": "proved",
   "theorems": [
    "C08_ocp_qp_sol_layout",
    "C08_ocp_qp_res_layout",
    "C08_ocp_qp_res_ws_layout",
    "C08_ocp_qp_dim_layout",
    "C08_ocp_qp_ipm_ws_layout",
    "C08_reduce_eq_dof_ws_layout",
    "C08_cond_ws_layout",
    "C08_dense_qp_layout",
    "C08_dense_qp_sol_layout",
    "C08_dense_qp_res_layout",
    "C08_dense_qp_res_ws_layout"
   ],
   "note": "same abi_ok assumption; nested objects are counted by their own memsize"
  },
  {
   "property": "C21",
   "status": "partial",
   "theorems": [
    "C21_split_step",
    "C21_split_step_target",
    "C21_joint_step_partial",
    "C21_joint_step_target",
    "C21_next_iterate",
    "C21_joint_step_refuted",
    "C21_split_target_refuted",
    "C21_joint_target_refuted"
   ],
   "note": "proved (exact arithmetic) for separate steps, and for a common step when no constraint has both directions negative or when the target exceeds the tolerance; the unrestricted statement is false of the generic C code: split_step=0 can lengthen alpha again (refuted with IEEE witnesses). AVX variants not modelled"
  },
  {
   "property": "C22",
   "status": "proved",
   "theorems": [
    "C22_clipping",
    "C22_update_exact"
   ],
   "note": "clipping over IEEE binary64 including NaN/inf"
  },
  {
   "property": "C25",
   "status": "proved",
   "theorems": [
    "C25_elimination",
    "C25_variants_agree"
   ],
   "note": "exact arithmetic"
  },
  {
   "property": "C18",
   "status": "proved",
   "theorems": [
    "C18_residuals",
    "C18_stationarity_is_gradient",
    "C18_mu",
    "C18_norms",
    "C18_linear_residuals"
   ],
   "note": "exact arithmetic; idxb/idxs_rev legal"
  },
  {
   "property": "C19",
   "status": "proved",
   "theorems": [
    "C19_objective",
    "C19_gap_identity",
    "C19_lower_bound",
    "C19_gap_is_complementarity"
   ],
   "note": "exact arithmetic"
  },
  {
   "property": "C20",
   "status": "proved",
   "theorems": [
    "C20_zero_residuals_optimal",
    "C20_suboptimality"
   ],
   "note": "exact arithmetic; m=0, masks 0/1"
  },
  {
   "property": "C13",
   "status": "proved",
   "theorems": [
    "C13_roundtrip",
    "C13_roundtrip_any_arith",
    "C13_frame",
    "C13_frame_indices",
    "C13_whole_parts",
    "C13_history",
    "C13_set_el",
    "C13_names",
    "C13_get_names",
    "C13_api_set",
    "C13_set_all",
    "C13_set_all_rest",
    "C13_meaning_dynamics",
    "C13_meaning_cost",
    "C13_meaning_constraints",
    "C13_duplicated_rows",
    "C13_duplicated_rows_refuted"
   ],
   "note": "upper bounds exact in R (double negation in IEEE)"
  },
  {
   "property": "C14",
   "status": "proved",
   "theorems": [
    "C14_upper_bounds_negated",
    "C14_masks_default",
    "C14_masks_01",
    "C14_mask_independent"
   ],
   "note": ""
  },
  {
   "property": "C15",
   "status": "proved",
   "theorems": [
    "C15_idxs_rev_set",
    "C15_idxs_agrees",
    "C15_J_agrees",
    "C15_idxs_roundtrip",
    "C15_created_all_hard",
    "C15_reset_idxs_refuted"
   ],
   "note": "proved from an all-hard stage; re-setting idxs keeps stale entries (refuted)"
  },
  {
   "property": "C16",
   "status": "partial",
   "theorems": [
    "C16_set_all_zero_partial",
    "C16_soft_map_refuted"
   ],
   "note": "everything but the soft-constraint map is reset; the map is reset only in its first ns entries (refuted witness)"
  },
  {
   "property": "C17",
   "status": "proved",
   "theorems": [
    "C17_copy_all"
   ],
   "note": ""
  },
  {
   "property": "C36",
   "status": "proved",
   "theorems": [
    "C36_bound_selection",
    "C36_idxb_roundtrip"
   ],
   "note": ""
  },
  {
   "property": "C37",
   "status": "partial",
   "theorems": [
    "C37_idxe_parts",
    "C37_J_marks_refuted"
   ],
   "note": "index-vector setters proved; the J setters are wrong (refuted witness: | for &)"
  },
  {
   "property": "C38",
   "status": "proved",
   "theorems": [
    "C38_rhs_zero"
   ],
   "note": ""
  },
  {
   "property": "C27",
   "status": "proved",
   "theorems": [
    "C27_newton_step",
    "C27_linear_residual",
    "C27_convex_newton",
    "C27_newton_unique",
    "C27_shared_slack_refuted"
   ],
   "note": "exact arithmetic; slack sharing excluded (refuted witness: cross terms missing); N=0 not covered (the C code reads stage 1)"
  },
  {
   "property": "C39",
   "status": "partial",
   "theorems": [
    "C39_convex_returns",
    "C39_retry_terminates",
    "C39_fuel_irrelevant",
    "C39_nonconvex_case",
    "C39_nan_hessian_never_returns_refuted",
    "C39_fresh_workspace_never_returns_refuted"
   ],
   "note": "exact arithmetic: returns for every QP, convex or not, when preg_last is reg_prim (as the solver sets it) or positive; at the first attempt if strictly convex. Refuted without these: with a NaN in the last stage input Hessian the retry loop never ends (binary64), nor with preg_last = 0 <> reg_prim (a freshly created workspace, KKT function called directly) on a non-convex QP"
  },
  {
   "property": "C26",
   "status": "proved",
   "theorems": [
    "C26_unconstrained_kkt",
    "C26_convex_no_breakdown",
    "C26_global_minimum"
   ],
   "note": "exact arithmetic; N=0 not covered (the C code reads stage 1)"
  },
  {
   "property": "C40",
   "status": "partial",
   "theorems": [
    "C40_hessian_restored",
    "C40_hessian_restored_float_refuted"
   ],
   "note": "holds in exact arithmetic; refuted in binary64 with the default reg_prim (weight 2.0 becomes 1.9999999999999998)"
  },
  {
   "property": "C33",
   "status": "proved",
   "theorems": [
    "C33_roundtrip",
    "C33_frame",
    "C33_frame_t",
    "C33_whole_parts",
    "C33_history",
    "C33_set_all",
    "C33_get_all",
    "C33_get_all_set_all",
    "C33_set_zero",
    "C33_copy_all",
    "C33_names",
    "C33_meaning"
   ],
   "note": ""
  },
  {
   "property": "C34",
   "status": "partial",
   "theorems": [
    "C34_setter",
    "C34_set_get",
    "C34_names",
    "C34_names_complete",
    "C34_get",
    "C34_history",
    "C34_default",
    "C34_default_total",
    "C34_default_sane",
    "C34_exit_invariant",
    "C34_deepcopy_partial",
    "C34_deepcopy_t0_init_refuted"
   ],
   "note": "deepcopy does not copy t0_init (refuted witness); everything else proved"
  },
  {
   "property": "C35",
   "status": "proved",
   "theorems": [
    "C35_residuals",
    "C35_stationarity_is_gradient",
    "C35_objective",
    "C35_gap_identity",
    "C35_lower_bound",
    "C35_gap_is_complementarity",
    "C35_zero_residuals_optimal",
    "C35_norms",
    "C35_suboptimality",
    "C35_mu",
    "C35_linear_residuals"
   ],
   "note": "Exact arithmetic. The dense residual routine computes the KKT residual of the dense QP (equality rows, soft constraints and masks included); kkt_g is the gradient of the Lagrangian; obj - gap is a lower bound; zero residuals certify a global minimum; C35_hypotheses_met is a concrete case."
  },
  {
   "property": "C23",
   "status": "proved",
   "theorems": [
    "C23_iteration_bound",
    "C23_unconstrained",
    "C23_status",
    "C23_success_certifies",
    "C23_success_abs",
    "C23_success_ieee",
    "C23_nan_residual_refuted",
    "C23_negative_iter_max_refuted"
   ],
   "note": "any arithmetic, any linear algebra results; iter_max >= 0 for the SUCCESS part (a negative iter_max reports SUCCESS: refuted witness); 'not above' is the code's comparison, so a NaN residual norm with finite mu still gives SUCCESS (refuted witness for the stronger reading)"
  },
  {
   "property": "C24",
   "status": "proved",
   "theorems": [
    "C24_stat_in_table",
    "C24_last_row"
   ],
   "note": "any arithmetic"
  },
  {
   "property": "C31",
   "status": "proved",
   "theorems": [
    "C31_interior",
    "C31_bounds",
    "C31_narrow_bounds_refuted"
   ],
   "note": "exact arithmetic; 'room' means at least 0.1 between the bounds (default scheme, cold or primal warm start); witness that narrower bounds are not respected in general"
  },
  {
   "property": "C41",
   "status": "proved",
   "theorems": [
    "C41_success_certificate"
   ],
   "note": "exact arithmetic, masks 0/1, default clipping mode; C41_hypotheses_met is a concrete case"
  },
  {
   "property": "C42",
   "status": "proved",
   "theorems": [
    "C42_strictly_interior",
    "C42_nonnegative"
   ],
   "note": "exact arithmetic; arbitrary results of the KKT solves"
  },
  {
   "property": "C28",
   "status": "proved",
   "theorems": [
    "C28_objective",
    "C28_constraints",
    "C28_trajectories",
    "C28_equivalent",
    "C28_ocp_qp_unchanged",
    "C28_dimensions",
    "C28_alg1_last_input_refuted",
    "C28_recondense_stale_soft_refuted"
   ],
   "note": "exact arithmetic; refuted witnesses: cond_alg=1 with inputs in the last stage gives a wrong gradient; condensing again into the same dense QP after changing which constraints are soft leaves stale indices"
  },
  {
   "property": "C29",
   "status": "proved",
   "theorems": [
    "C29_trajectory",
    "C29_flags",
    "C29_residuals",
    "C29_accuracy",
    "C29_kkt_point",
    "C29_optimal",
    "C29_masked_multiplier_refuted"
   ],
   "note": "exact arithmetic, full condensing then EXPAND_SOL; stationarity needs dense multipliers that are zero on masked-out constraints (as the interior point solver returns them): the refuted witness shows it is necessary"
  },
  {
   "property": "C30",
   "status": "partial",
   "theorems": [
    "C30_restriction_partial",
    "C30_lhs_rhs_partial",
    "C30_equivalent_partial",
    "C30_initial_state",
    "C30_restore_copies",
    "C30_restore_flags",
    "C30_reduce_sol",
    "C30_restore_residuals_partial",
    "C30_restore_kkt_partial",
    "C30_restore_optimal_partial",
    "C30_bound_moved_refuted"
   ],
   "note": "exact arithmetic; proved when no removed variable is stored before a variable whose bound is kept (e.g. the initial state is fixed, C30_initial_state); false otherwise: the index of the kept bound is not renumbered (C30_bound_moved_refuted: it then acts on another variable). The restored stationarity residual at fixed variables is +-lam_min, the constraint residual of removed bounds t_min."
  },
  {
   "property": "C32",
   "status": "proved",
   "theorems": [
    "C32_tableau",
    "C32_builtin",
    "C32_builtin_exit",
    "C32_solve",
    "C32_unique",
    "C32_explicit_full",
    "C32_adjoint_exits",
    "C32_setters",
    "C32_forward_sensitivities",
    "C32_linear",
    "C32_resume",
    "C32_time_refuted",
    "C32_implicit_refuted",
    "C32_set_nf_refuted",
    "C32_adjoint_seed_refuted"
   ],
   "note": "exact arithmetic, flat workspace memory with checked accesses; refuted witnesses: the time reaches the callback truncated to int; an implicit tableau is integrated as explicit; set_nf beyond nf_max and adjoint seeds with nf_max < np+nx leave the workspace memory"
  },
  {
   "property": "C43",
   "status": "proved",
   "theorems": [
    "C43_objective",
    "C43_constraints",
    "C43_dynamics",
    "C43_trajectories",
    "C43_equivalent",
    "C43_ocp_qp_unchanged",
    "C43_dimensions",
    "C43_block_sizes",
    "C43_alg1_block_input_refuted"
   ],
   "note": "exact arithmetic; for blocks condensed with cond_alg=1 only if the last stage of the block has no input (or the block one stage): refuted witness"
  },
  {
   "property": "C44",
   "status": "proved",
   "theorems": [
    "C44_flags",
    "C44_trajectory",
    "C44_residuals",
    "C44_accuracy",
    "C44_kkt_point",
    "C44_optimal"
   ],
   "note": "exact arithmetic, for second QPs made by PART_COND_QP_COND; stationarity needs multipliers that are zero on masked-out constraints (as the solver returns them; see C29_masked_multiplier_refuted)"
  },
  {
   "property": "C45",
   "status": "proved",
   "theorems": [
    "C45_resolve",
    "C45_convex_resolve",
    "C45_factorise_then_solve",
    "C45_same_step",
    "C45_resolve_after_retry_refuted"
   ],
   "note": "exact arithmetic, N>=1, no shared slacks; refuted witness outside the hypothesis: with the square-root algorithm selected, a solve after a regularised factorisation reads the classical factor as a square root and returns a wrong step (binary64)"
  },
  {
   "property": "C46",
   "status": "proved",
   "theorems": [
    "C46_forward",
    "C46_forward_is_derivative",
    "C46_adjoint",
    "C46_adjoint_is_gradient",
    "C46_adjoint_keeps_seed",
    "C46_backup_is_previous_iterate",
    "C46_seed_is_data_derivative",
    "C46_seed_names",
    "C46_seed_zero",
    "C46_predict_residuals",
    "C46_predict_full_step",
    "C46_predict_absolute",
    "C46_predict_stale_step_refuted"
   ],
   "note": "exact arithmetic; the curve of relaxed solutions is assumed differentiable (its derivative is then unique and is what the call returns; C46_curve_exists is a concrete curve); the saved point is the iterate before the last update (C46_backup_is_previous_iterate); seed_m has no setter; constrained QPs only; prediction uses the step lengths left over from the last iteration, not 1: refuted witness for the reading 'the predicted point is feasible for the new problem' (C46_predict_full_step is the case of step length 1)"
  },
  {
   "property": "C47",
   "status": "proved",
   "theorems": [
    "C47_newton",
    "C47_null_space_exact_eq",
    "C47_convex_returns",
    "C47_fact_then_solve",
    "C47_resolve",
    "C47_methods_agree",
    "C47_scale_flag_refuted"
   ],
   "note": "exact arithmetic, no shared slacks, masks 0/1; the regularisation terms are spelled out in den_forces (DenKktSpec.v); GELQF/ORGLQ (BLASFEO) enter through the hypothesis lq_ready: they return an LQ factorisation of A with non-singular L; refuted witness outside the hypothesis w_scale = arg.scale: in absolute form the code never sets the flag ws->scale"
  },
  {
   "property": "C48",
   "status": "partial",
   "theorems": [
    "C48_retry_terminates_partial",
    "C48_schur_retry_refuted",
    "C48_dual_retry_refuted"
   ],
   "note": "exact arithmetic; proved for every QP without equality constraints, with the null-space method, and with the scaled Schur complement (reg_dual > 0 or dreg_last positive or equal to reg_prim); false for the unscaled Schur complement (the default): every retry adds reg_prim again, not the increased value (C48_schur_retry_refuted), and with reg_dual = 0 and dependent equality rows the dual regularisation stays 0 (C48_dual_retry_refuted)"
  },
  {
   "property": "C49",
   "status": "proved",
   "theorems": [
    "C49_success_certificate",
    "C49_args",
    "C49_set",
    "C49_arg_set",
    "C49_get",
    "C49_default",
    "C49_t0_init_refuted",
    "C49_reduce_flag_refuted",
    "C49_arg_reuse_refuted",
    "C49_warm_start_refuted"
   ],
   "note": "exact arithmetic, default clipping mode; with elimination under the provisos of C30 (no removed variable stored before a variable with a kept bound; equal, imposed bounds) and reduce_eq_dof = 0 or 1; refuted witnesses: t0_init set before creation is lost, even values of reduce_eq_dof select the reducing path without its dimensions, an argument struct cannot be reused for other dimensions, with elimination the caller's initial solution is ignored"
  },
  {
   "property": "C50",
   "status": "proved",
   "theorems": [
    "C50_forward",
    "C50_forward_is_derivative",
    "C50_removed_bounds_refuted"
   ],
   "note": "exact arithmetic; provisos of C30 and C46; multipliers and slacks of the removed bounds are excepted: C50_removed_bounds_refuted shows that what is returned for them is not a derivative (multipliers never negative, slacks 1e-16)"
  },
  {
   "property": "C51",
   "status": "proved",
   "theorems": [
    "C51_objective",
    "C51_constraints",
    "C51_equivalent",
    "C51_same_as_single_call",
    "C51_ocp_qp_unchanged",
    "C51_soft_bounds",
    "C51_hypotheses_met",
    "C51_vectors_after_seeds",
    "C51_seed",
    "C51_expanded",
    "C51_seed_expanded",
    "C51_seed_hypotheses_met",
    "C51_slack_order_refuted",
    "C51_m_refuted",
    "C51_sqrt_indefinite_refuted"
   ],
   "note": "exact arithmetic; hypothesis slack_order (scan rank of every soft constraint = stage offset + slack number; C51_soft_bounds gives a simple sufficient condition) because the two-call code numbers slacks by a running counter while the single call and the expansion use stage offsets (C51_slack_order_refuted); square-root algorithm needs a convex cost of the states because its factorisation is unchecked (C51_sqrt_indefinite_refuted); the complementarity targets m are not condensed (C51_m_refuted, and d_m unchanged in C51_constraints)"
  },
  {
   "property": "C52",
   "status": "proved",
   "theorems": [
    "C52_infeasibility",
    "C52_dynamics_never_worse",
    "C52_rate",
    "C52_iteration",
    "C52_hypotheses_met"
   ],
   "note": "exact arithmetic; complementarity target m = 0 (the default); the stationarity part is stated per iteration (C52_iteration): with a joint step the code may push multipliers negative and clip them (C21 finding), after which the residual no longer shrinks; the LQ factorisation is not modelled, hence lq_fact = 0, or 1 with reg_prim = 0 where the model shows that its fallback is never taken"
  },
  {
   "property": "C53",
   "status": "proved",
   "theorems": [
    "C53_residuals",
    "C53_residuals_exact",
    "C53_stationarity_is_gradient",
    "C53_linear_residuals",
    "C53_norms",
    "C53_mu",
    "C53_suboptimality",
    "C53_zero_residuals_optimal",
    "C53_scenario_trees",
    "C53_hypotheses_met",
    "C53_masked_multiplier_refuted"
   ],
   "note": "exact arithmetic; proviso: multipliers of masked constraints are zero (the interior point code keeps them zero); C53_residuals_exact gives the reported value without the proviso and C53_masked_multiplier_refuted shows that it is then wrong (lines 516 and 563 read the unmasked multipliers, unlike the linear version and the OCP QP version)"
  },
  {
   "property": "C54",
   "status": "proved",
   "theorems": [
    "C54_newton_step",
    "C54_newton_unique",
    "C54_resolve",
    "C54_linear_residuals_vanish",
    "C54_path_is_ocp",
    "C54_hypotheses_met",
    "C54_indefinite_not_detected_refuted"
   ],
   "note": "exact arithmetic; no two constraints share a slack (as C27), t_lam_min clipping inactive, masked constraints carry no multiplier, comp_dual_sol_eq on; the square-root factorisation of the double-precision code; FACT_LQ_SOLVE and the unconstrained routine are not modelled; C54_indefinite_not_detected_refuted: without convexity the tree solver neither detects nor repairs the failed factorisation"
  },
  {
   "property": "C55",
   "status": "proved",
   "theorems": [
    "C55_iteration_bound",
    "C55_unconstrained",
    "C55_status",
    "C55_success_certifies",
    "C55_success_abs",
    "C55_stat_in_table",
    "C55_last_row",
    "C55_success_ieee",
    "C55_strictly_interior",
    "C55_nonnegative",
    "C55_success_certificate",
    "C55_nan_residual_refuted",
    "C55_negative_iter_max_refuted"
   ],
   "note": "the control theorems hold in every arithmetic and for every linear algebra; the certificate in exact arithmetic; provisos found necessary: iter_max >= 0 (C55_negative_iter_max_refuted), and NaN entries are invisible to the norms (C55_nan_residual_refuted); in the absolute formulation SUCCESS only bounds mu (C55_success_abs); remove_lin_dep_eq and compute_obj off"
  },
  {
   "property": "C56",
   "status": "proved",
   "theorems": [
    "C56_interior",
    "C56_bounds",
    "C56_midpoint_refuted",
    "C56_general_upper_refuted"
   ],
   "note": "exact arithmetic, counterexamples in IEEE doubles; bounds closer than 0.2 start outside their interval (C56_midpoint_refuted: the midpoint is computed with the wrong sign) and the slack of an upper general constraint is initialised with the wrong sign (C56_general_upper_refuted)"
  },
  {
   "property": "C57",
   "status": "proved",
   "theorems": [
    "C57_kept_equalities",
    "C57_nothing_removed",
    "C57_solve_call",
    "C57_relaxation",
    "C57_inconsistent",
    "C57_inconsistent_solutions",
    "C57_leading_rank",
    "C57_independent_equality_removed_refuted",
    "C57_sign_of_multiplier_refuted",
    "C57_more_equalities_than_variables_refuted",
    "C57_absolute_threshold_refuted",
    "C57_all_removed_refuted",
    "C57_stale_backup_refuted"
   ],
   "note": "exactness only when the leading columns carry the rank: otherwise the code may remove an independent equality, keep a dependent one or miss an inconsistency (the _refuted theorems, evaluated in IEEE doubles with the code's threshold); restoration needs that some equality was kept and that the workspace holds no backup of a larger QP (both refuted without); multipliers of removed equalities are not recovered (a TODO in the code)"
  },
  {
   "property": "C58",
   "status": "proved",
   "theorems": [
    "C58_objective",
    "C58_reported"
   ],
   "note": "exact arithmetic"
  },
  {
   "property": "C59",
   "status": "proved",
   "theorems": [
    "C59_residuals",
    "C59_stationarity_is_gradient",
    "C59_mu",
    "C59_norms",
    "C59_gap_identity",
    "C59_lower_bound",
    "C59_gap_is_complementarity",
    "C59_zero_residuals_optimal",
    "C59_suboptimality",
    "C59_mu_counts_lower_refuted"
   ],
   "note": "exact arithmetic; the residual routine zeroes multipliers of lower sides (as the code); C59_mu_counts_lower_refuted: called on a QCQP with its default masks the measure mu is averaged also over the disregarded lower sides"
  },
  {
   "property": "C60",
   "status": "proved",
   "theorems": [
    "C60_approx",
    "C60_update",
    "C60_cache",
    "C60_newton",
    "C60_damped_step",
    "C60_masks",
    "C60_masks_harmless",
    "C60_soft_lower_slack_refuted",
    "C60_gradient_refuted",
    "C60_unconstrained_gradient_refuted",
    "C60_abs_step_accumulates_refuted",
    "C60_abs_fixed_point_refuted"
   ],
   "note": "exact arithmetic, delta formulation; the cost gradient of the QP is wrong (C60_gradient_refuted: written to stage 0 for every stage; the delta form does not read it, the unconstrained branch does: C60_unconstrained_gradient_refuted, IEEE doubles); the absolute formulation's update is wrong in two ways (C60_abs_step_accumulates_refuted, C60_abs_fixed_point_refuted); with a linear penalty on the lower slack of a soft quadratic constraint the masks make the problem unbounded (C60_soft_lower_slack_refuted)"
  },
  {
   "property": "C61",
   "status": "proved",
   "theorems": [
    "C61_iteration_bound",
    "C61_unconstrained",
    "C61_status",
    "C61_success_certifies",
    "C61_success_abs",
    "C61_stat_in_table",
    "C61_last_row",
    "C61_strictly_interior",
    "C61_success_certificate"
   ],
   "note": "the control theorems hold in every arithmetic, for every linear algebra and every content of the uninitialised mask pointers (C62); the certificate in exact arithmetic, delta formulation, default clipping mode, iter_max >= 0, embedded QP created for the same dimensions; the bounds of slacks softening lower sides of quadratic constraints are not certified because the solver drops them (C60); in the absolute formulation SUCCESS only bounds mu (C61_success_abs)"
  },
  {
   "property": "C62",
   "status": "proved",
   "theorems": [
    "C62_interior",
    "C62_bounds",
    "C62_upper_bound_mask_refuted",
    "C62_t0_init_refuted",
    "C62_general_masks_uninitialised_refuted"
   ],
   "note": "exact arithmetic, counterexamples in IEEE doubles: the masks of the upper bounds are read nq entries too early, so that with quadratic constraints active upper bounds are ignored by the initialisation (C62_upper_bound_mask_refuted); t0_init 0 and 1 leave 2*nq multipliers and slacks as they were (C62_t0_init_refuted); the mask pointers of the general constraints are never set (C62_general_masks_uninitialised_refuted: the result depends on arbitrary memory, hence C62_bounds speaks of bounds only)"
  },
  {
   "property": "C63",
   "status": "proved",
   "theorems": [
    "C63_rhs",
    "C63_iteration",
    "C63_infeasibility",
    "C63_dynamics_never_worse",
    "C63_rate",
    "C63_hypotheses_met"
   ],
   "note": "exact arithmetic, delta formulation, complementarity target m = 0; lq_fact = 0, or 1 with reg_prim = 0 (as in C52: the LQ fallback is then never taken); t0_init = 2 (the default: see C62 for the other values)"
  },
  {
   "property": "C64",
   "status": "proved",
   "theorems": [
    "C64_objective",
    "C64_constraints",
    "C64_dynamics",
    "C64_equivalent",
    "C64_same_as_single_call",
    "C64_ocp_qp_unchanged",
    "C64_seed",
    "C64_expanded",
    "C64_seed_expanded",
    "C64_optimal",
    "C64_soft_bounds",
    "C64_hypotheses_met",
    "C64_m_refuted"
   ],
   "note": "exact arithmetic; default comp flags of the blocks; hypotheses as in C51, per block (slack_order: see C51_slack_order_refuted); the complementarity targets are not condensed (m unchanged in C64_constraints, C64_m_refuted)"
  },
  {
   "property": "C65",
   "status": "proved",
   "theorems": [
    "C65_objective",
    "C65_constraints",
    "C65_equivalent",
    "C65_same_as_fresh",
    "C65_ocp_qp_unchanged",
    "C65_masks_not_updated",
    "C65_last_stage_alone_refuted",
    "C65_linear_state_cost_refuted",
    "C65_soft_order_refuted"
   ],
   "note": "exact arithmetic, cond_alg 0 (the update reads the stage matrices of that algorithm), cond_last_stage 1 (COND_QP_UPDATE, not PART_COND_QP_UPDATE); the four restrictions are necessary: last stage marked alone (C65_last_stage_alone_refuted), singular state cost (C65_linear_state_cost_refuted: no fallback as in COND_QP_COND, the gradient is lost), soft constraints (C65_soft_order_refuted: slacks renumbered), masks and m (C65_masks_not_updated)"
  },
  {
   "property": "C66",
   "status": "proved",
   "theorems": [
    "C66_repeatable",
    "C66_newton_law",
    "C66_newton_law_convex",
    "C66_every_state",
    "C66_factors",
    "C66_after_sensitivity_refuted",
    "C66_singular_fallback_refuted"
   ],
   "note": "exact arithmetic, complementarity of masked constraints as in C45; histories of KKT solves, then getters: a sensitivity call between two vector getters is excluded (C66_after_sensitivity_refuted: the seed's vector is returned), and so is the fallback from the square-root to the classical algorithm (C66_singular_fallback_refuted: P is squared); the states where the solver itself sets the vector flag (absolute formulation, unconstrained QP) are not covered; of Lr only the lower triangle is specified"
  },
  {
   "property": "C67",
   "status": "proved",
   "theorems": [
    "C67_flags",
    "C67_trajectory",
    "C67_optimal",
    "C67_expand_condensed",
    "C67_condensed_expanded",
    "C67_residuals",
    "C67_kkt_point",
    "C67_no_slacks",
    "C67_soft_bounds",
    "C67_hypotheses_met",
    "C67_slack_order_refuted",
    "C67_part_flags",
    "C67_part_trajectory",
    "C67_part_optimal",
    "C67_part_expand_condensed",
    "C67_part_condensed_expanded",
    "C67_part_residuals",
    "C67_part_kkt_point",
    "C67_part_soft_bounds",
    "C67_part_hypotheses_met"
   ],
   "note": "exact arithmetic; default cond_last_stage flags of the blocks; slack_order is necessary: COND_SOL places the slacks of all softened bounds before those of all softened general constraints, condensing and expansion place them stage by stage (C67_slack_order_refuted: a feasible point condenses to an infeasible one)"
  },
  {
   "property": "C68",
   "status": "proved",
   "theorems": [
    "C68_iteration_bound",
    "C68_unconstrained",
    "C68_status",
    "C68_success_certifies",
    "C68_success_abs",
    "C68_stat_in_table",
    "C68_last_row",
    "C68_success_ieee",
    "C68_nan_residual_refuted",
    "C68_negative_iter_max_refuted"
   ],
   "note": "unconstrained problems return at once (C68_unconstrained); abs_form 1: C68_success_abs (only mu is checked, as in C23); SUCCESS does not exclude NaN residual entries, whose norm is skipped (C68_nan_residual_refuted), and a negative iter_max gives SUCCESS without check (C68_negative_iter_max_refuted)"
  },
  {
   "property": "C69",
   "status": "proved",
   "theorems": [
    "C69_interior",
    "C69_bounds",
    "C69_pi",
    "C69_narrow_bounds_refuted"
   ],
   "note": "exact arithmetic; C69_bounds: t0_init = 2 (the default), bounds at least 0.2 apart: with narrower bounds the tree code takes the midpoint of lb and MINUS ub (C69_narrow_bounds_refuted)"
  },
  {
   "property": "C70",
   "status": "proved",
   "theorems": [
    "C70_strictly_interior",
    "C70_nonnegative",
    "C70_success_certificate"
   ],
   "note": "exact arithmetic; masks 0 or 1; certificate: delta formulation, t_lam_min = 2 (the default)"
  },
  {
   "property": "C71",
   "status": "proved",
   "theorems": [
    "C71_infeasibility",
    "C71_dynamics_never_worse",
    "C71_rate",
    "C71_iteration",
    "C71_hypotheses_met"
   ],
   "note": "exact arithmetic; complementarity target m = 0 (the default); lq_fact = 0, or 1 with reg_prim = 0 (then the LQ fallback is never taken); comp_dual_sol_eq on (off only in SPEED_ABS); stationarity per iteration (C71_iteration), as in C52"
  },
  {
   "property": "C72",
   "status": "proved",
   "theorems": [
    "C72_infeasibility",
    "C72_equalities_never_worse",
    "C72_rate",
    "C72_iteration",
    "C72_hypotheses_met"
   ],
   "note": "exact arithmetic; complementarity target m = 0 (the default); lq_fact = 0, or 1 with reg_prim = 0 and unperturbed equalities; in the absolute form the scaling flag of the workspace must agree with the option (that form never sets it, see C47_scale_flag_refuted); BLASFEO LQ routine assumed to factorise A; stationarity per iteration (C72_iteration), as in C52"
  },
  {
   "property": "C73",
   "status": "proved",
   "theorems": [
    "C73_residuals",
    "C73_stationarity_is_gradient",
    "C73_gap_identity",
    "C73_mu",
    "C73_norms",
    "C73_lower_bound",
    "C73_gap_is_complementarity",
    "C73_zero_residuals_optimal",
    "C73_suboptimality"
   ],
   "note": "exact arithmetic; cached constraint values, if used, must be those of the point; as for the OCP QCQP (C59_mu_counts_lower_refuted) the measure counts the lower sides of the quadratic constraints unless they are masked"
  },
  {
   "property": "C74",
   "status": "proved",
   "theorems": [
    "C74_approx",
    "C74_update",
    "C74_cache",
    "C74_newton",
    "C74_damped_step",
    "C74_masks",
    "C74_masks_harmless",
    "C74_abs_tangent",
    "C74_soft_lower_slack_refuted",
    "C74_abs_fixed_point_refuted",
    "C74_abs_cache_refuted"
   ],
   "note": "exact arithmetic; if a quadratic constraint is softened and its lower slack has a positive linear cost, the mask makes the problem unbounded below (C74_soft_lower_slack_refuted); the absolute form writes the right tangents (C74_abs_tangent) but does not correct the gradient, so a solution of the QCQP is not a solution of the QP (C74_abs_fixed_point_refuted), and leaves the constant of the tangent, not the value, in the cache (C74_abs_cache_refuted)"
  },
  {
   "property": "C75",
   "status": "proved",
   "theorems": [
    "C75_iteration_bound",
    "C75_unconstrained",
    "C75_status",
    "C75_success_certifies",
    "C75_success_abs",
    "C75_stat_in_table",
    "C75_last_row",
    "C75_strictly_interior",
    "C75_success_certificate",
    "C75_hot_start_refuted"
   ],
   "note": "the control theorems hold in every arithmetic and for every linear algebra; the certificate in exact arithmetic, delta formulation, default clipping mode, iter_max >= 0, embedded QP created for the same dimensions, after at least one iteration: without one, multipliers of the user on the lower sides of quadratic constraints enter the stationarity residual, and a hot start can end with SUCCESS at the worst feasible point (C75_hot_start_refuted); the bounds of slacks softening lower sides of quadratic constraints are not certified because the solver drops them (C74); in the absolute formulation SUCCESS only bounds mu (C75_success_abs)"
  },
  {
   "property": "C76",
   "status": "proved",
   "theorems": [
    "C76_interior",
    "C76_bounds",
    "C76_upper_bound_mask_refuted",
    "C76_midpoint_refuted",
    "C76_general_upper_refuted"
   ],
   "note": "exact arithmetic, counterexamples in IEEE doubles: the masks of the upper bounds are read nq entries too early, so C76_bounds asks these entries to agree and active upper bounds can be ignored (C76_upper_bound_mask_refuted); bounds less than 0.2 apart start at a wrong midpoint (C76_midpoint_refuted); the slack of an upper general constraint starts from the wrong sign (C76_general_upper_refuted)"
  },
  {
   "property": "C77",
   "status": "proved",
   "theorems": [
    "C77_rhs",
    "C77_iteration",
    "C77_infeasibility",
    "C77_equalities_never_worse",
    "C77_rate",
    "C77_default_start",
    "C77_hypotheses_met"
   ],
   "note": "exact arithmetic, delta formulation, complementarity target m = 0; t_lam_min = 2 (the default); lq_fact = 0, or 1 with reg_prim = 0 and unperturbed equalities; the equalities contract exactly when they are not perturbed by reg_dual (none, null-space method, or reg_dual = 0); initial multipliers of masked constraints must be 0 because this solver does not mask them (C75_hot_start_refuted): C77_default_start shows it for the default starts when every constraint is imposed but for the lower sides of the quadratic ones; BLASFEO LQ routine assumed to factorise A"
  },
  {
   "property": "C78",
   "status": "proved",
   "theorems": [
    "C78_objective",
    "C78_constraints",
    "C78_dynamics",
    "C78_equivalent",
    "C78_blocks",
    "C78_unmarked_block",
    "C78_masks_not_updated",
    "C78_ocp_qp_unchanged",
    "C78_object_left",
    "C78_expanded",
    "C78_optimal",
    "C78_block_last_stage_alone_refuted"
   ],
   "note": "exact arithmetic, except for C78_blocks, C78_unmarked_block and C78_masks_not_updated; cond_alg 0, no slacks, strictly convex state costs strictly inside the blocks, the last stage of a block of three or more marked only with the stage before it (C78_block_last_stage_alone_refuted: needed, a real defect of the code); masks, targets, index sets and dimensions constant over the history (C78_masks_not_updated: they are not updated); these three hold for every arithmetic and every marking"
  }
 ]
}