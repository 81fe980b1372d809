# Formal model of giaf/hpipm in Rocq (Coq 8.16.1)

## 1. What is modelled, and in what style

HPIPM is written once as templates (`x_*.c`) and instantiated for double (`d_*.c`) and single (`s_*.c`)
precision.  The model follows the `x_*.c` templates.

* **Integer / memory / table code** (dimensions, memsize/create, block sizes, scenario tree, statistics table,
  field dispatch, index maps): modelled over `nat`/`Z` and lists, with undefined behaviour (out-of-bounds
  access, division by zero) and `exit(1)` as explicit outcomes.  C `int` overflow is *not* modelled except
  where stated: sizes are mathematical integers (so every statement implicitly assumes that the C products do
  not overflow `int`/`size_t`).
* **Numeric code**: modelled over an abstract arithmetic record `Arith F` (operations, comparisons, literals).
  Two instances are used: `R` (exact real arithmetic; algebraic identities, invariants) and
  `spec_float` binary64 (IEEE semantics with NaN/inf from `Coq.Floats.SpecFloat`, used where the property is
  about NaN or clipping).  Vectors are `nat -> F`, matrices `nat -> nat -> F`, and every BLASFEO routine is a
  function with exactly the argument list of the C call (sizes, offsets, alpha/beta), which updates only
  the entries BLASFEO updates.  Theorems in exact arithmetic say nothing on rounding errors.
* **Loops** are `loop n f s` (`for(i=0;i<n;i++) s = f(i,s)`), structural recursion or fuelled recursion with
  explicit out-of-fuel outcome.

## 2. Trusted base

* Coq kernel (8.16.1), `coqchk`.
* Standard library axioms reported by `Print Assumptions` (real-number files only):
  `ClassicalDedekindReals.sig_forall_dec`, `ClassicalDedekindReals.sig_not_dec`,
  `FunctionalExtensionality.functional_extensionality_dep`, possibly `Classical_Prop.classic`.  No own axiom.
* The reading of the C code: each definition cites file and lines.
* BLASFEO is not in the repository: its routines are modelled by their documented reference semantics
  (file `Blas.v`); size functions are abstract with stated assumptions.

## 3. Plan per property

See section 4 (kept current) for what is proved; the plan is:

| id | model | proof |
|----|-------|-------|
| C01-C03 | flat int memory as carved by create; set/get/copy as memory operations with UB/exit outcomes | refinement to a map (field,stage)->value, induction on histories |
| C04 | C string as nat->Z memory, while loop with fuel | induction on strings |
| C05 | byte memory, the three loops | induction on loop counters |
| C06-C08 | memsize as a function, create as a cursor machine emitting regions | generic sequential-allocation theorem + arithmetic |
| C09-C11 | the loops on arrays | induction / lia / nia |
| C12 | node table and the BFS loop with explicit counters | loop invariant, geometric sum |
| C13-C17, C33, C34 | record of stage-indexed arrays; setters as offset updates | pointwise equalities |
| C18-C20, C35 | `OCP_QP_RES_COMPUTE` as a composition of BLASFEO calls | pointwise sums over R, weak duality |
| C21, C22, C25 | core IPM routines | loop invariants over R / case analysis over spec_float |
| C23, C24 | solve loop with an abstract step oracle over spec_float | induction on iterations |
| C26, C27 | Riccati recursion as BLASFEO calls | backward induction |
| C28, C29 | condensing | induction over stages |
| C43 | partial condensing (PartModel.v): the block functions of CondModel.v called on windows of the QP object | loop invariant over blocks on top of the C28 stage lemmas |
| C44 | PART_COND_QP_EXPAND_SOL (PartModel.v) | loop invariant over blocks; Lagrangian perturbation as in C29 |
| C45 | OCP_QP_SOLVE_KKT_STEP, OCP_QP_FACT_KKT_STEP (SolveModel.v) | invariant "workspace holds a block factorisation of the KKT matrix", kept by every solve; triangular solves; uniqueness by an energy argument (NewtonUniq.v) |
| C46 | OCP_QP_IPM_SENS_FRW/_ADJ/_PREDICT, the seed struct and its setters, the backup of the iterate (SensModel.v) | forward = Newton system with the seeds as right-hand side (invariant of C45 under any history of calls); implicit differentiation of the relaxed KKT system + uniqueness; adjoint by the bilinear identity of the symmetrised KKT matrix; residuals along a line |
| C47 | dense FACT_SOLVE / FACT / SOLVE of the KKT system: all five method branches, slack elimination, retry loop (DenKktModel.v) | factor invariants (L L' = M, Schur block, null-space basis) established by each attempt; block elimination algebra (DenKktAlg.v); uniqueness by an energy argument |
| C48 | the retry loop of the same function with its two regularisation counters | growth by a factor >= 8 against a norm bound on the matrix; invariants for the non-terminating cases |
| C49 | the solver object: arguments, create, set, get, solve with or without elimination of fixed variables (SolverModel.v) | invariant over all API histories (`live`), then C41 on the QP actually solved and transport of its certificate through restore (SolverProofs.v) |
| C50 | REDUCE/RESTORE_EQ_DOF_SEED and the sensitivity call of the solver object | the reduced seed problem is a restriction of the seed problem; C46 on it; residuals and derivatives transported back |
| C51 | COND_QP_COND_LHS/_RHS with COND_BAT, COND_B, COND_RSQ, COND_RQ, COND_DCT, COND_D (`CsplitModel.v`) | Gamma/Gammab split into linear and constant part; value-function invariant LI of the matrix sweep, kept by every vector sweep; COND_DCT/COND_D simulated by COND_DCTD (C28) under slack_order; induction on the list of RHS calls |
| C52 | the loop of `IpmModel.v` with `op_fact_solve`, `op_solve`, `op_fact` := the Riccati routines of `KktModel.v`/`SolveModel.v`, sharing one workspace state (`RunModel.v`) | the direction of every branch (predictor, corrector, refinement, conditional corrector, absolute form) satisfies the linear rows of the Newton system (invariant W/WA in `RunProofs2.v`); `UPDATE_VAR_QP` then gives the factor; induction over the loop with the product of (1 - step); instantiation by C27/C39/C45 lemmas |
| C53 | TREE_OCP_QP_RES_COMPUTE, _LIN, _INF_NORM (`TreeModel.v`), specification of the tree QP (`TreeSpec.v`) | node lemma from the stage lemmas of C18 plus the loop over the kids; invariant over the node loop using that edges are written once; reindexing of the sum over edges as a sum over non-root nodes; Lagrangian expansion and gap identity as for C18-C20; tree_ok from C12 |
| C54 | TREE_OCP_QP_FACT_SOLVE_KKT_STEP, TREE_OCP_QP_SOLVE_KKT_STEP (`TreeKktModel.v`), Newton system of the tree (`TreeKktSpec.v`) | per node: the factorised matrix is node Hessian + sum over the kids of the composed value functions (induction over the backward sweep, positive definite pivots); forward sweep invariant over the parents-first order; elimination of slacks and multipliers by the stage lemma of C27 applied to a node with the kids' terms in its gradient; uniqueness by the energy identity summed over the tree; path = OCP by uniqueness |
| C55 | DENSE_QP_IPM_SOLVE, DELTA_STEP, ABS_STEP (`DenIpmModel.v`), linear algebra a parameter (`dkops`: arbitrary functions) | loop invariants as for C23/C24/C41/C42 (`DenIpmProofs*.v`, `DenIpmReal.v`), NaN propagation for IEEE doubles (`DenIpmFloat.v`); certificate by the Lagrangian bound of C35 |
| C56 | DENSE_QP_INIT_VAR (`DenIpmModel.v`) | loop invariants over the bounds, general constraints and slacks (`DenIpmInit.v`); counterexamples evaluated in IEEE doubles |
| C57 | DENSE_QP_REMOVE/RESTORE_LIN_DEP_EQ and the solve call around them, LU with row pivoting (`DenSolveModel.v`) | invariant: the row order stays a permutation and the kept rows are its prefix (any arithmetic); PA = LU for the pivoted factorisation, combinations of rows through the shifted elimination with doubling error bound (certificate); kernel equivalence and triangular systems (leading rank); counterexamples in IEEE doubles (`DenSolveProofs*.v`, `DenSolveProps.v`) |
| C58 | DENSE_QP_COMPUTE_OBJ (`DenSolveModel.v`) | algebra against the cost of `DenSpec.v` |
| C59 | OCP_QCQP_RES_COMPUTE, _INF_NORM (`QcqpModel.v`), the QCQP as mathematics (`QcqpSpec.v`) | stage lemma from C18's blocks plus the loop over the quadratic constraints (symmetric product from the lower triangle); Lagrangian expansion with the curvature of the constraints; certificate by convexity |
| C60 | OCP_QCQP_APPROX_QP, UPDATE_QP, UPDATE_QP_ABS_STEP, the mask loop of IPM_SOLVE (`QcqpModel.v`), linearisation at a point (`QcqpLinSpec.v`) | stage lemma for the Hessian/adjoint loop (`QcqpLin.v`), algebra of the Newton step (`QcqpNewton.v`), feasible sets of the masked problem (`QcqpMask.v`); counterexamples at R and in IEEE doubles |
| C61 | OCP_QCQP_IPM_SOLVE and the conversions between QCQP and QP solutions and residuals (`QipmModel.v`), on top of the QP iteration (`IpmModel.v`) with arbitrary linear algebra | loop invariants (`QipmProofs.v`, `QipmProps.v`); exact arithmetic: orthant invariant, C59/C60 for the residuals, duality for the cost bound (`QipmRealProps.v`) |
| C62 | OCP_QCQP_INIT_VAR (`QipmModel.v`; the unset mask pointers are arbitrary memory) | induction over the loops (`Qinit.v`, `QinitProps.v`); counterexamples in IEEE doubles |
| C63 | the loop of `QipmModel.v` with the Riccati routines of `RunModel.v` as linear algebra | the proofs of C52 redone for a QP that changes at every pass and arbitrary right-hand sides (`QrunProofs.v`); the QP is the linearisation of C60, whose KKT matrix is invertible by the convexity assumptions (`QrunProofs2.v`); Taylor expansion of the quadratic constraints is exact (`QrunProofs3.v`); invariant of the loop (`QrunProofs4.v`, `QrunProps.v`; specification `QrunSpec.v`) |
| C64 | `PcsplitModel.v`: PART_COND_QP_COND_LHS/_RHS/_SEED over the functions of `CsplitModel.v` on aliases; the calls as a list | per block, the invariant of C51 generalised to `cond_last_stage = 0` (`PcsplitProofs.v`); loops over blocks and lists of calls (`PcsplitProofs2.v`, `PcsplitProps.v`); the seed call is the vector call on the QP with the seed (`PcsplitSeed.v`); expansion as in C44 for any second QP standing for the first (`PcsplitExp.v`) |
| C65 | `CupdModel.v`: UPDATE_COND_BABT, UPDATE_COND_RSQRQ_N2NX3, UPDATE_COND_DCTD, COND_QP_UPDATE (cond_last_stage 1) | an invariant `condensed` tying dense QP and workspace (state maps, stage matrices) to the OCP QP entry by entry (`CupdFull.v`); established by COND_QP_COND, kept by every truthful update (kept rows of the state maps `CupdProofs.v`, kept stages of the Hessian `CupdCost.v`, constraints `CupdCon.v`); it determines the dense QP (`CupdDet.v`); induction on the history (`CupdProps.v`) |
| C66 | `RicModel.v`: the seven OCP_QP_IPM_GET_RIC_* functions with the flags valid_ric_vec, valid_ric_p and the rewritten workspace parts | invariant `ric_ok` of the workspace under getter calls (`RicProofs.v`); the backward recursion of the vectors is unique, hence repeatable (`RicProofs3.v`); the law from the stage equations of C45 by forward simulation from an arbitrary state (`RicProofs2.v`, `RicProofs3.v`); counterexamples in IEEE doubles |
| C67 | `CsolModel.v`: COND_SOL (inputs, slacks, multipliers, slacks of the constraints), COND_QP_COND_SOL, PART_COND_QP_COND_SOL | every entry written is the OCP entry at the place `traj`/`pos` of C28 assign (`CsolProofs.v`); these places are onto (`CsolPart.v`), so the KKT identities of C29/C44 read backwards; multipliers of the dynamics by backward induction (`CsolProps.v`, `CsolPartProps.v`) |
| C68 | `TipmModel.v`: TREE_OCP_QP_IPM_SOLVE with its step functions; the linear algebra is a parameter `kops` that may return anything | loop invariants over the iteration (`TipmProofs.v`, `TipmProofs2.v`), IEEE part by NaN propagation through the residual of the nodes (`TipmFloat.v`) |
| C69 | `TipmModel.v`: TREE_OCP_QP_INIT_VAR | per-bound case analysis, loop invariants (`TipmInit.v`, `TipmInitProps.v`) |
| C70 | as C68, C69 | invariant of the iterates from C69 through the step-length rule and the clipping; certificate from C68 and C53 (`TipmReal.v`) |
| C71 | the loop of `TipmModel.v` with `op_fact_solve`, `op_solve` := the tree Riccati routines of `TreeKktModel.v` sharing one workspace state (`TrunModel.v`) | as C52, over the edges of the tree: the direction of every branch satisfies the linear rows of the Newton system (`TrunProofs2.v`), the damped step multiplies them by 1 - step (`TrunProofs3.v`), the tree routines solve those systems by C54 (`TrunProofs4.v`) |
| C72 | the loop of `DenIpmModel.v` with `op_fact_solve`, `op_solve` := the dense KKT routines of `DenKktModel.v` sharing one workspace state, flags included (`DrunModel.v`) | as C52: the direction of every branch satisfies the linear rows of the Newton system (`DrunProofs2.v`), the damped step multiplies them by 1 - step (`DrunProofs3.v`), the dense routines return at the first attempt and solve those systems by C47 (`DrunProofs4.v`) |
| C73 | `DENSE_QCQP_RES_COMPUTE`, `..._INF_NORM` (`DqcModel.v`); the problem as mathematics in `DqcSpec.v` | the computation is that of a single-stage OCP QCQP plus the equality rows (`DqcProofs.v`), then C59 |
| C74 | `DENSE_QCQP_APPROX_QP`, `..._UPDATE_QP`, `..._UPDATE_QP_ABS_STEP`, masks of `..._IPM_SOLVE` (`DqlModel.v`); the linearised QP entry by entry in `DqlSpec.v` | loop invariant over the quadratic constraints (`DqlProofs.v`), then the Taylor identities of C60 |
| C75 | `DENSE_QCQP_IPM_SOLVE` on top of the dense QP step of C55 (`DqiModel.v`), linear algebra a parameter | loop invariants (`DqiProofs.v`, `DqiProps.v`); orthant invariant and Lagrangian expansion over R (`DqiReal.v`) |
| C76 | `DENSE_QCQP_INIT_VAR` (`DqiModel.v`) | loop invariants of C56 with shifted masks (`DqiInit.v`), case analysis on the windows (`DqiInitProps.v`) |
| C77 | the loop of `DqiModel.v` with the dense KKT routines of `DrunModel.v` as linear algebra | the proofs of C63 redone with the dense directions of C72: direction for a QP that changes at every pass (`DqrunProofs.v`), convexity of the linearisation of C74 (`DqrunProofs2.v`), exact Taylor expansion (`DqrunProofs3.v`), loop invariant (`DqrunProofs4.v`, `DqrunProps.v`; specification `DqrunSpec.v`) |
| C78 | PART_COND_QP_UPDATE (`PupdModel.v`), on the condensing-update routines of `CupdModel.v` and the aliasing of `PartModel.v` | loop invariant over blocks for any block routine that writes only copied rows and its own block (`PupdProofs.v`); the update invariant of C65 redone for a block that keeps its last dynamics (`PupdBlk.v`); history induction, equivalence from the block semantics of C43 (`PupdProofs2.v`, `PupdProps.v`; specification `PupdSpec.v`); expansion of a solution after updates from the general residual lemma of C64 (`PupdExpProps.v`) |
| C30 | reduce/restore | index compression lemmas; known defect refuted by witness |
| C31 | init_var | per-element case analysis |
| C32 | RK loops | induction; order conditions by field |

## 4. What is proved (kept current)

Statements are in the files named; theorem names carry the property id.  `_partial` = part of the property, `_refuted` = machine-checked counterexample to the unrestricted English claim (the code really misbehaves there).

| id | status | file | theorems | remarks |
|----|--------|------|----------|---------|
| C01 Dimension object: set/get round trip and independence | proved | DimProps.v | `C01_set_get_history`, `C01_unknown_name_exits`, `C01_out_of_range_stage_corrupts` |  |
| C02 Dimension object: total number of bounds is always nbx+nbu | proved | DimProps.v | `C02_nb_is_nbx_plus_nbu` |  |
| C03 Dimension copy is complete | proved | DimProps.v | `C03_copy_complete`, `C03_deepcopy_complete`, `C03_copy_horizon_checked` |  |
| C04 Field-name comparison is exact string equality | proved | AuxProps.v | `C04_strcmp_exact`, `C04_dispatch_exact` |  |
| C05 zero_memset clears exactly the requested bytes | proved | AuxProps.v | `C05_zero_memset_exact` |  |
| C06 Core IPM workspace: memsize covers the layout | proved | LayoutProps.v | `C06_core_layout`, `C06_stage_views` |  |
| C07 OCP QP object: memsize covers the layout | proved | LayoutProps.v | `C07_ocp_qp_layout` | BLASFEO size functions abstract; assumption abi_ok: a vector of n reals needs at least n reals |
| C08 Solution / residual / workspace objects: memsize covers the layout | proved | LayoutProps.v | `C08_ocp_qp_sol_layout`, `C08_ocp_qp_res_layout`, `C08_ocp_qp_res_ws_layout`, `C08_ocp_qp_dim_layout`, `C08_ocp_qp_ipm_ws_layout`, `C08_reduce_eq_dof_ws_layout`, `C08_cond_ws_layout`, `C08_dense_qp_layout`, `C08_dense_qp_sol_layout`, `C08_dense_qp_res_layout`, `C08_dense_qp_res_ws_layout` | same abi_ok assumption; nested objects are counted by their own memsize |
| C09 Partial condensing block sizes partition the horizon | proved | IntProps.v | `C09_block_sizes_partition`, `C09_zero_blocks` |  |
| C10 Partial condensing dimensions conserve variables and constraints | proved | IntProps.v | `C10_dims_conserved`, `C10_zero_block_refuted` | holds when all blocks but the last are non-empty; the default block sizes with N2>N violate that (refuted witness) |
| C11 Full condensing dimensions conserve variables and constraints | proved | IntProps.v | `C11_cond_dims_conserved` |  |
| C12 Scenario tree is a well-formed tree and stays in its memory | proved | SctreeProps.v | `C12_scenario_tree_wf`, `C12_Nr_gt_Nh_refuted` | proved for Nr<=Nh; refuted outside (memory overrun), int overflow not modelled |
| C13 OCP QP data: set/get round trip, frame, meaning | proved | QpDataProps.v | `C13_roundtrip`, `C13_roundtrip_any_arith`, `C13_frame`, `C13_frame_indices`, `C13_whole_parts`, `C13_history`, `C13_set_el`, `C13_names`, `C13_get_names`, `C13_api_set`, `C13_set_all`, `C13_set_all_rest`, `C13_meaning_dynamics`, `C13_meaning_cost`, `C13_meaning_constraints`, `C13_duplicated_rows`, `C13_duplicated_rows_refuted` | upper bounds exact in R (double negation in IEEE) |
| C14 Bound sign convention and masks | proved | QpDataProps.v | `C14_upper_bounds_negated`, `C14_masks_default`, `C14_masks_01`, `C14_mask_independent` |  |
| C15 Soft-constraint index maps agree | proved | QpDataProps.v | `C15_idxs_rev_set`, `C15_idxs_agrees`, `C15_J_agrees`, `C15_idxs_roundtrip`, `C15_created_all_hard`, `C15_reset_idxs_refuted` | proved from an all-hard stage; re-setting idxs keeps stale entries (refuted) |
| C16 set_all_zero resets the QP to its just-created state | partial | QpDataProps.v | `C16_set_all_zero_partial`, `C16_soft_map_refuted` | everything but the soft-constraint map is reset; the map is reset only in its first ns entries (refuted witness) |
| C17 QP copy is complete | proved | QpDataProps.v | `C17_copy_all` |  |
| C18 Residuals are the KKT residuals of the QP the user set | proved | ResProps.v | `C18_residuals`, `C18_stationarity_is_gradient`, `C18_mu`, `C18_norms`, `C18_linear_residuals` | exact arithmetic; idxb/idxs_rev legal |
| C19 Reported objective and duality gap are exact | proved | ResProps.v | `C19_objective`, `C19_gap_identity`, `C19_lower_bound`, `C19_gap_is_complementarity` | exact arithmetic |
| C20 Zero residuals certify global optimality | proved | ResProps.v | `C20_zero_residuals_optimal`, `C20_suboptimality` | exact arithmetic; m=0, masks 0/1 |
| C21 Step length keeps the iterate in the positive orthant | partial | CoreProps.v | `C21_split_step`, `C21_split_step_target`, `C21_joint_step_partial`, `C21_joint_step_target`, `C21_next_iterate`, `C21_joint_step_refuted`, `C21_split_target_refuted`, `C21_joint_target_refuted` | proved (exact arithmetic) for separate steps, and for a common step when no constraint has both directions negative or when the target exceeds the tolerance; the unrestricted statement is false of the generic C code: split_step=0 can lengthen alpha again (refuted with IEEE witnesses). AVX variants not modelled |
| C22 Clipping keeps multipliers and slacks above their floor | proved | CoreProps.v | `C22_clipping`, `C22_update_exact` | clipping over IEEE binary64 including NaN/inf |
| C23 IPM loop: iteration bound and meaning of the status | proved | IpmFloat.v, IpmProps.v | `C23_iteration_bound`, `C23_unconstrained`, `C23_status`, `C23_success_certifies`, `C23_success_abs`, `C23_success_ieee`, `C23_nan_residual_refuted`, `C23_negative_iter_max_refuted` | any arithmetic, any linear algebra results; iter_max >= 0 for the SUCCESS part (a negative iter_max reports SUCCESS: refuted witness); 'not above' is the code's comparison, so a NaN residual norm with finite mu still gives SUCCESS (refuted witness for the stronger reading) |
| C24 Iteration statistics stay inside the stat table | proved | IpmProps.v | `C24_stat_in_table`, `C24_last_row` | any arithmetic |
| C25 Slack/multiplier elimination is exact | proved | CoreProps.v | `C25_elimination`, `C25_variants_agree` | exact arithmetic |
| C26 Riccati recursion solves the unconstrained KKT system | proved | UncProps.v | `C26_unconstrained_kkt`, `C26_convex_no_breakdown`, `C26_global_minimum` | exact arithmetic; N=0 not covered (the C code reads stage 1) |
| C27 Interior-point KKT step solves the full Newton system | proved | KktProps.v, SolveProps.v | `C27_newton_step`, `C27_linear_residual`, `C27_convex_newton`, `C27_newton_unique`, `C27_shared_slack_refuted` | exact arithmetic; slack sharing excluded (refuted witness: cross terms missing); N=0 not covered (the C code reads stage 1) |
| C28 Condensing preserves the objective and constraints | proved | CondProps.v | `C28_objective`, `C28_constraints`, `C28_trajectories`, `C28_equivalent`, `C28_ocp_qp_unchanged`, `C28_dimensions`, `C28_alg1_last_input_refuted`, `C28_recondense_stale_soft_refuted` | exact arithmetic; refuted witnesses: cond_alg=1 with inputs in the last stage gives a wrong gradient; condensing again into the same dense QP after changing which constraints are soft leaves stale indices |
| C29 Expansion of a condensed solution is consistent | proved | ExpProps.v | `C29_trajectory`, `C29_flags`, `C29_residuals`, `C29_accuracy`, `C29_kkt_point`, `C29_optimal`, `C29_masked_multiplier_refuted` | exact arithmetic, full condensing then EXPAND_SOL; stationarity needs dense multipliers that are zero on masked-out constraints (as the interior point solver returns them): the refuted witness shows it is necessary |
| C30 Removing fixed variables (reduce_eq_dof) is exact | partial | RedProps.v | `C30_restriction_partial`, `C30_lhs_rhs_partial`, `C30_equivalent_partial`, `C30_initial_state`, `C30_restore_copies`, `C30_restore_flags`, `C30_reduce_sol`, `C30_restore_residuals_partial`, `C30_restore_kkt_partial`, `C30_restore_optimal_partial`, `C30_bound_moved_refuted` | exact arithmetic; proved when no removed variable is stored before a variable whose bound is kept (e.g. the initial state is fixed, C30_initial_state); false otherwise: the index of the kept bound is not renumbered (C30_bound_moved_refuted: it then acts on another variable). The restored stationarity residual at fixed variables is +-lam_min, the constraint residual of removed bounds t_min. |
| C31 Initial iterate is strictly interior | proved | IpmInitProps.v | `C31_interior`, `C31_bounds`, `C31_narrow_bounds_refuted` | exact arithmetic; 'room' means at least 0.1 between the bounds (default scheme, cold or primal warm start); witness that narrower bounds are not respected in general |
| C32 Explicit Runge-Kutta integrator implements its tableau | proved | ErkProps.v | `C32_tableau`, `C32_builtin`, `C32_builtin_exit`, `C32_solve`, `C32_unique`, `C32_explicit_full`, `C32_adjoint_exits`, `C32_setters`, `C32_forward_sensitivities`, `C32_linear`, `C32_resume`, `C32_time_refuted`, `C32_implicit_refuted`, `C32_set_nf_refuted`, `C32_adjoint_seed_refuted` | exact arithmetic, flat workspace memory with checked accesses; refuted witnesses: the time reaches the callback truncated to int; an implicit tableau is integrated as explicit; set_nf beyond nf_max and adjoint seeds with nf_max < np+nx leave the workspace memory |
| C33 Solution object: set/get round trip and layout | proved | SolProps.v | `C33_roundtrip`, `C33_frame`, `C33_frame_t`, `C33_whole_parts`, `C33_history`, `C33_set_all`, `C33_get_all`, `C33_get_all_set_all`, `C33_set_zero`, `C33_copy_all`, `C33_names`, `C33_meaning` |  |
| C34 Solver arguments: set/get and presets | partial | ArgProps.v | `C34_setter`, `C34_set_get`, `C34_names`, `C34_names_complete`, `C34_get`, `C34_history`, `C34_default`, `C34_default_total`, `C34_default_sane`, `C34_exit_invariant`, `C34_deepcopy_partial`, `C34_deepcopy_t0_init_refuted` | deepcopy does not copy t0_init (refuted witness); everything else proved |
| C35 Dense QP residuals and optimality certificate | proved | DenProps.v | `C35_residuals`, `C35_stationarity_is_gradient`, `C35_objective`, `C35_gap_identity`, `C35_lower_bound`, `C35_gap_is_complementarity`, `C35_zero_residuals_optimal`, `C35_norms`, `C35_suboptimality`, `C35_mu`, `C35_linear_residuals` | Exact arithmetic. The dense residual routine computes the KKT residual of the dense QP (equality rows, soft constraints and masks included); kkt_g is the gradient of the Lagrangian; obj - gap is a lower bound; zero residuals certify a global minimum; C35_hypotheses_met is a concrete case. |
| C36 Bound selection: idxb, idxbu/idxbx and Jbu/Jbx agree | proved | QpDataProps.v | `C36_bound_selection`, `C36_idxb_roundtrip` |  |
| C37 Equality marks: idxe, idxbue/idxbxe/idxge and Jbue/Jbxe/Jge agree | partial | QpDataProps.v | `C37_idxe_parts`, `C37_J_marks_refuted` | index-vector setters proved; the J setters are wrong (refuted witness: | for &) |
| C38 set_rhs_zero zeroes the right-hand sides and nothing else | proved | QpDataProps.v | `C38_rhs_zero` |  |
| C39 The KKT solve returns | partial | KktProps.v, KktTermProps.v | `C39_convex_returns`, `C39_retry_terminates`, `C39_fuel_irrelevant`, `C39_nonconvex_case`, `C39_nan_hessian_never_returns_refuted`, `C39_fresh_workspace_never_returns_refuted` | exact arithmetic: returns for every QP, convex or not, when preg_last is reg_prim (as the solver sets it) or positive; at the first attempt if strictly convex. Refuted without these: with a NaN in the last stage input Hessian the retry loop never ends (binary64), nor with preg_last = 0 <> reg_prim (a freshly created workspace, KKT function called directly) on a non-convex QP |
| C40 The unconstrained solve leaves the cost matrices of the QP object unchanged | partial | UncProps.v | `C40_hessian_restored`, `C40_hessian_restored_float_refuted` | holds in exact arithmetic; refuted in binary64 with the default reg_prim (weight 2.0 becomes 1.9999999999999998) |
| C41 SUCCESS certifies a near-feasible, near-optimal solution | proved | IpmReal.v | `C41_success_certificate` | exact arithmetic, masks 0/1, default clipping mode; C41_hypotheses_met is a concrete case |
| C42 The returned multipliers and slacks are positive whatever happens in the linear algebra | proved | IpmReal.v | `C42_strictly_interior`, `C42_nonnegative` | exact arithmetic; arbitrary results of the KKT solves |
| C43 Partial condensing is exact | proved | PartProps.v | `C43_objective`, `C43_constraints`, `C43_dynamics`, `C43_trajectories`, `C43_equivalent`, `C43_ocp_qp_unchanged`, `C43_dimensions`, `C43_block_sizes`, `C43_alg1_block_input_refuted` | exact arithmetic; for blocks condensed with cond_alg=1 only if the last stage of the block has no input (or the block one stage): refuted witness |
| C44 Expanding a solution of the partially condensed QP | proved | PartExpProps.v | `C44_flags`, `C44_trajectory`, `C44_residuals`, `C44_accuracy`, `C44_kkt_point`, `C44_optimal` | exact arithmetic, for second QPs made by PART_COND_QP_COND; stationarity needs multipliers that are zero on masked-out constraints (as the solver returns them; see C29_masked_multiplier_refuted) |
| C45 Re-solving with a stored factorisation | proved | SolveProps.v | `C45_resolve`, `C45_convex_resolve`, `C45_factorise_then_solve`, `C45_same_step`, `C45_resolve_after_retry_refuted` | exact arithmetic, N>=1, no shared slacks; refuted witness outside the hypothesis: with the square-root algorithm selected, a solve after a regularised factorisation reads the classical factor as a square root and returns a wrong step (binary64) |
| C46 Solution sensitivities and prediction with the stored factorisation | proved | SensProps.v | `C46_forward`, `C46_forward_is_derivative`, `C46_adjoint`, `C46_adjoint_is_gradient`, `C46_adjoint_keeps_seed`, `C46_backup_is_previous_iterate`, `C46_seed_is_data_derivative`, `C46_seed_names`, `C46_seed_zero`, `C46_predict_residuals`, `C46_predict_full_step`, `C46_predict_absolute`, `C46_predict_stale_step_refuted` | exact arithmetic; the curve of relaxed solutions is assumed differentiable (its derivative is then unique and is what the call returns; C46_curve_exists is a concrete curve); the saved point is the iterate before the last update (C46_backup_is_previous_iterate); seed_m has no setter; constrained QPs only; prediction uses the step lengths left over from the last iteration, not 1: refuted witness for the reading 'the predicted point is feasible for the new problem' (C46_predict_full_step is the case of step length 1) |
| C47 The dense KKT solve returns the Newton step, by any method | proved | DenKktProps.v | `C47_newton`, `C47_null_space_exact_eq`, `C47_convex_returns`, `C47_fact_then_solve`, `C47_resolve`, `C47_methods_agree`, `C47_scale_flag_refuted` | exact arithmetic, no shared slacks, masks 0/1; the regularisation terms are spelled out in den_forces (DenKktSpec.v); GELQF/ORGLQ (BLASFEO) enter through the hypothesis lq_ready: they return an LQ factorisation of A with non-singular L; refuted witness outside the hypothesis w_scale = arg.scale: in absolute form the code never sets the flag ws->scale |
| C48 The dense KKT solve returns | partial | DenKktProps.v | `C48_retry_terminates_partial`, `C48_schur_retry_refuted`, `C48_dual_retry_refuted` | exact arithmetic; proved for every QP without equality constraints, with the null-space method, and with the scaled Schur complement (reg_dual > 0 or dreg_last positive or equal to reg_prim); false for the unscaled Schur complement (the default): every retry adds reg_prim again, not the increased value (C48_schur_retry_refuted), and with reg_dual = 0 and dependent equality rows the dual regularisation stays 0 (C48_dual_retry_refuted) |
| C49 Solving through the OCP QP solver object | proved | SolverProps.v | `C49_success_certificate`, `C49_args`, `C49_set`, `C49_arg_set`, `C49_get`, `C49_default`, `C49_t0_init_refuted`, `C49_reduce_flag_refuted`, `C49_arg_reuse_refuted`, `C49_warm_start_refuted` | exact arithmetic, default clipping mode; with elimination under the provisos of C30 (no removed variable stored before a variable with a kept bound; equal, imposed bounds) and reduce_eq_dof = 0 or 1; refuted witnesses: t0_init set before creation is lost, even values of reduce_eq_dof select the reducing path without its dimensions, an argument struct cannot be reused for other dimensions, with elimination the caller's initial solution is ignored |
| C50 Sensitivities through the elimination of fixed variables | proved | SensRedProps.v | `C50_forward`, `C50_forward_is_derivative`, `C50_removed_bounds_refuted` | exact arithmetic; provisos of C30 and C46; multipliers and slacks of the removed bounds are excepted: C50_removed_bounds_refuted shows that what is returned for them is not a derivative (multipliers never negative, slacks 1e-16) |
| C51 Condensing in two calls: the matrices once, then the vectors | proved | CsplitProps.v, CsplitSeedProps.v | `C51_objective`, `C51_constraints`, `C51_equivalent`, `C51_same_as_single_call`, `C51_ocp_qp_unchanged`, `C51_soft_bounds`, `C51_hypotheses_met`, `C51_vectors_after_seeds`, `C51_seed`, `C51_expanded`, `C51_seed_expanded`, `C51_seed_hypotheses_met`, `C51_slack_order_refuted`, `C51_m_refuted`, `C51_sqrt_indefinite_refuted` | exact arithmetic; hypothesis slack_order (scan rank of every soft constraint = stage offset + slack number; C51_soft_bounds gives a simple sufficient condition) because the two-call code numbers slacks by a running counter while the single call and the expansion use stage offsets (C51_slack_order_refuted); square-root algorithm needs a convex cost of the states because its factorisation is unchecked (C51_sqrt_indefinite_refuted); the complementarity targets m are not condensed (C51_m_refuted, and d_m unchanged in C51_constraints) |
| C52 Every iteration removes the same share of the infeasibility | proved | RunProps.v | `C52_infeasibility`, `C52_dynamics_never_worse`, `C52_rate`, `C52_iteration`, `C52_hypotheses_met` | exact arithmetic; complementarity target m = 0 (the default); the stationarity part is stated per iteration (C52_iteration): with a joint step the code may push multipliers negative and clip them (C21 finding), after which the residual no longer shrinks; the LQ factorisation is not modelled, hence lq_fact = 0, or 1 with reg_prim = 0 where the model shows that its fallback is never taken |
| C53 Residuals and optimality certificate of a tree-structured QP | proved | TreeProps.v | `C53_residuals`, `C53_residuals_exact`, `C53_stationarity_is_gradient`, `C53_linear_residuals`, `C53_norms`, `C53_mu`, `C53_suboptimality`, `C53_zero_residuals_optimal`, `C53_scenario_trees`, `C53_hypotheses_met`, `C53_masked_multiplier_refuted` | exact arithmetic; proviso: multipliers of masked constraints are zero (the interior point code keeps them zero); C53_residuals_exact gives the reported value without the proviso and C53_masked_multiplier_refuted shows that it is then wrong (lines 516 and 563 read the unmasked multipliers, unlike the linear version and the OCP QP version) |
| C54 Newton steps of a tree-structured QP | proved | TreeKktProps.v | `C54_newton_step`, `C54_newton_unique`, `C54_resolve`, `C54_linear_residuals_vanish`, `C54_path_is_ocp`, `C54_hypotheses_met`, `C54_indefinite_not_detected_refuted` | exact arithmetic; no two constraints share a slack (as C27), t_lam_min clipping inactive, masked constraints carry no multiplier, comp_dual_sol_eq on; the square-root factorisation of the double-precision code; FACT_LQ_SOLVE and the unconstrained routine are not modelled; C54_indefinite_not_detected_refuted: without convexity the tree solver neither detects nor repairs the failed factorisation |
| C55 Dense interior-point solver: iterations, status and what SUCCESS certifies | proved | DenIpmFloat.v, DenIpmProps.v, DenIpmReal.v | `C55_iteration_bound`, `C55_unconstrained`, `C55_status`, `C55_success_certifies`, `C55_success_abs`, `C55_stat_in_table`, `C55_last_row`, `C55_success_ieee`, `C55_strictly_interior`, `C55_nonnegative`, `C55_success_certificate`, `C55_nan_residual_refuted`, `C55_negative_iter_max_refuted` | the control theorems hold in every arithmetic and for every linear algebra; the certificate in exact arithmetic; provisos found necessary: iter_max >= 0 (C55_negative_iter_max_refuted), and NaN entries are invisible to the norms (C55_nan_residual_refuted); in the absolute formulation SUCCESS only bounds mu (C55_success_abs); remove_lin_dep_eq and compute_obj off |
| C56 Initial iterate of the dense interior-point solver | proved | DenInitProps.v | `C56_interior`, `C56_bounds`, `C56_midpoint_refuted`, `C56_general_upper_refuted` | exact arithmetic, counterexamples in IEEE doubles; bounds closer than 0.2 start outside their interval (C56_midpoint_refuted: the midpoint is computed with the wrong sign) and the slack of an upper general constraint is initialised with the wrong sign (C56_general_upper_refuted) |
| C57 Removal of linearly dependent equality constraints in the dense solver | proved | DenSolveProps.v | `C57_kept_equalities`, `C57_nothing_removed`, `C57_solve_call`, `C57_relaxation`, `C57_inconsistent`, `C57_inconsistent_solutions`, `C57_leading_rank`, `C57_independent_equality_removed_refuted`, `C57_sign_of_multiplier_refuted`, `C57_more_equalities_than_variables_refuted`, `C57_absolute_threshold_refuted`, `C57_all_removed_refuted`, `C57_stale_backup_refuted` | exactness only when the leading columns carry the rank: otherwise the code may remove an independent equality, keep a dependent one or miss an inconsistency (the _refuted theorems, evaluated in IEEE doubles with the code's threshold); restoration needs that some equality was kept and that the workspace holds no backup of a larger QP (both refuted without); multipliers of removed equalities are not recovered (a TODO in the code) |
| C58 Objective reported by the dense solver | proved | DenSolveProps.v | `C58_objective`, `C58_reported` | exact arithmetic |
| C59 Residuals and optimality certificate of an OCP QCQP | proved | QcqpProps.v | `C59_residuals`, `C59_stationarity_is_gradient`, `C59_mu`, `C59_norms`, `C59_gap_identity`, `C59_lower_bound`, `C59_gap_is_complementarity`, `C59_zero_residuals_optimal`, `C59_suboptimality`, `C59_mu_counts_lower_refuted` | exact arithmetic; the residual routine zeroes multipliers of lower sides (as the code); C59_mu_counts_lower_refuted: called on a QCQP with its default masks the measure mu is averaged also over the disregarded lower sides |
| C60 Linearisations by which the QCQP solver replaces the QCQP | proved | QcqpLinProps.v | `C60_approx`, `C60_update`, `C60_cache`, `C60_newton`, `C60_damped_step`, `C60_masks`, `C60_masks_harmless`, `C60_soft_lower_slack_refuted`, `C60_gradient_refuted`, `C60_unconstrained_gradient_refuted`, `C60_abs_step_accumulates_refuted`, `C60_abs_fixed_point_refuted` | exact arithmetic, delta formulation; the cost gradient of the QP is wrong (C60_gradient_refuted: written to stage 0 for every stage; the delta form does not read it, the unconstrained branch does: C60_unconstrained_gradient_refuted, IEEE doubles); the absolute formulation's update is wrong in two ways (C60_abs_step_accumulates_refuted, C60_abs_fixed_point_refuted); with a linear penalty on the lower slack of a soft quadratic constraint the masks make the problem unbounded (C60_soft_lower_slack_refuted) |
| C61 QCQP interior-point solver: iterations, status and what SUCCESS certifies | proved | QipmProps.v, QipmRealProps.v | `C61_iteration_bound`, `C61_unconstrained`, `C61_status`, `C61_success_certifies`, `C61_success_abs`, `C61_stat_in_table`, `C61_last_row`, `C61_strictly_interior`, `C61_success_certificate` | the control theorems hold in every arithmetic, for every linear algebra and every content of the uninitialised mask pointers (C62); the certificate in exact arithmetic, delta formulation, default clipping mode, iter_max >= 0, embedded QP created for the same dimensions; the bounds of slacks softening lower sides of quadratic constraints are not certified because the solver drops them (C60); in the absolute formulation SUCCESS only bounds mu (C61_success_abs) |
| C62 Initial iterate of the QCQP interior-point solver | proved | QinitProps.v | `C62_interior`, `C62_bounds`, `C62_upper_bound_mask_refuted`, `C62_t0_init_refuted`, `C62_general_masks_uninitialised_refuted` | exact arithmetic, counterexamples in IEEE doubles: the masks of the upper bounds are read nq entries too early, so that with quadratic constraints active upper bounds are ignored by the initialisation (C62_upper_bound_mask_refuted); t0_init 0 and 1 leave 2*nq multipliers and slacks as they were (C62_t0_init_refuted); the mask pointers of the general constraints are never set (C62_general_masks_uninitialised_refuted: the result depends on arbitrary memory, hence C62_bounds speaks of bounds only) |
| C63 Every iteration of the QCQP solver shrinks the infeasibility | proved | QrunProps.v | `C63_rhs`, `C63_iteration`, `C63_infeasibility`, `C63_dynamics_never_worse`, `C63_rate`, `C63_hypotheses_met` | exact arithmetic, delta formulation, complementarity target m = 0; lq_fact = 0, or 1 with reg_prim = 0 (as in C52: the LQ fallback is then never taken); t0_init = 2 (the default: see C62 for the other values) |
| C64 Partial condensing in several calls, and of sensitivity seeds, is exact | proved | PcsplitProps.v | `C64_objective`, `C64_constraints`, `C64_dynamics`, `C64_equivalent`, `C64_same_as_single_call`, `C64_ocp_qp_unchanged`, `C64_seed`, `C64_expanded`, `C64_seed_expanded`, `C64_optimal`, `C64_soft_bounds`, `C64_hypotheses_met`, `C64_m_refuted` | exact arithmetic; default comp flags of the blocks; hypotheses as in C51, per block (slack_order: see C51_slack_order_refuted); the complementarity targets are not condensed (m unchanged in C64_constraints, C64_m_refuted) |
| C65 Updating a condensed QP after some stages changed | proved | CupdProps.v | `C65_objective`, `C65_constraints`, `C65_equivalent`, `C65_same_as_fresh`, `C65_ocp_qp_unchanged`, `C65_masks_not_updated`, `C65_last_stage_alone_refuted`, `C65_linear_state_cost_refuted`, `C65_soft_order_refuted` | exact arithmetic, cond_alg 0 (the update reads the stage matrices of that algorithm), cond_last_stage 1 (COND_QP_UPDATE, not PART_COND_QP_UPDATE); the four restrictions are necessary: last stage marked alone (C65_last_stage_alone_refuted), singular state cost (C65_linear_state_cost_refuted: no fallback as in COND_QP_COND, the gradient is lost), soft constraints (C65_soft_order_refuted: slacks renumbered), masks and m (C65_masks_not_updated) |
| C66 Feedback gains and cost-to-go returned by the Riccati getters | proved | RicProps.v | `C66_repeatable`, `C66_newton_law`, `C66_newton_law_convex`, `C66_every_state`, `C66_factors`, `C66_after_sensitivity_refuted`, `C66_singular_fallback_refuted` | exact arithmetic, complementarity of masked constraints as in C45; histories of KKT solves, then getters: a sensitivity call between two vector getters is excluded (C66_after_sensitivity_refuted: the seed's vector is returned), and so is the fallback from the square-root to the classical algorithm (C66_singular_fallback_refuted: P is squared); the states where the solver itself sets the vector flag (absolute formulation, unconstrained QP) are not covered; of Lr only the lower triangle is specified |
| C67 Condensing a solution (warm start of the condensed problem) | proved | CsolPartProps.v, CsolProps.v | `C67_flags`, `C67_trajectory`, `C67_optimal`, `C67_expand_condensed`, `C67_condensed_expanded`, `C67_residuals`, `C67_kkt_point`, `C67_no_slacks`, `C67_soft_bounds`, `C67_hypotheses_met`, `C67_slack_order_refuted`, `C67_part_flags`, `C67_part_trajectory`, `C67_part_optimal`, `C67_part_expand_condensed`, `C67_part_condensed_expanded`, `C67_part_residuals`, `C67_part_kkt_point`, `C67_part_soft_bounds`, `C67_part_hypotheses_met` | exact arithmetic; default cond_last_stage flags of the blocks; slack_order is necessary: COND_SOL places the slacks of all softened bounds before those of all softened general constraints, condensing and expansion place them stage by stage (C67_slack_order_refuted: a feasible point condenses to an infeasible one) |
| C68 Tree OCP QP solve: iterations, status, statistics, SUCCESS | proved | TipmFloat.v, TipmProps.v | `C68_iteration_bound`, `C68_unconstrained`, `C68_status`, `C68_success_certifies`, `C68_success_abs`, `C68_stat_in_table`, `C68_last_row`, `C68_success_ieee`, `C68_nan_residual_refuted`, `C68_negative_iter_max_refuted` | unconstrained problems return at once (C68_unconstrained); abs_form 1: C68_success_abs (only mu is checked, as in C23); SUCCESS does not exclude NaN residual entries, whose norm is skipped (C68_nan_residual_refuted), and a negative iter_max gives SUCCESS without check (C68_negative_iter_max_refuted) |
| C69 Tree OCP QP initial iterate | proved | TipmInitProps.v | `C69_interior`, `C69_bounds`, `C69_pi`, `C69_narrow_bounds_refuted` | exact arithmetic; C69_bounds: t0_init = 2 (the default), bounds at least 0.2 apart: with narrower bounds the tree code takes the midpoint of lb and MINUS ub (C69_narrow_bounds_refuted) |
| C70 Tree OCP QP solve: positivity and what SUCCESS certifies | proved | TipmReal.v | `C70_strictly_interior`, `C70_nonnegative`, `C70_success_certificate` | exact arithmetic; masks 0 or 1; certificate: delta formulation, t_lam_min = 2 (the default) |
| C71 Every iteration of the tree solver removes the same share of the infeasibility | proved | TrunProps.v | `C71_infeasibility`, `C71_dynamics_never_worse`, `C71_rate`, `C71_iteration`, `C71_hypotheses_met` | exact arithmetic; complementarity target m = 0 (the default); lq_fact = 0, or 1 with reg_prim = 0 (then the LQ fallback is never taken); comp_dual_sol_eq on (off only in SPEED_ABS); stationarity per iteration (C71_iteration), as in C52 |
| C72 Every iteration of the dense solver removes the same share of the infeasibility | proved | DrunProps.v | `C72_infeasibility`, `C72_equalities_never_worse`, `C72_rate`, `C72_iteration`, `C72_hypotheses_met` | exact arithmetic; complementarity target m = 0 (the default); lq_fact = 0, or 1 with reg_prim = 0 and unperturbed equalities; in the absolute form the scaling flag of the workspace must agree with the option (that form never sets it, see C47_scale_flag_refuted); BLASFEO LQ routine assumed to factorise A; stationarity per iteration (C72_iteration), as in C52 |
| C73 Dense QCQP residuals are the KKT residuals and certify optimality | proved | DqcProps.v | `C73_residuals`, `C73_stationarity_is_gradient`, `C73_gap_identity`, `C73_mu`, `C73_norms`, `C73_lower_bound`, `C73_gap_is_complementarity`, `C73_zero_residuals_optimal`, `C73_suboptimality` | exact arithmetic; cached constraint values, if used, must be those of the point; as for the OCP QCQP (C59_mu_counts_lower_refuted) the measure counts the lower sides of the quadratic constraints unless they are masked |
| C74 The QP built by the dense QCQP solver is the Newton linearisation of the QCQP | proved | DqlProps.v | `C74_approx`, `C74_update`, `C74_cache`, `C74_newton`, `C74_damped_step`, `C74_masks`, `C74_masks_harmless`, `C74_abs_tangent`, `C74_soft_lower_slack_refuted`, `C74_abs_fixed_point_refuted`, `C74_abs_cache_refuted` | exact arithmetic; if a quadratic constraint is softened and its lower slack has a positive linear cost, the mask makes the problem unbounded below (C74_soft_lower_slack_refuted); the absolute form writes the right tangents (C74_abs_tangent) but does not correct the gradient, so a solution of the QCQP is not a solution of the QP (C74_abs_fixed_point_refuted), and leaves the constant of the tangent, not the value, in the cache (C74_abs_cache_refuted) |
| C75 Dense QCQP interior point solve: iterations, status, certificate, statistics | proved | DqiProps.v, DqiReal.v | `C75_iteration_bound`, `C75_unconstrained`, `C75_status`, `C75_success_certifies`, `C75_success_abs`, `C75_stat_in_table`, `C75_last_row`, `C75_strictly_interior`, `C75_success_certificate`, `C75_hot_start_refuted` | the control theorems hold in every arithmetic and for every linear algebra; the certificate in exact arithmetic, delta formulation, default clipping mode, iter_max >= 0, embedded QP created for the same dimensions, after at least one iteration: without one, multipliers of the user on the lower sides of quadratic constraints enter the stationarity residual, and a hot start can end with SUCCESS at the worst feasible point (C75_hot_start_refuted); the bounds of slacks softening lower sides of quadratic constraints are not certified because the solver drops them (C74); in the absolute formulation SUCCESS only bounds mu (C75_success_abs) |
| C76 Initial iterate of the dense QCQP solver | proved | DqiInitProps.v | `C76_interior`, `C76_bounds`, `C76_upper_bound_mask_refuted`, `C76_midpoint_refuted`, `C76_general_upper_refuted` | exact arithmetic, counterexamples in IEEE doubles: the masks of the upper bounds are read nq entries too early, so C76_bounds asks these entries to agree and active upper bounds can be ignored (C76_upper_bound_mask_refuted); bounds less than 0.2 apart start at a wrong midpoint (C76_midpoint_refuted); the slack of an upper general constraint starts from the wrong sign (C76_general_upper_refuted) |
| C77 Dense QCQP solver: infeasibility is contracted by every iteration | proved | DqrunProps.v | `C77_rhs`, `C77_iteration`, `C77_infeasibility`, `C77_equalities_never_worse`, `C77_rate`, `C77_default_start`, `C77_hypotheses_met` | exact arithmetic, delta formulation, complementarity target m = 0; t_lam_min = 2 (the default); lq_fact = 0, or 1 with reg_prim = 0 and unperturbed equalities; the equalities contract exactly when they are not perturbed by reg_dual (none, null-space method, or reg_dual = 0); initial multipliers of masked constraints must be 0 because this solver does not mask them (C75_hot_start_refuted): C77_default_start shows it for the default starts when every constraint is imposed but for the lower sides of the quadratic ones; BLASFEO LQ routine assumed to factorise A |
| C78 Partial condensing update: the second QP stays equivalent to the present OCP QP | proved | PupdExpProps.v, PupdProps.v | `C78_objective`, `C78_constraints`, `C78_dynamics`, `C78_equivalent`, `C78_blocks`, `C78_unmarked_block`, `C78_masks_not_updated`, `C78_ocp_qp_unchanged`, `C78_object_left`, `C78_expanded`, `C78_optimal`, `C78_block_last_stage_alone_refuted` | exact arithmetic, except for C78_blocks, C78_unmarked_block and C78_masks_not_updated; cond_alg 0, no slacks, strictly convex state costs strictly inside the blocks, the last stage of a block of three or more marked only with the stage before it (C78_block_last_stage_alone_refuted: needed, a real defect of the code); masks, targets, index sets and dimensions constant over the history (C78_masks_not_updated: they are not updated); these three hold for every arithmetic and every marking |

## 5. Trusted base in detail

*Kernel and axioms.*  Every `...Props.v` file ends with `Print Assumptions` for its theorems.  Integer, memory, layout, field
dispatch, float (`spec_float`) and "any arithmetic" theorems are closed under the global context (some of the latter use
`functional_extensionality_dep`).  Theorems over `R` rest on `ClassicalDedekindReals.sig_forall_dec`, `ClassicalDedekindReals.sig_not_dec`,
`functional_extensionality_dep` and, in a few files, `Classical_Prop.classic`: all from Coq's standard library.  (Names from `ssrunder` and `RbaseSymbolsImpl`
that a whole-library `coqchk` lists are opaque module fields of the standard library, not axioms of the development.)

*BLASFEO* (not in the repository).  Each routine used is a Coq function with the argument list of the C call (`Blas.v`, `Blas2.v`, `CondModel.v`).  Points
where the documented behaviour matters:
  - `POTRF_L` on a non-positive pivot stores 0 in the inverse diagonal (reference implementation) and goes on;
  - routines with a `_mn` suffix process an `m x n` trapezoid, triangular ones read only the lower triangle;
  - `GEMV_*` with `beta=0` ignores the old content (`0*y` over `R`; the float witnesses do not depend on it);
  - sizes: `blasfeo_memsize_*` are abstract; `abi_ok` (a vector of n reals takes at least n reals) is the only assumption.
  - padding of the panel-major format is not modelled: a matrix is a function of two indices.

*Reading of the C code.*  Each definition cites file and lines; simplifications are in the comment.  General ones: pointers into shared memory are
modelled as separate arrays once the layout theorems (C06-C08) have shown that the regions are disjoint; `int` and `size_t` are unbounded; the
compile-time switches `RUNTIME_CHECKS`, `EXT_DEP`, `TARGET_*` are off; timers and printing are ignored.

## 6. What is not modelled

Python/Matlab/Octave/Simulink interfaces and code generation (`*_utils.c`, `*_codegen`), `examples/`, `test_problems/`; single-precision rounding
(the `s_*.c` files instantiate the same templates); mixed precision; of the QCQP solvers only the OCP QCQP residuals, linearisation, masks, initialisation and interior-point loop (C59-C63) are modelled, not its arguments and data setters; of the dense QCQP code the residuals, linearisation, masks, initialisation and loop (C73-C76), not its arguments and data setters; nor the tree and condensing QCQP code; the tree OCP QP beyond the scenario tree, the residuals, the Riccati KKT solver and the interior-point loop (its LQ factorisation and unconstrained solver are parameters, and its arguments and data setters are not modelled);
the adjoint sweep of `sim_core` (unreachable: the solver exits first); `idxe` and `diag_H_flag` of the QP made by `ocp_qp_reduce_eq_dof`
(the rest of `ocp_qp/x_ocp_qp_red.c` is modelled in `RedModel.v`).  Rounding errors are outside the theorems over `R`.

`PART_COND_QP_UPDATE` is not modelled (nor `cond_last_stage = 0` of the update functions in the theorems of C65; the model has it).  Of the dense KKT file, `FACT_LQ_SOLVE`, `FACT_SOLVE_LU` and the unconstrained solve
are not modelled.

## 7. Defects found (each a machine-checked witness, or a remark in a comment of the model)

- C01: `ocp_qp_dim_set_*` with a stage outside `0..N` writes outside the array.
- C09/C10: default block sizes with `N2=0` divide by zero; `N2>N` yields empty blocks and dimensions that do not conserve.
- C12: `Nr>Nh` writes more tree nodes than the memory holds.
- C13: duplicated bound rows after `set_rhs_zero`.  C15: setting `idxs` again keeps stale slack indices.  C16: `set_all_zero` resets only the first `ns` entries of `idxs_rev`.
- C21: `split_step=0` can lengthen alpha again.  C23: a NaN residual with finite mu, or a negative `iter_max`, gives SUCCESS.
- C43: `cond_alg=1` on a block whose last stage has inputs condenses a wrong gradient.
- C27: two constraints sharing a slack get a wrong Newton step.  C39: a NaN Hessian makes the `compute_preg` retry loop endless; so does `preg_last = 0` left by CREATE with `reg_prim > 0` (direct call, non-convex QP).  C40: regularisation is removed by
  subtraction, which changes the user's Hessian in binary64.
- C45: after a regularised retry `SOLVE_KKT_STEP` with `square_root_alg=1` reads the classical factor as a square root (the fallback is a local variable of `FACT_SOLVE_KKT_STEP`).
- C46: `OCP_QP_IPM_PREDICT` sets `cws->alpha=1.0`, which `UPDATE_VAR_QP` does not read; the step lengths of the last iteration stay in effect.  The saved point (`*_bkp`) and the
  stored factorisation are those of the iterate before the last update, so sensitivities belong to that point.
- C48: the unscaled Schur complement method of the dense KKT solver retries with `arg->reg_prim` instead of `preg` (endless loop when `H+reg_prim I` is not positive definite); the dual retry
  compares `dreg_last` with `arg->reg_prim`.  C47: `ws->scale` is set in `DENSE_QP_IPM_DELTA_STEP` only, so with `abs_form` the SOLVE after a scaled factorisation uses the wrong branch.
- C49: `OCP_QP_SOLVER_ARG_DEEPCOPY` loses `t0_init` (via C34); `reduce_eq_dof` is tested with `&` at creation and for non-zero at solve; the argument struct caches the reduced dimensions;
  with elimination the initial solution passed by the caller is ignored.  C50: the restored sensitivities of removed bounds are multipliers/slacks, not derivatives; only the lower seed of a removed bound is read.
- C51: `COND_DCT`/`COND_D` number the slacks with a running counter over all constraints, `COND_DCTD` and `EXPAND_SOL` with stage offsets: a QP whose soft constraints are not scanned in slack order is expanded wrongly;
  `COND_RSQ` with `square_root_alg=1` does not check its factorisation (the single call does); `COND_QP_COND_RHS` does not condense `m`.
- C28: `cond_alg=1` with inputs in the last stage gives a wrong gradient; condensing again into the same dense QP leaves stale `idxs_rev`.
- C29: multipliers on masked-out constraints enter `pi`.
- C31: bounds closer than the interior margin are not respected by the initial point.  C34: `arg_deepcopy` misses `t0_init`.  C37: the `J*e` setters use `|` for `&`.
- C30: `OCP_QP_REDUCE_EQ_DOF` keeps the old `idxb` of a bound on a kept variable, so a bound behind a removed variable moves to another variable.
- C32: the integrator passes the time to callbacks declared with `int t`; implicit tableaux are integrated as explicit; `set_nf` is not checked against `nf_max`; the adjoint
  seed overruns the workspace when `nf_max < np+nx`.
- C54: the tree KKT solver does not look at the pivots of its factorisation: for an indefinite problem it returns a wrong step (zero or NaN) without notice.
- C53: the tree residual routine uses the multipliers of masked constraints in the stationarity residual of the inputs and states and in the gap.
- C55: as in the OCP solver, NaN entries are skipped by the residual norms (SUCCESS with a NaN stationarity residual) and a negative `iter_max` gives SUCCESS without solving.
- C56: `DENSE_QP_INIT_VAR` computes the midpoint of close bounds as half of `d_lb + d_ub` where `d_ub` is the negated bound, and copies `+C v` instead of `-C v` to the slack of the upper general constraints (line 1509).
- C57: `DENSE_QP_REMOVE_LIN_DEP_EQ` eliminates with `-fabs(entry)/pivot` (line 3009), goes on testing the diagonal after a column without pivot, reads the b column as pivot when `ne>nv`, uses an absolute threshold, does not
  restore when every equality was removed, and restores from a backup that WS_CREATE never initialises and no call resets.
- C59: `OCP_QCQP_RES_COMPUTE` divides mu by the number of nonzero masks, which by default includes the disregarded lower sides.
- C60: `OCP_QCQP_APPROX_QP` (x_ocp_qcqp_ipm.c:1350) copies the gradient of every stage to stage 0 (`qp->rqz` without `+ii`); with no constraint at all the solver returns a wrong point.
  `OCP_QCQP_UPDATE_QP_ABS_STEP` copies only nu+ns columns of the Hessian (line 1456), so the curvature terms accumulate, and does not correct the gradient.  The solver drops the sign constraint
  of the lower slack of a soft quadratic constraint: with a linear penalty on it the problem it solves is unbounded.
- C62: `OCP_QCQP_INIT_VAR` reads the masks of the upper bounds at nb+ng instead of nb+ng+nq (x_ocp_qcqp_ipm.c:1027), never sets `d_lg_mask`/`d_ug_mask` (declared 903, read 1092/1094: undefined
  behaviour when ng > 0), and with `t0_init` 0 or 1 sets only 2nb+2ng+2ns of the 2nb+2ng+2nq+2ns multipliers and slacks.
- C61 (remarks): `OCP_QCQP_RES_CONV_QP_RES` does not copy the norms, so the refinement tests of the QP step compare with norms never computed in this call; mu of the absolute form divides by all
  constraints, masked ones included.
- C65: `COND_QP_UPDATE` with only the last stage marked keeps the old terminal cost in the Hessian; with a singular state cost it loses the gradient; it renumbers the slacks and never updates masks and `m`.
- C66: `OCP_QP_IPM_SENS_FRW/ADJ` and `PREDICT` overwrite the vector `ws->l` without clearing `valid_ric_vec`: `GET_RIC_*_VEC` then return the seed's vector; after the fallback from the square-root to the classical factorisation `GET_RIC_P` returns `L_xx L_xx'` where the block already holds P.
- `COND_SOL` places the slacks of all softened bounds before those of all softened general constraints, while condensing and expansion place them stage by stage: with a softened bound and, in a later stage, a softened general constraint the warm start has its slacks swapped (`C67_slack_order_refuted`).
- C69: `TREE_OCP_QP_INIT_VAR` line 1287 computes `0.5*(lb+ub)` where `ub` is minus the upper bound (the OCP QP code has `lb-ub`): with bounds less than 0.2 apart a good warm start is moved far outside the bounds.
- Dense QCQP solver, absolute form: the gradient is not corrected by the constraint curvature, so the exact solution is not a fixed point (C74_abs_fixed_point_refuted), and `q_fun` caches the tangent's constant, so the residuals computed with it are wrong (C74_abs_cache_refuted).  All forms: masking the lower slacks of softened quadratic constraints drops their nonnegativity although their linear cost stays (C74_soft_lower_slack_refuted).
- C75: `DENSE_QCQP_IPM_SOLVE` does not mask the multipliers of the initial iterate (the OCP solver does): with a hot start, multipliers on the lower sides of quadratic constraints enter the residuals, and SUCCESS after 0 iterations can be wrong (C75_hot_start_refuted).  Its unconstrained branch computes the residuals with values cached at the initial point, and writes them to columns 6-10 of row 0.
- C76: `DENSE_QCQP_INIT_VAR` reads the masks of the upper bounds at `nb+ng` instead of `nb+ng+nq`; and the two sign slips of C56.
- Remarks only: the reduced QP's `idxe` is never set (a TODO in the code); KKT code reads stage 1 when `N=0`; statistics columns of the
  unconstrained early return are shifted by one.
