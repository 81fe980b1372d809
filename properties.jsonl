{"id": "C01", "title": "Dimension object: set/get round trip and independence", "statement": "After d_ocp_qp_dim_create(N), any sequence of d_ocp_qp_dim_set(field,stage,value) calls with a known field and 0<=stage<=N makes d_ocp_qp_dim_get(field,stage) return the last value set for exactly that (field,stage), 0 if never set; no set disturbs any other (field,stage). A set/get with an unknown field name terminates the program (exit(1)) ; the stage is not range-checked (an out-of-range stage silently overwrites another field or leaves the buffer).", "quantifier": "every horizon N, every finite history of set calls, every field and stage", "why_tests_cant": "the history space is unbounded and the ten arrays live in one caller-provided flat buffer, so overlap bugs show only for particular (N, field, stage) combinations", "anchors": ["ocp_qp/x_ocp_qp_dim.c: OCP_QP_DIM_CREATE, OCP_QP_DIM_SET, OCP_QP_DIM_SET_*, OCP_QP_DIM_GET"]}
{"id": "C02", "title": "Dimension object: total number of bounds is always nbx+nbu", "statement": "In every state of an OCP-QP dimension object reachable by create followed by any sequence of set / set_all / copy_all / deepcopy calls, the stored total number of bounds nb[i] equals nbx[i]+nbu[i] at every stage.", "quantifier": "every N and every finite history of public dimension calls", "why_tests_cant": "nb is redundant cached data; consistency must survive every interleaving of the setters", "anchors": ["ocp_qp/x_ocp_qp_dim.c: OCP_QP_DIM_SET_NBX, OCP_QP_DIM_SET_NBU, OCP_QP_DIM_SET_ALL, OCP_QP_DIM_COPY_ALL, OCP_QP_DIM_DEEPCOPY"]}
{"id": "C03", "title": "Dimension copy is complete", "statement": "After d_ocp_qp_dim_copy_all(orig,dest) (same N) every get on dest returns what get on orig returns; orig is unchanged; later sets on orig do not change dest.", "quantifier": "every pair of dimension objects with equal N", "why_tests_cant": "a forgotten field is only visible for problems which use that field", "anchors": ["ocp_qp/x_ocp_qp_dim.c: OCP_QP_DIM_COPY_ALL, OCP_QP_DIM_DEEPCOPY"]}
{"id": "C04", "title": "Field-name comparison is exact string equality", "statement": "hpipm_strcmp(a,b) returns 1 iff the two NUL-terminated strings are equal, never reads past the terminator of either, and terminates; hence a string-dispatch setter selects exactly the branch whose literal equals the field name.", "quantifier": "all pairs of NUL-terminated strings of any length", "why_tests_cant": "infinitely many strings, prefixes are the dangerous case ('lb' vs 'lbx' vs 'lb_mask')", "anchors": ["auxiliary/aux_string.c: hpipm_strcmp"]}
{"id": "C05", "title": "zero_memset clears exactly the requested bytes", "statement": "hpipm_zero_memset(n,mem) sets bytes mem[0..n-1] to zero and touches no other byte.", "quantifier": "every memory size n, every initial memory content", "why_tests_cant": "the unrolled-by-8 loop plus remainder handling has a different path for each residue of n mod 64", "anchors": ["auxiliary/aux_mem.c: hpipm_zero_memset"]}
{"id": "C06", "title": "Core IPM workspace: memsize covers the layout", "statement": "For all nv,ne,nc>=0, the 17 arrays carved by create_core_qp_ipm out of the caller's buffer are pairwise disjoint, have the advertised length and lie inside the memsize bytes the memsize function asked the caller to allocate.", "quantifier": "all nv, ne, nc and any buffer address", "why_tests_cant": "sizes are unbounded; an overflow by one array is only seen by a sanitizer for sizes not absorbed by the 64-byte rounding", "anchors": ["ipm_core/x_core_qp_ipm.c: MEMSIZE_CORE_QP_IPM, CREATE_CORE_QP_IPM"]}
{"id": "C07", "title": "OCP QP object: memsize covers the layout", "statement": "For every dimension object with non-negative entries, all objects carved by d_ocp_qp_create (pointer arrays, matrix/vector headers, index arrays, matrices, vectors) are inside [mem, mem+memsize) and pairwise disjoint, for any alignment of mem, given only that BLASFEO's size functions return what its create functions consume.", "quantifier": "all N, all stage dimensions, all buffer addresses", "why_tests_cant": "unbounded dimensions and alignment cases", "anchors": ["ocp_qp/x_ocp_qp.c: OCP_QP_MEMSIZE, OCP_QP_CREATE"]}
{"id": "C08", "title": "Solution / residual / workspace objects: memsize covers the layout", "statement": "Same as C07 for d_ocp_qp_sol_create, d_ocp_qp_res_create, d_ocp_qp_res_ws_create, the dimension objects, the reduce-eq-dof workspace and the dense QP, solution, residual objects.", "quantifier": "all dimensions, all buffer addresses", "why_tests_cant": "unbounded dimensions and alignment cases", "anchors": ["ocp_qp/x_ocp_qp_sol.c", "ocp_qp/x_ocp_qp_res.c", "ocp_qp/x_ocp_qp_dim.c", "ocp_qp/x_ocp_qp_red.c", "dense_qp/x_dense_qp.c", "dense_qp/x_dense_qp_sol.c", "dense_qp/x_dense_qp_res.c"]}
{"id": "C09", "title": "Partial condensing block sizes partition the horizon", "statement": "d_part_cond_qp_compute_block_size(N,N2) with N2>=1 fills exactly block_size[0..N2]; the entries sum to N, the first N2 differ by at most one and are non-increasing, the last is 0. N2=0 with N>0 divides by zero.", "quantifier": "all N>=0 and N2>=1", "why_tests_cant": "arithmetic identity for all pairs (N,N2)", "anchors": ["cond/x_part_cond.c: PART_COND_QP_COMPUTE_BLOCK_SIZE"]}
{"id": "C10", "title": "Partial condensing dimensions conserve variables and constraints", "statement": "For any block sizes summing to N, the dimensions computed by d_part_cond_qp_compute_dim conserve the total number of inputs, of soft constraints and of inequality constraints (bounds + general), keep the state dimension of the first stage of every block, never read outside the original dimension arrays and satisfy nb2 = nbx2+nbu2.", "quantifier": "all N, N2, stage dimensions, block sizes summing to N", "why_tests_cant": "nested data-dependent loops over arbitrary partitions", "anchors": ["cond/x_part_cond.c: PART_COND_QP_COMPUTE_DIM"]}
{"id": "C11", "title": "Full condensing dimensions conserve variables and constraints", "statement": "d_cond_qp_compute_dim yields a dense QP with nv = nx[0]+sum nu, ne = 0, and as many bounds + general constraints + soft constraints as the OCP QP has in total.", "quantifier": "all N and stage dimensions", "why_tests_cant": "unbounded horizon", "anchors": ["cond/x_cond.c: COND_QP_COMPUTE_DIM"]}
{"id": "C12", "title": "Scenario tree is a well-formed tree and stays in its memory", "statement": "For md>=1, 0<=Nr<=Nh, sctree_create builds exactly the number of nodes computed by sctree_node_number, every node entry is written exactly once, every non-root node is listed exactly once among its dad's kids, has stage(dad)+1 and a larger index than dad, branching is md below stage Nr, 1 below Nh, 0 at Nh, and all accesses stay inside the memory of sctree_memsize. Outside Nr<=Nh the memory is overrun or left uninitialised.", "quantifier": "all md>=1, Nr<=Nh", "why_tests_cant": "the tree grows exponentially; structure must hold for each size", "anchors": ["tree_ocp_qp/scenario_tree.c: sctree_node_number, sctree_memsize, sctree_create, ipow"]}
{"id": "C13", "title": "OCP QP data: set/get round trip, frame, meaning", "statement": "For each real-valued QP data field, get(field,stage) after set(field,stage,v) returns v, whatever other calls happened before and whatever calls on other fields/stages happen after; a set changes no other field/stage as read by the getters (documented overlaps, e.g. lb vs lbu/lbx, excepted); set_all and set_all_rowmaj store every argument; the field names select the right setter and unknown names exit; the QP the solver works on is the textbook QP written with these arrays.", "quantifier": "all dimensions, all data, all fields and stages, all call histories", "why_tests_cant": "matrices are stored transposed/packed together (BAbt, RSQrq) and bounds are stored in one vector, so an offset error affects only some dimension combinations", "anchors": ["ocp_qp/x_ocp_qp.c: OCP_QP_SET_*, OCP_QP_GET_*, OCP_QP_SET_ALL, OCP_QP_SET_ALL_ROWMAJ"]}
{"id": "C14", "title": "Bound sign convention and masks", "statement": "Upper bounds given by the user are stored negated and returned un-negated; every constraint is active (mask 1) until a mask setter is called for it; mask values are stored verbatim (0/1 masks stay 0/1 under any history) and bounds and masks never influence each other.", "quantifier": "all values, dimensions and call histories", "why_tests_cant": "holds per element for any vector and any history", "anchors": ["ocp_qp/x_ocp_qp.c: OCP_QP_SET_UB*, OCP_QP_SET_*_MASK, OCP_QP_CREATE"]}
{"id": "C15", "title": "Soft-constraint index maps agree", "statement": "On a QP whose stage is still all-hard, setting idxs and setting the corresponding idxs_rev or Jsbu/Jsbx/Jsg selection matrices give the same stored map; get idxs after set idxs returns idxs (for injective idxs). Setting idxs twice does not replace the first map (refuted).", "quantifier": "all index vectors within range", "why_tests_cant": "combinatorial over index vectors", "anchors": ["ocp_qp/x_ocp_qp.c: OCP_QP_SET_IDXS, OCP_QP_SET_IDXS_REV, OCP_QP_SET_JSBU..."]}
{"id": "C16", "title": "set_all_zero resets the QP to its just-created state", "statement": "d_ocp_qp_set_all_zero leaves the QP object in the same observable state as d_ocp_qp_create.", "quantifier": "every prior state of the QP object and all dimensions", "why_tests_cant": "needs all prior states; stale entries only matter for particular dimension combinations", "anchors": ["ocp_qp/x_ocp_qp.c: OCP_QP_SET_ALL_ZERO, OCP_QP_CREATE"]}
{"id": "C17", "title": "QP copy is complete", "statement": "d_ocp_qp_copy_all(orig,dest) makes every data field of dest equal to orig for equal dimensions and leaves orig unchanged.", "quantifier": "all QPs", "why_tests_cant": "a forgotten field is visible only when used", "anchors": ["ocp_qp/x_ocp_qp.c: OCP_QP_COPY_ALL"]}
{"id": "C18", "title": "Residuals are the KKT residuals of the QP the user set", "statement": "d_ocp_qp_res_compute returns, stage by stage and entry by entry, the stationarity, dynamics, inequality (with slack t and soft-constraint slacks) and complementarity residuals of the OCP QP, with masked constraints removed.", "quantifier": "all dimensions, data, iterates and masks (exact arithmetic)", "why_tests_cant": "an algebraic identity over all data; a wrong offset cancels on special data", "anchors": ["ocp_qp/x_ocp_qp_res.c: OCP_QP_RES_COMPUTE"]}
{"id": "C19", "title": "Reported objective and duality gap are exact", "statement": "The obj returned with the residuals is the QP objective at the iterate, and dual_gap equals primal minus dual objective; with zero stationarity, dynamics and inequality residuals dual_gap = sum of lam*t over unmasked constraints.", "quantifier": "all QPs and iterates (exact arithmetic)", "why_tests_cant": "algebraic identity", "anchors": ["ocp_qp/x_ocp_qp_res.c: OCP_QP_RES_COMPUTE"]}
{"id": "C20", "title": "Zero residuals certify global optimality", "statement": "If the residuals are zero, lam>=0, t>=0 and the stage Hessians are positive semidefinite, the returned primal solution is feasible and no feasible trajectory has a smaller objective.", "quantifier": "all convex QPs, all competing feasible trajectories", "why_tests_cant": "quantifies over all feasible points", "anchors": ["ocp_qp/x_ocp_qp_res.c", "ocp_qp/x_ocp_qp_ipm.c"]}
{"id": "C21", "title": "Step length keeps the iterate in the positive orthant", "statement": "With lam>0 and t>0 before the step, the step lengths computed are in [0,1], lam+alpha*dlam>=0 and t+alpha*dt>=0, and after the damped update lam>0 and t>0 strictly, for joint and split steps with zero complementarity target.", "quantifier": "all iterates, directions and numbers of constraints (exact arithmetic)", "why_tests_cant": "sequential loop whose alpha shrinks: order-dependent", "anchors": ["ipm_core/x_core_qp_ipm_aux.c: COMPUTE_ALPHA_QP, UPDATE_VAR_QP"]}
{"id": "C22", "title": "Clipping keeps multipliers and slacks above their floor", "statement": "With t_lam_min=2, after each variable update every lam is >= lam_min and every t is >= t_min whenever the computed value is not NaN (IEEE semantics, including infinities).", "quantifier": "all floating point inputs including NaN/inf", "why_tests_cant": "all bit patterns", "anchors": ["ipm_core/x_core_qp_ipm_aux.c: UPDATE_VAR_QP"]}
{"id": "C23", "title": "IPM loop: iteration bound and meaning of the status", "statement": "d_ocp_qp_ipm_solve performs at most iter_max iterations whatever the floating point values (NaN included) and reports: MAX_ITER iff iter_max iterations were done; MIN_STEP only if a step length is <= alpha_min; NAN_SOL only if mu is NaN; SUCCESS implies that every residual is not above its tolerance; if the residual norms are not NaN SUCCESS implies all are within tolerance.", "quantifier": "all step functions, all argument values, all floating-point outcomes", "why_tests_cant": "all executions, including NaN-producing ones", "anchors": ["ocp_qp/x_ocp_qp_ipm.c: OCP_QP_IPM_SOLVE"]}
{"id": "C24", "title": "Iteration statistics stay inside the stat table", "statement": "Every write to the statistics table during a solve is inside the (stat_max rows)x(stat_m columns) table, whatever iter_max, including iter_max larger than the stat_max the workspace was created with.", "quantifier": "all stat_max, iter_max, iterations", "why_tests_cant": "only fails for rare combinations of arguments changed after create", "anchors": ["ocp_qp/x_ocp_qp_ipm.c: OCP_QP_IPM_SOLVE, OCP_QP_IPM_DELTA_STEP, OCP_QP_IPM_ABS_STEP"]}
{"id": "C25", "title": "Slack/multiplier elimination is exact", "statement": "Gamma, gamma and the recovered dlam, dt satisfy exactly the linearised inequality and complementarity rows of the Newton system.", "quantifier": "all lam, t>0, residuals and primal directions", "why_tests_cant": "algebraic identity", "anchors": ["ipm_core/x_core_qp_ipm_aux.c: COMPUTE_GAMMA_GAMMA_QP, COMPUTE_LAM_T_QP"]}
{"id": "C26", "title": "Riccati recursion solves the unconstrained KKT system", "statement": "When the factorization does not break down, the primal-dual point returned by the unconstrained solve satisfies stationarity and dynamics exactly, for any horizon and varying stage dimensions.", "quantifier": "all N, dimensions and data with positive pivots (exact arithmetic)", "why_tests_cant": "induction over horizon", "anchors": ["ocp_qp/x_ocp_qp_kkt.c: OCP_QP_FACT_SOLVE_KKT_UNCONSTR"]}
{"id": "C27", "title": "Interior-point KKT step solves the full Newton system", "statement": "The factorise-and-solve of the interior-point system (square-root or classical Riccati, with its regularised retries) returns a step which zeroes the linear residual (stationarity with slacks, dynamics, inequality, complementarity) computed by res_compute_lin, up to the regularisation it reports; each softened constraint having its own slack.", "quantifier": "all horizons N>=1, stage dimensions, index sets, interior points and workspace contents (exact arithmetic)", "why_tests_cant": "induction over horizon plus slack elimination", "anchors": ["ocp_qp/x_ocp_qp_kkt.c: OCP_QP_FACT_SOLVE_KKT_STEP, COND_SLACKS_FACT_SOLVE, EXPAND_SLACKS"]}
{"id": "C28", "title": "Condensing preserves the objective and constraints", "statement": "For every input sequence, slack and x0, the dense QP produced by full condensing has the same objective (up to a constant) and, one to one, the same constraint distances, masks and complementarity targets as the OCP QP on the trajectory simulated by the dynamics; hence the same feasible points and minimisers. The dimensions computed beforehand fit, and the OCP QP object still describes the same problem afterwards. (cond_alg=1 requires no inputs in the last stage; the dense QP object must be fresh in its soft-constraint indices.)", "quantifier": "all N>=0, dimensions, index sets, data (also with singular or indefinite cost), inputs; both cond_alg, both square_root_alg settings", "why_tests_cant": "algebraic identity by induction over horizon", "anchors": ["cond/x_cond_aux.c: COND_BABT, COND_RSQRQ, COND_DCTD"]}
{"id": "C29", "title": "Expansion of a condensed solution is consistent", "statement": "Expanding a dense solution yields a trajectory satisfying the dynamics exactly, with the dense inputs/x0, and multipliers satisfying the OCP stationarity rows.", "quantifier": "all N, data, dense solutions", "why_tests_cant": "induction", "anchors": ["cond/x_cond_aux.c: EXPAND_SOL"]}
{"id": "C30", "title": "Removing fixed variables (reduce_eq_dof) is exact", "statement": "The reduced QP is the restriction of the QP to the fixed values of the eliminated variables, with every remaining bound acting on the same variable as before; restore gives back the fixed values and the remaining ones.", "quantifier": "all dimensions, index sets idxe and data", "why_tests_cant": "combinatorial over index sets", "anchors": ["ocp_qp/x_ocp_qp_red.c: OCP_QP_DIM_REDUCE_EQ_DOF, OCP_QP_REDUCE_EQ_DOF, OCP_QP_RESTORE_EQ_DOF"]}
{"id": "C31", "title": "Initial iterate is strictly interior", "statement": "After variable initialisation (cold start or warm start, either scheme) every slack t and every multiplier lam is strictly positive (mu0>0), and bounded variables lie between their bounds when the bounds leave room.", "quantifier": "all QPs, warm starts, masks", "why_tests_cant": "branchy per-constraint logic over all data", "anchors": ["ocp_qp/x_ocp_qp_ipm.c: OCP_QP_INIT_VAR"]}
{"id": "C32", "title": "Explicit Runge-Kutta integrator implements its tableau", "statement": "After any sequence of workspace calls d_sim_erk_solve stays inside the workspace memory and performs the requested number of steps of the explicit RK scheme given by (A,B,C), for right-hand sides that do not depend on time (the time is handed over as an int); the setters change exactly what they name; forward sensitivities are the exact derivatives of the discrete flow when vde_for is the exact variational equation; the built-in tableaux satisfy the order conditions.", "quantifier": "all ODEs, tableaux, dimensions, numbers of steps, call histories", "why_tests_cant": "function-space quantification", "anchors": ["sim_core/x_sim_erk.c", "sim_core/x_sim_rk.c"]}
{"id": "C33", "title": "Solution object: set/get round trip and layout", "statement": "Each solution getter returns exactly the sub-vector (u, x, sl, su, pi, multipliers) that the corresponding setter wrote, no overlap between distinct fields.", "quantifier": "all dimensions and data", "why_tests_cant": "offset arithmetic for all dimensions", "anchors": ["ocp_qp/x_ocp_qp_sol.c"]}
{"id": "C34", "title": "Solver arguments: set/get and presets", "statement": "Each documented mode preset fills every solver argument; arg setters change exactly their argument (documented couplings excepted) and deepcopy copies all arguments.", "quantifier": "all argument records and histories", "why_tests_cant": "histories of setter calls", "anchors": ["ocp_qp/x_ocp_qp_ipm.c: OCP_QP_IPM_ARG_*"]}
{"id": "C35", "title": "Dense QP residuals and optimality certificate", "statement": "The dense QP residual computation is the KKT residual of the dense QP; zero residuals with nonnegative lam,t and PSD Hessian certify optimality.", "quantifier": "all dense QPs, iterates", "why_tests_cant": "algebraic identity / all feasible points", "anchors": ["dense_qp/x_dense_qp_res.c"]}
{"id": "C36", "title": "Bound selection: idxb, idxbu/idxbx and Jbu/Jbx agree", "statement": "The bounded variables given as index vectors (idxbu, idxbx), as one index vector (idxb) or as 0/1 selection matrices (Jbu, Jbx) give the same stored selection, with input indices first and state indices shifted by the number of inputs; get idxb after set idxb returns it.", "quantifier": "all dimensions, all selections in range", "why_tests_cant": "combinatorial over index vectors and matrix layouts", "anchors": ["ocp_qp/x_ocp_qp.c: OCP_QP_SET_IDXB*, OCP_QP_SET_JBX, OCP_QP_SET_JBU"]}
{"id": "C37", "title": "Equality marks: idxe, idxbue/idxbxe/idxge and Jbue/Jbxe/Jge agree", "statement": "The constraints to be treated as equalities given through idxbue, idxbxe, idxge are exactly the ones read back by idxe, in the numbering input bounds / state bounds / general constraints; the selection-vector setters Jbue, Jbxe, Jge mark the selected constraints.", "quantifier": "all dimensions, all marks in range", "why_tests_cant": "combinatorial over index vectors", "anchors": ["ocp_qp/x_ocp_qp.c: OCP_QP_SET_IDXE, OCP_QP_SET_IDXBUE, OCP_QP_SET_JBUE, OCP_QP_SET_JBXE, OCP_QP_SET_JGE"]}
{"id": "C38", "title": "set_rhs_zero zeroes the right-hand sides and nothing else", "statement": "After d_ocp_qp_set_rhs_zero all gradients, affine terms, bounds and complementarity targets read as 0 and all matrices, masks read as before.", "quantifier": "every QP state and all dimensions", "why_tests_cant": "stale entries only matter for particular dimension combinations", "anchors": ["ocp_qp/x_ocp_qp.c: OCP_QP_SET_RHS_ZERO"]}
{"id": "C39", "title": "The KKT solve returns", "statement": "The factorise-and-solve of the interior-point system always returns; for a strictly convex QP at an interior point it does so at the first attempt, without extra regularisation.", "quantifier": "all problems, points, workspace contents and numbers of retries", "why_tests_cant": "non-termination cannot be observed by a test, only a timeout", "anchors": ["ocp_qp/x_ocp_qp_kkt.c: OCP_QP_FACT_SOLVE_KKT_STEP (compute_preg loop)"]}
{"id": "C40", "title": "The unconstrained solve leaves the cost matrices of the QP object unchanged", "statement": "Solving a QP without inequality constraints does not change the Hessian stored in the user's QP object (the code adds the regularisation to it in place and subtracts it again).", "quantifier": "all QPs, regularisation values, both Riccati variants", "why_tests_cant": "depends on rounding of every entry; a test with round numbers does not see it", "anchors": ["ocp_qp/x_ocp_qp_kkt.c: OCP_QP_FACT_SOLVE_KKT_UNCONSTR"]}
{"id": "C41", "title": "SUCCESS certifies a near-feasible, near-optimal solution", "statement": "When the interior-point solver reports SUCCESS, the returned point violates no dynamics row by more than res_b_max and no active-mask constraint by more than res_d_max, and for a convex QP its cost exceeds that of any feasible point by at most an explicit bound in the tolerances, the multipliers and the distance to that point.", "quantifier": "all QPs, arguments, starting points, workspaces and results of the linear algebra (exact arithmetic)", "why_tests_cant": "all feasible points and all possible runs of the solver", "anchors": ["ocp_qp/x_ocp_qp_ipm.c: OCP_QP_IPM_SOLVE", "ocp_qp/x_ocp_qp_res.c"]}
{"id": "C42", "title": "The returned multipliers and slacks are positive whatever happens in the linear algebra", "statement": "Whatever the status, the multipliers and slacks returned by the interior-point solver are strictly positive on unmasked constraints (default clipping mode) even if the KKT solves return arbitrary values; with split steps and no clipping they are nonnegative.", "quantifier": "all QPs, arguments, starting points and arbitrary linear-algebra results", "why_tests_cant": "induction over iterations with adversarial search directions", "anchors": ["ocp_qp/x_ocp_qp_ipm.c: OCP_QP_IPM_SOLVE, OCP_QP_IPM_DELTA_STEP", "ipm_core/x_core_qp_ipm_aux.c: UPDATE_VAR_QP, COMPUTE_ALPHA_QP"]}
{"id": "C43", "title": "Partial condensing is exact", "statement": "Partial condensing of an OCP QP into a shorter one (any legal block sizes) gives an equivalent problem: same objective up to a constant at the trajectory described by its variables, the same constraints (with masks and targets) renumbered one to one, dynamics equal to those at the block ends, hence the same feasible set and minimisers; the original QP object loses no information and the computed dimensions and block sizes fit.", "quantifier": "all OCP QPs with legal index data, all block sizes, horizons and options (default condensing algorithm)", "why_tests_cant": "all dimensions, block sizes and data; algebraic identities", "anchors": ["cond/x_part_cond.c: PART_COND_QP_COND, PART_COND_QP_COMPUTE_DIM, PART_COND_QP_COMPUTE_BLOCK_SIZE", "cond/x_cond_aux.c: COND_BABT, COND_RSQRQ, COND_DCTD"]}
{"id": "C44", "title": "Expanding a solution of the partially condensed QP", "statement": "PART_COND_QP_EXPAND_SOL turns a solution of the partially condensed QP into one of the original QP with the same accuracy: states follow the dynamics inside the blocks, block-end dynamics residuals and multipliers are copied, every stationarity, constraint and complementarity residual is zero or one of the condensed solution; KKT points become KKT points and minimisers minimisers; parts not requested are untouched.", "quantifier": "all OCP QPs, block sizes, condensed solutions (exact or not) and workspaces", "why_tests_cant": "all dimensions, block sizes and data; algebraic identities over blocks", "anchors": ["cond/x_part_cond.c: PART_COND_QP_EXPAND_SOL", "cond/x_cond_aux.c: EXPAND_SOL"]}
{"id": "C45", "title": "Re-solving with a stored factorisation", "statement": "Once the interior-point KKT matrix has been factorised (by the factorise-and-solve of an iteration or by the factorisation refreshed on exit), solving for any other right-hand side - corrector, iterative refinement, sensitivities - returns the exact Newton solution of that right-hand side, with either Riccati algorithm, any number of times, and with the stored products P*b when b is unchanged; for a strictly convex QP all these ways give the same step.", "quantifier": "all QPs, interior points, workspaces, right-hand sides and sequences of solves (exact arithmetic; factorisation not regularised by a retry if the square-root algorithm is selected)", "why_tests_cant": "all histories of solves on one workspace, all dimensions and data", "anchors": ["ocp_qp/x_ocp_qp_kkt.c: OCP_QP_FACT_KKT_STEP, OCP_QP_SOLVE_KKT_STEP, COND_SLACKS_SOLVE, COND_SLACKS_FACT"]}
{"id": "C46", "title": "Solution sensitivities and prediction with the stored factorisation", "statement": "After a solve, the forward sensitivity call returns the derivative of the relaxed solution (at the saved iterate) with respect to the problem data in the direction of the seeds; the adjoint call is its exact transpose, so one call gives the gradient of any linear functional of the solution with respect to all data; seeds set by name act on exactly the data the QP setter of that name writes; the seed struct is returned unchanged; these calls can be repeated in any order on one workspace; a prediction for new right-hand-side data reduces its dynamics and constraint residuals (and stationarity, for equal step lengths) by exactly one minus the step length in effect.", "quantifier": "all QPs, saved points, seeds, seed and solve histories, both Riccati algorithms (exact arithmetic, N>=1, no shared slacks, masks 0/1 with zero seeds on masked constraints, factorisation not regularised by a retry if the square-root algorithm is selected)", "why_tests_cant": "all histories of calls on one workspace; a derivative statement over all data curves", "anchors": ["ocp_qp/x_ocp_qp_ipm.c: OCP_QP_IPM_SENS_FRW, OCP_QP_IPM_SENS_ADJ, OCP_QP_IPM_PREDICT", "ocp_qp/x_ocp_qp_seed.c", "ipm_core/x_core_qp_ipm_aux.c: BACKUP_VAR_QP, UPDATE_VAR_QP"]}
{"id": "C47", "title": "The dense KKT solve returns the Newton step, by any method", "statement": "Each dense factorise-and-solve (no equality constraints, null-space method, Schur complement; with or without scaling) returns a step that solves the interior-point Newton system of the given right-hand side up to the documented regularisation terms - exactly when the regularisation is 0, and the null-space method always meets the equality constraints; for a convex QP it returns at the first attempt; factorise-then-solve and any number of re-solves with other right-hand sides, scale flag recorded in the workspace, give the same quality; without regularisation all methods give the same step.", "quantifier": "all dense QPs with legal index data, interior points, right-hand sides, workspaces, histories of solves and arguments (exact arithmetic; the BLASFEO LQ routine is assumed to return an LQ factorisation)", "why_tests_cant": "all dimensions, data and call histories; algebraic identities", "anchors": ["dense_qp/x_dense_qp_kkt.c: DENSE_QP_FACT_SOLVE_KKT_STEP, DENSE_QP_FACT_KKT_STEP, DENSE_QP_SOLVE_KKT_STEP, COND_SLACKS_*, EXPAND_SLACKS"]}
{"id": "C48", "title": "The dense KKT solve returns", "statement": "The factorise-and-solve of the dense interior-point system always returns: its retries with growing regularisation end, for every Hessian and every constraint matrix.", "quantifier": "all dense QPs, points, workspaces, arguments (exact arithmetic)", "why_tests_cant": "non-termination cannot be observed by a test, only a timeout", "anchors": ["dense_qp/x_dense_qp_kkt.c: DENSE_QP_FACT_SOLVE_KKT_STEP (compute_preg, compute_dreg, main_loop)"]}
{"id": "C49", "title": "Solving through the OCP QP solver object", "statement": "Whatever arguments and settings a program gave the solver object through its API and however many QPs it solved before, SUCCESS means that the returned point is an approximate optimum of the QP the user passed: dynamics, imposed constraints, stationarity and complementarity hold within the tolerances in force and the objective is within the resulting bound of the optimum - also when variables fixed by equality bounds are eliminated internally, these then being exactly at their bounds. The arguments in force are those set before creation, changed only by accepted SETs; GET returns what the last solve computed; unknown names are rejected.", "quantifier": "all argument structs and solver objects reachable through the API, all QPs of their dimensions, initial solutions and workspace contents (exact arithmetic)", "why_tests_cant": "all API histories and all QP data", "anchors": ["interfaces/c/x_ocp_qp_solver.c", "ocp_qp/x_ocp_qp_red.c", "ocp_qp/x_ocp_qp_ipm.c: OCP_QP_IPM_GET"]}
{"id": "C50", "title": "Sensitivities through the elimination of fixed variables", "statement": "With elimination of the fixed variables, the sensitivity call of the solver object returns the derivative of the solution of the QP the user passed in the direction of the seeds: the fixed variables move with their bounds and the other variables, the multipliers of the dynamics and those of the kept constraints follow, whatever was in the workspaces and the output struct.", "quantifier": "all solver objects reachable through the API after a solve, all QPs, points, seeds and histories of solves with the stored factorisation (exact arithmetic, same provisos as C46)", "why_tests_cant": "all histories; a derivative statement over all data curves", "anchors": ["interfaces/c/x_ocp_qp_solver.c: OCP_QP_SOLVER_SENS_FRW", "ocp_qp/x_ocp_qp_red.c: OCP_QP_REDUCE_EQ_DOF_SEED, OCP_QP_RESTORE_EQ_DOF_SEED"]}
{"id": "C51", "title": "Condensing in two calls: the matrices once, then the vectors", "statement": "After the matrices of an OCP QP have been condensed once (LHS call), condensing the vectors (RHS call) of that QP or of any QP with the same matrices gives, each time, a dense QP that is equivalent to that OCP QP: same objective up to a constant along the trajectories, constraints one to one with the same distance to the bound and the same mask, same feasible points and minimisers - whatever QPs were condensed in between, for both condensing algorithms - and the same problem as the single condensing call; the OCP QP object stays usable.  Sensitivity seeds condensed in between are equivalent in the same sense and disturb nothing, and solutions and sensitivities of the dense problem expand to ones whose residuals are zero or residuals of the dense problem.", "quantifier": "all OCP QPs with legal index data, all sequences of RHS calls with QPs of the same matrices, both algorithms, all initial workspaces (exact arithmetic; slacks numbered in the order the constraints are scanned; convex cost of the states with the square-root algorithm)", "why_tests_cant": "all call histories, dimensions and data; algebraic identities over all trajectories", "anchors": ["cond/x_cond.c: COND_QP_COND_LHS, COND_QP_COND_RHS", "cond/x_cond_aux.c: COND_BAT, COND_B, COND_RSQ, COND_RQ, COND_DCT, COND_D"]}
{"id": "C52", "title": "Every iteration removes the same share of the infeasibility", "statement": "For a strictly convex OCP QP solved with the Riccati factorisation, every interior-point iteration multiplies the violation of each equation of the dynamics by one and the same factor 1 - (primal step length), and the residual of each imposed inequality by that factor up to the slack floor t_min; hence the returned solution, whatever its status and whatever the predictor-corrector, refinement, formulation and initialisation options, is never less feasible than the initial iterate, stays feasible for the dynamics if the initial iterate was, and loses a fixed share per iteration unless a step shorter than alpha_min stopped the solver; with a joint step and no regularisation the stationarity residual shrinks by the same factor as long as no multiplier is held at its floor.", "quantifier": "all strictly convex OCP QPs with legal index data and 0/1 masks, initial solutions, workspace contents, numbers of iterations and options with clipping mode 2 and lq_fact 0 (or 1 without regularisation), both Riccati algorithms (exact arithmetic)", "why_tests_cant": "all QPs, starting points and iteration counts; an invariant of the loop, not of one run", "anchors": ["ocp_qp/x_ocp_qp_ipm.c: OCP_QP_IPM_SOLVE, OCP_QP_IPM_DELTA_STEP, OCP_QP_IPM_ABS_STEP", "ocp_qp/x_ocp_qp_kkt.c: OCP_QP_FACT_SOLVE_KKT_STEP, OCP_QP_SOLVE_KKT_STEP", "ipm_core/x_core_qp_ipm_aux.c: COMPUTE_ALPHA_QP, UPDATE_VAR_QP"]}
{"id": "C53", "title": "Residuals and optimality certificate of a tree-structured QP", "statement": "For a tree-structured OCP QP the residual routine reports, for every node and edge, the exact KKT residual (gradient of the Lagrangian, defect of the dynamics along the edge, constraint and complementarity residuals), the objective, the duality gap, the complementarity measure and the infinity norms, whatever the residual object held before; the linear version reports the residual of the linearised system for a step; zero residuals with nonnegative multipliers and slacks certify a global minimum over all feasible points of the tree, and otherwise the objective exceeds the optimum by at most the reported gap plus the stationarity residual times the size of the competing point; every tree of the scenario-tree constructor qualifies.", "quantifier": "all trees numbered parents first, tree QPs with legal index data, masks 0/1, points whose multipliers are zero on masked constraints, prior contents (exact arithmetic)", "why_tests_cant": "all tree shapes, dimensions and data; a statement about all feasible points", "anchors": ["tree_ocp_qp/x_tree_ocp_qp_res.c: TREE_OCP_QP_RES_COMPUTE, TREE_OCP_QP_RES_COMPUTE_LIN, TREE_OCP_QP_RES_COMPUTE_INF_NORM", "tree_ocp_qp/scenario_tree.c: sctree_create"]}
{"id": "C54", "title": "Newton steps of a tree-structured QP", "statement": "For a strictly convex tree-structured OCP QP at an interior point, the factorise-and-solve routine returns the one solution of the interior-point Newton system of the whole tree (stationarity of every node, dynamics along every edge, constraints and linearised complementarity), whatever the workspace and the output struct held; afterwards the solve routine returns the Newton step of any other right-hand side, as often as it is called, and with the stored products if the offsets of the dynamics are unchanged; on a tree that is a path the step is that of the OCP QP solver.", "quantifier": "all trees numbered parents first, node dimensions, data, slacks, masks, interior points, workspaces and histories of solves (exact arithmetic)", "why_tests_cant": "all trees, dimensions, data and call histories; algebraic identities", "anchors": ["tree_ocp_qp/x_tree_ocp_qp_kkt.c: TREE_OCP_QP_FACT_SOLVE_KKT_STEP, TREE_OCP_QP_SOLVE_KKT_STEP, COND_SLACKS_FACT_SOLVE, COND_SLACKS_SOLVE, EXPAND_SLACKS"]}
{"id": "C55", "title": "Dense interior-point solver: iterations, status and what SUCCESS certifies", "statement": "The dense interior-point solver does at most iter_max iterations whatever the linear algebra returns; its status is MAX_ITER exactly when the iteration count equals iter_max, MIN_STEP only when a step length is at most alpha_min, NAN_SOL only when mu is NaN; the statistics table is written only in rows 0..iter that fit in it; in the delta formulation the residuals left in the workspace are those of the returned solution and SUCCESS means that no norm and not the duality gap is above its tolerance (also in IEEE doubles).  In exact arithmetic, with clipping, the returned slacks are positive, the multipliers of imposed constraints positive and those of masked ones zero, and SUCCESS implies: equalities, inequalities, stationarity and complementarity hold to the tolerances and, for a convex QP, the objective exceeds that of any feasible point by at most an explicit combination of the tolerances.", "quantifier": "all dense QPs, arguments, warm starts, workspaces, numbers of iterations and linear algebra results (including NaN)", "why_tests_cant": "all inputs, iteration histories and linear algebra outcomes; a loop invariant and a statement about all feasible points", "anchors": ["dense_qp/x_dense_qp_ipm.c: DENSE_QP_IPM_SOLVE, DENSE_QP_IPM_DELTA_STEP, DENSE_QP_IPM_ABS_STEP, DENSE_QP_INIT_VAR", "ipm_core/x_core_qp_ipm_aux.c: COMPUTE_ALPHA_QP, UPDATE_VAR_QP"]}
{"id": "C56", "title": "Initial iterate of the dense interior-point solver", "statement": "The dense solver starts strictly inside the positive orthant: after a cold start or a warm start of the primal variables every multiplier and slack is positive and every product is exactly mu0; after a warm start of all variables the given values are raised to the thresholds.  With the default scheme a variable with active bounds at least 0.2 apart starts at least 0.1 inside them, unbounded variables and slacks keep their warm start values (0 when cold), the equality multipliers start from 0.", "quantifier": "all dense QPs, masks, previous solutions, initialisation options and mu0 > 0", "why_tests_cant": "all dimensions, data and options", "anchors": ["dense_qp/x_dense_qp_ipm.c: DENSE_QP_INIT_VAR"]}
{"id": "C57", "title": "Removal of linearly dependent equality constraints in the dense solver", "statement": "With remove_lin_dep_eq the dense solver works on a QP whose equalities are distinct rows of the given A, b and which is otherwise the given QP: every feasible point stays feasible and the objective is the same; with all rows kept, or when INCONS_EQ is reported, the QP is the given one.  INCONS_EQ is a certificate: some combination of the equalities has a right-hand side above the threshold and coefficients within 2^ne of the threshold, so that there is no solution at threshold 0, and only one of size above 2^-ne otherwise.  When the leading columns of A carry its rank (threshold 0) the routine is exact: INCONS_EQ exactly for inconsistent equalities, otherwise the kept rows are linearly independent, as many as the rank, and have the same solutions.  After the call the QP object is the given one again.", "quantifier": "all dense QPs with ne <= nv (kept rows: ne <= nv+1), thresholds, workspaces; the kept-row and restoration parts in every arithmetic, the others in exact arithmetic", "why_tests_cant": "all matrices, ranks, pivot orders and workspace histories", "anchors": ["dense_qp/x_dense_qp_kkt.c: DENSE_QP_REMOVE_LIN_DEP_EQ, DENSE_QP_RESTORE_LIN_DEP_EQ", "dense_qp/x_dense_qp_ipm.c: DENSE_QP_IPM_SOLVE"]}
{"id": "C58", "title": "Objective reported by the dense solver", "statement": "With compute_obj the dense solver reports 1/2 z'Hz + g'z of the given QP at the returned point z = (v, slacks), including the slack penalties, using only the lower triangle of H, also when equalities were removed for the solve and whatever the scratch vectors held.", "quantifier": "all dense QPs, points, solver outcomes and workspaces (exact arithmetic)", "why_tests_cant": "all dimensions and data", "anchors": ["dense_qp/x_dense_qp_kkt.c: DENSE_QP_COMPUTE_OBJ"]}
{"id": "C59", "title": "Residuals and optimality certificate of an OCP QCQP", "statement": "For an OCP problem with quadratic constraints (upper side l'z + 1/2 z'Hz <= u per constraint) the residual routine reports the exact KKT residuals (gradient of the Lagrangian with the curvature of the quadratic constraints, defect of the dynamics, constraint and complementarity residuals), the objective, the duality gap, the complementarity measure and the norms, with or without the constraint values cached by the solver and whatever the residual object held; lower sides of quadratic constraints carry no multiplier.  For a convex cost, convex quadratic constraints and nonnegative multipliers the objective minus the gap (corrected by the stationarity residual) is a lower bound for every feasible point; zero residuals certify a global minimum.", "quantifier": "all OCP QCQPs with legal index data and masks 0/1, points, cached values matching the point, prior contents (exact arithmetic)", "why_tests_cant": "all dimensions and data; a statement about all feasible points", "anchors": ["ocp_qp/x_ocp_qcqp_res.c: OCP_QCQP_RES_COMPUTE, OCP_QCQP_RES_COMPUTE_INF_NORM"]}
{"id": "C60", "title": "Linearisations by which the QCQP solver replaces the QCQP", "statement": "In each iteration the QCQP solver hands the QP routines a QP that is the exact Newton linearisation of the QCQP's KKT system at the iterate: for every step, the residuals of that QP are those of the QCQP at the moved point up to terms of second order in the step, and after an exact step of length a every residual is (1-a) times what it was plus a term of order a^2 (the dynamics exactly).  The linearisation does not depend on what the QP object held before and the cached constraint values are those of the iterate.  The solver switches off the lower sides of the quadratic constraints and the sign constraints of the lower slacks of soft ones, and nothing else, which does not change the problem when those slacks have no linear cost and no other use.", "quantifier": "all OCP QCQPs, iterates, steps, step lengths and previous contents of the QP object (exact arithmetic)", "why_tests_cant": "all data, points and steps; algebraic identities", "anchors": ["ocp_qp/x_ocp_qcqp_ipm.c: OCP_QCQP_APPROX_QP, OCP_QCQP_UPDATE_QP, OCP_QCQP_UPDATE_QP_ABS_STEP, OCP_QCQP_IPM_SOLVE"]}
{"id": "C61", "title": "QCQP interior-point solver: iterations, status and what SUCCESS certifies", "statement": "The OCP QCQP interior-point solver does at most iter_max iterations whatever the linear algebra returns; its status is MAX_ITER exactly when the iteration count equals iter_max, MIN_STEP only when a step length is at most alpha_min, NAN_SOL only when mu is NaN; the statistics table is written only in rows 0..iter that fit in it and its last row holds the reported norms; in the delta formulation the residuals left in the workspace are those of the returned solution for the QCQP with the lower sides of the quadratic constraints off, and SUCCESS means that no norm and not the duality gap is above its tolerance.  In exact arithmetic, with clipping, the returned slacks are positive, the multipliers of imposed constraints positive and the others zero, and SUCCESS implies: dynamics, constraints (quadratic ones included), stationarity and complementarity hold to the tolerances and, for a convex QCQP, the cost exceeds that of any feasible point by at most an explicit combination of the tolerances.", "quantifier": "all OCP QCQPs, arguments, warm starts, workspaces, numbers of iterations and linear algebra results (including NaN)", "why_tests_cant": "all inputs, iteration histories and linear algebra outcomes; a loop invariant and a statement about all feasible points", "anchors": ["ocp_qp/x_ocp_qcqp_ipm.c: OCP_QCQP_IPM_SOLVE, OCP_QCQP_SOL_CONV_QP_SOL, OCP_QCQP_RES_CONV_QP_RES", "ocp_qp/x_ocp_qp_ipm.c: OCP_QP_IPM_DELTA_STEP, OCP_QP_IPM_ABS_STEP"]}
{"id": "C62", "title": "Initial iterate of the QCQP interior-point solver", "statement": "The QCQP solver starts inside the positive orthant: with the default t0_init, after a cold start or a warm start of the primal variables every slack is positive and every product of slack and multiplier is exactly mu0, except on the disregarded lower sides of the quadratic constraints (multiplier 0, slack 1); after a warm start of all variables the given values are raised to the thresholds.  Where the masks it reads for the upper bounds are those of the upper bounds, a variable with active bounds at least 0.2 apart starts at least 0.1 inside them and variables without bounds keep their warm start values.", "quantifier": "all OCP QCQPs, masks, previous solutions, initialisation options and mu0 > 0, and all contents of the memory behind the uninitialised mask pointers", "why_tests_cant": "all dimensions, data, options and memory contents", "anchors": ["ocp_qp/x_ocp_qcqp_ipm.c: OCP_QCQP_INIT_VAR"]}
{"id": "C63", "title": "Every iteration of the QCQP solver shrinks the infeasibility", "statement": "For a QCQP with positive definite cost and convex imposed quadratic constraints, solved by the interior-point solver in the delta formulation with the Riccati factorisation (in exact arithmetic): the right-hand side of every QP step is the residual of the QCQP at the current iterate; each iteration comes with a primal step p in [0,1], at least 0.99 times the reported step length, such that the violation of every equation of the dynamics is multiplied by 1-p, that of every imposed linear inequality too (up to t_min), that of every quadratic constraint too, up to its exact curvature along the step; with a joint step, no regularisation and no multiplier clipped, the gradient of the Lagrangian is multiplied by 1-p up to the product of multiplier step, constraint Hessian and primal step. Over the whole solve, the dynamics are violated by the initial violation times the product of the (1-p): never more than initially, geometrically less unless the steps are tiny, and zero if zero initially.", "quantifier": "every QCQP with these convexity properties, every initial iterate, every number of iterations, every option of predictor/corrector and refinement", "why_tests_cant": "a statement about all iterates of all runs with nonlinear constraints; tests check the final residual of some examples", "anchors": ["ocp_qp/x_ocp_qcqp_ipm.c:OCP_QCQP_IPM_SOLVE", "ocp_qp/x_ocp_qcqp_ipm.c:OCP_QCQP_UPDATE_QP", "ocp_qp/x_ocp_qcqp_ipm.c:OCP_QCQP_RES_CONV_QP_RES", "ocp_qp/x_ocp_qp_ipm.c:OCP_QP_IPM_DELTA_STEP", "ipm_core/x_core_qp_ipm_aux.c:UPDATE_VAR_QP"]}
{"id": "C64", "title": "Partial condensing in several calls, and of sensitivity seeds, is exact", "statement": "After one call condensing the matrices, any number of calls condensing the vectors of QPs with these matrices and seeds for their sensitivities may follow, in any order: each time the second QP stands for the QP whose vectors were given last (objective up to a constant, constraints one to one with the same masks, dynamics at the ends of the blocks; same feasible set, same minimisers; the same problem the single call gives), the second seed stands for the given seed in the same sense, the QP object may be used again, and expanding a solution (or a sensitivity) of the second problem gives residuals that are zero or residuals of the second problem, with multipliers and slacks copied.  The complementarity targets m are not condensed.", "quantifier": "all QPs, block sizes, algorithms per block, workspaces, and all sequences of calls (exact arithmetic); slacks numbered in scan order, convex state cost where square_root_alg is on, honest diag_H_flag where cond_alg = 1", "why_tests_cant": "all sequences of calls on a shared workspace, all horizons and partitions; an equivalence of optimisation problems", "anchors": ["cond/x_part_cond.c: PART_COND_QP_COND_LHS, PART_COND_QP_COND_RHS, PART_COND_QP_COND_SEED, PART_COND_QP_EXPAND_SOL, PART_COND_QP_EXPAND_SOL_SEED", "cond/x_cond_aux.c: COND_BAT, COND_B, COND_RSQ, COND_RQ, COND_DCT, COND_D"]}
{"id": "C65", "title": "Updating a condensed QP after some stages changed", "statement": "After a condensing, and after any number of later updates, telling COND_QP_UPDATE which stages of the OCP QP changed makes the dense QP stand for the present OCP QP: objective up to a constant, constraints one to one with the same distance to their bounds, same feasible points and same minimisers; entry by entry it is the dense QP a fresh condensing would write; the OCP QP's data are left as they were. This needs the marks to be truthful, the last stage to be marked together with its predecessor, strictly convex state costs, no slacks, and unchanged masks and complementarity targets: each of the four is necessary.", "quantifier": "all OCP QPs without slacks with strictly convex state cost, all horizons, workspaces, prior contents of the dense QP and all finite histories of updates with truthful marks (exact arithmetic)", "why_tests_cant": "all histories of changes and marks on one workspace that is reused from call to call; an equivalence of optimisation problems", "anchors": ["cond/x_cond.c: COND_QP_UPDATE", "cond/x_cond_aux.c: UPDATE_COND_BABT, UPDATE_COND_RSQRQ_N2NX3, UPDATE_COND_DCTD"]}
{"id": "C66", "title": "Feedback gains and cost-to-go returned by the Riccati getters", "statement": "After a factorisation of the KKT system, and after any number of solves with it, the getters return what their names say, in any order and any number of times, with the same values whatever was called before and whatever the output array held: K and k give the inputs of the Newton step, u = K x + k, on every stage; P and p give the multiplier of the dynamics into a stage, P x + p, and P x + p = 0 on the first; this holds from every stage and every state x (the feedback trajectory with these multipliers satisfies all Newton equations from that stage on, and on stage 0 the gradient with respect to x is P x + p); the factors Lr, Ls, lr returned satisfy Lr' K = -Ls', Lr' k = -lr with positive diagonal of Lr.", "quantifier": "all OCP QPs, masks, iterates, both Riccati algorithms, factorising or factorising-and-solving calls, all histories of solves and of getter calls, all stages and states (exact arithmetic)", "why_tests_cant": "the getters recompute vectors lazily and cache them under validity flags: all histories of calls; a statement for every state", "anchors": ["ocp_qp/x_ocp_qp_ipm.c: OCP_QP_IPM_GET_RIC_LR, OCP_QP_IPM_GET_RIC_LS, OCP_QP_IPM_GET_RIC_P, OCP_QP_IPM_GET_RIC_LR_VEC, OCP_QP_IPM_GET_RIC_P_VEC, OCP_QP_IPM_GET_RIC_K, OCP_QP_IPM_GET_RIC_K_VEC", "ocp_qp/x_ocp_qp_kkt.c: OCP_QP_SOLVE_KKT_STEP"]}
{"id": "C67", "title": "Condensing a solution (warm start of the condensed problem)", "statement": "Condensing a solution of the OCP QP (COND_QP_COND_SOL, PART_COND_QP_COND_SOL) gives the point of the condensed QP standing for it: the trajectory described by the condensed point is the given one, whenever this satisfies the dynamics (inside the blocks); a feasible point gives a feasible point, a minimiser a minimiser, a KKT point (primal, multipliers and slacks) a KKT point, and every KKT residual of the condensed point is one of the given point.  Condensing and expanding are inverse: expanding the condensed solution gives back variables, multipliers and slacks, and the multipliers of the dynamics if it was stationary in the eliminated states; condensing an expanded solution gives back the condensed one.  Parts not requested are left alone.  Needed: the slacks are numbered bounds first, then general constraints over all stages, as with softened bounds only (or no slack).", "quantifier": "all OCP QPs (sizes, data, soft constraints in the stated order), all points, multipliers and previous contents, full condensing and every partition into blocks, both condensing algorithms (exact arithmetic)", "why_tests_cant": "round trips and KKT transfer for every QP, point and block partition; index arithmetic over all stages", "anchors": ["cond/x_cond_aux.c: COND_SOL", "cond/x_cond.c: COND_QP_COND_SOL", "cond/x_part_cond.c: PART_COND_QP_COND_SOL"]}
{"id": "C68", "title": "Tree OCP QP solve: iterations, status, statistics, SUCCESS", "statement": "A tree OCP QP solve does at most max(0, iter_max) iterations and reports one of SUCCESS, MAX_ITER, MIN_STEP, NAN_SOL, with MAX_ITER exactly when iter_max iterations were done, MIN_STEP when a step length is at most alpha_min and NAN_SOL when mu is NaN.  SUCCESS (delta formulation, iter_max >= 0) implies that no residual norm of the returned solution -- the residuals kept in the workspace are those of the returned point -- and not its duality gap is above its tolerance; in IEEE doubles without proviso on the linear algebra.  No statistics entry outside the stat_max rows is written, whatever iter_max, and none after the last iteration; the last row holds the residual norms of the returned solution.", "quantifier": "all trees, QPs, arguments, starting points, workspaces, linear algebra results (NaN included); any arithmetic, and IEEE doubles", "why_tests_cant": "every history of the iteration, with arbitrary results of the linear algebra, and every row of the table", "anchors": ["tree_ocp_qp/x_tree_ocp_qp_ipm.c: TREE_OCP_QP_IPM_SOLVE, TREE_OCP_QP_IPM_DELTA_STEP, TREE_OCP_QP_IPM_ABS_STEP"]}
{"id": "C69", "title": "Tree OCP QP initial iterate", "statement": "The initial iterate of the tree solver has strictly positive multipliers and slacks; with a cold start or a warm start of the primal variables all complementarity products equal mu0, with a warm start of all variables the given values are raised to the thresholds.  A variable with two active bounds at least 0.2 apart starts at least 0.1 inside both, with one active bound at least 0.1 inside it; all other variables (slacks included) keep the warm start value, 0 for a cold start.  The multipliers of the dynamics start from 0 unless all variables are warm started.", "quantifier": "all tree QPs, arguments and warm starts (exact arithmetic)", "why_tests_cant": "every bound configuration and warm start, including masked bounds", "anchors": ["tree_ocp_qp/x_tree_ocp_qp_ipm.c: TREE_OCP_QP_INIT_VAR"]}
{"id": "C70", "title": "Tree OCP QP solve: positivity and what SUCCESS certifies", "statement": "With clipped multipliers and slacks the solution returned by the tree solver has t > 0, lam > 0 on every imposed constraint and lam = 0 on every masked one, for every status; with separate step lengths lam, t >= 0 without clipping.  On SUCCESS the returned point violates the dynamics along every edge of the tree by at most tol_eq, the constraints by at most tol_ineq, the gradient of the Lagrangian is at most tol_stat, the complementarity products are within tol_comp of their target, and, for convex cost, its objective exceeds that of any feasible point by at most an explicit combination of the tolerances.", "quantifier": "all trees, QPs, arguments, starting points and linear algebra results (exact arithmetic)", "why_tests_cant": "an invariant of every iteration and a certificate against every feasible point", "anchors": ["tree_ocp_qp/x_tree_ocp_qp_ipm.c: TREE_OCP_QP_IPM_SOLVE, TREE_OCP_QP_INIT_VAR", "tree_ocp_qp/x_tree_ocp_qp_res.c: TREE_OCP_QP_RES_COMPUTE"]}
{"id": "C71", "title": "Every iteration of the tree solver removes the same share of the infeasibility", "statement": "With the tree Riccati routines as linear algebra, each iteration of the tree QP solver multiplies the violation of every equation of the dynamics (every edge of the tree) by the same factor 1 - step, and the residual of every imposed inequality by that factor up to t_min; whatever the predictor-corrector, refinement, LQ-check and formulation options, iteration count and status, the returned solution violates each edge by the initial violation times the product of these factors: never more than initially, and at most (1 - 0.99 alpha_min)^n unless the solver stopped on a short step.  With a joint step, no regularisation and no clipped multiplier the gradient of the Lagrangian shrinks by the same factor.", "quantifier": "all trees, all strictly convex tree QPs with 0/1 masks and target m = 0, all options with clipping, all starting points and iteration counts (exact arithmetic)", "why_tests_cant": "an invariant of every iteration through every branch of the step computation, for every tree", "anchors": ["tree_ocp_qp/x_tree_ocp_qp_ipm.c: TREE_OCP_QP_IPM_SOLVE, TREE_OCP_QP_IPM_DELTA_STEP, TREE_OCP_QP_IPM_ABS_STEP", "tree_ocp_qp/x_tree_ocp_qp_kkt.c: TREE_OCP_QP_FACT_SOLVE_KKT_STEP, TREE_OCP_QP_SOLVE_KKT_STEP"]}
{"id": "C72", "title": "Every iteration of the dense solver removes the same share of the infeasibility", "statement": "With the dense KKT routines as linear algebra (null-space or Schur complement, with or without scaling), each iteration of the dense QP solver multiplies the residual of every imposed inequality by the same factor 1 - step up to t_min, and, when no dual regularisation perturbs the equalities (none, or null-space method, or reg_dual = 0), the violation of every equality constraint by that factor; whatever the predictor-corrector, refinement, LQ-check and formulation options, iteration count and status, the returned solution violates each equality by the initial violation times the product of these factors: never more than initially, and at most (1 - 0.99 alpha_min)^n unless the solver stopped on a short step.  With a joint step, no primal regularisation and no clipped multiplier the gradient of the Lagrangian shrinks by the same factor.", "quantifier": "all dense QPs with the curvature the method needs, 0/1 masks and target m = 0, all options with clipping, all starting points, workspaces and iteration counts (exact arithmetic)", "why_tests_cant": "an invariant of every iteration through every branch of the step computation and of two factorisation methods", "anchors": ["dense_qp/x_dense_qp_ipm.c: DENSE_QP_IPM_SOLVE, DENSE_QP_IPM_DELTA_STEP, DENSE_QP_IPM_ABS_STEP", "dense_qp/x_dense_qp_kkt.c: DENSE_QP_FACT_SOLVE_KKT_STEP, DENSE_QP_SOLVE_KKT_STEP"]}
{"id": "C73", "title": "Dense QCQP residuals are the KKT residuals and certify optimality", "statement": "The residual routine of the dense QP with quadratic constraints fills every entry of the residual object with the KKT residual of that problem (equality constraints, bounds, linear and quadratic constraints, slacks, masks; the lower sides of the quadratic constraints carry no multiplier), and reports its objective; the stationarity residual is the gradient of the Lagrangian (exact second-order expansion); the reported duality gap is objective - (Lagrangian - gradient . z); for convex problems objective - gap + res_g . y is a lower bound on the cost of every feasible y, gap and stationarity norm bound the suboptimality, and zero residuals certify a global minimum.  The four norms are the largest absolute values; the complementarity measure is the mean of lam*t counted over the unmasked entries.", "quantifier": "all dense QCQPs with legal indices, all points, masks, contents of the residual object and workspace, with or without cached constraint values (exact arithmetic)", "why_tests_cant": "optimality against every feasible point and independence from previous contents cannot be tested", "anchors": ["dense_qp/x_dense_qcqp_res.c: DENSE_QCQP_RES_COMPUTE, DENSE_QCQP_RES_COMPUTE_INF_NORM"]}
{"id": "C74", "title": "The QP built by the dense QCQP solver is the Newton linearisation of the QCQP", "statement": "At every point the dense QCQP solver builds a QP whose Hessian is that of the Lagrangian, whose constraint rows are the gradients of the quadratic constraints and whose bounds are relative to their values; linear data are copied.  With the QCQP residuals as right-hand side, the residuals of this QP at any step are those of the QCQP at the moved point minus the terms of second order in the step, so a damped exact step of length a leaves (1-a) times each residual plus O(a^2).  The values it caches are those of the constraints at the point.  The masks it switches off (lower sides of quadratic constraints and the slacks softening them) do not change the problem when those slacks are costless.", "quantifier": "all dense QCQPs with legal indices, all points, steps, multipliers and previous contents of the QP and workspace (exact arithmetic)", "why_tests_cant": "an identity over all points and steps, independent of what the workspace held, cannot be tested", "anchors": ["dense_qp/x_dense_qcqp_ipm.c: DENSE_QCQP_APPROX_QP, DENSE_QCQP_UPDATE_QP, DENSE_QCQP_UPDATE_QP_ABS_STEP, DENSE_QCQP_IPM_SOLVE"]}
{"id": "C75", "title": "Dense QCQP interior point solve: iterations, status, certificate, statistics", "statement": "DENSE_QCQP_IPM_SOLVE does at most iter_max iterations, writes only its own statistics rows, and returns status codes with their documented meaning.  In the delta formulation, on exit the residual object, norms and mu are those of the returned solution, and SUCCESS means that no norm and not the gap is above its tolerance.  After at least one iteration, with clipping, the slacks are positive, the multipliers of imposed constraints are positive and those of masked ones, of lower sides of quadratic constraints and of the slacks softening them are zero; SUCCESS then certifies near-feasibility, near-stationarity and, for convex problems, near-optimality for the QCQP itself.", "quantifier": "all dense QCQPs, arguments, initial iterates and workspaces, and all results the linear algebra may return, NaN included (the certificate: exact arithmetic)", "why_tests_cant": "it must hold for every behaviour of the linear algebra and every iteration history", "anchors": ["dense_qp/x_dense_qcqp_ipm.c: DENSE_QCQP_IPM_SOLVE", "dense_qp/x_dense_qp_ipm.c: DENSE_QP_IPM_DELTA_STEP, DENSE_QP_IPM_ABS_STEP"]}
{"id": "C76", "title": "Initial iterate of the dense QCQP solver", "statement": "DENSE_QCQP_INIT_VAR gives positive slacks; every multiplier times its slack is mu0, except on the lower sides of the quadratic constraints, which have multiplier 0 and slack 1 (default t0_init).  With a warm start of all variables the given values are raised to the thresholds.  Bounded variables start at least 0.1 inside bounds 0.2 or more apart; the other variables keep their value (0 when cold).", "quantifier": "all dense QCQPs, arguments and given initial solutions (exact arithmetic)", "why_tests_cant": "it ranges over all dimensions, bounds, masks and warm starts", "anchors": ["dense_qp/x_dense_qcqp_ipm.c: DENSE_QCQP_INIT_VAR"]}
{"id": "C77", "title": "Dense QCQP solver: infeasibility is contracted by every iteration", "statement": "Every QP step of DENSE_QCQP_IPM_SOLVE (delta formulation, dense KKT routines) has as right-hand side the residual of the QCQP at the current iterate.  Its step length p multiplies the violation of the equalities by 1 - p, that of every imposed inequality too, plus half the curvature of a quadratic constraint along the step, up to t_min; with a joint step and no regularisation the gradient of the Lagrangian as well, up to a second-order term.  Over a whole solve the equalities and the imposed linear inequalities keep the product of the factors of their initial violation, whatever the status; they are never worse than initially, and the rate is geometric in alpha_min.", "quantifier": "all dense QCQPs convex on the directions the method uses, with independent equalities, both KKT methods, all options, iterates and numbers of iterations (exact arithmetic)", "why_tests_cant": "it ranges over all problems, iterates and iteration histories", "anchors": ["dense_qp/x_dense_qcqp_ipm.c: DENSE_QCQP_IPM_SOLVE, DENSE_QCQP_APPROX_QP, DENSE_QCQP_UPDATE_QP, DENSE_QCQP_RES_CONV_QP_RES", "dense_qp/x_dense_qp_kkt.c: FACT_SOLVE_KKT_STEP_DENSE_QP, SOLVE_KKT_STEP_DENSE_QP"]}
{"id": "C78", "title": "Partial condensing update: the second QP stays equivalent to the present OCP QP", "statement": "After PART_COND_QP_COND and any number of calls of PART_COND_QP_UPDATE, each after a change of the data of some marked stages, the second QP has the objective (up to a constant), the constraints (distance to the bound, mask, target; one to one and block by block) and the block-end dynamics of the present OCP QP at the trajectory it describes: the same feasible points and the same minimisers.  Each block is updated from its own stages as the caller gave them; a block without marks keeps its stage and its workspace; masks and targets are never updated; the OCP QP object loses no information.  Marking the last stage of a block of three or more alone leaves a stale Hessian.", "quantifier": "all OCP QPs without slacks, all block sizes, all histories of changes honestly marked, with strictly convex state costs inside the blocks (exact arithmetic); the statements on blocks, marks and masks in any arithmetic", "why_tests_cant": "it ranges over all problems, partitions and histories of updates", "anchors": ["cond/x_part_cond.c: PART_COND_QP_UPDATE", "cond/x_cond_aux.c: UPDATE_COND_BABT, UPDATE_COND_RSQRQ_N2NX3, UPDATE_COND_DCTD"]}
