{"id": "C01", "title": "Parallel scan equals the sequential prefix fold", "statement": "For every associative binary operator and every non-empty list, my_assoc_scan returns a list of the same length whose k-th entry is the left-to-right combination of entries 0..k, although the code never evaluates it in that order. The empty list is rejected with an error.", "quantifier": "all element types, all associative operators (not necessarily commutative or with a unit), all list lengths >= 1 (not only powers of two)", "why_tests_cant": "The index arithmetic depends on the length's binary expansion and on None padding; tests use a few lengths and one or two operators.", "anchors": ["parallel_control/my_assoc_scan.py:my_assoc_scan"]}
{"id": "C02", "title": "Reverse parallel scan equals the sequential suffix fold", "statement": "With reverse=True, my_assoc_scan returns at index k the combination, in list order, of entries k..n-1.", "quantifier": "all element types, all associative operators, all list lengths >= 1", "why_tests_cant": "Order of operands only shows for non-commutative operators on every length.", "anchors": ["parallel_control/my_assoc_scan.py:my_assoc_scan"]}
{"id": "C03", "title": "Each level of the scan is order independent", "statement": "Inside one level of the up-sweep, of the down-sweep and of the final pass, executing the loop body for the indices of that level in any order (any permutation) leaves the same list; so the levels can be run in parallel, and there are only 2*ceil(log2 n)+1 of them.", "quantifier": "all operators, all list lengths, all levels, all permutations of the level's iterations", "why_tests_cant": "Quantifies over all schedules; a Python test runs one.", "anchors": ["parallel_control/my_assoc_scan.py:my_assoc_scan"]}
{"id": "C04", "title": "Scan needs associativity only on the elements it meets", "statement": "If an operator is associative on a set of elements closed under it, my_assoc_scan on elements of this set returns the prefix (suffix) combinations; in particular partial operators that may raise outside the set never raise.", "quantifier": "all operators, all closed sets, all lists over such a set", "why_tests_cant": "Used for the matrix combination rules whose linear solves fail on some matrices; the set of reachable intermediates is unbounded.", "anchors": ["parallel_control/my_assoc_scan.py:my_assoc_scan", "parallel_control/lqt_np.py:combine_abcej"]}
{"id": "C05", "title": "FSC backward pass computes the optimal cost-to-go", "statement": "FSC.seqBackwardPass returns value functions V_k such that V_k[x] is exactly the least cost, over all control sequences of length T-k, of running the system from state x at time k to the end (stage costs plus terminal cost), and the least is attained.", "quantifier": "all horizons, state counts, control counts, transition tables, stage and terminal costs", "why_tests_cant": "Minimum ranges over exponentially many control sequences; tests compare against brute force only for tiny instances.", "anchors": ["parallel_control/fsc_np.py:FSC.seqBackwardPass", "parallel_control/fsc_np.py:FSC.cost"]}
{"id": "C06", "title": "FSC forward pass follows an optimal trajectory", "statement": "The state and control lists returned by FSC.seqForwardPass with the feedback law of seqBackwardPass form a trajectory of the system from x0, FSC.cost of it equals V_0[x0], and no other control list has smaller cost.", "quantifier": "all problems, all initial states", "why_tests_cant": "Optimality quantifies over all alternatives.", "anchors": ["parallel_control/fsc_np.py:FSC.seqForwardPass", "parallel_control/fsc_np.py:FSC.seqSimulation", "parallel_control/fsc_np.py:FSC.cost"]}
{"id": "C07", "title": "FSC parallel backward pass equals the sequential one", "statement": "FSC.parBackwardPass returns the same control law and value functions as FSC.seqBackwardPass whenever the absolute size of the total costs is below the internal infinity constant 1e20.", "quantifier": "all horizons, tables and cost magnitudes under an explicit bound", "why_tests_cant": "Depends on the scan for all lengths and on a magic constant that tests never approach.", "anchors": ["parallel_control/fsc_np.py:FSC.parBackwardPass", "parallel_control/fsc_np.py:combine_V"]}
{"id": "C08", "title": "FSC parallel backward pass is safe for all finite costs", "statement": "FSC.parBackwardPass returns the sequential value functions for every finite cost table, also when costs exceed the constant used for infinity.", "quantifier": "all finite cost tables", "why_tests_cant": "Needs costs around the sentinel 1e20.", "anchors": ["parallel_control/fsc_np.py:FSC.parBackwardPass_init", "parallel_control/fsc_np.py:_FSC_NP_INFTY"]}
{"id": "C09", "title": "FSC parallel forward pass equals the sequential one", "statement": "For every feedback law, FSC.parForwardPass returns exactly the same state and control lists as FSC.seqForwardPass.", "quantifier": "all horizons, transition tables, feedback laws and initial states", "why_tests_cant": "All lengths, all tables.", "anchors": ["parallel_control/fsc_np.py:FSC.parForwardPass", "parallel_control/fsc_np.py:combine_f"]}
{"id": "C10", "title": "FSC forward-backward pass finds optimal states", "statement": "Each state returned by FSC.parFwdBwdPass or parFwdBwdPass2 lies at its time on some optimal trajectory from x0; if the optimal trajectory is unique the returned lists are that trajectory and equal the sequential result.", "quantifier": "all problems under the infinity bound, all initial states", "why_tests_cant": "Quantifies over all trajectories.", "anchors": ["parallel_control/fsc_np.py:FSC.parFwdBwdPass", "parallel_control/fsc_np.py:FSC.parFwdBwdPass2"]}
{"id": "C11", "title": "FSC forward-backward pass always returns a trajectory", "statement": "The state list returned by FSC.parFwdBwdPass and parFwdBwdPass2 is a trajectory of the system (each state follows from the previous one by the returned control), also when several optimal trajectories exist.", "quantifier": "all problems, including those with ties", "why_tests_cant": "Random float costs have no ties, so tests never exercise it.", "anchors": ["parallel_control/fsc_np.py:FSC.parFwdBwdPass", "parallel_control/fsc_np.py:FSC.parFwdBwdPass2"]}
{"id": "C12", "title": "FSC batch solution is the brute-force optimum", "statement": "FSC.batch_solution enumerates every control sequence exactly once and returns a control list, its trajectory and its cost such that the cost is minimal over all control sequences and equals V_0[x0] of the backward pass.", "quantifier": "all problems, all initial states (costs below the start value 1e10)", "why_tests_cant": "Enumeration order/termination of a hand-written odometer over all T and number of controls.", "anchors": ["parallel_control/fsc_np.py:FSC.batch_solution"]}
{"id": "C13", "title": "FSC batch solution works for every finite cost", "statement": "FSC.batch_solution returns an optimal trajectory for every finite cost table, including costs of 1e10 and above.", "quantifier": "all finite cost tables", "why_tests_cant": "Needs costs at the initial minimum 1e10.", "anchors": ["parallel_control/fsc_np.py:FSC.batch_solution"]}
{"id": "C14", "title": "FSC constructor validation", "statement": "FSC(...) accepts exactly the argument combinations whose table shapes agree with each other and with T, replaces single tables by lists of T copies, uses an all-ones terminal cost when none is given, and after acceptance every pass indexes inside its tables provided the transition entries are valid states.", "quantifier": "all argument shapes", "why_tests_cant": "Combinatorial shape space; the tests only build valid objects.", "anchors": ["parallel_control/fsc_np.py:FSC.checkAndExpand", "parallel_control/fsc_np.py:FSC.__init__"]}
{"id": "C15", "title": "Reference Viterbi returns a MAP path", "statement": "ref_viterbi returns a state path whose joint probability with the measurements is maximal among all state paths, together with value functions equal to the maximal probability of reaching each state.", "quantifier": "all Markov models with non-negative entries (need not be normalised), all measurement lists", "why_tests_cant": "Maximum over exponentially many paths.", "anchors": ["parallel_control/viterbi_np.py:ref_viterbi"]}
{"id": "C16", "title": "Log-domain Viterbi variants agree with the reference", "statement": "ref_viterbi_log and ref_viterbi_log_v2 return a path of maximal joint probability and value functions equal to minus the logarithm of those of ref_viterbi for all models with positive entries.", "quantifier": "all positive models, all measurement lists", "why_tests_cant": "All models and lengths.", "anchors": ["parallel_control/viterbi_np.py:ref_viterbi_log", "parallel_control/viterbi_np.py:ref_viterbi_log_v2"]}
{"id": "C17", "title": "Viterbi as finite-state control is exact", "statement": "The control problem built by getFSC has, for every state path, a total cost equal to minus the log joint probability of that path and the measurements, so seqViterbi and parBwdFwdViterbi return a MAP path and the values of the reference algorithm.", "quantifier": "all positive models, all non-empty measurement lists, all paths; for the parallel version the logarithms of all entries are at most b in size with 4 (T+1) b < 1e20", "why_tests_cant": "All paths; time reversal off-by-one errors only visible through exhaustive comparison.", "anchors": ["parallel_control/viterbi_np.py:ViterbiFSC.getFSC", "parallel_control/viterbi_np.py:ViterbiFSC.seqViterbi", "parallel_control/viterbi_np.py:ViterbiFSC.parBwdFwdViterbi"]}
{"id": "C18", "title": "Forward-backward Viterbi under a unique MAP path", "statement": "parBwdFwdBwdViterbi returns the MAP path when it is unique.", "quantifier": "all positive models with a unique MAP path, non-empty measurement lists, logarithms of all entries at most b in size with 4 (T+1) b < 1e20", "why_tests_cant": "Uniqueness and all paths.", "anchors": ["parallel_control/viterbi_np.py:ViterbiFSC.parBwdFwdBwdViterbi"]}
{"id": "C19", "title": "Direct Viterbi recursions in the TensorFlow module", "statement": "viterbi_seq_fwbw, viterbi_par_fwbw and viterbi_seqpar_fwbw return a MAP path, and viterbi_par_fwbwfw returns it when it is unique, for every positive model and measurement list.", "quantifier": "all positive models; all measurement lists for viterbi_seq_fwbw, lists of length >= 2 for the parallel versions", "why_tests_cant": "All paths; see C15.", "anchors": ["parallel_control/viterbi_tf.py:viterbi_seq_fwbw", "parallel_control/viterbi_tf.py:viterbi_par_fwbw", "parallel_control/viterbi_tf.py:viterbi_par_fwbwfw"]}
{"id": "C20", "title": "LQT sequential solution is optimal", "statement": "For every LQT problem with symmetric positive definite control weights and positive semidefinite state weights, the controls from LQT.seqBackwardPass followed by seqForwardPass are the unique minimiser of the total cost over all control sequences, and the cost of any control sequence is at least the value function at x0.", "quantifier": "all dimensions, horizons, time-varying parameters, references, offsets, cross terms", "why_tests_cant": "Infinite (continuous) set of competitors and all dimensions.", "anchors": ["parallel_control/lqt_np.py:LQT.seqBackwardPass", "parallel_control/lqt_np.py:LQT.seqForwardPass", "parallel_control/lqt_np.py:LQT.cost"]}
{"id": "C21", "title": "LQT value-function combination is associative", "statement": "The rule combine_abcej for combining conditional value functions is well defined (its linear systems are nonsingular) and associative on elements whose quadratic parts are symmetric positive semidefinite, and the result stays in this set.", "quantifier": "all dimensions, all such elements", "why_tests_cant": "Matrix identities over all reals.", "anchors": ["parallel_control/lqt_np.py:combine_abcej", "parallel_control/lqt_tf.py:lqt_par_comb_V"]}
{"id": "C22", "title": "LQT parallel backward pass equals the sequential one", "statement": "LQT.parBackwardPass never fails and returns exactly the same gains and value functions as seqBackwardPass in exact arithmetic.", "quantifier": "all problems as in C20 with at least one step (the parallel pass raises without steps)", "why_tests_cant": "All horizons and dimensions.", "anchors": ["parallel_control/lqt_np.py:LQT.parBackwardPass"]}
{"id": "C23", "title": "LQT parallel forward pass equals the sequential one", "statement": "For all gains, LQT.parForwardPass returns the same states and controls as LQT.seqForwardPass for every horizon T >= 1.", "quantifier": "all dimensions, horizons, gains", "why_tests_cant": "All horizons.", "anchors": ["parallel_control/lqt_np.py:LQT.parForwardPass", "parallel_control/lqt_np.py:combine_fc"]}
{"id": "C24", "title": "LQT parallel forward pass handles every horizon the sequential one does", "statement": "LQT.parForwardPass agrees with seqForwardPass also for the zero-step problem.", "quantifier": "T = 0", "why_tests_cant": "Edge case no test covers; kept as a separate claim because it fails.", "anchors": ["parallel_control/lqt_np.py:LQT.parForwardPass", "parallel_control/my_assoc_scan.py:my_assoc_scan"]}
{"id": "C25", "title": "LQT forward-backward passes give the optimal trajectory", "statement": "LQT.parFwdBwdPass and parFwdBwdPass2 return the same states and controls as the sequential forward pass.", "quantifier": "all problems as in C22, all initial states", "why_tests_cant": "All horizons and dimensions.", "anchors": ["parallel_control/lqt_np.py:LQT.parFwdBwdPass", "parallel_control/lqt_np.py:LQT.parFwdBwdPass2"]}
{"id": "C26", "title": "LQT batch solution is the optimum", "statement": "LQT.batchSolution returns the control list minimising the total cost and its state trajectory, hence the same as the sequential solution.", "quantifier": "all problems as in C20 with at least one step and one common output dimension (the arrays are sized by it)", "why_tests_cant": "Continuous set of competitors.", "anchors": ["parallel_control/lqt_np.py:LQT.batchSolution"]}
{"id": "C27", "title": "LQT transformed backward pass agrees", "statement": "LQT.seqTransformedBackwardPass (elimination of the cross terms) returns the same gains and value function as seqBackwardPass.", "quantifier": "all problems as in C20 with at least one step, identity control output matrix and one common output dimension", "why_tests_cant": "All parameters.", "anchors": ["parallel_control/lqt_np.py:LQT.seqTransformedBackwardPass"]}
{"id": "C28", "title": "LQT needs symmetric weights", "statement": "LQT.seqBackwardPass minimises LQT.cost even if the weight matrices passed by the user are not symmetric (the cost only depends on the symmetric part).", "quantifier": "all weight matrices with positive definite symmetric part", "why_tests_cant": "Tests use symmetric matrices only; Cholesky silently reads one triangle.", "anchors": ["parallel_control/lqt_np.py:LQT.seqBackwardPass", "parallel_control/lqt_np.py:LQT.checkAndExpand"]}
{"id": "C29", "title": "LQT constructor defaults and validation", "statement": "LQT(...) expands single parameters to lists of length T, fills the documented defaults, and raises if and only if list lengths or shapes disagree.", "quantifier": "all combinations of given/omitted parameters", "why_tests_cant": "2^k combinations.", "anchors": ["parallel_control/lqt_np.py:LQT.checkAndExpand"]}
{"id": "C30", "title": "LQR is LQT without references", "statement": "LQR backward/forward passes (sequential and parallel) return the gains, value matrices and trajectories of the LQT with zero offsets and references, hence are optimal.", "quantifier": "all dimensions and horizons", "why_tests_cant": "All parameters.", "anchors": ["parallel_control/lqt_np.py:LQR"]}
{"id": "C31", "title": "LQR doubling equals iteration", "statement": "LQR.lqrDouble with n doublings returns the gain that lqrIter returns after 2^n steps and the value matrix that lqrIter has after 2^n - 1 steps (lqrIter starts from the stage weight, the doubling from a one-step element).", "quantifier": "all n and time-invariant LQR problems", "why_tests_cant": "Unbounded n.", "anchors": ["parallel_control/lqt_np.py:LQR.lqrDouble", "parallel_control/lqt_np.py:LQR.lqrIter"]}
{"id": "C32", "title": "Generalised-to-canonical LQT conversion", "statement": "lqt_gen_to_canon followed by the canonical solver and lqt_canon_to_gen gives the optimal controls of the generalised problem.", "quantifier": "all generalised problems with identity control output matrix (the general tensor form has none), any cross terms and references", "why_tests_cant": "Algebra over all parameters.", "anchors": ["parallel_control/lqt_tf.py:lqt_gen_to_canon", "parallel_control/lqt_tf.py:lqt_canon_to_gen"]}
{"id": "C33", "title": "TensorFlow LQT agrees with NumPy LQT", "statement": "lqt_seq_backwardpass, lqt_seq_forwardpass, lqt_par_backwardpass, lqt_par_forwardpass and lqt_par_fwdbwdpass compute the same values as their NumPy counterparts on the converted problem.", "quantifier": "all canonical problems (identity control output, no cross terms)", "why_tests_cant": "All parameters.", "anchors": ["parallel_control/lqt_tf.py:lqt_seq_backwardpass", "parallel_control/lqt_tf.py:lqt_par_backwardpass", "parallel_control/lqt_tf.py:lqt_par_forwardpass", "parallel_control/lqt_tf.py:lqt_par_fwdbwdpass"]}
{"id": "C34", "title": "Condensing preserves cost and dynamics", "statement": "Condensing.condense followed by convertUX is exact: for every control sequence, the condensed problem's states are every Nc-th state of the original, its cost differs from the original by a constant, and convertUX recovers the original trajectory.", "quantifier": "all problems with default Z, s, M (condense does not read them) and symmetric weights on which condense returns, block sizes Nc >= 1 dividing or not dividing the horizon, all control sequences and initial states; NumPy and tensor versions", "why_tests_cant": "All block sizes and horizons.", "anchors": ["parallel_control/condensing_np.py:Condensing.condense", "parallel_control/condensing_np.py:Condensing.convertUX", "parallel_control/condensing_tf.py:condense"]}
{"id": "C35", "title": "NLQT linearisation is exact on affine models", "statement": "One step of NLQT.iterate on a model that is affine returns the optimal solution of that affine problem, independently of the nominal trajectory; the three iteration methods return the same trajectory.", "quantifier": "all affine models, nominal trajectories, methods", "why_tests_cant": "All nominal trajectories.", "anchors": ["parallel_control/nlqt_np.py:NLQT.linearize", "parallel_control/nlqt_np.py:NLQT.iterate", "parallel_control/nlqt_tf.py"]}
{"id": "C36", "title": "A NLQT fixed point satisfies the first-order conditions", "statement": "If NLQT.iterate returns its input trajectory, this trajectory satisfies the dynamics and the first-order optimality conditions of the nonlinear problem.", "quantifier": "all differentiable models, all fixed points", "why_tests_cant": "All models.", "anchors": ["parallel_control/nlqt_np.py:NLQT.iterate", "parallel_control/nlqt_np.py:NLQT.simulate", "parallel_control/nlqt_np.py:NLQT.cost"]}
{"id": "C37", "title": "Equality-constrained QP solver returns the constrained minimiser", "statement": "sqp_np.lqe_solve returns the solution of the KKT system; if the Hessian is positive definite on the constraint null space this is the unique minimiser of the quadratic cost on the constraint set.", "quantifier": "all dimensions, Hessians, constraint matrices with full row rank", "why_tests_cant": "Continuous competitors.", "anchors": ["parallel_control/sqp_np.py:lqe_solve", "parallel_control/sqp_tf.py:lqe_solve"]}
{"id": "C38", "title": "SQP iteration solves quadratic programs in one step and stops", "statement": "local_eq and local_eq_fast perform at most the given number of iterations, reach the exact solution of an equality-constrained quadratic problem after one step, and a converged point (zero step) satisfies the KKT conditions of the nonlinear problem.", "quantifier": "all problems, starting points, iteration limits", "why_tests_cant": "All starting points.", "anchors": ["parallel_control/sqp_np.py:local_eq", "parallel_control/sqp_np.py:local_eq_fast", "parallel_control/sqp_tf.py:local_eq_fast"]}
{"id": "C39", "title": "BFGS updates keep a positive definite Hessian", "statement": "bfgs_basic_update satisfies the secant equation, keeps symmetry, and keeps positive definiteness whenever s.y > 0; bfgs_damped_update keeps symmetry and positive definiteness for all s != 0 and all y.", "quantifier": "all symmetric positive definite Hessians, all steps and gradient differences", "why_tests_cant": "All vectors.", "anchors": ["parallel_control/sqp_np.py:bfgs_basic_update", "parallel_control/sqp_np.py:bfgs_damped_update"]}
{"id": "C40", "title": "BFGS line search decreases the merit function", "statement": "Every step accepted by the back-tracking branch of bfgs_eq_bt satisfies the decrease test of the merit function, or is the documented last-resort step; the Hessian approximation stays positive definite in all iterations.", "quantifier": "all problems, all iteration counts", "why_tests_cant": "Loop invariants over unbounded iterations.", "anchors": ["parallel_control/sqp_np.py:bfgs_eq_bt"]}
{"id": "C41", "title": "Runge-Kutta step", "statement": "rk4 in all of its calling forms and in both libraries computes the classical fourth-order step: exact for cubic polynomial right-hand sides in time, and for linear systems equal to the fourth-order truncated exponential; it commutes with affine changes of variable.", "quantifier": "all right-hand sides, step sizes, dimensions", "why_tests_cant": "All functions.", "anchors": ["parallel_control/diffeq_np.py:rk4", "parallel_control/diffeq_tf.py:rk4"]}
{"id": "C42", "title": "CLQT packing round-trips", "statement": "Unpacking a packed tuple of conditional value function or trajectory parameters returns the tuple, and packing commutes with the vector-space operations used by the integrator, in NumPy and TensorFlow.", "quantifier": "all dimensions and values", "why_tests_cant": "All values.", "anchors": ["parallel_control/clqt_np.py:pack_abcej", "parallel_control/clqt_np.py:unpack_abcej", "parallel_control/clqt_tf.py:pack_abcej", "parallel_control/clqt_tf.py:unpack_abcej"]}
{"id": "C43", "title": "CLQT parallel forward pass equals the sequential one", "statement": "CLQT.parForwardPass (u_zoh=False) returns exactly the states and controls of seqForwardPass for any split of the grid into blocks, for both integration directions of the block elements.", "quantifier": "all time-varying parameters, gains, numbers of blocks and steps", "why_tests_cant": "All block structures; tests compare up to a tolerance so cannot tell exact from approximate.", "anchors": ["parallel_control/clqt_np.py:CLQT.parForwardPass", "parallel_control/clqt_np.py:CLQT.seqForwardPass", "parallel_control/clqt_tf.py:clqt_par_forwardpass"]}
{"id": "C44", "title": "CLQT parallel forward pass with zero-order hold", "statement": "CLQT.parForwardPass with u_zoh=True returns the states of seqForwardPass with u_zoh=True.", "quantifier": "all parameters", "why_tests_cant": "Tolerance-based tests hide the mismatch.", "anchors": ["parallel_control/clqt_np.py:CLQT.parForwardPass_extract"]}
{"id": "C45", "title": "CLQT differential equations are consistent with the combination rule", "statement": "The backward (forward) differential equations for the block parameters are the first-order expansion of prepending (appending) an infinitesimal block with the associative combination rule, and J, eta of the block equations obey the same equation as the Riccati equation of the sequential pass.", "quantifier": "all parameters and block elements", "why_tests_cant": "Analytic identity.", "anchors": ["parallel_control/clqt_np.py:CLQT.bwpass_bw_ode_f", "parallel_control/clqt_np.py:CLQT.bwpass_fw_ode_f", "parallel_control/clqt_np.py:CLQT.riccati_ode_f"]}
{"id": "C46", "title": "CLQT backward passes keep symmetry and lengths", "statement": "All value matrices returned by the sequential and parallel backward passes are symmetric, the value lists have one entry per grid point and the gain lists one per interval, and the last value is the terminal cost.", "quantifier": "all parameters, blocks, steps", "why_tests_cant": "All sizes.", "anchors": ["parallel_control/clqt_np.py:CLQT.seqBackwardPass", "parallel_control/clqt_np.py:CLQT.parBackwardPass"]}
{"id": "C47", "title": "CLQT combination of forward and backward value functions", "statement": "combineForwardBackward returns for each time the unique minimiser over x of the forward value function plus the backward value function.", "quantifier": "all positive semidefinite C, S", "why_tests_cant": "Continuous competitors.", "anchors": ["parallel_control/clqt_np.py:CLQT.combineForwardBackward", "parallel_control/clqt_tf.py:clqt_combine_fwdbwd"]}
{"id": "C48", "title": "Parareal is exact after enough iterations", "statement": "After k iterations the parareal backward, forward and forward-backward passes agree exactly with the sequential fine solution on the first k blocks (counted from the starting end); with at least as many iterations as blocks the returned solution equals the sequential one.", "quantifier": "all parameters, blocks, steps, iteration counts", "why_tests_cant": "All block counts; tests see only small residuals.", "anchors": ["parallel_control/parareal_clqt_np.py", "parallel_control/parareal_clqt_tf.py"]}
{"id": "C49", "title": "Parareal default iteration count is sufficient", "statement": "With the default number of iterations the parareal passes return the sequential fine solution.", "quantifier": "all blocks and steps", "why_tests_cant": "Default is the number of steps per block rather than of blocks.", "anchors": ["parallel_control/parareal_clqt_np.py"]}
{"id": "C50", "title": "Grid value-function combination", "statement": "combine_V of the grid HJB solver is the min-plus product, is associative, and equals the argmin based combine_V2. The scan with combine_V returns the products of the sequential recursion.", "quantifier": "all grids and values", "why_tests_cant": "All values.", "anchors": ["parallel_control/hjb_grid_1d_np.py:combine_V", "parallel_control/hjb_grid_1d_np.py:combine_V2", "parallel_control/hjb_grid_1d_tf.py:combine_V"]}
{"id": "C51", "title": "Interpolated grid combination", "statement": "combine_V_interp returns the minimum of the parabola through the grid minimum and its two neighbours (mirrored at the ends of the grid): never above the grid minimum, below it by at most one eighth of the second difference, equal to the grid minimum at the ends of the grid, exact when the values are sampled from a parabola with minimum inside the grid cell range. When the three values are equal the entry is nan. combine_V_interp2 returns the same array.", "quantifier": "all square grids with at least two points and all values", "why_tests_cant": "All values; divides by zero on flat triples.", "anchors": ["parallel_control/hjb_grid_1d_np.py:combine_V_interp", "parallel_control/hjb_grid_1d_tf.py:combine_V_interp"]}
{"id": "C52", "title": "Parallel HJB pass equals the sequential one", "statement": "HJB_Grid_1d.parBackwardPass returns the same value functions as seqBackwardPass_assoc.", "quantifier": "all blocks, grids, block value functions", "why_tests_cant": "Needs associativity of the interpolated combination, which tests do not check.", "anchors": ["parallel_control/hjb_grid_1d_np.py:HJB_Grid_1d.parBackwardPass", "parallel_control/hjb_grid_1d_np.py:HJB_Grid_1d.seqBackwardPass_assoc"]}
{"id": "C53", "title": "Upwind scheme is monotone", "statement": "Under the step-size (CFL) bound the upwind backward step is monotone: larger input values give larger output values, and it picks the difference from the direction the state moves to.", "quantifier": "all grids, controls, values", "why_tests_cant": "All values.", "anchors": ["parallel_control/hjb_grid_1d_np.py:HJB_Grid_1d.seqBackwardPass_upwind", "parallel_control/hjb_grid_1d_tf.py:seq_bw_pass_upwind"]}
{"id": "C54", "title": "NumPy and TensorFlow analytic block value functions agree", "statement": "upwind_model_block_V of cnonlin_models_tf returns the same values as its NumPy counterpart for all pairs of states.", "quantifier": "all pairs of states and horizons", "why_tests_cant": "Sign regions of the plane.", "anchors": ["parallel_control/cnonlin_models_np.py", "parallel_control/cnonlin_models_tf.py"]}
{"id": "C55", "title": "Tracking model data stay inside the box", "statement": "LinearModel.genData(N) returns N points for every sequence of random draws: the first is the middle of the box, consecutive points are at distance one, and every point stays strictly inside the box with a margin of one half on each side.", "quantifier": "all random sequences, all lengths", "why_tests_cant": "All random histories.", "anchors": ["parallel_control/linear_model_np.py:LinearModel.genData"]}
{"id": "C56", "title": "Finite model produces valid problems", "statement": "For every history of random draws, FiniteModel.genData returns a track whose entry at position y and step k is the product of the two walkers' masks around their positions, all positions staying in range, and the middle as initial state. For every non-empty track getFSC builds a problem whose transition tables hold valid states (down, stay, up, clipped at the edges) and whose cost of a run is the track along the run plus the control cost; an empty track raises. For every generated game the sequential and the parallel backward pass agree and the controls found have the least cost.", "quantifier": "all random histories, sizes, tracks, control sequences", "why_tests_cant": "All random histories.", "anchors": ["parallel_control/finite_model_np.py:FiniteModel"]}
{"id": "C57", "title": "Markov model matrices are stochastic", "statement": "The Gilbert-Elliott model's transition rows, output rows and prior are probability distributions for all parameters in [0,1]. State 2b+s pairs bit b with channel state s, one to one; bit and channel move independently and the output is the bit, wrong with the channel's error probability; the bits read from a list of states are these b. For all random draws the generated states and observations are in range, are those the draws select (each outcome for draws in an interval as long as its probability) and have positive joint probability, and every generated observation sequence is decoded to a most probable state path.", "quantifier": "all parameters in [0,1], all state lists, all random draws and lengths", "why_tests_cant": "All parameters.", "anchors": ["parallel_control/ge_model_np.py:GEModel"]}
{"id": "C58", "title": "Text model indexing and normalisation", "statement": "The text model's contexts are all strings of the given order over the alphabet in lexicographic order, and for distinct characters the dictionaries invert the enumerations. For every training text over the alphabet the first-order and the n-th order priors and transition tables have rows that sum to one and are proportional to one (plus, for n-th order, the 1e-12 floor) plus the number of occurrences; contexts that do not overlap get only the floor, at most 1e-12/n. Texts with foreign characters raise. textToIndex and indexToText are inverse and a context index is read as its last character. Output rows are distributions; makeNoisyText keeps length and alphabet, draws each character from its output row and changes nothing at error probability 0. Decoding any text over the alphabet gives a most probable path.", "quantifier": "all alphabets of distinct characters, orders >= 1, texts, draws", "why_tests_cant": "All texts.", "anchors": ["parallel_control/text_model.py:TextModel"]}
{"id": "C59", "title": "Nonlinear model Jacobians", "statement": "The Jacobians Fx and Fu of the nonlinear (unicycle) model are the partial derivatives of its transition function at every state and input; the NumPy and TensorFlow versions coincide.", "quantifier": "all states and inputs", "why_tests_cant": "Uncountably many points.", "anchors": ["parallel_control/nonlinear_model_np.py:NonlinearModel", "parallel_control/nonlinear_model_tf.py"]}
{"id": "C60", "title": "Tracking problem assembly", "statement": "LinearModel.getLQT and NonlinearModel.getLQT build an admissible tracking problem with steps*N stages: each reference point is tracked over the given number of steps, the full weight is put exactly on the steps that start a new reference point (so the tracking cost counts each reference once with that weight) and only the tiny regularising weight 1e-6 elsewhere, the last reference is repeated at the end, and the dynamics are those of the exactly discretised double integrator. They raise exactly when there is no reference point or no step.", "quantifier": "all reference lists and step counts", "why_tests_cant": "All sizes.", "anchors": ["parallel_control/linear_model_np.py:LinearModel.getLQT", "parallel_control/nonlinear_model_np.py:NonlinearModel.getLQT"]}
{"id": "C61", "title": "Mass-spring model", "statement": "For every number of masses N > 0 the mass-spring model's matrices are those of a chain of masses with springs and dampers between two walls, pushed at the first mass and pulled at the last; the initial state displaces the first and the middle mass; the discretised problem is admissible, has T = int(Tf/dt) steps and the documented cost. N = 0 raises.", "quantifier": "all chain lengths", "why_tests_cant": "All sizes.", "anchors": ["parallel_control/mass_model_np.py:MassModel"]}
{"id": "C62", "title": "TensorFlow parallel passes accept every horizon", "statement": "lqt_par_backwardpass with a given max_parallel returns a result for every horizon.", "quantifier": "all horizons and all max_parallel", "why_tests_cant": "The limit depends on max_parallel; the default is reached only by very long horizons.", "anchors": ["parallel_control/lqt_tf.py:lqt_par_backwardpass"]}
{"id": "C63", "title": "Conversion to tensors keeps the problem", "statement": "Solving the tensors made by lqt_np_to_tf from an LQT object gives the optimal controls of that LQT object.", "quantifier": "all admissible LQT objects", "why_tests_cant": "Holds on the problems the tests use (no cross terms, no control reference).", "anchors": ["parallel_control/lqt_tf.py:lqt_np_to_tf"]}
{"id": "C64", "title": "Condensing accepts every admissible problem", "statement": "condense (NumPy version) returns for every admissible tracking problem with at least one step and every block size Nc >= 1, in particular when only some state components are penalised.", "quantifier": "all admissible problems, all Nc >= 1", "why_tests_cant": "Whether the block weight is singular depends on all weights and dynamics of the block.", "anchors": ["parallel_control/condensing_np.py:Condensing.condense"]}
{"id": "C65", "title": "Early stop of the SQP iteration certifies a solution", "statement": "If local_eq stops before max_iter iterations, the returned point satisfies the constraints up to a size controlled by tol.", "quantifier": "all problems, starting points, tolerances below 1", "why_tests_cant": "Holds on the usual well-behaved test problems; needs all problems.", "anchors": ["parallel_control/sqp_np.py:local_eq"]}
{"id": "C66", "title": "Last-resort step is taken only when back-tracking failed", "statement": "bfgs_eq_bt takes the full step without a decrease of the merit function only if none of the steps tried during back-tracking decreases it.", "quantifier": "all problems, points and back-tracking limits", "why_tests_cant": "The boundary case of exactly max_backtrack halvings must be met.", "anchors": ["parallel_control/sqp_np.py:bfgs_eq_bt"]}
{"id": "C67", "title": "Scans use every element once and in order, for any operator", "statement": "For an arbitrary operator, which need not be associative (rounded arithmetic, interpolation) and may raise, a returned scan has the length of its input and its k-th entry combines the elements 0..k (k..end when reversed), each exactly once and in list order, under some placement of brackets. The same holds of the library scan used by the TensorFlow modules within its length limit.", "quantifier": "all operators, lists, both directions", "why_tests_cant": "All operators and lengths; tests use exact associative operators.", "anchors": ["parallel_control/my_assoc_scan.py:my_assoc_scan", "parallel_control/lqt_tf.py", "parallel_control/fsc_tf.py"]}
{"id": "C68", "title": "TensorFlow continuous tracker agrees with NumPy", "statement": "clqt_seq_backwardpass, clqt_seq_forwardpass, clqt_seq_fwdbwdpass, clqt_par_backwardpass, clqt_par_forwardpass, clqt_par_fwdbwdpass and clqt_combine_fwdbwd of clqt_tf.py return the lists the corresponding methods of CLQT in clqt_np.py return.", "quantifier": "all parameter functions with positive definite control weights, all step and block counts within the scan's length limit", "why_tests_cant": "All problems and splittings; the two libraries combine elements in different orders.", "anchors": ["parallel_control/clqt_tf.py", "parallel_control/clqt_np.py:CLQT"]}
{"id": "C69", "title": "CLQT parallel backward pass equals the sequential one", "statement": "CLQT.parBackwardPass returns exactly the values and gains of CLQT.seqBackwardPass on the same grid.", "quantifier": "all problems, blocks and steps", "why_tests_cant": "Tolerance-based tests do not separate agreement up to the integrator's error from equality.", "anchors": ["parallel_control/clqt_np.py:CLQT.parBackwardPass", "parallel_control/clqt_np.py:CLQT.seqBackwardPass"]}
{"id": "C70", "title": "CLQT sequential passes solve the Hamilton-Jacobi-Bellman equation", "statement": "The Riccati equation integrated by the backward pass is the Hamilton-Jacobi-Bellman equation of the tracking problem, the gains give its unique minimising control, each backward step is a Runge-Kutta step of it at the right time, and each forward step is a Runge-Kutta step of the dynamics under the returned controls.", "quantifier": "all time-varying parameters, grids, states and competing controls", "why_tests_cant": "Continuous states and controls.", "anchors": ["parallel_control/clqt_np.py:CLQT.riccati_ode_f", "parallel_control/clqt_np.py:CLQT.seqBackwardPass", "parallel_control/clqt_np.py:CLQT.seqForwardPass"]}
{"id": "C71", "title": "TensorFlow parareal equals NumPy parareal", "statement": "With the same blocks, steps and (at least one) iterations the TensorFlow parareal backward, forward and forward-backward passes return what the NumPy ones return, and with enough iterations the two complete TensorFlow parareal solvers return the states and controls of the sequential passes.", "quantifier": "all parameters with positive definite control weights, blocks, steps, iteration counts", "why_tests_cant": "The two implementations index blocks and grids differently; tests compare one configuration up to a tolerance.", "anchors": ["parallel_control/parareal_clqt_tf.py:pclqt_backwardpass", "parallel_control/parareal_clqt_tf.py:pclqt_forwardpass", "parallel_control/parareal_clqt_tf.py:pclqt_fwdbwdpass", "parallel_control/parareal_clqt_tf.py:pclqt_backwardforwardpass", "parallel_control/parareal_clqt_tf.py:pclqt_backwardbwdfwdpass"]}
{"id": "C72", "title": "TensorFlow grid HJB passes return what the NumPy passes return", "statement": "seq_bw_pass_symfd, seq_bw_pass_upwind and seq_bw_pass_assoc of hjb_grid_1d_tf return the value functions of seqBackwardPass_symfd, seqBackwardPass_upwind and seqBackwardPass_assoc of hjb_grid_1d_np.", "quantifier": "all dynamics, costs, horizons, positive numbers of blocks and steps, grids and block value functions", "why_tests_cant": "Loop with lists against reversed scan with strided slicing; argmin plus second evaluation against minimum; all sizes.", "anchors": ["parallel_control/hjb_grid_1d_tf.py:seq_bw_pass_symfd", "parallel_control/hjb_grid_1d_tf.py:seq_bw_pass_upwind", "parallel_control/hjb_grid_1d_tf.py:seq_bw_pass_assoc", "parallel_control/hjb_grid_1d_np.py:HJB_Grid_1d"]}
{"id": "C73", "title": "Symmetric finite-difference HJB pass", "statement": "seqBackwardPass_symfd starts from the terminal cost on the grid; each earlier value function is the minimum over the control grid of the later one plus dt times the running cost plus the dynamics times the symmetric difference quotient (one-sided at the ends of the grid). With several steps per block it returns every steps-th value function of the pass with one step per block.", "quantifier": "all dynamics, costs, horizons, numbers of blocks and steps, grids", "why_tests_cant": "All values and sizes.", "anchors": ["parallel_control/hjb_grid_1d_np.py:HJB_Grid_1d.seqBackwardPass_symfd"]}
{"id": "C74", "title": "Discretisation of a double integrator", "statement": "lti_disc_u returns the exact transition matrix, input gain and noise covariance of the sampled system whenever the drift matrix squares to zero, for every step length, input gain and noise.", "quantifier": "all dimensions, all matrices F with F F = 0, all L, G, Qc, dt", "why_tests_cant": "Uncountably many systems.", "anchors": ["parallel_control/disc.py:lti_disc", "parallel_control/disc.py:lti_disc_u"]}
{"id": "C75", "title": "Continuous-time example: reference curve", "statement": "The NumPy and TensorFlow versions of the continuous-time linear example use the same reference curve at every time; the curve has the horizon as a period and the final reference is its value at the final time with zero velocity.", "quantifier": "all times", "why_tests_cant": "Uncountably many times.", "anchors": ["parallel_control/linear_model_np.py:LinearModel.getCLQT", "parallel_control/linear_model_tf.py:get_clqt"]}
{"id": "C76", "title": "Initial guesses fit the problem", "statement": "NonlinearModel.initialGuess returns one zero control per stage and one more state than stages, beginning with the initial state; with init_to_zero the others are zero, otherwise they carry the reference of their stage and a non-negative speed estimate.", "quantifier": "all problems, all references, all sampling periods", "why_tests_cant": "All sizes and references.", "anchors": ["parallel_control/nonlinear_model_np.py:NonlinearModel.initialGuess"]}
{"id": "C77", "title": "TensorFlow finite-state control agrees with NumPy", "statement": "Each TensorFlow pass for finite-state control (sequential backward and forward, parallel backward, forward and forward-backward) returns what the NumPy pass returns on the same problem, and hence the least costs-to-go, first-minimiser feedback law and optimal trajectories. The parallel passes need stage costs of at most 1e20, and a horizon within the limit set by max_parallel; beyond that limit they raise.", "quantifier": "all finite-state control problems with at least one stage, all feedback laws, value vectors, initial states and max_parallel >= 2", "why_tests_cant": "All tables, all sizes and all horizons; the parallel passes build their elements and combine them in a different way from the NumPy ones.", "anchors": ["parallel_control/fsc_tf.py:fsc_seq_backwardpass", "parallel_control/fsc_tf.py:fsc_seq_forwardpass", "parallel_control/fsc_tf.py:fsc_par_backwardpass", "parallel_control/fsc_tf.py:fsc_par_forwardpass", "parallel_control/fsc_tf.py:fsc_par_fwdbwdpass"]}
{"id": "C78", "title": "TensorFlow estimators by finite-state control return the MAP path", "statement": "make_viterbi_fsc followed by viterbi_fsc_seq_bwfw or viterbi_fsc_par_bwfw returns a most probable state path and the negative log-probabilities of the best paths, equal to those of the NumPy class; viterbi_fsc_par_bwfwbw returns the most probable path when it is unique.", "quantifier": "all hidden Markov models with positive entries, all measurement sequences (at least two measurements for the parallel versions)", "why_tests_cant": "All models, sizes and measurement sequences.", "anchors": ["parallel_control/viterbi_tf.py:make_viterbi_fsc", "parallel_control/viterbi_tf.py:viterbi_fsc_seq_bwfw", "parallel_control/viterbi_tf.py:viterbi_fsc_par_bwfw", "parallel_control/viterbi_tf.py:viterbi_fsc_par_bwfwbw"]}
{"id": "C79", "title": "The regulator's Runge-Kutta passes are the tracker's", "statement": "For a time-invariant regulator every pass of CLQR with method 'rk4' (sequential and parallel backward, forward, forward-backward passes, their initial elements and the combination step) returns what the CLQT pass returns on the tracking problem with the same constant matrices, identity output and zero references, the affine parts of the latter being zero; the same calls raise. Methods that a pass does not offer raise.", "quantifier": "all regulator problems, dimensions, block counts, steps, initial states, gains and terminal values", "why_tests_cant": "All matrices, sizes and step counts; two independent implementations of each pass.", "anchors": ["parallel_control/clqt_np.py:CLQR.seqBackwardPass", "parallel_control/clqt_np.py:CLQR.seqForwardPass", "parallel_control/clqt_np.py:CLQR.seqFwdBwdPass", "parallel_control/clqt_np.py:CLQR.combineForwardBackward", "parallel_control/clqt_np.py:CLQR.parBackwardPass", "parallel_control/clqt_np.py:CLQR.parForwardPass", "parallel_control/clqt_np.py:CLQR.parFwdBwdPass", "parallel_control/clqt_np.py:CLQR.parBackwardPass_init"]}
{"id": "C80", "title": "Steps of the regulator's Runge-Kutta passes", "statement": "seqBackwardPass with method 'rk4' returns for positive definite U, its matrices are symmetric, end in the terminal value and are joined by symmetrised Runge-Kutta steps of the Riccati equation; the gains are U^-1 L' S of their own time. seqForwardPass takes Runge-Kutta steps of the dynamics under the feedback, held or not. parForwardPass without hold equals seqForwardPass and raises for wrong lengths. parBackwardPass returns blocks*steps gains, symmetric values and the terminal value.", "quantifier": "all regulator problems with symmetric positive definite U, all step counts, block counts and initial states", "why_tests_cant": "All matrices and all sizes.", "anchors": ["parallel_control/clqt_np.py:CLQR.seqBackwardPass", "parallel_control/clqt_np.py:CLQR.seqForwardPass", "parallel_control/clqt_np.py:CLQR.parForwardPass", "parallel_control/clqt_np.py:CLQR.parBackwardPass"]}
{"id": "C81", "title": "Exact Riccati solution", "statement": "seqBackwardPass with method 'exact' returns values on the solution of the Riccati differential equation with the given terminal value: the same function of the time to go for every number of steps and every step size, symmetric, with the optimal gains.", "quantifier": "all regulator problems with symmetric X, terminal value and symmetric positive definite U; all step counts and step sizes for which the call returns", "why_tests_cant": "An equation between functions of continuous time for all matrices; tests compare finitely many numbers up to rounding.", "anchors": ["parallel_control/clqt_np.py:CLQR.seqBackwardPass"]}
{"id": "C82", "title": "Exact simulation of the closed loop", "statement": "seqForwardPass with method 'exact' returns states joined by solutions of the closed-loop differential equation: with the control held over each step (u_zoh) or with the continuously applied gain.", "quantifier": "all regulator problems, gains, initial states, step sizes and both hold modes", "why_tests_cant": "All matrices and all lengths; continuous time.", "anchors": ["parallel_control/clqt_np.py:CLQR.seqForwardPass", "parallel_control/disc.py:lti_disc_u"]}
{"id": "C83", "title": "Parallel backward pass of the regulator equals the sequential one", "statement": "CLQR.parBackwardPass returns the same gains and values as CLQR.seqBackwardPass with blocks*steps steps, with method 'rk4'.", "quantifier": "all regulator problems, blocks and steps", "why_tests_cant": "All problems; in exact arithmetic.", "anchors": ["parallel_control/clqt_np.py:CLQR.parBackwardPass", "parallel_control/clqt_np.py:CLQR.seqBackwardPass"]}
{"id": "C84", "title": "Parallel forward pass of the regulator with held control equals the sequential one", "statement": "With u_zoh=True CLQR.parForwardPass returns the same controls and states as CLQR.seqForwardPass.", "quantifier": "all regulator problems, gains, initial states, blocks and steps", "why_tests_cant": "All problems; in exact arithmetic.", "anchors": ["parallel_control/clqt_np.py:CLQR.parForwardPass", "parallel_control/clqt_np.py:CLQR.seqForwardPass"]}
{"id": "C85", "title": "Direct shooting evaluates the simulated control", "statement": "The cost and end-point functions of direct shooting return the running cost of the classical Runge-Kutta simulation of the state under the piecewise linear control which the unknowns stand for, and the deviation of the final simulated state from the required one. The second parametrisation is the first restricted to continuous controls. Without steps or time an exception is raised. The TensorFlow versions return the same.", "quantifier": "all dynamics, running costs, time spans, numbers of steps, initial and final states and control parameters", "why_tests_cant": "All functions and all lengths; exact arithmetic.", "anchors": ["parallel_control/hjb_grid_1d_np.py:fun_and_con_1", "parallel_control/hjb_grid_1d_np.py:fun_and_con_2", "parallel_control/hjb_grid_1d_tf.py:fun_and_con_1", "parallel_control/hjb_grid_1d_tf.py:fun_and_con_2"]}
{"id": "C86", "title": "Layout of the direct shooting table", "statement": "directShootingValueFunction returns a square table whose entry (i, j) is the cost which the SQP solver finds for the problem of going from grid point i to grid point j in one block, or nan if the solver gives nan. A method other than 1 and 2 is treated as 1. It raises exactly when there are no blocks, no steps or no time. The TensorFlow evaluation returns a table exactly when the NumPy one has no nan, and then the same.", "quantifier": "all problems, grids, blocks, steps, methods and iteration numbers", "why_tests_cant": "All grids and all functions; index conventions are silent when wrong on symmetric problems.", "anchors": ["parallel_control/hjb_grid_1d_np.py:HJB_Grid_1d.directShootingValueFunction", "parallel_control/hjb_grid_1d_np.py:V_eval_1", "parallel_control/hjb_grid_1d_np.py:V_eval_2", "parallel_control/hjb_grid_1d_tf.py:V_eval_1", "parallel_control/hjb_grid_1d_tf.py:V_eval_2"]}
{"id": "C87", "title": "Direct shooting is exact for linear-quadratic problems", "statement": "For affine dynamics that depend on the control and a convex quadratic running cost, every entry of the table is the least simulated cost of all controls of the class which lead from the start to the end point, and is attained by one control only, after one or more iterations. Continuous controls are never cheaper.", "quantifier": "all such problems, grids, blocks, steps and positive iteration numbers, both methods", "why_tests_cant": "Minimum over an infinite set of controls.", "anchors": ["parallel_control/hjb_grid_1d_np.py:HJB_Grid_1d.directShootingValueFunction", "parallel_control/cnonlin_models_np.py:linear_model"]}
{"id": "C88", "title": "A number in the direct shooting table is the cost of a control that reaches the end point", "statement": "If an entry of the table is a number then some control leads from its start to its end point.", "quantifier": "all problems, grids and iteration numbers", "why_tests_cant": "Absence of controls is a statement about an infinite set.", "anchors": ["parallel_control/hjb_grid_1d_np.py:HJB_Grid_1d.directShootingValueFunction"]}
{"id": "C89", "title": "Direct shooting works for the shipped models", "statement": "For the shipped models the table of direct shooting has a number for every end point that can be reached.", "quantifier": "all grids, blocks, steps and iteration numbers", "why_tests_cant": "All sizes.", "anchors": ["parallel_control/hjb_grid_1d_np.py:HJB_Grid_1d.directShootingValueFunction", "parallel_control/cnonlin_models_np.py:upwind_model"]}
{"id": "C90", "title": "The upwind pass is optimal on the shipped upwind model", "statement": "On the shipped upwind model the sequential upwind pass returns, at every grid point and every block boundary, the least terminal cost that the Euler-discretised system reaches with any controls between zero and one, not only controls on the grid.", "quantifier": "all grids with at least three states and two controls, all block and step counts of at least one", "why_tests_cant": "All sizes, and a minimum over an infinite set of controls.", "anchors": ["parallel_control/cnonlin_models_np.py:upwind_model", "parallel_control/hjb_grid_1d_np.py:HJB_Grid_1d.seqBackwardPass_upwind"]}
{"id": "C91", "title": "Grids and time-step bounds of the shipped models", "statement": "The grids of the shipped one-dimensional models are equidistant and include both end points. The time-step bound that makes the upwind scheme monotone holds for the linear model exactly when there are at least nx-1 time steps, for the upwind model exactly when twice the number of time steps is at least nx-1, and for the velocity model it is enough that twice the number is at least nx-1.", "quantifier": "all grid sizes of at least two, all block and step counts of at least one", "why_tests_cant": "All sizes, with an exact threshold.", "anchors": ["parallel_control/cnonlin_models_np.py:linear_model", "parallel_control/cnonlin_models_np.py:velocity_model", "parallel_control/cnonlin_models_np.py:upwind_model"]}
{"id": "C92", "title": "The exact regulator pass solves the continuous-time optimal control problem", "statement": "For a continuous-time regulator with symmetric positive definite control weight and symmetric positive semidefinite state weights, the backward pass with method 'exact' never raises. At every grid time the returned matrix gives the optimal cost-to-go of the continuous-time problem: no control does better, some control reaches it, and any two controls that reach it agree. The returned gains are the optimal feedback at the grid times.", "quantifier": "all real problems of all sizes, all step counts of at least one, all horizons, all controls that are arbitrary between finitely many jumps", "why_tests_cant": "The minimum ranges over an infinite-dimensional set of controls.", "anchors": ["parallel_control/clqt_np.py:CLQR.seqBackwardPass"]}
{"id": "C93", "title": "The discretisation samples the continuous-time system exactly", "statement": "Every solution of dx/dt = F x + G u with u held over a step satisfies the discrete equation with the matrices the discretisation returns. Every solution of the covariance equation satisfies the discrete one. Both have a solution from every start. The regulation problem of the mass chain samples the chain exactly.", "quantifier": "all real matrices of all sizes, all non-negative steps, all solutions", "why_tests_cant": "All matrices and all solutions; it rests on uniqueness of solutions.", "anchors": ["parallel_control/disc.py:lti_disc", "parallel_control/disc.py:lti_disc_u", "parallel_control/mass_model_np.py:MassModel.getLQT"]}
{"id": "C94", "title": "Order four of the Runge-Kutta step and of the regulator's Runge-Kutta backward pass", "statement": "For a vector field that is quadratic in the state, N Runge-Kutta steps of size T/N stay within D/N^4 of the solution, with D independent of N. In particular the regulator's backward pass with method 'rk4' converges with order four to the optimal value matrices and gains as the number of steps grows.", "quantifier": "all real quadratic vector fields, solutions and horizons; all real regulator problems of all sizes; all sufficiently large step counts", "why_tests_cant": "A convergence order is a statement about infinitely many step counts with one constant.", "anchors": ["parallel_control/diffeq_np.py:rk4", "parallel_control/clqt_np.py:CLQR.seqBackwardPass"]}
{"id": "C95", "title": "The regulator's trajectory converges to the optimal one", "statement": "For a continuous-time regulator with positive definite control weight and positive semidefinite state weights, run the backward pass and then the forward pass from x0, with either integration method in each and with or without zero-order hold. Neither raises, and the states and controls returned differ from the optimal trajectory and control of the continuous-time problem by at most D/steps, with D independent of the number of steps.", "quantifier": "all real problems of all sizes, start states, horizons, methods, hold flags; all sufficiently large step counts", "why_tests_cant": "A limit over all step counts, towards an optimum over an infinite-dimensional set of controls.", "anchors": ["parallel_control/clqt_np.py:CLQR.seqBackwardPass", "parallel_control/clqt_np.py:CLQR.seqForwardPass"]}
{"id": "C96", "title": "The scan only combines adjacent runs", "statement": "my_assoc_scan combines only values that stand for adjacent runs of entries. If the operator returns whenever its arguments are acceptable results of two adjacent runs, and then yields an acceptable result of the joint run, the scan does not raise and entry k of its result is an acceptable result of the entries 0..k (with reverse=True: of the entries k to the end). Associativity is not needed, and the operator may raise on all other pairs. This is what a scan with inexact (rounded, integrated) operands relies on.", "quantifier": "all operators, all notions of acceptability indexed by runs, all non-empty lists, both directions", "why_tests_cant": "Ranges over all partial operators and all list lengths; tests only see an operator that happens not to raise.", "anchors": ["parallel_control/my_assoc_scan.py:my_assoc_scan"]}
{"id": "C97", "title": "The regulator's parallel passes converge to the optimum", "statement": "For every number of blocks, parBackwardPass of the continuous-time regulator does not raise when the blocks have enough steps, although its block elements are only integrated approximately and the combination solves linear systems. Its value matrices and gains differ from the optimal ones by at most D/steps^4. The trajectories computed from x0 with these gains (sequential forward pass with either method and hold, parallel forward pass) differ from the optimal trajectory and control by at most D/(blocks*steps).", "quantifier": "all real problems of all sizes with positive definite control weight and positive semidefinite state weights, block counts, start states, horizons, methods, hold flags; all sufficiently large step counts", "why_tests_cant": "A limit over all step counts and an optimum over an infinite-dimensional set of controls; solvability of the combination steps must hold for perturbed elements.", "anchors": ["parallel_control/clqt_np.py:CLQR.parBackwardPass", "parallel_control/clqt_np.py:CLQR.parBackwardPass_init", "parallel_control/clqt_np.py:CLQR.parBackwardPass_extract", "parallel_control/clqt_np.py:CLQR.parForwardPass", "parallel_control/lqt_np.py:combine_abcej"]}
{"id": "C98", "title": "The regulator's forward-backward passes converge with order four", "statement": "With the gains and value matrices of any of the regulator's backward passes (sequential 'rk4' or 'exact', parallel), the trajectory that seqFwdBwdPass with combineForwardBackward computes from x0, and the one that parFwdBwdPass computes for any number of blocks, exist when there are enough steps: none of the linear systems is singular. They differ from the optimal state and control of the continuous-time problem by at most D divided by the fourth power of the number of steps, so these passes are three orders more accurate than the forward passes with piecewise constant gains.", "quantifier": "all real problems of all sizes with positive definite control weight and positive semidefinite state weights, block counts, backward passes, start states, horizons; all sufficiently large step counts", "why_tests_cant": "A limit over all step counts and a bound uniform over the grid cannot be observed on finitely many runs, and a run in floating point cannot separate order four from rounding.", "anchors": ["parallel_control/clqt_np.py:CLQR.fwdbwdpass_ode_f", "parallel_control/clqt_np.py:CLQR.seqFwdBwdPass", "parallel_control/clqt_np.py:CLQR.combineForwardBackward", "parallel_control/clqt_np.py:CLQR.bwpass_fw_ode_f", "parallel_control/clqt_np.py:CLQR.parFwdBwdPass_init", "parallel_control/clqt_np.py:CLQR.parFwdBwdPass_extract", "parallel_control/clqt_np.py:CLQR.parFwdBwdPass", "parallel_control/lqt_np.py:combine_abcej", "parallel_control/lqt_np.py:par_fwdbwd_pass_scan"]}
{"id": "C99", "title": "Tracking with constant data is regulation of the state extended by a one", "statement": "For a continuous-time tracking problem whose data do not depend on time, with symmetric weights and positive definite control weight, take the regulation problem for the state (x, 1) with dynamics ((F, c), (0, 0)) and weight (H, -r)' X (H, -r). The tracker's sequential and parallel backward passes return exactly the parts of the matrices the regulator returns for this problem: K and d from the gain (K, -d), S and v from the value matrix ((S, -v), (-v', s)). The tracker's forward passes (sequential with or without hold, parallel without hold) and forward-backward passes (sequential, parallel) return the regulator's controls and its states without the last component. Where one raises, so does the other. So the affine terms c, r, d, v, b and eta, which are computed by separate equations in the tracker, are treated consistently with the matrix terms in every pass.", "quantifier": "all constant tracking problems of all sizes over any ordered field, step and block counts, step sizes, start times and initial states", "why_tests_cant": "It compares two classes of the library on every problem and grid, down to exact equality and the raised exceptions; a sign or transpose error in one affine term can vanish for particular references or drifts.", "anchors": ["parallel_control/clqt_np.py:CLQT.seqBackwardPass", "parallel_control/clqt_np.py:CLQT.seqForwardPass", "parallel_control/clqt_np.py:CLQT.seqFwdBwdPass", "parallel_control/clqt_np.py:CLQT.combineForwardBackward", "parallel_control/clqt_np.py:CLQT.parBackwardPass", "parallel_control/clqt_np.py:CLQT.parForwardPass", "parallel_control/clqt_np.py:CLQT.parFwdBwdPass", "parallel_control/clqt_np.py:CLQR.seqBackwardPass", "parallel_control/clqt_np.py:CLQR.seqForwardPass", "parallel_control/clqt_np.py:CLQR.parBackwardPass", "parallel_control/clqt_np.py:CLQR.parFwdBwdPass", "parallel_control/lqt_np.py:combine_abcej"]}
{"id": "C100", "title": "The tracker with constant data converges to the optimal tracking solution", "statement": "For a continuous-time tracking problem with constant data, positive definite control weight and positive semidefinite output weights: the tracker's sequential and parallel backward passes do not raise once there are enough steps, and their gains K, d and value functions S, v differ by at most D / steps^4 from the gains of the optimal feedback u = -K x + d and the optimal cost-to-go x' S x / 2 - v' x + s of the continuous-time problem. From every start state there is an optimal trajectory, and the forward passes with these gains compute its states and controls at the grid times within D / steps; the sequential and parallel forward-backward passes compute them within D / steps^4.", "quantifier": "all real constant tracking problems of all sizes with the stated weights, start states, horizons, block counts; all sufficiently large step counts", "why_tests_cant": "Optimality quantifies over every control function, and the rates over all step counts; no finite set of runs settles either.", "anchors": ["parallel_control/clqt_np.py:CLQT.seqBackwardPass", "parallel_control/clqt_np.py:CLQT.seqForwardPass", "parallel_control/clqt_np.py:CLQT.seqFwdBwdPass", "parallel_control/clqt_np.py:CLQT.combineForwardBackward", "parallel_control/clqt_np.py:CLQT.parBackwardPass", "parallel_control/clqt_np.py:CLQT.parForwardPass", "parallel_control/clqt_np.py:CLQT.parFwdBwdPass", "parallel_control/diffeq_np.py:rk4", "parallel_control/lqt_np.py:combine_abcej"]}
{"id": "C101", "title": "The tracker's differential equations are those of the optimal control, for time-varying data", "statement": "For a continuous-time tracking problem whose data vary in time, let S(t), v(t) solve the differential equations that the tracker integrates backwards, from its terminal values. Then a trajectory that uses the feedback u = -K x + d with the gains the tracker computes from S(t), v(t) costs no more than any other trajectory from the same state, only trajectories with this feedback reach that cost, and the optimal costs from two states differ by the difference of x' S x / 2 - v' x. If b(t), C(t) solve the equations that the tracker integrates forwards from x0 and 0, the states (I + C S)^-1 (b + C v) that its combination step computes are an optimal trajectory from x0 with that feedback.", "quantifier": "all real tracking problems of all sizes whose data are arbitrary functions of time (jumps at finitely many times allowed), with symmetric weights and positive definite control weight; all start times, start states and competing controls", "why_tests_cant": "Optimality quantifies over every control function and every time-varying problem; a run on one problem cannot tell a correct right-hand side from one that is wrong in a term vanishing there.", "anchors": ["parallel_control/clqt_np.py:CLQT.riccati_ode_f", "parallel_control/clqt_np.py:CLQT.fwdbwdpass_ode_f", "parallel_control/clqt_np.py:CLQT.seqBackwardPass", "parallel_control/clqt_np.py:CLQT.seqFwdBwdPass", "parallel_control/clqt_np.py:CLQT.combineForwardBackward"]}
{"id": "C102", "title": "The tracker's passes converge to the optimal control for time-varying data", "statement": "For a continuous-time tracking problem whose data are Lipschitz in time, let S(t), v(t) solve the backward differential equations on [0, T]. Once there are enough steps the backward pass does not raise, and at every grid time its value functions and gains are within D / steps of S, v and of the gains S, v give, with D independent of steps. A trajectory with the feedback of S, v is optimal, and the sequential forward pass with the computed gains (with or without zero-order hold; without hold also the parallel forward pass) is within D / steps of its states and controls. If b(t), C(t) solve the forward equations and I + C S is invertible on [0, T], the sequential forward-backward pass and its combination are within D / steps of the states (I + C S)^-1 (b + C v) and of their controls.", "quantifier": "all real tracking problems of all sizes with Lipschitz time-varying data, symmetric weights and positive definite control weight, whose backward (and forward) equations have solutions on [0, T]; all start states, hold settings and sufficiently large numbers of steps", "why_tests_cant": "Convergence is a statement about all step counts at once and about every time-varying problem; a run compares one discretisation with another and cannot exclude a limit other than the optimal control.", "anchors": ["parallel_control/clqt_np.py:CLQT.seqBackwardPass", "parallel_control/clqt_np.py:CLQT.seqForwardPass", "parallel_control/clqt_np.py:CLQT.parForwardPass", "parallel_control/clqt_np.py:CLQT.seqFwdBwdPass", "parallel_control/clqt_np.py:CLQT.combineForwardBackward"]}
{"id": "C103", "title": "With time-varying data an optimal control exists and the tracker's passes converge to it", "statement": "For a continuous-time tracking problem with Lipschitz time-varying data, positive semidefinite state and terminal weights and positive definite control weight, the differential equations that the tracker integrates backwards and forwards have solutions on the whole of [0, T]; the backward solution S, v is unique, S and C are positive semidefinite, and I + C S, which the combination step inverts, is invertible. With a constant s(t), x' S(t) x / 2 - v(t)' x + s(t) is the optimal cost from every state x at every time t, attained by the tracker's feedback. From every x0 there is an optimal trajectory, and the backward pass followed by the sequential forward pass (with or without hold), the parallel forward pass (without hold), or the forward-backward pass and its combination, reaches its states and controls at all grid times within D / steps.", "quantifier": "all real tracking problems of all sizes with Lipschitz time-varying data and convex cost, on every positive horizon; all start states and start times, all competing controls, both hold settings, all sufficiently large numbers of steps", "why_tests_cant": "Existence on the whole horizon (no finite escape of the Riccati equation), optimality against every control and convergence over all step counts concern infinitely many problems, controls and grids.", "anchors": ["parallel_control/clqt_np.py:CLQT.riccati_ode_f", "parallel_control/clqt_np.py:CLQT.fwdbwdpass_ode_f", "parallel_control/clqt_np.py:CLQT.seqBackwardPass", "parallel_control/clqt_np.py:CLQT.seqForwardPass", "parallel_control/clqt_np.py:CLQT.parForwardPass", "parallel_control/clqt_np.py:CLQT.seqFwdBwdPass", "parallel_control/clqt_np.py:CLQT.combineForwardBackward"]}
{"id": "C104", "title": "With time-varying data the parallel passes of the tracker converge, for every number of blocks", "statement": "For a continuous-time tracking problem with Lipschitz time-varying data, positive semidefinite state and terminal weights and positive definite control weight, for either direction in which the block elements are integrated (option forward) and for every number of blocks: with sufficiently many steps per block the parallel backward pass (block elements integrated independently, combined by the associative scan, values re-integrated inside the blocks) does not fail, its value functions are those of the exact solution S, v of the backward equations at all grid times within D / steps, and its gains are the exact feedback gains within D / steps. From every x0 there is an optimal trajectory, the same for all numbers of blocks, such that the parallel backward pass followed by the sequential forward pass (with or without hold) or by the parallel forward pass (without hold) reaches its states and controls at all grid times within D / steps.", "quantifier": "all real tracking problems of all sizes with Lipschitz time-varying data and convex cost, all horizons, all numbers of blocks, both integration directions of the blocks, all start states, both hold settings, all sufficiently large numbers of steps per block", "why_tests_cant": "The errors of independently integrated blocks pass through the scan's combination, which inverts matrices; that this neither fails nor amplifies the errors beyond D / steps concerns all problems, all numbers of blocks and all grids.", "anchors": ["parallel_control/clqt_np.py:CLQT.parBackwardPass", "parallel_control/clqt_np.py:CLQT.parBackwardPass_init", "parallel_control/clqt_np.py:CLQT.parBackwardPass_extract", "parallel_control/clqt_np.py:CLQT.bwpass_bw_ode_f", "parallel_control/clqt_np.py:CLQT.bwpass_fw_ode_f", "parallel_control/clqt_np.py:CLQT.parForwardPass", "parallel_control/clqt_np.py:CLQT.seqForwardPass"]}
{"id": "C105", "title": "With time-varying data the parallel forward-backward pass of the tracker converges, for every number of blocks", "statement": "For a continuous-time tracking problem with Lipschitz time-varying data, positive semidefinite state and terminal weights and positive definite control weight: from every x0 there is an optimal trajectory, the same for all numbers of blocks and both integration directions, such that the parallel backward pass followed by the parallel forward-backward pass (block elements integrated independently, combined by the associative scan from the start state, re-integrated inside the blocks and combined with the value functions at every grid time) does not fail with sufficiently many steps per block, and gives the optimal states and controls at all grid times within D / steps. On the same grid and with sufficiently many steps per block, the gains, offsets, value functions, states and controls of the parallel passes agree with those of the sequential backward and forward passes (with or without hold) within D / steps.", "quantifier": "all real tracking problems of all sizes with Lipschitz time-varying data and convex cost, all horizons, all numbers of blocks, both integration directions of the blocks in either pass, all start states, all sufficiently large numbers of steps per block", "why_tests_cant": "Errors of independently integrated blocks pass through the scan's combination and then through a matrix inversion with the value functions at every grid time; that no inversion fails and the errors stay below D / steps concerns all problems, all numbers of blocks and all grids.", "anchors": ["parallel_control/clqt_np.py:CLQT.parFwdBwdPass", "parallel_control/clqt_np.py:CLQT.parFwdBwdPass_init", "parallel_control/clqt_np.py:CLQT.parFwdBwdPass_extract", "parallel_control/clqt_np.py:CLQT.combineForwardBackward", "parallel_control/clqt_np.py:CLQT.parBackwardPass", "parallel_control/clqt_np.py:CLQT.seqBackwardPass", "parallel_control/clqt_np.py:CLQT.seqForwardPass"]}
