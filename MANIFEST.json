{
 "claims": [
  {
   "property": "C01",
   "status": "proved",
   "theorems": [
    "C01_scan_is_prefix_fold",
    "C01_scan_empty_raises"
   ],
   "note": "All lengths, all associative operators."
  },
  {
   "property": "C02",
   "status": "proved",
   "theorems": [
    "C02_scan_reverse_is_suffix_fold"
   ],
   "note": "All lengths, all associative operators."
  },
  {
   "property": "C03",
   "status": "proved",
   "theorems": [
    "C03_scan_level_order_irrelevant"
   ],
   "note": "Any permutation of the iterations within every level; operator may raise."
  },
  {
   "property": "C04",
   "status": "proved",
   "theorems": [
    "C04_scan_on_closed_set"
   ],
   "note": "Partial operators on a closed set."
  },
  {
   "property": "C05",
   "status": "proved",
   "theorems": [
    "C05_backward_pass_optimal",
    "C05_control_law_first_minimiser"
   ],
   "note": "Any ordered cost monoid, any horizon, any table sizes."
  },
  {
   "property": "C06",
   "status": "proved",
   "theorems": [
    "C06_forward_pass_optimal",
    "C06_simulation_and_cost"
   ],
   "note": ""
  },
  {
   "property": "C07",
   "status": "proved",
   "theorems": [
    "C07_par_backward_eq_seq",
    "C07_par_backward_eq_seq_bounded"
   ],
   "note": "Hypothesis: the sentinel dominates the least costs; the bounded theorem gives an explicit table bound."
  },
  {
   "property": "C08",
   "status": "partial",
   "theorems": [
    "C08_safe_for_all_costs_refuted"
   ],
   "note": "False of the code. Refuted by a witness: a final cost of 2e20 gives a value of 1e20. C07 is the part that holds."
  },
  {
   "property": "C09",
   "status": "proved",
   "theorems": [
    "C09_par_forward_eq_seq"
   ],
   "note": ""
  },
  {
   "property": "C10",
   "status": "proved",
   "theorems": [
    "C10_fwdbwd_states_optimal",
    "C10_fwdbwd2_states_optimal",
    "C10_bounds_suffice"
   ],
   "note": "Both variants; equality with the sequential trajectory when the optimal states are unique."
  },
  {
   "property": "C100",
   "status": "proved",
   "theorems": [
    "C100_value",
    "C100_parallel_value",
    "C100_trajectory",
    "C100_parallel_trajectory",
    "C100_forward_backward",
    "C100_parallel_forward_backward"
   ],
   "note": ""
  },
  {
   "property": "C101",
   "status": "proved",
   "theorems": [
    "C101_feedback",
    "C101_value",
    "C101_combination",
    "C101_samples"
   ],
   "note": ""
  },
  {
   "property": "C102",
   "status": "proved",
   "theorems": [
    "C102_value",
    "C102_trajectory",
    "C102_forward_backward"
   ],
   "note": ""
  },
  {
   "property": "C103",
   "status": "proved",
   "theorems": [
    "C103_solutions",
    "C103_unique",
    "C103_cost",
    "C103_optimal"
   ],
   "note": ""
  },
  {
   "property": "C104",
   "status": "proved",
   "theorems": [
    "C104_value",
    "C104_optimal"
   ],
   "note": ""
  },
  {
   "property": "C105",
   "status": "proved",
   "theorems": [
    "C105_optimal",
    "C105_agreement"
   ],
   "note": ""
  },
  {
   "property": "C11",
   "status": "partial",
   "theorems": [
    "C11_always_a_trajectory_refuted"
   ],
   "note": "False of the code. Refuted by a witness with two optimal trajectories. C10 is the part that holds."
  },
  {
   "property": "C12",
   "status": "proved",
   "theorems": [
    "C12_batch_is_optimal",
    "C12_batch_enumerates_all_once"
   ],
   "note": "Hypothesis: some control list costs less than the start value 1e10."
  },
  {
   "property": "C13",
   "status": "partial",
   "theorems": [
    "C13_batch_all_costs_refuted",
    "C13_batch_all_costs_large"
   ],
   "note": "False of the code. Refuted by a witness; the second theorem says exactly what is returned for every problem whose costs are all at least 1e10."
  },
  {
   "property": "C14",
   "status": "proved",
   "theorems": [
    "C14_constructor_accepts_exactly",
    "C14_accepted_is_valid"
   ],
   "note": ""
  },
  {
   "property": "C15",
   "status": "proved",
   "theorems": [
    "C15_ref_viterbi_MAP"
   ],
   "note": "Any table sizes, any measurement list (also empty), entries may be zero. Numbers are non-negative reals."
  },
  {
   "property": "C16",
   "status": "proved",
   "theorems": [
    "C16_log_viterbi_MAP",
    "C16_values_are_logs"
   ],
   "note": "Positive entries."
  },
  {
   "property": "C17",
   "status": "proved",
   "theorems": [
    "C17_control_cost_is_log_probability",
    "C17_seqViterbi_MAP",
    "C17_parBwdFwdViterbi_MAP"
   ],
   "note": "At least one measurement. The parallel version needs the logarithms to be small against the sentinel 1e20 (explicit bound)."
  },
  {
   "property": "C18",
   "status": "proved",
   "theorems": [
    "C18_parBwdFwdBwdViterbi_unique_MAP"
   ],
   "note": "Same bound against the sentinel 1e20."
  },
  {
   "property": "C19",
   "status": "proved",
   "theorems": [
    "C19_tensor_viterbi_MAP"
   ],
   "note": "Sequential version for every list; parallel versions for at least two measurements (with one the level count passed to the library scan is zero)."
  },
  {
   "property": "C20",
   "status": "proved",
   "theorems": [
    "C20_seq_passes_optimal",
    "C20_value_functions",
    "C20_simulation_and_cost",
    "C20_admissible_without_cross_terms",
    "C20_admissible_with_cross_terms"
   ],
   "note": "Every real field, all dimensions, output dimension may vary from step to step. The value functions are stated up to the constant the code does not compute."
  },
  {
   "property": "C21",
   "status": "proved",
   "theorems": [
    "C21_combine_defined_and_closed",
    "C21_combine_associative"
   ],
   "note": ""
  },
  {
   "property": "C22",
   "status": "proved",
   "theorems": [
    "C22_par_backward_eq_seq"
   ],
   "note": "At least one step; without steps the code raises."
  },
  {
   "property": "C23",
   "status": "proved",
   "theorems": [
    "C23_par_forward_eq_seq"
   ],
   "note": "No hypothesis on the problem: also equal when either pass raises."
  },
  {
   "property": "C24",
   "status": "partial",
   "theorems": [
    "C24_zero_steps_refuted"
   ],
   "note": "False of the code. Refuted for every problem: with an empty gain list the parallel pass raises and the sequential one returns the initial state. C23 is the part that holds."
  },
  {
   "property": "C25",
   "status": "proved",
   "theorems": [
    "C25_fwdbwd_eq_seq"
   ],
   "note": ""
  },
  {
   "property": "C26",
   "status": "proved",
   "theorems": [
    "C26_batch_eq_seq"
   ],
   "note": ""
  },
  {
   "property": "C27",
   "status": "proved",
   "theorems": [
    "C27_transformed_eq_seq"
   ],
   "note": ""
  },
  {
   "property": "C28",
   "status": "partial",
   "theorems": [
    "C28_any_weights_refuted"
   ],
   "note": "False of the code. Refuted over every real field by an asymmetric final weight with positive definite symmetric part. C20 (symmetric weights) is the part that holds."
  },
  {
   "property": "C29",
   "status": "proved",
   "theorems": [
    "C29_constructor_accepts_exactly",
    "C29_wrong_length_raises"
   ],
   "note": "Arrays are shapes with their origin; the constructor does not look at entries."
  },
  {
   "property": "C30",
   "status": "proved",
   "theorems": [
    "C30_lqr_optimal",
    "C30_lqr_is_lqt",
    "C30_lqr_par_backward_eq_seq",
    "C30_lqr_par_forward_eq_seq"
   ],
   "note": ""
  },
  {
   "property": "C31",
   "status": "proved",
   "theorems": [
    "C31_doubling_eq_iteration"
   ],
   "note": ""
  },
  {
   "property": "C32",
   "status": "proved",
   "theorems": [
    "C32_gen_canon_gen"
   ],
   "note": "The gains and value functions are those of the general problem, optimal by C20."
  },
  {
   "property": "C33",
   "status": "proved",
   "theorems": [
    "C33_seq_backward_eq",
    "C33_seq_forward_eq",
    "C33_par_backward_eq",
    "C33_par_forward_eq",
    "C33_par_fwdbwd_eq",
    "C33_cost_eq"
   ],
   "note": "Horizons below 2*max_parallel - 1; C62 says what happens beyond. The external scan of TensorFlow Probability is modelled after its published algorithm."
  },
  {
   "property": "C34",
   "status": "proved",
   "theorems": [
    "C34_condensing_exact",
    "C34_tensor_condensing_exact",
    "C34_tensor_version_agrees",
    "C34_solve_through_condensing",
    "C34_tensor_solve_through_condensing"
   ],
   "note": "Whenever condense returns. Also: solving the condensed problem and converting gives the unique optimum of the original."
  },
  {
   "property": "C35",
   "status": "proved",
   "theorems": [
    "C35_affine_one_step",
    "C35_methods_agree",
    "C35_tensor_iterations_agree",
    "C35_tensor_cost_agrees"
   ],
   "note": "At least one step. Tensor versions below the length limit of the library scan."
  },
  {
   "property": "C36",
   "status": "proved",
   "theorems": [
    "C36_fixed_points_are_stationary"
   ],
   "note": "Exact characterisation (both directions): fixed point iff trajectory of the nonlinear model with zero derivative of the cost, provided Fx, Fu are the true derivatives of f."
  },
  {
   "property": "C37",
   "status": "proved",
   "theorems": [
    "C37_kkt_system",
    "C37_minimiser"
   ],
   "note": "Any ordered field. None (singular matrix) stands for inf/nan."
  },
  {
   "property": "C38",
   "status": "proved",
   "theorems": [
    "C38_iteration_limit",
    "C38_quadratic_local_eq",
    "C38_quadratic_local_eq_fast",
    "C38_zero_step_is_kkt",
    "C38_kkt_is_fixed",
    "C38_tensor_agrees"
   ],
   "note": "Derivatives are assumed to be the true ones (Frechet) of fun, con and the Lagrangian; everything else is derived. One unbatched problem for the tensor version."
  },
  {
   "property": "C39",
   "status": "proved",
   "theorems": [
    "C39_basic_update",
    "C39_basic_symmetry_and_secant",
    "C39_damped_update",
    "C39_damped_zero_undefined"
   ],
   "note": "Also quantifies the curvature kept by damping, and shows that s = 0 gives an undefined damped update."
  },
  {
   "property": "C40",
   "status": "proved",
   "theorems": [
    "C40_hessian_stays_definite",
    "C40_steps_decrease_merit",
    "C40_step_equations",
    "C40_returns"
   ],
   "note": "tol >= 0 and constraint Jacobians of full row rank. The undefined update for a zero step is shown to be unreachable by a further iteration."
  },
  {
   "property": "C41",
   "status": "proved",
   "theorems": [
    "C41_classical_step",
    "C41_exact_for_cubics",
    "C41_linear_systems",
    "C41_affine_covariance"
   ],
   "note": "States in an arbitrary vector space over an ordered field, exact arithmetic; right-hand sides that raise are covered."
  },
  {
   "property": "C42",
   "status": "proved",
   "theorems": [
    "C42_round_trips_np",
    "C42_round_trips_tf",
    "C42_same_layout",
    "C42_linear"
   ],
   "note": "All dimensions, any ordered field."
  },
  {
   "property": "C43",
   "status": "proved",
   "theorems": [
    "C43_parallel_is_sequential",
    "C43_parallel_is_sequential_tf"
   ],
   "note": "Exact equality, exceptions included, both integration directions. TensorFlow within the length limit of the library's scan."
  },
  {
   "property": "C44",
   "status": "partial",
   "theorems": [
    "C44_zero_order_hold_refuted"
   ],
   "note": "False of the code. Refuted: the block elements integrate the feedback law, so with a zero-order hold block boundary states differ from the sequential pass. C43 is the part that holds."
  },
  {
   "property": "C45",
   "status": "proved",
   "theorems": [
    "C45_backward_equations",
    "C45_forward_equations",
    "C45_same_as_sequential",
    "C45_block_is_sequential_pass"
   ],
   "note": "First-order expansion with an explicit second-order bound, against the discrete element of an Euler step."
  },
  {
   "property": "C46",
   "status": "proved",
   "theorems": [
    "C46_sequential_backward",
    "C46_sequential_backward_returns",
    "C46_parallel_backward"
   ],
   "note": "Symmetric terminal weight. The last value is stated for steps > 0 (with steps = 0 there is a single grid point)."
  },
  {
   "property": "C47",
   "status": "proved",
   "theorems": [
    "C47_unique_minimiser",
    "C47_tf"
   ],
   "note": "The forward value function is 1/2 w'Cw at x = b + C w, which covers singular C."
  },
  {
   "property": "C48",
   "status": "proved",
   "theorems": [
    "C48_backward",
    "C48_forward",
    "C48_fwdbwd"
   ],
   "note": "Exact arithmetic; positive definite control weights for the two passes that solve with them. After k iterations the first k + 1 blocks from the starting end are exact."
  },
  {
   "property": "C49",
   "status": "partial",
   "theorems": [
    "C49_default_refuted",
    "C49_default_partial"
   ],
   "note": "False of the code. Refuted: four blocks of two steps. Holds when there are at most steps + 1 blocks."
  },
  {
   "property": "C50",
   "status": "proved",
   "theorems": [
    "C50_min_plus",
    "C50_assoc",
    "C50_combine2",
    "C50_scan"
   ],
   "note": "Square value arrays of any positive size over any ordered field."
  },
  {
   "property": "C51",
   "status": "proved",
   "theorems": [
    "C51_interp",
    "C51_exact",
    "C51_interp2"
   ],
   "note": "nan is an option value; entries with three equal values are nan."
  },
  {
   "property": "C52",
   "status": "partial",
   "theorems": [
    "C52_three_blocks_partial",
    "C52_refuted",
    "C52_tf_refuted"
   ],
   "note": "False of the code. Refuted with four blocks (NumPy) and three blocks (TensorFlow): the interpolated combination is not associative. Proved for up to three blocks in NumPy."
  },
  {
   "property": "C53",
   "status": "partial",
   "theorems": [
    "C53_upwind",
    "C53_steps",
    "C53_monotone_partial",
    "C53_inner_partial",
    "C53_refuted"
   ],
   "note": "Direction of the differences proved for all inputs. Monotonicity is false of the code at the ends of the grid when a control moves the state out of it, as in upwind_model: refuted. Proved when no control moves out of the grid, and for one step away from the ends."
  },
  {
   "property": "C54",
   "status": "partial",
   "theorems": [
    "C54_numpy",
    "C54_agree_partial",
    "C54_refuted"
   ],
   "note": "False of the code. Refuted for every negative starting state and horizon: the TensorFlow version tests x0 >= 0 twice. Proved: NumPy is the reachability function, and both agree for starting states that are not negative."
  },
  {
   "property": "C55",
   "status": "proved",
   "theorems": [
    "C55_inside"
   ],
   "note": "Real numbers; the random draws are an arbitrary sequence of reals."
  },
  {
   "property": "C56",
   "status": "proved",
   "theorems": [
    "C56_scene",
    "C56_controller",
    "C56_empty_track_raises",
    "C56_game_solved"
   ],
   "note": "Random draws are arguments; real numbers; horizons up to 10^19 for the parallel pass (its sentinel cost is 10^20)."
  },
  {
   "property": "C57",
   "status": "proved",
   "theorems": [
    "C57_stochastic",
    "C57_structure",
    "C57_state_index",
    "C57_bits",
    "C57_choice",
    "C57_generated_data",
    "C57_decoding"
   ],
   "note": "Random draws are arguments; random choice is modelled as a search in the cumulative sums."
  },
  {
   "property": "C58",
   "status": "proved",
   "theorems": [
    "C58_contexts",
    "C58_output_tables",
    "C58_first_order_transitions",
    "C58_first_order_prior",
    "C58_transitions",
    "C58_prior",
    "C58_raises",
    "C58_conversion",
    "C58_noise",
    "C58_no_noise",
    "C58_decoding"
   ],
   "note": "Characters are code points; real numbers."
  },
  {
   "property": "C59",
   "status": "proved",
   "theorems": [
    "C59_jacobian_x",
    "C59_jacobian_u",
    "C59_tf_f",
    "C59_tf_Fx",
    "C59_tf_Fu"
   ],
   "note": "Real numbers; batches of states and controls of one length."
  },
  {
   "property": "C60",
   "status": "proved",
   "theorems": [
    "C60_linear",
    "C60_linear_raises",
    "C60_nonlinear",
    "C60_nonlinear_raises"
   ],
   "note": "scipy's expm is a parameter assumed to be the exponential series on nilpotent matrices."
  },
  {
   "property": "C61",
   "status": "proved",
   "theorems": [
    "C61_chain",
    "C61_raises",
    "C61_problem"
   ],
   "note": "expm is an arbitrary function."
  },
  {
   "property": "C62",
   "status": "partial",
   "theorems": [
    "C62_long_horizon_refuted"
   ],
   "note": "False of the code. Refuted for every problem: too long a horizon for max_parallel makes the scan raise. C33 gives the horizons that work."
  },
  {
   "property": "C63",
   "status": "partial",
   "theorems": [
    "C63_np_to_tf_refuted"
   ],
   "note": "False of the code. Refuted over every real field: the control reference is dropped. C33 is the part that holds."
  },
  {
   "property": "C64",
   "status": "partial",
   "theorems": [
    "C64_condense_returns_iff_visible",
    "C64_condense_accepts_admissible_refuted"
   ],
   "note": "False of the code. Refuted: condense raises when a state at the start of a condensed step is not penalised within the step; the first theorem characterises exactly when it returns."
  },
  {
   "property": "C65",
   "status": "partial",
   "theorems": [
    "C65_stopping_certifies_solution_refuted"
   ],
   "note": "False of the code. Refuted: stops after one iteration with criterion 0 at a point violating the constraint."
  },
  {
   "property": "C66",
   "status": "partial",
   "theorems": [
    "C66_last_resort_only_without_decrease_refuted"
   ],
   "note": "False of the code. Refuted: a decreasing step found after exactly max_backtrack halvings is discarded for the full step, which increases the merit function."
  },
  {
   "property": "C67",
   "status": "proved",
   "theorems": [
    "C67_scan_uses_each_element_once_in_order",
    "C67_library_scan_uses_each_element_once_in_order",
    "C67_library_reversed_scan"
   ],
   "note": "No hypothesis on the operator."
  },
  {
   "property": "C68",
   "status": "proved",
   "theorems": [
    "C68_sequential_passes",
    "C68_parallel_forward",
    "C68_parallel_backward",
    "C68_parallel_fwdbwd",
    "C47_tf"
   ],
   "note": "Positive definite control weights. The passes that combine value elements additionally assume the integrated block elements have positive semidefinite C and J, where the combination is associative."
  },
  {
   "property": "C69",
   "status": "partial",
   "theorems": [
    "C69_parallel_backward_is_sequential_refuted"
   ],
   "note": "False of the code. Refuted on a problem with positive weights: values at block boundaries differ by the integrator's error. C45 gives the relation that holds."
  },
  {
   "property": "C70",
   "status": "proved",
   "theorems": [
    "C70_hamilton_jacobi_bellman",
    "C70_backward_steps",
    "C70_forward_steps"
   ],
   "note": "Exact arithmetic, any ordered field."
  },
  {
   "property": "C71",
   "status": "proved",
   "theorems": [
    "C71_backward",
    "C71_forward",
    "C71_fwdbwd",
    "C71_solver",
    "C71_solver2"
   ],
   "note": "At least one iteration; TensorFlow with zero iterations has no last element to return."
  },
  {
   "property": "C72",
   "status": "proved",
   "theorems": [
    "C72_symfd",
    "C72_upwind",
    "C72_assoc"
   ],
   "note": ""
  },
  {
   "property": "C73",
   "status": "proved",
   "theorems": [
    "C73_symfd",
    "C73_steps"
   ],
   "note": ""
  },
  {
   "property": "C74",
   "status": "proved",
   "theorems": [
    "C74_discretisation"
   ],
   "note": "expm is assumed to be the exponential series on nilpotent matrices; exact means the closed form of the integrals for F F = 0."
  },
  {
   "property": "C75",
   "status": "proved",
   "theorems": [
    "C75_agree",
    "C75_periodic",
    "C75_end"
   ],
   "note": "Real numbers."
  },
  {
   "property": "C76",
   "status": "proved",
   "theorems": [
    "C76_zero",
    "C76_references"
   ],
   "note": "Real numbers."
  },
  {
   "property": "C77",
   "status": "proved",
   "theorems": [
    "C77_seq_backward_agrees",
    "C77_seq_forward_agrees",
    "C77_par_backward_agrees",
    "C77_par_forward_agrees",
    "C77_fwdbwd_agrees",
    "C77_too_long_raises",
    "C77_parallel_optimal",
    "C77_costs_above_the_constant_differ"
   ],
   "note": "The last theorem shows that the bound on the stage costs is needed."
  },
  {
   "property": "C78",
   "status": "proved",
   "theorems": [
    "C78_sequential_MAP",
    "C78_parallel_MAP",
    "C78_forward_backward_unique_MAP"
   ],
   "note": "Real arithmetic; parallel versions with log-probabilities bounded so that the constant 1e20 dominates, as in C17 and C18."
  },
  {
   "property": "C79",
   "status": "proved",
   "theorems": [
    "C79_sequential_backward",
    "C79_sequential_forward",
    "C79_sequential_forward_backward",
    "C79_combine",
    "C79_parallel_backward",
    "C79_parallel_forward",
    "C79_parallel_forward_backward",
    "C79_elements",
    "C79_unknown_methods"
   ],
   "note": "Sequential backward pass with at least one step. Exceptions included."
  },
  {
   "property": "C80",
   "status": "proved",
   "theorems": [
    "C80_parallel_forward_is_sequential",
    "C80_backward_steps",
    "C80_backward_returns",
    "C80_parallel_backward",
    "C80_forward_steps"
   ],
   "note": "Method 'rk4', exact arithmetic."
  },
  {
   "property": "C81",
   "status": "proved",
   "theorems": [
    "C81_exact_riccati"
   ],
   "note": "scipy's expm is a parameter. It is assumed to be the one-parameter group generated by the Hamiltonian matrix, and to commute with transposition and with intertwining matrices, as every power series does."
  },
  {
   "property": "C82",
   "status": "proved",
   "theorems": [
    "C82_exact_forward"
   ],
   "note": "Same assumptions on expm as in C81, for the closed-loop matrix or the block matrix of the held input."
  },
  {
   "property": "C83",
   "status": "partial",
   "theorems": [
    "C83_parallel_is_sequential_refuted"
   ],
   "note": "False of the code. Refuted: the Runge-Kutta steps of the block elements and of the Riccati equation differ. What holds is C79 with C45-C47."
  },
  {
   "property": "C84",
   "status": "partial",
   "theorems": [
    "C84_hold_parallel_is_sequential_refuted"
   ],
   "note": "False of the code. Refuted: the block elements always use the continuous feedback, as in C44."
  },
  {
   "property": "C85",
   "status": "proved",
   "theorems": [
    "C85_method1",
    "C85_method2",
    "C85_step",
    "C85_continuous",
    "C85_raises",
    "C85_tensorflow"
   ],
   "note": "Over any real field; one member of the batch."
  },
  {
   "property": "C86",
   "status": "proved",
   "theorems": [
    "C86_table",
    "C86_table_method2",
    "C86_raises",
    "C86_tensorflow"
   ],
   "note": "The SQP solver is that of C37-C40; automatic differentiation is a parameter. The last theorem needs that its result does not depend on how a function is written."
  },
  {
   "property": "C87",
   "status": "proved",
   "theorems": [
    "C87_exact",
    "C87_exact_method2",
    "C87_compare"
   ],
   "note": "Automatic differentiation is assumed to return the derivatives of the problems that are solved. The example gives an instance for the shipped linear model."
  },
  {
   "property": "C88",
   "status": "partial",
   "theorems": [
    "C88_reachable_refuted"
   ],
   "note": "False of the code. Refuted: for dx/dt = (u+1)^2 the entry for an end point that no control reaches is a number, for every number of iterations. C87 states when it holds."
  },
  {
   "property": "C89",
   "status": "partial",
   "theorems": [
    "C89_upwind_nan_refuted"
   ],
   "note": "False of the code. Refuted: for the shipped upwind model every entry is nan, because without running cost the linear system of the first iteration is singular. For the linear model it holds, by C87."
  },
  {
   "property": "C90",
   "status": "proved",
   "theorems": [
    "C90_upwind_optimal"
   ],
   "note": ""
  },
  {
   "property": "C91",
   "status": "proved",
   "theorems": [
    "C91_grids",
    "C91_linear",
    "C91_upwind",
    "C91_velocity"
   ],
   "note": ""
  },
  {
   "property": "C92",
   "status": "proved",
   "theorems": [
    "C92_exact_optimal"
   ],
   "note": ""
  },
  {
   "property": "C93",
   "status": "proved",
   "theorems": [
    "C93_exponential",
    "C93_input",
    "C93_input_exists",
    "C93_noise",
    "C93_noise_exists",
    "C93_mass"
   ],
   "note": ""
  },
  {
   "property": "C94",
   "status": "proved",
   "theorems": [
    "C94_step_order",
    "C94_regulator"
   ],
   "note": ""
  },
  {
   "property": "C95",
   "status": "proved",
   "theorems": [
    "C95_trajectory"
   ],
   "note": ""
  },
  {
   "property": "C96",
   "status": "proved",
   "theorems": [
    "C96_segments"
   ],
   "note": ""
  },
  {
   "property": "C97",
   "status": "proved",
   "theorems": [
    "C97_parallel_backward",
    "C97_trajectory"
   ],
   "note": ""
  },
  {
   "property": "C98",
   "status": "proved",
   "theorems": [
    "C98_sequential",
    "C98_parallel"
   ],
   "note": ""
  },
  {
   "property": "C99",
   "status": "proved",
   "theorems": [
    "C99_backward",
    "C99_forward",
    "C99_forward_backward"
   ],
   "note": ""
  }
 ]
}