{
 "claims": [
  {
   "property": "C01",
   "status": "proved",
   "theorems": [
    "c01_adjoint_of_product",
    "c01_mismatch_raises",
    "c01_dag_entries",
    "c01_conj_entries",
    "c01_transpose_entries",
    "c01_involution"
   ],
   "note": ""
  },
  {
   "property": "C02",
   "status": "proved",
   "theorems": [
    "c02_entries",
    "c02_mixed_product",
    "c02_adjoint",
    "c02_identity"
   ],
   "note": ""
  },
  {
   "property": "C03",
   "status": "proved",
   "theorems": [
    "c03_trace_is_diagonal_sum",
    "c03_cyclic",
    "c03_linear",
    "c03_kron",
    "c03_adjoint"
   ],
   "note": ""
  },
  {
   "property": "C04",
   "status": "partial",
   "theorems": [
    "c04_product_operator",
    "c04_preserves_trace",
    "c04_linear",
    "c04_mismatch_raises",
    "c04_ket",
    "c04_kron_is_product_operator",
    "c04_single_is_product_operator",
    "c04_all_or_none_refuted",
    "c04_set_order_refuted"
   ],
   "note": "Proved for set iteration orders that keep the remaining subsystems ascending (CPython, fewer than nine subsystems), at least one subsystem removed and one kept, and total dimension different from 1. Refuted otherwise: c04_all_or_none_refuted (TypeError), c04_set_order_refuted."
  },
  {
   "property": "C05",
   "status": "proved",
   "theorems": [
    "c05_round_trip",
    "c05_column_major",
    "c05_not_square_raises",
    "c05_not_vectorised_raises",
    "c05_super_operator_action",
    "c05_super_operators_compose"
   ],
   "note": ""
  },
  {
   "property": "C06",
   "status": "partial",
   "theorems": [
    "c06_out_of_place_leaves_values",
    "c06_in_place_agrees",
    "c06_in_place_defined",
    "c06_in_place_touches_only_target",
    "c06_values",
    "c06_wrapping_refuted"
   ],
   "note": "Proved for every program of out-of-place and in-place statements: nothing but the operands written to changes, and every statement has the effect it names (c06_values). c06_wrapping_refuted: DenseOperator(op) shares the buffer, so in-place statements on the wrapper change the original."
  },
  {
   "property": "C07",
   "status": "proved",
   "theorems": [
    "c07_unitary",
    "c07_zero",
    "c07_group",
    "c07_independent_of_decomposition",
    "c07_is_the_exponential",
    "c07_solves_the_ode",
    "c07_non_normal_refuted"
   ],
   "note": "eig_ok (the library's eigen-decomposition is correct) is a hypothesis; c07_is_the_exponential identifies the result with the solution of Y' = tau A Y over the reals; c07_non_normal_refuted shows the non-normal failure the property mentions."
  },
  {
   "property": "C08",
   "status": "proved",
   "theorems": [
    "c08_series_value",
    "c08_series_derivative"
   ],
   "note": ""
  },
  {
   "property": "C09",
   "status": "partial",
   "theorems": [
    "c09_spectral",
    "c09_frechet",
    "c09_series_refuted"
   ],
   "note": "Holds for the methods spectral and Frechet; refuted for the series methods (c09_series_refuted), which return the spectral exponential."
  },
  {
   "property": "C10",
   "status": "partial",
   "theorems": [
    "c10_hermitian_eigenvectors",
    "c10_degenerate_is_nan",
    "c10_spectral_refuted"
   ],
   "note": "Refuted as stated (c10_spectral_refuted: V and its adjoint are interchanged). Proved when the eigenvector matrix is Hermitian and the eigenvalues are distinct; equal eigenvalues give nan (c10_degenerate_is_nan)."
  },
  {
   "property": "C11",
   "status": "partial",
   "theorems": [
    "c11_square_block",
    "c11_out_of_range_raises",
    "c11_all_indices",
    "c11_composes",
    "c11_adjoint",
    "c11_ket_rows",
    "c11_none",
    "c11_map_to_closest_unitary",
    "c11_bra_rescale_refuted",
    "c11_ket_rescale_refuted"
   ],
   "note": "All clauses proved except rescaling: c11_bra_rescale_refuted (always raises) and c11_ket_rescale_refuted (not rescaled)."
  },
  {
   "property": "C12",
   "status": "proved",
   "theorems": [
    "c12_unitary",
    "c12_fixes_unitaries",
    "c12_minimises_distance"
   ],
   "note": "The library's SVD being correct (is_svd) is a hypothesis; additionally the result is a closest unitary in the Frobenius norm."
  },
  {
   "property": "C13",
   "status": "partial",
   "theorems": [
    "c13_grid",
    "c13_defined",
    "c13_composed",
    "c13_custom",
    "c13_custom_recount",
    "c13_custom_refuted",
    "c13_custom_twice_refuted",
    "c13_custom_rows_refuted",
    "c13_custom_length_refuted"
   ],
   "note": "Proved for every class except CustomMTF, for a CustomMTF whose number of rows fits its boundary type when its times are set once (c13_custom), and for compositions (c13_composed: number of entries; the duration without padding). Refuted for CustomMTF otherwise: with x_times it never stores y_times; a second set_times copies the pulse times to x_times (c13_custom_twice_refuted); rows that do not fit the padding are rounded (c13_custom_rows_refuted); a grid of another length is accepted (c13_custom_length_refuted). Another number of times in a second set_times is refused (c13_custom_recount)."
  },
  {
   "property": "C14",
   "status": "proved",
   "theorems": [
    "c14_call",
    "c14_wrong_shape",
    "c14_no_times",
    "c14_gradient"
   ],
   "note": "The gradient rule is given in closed form as well."
  },
  {
   "property": "C15",
   "status": "proved",
   "theorems": [
    "c15_call",
    "c15_gradient"
   ],
   "note": "OversamplingTF has no offset; with an offset the matrix version is the direct one plus the offset."
  },
  {
   "property": "C16",
   "status": "partial",
   "theorems": [
    "c16_transpose",
    "c16_defined",
    "c16_defined_everywhere",
    "c16_asymmetric_kernel_refuted",
    "c16_mode_refuted",
    "c16_custom",
    "c16_parts",
    "c16_concatenated",
    "c16_parallel"
   ],
   "note": "Proved for all compositions whose convolutions have a symmetric kernel of odd length and a symmetric boundary mode, for CustomMTF (c16_custom), and for ConcatenateTF and ParallelTF of any parts that have the property (c16_concatenated, c16_parallel). Refuted for asymmetric kernels and for ConvolutionTF with other modes, since its gradient always uses 'reflect'."
  },
  {
   "property": "C17",
   "status": "partial",
   "theorems": [
    "c17_without_matrix",
    "c17_before_evaluation",
    "c17_same_results",
    "c17_cached_matrix_raises_refuted",
    "c17_cached_matrix_wrong_refuted"
   ],
   "note": "Proved for objects without a matrix transfer function, and for all but CustomMTF if no evaluation precedes. Refuted otherwise: the cached matrix survives set_times (an exception, or silently wrong values)."
  },
  {
   "property": "C18",
   "status": "partial",
   "theorems": [
    "c18_call",
    "c18_gradient",
    "c18_times",
    "c18_defined",
    "c18_any",
    "c18_matrix_refuted"
   ],
   "note": "Proved for ConcatenateTF, with c18_any for arbitrary parts in any state (including CustomMTF). Refuted for ConcatenateMTF, which cannot be called."
  },
  {
   "property": "C19",
   "status": "partial",
   "theorems": [
    "c19_call",
    "c19_gradient",
    "c19_matrix",
    "c19_matrix_call",
    "c19_matrix_gradient",
    "c19_offset_refuted"
   ],
   "note": "Proved for ParallelTF, and for ParallelMTF (call, gradient, matrix) if the parts have no offset; c19_offset_refuted: ParallelMTF ignores the offsets of its parts. Parts containing CustomMTF are covered for ParallelTF by c16_parallel only."
  },
  {
   "property": "C20",
   "status": "partial",
   "theorems": [
    "c20_response",
    "c20_defined",
    "c20_bounded",
    "c20_one_step_refuted"
   ],
   "note": "Closed form and bounds proved; the step length is always the first entry of y_times, so on a non-uniform grid this is not the physical response. c20_one_step_refuted: one step with short padding raises. The bound assumes the decay factors lie in [0, 1]."
  },
  {
   "property": "C21",
   "status": "proved",
   "theorems": [
    "c21_absolute",
    "c21_unsorted",
    "c21_duration"
   ],
   "note": "Holds for every sorted list."
  },
  {
   "property": "C22",
   "status": "partial",
   "theorems": [
    "c22_chain_rule",
    "c22_partials",
    "c22_mixed_times_refuted"
   ],
   "note": "Proved over the reals for every identity, unary and custom amplitude function whose value at a time step depends only on that time step and whose derivative function is correct. Refuted for custom functions mixing time steps (c22_mixed_times_refuted): the derivative array has no second time index."
  },
  {
   "property": "C23",
   "status": "partial",
   "theorems": [
    "c23_forward",
    "c23_noise_forward",
    "c23_default",
    "c23_series_refuted"
   ],
   "note": "c23_forward and c23_noise_forward: for all histories of successful calls, for solvers whose exponential method gives the same exponential in exp and dexp (spectral, Frechet). c23_default: without an initial state the products start with the identity, of the squared dimension for the LindbladSolver. c23_series_refuted: with the series methods the derivatives replace the propagators by other ones and cached forward propagators no longer belong to them."
  },
  {
   "property": "C24",
   "status": "proved",
   "theorems": [
    "c24_telescoping",
    "c24_noise_telescoping"
   ],
   "note": "For every history of successful calls; with and without noise."
  },
  {
   "property": "C25",
   "status": "partial",
   "theorems": [
    "c25_coherent",
    "c25_spectral_agrees",
    "c25_frechet_agrees",
    "c25_failed_read_refuted",
    "c25_grape_refuted",
    "c25_in_place_refuted"
   ],
   "note": "c25_coherent: histories of successful set_optimization_parameters and reads. Refuted after a read that raised (the cache keeps None), for gradient method 'grape' with calculate_propagator_derivatives, for arrays changed in place, and for the series methods (c23_series_refuted)."
  },
  {
   "property": "C26",
   "status": "partial",
   "theorems": [
    "c26_new_parameters",
    "c26_times_then_parameters",
    "c26_times_same_amplitudes",
    "c26_retry_refuted",
    "c26_set_times_refuted",
    "c26_drift_refuted",
    "c26_dissipation_refuted"
   ],
   "note": "Refuted: a retry of rejected parameters succeeds silently, set_times does not make the same parameters take effect, and the drift is not adapted to new times, and constant dissipation super operators keep the old number of time steps, so that a read before set_times decides whether a later read succeeds or raises AssertionError (c26_dissipation_refuted). Proved: parameters different from the stored ones that are accepted take effect and empty the caches (c26_new_parameters). After set_times, new parameters give what a fresh solver with these times gives (c26_times_then_parameters), and without new parameters the solver gives this too if the amplitudes do not depend on the times (c26_times_same_amplitudes)."
  },
  {
   "property": "C27",
   "status": "proved",
   "theorems": [
    "c27_propagators",
    "c27_generators",
    "c27_unitary",
    "c27_spectral"
   ],
   "note": "The exponential of a skew Hermitian matrix being unitary is a hypothesis about the exponential method; it is proved from the contract of eig / eigh for the spectral method (c27_spectral)."
  },
  {
   "property": "C28",
   "status": "partial",
   "theorems": [
    "c28_derivatives",
    "c28_direction",
    "c28_lindblad_operators",
    "c28_lindblad_super_operators",
    "c28_lindblad_function",
    "c28_lindblad_direction",
    "c28_total_propagator",
    "c28_grape",
    "c28_grape_commuting",
    "c28_noise_derivatives",
    "c28_noise_grape",
    "c28_grape_refuted"
   ],
   "note": "c28_derivatives, c28_direction and c28_total_propagator; that dexp returns the derivative of the exponential is C07-C10. c28_grape_refuted: 'grape' returns the layout [time][control]. c28_grape: 'grape' returns tau D P for every step and control, which is the derivative if the control commutes with the generator (c28_grape_commuting). c28_noise_derivatives and c28_noise_grape: the same for the noise traces, layout [trace][control][time]. c28_lindblad_operators, c28_lindblad_super_operators and c28_lindblad_function: the same for the LindbladSolver, whose directions act as -i[H_c, .] plus the derivative of the dissipation; c28_lindblad_direction: these are the derivatives of the generators by the amplitudes if the functions given for the rates are."
  },
  {
   "property": "C29",
   "status": "partial",
   "theorems": [
    "c29_samples",
    "c29_zero_noise",
    "c29_short_samples_refuted"
   ],
   "note": "c29_samples and c29_zero_noise for samples with the solver's number of time steps; c29_short_samples_refuted: with fewer steps the remaining steps are propagated without noise."
  },
  {
   "property": "C30",
   "status": "proved",
   "theorems": [
    "c30_processes",
    "c30_pool",
    "c30_pool_error"
   ],
   "note": "Any pool size, chunk size and order of completion."
  },
  {
   "property": "C31",
   "status": "proved",
   "theorems": [
    "c31_control_noise"
   ],
   "note": "For amplitude functions accepting the perturbed parameters."
  },
  {
   "property": "C32",
   "status": "proved",
   "theorems": [
    "c32_operators",
    "c32_super_operators",
    "c32_function"
   ],
   "note": "Lindblad operators or initial super operators, with or without prefactor function; c32_function for a super operator function given by the user."
  },
  {
   "property": "C33",
   "status": "proved",
   "theorems": [
    "c33_generators",
    "c33_trace",
    "c33_hermitian"
   ],
   "note": "c33_generators for the generators of every time step a used solver propagates with."
  },
  {
   "property": "C34",
   "status": "partial",
   "theorems": [
    "c34_kept",
    "c34_sum_refuted",
    "c34_second_solver_refuted"
   ],
   "note": "c34_kept for every evaluation except the sum of initial super operators, which is refuted by c34_sum_refuted. c34_second_solver_refuted: a second solver built from the same list then propagates differently."
  },
  {
   "property": "C35",
   "status": "proved",
   "theorems": [
    "c35_range",
    "c35_symmetric",
    "c35_phase",
    "c35_unitary",
    "c35_one",
    "c35_overlap",
    "c35_not_scalar",
    "c35_subspace",
    "c35_subspace_range"
   ],
   "note": "All dimensions and states. Symmetry, phase and unitary invariance are stated without computational states; with them the value and the range are proved (c35_subspace, c35_subspace_range)."
  },
  {
   "property": "C36",
   "status": "proved",
   "theorems": [
    "c36_range",
    "c36_symmetric",
    "c36_phase",
    "c36_left_unitary",
    "c36_right_unitary",
    "c36_one",
    "c36_subspace",
    "c36_subspace_range"
   ],
   "note": "All dimensions. Invariances and the equality case are stated without computational states; with them the value and the range are proved (c36_subspace, c36_subspace_range, without map_to_closest_unitary)."
  },
  {
   "property": "C37",
   "status": "proved",
   "theorems": [
    "c37_agrees",
    "c37_agrees_subspace",
    "c37_super_operator"
   ],
   "note": "Without computational states for all square matrices; with computational states for the fidelity without map_to_closest_unitary."
  },
  {
   "property": "C38",
   "status": "partial",
   "theorems": [
    "c38_entanglement_fidelity",
    "c38_entanglement_fidelity_subspace",
    "c38_super_fidelity",
    "c38_super_fidelity_subspace",
    "c38_state_fidelity",
    "c38_state_fidelity_subspace",
    "c38_operation",
    "c38_operation_subspace",
    "c38_super",
    "c38_super_subspace",
    "c38_state",
    "c38_state_subspace",
    "c38_leakage",
    "c38_solver",
    "c38_closest_unitary_refuted"
   ],
   "note": "Proved for the three derivative functions, the infidelity costs and the leakage, as total derivatives along curves of amplitudes, also for the propagators of a solver (c38_solver). With map_to_closest_unitary the gradient of OperationInfidelity is not the derivative (c38_closest_unitary_refuted)."
  },
  {
   "property": "C39",
   "status": "proved",
   "theorems": [
    "c39_range",
    "c39_zero",
    "c39_clipped"
   ],
   "note": "In exact arithmetic. c39_clipped gives the value for every square matrix, c39_range shows that the clipping at zero has no effect for unitaries."
  },
  {
   "property": "C40",
   "status": "proved",
   "theorems": [
    "c40_agrees",
    "c40_agrees_super"
   ],
   "note": "For input_unitary=True on U and input_unitary=False on the super operator of U; the Monte-Carlo branch is modelled but not part of the theorems."
  },
  {
   "property": "C41",
   "status": "partial",
   "theorems": [
    "c41_mean",
    "c41_mean_neglect",
    "c41_no_noise",
    "c41_no_noise_mapped",
    "c41_gradient",
    "c41_gradient_neglect",
    "c41_no_noise_subspace_refuted",
    "c41_no_noise_subspace"
   ],
   "note": "Mean of the costs proved for all propagators. The gradient is the mean of the trace gradients as the code computes them; these never use map_to_closest_unitary. Zero cost for identical traces holds without computational states and with map_to_closest_unitary; with computational states and leakage it is refuted (c41_no_noise_subspace_refuted, value in c41_no_noise_subspace)."
  },
  {
   "property": "C42",
   "status": "proved",
   "theorems": [
    "c42_formula",
    "c42_other_dimensions"
   ],
   "note": "For all 2x2 matrices."
  },
  {
   "property": "C43",
   "status": "partial",
   "theorems": [
    "c43_value_error",
    "c43_unitary_accepted",
    "c43_second_row_refuted"
   ],
   "note": "Refuted: the norm of the second row is never tested (c43_second_row_refuted). c43_value_error says exactly which matrices are rejected; unitaries are accepted."
  },
  {
   "property": "C44",
   "status": "proved",
   "theorems": [
    "c44_costs",
    "c44_cost_indices",
    "c44_jacobian"
   ],
   "note": "For a simulator whose cost functions use solvers of its solver list, with any history of calls that did not raise: c44_costs (the pulse is set on every solver; the result is made of the costs of a new solver at that pulse, block by block), c44_cost_indices (one entry per index if every cost function has as many labels as costs), c44_jacobian (function axis in the same order). Cost functions are arbitrary programs that read solver properties."
  },
  {
   "property": "C45",
   "status": "proved",
   "theorems": [
    "c45_difference_quotients",
    "c45_numeric_jacobian",
    "c45_affine",
    "c45_quadratic"
   ],
   "note": "c45_affine (one-sided and symmetric), c45_quadratic (symmetric), for every step size other than 0, in exact arithmetic; c45_difference_quotients gives the entries for arbitrary costs. The costs may depend on the pulse only (hypothesis computes)."
  },
  {
   "property": "C46",
   "status": "proved",
   "theorems": [
    "c46_round_trip",
    "c46_costs",
    "c46_jacobian",
    "c46_derivative"
   ],
   "note": "All shapes: c46_round_trip; c46_costs and c46_jacobian give the entries a least-squares caller sees at a flat index in any state reached from prepare_optimization by calls of the wrappers; c46_derivative (over the reals): column c*num_t+t is the derivative of the returned residuals by flat parameter c*num_t+t, if the simulator's jacobian is the derivative of its costs. Hypothesis simulates: costs and jacobian depend on the pulse only."
  },
  {
   "property": "C47",
   "status": "proved",
   "theorems": [
    "c47_objective",
    "c47_gradient",
    "c47_derivative"
   ],
   "note": "c47_objective, c47_gradient for all ordered fields, c47_derivative over the reals, in any state reached from prepare_optimization. Same hypothesis on the simulator as C46."
  },
  {
   "property": "C48",
   "status": "partial",
   "theorems": [
    "c48_best_partial",
    "c48_aborted_partial",
    "c48_stored_evaluation_partial",
    "c48_weights_refuted",
    "c48_alias_refuted",
    "c48_early_abort_refuted"
   ],
   "note": "Proved without cost weights and if no caller writes to an array it passed (c48_best_partial, c48_aborted_partial). Refuted otherwise: weights are applied in place to the stored array and later costs are compared with weighted ones (c48_weights_refuted); stored parameters are views of the caller's array (c48_alias_refuted); an abort before the first evaluation raises AttributeError (c48_early_abort_refuted). With weights, what is stored belongs to one evaluation (c48_stored_evaluation_partial)."
  },
  {
   "property": "C49",
   "status": "proved",
   "theorems": [
    "c49_summary",
    "c49_counters"
   ],
   "note": "All histories without writes by the caller to arrays already passed; the summary holds the weighted cost vectors when weights are given. prepare_optimization starts from any state (s arbitrary)."
  },
  {
   "property": "C50",
   "status": "partial",
   "theorems": [
    "c50_thin_partial",
    "c50_refuted",
    "c50_no_jacobian_refuted"
   ],
   "note": "Proved with a jacobian and one time step or one control (c50_thin_partial). Refuted in general: the reported parameters are un-flattened once more before the jacobian is evaluated (c50_refuted); without jacobian 0 is reported (c50_no_jacobian_refuted). Norms are compared by their squares."
  },
  {
   "property": "C51",
   "status": "partial",
   "theorems": [
    "c51_refuted",
    "c51_all_arguments",
    "c51_alone_partial"
   ],
   "note": "Refuted: all optimisers share one module-level dictionary (c51_refuted). c51_all_arguments says what every optimiser reads: the defaults overridden by all arguments given so far, also later ones. The claim holds for a single construction (c51_alone_partial)."
  },
  {
   "property": "C52",
   "status": "proved",
   "theorems": [
    "c52_move",
    "c52_run",
    "c52_run_total",
    "c52_step_size",
    "c52_integer_refuted"
   ],
   "note": "For all draws, masks, bounds and numbers of moves, if the pulse's dtype holds the bounds exactly (bounds_ok; for integer pulses with other bounds it is refuted, c52_integer_refuted). c52_step_size: a step size that is not a positive integer is rejected."
  },
  {
   "property": "C53",
   "status": "proved",
   "theorems": [
    "c53_results",
    "c53_schedule",
    "c53_total",
    "c53_unchanged",
    "c53_optimizer"
   ],
   "note": "For every run function (which may depend on the state of the worker process), list of pulses, chunk size and schedule. c53_results: entry i is the result of optimising pulse i from the optimiser as passed, provided every run returns the same cost indices (has_indices; proved for the optimisers of M_Optimizer by opt_run_indices). c53_schedule: if the process state does not matter, the entries do not depend on the schedule. c53_optimizer: with the optimisers of M_Optimizer.v, entry i is the result of run_optimization on pulse i as passed. c53_total: it returns if every run returns."
  },
  {
   "property": "C54",
   "status": "proved",
   "theorems": [
    "c54_log",
    "c54_rejected",
    "c54_accepted",
    "c54_list_indices"
   ],
   "note": "All interleavings of creating containers and appending results. result_ok: indices given and a summary that is None or an OptimizationSummary. A container without entries accepts any indices and takes them over. c54_list_indices: indices that are list objects of strings are compared by their items, for any heap."
  },
  {
   "property": "C55",
   "status": "partial",
   "theorems": [
    "c55_dict",
    "c55_pickle",
    "c55_result_partial",
    "c55_container_names",
    "c55_result_names",
    "c55_file_name",
    "c55_file_errors",
    "c55_result_refuted",
    "c55_none_indices_refuted",
    "c55_shared_refuted"
   ],
   "note": "Proved for containers created by the constructor and filled by append_optim_result, through the dictionary (c55_dict) and through pickle (c55_pickle, into any later process state), in every attribute; hypotheses closed: the object graph has no dangling references. OptimizationResult: all attributes but status (c55_result_partial); status is lost (c55_result_refuted). A container whose indices are None reads back [] (c55_none_indices_refuted). The container read from the dictionary shares its lists with the original (c55_shared_refuted). c55_container_names, c55_result_names: dictionaries with other names raise TypeError, all others are read. c55_file_name: which file is written (posix paths); c55_file_errors: a file that cannot be opened is an exception and changes nothing."
  },
  {
   "property": "C56",
   "status": "proved",
   "theorems": [
    "c56_best",
    "c56_unique",
    "c56_value_error"
   ],
   "note": "All lists of final costs of one shape; c56_unique: the index is determined. Otherwise ValueError (c56_value_error). NaN costs are outside the model."
  },
  {
   "property": "C57",
   "status": "proved",
   "theorems": [
    "c57_deterministic",
    "c57_returns",
    "c57_monte_carlo"
   ],
   "note": "All lists of standard deviations and counts, every process state. c57_deterministic: shape, constancy in time, at most one operator per trace, each sample of an operator in exactly one trace (spec quasi_static), and n_traces. c57_returns: positive counts give an array. c57_monte_carlo: one number of the random stream per operator and trace, times the standard deviation."
  },
  {
   "property": "C58",
   "status": "partial",
   "theorems": [
    "c58_symmetric",
    "c58_std_partial",
    "c58_std_all_partial",
    "c58_returns",
    "c58_single_refuted",
    "c58_two_refuted"
   ],
   "note": "c58_symmetric: symmetry and mean, all std, mean, numbers of samples, any odd erfinv. c58_std_partial: with one noise operator the corrected standard deviation is the requested one. c58_std_all_partial: for any number of operators it is the requested one times u/u' (standard deviation of the n and of the n*operators quantiles). False for several operators: c58_two_refuted (two operators, two traces: both strictly too small), c58_single_refuted (two operators, one trace each: all noise is zero). c58_returns: when the construction succeeds. Contracts of erfinv: odd, positive, strictly midpoint convex."
  },
  {
   "property": "C59",
   "status": "partial",
   "theorems": [
    "c59_unchanged_partial",
    "c59_same_noise_partial",
    "c59_refuted",
    "c59_second_refuted"
   ],
   "note": "False as stated: the correction overwrites the list (c59_refuted) and a second generator built from it has a different standard deviation (c59_second_refuted), for erfinv odd and positive with sqrt(2)*erfinv(1/2) <> 1. Proved for all histories without a corrected deterministic construction: lists unchanged (c59_unchanged_partial), equal noise (c59_same_noise_partial)."
  },
  {
   "property": "C60",
   "status": "proved",
   "theorems": [
    "c60_cached",
    "c60_redrawn"
   ],
   "note": "All client histories of constructions, reads and flag changes, all random streams. c60_cached: same array object, same content. c60_redrawn: a new object with the array drawn for this read; the numbers drawn are those of c57_monte_carlo from the current position of the stream."
  },
  {
   "property": "C61",
   "status": "proved",
   "theorems": [
    "c61_shape",
    "c61_returns",
    "c61_ratios",
    "c61_rounded",
    "c61_rounded_returns"
   ],
   "note": "c61_shape, c61_returns: shape for every positive number of samples and every extension ratio of at least one; c61_ratios: every generator of a history has such a ratio. c61_rounded: with rounding the length is the smallest power of two not below the request (exact logarithm)."
  },
  {
   "property": "C62",
   "status": "proved",
   "theorems": [
    "c62_time_string",
    "c62_rounded_unique"
   ],
   "note": "All rational durations: hours, minutes below 60 and seconds below 60 add up to the duration rounded half to even; minutes and seconds are printed as two digits; the rounded value is unique. Floating point rounding before round() is not modelled."
  },
  {
   "property": "C63",
   "status": "proved",
   "theorems": [
    "c63_mean"
   ],
   "note": "Any square root and primitive roots of unity (contracts of np.sqrt and numpy.fft), every spectral density, every length, with and without rounding."
  },
  {
   "property": "C64",
   "status": "partial",
   "theorems": [
    "c64_power_partial",
    "c64_odd_partial",
    "c64_odd_refuted"
   ],
   "note": "Proved for an even number of samples (c64_power_partial). For an odd number the density is taken at j/((n-1) dt) (c64_odd_partial), so the claim fails (c64_odd_refuted). Exact arithmetic; contracts of np.sqrt and numpy.fft."
  },
  {
   "property": "C65",
   "status": "proved",
   "theorems": [
    "c65_white"
   ],
   "note": "Every length, with and without rounding; contracts of np.sqrt and numpy.fft."
  },
  {
   "property": "C66",
   "status": "proved",
   "theorems": [
    "c66_operation",
    "c66_operation_subspace",
    "c66_state",
    "c66_state_subspace",
    "c66_leakage",
    "c66_operation_if_returned",
    "c66_operation_subspace_if_returned",
    "c66_state_if_returned",
    "c66_state_subspace_if_returned",
    "c66_leakage_if_returned",
    "c66_frechet",
    "c66_simulator"
   ],
   "note": "c66_operation, _operation_subspace, _state, _state_subspace, _leakage: costs and gradient are returned and the gradient is the derivative, SchroedingerSolver. The _if_returned versions hold for the Monte Carlo classes too (their noiseless propagators) if the calls return. c66_frechet: method Frechet with the promises of scipy expm and expm_frechet. c66_simulator: several cost functions at once. Exact arithmetic."
  },
  {
   "property": "C67",
   "status": "proved",
   "theorems": [
    "c67_step",
    "c67_propagators",
    "c67_forward",
    "c67_states",
    "c67_density",
    "c67_super_operators",
    "c67_function",
    "c67_super_forward",
    "c67_super_states",
    "c67_computed"
   ],
   "note": "c67_step: the exponential of tau times a generator of the master equation with rates >= 0 is a channel (limit of products of maps in Kraus form, bound by the power series of the exponential). c67_propagators, c67_forward, c67_states for what a used LindbladSolver with lindblad_operators returns. Contract: the chosen method computes the exponential. c67_super_operators, c67_function, c67_super_forward, c67_super_states: the same for dissipation given as super operators (with or without prefactors) or by a function, each super operator being a sum of dissipations with rates >= 0; the ones that the code computes from operators are (c67_computed). Exact arithmetic."
  },
  {
   "property": "C68",
   "status": "proved",
   "theorems": [
    "c68_fidelity",
    "c68_fidelity_subspace",
    "c68_operation",
    "c68_operation_subspace",
    "c68_monte_carlo",
    "c68_monte_carlo_subspace",
    "c68_leakage",
    "c68_unitary",
    "c68_average",
    "c68_lindblad"
   ],
   "note": "c68_fidelity(_subspace): for a channel and a unitary target, through v^+ M v <= |v|^2 tr M for the Choi matrix. c68_operation(_subspace), c68_monte_carlo(_subspace), c68_leakage (all four flag combinations) for the cost functions, c68_lindblad with a used LindbladSolver, c68_unitary and c68_average for the evolutions of the Monte Carlo solver. Exact arithmetic."
  },
  {
   "property": "C69",
   "status": "proved",
   "theorems": [
    "c69_numeric",
    "c69_compare"
   ],
   "note": "c69_numeric: for every e there is a bound such that all smaller finite differences give a numeric gradient within e of the jacobian, forward and symmetric. c69_compare: the two returned numbers are the root of the sum of squared differences and its relation to the average norm, both below e. Cost functions differentiable as in C66; exact arithmetic, so nothing is said about round-off for tiny differences."
  },
  {
   "property": "C70",
   "status": "partial",
   "theorems": [
    "c70_accepted_fits_partial",
    "c70_constructed_partial",
    "c70_same_shape_partial",
    "c70_new_shape_refuted",
    "c70_set_twice_partial",
    "c70_first_pulse_refuted",
    "c70_list_refuted"
   ],
   "note": "c70_accepted_fits_partial: an accepted pulse fits. c70_constructed_partial, c70_same_shape_partial, c70_set_twice_partial: when check() accepts. Refuted by the code: c70_new_shape_refuted (the setter stores the shape of the pulse held before, so a fitting pulse of a new shape is refused), c70_first_pulse_refuted (without a pulse none can be set: AttributeError), c70_list_refuted (time steps as a list raise AttributeError)."
  },
  {
   "property": "C71",
   "status": "partial",
   "theorems": [
    "c71_same_costs",
    "c71_same_jacobian",
    "c71_same_run",
    "c71_costs",
    "c71_jacobian",
    "c71_numeric",
    "c71_values",
    "c71_shares_partial",
    "c71_defined_partial",
    "c71_aborted_refuted",
    "c71_earlier",
    "c71_later_refuted"
   ],
   "note": "c71_same_costs, c71_same_jacobian, c71_same_run: recording changes no value, exception, solver state or result. c71_costs, c71_jacobian: what one evaluation adds. c71_numeric: a numeric jacobian adds its evaluations to the times of the cost functions and none to those of the gradients. c71_values: the shares as quotients of sums. c71_shares_partial, c71_defined_partial: bounds and definedness for runs that finished, that minimise a scalar, or that use no jacobian. c71_earlier: other statistics objects are left alone. Refuted by the code: c71_aborted_refuted (a least squares run ended by the wall time evaluates the jacobian after the end time was written, the share exceeds 1) and c71_later_refuted (the statistics object in a result is the one the simulator goes on writing to)."
  },
  {
   "property": "C72",
   "status": "partial",
   "theorems": [
    "c72_values_partial",
    "c72_sum_refuted",
    "c72_broadcast_refuted",
    "c72_no_runs",
    "c72_first_empty",
    "c72_run_empty"
   ],
   "note": "c72_values_partial: the root of the sum of squares and nan behind the end, if all stored vectors have one length and every run has an evaluation. c72_no_runs, c72_first_empty, c72_run_empty: otherwise exceptions. Refuted by the code: c72_sum_refuted (not the sum of the docstring), c72_broadcast_refuted (a run with one cost function among runs with k of them counts its cost k times)."
  },
  {
   "property": "C73",
   "status": "proved",
   "theorems": [
    "c73_gradient",
    "c73_entanglement",
    "c73_grape",
    "c73_dimension"
   ],
   "note": "c73_gradient: along every curve of amplitudes the average gate fidelity changes by the sum of entry times velocity (as in C38); the entries are real. c73_entanglement: 2/3 of the entries of derivative_entanglement_fidelity_with_du. c73_grape: the grape version equals the version with du = -i dt H U. c73_dimension: NotImplementedError otherwise."
  },
  {
   "property": "C74",
   "status": "partial",
   "theorems": [
    "c74_one_step_partial",
    "c74_list_refuted",
    "c74_steps_refuted"
   ],
   "note": "c74_one_step_partial: one time step and an array with one duration. Refuted by the code: c74_list_refuted (every list of durations raises TypeError) and c74_steps_refuted (every array of two or more durations raises)."
  },
  {
   "property": "C75",
   "status": "partial",
   "theorems": [
    "c75_noise_partial",
    "c75_frechet",
    "c75_control_noise_refuted"
   ],
   "note": "c75_noise_partial: noise that does not depend on the pulse, added to noise operators or to parameters that are the control amplitudes themselves; costs and gradient are returned and the gradient is the derivative, all variants of the target and of the subspace without map_to_closest_unitary. c75_frechet: method Frechet with the promises of scipy. Refuted by the code for noise on the parameters of a nonlinear amplitude function (c75_control_noise_refuted): the derivatives of the noisy propagators leave out that the noise amplitudes depend on the pulse. c75_simulator_case feeds c66_simulator. Exact arithmetic."
  },
  {
   "property": "C76",
   "status": "partial",
   "theorems": [
    "c76_created",
    "c76_monte_carlo_noise",
    "c76_current",
    "c76_propagators",
    "c76_reordered_refuted"
   ],
   "note": "Proved for all pulses, noise Hamiltonians and client histories for up to ten controls (c76_current, c76_created without the bound, c76_monte_carlo_noise, c76_propagators). Refuted by the code for more controls (c76_reordered_refuted): when the pulse sequence is kept and only its coefficients are replaced, they are assigned in the order of the solver, while the package keeps its operators sorted by identifier and 'Control10' sorts before 'Control2'. The package is a parameter; that it sorts, keeps what it is given and diagonalises are visible hypotheses (sorts, lines_up, diagonalizes)."
  },
  {
   "property": "C77",
   "status": "partial",
   "theorems": [
    "c77_costs",
    "c77_grad",
    "c77_monte_carlo_refuted",
    "c77_callable_refuted"
   ],
   "note": "c77_costs, c77_grad for all solvers that are not Monte Carlo solvers, up to ten controls. Refuted by the code for Monte Carlo solvers: create_ff_h_n of SchroedingerSMonteCarlo does not store the identifiers, so the infidelity is asked for no noise operator at all (c77_monte_carlo_refuted, for every such solver), and a callable that takes the documented three arguments raises TypeError (c77_callable_refuted). What the package computes is a parameter."
  },
  {
   "property": "C78",
   "status": "partial",
   "theorems": [
    "c78_value",
    "c78_density",
    "c78_vectorised",
    "c78_places",
    "c78_range",
    "c78_one",
    "c78_product",
    "c78_rest",
    "c78_costs",
    "c78_gradient",
    "c78_costs_gradient",
    "c78_pulse",
    "c78_vectorised_gradient_refuted",
    "c78_warning_refuted"
   ],
   "note": "Values, range, product states, the removed subsystems and the costs for kets, Hermitian density matrices and vectorised ones; gradient for kets, also by the pulse through the whole chain (c78_pulse). Refuted by the code: the gradient for vectorised density matrices, for which the costs are defined, raises AssertionError in the partial trace (c78_vectorised_gradient_refuted; the source marks super operators as TODO), and an imaginary part above the tolerance raises IndexError instead of printing the warning (c78_warning_refuted). The kept subsystems are iterated in ascending order (python sets of small integers, see c04)."
  },
  {
   "property": "C79",
   "status": "proved",
   "theorems": [
    "c79_intertwined",
    "c79_initial_states",
    "c79_conserved",
    "c79_offset",
    "c79_offset_operation",
    "c79_offset_state",
    "c79_basis",
    "c79_units",
    "c79_divided",
    "c79_undone",
    "c79_successive"
   ],
   "note": "For every solver of the Schroedinger equation after a history of successful calls whose exponentials are exact (as in C23/C66: up to rounding)."
  },
  {
   "property": "C80",
   "status": "partial",
   "theorems": [
    "c80_method_partial",
    "c80_original_partial",
    "c80_copy_partial",
    "c80_deepcopy_refuted"
   ],
   "note": "The method __deepcopy__ called by hand gives an independent equal copy (c80_method_partial, c80_original_partial, c80_copy_partial). Refuted for copy.deepcopy: the method takes no memo argument, so copy.deepcopy(container) raises TypeError for every container (c80_deepcopy_refuted). The values inside of the lists are treated as immutable."
  },
  {
   "property": "C81",
   "status": "proved",
   "theorems": [
    "c81_points",
    "c81_angle",
    "c81_phase",
    "c81_errors",
    "c81_solver"
   ],
   "note": "For kets. The expectation values of qutip are modelled by their definition; what qutip does with other shapes is a parameter. c81_errors also shows that the forward propagators of a solver whose initial state is a ket are refused."
  },
  {
   "property": "C82",
   "status": "partial",
   "theorems": [
    "c82_colours",
    "c82_ratios",
    "c82_basis",
    "c82_zero",
    "c82_spectrum",
    "c82_black",
    "c82_errors",
    "c82_columns_refuted"
   ],
   "note": "Rows as vectors, which is how plot_energy_spectrum calls it. Refuted: the docstring of vector_color_map says that vectors and colours are columns (c82_columns_refuted, with matplotlib's map brg). The colour map and eigh are parameters; vectors that are zero give nan (c82_zero)."
  },
  {
   "property": "C83",
   "status": "proved",
   "theorems": [
    "c83_super_operators",
    "c83_super_offset",
    "c83_super_basis",
    "c83_super_conserved",
    "c83_super_stationary",
    "c83_super_units",
    "c83_super_divided",
    "c83_offset",
    "c83_factors",
    "c83_displaced",
    "c83_basis",
    "c83_conserved",
    "c83_stationary",
    "c83_balanced",
    "c83_units",
    "c83_divided",
    "c83_closed",
    "c83_initial_states"
   ],
   "note": "Dissipation given as operators, and with c83_super_* as super operators or by a function; exact exponentials as in C67 (up to rounding). c83_super_operators: all three ways give the same propagators for the same dissipation."
  },
  {
   "property": "C84",
   "status": "proved",
   "theorems": [
    "c84_states",
    "c84_amplitudes",
    "c84_durations",
    "c84_speed",
    "c84_state_fidelity",
    "c84_entanglement_fidelity",
    "c84_noise",
    "c84_frobenius"
   ],
   "note": "Exact exponentials as in C79 (up to rounding); noise added to noise Hamiltonians (mc_ampf NNone)."
  },
  {
   "property": "C85",
   "status": "partial",
   "theorems": [
    "c85_erfinv",
    "c85_erfinv_unique",
    "c85_share",
    "c85_first",
    "c85_increasing",
    "c85_std_below",
    "c85_std_limit",
    "c85_two_samples",
    "c85_bell_2dim",
    "c85_bell_1dim_partial",
    "c85_bell_1dim_refuted",
    "c85_normal",
    "c85_2dim_partial",
    "c85_2dim_refuted"
   ],
   "note": "Proved for sample_1dim_gaussian_distribution and bell_curve_2dim (exact arithmetic; erfinv by its defining integral, c85_erfinv: such a function exists, is odd, positive and midpoint convex as C58 to C60 assume; c85_erfinv_unique). c85_2dim_partial: below 10^6 samples the two-dimensional sampling returns n_samples points as described; c85_2dim_refuted: fewer for more than 10^8 samples (one per visited grid point); numbers in between are open. bell_curve_1dim is not normalised: c85_bell_1dim_refuted (area 1/sqrt(2 pi) < 1/2), c85_bell_1dim_partial (it is the density times that factor). c85_normal: the specified density has area 1."
  },
  {
   "property": "C86",
   "status": "proved",
   "theorems": [
    "c86_superposition",
    "c86_rotation",
    "c86_rabi",
    "c86_modes",
    "c86_diagonal",
    "c86_coherence",
    "c86_relaxation"
   ],
   "note": "Dissipation given as operators; exact exponentials as in C67 (up to rounding). c86_coherence is the modulus of c86_diagonal; its case serves both."
  },
  {
   "property": "C87",
   "status": "partial",
   "theorems": [
    "c87_rotating_frame",
    "c87_lab_amplitudes",
    "c87_lab_free",
    "c87_frame",
    "c87_frame_unitary",
    "c87_frame_steps",
    "c87_ket_partial",
    "c87_ket_values_partial",
    "c87_ket_refuted",
    "c87_x_half",
    "c87_y_half",
    "c87_phase_control",
    "c87_phase_gradient",
    "c87_linear_gradient",
    "c87_phase_shape",
    "c87_variance",
    "c87_density",
    "c87_pulse_range",
    "c87_seed_partial",
    "c87_seed_refuted"
   ],
   "note": "Exact exponentials for the evolutions; np.linalg.eig decomposes sigma_x, sigma_y and +-sigma_z/2. Refuted: transform_ket_to_rot_frame turns with the opposite frequency (c87_ket_refuted; c87_ket_partial, c87_ket_values_partial: right for minus the frequency), the seed 0 is ignored (c87_seed_refuted; c87_seed_partial for all others). The case of c87_frame also serves c87_frame_unitary, c87_case_ket also c87_ket_values_partial. The noise density is modelled for frequencies other than 0."
  },
  {
   "property": "C88",
   "status": "proved",
   "theorems": [
    "c88_frobenius",
    "c88_sums",
    "c88_singular_values",
    "c88_smallest",
    "c88_zero",
    "c88_scaled",
    "c88_triangle",
    "c88_product",
    "c88_spectral_product",
    "c88_adjoint",
    "c88_kron",
    "c88_vectorised",
    "c88_unitary",
    "c88_trace",
    "c88_evolution"
   ],
   "note": "Exact real arithmetic. For the orders 2 and nuc the singular value decomposition of the library is correct (is_svd); c88_evolution uses the contract of C79 and C84 (exact exponentials). The operator of c88_case serves all theorems on fro, 1 and inf, c88_case_svd those on singular values."
  },
  {
   "property": "C89",
   "status": "partial",
   "theorems": [
    "c89_signature",
    "c89_construct_partial",
    "c89_stored",
    "c89_abstract",
    "c89_matrix_norm_refuted"
   ],
   "note": "Argument passing only: the checks of values in the bodies are not modelled. Refuted: no call constructs an OperatorMatrixNorm (c89_matrix_norm_refuted); c89_construct_partial covers all other classes. c89_stored excludes the parameters listed in converted (S_Init.v) and arguments that are None. Left out: PulseAnnealer and WallTimeExceeded, whose parents are outside of the package."
  }
 ]
}