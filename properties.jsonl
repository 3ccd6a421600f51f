{"id": "C01", "title": "Adjoint is an involutive anti-homomorphism", "statement": "For DenseOperators A (m x n) and B (n x p): (A*B).dag() equals B.dag()*A.dag(), A.dag().dag() equals A, and transpose/conj commute with each other and compose to dag; multiplying operators with mismatching inner dimension raises instead of returning a value.", "quantifier": "all dimensions m, n, p and all complex entries", "why_tests_cant": "Unit tests try a handful of fixed matrices/pulses; the claim is universal over sizes and entries, so no finite sample settles it.", "anchors": ["qopt/matrix.py: DenseOperator.dag, conj, transpose, __mul__"]}
{"id": "C02", "title": "Kronecker product mixed-product law", "statement": "For all operators with compatible shapes, A.kron(B) * C.kron(D) equals (A*C).kron(B*D); A.kron(B) has shape (rows A * rows B, cols A * cols B); kron of identities is the identity; kron commutes with dag.", "quantifier": "all dimensions and complex entries of four operators", "why_tests_cant": "Unit tests try a handful of fixed matrices/pulses; the claim is universal over sizes and entries, so no finite sample settles it.", "anchors": ["qopt/matrix.py: DenseOperator.kron, __mul__, dag, identity_like"]}
{"id": "C03", "title": "Trace is linear, cyclic and multiplicative under kron", "statement": "tr(A*B)=tr(B*A) for A m x n, B n x m; tr(A+B)=tr A+tr B; tr(c*A)=c tr A; tr(A.kron(B)) = tr(A) tr(B); tr(A.dag()) = conj(tr A).", "quantifier": "all dimensions and complex entries", "why_tests_cant": "Unit tests try a handful of fixed matrices/pulses; the claim is universal over sizes and entries, so no finite sample settles it.", "anchors": ["qopt/matrix.py: DenseOperator.tr"]}
{"id": "C04", "title": "Partial trace removes exactly the named subsystem", "statement": "For a product operator A_0 kron A_1 kron ... kron A_{k-1} on subsystems of any dimensions, ptrace(dims, [j]) returns tr(A_j) times the product of the remaining factors in order; the partial trace always preserves the full trace; a dims list whose product is not the operator dimension raises AssertionError.", "quantifier": "any number of subsystems, any subsystem dimensions, any complex entries", "why_tests_cant": "Tests use one 2x2 (x) 2x2 example; correctness depends on the axis arithmetic for arbitrarily many factors of unequal size.", "anchors": ["qopt/matrix.py: DenseOperator.ptrace"]}
{"id": "C05", "title": "Column vectorisation round trip and super-operator action", "statement": "convert_ket_vectorized_density_matrix_to_square inverts ket_vectorize_density_matrix on every square operator; and for every operator U and square rho, convert_unitary_to_super_operator(U) * vec(rho) = vec(U rho U.dag()); super operators compose: S(U V) = S(U) S(V).", "quantifier": "all dimensions, all complex entries", "why_tests_cant": "Unit tests try a handful of fixed matrices/pulses; the claim is universal over sizes and entries, so no finite sample settles it.", "anchors": ["qopt/matrix.py: ket_vectorize_density_matrix, convert_ket_vectorized_density_matrix_to_square, convert_unitary_to_super_operator"]}
{"id": "C06", "title": "Out-of-place arithmetic never changes its operands; in-place arithmetic agrees with it", "statement": "After any sequence of out-of-place operator expressions (A+B, A-B, A*B, c*A, A/c, dag, conj, transpose, kron, copy), every previously existing operator still holds the data it had; and A op= B leaves in A exactly the data that A op B returns.", "quantifier": "all finite programs of operator expressions over a heap with arbitrary sharing", "why_tests_cant": "The claim ranges over unbounded call histories; a test fixes one history.", "anchors": ["qopt/matrix.py: DenseOperator.__imul__, __mul__, __iadd__, __add__, __isub__, __sub__, copy, dag, conj, transpose"]}
{"id": "C07", "title": "Spectral exponential of a skew-Hermitian generator is unitary and a one-parameter group", "statement": "When the eigen-decomposition returned by the linear algebra library is correct, exp(tau) of an operator A by the 'spectral' method for Hermitian A and imaginary tau (or skew-Hermitian A and real tau) is a unitary operator, exp(0) is the identity and exp(s)*exp(t) = exp(s+t); for non-normal A the result is not the exponential.", "quantifier": "all dimensions, all (skew-)Hermitian generators, all times", "why_tests_cant": "Unit tests try a handful of fixed matrices/pulses; the claim is universal over sizes and entries, so no finite sample settles it.", "anchors": ["qopt/matrix.py: DenseOperator._exp_diagonalize, exp, spectral_decomposition"]}
{"id": "C08", "title": "Truncated-series exponential derivatives are exact derivatives of the truncated series", "statement": "For methods first_order, second_order and third_order, dexp(direction, tau) is the exact directional derivative of exp(tau) computed with the same method, for every operator, direction and tau.", "quantifier": "all dimensions, operators, directions, tau", "why_tests_cant": "Unit tests try a handful of fixed matrices/pulses; the claim is universal over sizes and entries, so no finite sample settles it.", "anchors": ["qopt/matrix.py: DenseOperator.exp, DenseOperator.dexp"]}
{"id": "C09", "title": "dexp with compute_expm returns the same exponential as exp", "statement": "dexp(direction, tau, compute_expm=True, method=m) returns as first component what exp(tau, method=m) returns.", "quantifier": "all methods, operators, directions, tau", "why_tests_cant": "Tests compare only generators for which all methods coincide.", "anchors": ["qopt/matrix.py: DenseOperator.dexp"]}
{"id": "C10", "title": "Spectral Frechet derivative", "statement": "dexp by the 'spectral' method returns the derivative of the exponential in the given direction, whenever the eigen-decomposition is correct.", "quantifier": "all Hermitian operators with all directions", "why_tests_cant": "The test direction commutes with the operator and the eigenvector matrix happens to be Hermitian.", "anchors": ["qopt/matrix.py: DenseOperator._dexp_diagonalization"]}
{"id": "C11", "title": "Truncation to a subspace selects the block", "statement": "truncate_to_subspace(indices) of a square operator returns the operator whose (a,b) entry is the (indices[a], indices[b]) entry, truncation composes, commutes with dag, and truncating to all indices is the identity; truncating a ket selects its rows and, with map_to_closest... or rescale requested, renormalises it.", "quantifier": "all dimensions, all index lists, all entries", "why_tests_cant": "Unit tests try a handful of fixed matrices/pulses; the claim is universal over sizes and entries, so no finite sample settles it.", "anchors": ["qopt/matrix.py: DenseOperator.truncate_to_subspace"]}
{"id": "C12", "title": "Closest unitary is unitary and fixes unitaries", "statement": "closest_unitary(A) is unitary for every square A, and equals A when A is unitary, whenever the SVD returned by the library is correct.", "quantifier": "all dimensions and square operators", "why_tests_cant": "Unit tests try a handful of fixed matrices/pulses; the claim is universal over sizes and entries, so no finite sample settles it.", "anchors": ["qopt/matrix.py: closest_unitary", "qopt/util.py: closest_unitary"]}
{"id": "C13", "title": "Transferred time grid is consistent", "statement": "After set_times(y_times) the transferred time grid has exactly num_x entries, each y interval is split into `oversampling` equal parts between the paddings, and the total transferred duration equals the total raw duration plus the padding durations, for every bound_type.", "quantifier": "all y_times arrays, oversampling >= 1, all boundary codes and padding numbers", "why_tests_cant": "Unit tests try a handful of fixed matrices/pulses; the claim is universal over sizes and entries, so no finite sample settles it.", "anchors": ["qopt/transfer_function.py: TransferFunction.set_times, num_padding_elements, num_x"]}
{"id": "C14", "title": "Oversampling transfer function repeats and pads", "statement": "OversamplingTF()(y) has num_x rows; row padding_start + i*oversampling + j equals y[i] for every 0 <= j < oversampling, and all padding rows are zero; calling with a wrong number of rows or columns raises.", "quantifier": "all y, oversampling, paddings", "why_tests_cant": "Unit tests try a handful of fixed matrices/pulses; the claim is universal over sizes and entries, so no finite sample settles it.", "anchors": ["qopt/transfer_function.py: OversamplingTF.__call__, _check_dimensions_datatype"]}
{"id": "C15", "title": "OversamplingTF and OversamplingMTF agree", "statement": "For the same oversampling, boundary type, times and offset, the matrix implementation and the direct implementation return the same transferred parameters and the same transformed gradients.", "quantifier": "all y, gradients, oversampling, boundary types", "why_tests_cant": "Unit tests try a handful of fixed matrices/pulses; the claim is universal over sizes and entries, so no finite sample settles it.", "anchors": ["qopt/transfer_function.py: OversamplingTF, OversamplingMTF"]}
{"id": "C16", "title": "gradient_chain_rule is the adjoint of the transfer function", "statement": "For the linear transfer functions (Identity, Oversampling, Matrix family, Convolution) and all compositions of them, for every parameter change dy and every gradient g: sum(g * (T(y+dy)-T(y))) equals sum(gradient_chain_rule(g) * dy).", "quantifier": "all shapes, parameters, gradients, and all nestings of Concatenate/Parallel", "why_tests_cant": "Tests compare a finite-difference gradient for one pulse and symmetric kernels only.", "anchors": ["qopt/transfer_function.py: gradient_chain_rule of IdentityTF, OversamplingTF, MatrixTF, ConcatenateTF, ParallelTF, ConvolutionTF"]}
{"id": "C17", "title": "Setting new times takes effect", "statement": "After any sequence of set_times calls and evaluations, calling a transfer function behaves as a freshly constructed one on which only the last set_times was executed.", "quantifier": "all call histories of set_times, __call__, gradient_chain_rule, transfer_matrix", "why_tests_cant": "The claim ranges over unbounded call histories; a test fixes one history.", "anchors": ["qopt/transfer_function.py: MatrixTF.__call__, MatrixTF._transfer_matrix, TransferFunction.set_times"]}
{"id": "C18", "title": "Concatenation composes", "statement": "ConcatenateTF(tf1, tf2)(y) equals tf2(tf1(y)), its gradient rule is the composition of the two gradient rules in reverse order, and its times are tf2's times after tf1; the same holds for ConcatenateMTF.", "quantifier": "all pairs of transfer functions, all parameters", "why_tests_cant": "Unit tests try a handful of fixed matrices/pulses; the claim is universal over sizes and entries, so no finite sample settles it.", "anchors": ["qopt/transfer_function.py: ConcatenateTF, ConcatenateMTF"]}
{"id": "C19", "title": "Parallel transfer functions act on disjoint control columns", "statement": "ParallelTF(tf1, tf2)(y) is tf1 applied to the first tf1.num_ctrls columns and tf2 to the remaining ones, side by side; its gradient is the corresponding split; the same for ParallelMTF with its block matrix.", "quantifier": "all pairs of transfer functions, numbers of controls, parameters", "why_tests_cant": "Unit tests try a handful of fixed matrices/pulses; the claim is universal over sizes and entries, so no finite sample settles it.", "anchors": ["qopt/transfer_function.py: ParallelTF, ParallelMTF"]}
{"id": "C20", "title": "Exponential saturation transfer matrix", "statement": "For ExponentialMTF, sample j of segment i equals exp_saturation((j+1)*dt, rise_time, y[i-1], y[i]) with y[-1]=0, i.e. the transferred pulse relaxes from the previous to the current parameter value and after the last segment decays to zero; every sample is a convex combination of neighbouring parameters.", "quantifier": "all y, num_y, oversampling, boundary types, rise times", "why_tests_cant": "Unit tests try a handful of fixed matrices/pulses; the claim is universal over sizes and entries, so no finite sample settles it.", "anchors": ["qopt/transfer_function.py: ExponentialMTF._calculate_transfer_matrix, exp_saturation"]}
{"id": "C21", "title": "Absolute and relative times agree", "statement": "set_absolute_times(t) has the same effect as set_times of the differences of t, for every strictly increasing t, and raises for unsorted input.", "quantifier": "all time arrays", "why_tests_cant": "Unit tests try a handful of fixed matrices/pulses; the claim is universal over sizes and entries, so no finite sample settles it.", "anchors": ["qopt/transfer_function.py: TransferFunction.set_absolute_times"]}
{"id": "C22", "title": "Amplitude function chain rule", "statement": "For each AmplitudeFunction with a correct derivative_function, derivative_by_chain_rule applied to the gradient of f by the control amplitudes is the gradient of f(u(x)) by x.", "quantifier": "all differentiable value functions, all parameters, all f", "why_tests_cant": "Unit tests try a handful of fixed matrices/pulses; the claim is universal over sizes and entries, so no finite sample settles it.", "anchors": ["qopt/amplitude_functions.py: IdentityAmpFunc, UnaryAnalyticAmpFunc, CustomAmpFunc"]}
{"id": "C23", "title": "Forward propagators are cumulative time-ordered products", "statement": "forward_propagators has num_t+1 entries, entry 0 is the initial state and entry i+1 equals propagators[i] times entry i, so the last entry is P_{n-1}...P_1 P_0 times the initial state.", "quantifier": "all numbers of time steps, all propagators, all dimensions", "why_tests_cant": "Unit tests try a handful of fixed matrices/pulses; the claim is universal over sizes and entries, so no finite sample settles it.", "anchors": ["qopt/solver_algorithms.py: Solver.forward_propagators, _compute_forward_propagation"]}
{"id": "C24", "title": "Reversed propagators telescope with forward propagators", "statement": "For every time index t, reversed_propagators[::-1][t] * forward_propagators[t] equals forward_propagators[-1]; reversed_propagators has num_t+1 entries starting with the identity.", "quantifier": "all t, num_t, propagators", "why_tests_cant": "Unit tests try a handful of fixed matrices/pulses; the claim is universal over sizes and entries, so no finite sample settles it.", "anchors": ["qopt/solver_algorithms.py: Solver.reversed_propagators, _compute_reversed_propagation"]}
{"id": "C25", "title": "Solver caches never go stale", "statement": "Whatever the sequence of set_optimization_parameters calls and reads of propagators, forward_propagators, reversed_propagators and derivatives, every read returns what a freshly constructed solver with the last successfully set parameters would return.", "quantifier": "all histories of successful setter calls and property reads", "why_tests_cant": "The claim ranges over unbounded call histories; a test fixes one history.", "anchors": ["qopt/solver_algorithms.py: Solver.set_optimization_parameters, reset_cached_propagators, propagators, forward_propagators, reversed_propagators"]}
{"id": "C26", "title": "A rejected parameter set leaves the solver usable", "statement": "If set_optimization_parameters raises (wrong shape), a later retry with the same argument raises again rather than silently succeeding with the old amplitudes; set_times followed by the same parameters recomputes amplitudes for the new times.", "quantifier": "all histories including failing calls and set_times", "why_tests_cant": "The claim ranges over unbounded call histories; a test fixes one history.", "anchors": ["qopt/solver_algorithms.py: Solver.set_optimization_parameters, set_times, consistency_checks"]}
{"id": "C27", "title": "Noiseless propagation is unitary", "statement": "For Hermitian drift and control Hamiltonians and real amplitudes, the dynamics generator of every time step is skew-Hermitian, every propagator computed from it is unitary and so are all forward and reversed propagators for a unitary initial state.", "quantifier": "all dimensions, Hamiltonians, amplitudes, numbers of steps", "why_tests_cant": "Unit tests try a handful of fixed matrices/pulses; the claim is universal over sizes and entries, so no finite sample settles it.", "anchors": ["qopt/solver_algorithms.py: SchroedingerSolver._compute_dyn_gen, _compute_propagation"]}
{"id": "C28", "title": "Propagator derivative layout", "statement": "frechet_deriv_propagators[ctrl][t] is the derivative of propagators[t] by the amplitude of control `ctrl` at time t, for every exponential method, and the derivative of the total propagator is reversed[::-1][t+1] * that * forward[t].", "quantifier": "all methods, control and time counts", "why_tests_cant": "Tests use one control or equal indices, where a transposed layout is invisible.", "anchors": ["qopt/solver_algorithms.py: SchroedingerSolver._compute_propagation_derivatives, _compute_propagation"]}
{"id": "C29", "title": "Monte Carlo solver without noise equals the noiseless solver", "statement": "SchroedingerSMonteCarlo with all noise samples zero yields for every trace the propagators of SchroedingerSolver; in general trace k uses exactly noise sample k of every noise operator.", "quantifier": "all numbers of traces, noise operators, time steps and Hamiltonians", "why_tests_cant": "Unit tests try a handful of fixed matrices/pulses; the claim is universal over sizes and entries, so no finite sample settles it.", "anchors": ["qopt/solver_algorithms.py: SchroedingerSMonteCarlo._compute_dyn_gen_noise, _compute_propagation"]}
{"id": "C30", "title": "Parallel and sequential Monte Carlo propagation agree", "statement": "With processes=1 or a worker pool of any size and any scheduling of workers, the Monte Carlo solver stores the same propagators for the same trace index.", "quantifier": "all pool sizes and worker interleavings", "why_tests_cant": "Scheduling is non-deterministic; tests see one interleaving.", "anchors": ["qopt/solver_algorithms.py: SchroedingerSMonteCarlo._compute_propagation", "qopt/parallel.py"]}
{"id": "C31", "title": "Control noise equals perturbed amplitudes", "statement": "SchroedingerSMCControlNoise propagates trace k with the same generator a SchroedingerSolver would use for the amplitudes plus the k-th noise sample.", "quantifier": "all noise samples, amplitudes, controls", "why_tests_cant": "Unit tests try a handful of fixed matrices/pulses; the claim is universal over sizes and entries, so no finite sample settles it.", "anchors": ["qopt/solver_algorithms.py: SchroedingerSMCControlNoise._compute_dyn_gen_noise"]}
{"id": "C32", "title": "Lindblad generator implements the master equation", "statement": "For every density matrix rho, the Lindblad dynamics generator applied to vec(rho) is vec(-i[H,rho] + sum_k (L_k rho L_k.dag() - 1/2 {L_k.dag() L_k, rho})).", "quantifier": "all dimensions, Hermitian H, Lindblad operators L_k and matrices rho", "why_tests_cant": "Tests compare against the same formula as the implementation, for one operator whose products commute.", "anchors": ["qopt/solver_algorithms.py: LindbladSolver._compute_dyn_gen, _calc_diss_sup_op"]}
{"id": "C33", "title": "Lindblad evolution preserves trace and Hermiticity", "statement": "The generator annihilates the trace functional (tr of its action is 0 for every rho) and maps Hermitian matrices to Hermitian matrices.", "quantifier": "all dimensions, H, L_k, rho", "why_tests_cant": "Unit tests try a handful of fixed matrices/pulses; the claim is universal over sizes and entries, so no finite sample settles it.", "anchors": ["qopt/solver_algorithms.py: LindbladSolver._compute_dyn_gen, _calc_diss_sup_op"]}
{"id": "C34", "title": "Solvers do not modify user supplied operators", "statement": "Constructing solvers and evaluating them any number of times leaves h_drift, h_ctrl, lindblad operators and initial dissipation super operators unchanged, so the same lists may be shared by several solvers.", "quantifier": "all histories of solver constructions and evaluations sharing operator lists", "why_tests_cant": "The claim ranges over unbounded call histories; a test fixes one history.", "anchors": ["qopt/solver_algorithms.py: LindbladSolver._calc_diss_sup_op, SchroedingerSolver._compute_dyn_gen"]}
{"id": "C35", "title": "State fidelity is a fidelity", "statement": "state_fidelity of normalised states lies in [0,1], is symmetric, invariant under global phases and under a common unitary, and equals 1 when the states coincide.", "quantifier": "all dimensions and states", "why_tests_cant": "Unit tests try a handful of fixed matrices/pulses; the claim is universal over sizes and entries, so no finite sample settles it.", "anchors": ["qopt/cost_functions.py: state_fidelity, StateInfidelity"]}
{"id": "C36", "title": "Entanglement fidelity is a fidelity", "statement": "entanglement_fidelity of two unitaries lies in [0,1], is invariant under global phase and under multiplying both with the same unitary, and equals 1 exactly when they agree up to a phase.", "quantifier": "all dimensions and unitaries", "why_tests_cant": "Unit tests try a handful of fixed matrices/pulses; the claim is universal over sizes and entries, so no finite sample settles it.", "anchors": ["qopt/cost_functions.py: entanglement_fidelity, OperationInfidelity"]}
{"id": "C37", "title": "Super-operator and unitary entanglement fidelity agree", "statement": "entanglement_fidelity_super_operator(target, convert_unitary_to_super_operator(U)) equals entanglement_fidelity(target, U) for every target and U.", "quantifier": "all dimensions and operators", "why_tests_cant": "Unit tests try a handful of fixed matrices/pulses; the claim is universal over sizes and entries, so no finite sample settles it.", "anchors": ["qopt/cost_functions.py: entanglement_fidelity_super_operator, entanglement_fidelity"]}
{"id": "C38", "title": "Analytic fidelity gradients are the derivatives of the fidelity", "statement": "If dU_{t,k} are the derivatives of the propagators by amplitude (t,k), then the arrays returned by derivative_entanglement_fidelity_with_du, deriv_entanglement_fid_sup_op_with_du and derivative_state_fidelity are the partial derivatives of the corresponding fidelity of the total propagator.", "quantifier": "all differentiable propagator families, all times, controls, targets", "why_tests_cant": "Unit tests try a handful of fixed matrices/pulses; the claim is universal over sizes and entries, so no finite sample settles it.", "anchors": ["qopt/cost_functions.py: derivative_entanglement_fidelity_with_du, deriv_entanglement_fid_sup_op_with_du, derivative_state_fidelity"]}
{"id": "C39", "title": "Leakage is between zero and one and vanishes exactly without leakage", "statement": "LeakageError costs are in [0,1] for every unitary evolution and zero exactly if the truncated propagator is itself unitary.", "quantifier": "all unitaries, all computational subspaces", "why_tests_cant": "Unit tests try a handful of fixed matrices/pulses; the claim is universal over sizes and entries, so no finite sample settles it.", "anchors": ["qopt/cost_functions.py: LeakageError.costs"]}
{"id": "C40", "title": "Liouville-space leakage agrees with Hilbert-space leakage", "statement": "LeakageLiouville on the super operator of a unitary U returns the same value as LeakageError on U for the same computational states.", "quantifier": "all unitaries and subspaces", "why_tests_cant": "Unit tests try a handful of fixed matrices/pulses; the claim is universal over sizes and entries, so no finite sample settles it.", "anchors": ["qopt/cost_functions.py: LeakageLiouville.costs, LeakageError.costs"]}
{"id": "C41", "title": "Noise infidelities are averages over traces", "statement": "OperationNoiseInfidelity returns the mean over all noise traces of the infidelity of the trace; with neglect_systematic_errors and identical traces (no noise) the cost is zero; the gradient is the mean of trace gradients.", "quantifier": "all numbers of traces, all propagators", "why_tests_cant": "Unit tests try a handful of fixed matrices/pulses; the claim is universal over sizes and entries, so no finite sample settles it.", "anchors": ["qopt/cost_functions.py: OperationNoiseInfidelity.costs, grad"]}
{"id": "C42", "title": "Average gate fidelity relation", "statement": "averge_gate_fidelity of two single-qubit unitaries equals (2*entanglement_fidelity+1)/3.", "quantifier": "all 2x2 unitaries", "why_tests_cant": "Unit tests try a handful of fixed matrices/pulses; the claim is universal over sizes and entries, so no finite sample settles it.", "anchors": ["qopt/cost_functions.py: averge_gate_fidelity, default_set_orthorgonal"]}
{"id": "C43", "title": "Angle-axis representation rejects non-unitary input", "statement": "angle_axis_representation raises ValueError for every 2x2 matrix that is not unitary.", "quantifier": "all 2x2 complex matrices", "why_tests_cant": "Unit tests try a handful of fixed matrices/pulses; the claim is universal over sizes and entries, so no finite sample settles it.", "anchors": ["qopt/cost_functions.py: angle_axis_representation"]}
{"id": "C44", "title": "Simulator cost vector layout", "statement": "wrapped_cost_functions(pulse) first sets the pulse on every solver, then returns the concatenation of the flattened costs of the cost functions in order, one entry per cost index; wrapped_jac_function stacks gradients in the same order.", "quantifier": "all lists of cost functions with any numbers of outputs, all pulses", "why_tests_cant": "Unit tests try a handful of fixed matrices/pulses; the claim is universal over sizes and entries, so no finite sample settles it.", "anchors": ["qopt/simulator.py: Simulator.wrapped_cost_functions, wrapped_jac_function, cost_indices"]}
{"id": "C45", "title": "Numeric gradient is exact on polynomials of matching degree", "statement": "numeric_gradient returns the exact gradient for affine cost functions with one-sided differences and for quadratic cost functions with symmetric differences, for every step size; entries are laid out as (time, function, control).", "quantifier": "all pulses, step sizes, affine/quadratic costs", "why_tests_cant": "Unit tests try a handful of fixed matrices/pulses; the claim is universal over sizes and entries, so no finite sample settles it.", "anchors": ["qopt/simulator.py: Simulator.numeric_gradient"]}
{"id": "C46", "title": "Parameter flattening is a bijection consistent with the Jacobian", "statement": "initial pulses are flattened and un-flattened by mutually inverse maps, and column c*num_t+t of the returned Jacobian is the derivative by the parameter the optimiser sees at the same flat index.", "quantifier": "all pulse shapes", "why_tests_cant": "A layout error is invisible for one control or for square symmetric tests.", "anchors": ["qopt/optimize.py: Optimizer.cost_func_wrapper, cost_jacobian_wrapper, run_optimization"]}
{"id": "C47", "title": "Scalar objective and gradient", "statement": "ScalarMinimizingOptimizer minimises the weighted sum of all cost functions and its gradient is the weighted sum of the Jacobian rows, i.e. the derivative of that objective.", "quantifier": "all costs, weights, parameters", "why_tests_cant": "Unit tests try a handful of fixed matrices/pulses; the claim is universal over sizes and entries, so no finite sample settles it.", "anchors": ["qopt/optimize.py: ScalarMinimizingOptimizer.cost_func_wrapper, cost_jacobian_wrapper"]}
{"id": "C48", "title": "Best-so-far bookkeeping", "statement": "After any number of evaluations the optimiser's stored minimum is the evaluation with the smallest cost norm, with its unweighted cost vector and the parameters at which it was evaluated; this is what an aborted (wall-time exceeded) run returns.", "quantifier": "all evaluation histories, all cost functions and weights", "why_tests_cant": "The claim ranges over unbounded call histories; a test fixes one history.", "anchors": ["qopt/optimize.py: Optimizer.cost_func_wrapper, write_state_to_result"]}
{"id": "C49", "title": "Iteration summary is complete", "statement": "After n cost evaluations and m Jacobian evaluations the iteration summary holds exactly n cost vectors and parameter sets and m gradients in order, iter_num = n, and the counters equal n and m; prepare_optimization resets all of it.", "quantifier": "all evaluation histories", "why_tests_cant": "The claim ranges over unbounded call histories; a test fixes one history.", "anchors": ["qopt/optimize.py: Optimizer.cost_func_wrapper, cost_jacobian_wrapper, prepare_optimization"]}
{"id": "C50", "title": "Aborted runs report the gradient at the best parameters", "statement": "When the wall time is exceeded, the returned result contains the gradient norm evaluated at the reported final parameters.", "quantifier": "all pulse shapes and histories", "why_tests_cant": "Visible only for more than one control and an aborted run.", "anchors": ["qopt/optimize.py: Optimizer.write_state_to_result, cost_jacobian_wrapper"]}
{"id": "C51", "title": "Termination conditions are per optimiser", "statement": "The termination conditions an optimiser uses are the defaults overridden by its own constructor argument, independent of other optimisers constructed before or after.", "quantifier": "all sequences of optimiser constructions", "why_tests_cant": "The claim ranges over unbounded call histories; a test fixes one history.", "anchors": ["qopt/optimize.py: Optimizer.__init__, default_termination_conditions"]}
{"id": "C52", "title": "Annealing respects bounds and step size", "statement": "Every annealing move yields a pulse inside the bounds; from a pulse inside the bounds each entry changes by at most step_size; entries whose mask exceeds step_ratio do not change.", "quantifier": "all random draws, pulses, bounds, numbers of moves", "why_tests_cant": "The claim ranges over unbounded call histories; a test fixes one history.", "anchors": ["qopt/optimize.py: PulseAnnealer.move"]}
{"id": "C53", "title": "Parallel optimisation returns results in order of initial pulses", "statement": "run_optimization_parallel returns a data container whose i-th entries are the result of optimising the i-th initial pulse with an independent copy of the optimiser, for every worker scheduling; the passed optimiser is unchanged.", "quantifier": "all pool sizes, interleavings, optimisers, pulse lists", "why_tests_cant": "Scheduling is non-deterministic.", "anchors": ["qopt/parallel.py: run_optimization_parallel"]}
{"id": "C54", "title": "Data container is a faithful log", "statement": "After appending any sequence of results with the same cost indices, all per-run lists have the same length and hold the appended data in order; a result with other indices is rejected and changes nothing, also when the indices are held in lists.", "quantifier": "all append histories", "why_tests_cant": "The claim ranges over unbounded call histories; a test fixes one history.", "anchors": ["qopt/data_container.py: DataContainer.append_optim_result, _append, __len__"]}
{"id": "C55", "title": "Data survives serialisation", "statement": "DataContainer converted to its dictionary/pickle and back, and OptimizationResult.from_dict(to_dict()), are equal to the original in every public attribute. A dictionary is read exactly if all its names are parameters of the constructor, otherwise TypeError; to_pickle writes the file given, or file_name below storage_path (an absolute file_name replaces it), and a file that cannot be opened is an exception that changes nothing.", "quantifier": "all containers and results", "why_tests_cant": "Unit tests try a handful of fixed matrices/pulses; the claim is universal over sizes and entries, so no finite sample settles it.", "anchors": ["qopt/data_container.py: to_pickle, from_pickle, _to_dict, _from_dict", "qopt/optimization_data.py: OptimizationResult.to_dict, from_dict"]}
{"id": "C56", "title": "Best run selection", "statement": "Analyser.n_least_square is the index of a run with minimal sum of squared final costs, the first one in case of ties.", "quantifier": "all data containers", "why_tests_cant": "Unit tests try a handful of fixed matrices/pulses; the claim is universal over sizes and entries, so no finite sample settles it.", "anchors": ["qopt/analyser.py: Analyser.n_least_square"]}
{"id": "C57", "title": "Quasi-static noise traces", "statement": "NTGQuasiStatic.noise_samples has shape (operators, traces, samples); each trace is constant in time; in each trace at most one noise operator is non-zero when sampling deterministically; each operator sees each of its samples exactly once.", "quantifier": "all numbers of operators, traces, samples, standard deviations", "why_tests_cant": "Unit tests try a handful of fixed matrices/pulses; the claim is universal over sizes and entries, so no finite sample settles it.", "anchors": ["qopt/noise.py: NTGQuasiStatic._sample_noise, n_traces"]}
{"id": "C58", "title": "Discrete Gaussian sampling is unbiased and corrected to the requested standard deviation", "statement": "The deterministic samples are symmetric about the mean, hence have exactly that mean; with correct_std_for_discrete_sampling the empirical standard deviation of the samples of each operator equals the requested one.", "quantifier": "all sample numbers, standard deviations, numbers of operators", "why_tests_cant": "Tests use a single noise operator.", "anchors": ["qopt/noise.py: sample_1dim_gaussian_distribution, NTGQuasiStatic.__init__"]}
{"id": "C59", "title": "Noise generators do not modify caller data", "statement": "Constructing noise generators leaves the standard_deviation list passed by the caller unchanged, so two generators built from the same list produce the same noise.", "quantifier": "all constructor histories", "why_tests_cant": "The claim ranges over unbounded call histories; a test fixes one history.", "anchors": ["qopt/noise.py: NTGQuasiStatic.__init__"]}
{"id": "C60", "title": "Noise sample caching", "statement": "With always_redraw_samples=False any number of reads of noise_samples returns the same array; with True each read draws anew.", "quantifier": "all read histories and random streams", "why_tests_cant": "The claim ranges over unbounded call histories; a test fixes one history.", "anchors": ["qopt/noise.py: NoiseTraceGenerator.noise_samples"]}
{"id": "C61", "title": "Coloured noise length", "statement": "NTGColoredNoise returns arrays of shape (operators, traces, n_samples_per_trace) for every requested number of samples; the internal sample count is a power of two not smaller than the request when rounding is enabled.", "quantifier": "all sample numbers", "why_tests_cant": "Unit tests try a handful of fixed matrices/pulses; the claim is universal over sizes and entries, so no finite sample settles it.", "anchors": ["qopt/noise.py: fast_colored_noise, NTGColoredNoise._sample_noise"]}
{"id": "C62", "title": "Elapsed-time formatting", "statement": "time_string(s) prints hours, minutes and seconds with minutes and seconds below 60 such that 3600*h+60*m+s is the rounded number of seconds.", "quantifier": "all non-negative durations", "why_tests_cant": "Unit tests try a handful of fixed matrices/pulses; the claim is universal over sizes and entries, so no finite sample settles it.", "anchors": ["qopt/optimize.py: time_string"]}
{"id": "C63", "title": "Coloured noise has no offset", "statement": "Every trace fast_colored_noise returns has time average zero.", "quantifier": "all spectral densities, sample numbers, time steps, output shapes and random streams", "why_tests_cant": "Unit tests try a handful of fixed matrices/pulses; the claim is universal over sizes and entries, so no finite sample settles it.", "anchors": ["qopt/noise.py: fast_colored_noise"]}
{"id": "C64", "title": "Coloured noise follows the requested spectral density", "statement": "At each frequency f = j / (n dt), 0 < j <= n/2, the power of the discrete Fourier transform of a trace fast_colored_noise returns is S(f) / (2 dt) times the power of the transform of the random numbers drawn for this trace.", "quantifier": "all non-negative spectral densities, sample numbers, time steps, output shapes and random streams", "why_tests_cant": "Unit tests try a handful of fixed matrices/pulses; the claim is universal over sizes and entries, so no finite sample settles it.", "anchors": ["qopt/noise.py: fast_colored_noise"]}
{"id": "C65", "title": "White noise passes through", "statement": "For the constant spectral density 2 dt the traces of fast_colored_noise are the drawn random numbers minus their average over the trace.", "quantifier": "all sample numbers, time steps, output shapes and random streams", "why_tests_cant": "Unit tests try a handful of fixed matrices/pulses; the claim is universal over sizes and entries, so no finite sample settles it.", "anchors": ["qopt/noise.py: fast_colored_noise"]}
{"id": "C66", "title": "The jacobian is the derivative of the costs by the pulse", "statement": "Simulator.wrapped_jac_function returns the derivative of the values of Simulator.wrapped_cost_functions by the optimisation parameters: through the transfer function, the amplitude function, the propagators and the fidelity, along every differentiable curve of pulses.", "quantifier": "all pulses, time grids, Hamiltonians, initial states and targets; transfer functions of the library with symmetric kernels; amplitude functions with a right derivative; Schroedinger solvers with an exact exponential and Frechet derivative; OperationInfidelity, StateInfidelity, their computational subspaces, and LeakageError", "why_tests_cant": "Unit tests try a handful of fixed matrices/pulses; the claim is universal over sizes and entries, so no finite sample settles it.", "anchors": ["qopt/simulator.py: Simulator.wrapped_jac_function", "qopt/solver_algorithms.py: Solver.set_optimization_parameters, SchroedingerSolver._compute_propagation_derivatives", "qopt/cost_functions.py: OperationInfidelity.grad, StateInfidelity.grad, LeakageError.grad"]}
{"id": "C67", "title": "Lindblad propagators are quantum channels", "statement": "Every propagator and every forward propagator a LindbladSolver returns is a completely positive and trace preserving map; an initial density matrix stays one after every time step.", "quantifier": "all Hermitian Hamiltonians, dissipation operators, rates >= 0, time grids with non-negative steps, pulses and client histories; exact exponentials", "why_tests_cant": "Unit tests try a handful of fixed matrices/pulses; the claim is universal over sizes and entries, so no finite sample settles it.", "anchors": ["qopt/solver_algorithms.py: LindbladSolver._compute_dyn_gen, LindbladSolver._calc_diss_sup_op, Solver.forward_propagators"]}
{"id": "C68", "title": "The costs of noisy evolutions lie between 0 and 1", "statement": "For completely positive, trace preserving evolutions and unitary targets the entanglement fidelity of super operators, OperationInfidelity with fidelity_measure entanglement and super operator formalism, LiouvilleMonteCarloEntanglementInfidelity and LeakageLiouville return numbers between 0 and 1, on the whole space and on computational subspaces.", "quantifier": "all dimensions, channels (not necessarily unitary), unitary targets, computational states, numbers of noise traces", "why_tests_cant": "Tests evaluate the super operator fidelities on few unitary evolutions.", "anchors": ["qopt/cost_functions.py: entanglement_fidelity_super_operator, OperationInfidelity.costs, LiouvilleMonteCarloEntanglementInfidelity.costs, LeakageLiouville.costs"]}
{"id": "C69", "title": "The numeric gradient tends to the jacobian", "statement": "For finite differences tending to zero, every entry of Simulator.numeric_gradient, forward or symmetric, tends to that of Simulator.wrapped_jac_function, and both numbers compare_numeric_to_analytic_gradient returns, the norm of the difference and its relation to the average norm, tend to zero; the evaluation leaves the simulator usable.", "quantifier": "all simulators with differentiable cost functions (C66), pulses, client histories and finite differences below some bound; the relation for gradients that do not vanish", "why_tests_cant": "Unit tests try a handful of fixed matrices/pulses; the claim is universal over sizes and entries, so no finite sample settles it.", "anchors": ["qopt/simulator.py: Simulator.numeric_gradient, Simulator.compare_numeric_to_analytic_gradient"]}
{"id": "C70", "title": "The consistency check of the simulator", "statement": "Simulator.check() returns without an error exactly if the current pulse has one row for every time step.", "quantifier": "all shapes of pulses, time steps given as array or list, and histories of setting the pulse", "why_tests_cant": "Tests do not call check() after setting pulses of different shapes.", "anchors": ["qopt/simulator.py: Simulator.check, Simulator.pulse"]}
{"id": "C71", "title": "Recorded evaluation times", "statement": "A simulator that records performance statistics returns the same values, gradients and optimisation results as one that does not; every evaluation adds one row with one time per cost function; the shares of the cost functions and of their gradients in the time of the optimisations that Analyser returns are not negative and their sum is at most 1; the statistics in a result belong to its run.", "quantifier": "all simulators, pulses, optimisers, minimisation algorithms, wall times, sequences of runs and clocks that do not go back", "why_tests_cant": "Tests do not read the recorded times and cannot fix the clock.", "anchors": ["qopt/simulator.py: Simulator.wrapped_cost_functions, Simulator.wrapped_jac_function", "qopt/optimize.py: Optimizer.prepare_optimization, Optimizer.write_state_to_result, LeastSquaresOptimizer.run_optimization, ScalarMinimizingOptimizer.run_optimization", "qopt/analyser.py: Analyser.time_share_cost_fkt, Analyser.time_share_grad_fkt, Analyser.opt_times", "qopt/performance_statistics.py: PerformanceStatistics"]}
{"id": "C72", "title": "Absolute costs of all runs", "statement": "Analyser.absolute_costs returns for each run and each evaluation the root of the sum of the squared costs, and nan behind the last evaluation of shorter runs; its docstring promises the sum of the costs.", "quantifier": "all containers: numbers of runs, evaluations and cost functions", "why_tests_cant": "No test calls absolute_costs.", "anchors": ["qopt/analyser.py: Analyser.absolute_costs"]}
{"id": "C73", "title": "Derivatives of the average gate fidelity", "statement": "derivative_average_gate_fid_with_du returns the derivatives of averge_gate_fidelity by the control amplitudes, real numbers and 2/3 of those of the entanglement fidelity; derivative_average_gate_fidelity returns the same for the derivatives -i dt H U of the grape approximation; other dimensions than two are refused.", "quantifier": "all qubit propagators (not necessarily unitary), targets, numbers of time steps and controls, and dependences on the amplitudes; Hermitian control Hamiltonians", "why_tests_cant": "Unit tests try a handful of fixed matrices/pulses; the claim is universal over sizes and entries, so no finite sample settles it.", "anchors": ["qopt/cost_functions.py: derivative_average_gate_fid_with_du, derivative_average_gate_fidelity, averge_gate_fidelity"]}
{"id": "C74", "title": "The grape derivative of the entanglement fidelity", "statement": "derivative_entanglement_fidelity returns for a list of durations the derivatives of the entanglement fidelity in the grape approximation dU/du = -i dt H U.", "quantifier": "all propagators, targets, control Hamiltonians, durations and dimensions", "why_tests_cant": "No test calls it.", "anchors": ["qopt/cost_functions.py: derivative_entanglement_fidelity"]}
{"id": "C75", "title": "The gradient of the noise infidelity by the pulse", "statement": "OperationNoiseInfidelity.grad(), passed through the amplitude function and the transfer function, is the derivative of OperationNoiseInfidelity.costs() by the pulse, with a given target or with neglect_systematic_errors (where the noiseless evolution, the target, moves too), on the whole space or on computational states.", "quantifier": "all pulses, Monte Carlo solvers with exact derivatives, numbers of traces, noise operators, noise samples, transfer functions and amplitude functions of C66; both ways the noise enters", "why_tests_cant": "Unit tests try a handful of fixed matrices/pulses; the claim is universal over sizes and entries, so no finite sample settles it.", "anchors": ["qopt/cost_functions.py: OperationNoiseInfidelity.costs, OperationNoiseInfidelity.grad", "qopt/solver_algorithms.py: SchroedingerSMonteCarlo._compute_dyn_gen_noise, SchroedingerSMonteCarlo._compute_propagation, SchroedingerSMCControlNoise.__init__"]}
{"id": "C76", "title": "The pulse sequence of filter_functions describes the solver", "statement": "Solver.create_pulse_sequence() gives the package filter_functions the drift, the control Hamiltonians with the current control amplitudes, the noise operators with their coefficients and the time steps of the solver; after any sequence of setting pulses and reading the solver the kept pulse sequence describes the current pulse; its propagators are the forward propagators of the solver.", "quantifier": "all solvers, pulses, noise Hamiltonians given as lists or callables, and client histories; packages that keep what they are given up to sorting by identifier", "why_tests_cant": "The only test has one control and one noise operator and looks at infidelities, not at the pulse sequence.", "anchors": ["qopt/solver_algorithms.py: Solver.create_pulse_sequence, Solver.create_ff_h_n, Solver._diagonalize_and_propagate_pulse_sequence, SchroedingerSMonteCarlo.create_ff_h_n, Solver.reset_cached_propagators"]}
{"id": "C77", "title": "What OperatorFilterFunctionInfidelity asks for", "statement": "OperatorFilterFunctionInfidelity.costs() returns the infidelities filter_functions computes for the current pulse, all noise operators of the solver and the given spectral density; grad() returns the derivatives computed for the same, laid out as (time, noise operator, control) with the controls in the order of the solver.", "quantifier": "all solvers, pulses, client histories, spectral densities, given or sampled frequencies, derivatives of the noise coefficients given or not", "why_tests_cant": "The only test has one control, one noise operator and a Schroedinger solver; Monte Carlo solvers are not tested with filter functions.", "anchors": ["qopt/cost_functions.py: OperatorFilterFunctionInfidelity.costs, OperatorFilterFunctionInfidelity.grad, OperatorFilterFunctionInfidelity.omega", "qopt/solver_algorithms.py: Solver.filter_function_n_coeffs_deriv_vals, Solver.create_ff_h_n, SchroedingerSMonteCarlo.create_ff_h_n"]}
{"id": "C78", "title": "State fidelity of a part of a composite system", "statement": "state_fidelity_subspace(target, state, dims, remove) is the probability to find the subsystems that are not removed in the target state, for kets, density matrices and vectorised density matrices: between 0 and 1, equal to 1 exactly for product states with the target as factor, equal to state_fidelity for product states, unchanged by unitaries on the removed subsystems. StateInfidelitySubspace.costs() is 1 minus it for the last forward propagator and grad() the derivative of costs() by the control amplitudes.", "quantifier": "all dimensions and numbers of subsystems, sets of removed subsystems in any order, targets as bras or kets, states, numbers of time steps and controls, and dependences on the amplitudes", "why_tests_cant": "No test calls it.", "anchors": ["qopt/cost_functions.py: state_fidelity_subspace, derivative_state_fidelity_subspace, StateInfidelitySubspace.costs, StateInfidelitySubspace.grad"]}
{"id": "C79", "title": "Symmetries of the simulated evolution", "statement": "The forward propagators a Schroedinger solver returns respect the symmetries of the Schroedinger equation: a linear map that intertwines all Hamiltonians of two solvers and their initial states intertwines their forward propagators (change of basis, embedding into more levels); they are linear in the initial states; an operator commuting with all (Hermitian) Hamiltonians keeps its expectation values; adding an energy offset to the drift multiplies them by the phase exp(-i sum e t), which neither the entanglement nor the state fidelity sees; another unit of time and of the amplitudes changes nothing; dividing a time step into parts with the same amplitudes changes nothing at the ends of the steps; the reversed pulse with negated Hamiltonians leads back through the same states; two pulses in succession are one pulse.", "quantifier": "all solvers and histories of calls, dimensions, numbers of initial states, time steps, controls, pulses, and all methods whose exponentials are exact", "why_tests_cant": "Unit tests try a handful of fixed matrices/pulses; the claim is universal over sizes and entries, so no finite sample settles it.", "anchors": ["qopt/solver_algorithms.py: Solver.forward_propagators, Solver.propagators, SchroedingerSolver._compute_propagation, SchroedingerSolver._compute_dyn_gen, Solver._compute_forward_propagation", "qopt/cost_functions.py: entanglement_fidelity, state_fidelity"]}
{"id": "C80", "title": "Copies of a data container", "statement": "A copy of a DataContainer contains the same data as the container and shares no list with it: appending a result to one leaves the other as it is. copy.deepcopy(container) gives such a copy.", "quantifier": "all containers after any history of appending results, and all further results", "why_tests_cant": "No test copies a container.", "anchors": ["qopt/data_container.py: DataContainer.__deepcopy__, DataContainer.append_optim_result"]}
{"id": "C81", "title": "Points on the Bloch sphere", "statement": "plot_bloch_vector_evolution draws for every forward propagator U the Bloch vector of U psi: the point with |phi><phi| = (1 + x X + y Y + z Z)/2, which lies on the unit sphere; the angle between the points of two states is fixed by their overlap and does not change in time; a global phase of the state changes nothing; other dimensions than two are refused.", "quantifier": "all numbers of time steps, propagators that keep scalar products, initial kets; the propagators of Schroedinger solvers after any history of calls", "why_tests_cant": "No test plots or looks at the points.", "anchors": ["qopt/plotting.py: plot_bloch_vector_evolution", "qopt/solver_algorithms.py: Solver.forward_propagators"]}
{"id": "C82", "title": "Colours of eigenvectors and energy spectra", "statement": "vector_color_map mixes the colours of the basis vectors with the moduli of the components as weights and makes the mixture as bright as possible, so that phases and norms of the vectors do not matter and basis vectors get their own colour. plot_energy_spectrum draws for every level its eigenvalues over x_val, each with the mixture for its normalised eigenvector.", "quantifier": "all numbers and dimensions of vectors, colour maps that are nowhere black, lists of Hermitian Hamiltonians of one dimension", "why_tests_cant": "No test calls the module.", "anchors": ["qopt/energy_spectrum.py: vector_color_map, plot_energy_spectrum", "qopt/matrix.py: DenseOperator.spectral_decomposition"]}
{"id": "C83", "title": "Symmetries of the evolution of open systems", "statement": "The propagators and forward propagators a Lindblad solver returns respect the symmetries of the master equation: an energy offset in the drift changes nothing; a factor on a dissipation operator is the same as its squared modulus on the rate; adding a multiple of one to a dissipation operator and the Hamiltonian (conj(a) L - a L^+)/(2i), weighted with the rate, to the drift changes nothing; a unitary change of basis of all operators turns all states; a Hermitian operator that commutes with all Hamiltonians and dissipation operators keeps its mean; states on which the master equation vanishes do not move, in particular the mixture of all levels if sum w L L^+ = sum w L^+ L; another unit of time, rates and amplitudes changes nothing; dividing a time step into parts changes nothing at the ends of the steps; without rates the density matrices are those of the Schroedinger solver; the states are linear in the initial states. Giving the same dissipation as operators, as super operators or by a function gives the same propagators; with super operators, offset, basis, conserved means, stationary states, units and divided steps hold for the action of the super operators on states.", "quantifier": "all solvers and histories of calls, dimensions, numbers of initial states, dissipation operators, time steps, controls, pulses, rates (also negative), and all methods whose exponentials are exact", "why_tests_cant": "Unit tests try a handful of fixed matrices/pulses; the claim is universal over sizes and entries, so no finite sample settles it.", "anchors": ["qopt/solver_algorithms.py: LindbladSolver._compute_dyn_gen, LindbladSolver._calc_diss_sup_op, SchroedingerSolver._compute_propagation, Solver._compute_forward_propagation, Solver.forward_propagators, Solver.propagators"]}
{"id": "C84", "title": "Sensitivity of the simulated evolution to its parameters", "statement": "Two Schroedinger solvers with Hermitian Hamiltonians whose step Hamiltonians times durations differ by at most K_t (as operators) return forward propagators that differ, state by state, by at most the difference of the initial states plus sum K_t times the norm of the initial state. So amplitude errors change the states by at most sum_t |tau_t| sum_c |du_c| ||H_c||, timing errors by at most sum_t |dtau_t| ||H_t||, a noise trace of a Monte Carlo solver is within sum_t |tau_t| sum_o |sample| ||N_o|| of the noise-free evolution, and the state moves by at most sum_t |tau_t| ||H_t|| from its start. The state fidelity and the entanglement fidelity differ by at most twice the bound for the states. The Frobenius norm is an operator bound.", "quantifier": "all solvers and histories of calls, dimensions, numbers of initial states, time steps, controls, pulses, noise samples and traces, Hermitian Hamiltonians, and all methods whose exponentials are exact", "why_tests_cant": "Unit tests try a handful of fixed matrices/pulses; the claim is universal over sizes and entries, so no finite sample settles it.", "anchors": ["qopt/solver_algorithms.py: Solver.forward_propagators, Solver.propagators, SchroedingerSolver._compute_propagation, SchroedingerSolver._compute_dyn_gen, Solver._compute_forward_propagation, SchroedingerSMonteCarlo._compute_dyn_gen_noise, SchroedingerSMonteCarlo.forward_propagators_noise", "qopt/cost_functions.py: entanglement_fidelity, state_fidelity"]}
{"id": "C85", "title": "Gaussian samples and bell curves", "statement": "The samples of sample_1dim_gaussian_distribution increase, the integral of the normal density between two adjacent samples is 1/n, the integral below the first one is 1/(2n). Their standard deviation is always smaller than the requested one and approaches it with the number of samples. bell_curve_2dim is the density of two independent normal variables; bell_curve_1dim is the density of a normal variable (area 1). sample_2dim_gaussian_distribution returns n_samples points of its grid, the k-th being the first, row by row, at which the accumulated share exceeds k/(n_samples+1).", "quantifier": "all numbers of samples, positive standard deviations (for the two-dimensional samples non-zero ones), means and points; erfinv characterised by its integral", "why_tests_cant": "Unit tests try a handful of fixed matrices/pulses; the claim is universal over sizes and entries, so no finite sample settles it.", "anchors": ["qopt/noise.py: sample_1dim_gaussian_distribution, inverse_cumulative_gaussian_distribution_function, bell_curve_1dim, bell_curve_2dim, sample_2dim_gaussian_distribution"]}
{"id": "C86", "title": "Evolutions known in closed form", "statement": "The forward propagators of a Schroedinger solver: an initial state that is a sum of common eigenvectors of all step Hamiltonians gets each of its parts multiplied with exp(-i sum_r E_r tau_r), also for durations that differ between the steps; if the step Hamiltonians are multiples a_r of an operator with square one, the state is turned by the pulse area theta = sum a_r tau_r, cos(theta) psi - i sin(theta) C psi; a two level system with detuning d and coupling g is found in its other level with probability |g|^2/(d^2+|g|^2) sin^2(sqrt(d^2+|g|^2) T). Those of a Lindblad solver with dissipation operators: sums of eigen-operators of the master equation get each part multiplied with exp(sum z_r tau_r); for diagonal Hamiltonians and dissipation operators every entry of the density matrix gets its own factor, the diagonal stays, and the squared modulus of entry i,j decays with the rate sum_q w_q |l_i - l_j|^2; under relaxation |0><1| with rate w the excited population decays with exp(-sum w tau) into the ground state, the coherence with half that rate.", "quantifier": "all solvers and histories of calls, dimensions, numbers of initial states, time steps, controls, pulses, rates (also negative), eigenvectors and coefficients, and all methods whose exponentials are exact", "why_tests_cant": "Unit tests try a handful of fixed matrices/pulses; the claim is universal over sizes and entries, so no finite sample settles it.", "anchors": ["qopt/solver_algorithms.py: Solver.forward_propagators, Solver._compute_forward_propagation, SchroedingerSolver._compute_propagation, SchroedingerSolver._compute_dyn_gen, LindbladSolver._compute_dyn_gen, LindbladSolver._calc_diss_sup_op"]}
{"id": "C87", "title": "Rabi driving example", "statement": "The solver of build_rotational_frame_solver driven with constant amplitudes a, b shows Rabi oscillations with the probability (a^2+b^2)/W^2 sin^2(W t/2), W^2 = detuning^2+a^2+b^2. The control amplitudes of build_lab_solver are the periodic signal a sin(f t + p); without drive its propagators are the identity in the rotating frame. transform_prop_to_rot_frame turns a propagator into the rotating frame, keeps it unitary and respects the composition of propagators; transform_ket_to_rot_frame turns states into the same frame. x_half and y_half are rotations by a quarter turn. The phase control maps amplitude and phase to a cos, a sin, its derivative function gives the gradient of every cost by the chain rule, and other shapes are refused. variance_f is the integral of the noise spectrum S1/f + S2/f^2; the noise density is S1/f up to a frequency and constant above. Random initial pulses lie within their bound and a seed fixes them.", "quantifier": "all detunings, resonances, numbers and lengths of time steps, amplitudes, phases, times, operators and states of two levels, spectra, generators of random numbers and seeds, and all methods whose exponentials are exact", "why_tests_cant": "Unit tests try a handful of fixed matrices/pulses; the claim is universal over sizes and entries, so no finite sample settles it.", "anchors": ["qopt/examples/rabi_driving/lab_frame_setup.py: build_lab_solver, build_rotational_frame_solver, transform_prop_to_rot_frame, transform_ket_to_rot_frame", "qopt/examples/rabi_driving/setup.py: amp_func_phase_control, amp_func_deriv_phase_control, lin_amp_func, x_half, y_half, variance_f, toms_spectral_noise_density, random_xy_init_pulse", "qopt/examples/rabi_driving/rabi_xy_setup.py: lin_amp_func, x_half, y_half, variance_f, toms_spectral_noise_density, random_xy_init_pulse"]}
{"id": "C88", "title": "Norms of operators", "statement": "op.norm() and op.norm('fro') return the non-negative root of the sum of the squared moduli of the entries; norm(1), norm(-1), norm(np.inf) and norm(-np.inf) the largest and smallest column and row sums of the moduli; norm(2) the largest factor by which the operator lengthens a vector, with norm(2) <= norm('fro') <= norm('nuc') and norm('fro') <= sqrt(n) norm(2). The norms 'fro', 1 and np.inf are zero only for the zero operator, scale with the modulus of a factor, and obey the triangle inequality; they and norm(2) are submultiplicative. dag keeps 'fro' and exchanges 1 and np.inf; 'fro' is multiplicative for kron, kept by vec and by multiplication with a unitary (whose own norm is sqrt(n)); |tr(A^dagger B)| <= |A| |B|, with |A|^2 for A = B. The forward propagators of a Schroedinger solver with Hermitian Hamiltonians keep the Frobenius norm of the initial state.", "quantifier": "all shapes and entries of operators, scalars and vectors; solvers after any history of calls", "why_tests_cant": "Unit tests try a handful of fixed matrices/pulses; the claim is universal over sizes and entries, so no finite sample settles it.", "anchors": ["qopt/matrix.py: DenseOperator.norm, DenseOperator.dag, DenseOperator.kron, DenseOperator.vec, DenseOperator.__mul__, DenseOperator.__add__, DenseOperator.tr", "qopt/solver_algorithms.py: Solver.forward_propagators"]}
{"id": "C89", "title": "Constructors", "statement": "Every class that is not abstract can be constructed with all arguments that fit to the signature of its __init__ (positional first, keywords for other parameters, nothing required left out): passing them on to the __init__ of the parents never fails. Other calls raise TypeError, and so does every call of a class with abstract methods. The object keeps every argument (or its default) as the attribute of the same name, with a leading underscore or under its documented alias, except those the constructor converts.", "quantifier": "all classes of the package, all calls (numbers of positional arguments, sets of keywords, values)", "why_tests_cant": "Unit tests try a handful of fixed matrices/pulses; the claim is universal over sizes and entries, so no finite sample settles it.", "anchors": ["qopt/solver_algorithms.py: Solver.__init__, SchroedingerSolver.__init__, SchroedingerSMonteCarlo.__init__, SchroedingerSMCControlNoise.__init__, LindbladSolver.__init__, LindbladSControlNoise.__init__", "qopt/cost_functions.py: CostFunction.__init__, OperatorMatrixNorm.__init__, OperationInfidelity.__init__", "qopt/transfer_function.py: TransferFunction.__init__, ExponentialMTF.__init__, CustomMTF.__init__", "qopt/optimize.py: Optimizer.__init__, LeastSquaresOptimizer.__init__", "qopt/noise.py: NoiseTraceGenerator.__init__, NTGQuasiStatic.__init__, NTGColoredNoise.__init__"]}
