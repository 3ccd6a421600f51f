# Formal model of qopt in Rocq — design

Subject: `qutech/qopt`, source in `/repo` (python). The model lives in `rocq/theories`.
This file says what is modelled, how each property of `properties.jsonl` is stated and
proved, and what the result rests on. (Filled in before the proofs, kept current since.)

## 1. Modelling decisions

* **Numbers.** floating point numbers are modelled by exact numbers: a record `OField`
  (ordered field with decidable order). All theorems quantify over it. Two instances are
  constructed: `Qc` (canonical rationals, computable, used for the witnesses by
  `vm_compute`) and the stdlib reals `R`. Complex numbers are pairs over the field.
  Rounding errors, NaN, infinities and overflow are *not* modelled.
* **Arrays.** numpy arrays are `arr T := {shape : list nat; data : list T}` in C order; `reshape`
  keeps the data, `transpose` permutes. DenseOperators are rank 2 complex arrays.
* **Exceptions** are values: `Ok v | Err e` with `e` the python exception class. Stateful methods
  return the new state also on failure, so partial updates before a `raise` are visible.
* **Aliasing.** where python shares mutable arrays (in-place `*=`, default arguments, module level
  dictionaries, lists handed in by the caller) the model has an explicit heap.
* **External code** (LAPACK eig/svd, scipy `expm`, `expm_frechet`, `erfinv`, numpy random,
  scipy optimisers, `time.time`, pickle) is a parameter of the model; what is assumed about it is a
  visible hypothesis of the theorem.
* **Where the code is wrong** the model is faithful, the property is refuted for the model by a
  theorem `..._refuted` with a concrete witness, and the strongest version that does hold is proved
  (suffix `_partial` if it covers only part of the stated property).

## 2. Files

| files | content |
|---|---|
| `LibRing LibArr LibCplx LibBase LibMat LibNorm LibDeriv LibSum LibSeries LibEx LibGauss LibGauss2` | numbers, arrays, matrices, sums, power series, exceptions, helpers for examples, the error function |
| `M_Matrix M_OpHeap` | model of `matrix.py` |
| `M_Transfer` | model of `transfer_function.py` |
| `S_Linear S_Exp S_PTrace S_Transfer S_OpHeap` | specifications, written without the model's helper functions |
| `M_Amplitude S_Deriv S_Amplitude` | model and specification for `amplitude_functions.py` |
| `M_Solver M_Pool M_SolverHeap` | model of `solver_algorithms.py`: objects with caches, worker pools, operators as heap objects |
| `S_Solver S_SolverTimes S_Lindblad S_Channel S_ChannelCost S_ChannelSuper` | specification: client histories (with and without set_times), generators, master equation, quantum channels, what the costs of noisy evolutions read |
| `M_Cost M_CostDeriv M_CostSub S_Cost S_CostGrad S_CostDeriv S_CostSub` | model and specification for `cost_functions.py` |
| `M_Simulator M_CostProg M_SimCheck S_Simulator S_SimCheck` | model and specification for `simulator.py`; cost functions as programs that read their solver |
| `S_Gradient` | specification of the gradient of the whole chain |
| `S_Invariance` | specification of the symmetries of the simulated evolution |
| `S_OpenSym` | specification of the symmetries of the evolution of open systems |
| `S_OpenSuper` | the same with the dissipation given as super operators or by a function |
| `S_Closed` | specification of evolutions known in closed form: step Hamiltonians, eigenvectors, involutions, dephasing rates, relaxation |
| `M_Rabi S_Rabi` | model and specification for `examples/rabi_driving`: frames, gates, phase control, noise spectrum, random pulses |
| `M_Norm S_Norm` | model and specification for `DenseOperator.norm` |
| `M_Init S_Init` | python's binding of arguments, the constructors of all classes (which parameters they pass on and store), abstract methods |
| `S_Sensitive` | specification of distances, operator bounds and changes of the parameters |
| `M_Optimizer M_Anneal S_Optimizer S_Anneal` | model and specification for `optimize.py` |
| `M_Data M_Parallel S_Data` | model and specification for `data_container.py`, `optimization_data.py`, `analyser.py` (n_least_square), `parallel.py` |
| `M_Stats M_Absolute S_Stats` | model and specification for the recorded times (`performance_statistics.py`, `simulator.py`, `optimize.py`, `analyser.py`) and the absolute costs (`analyser.py`) |
| `M_FilterFn S_FilterFn` | model and specification for the interface to the package `filter_functions` (`solver_algorithms.py`, `cost_functions.py`) |
| `M_Noise S_Noise M_Bell S_Gauss` | model and specification for `noise.py`; bell curves, normal densities, integrals |
| `M_Copy` | model of `DataContainer.__deepcopy__` and of python's deepcopy of lists |
| `M_Bloch S_Bloch M_Spectrum S_Spectrum` | model and specification for `plotting.py` (points on the Bloch sphere) and `energy_spectrum.py` |
| `P_*` | proofs; `P_Wit`, `P_DexpWit`, `P_TransferWit`, `P_SolverWit`, `P_SolverCases`, `P_SolverCases2`, `P_LindbladWit`, `P_CostWit`, `P_CostDerivWit`, `P_SimulatorWit`, `P_GradWit`, `P_GradNoiseWit`, `P_SimCheckWit`, `P_StatsWit`, `P_ChannelWit`, `P_ChannelSuperWit`, `P_OpenSuperWit`, `P_OpenSuperCases`, `P_ChannelFidWit`, `P_OptimizerWit`, `P_DataWit`, `P_NoiseWit`, `P_FilterFnWit`, `P_CostSub3`, `P_GradPartWit`, `P_InvarianceWit`, `P_Bloch2`, `P_SpectrumWit`, `P_OpenSymWit`, `P_OpenSymCases`, `P_SensitiveWit`, `P_SensitiveWit2`, `P_GaussWit`, `P_ClosedWit`, `P_RabiWit`, `P_NormWit`, `P_InitWit` hold the concrete witnesses |
| `T_Matrix` (C01-C12), `T_Transfer` (C13-C21), `T_Amplitude` (C22), `T_Solver` (C23-C34), `T_Cost` (C35-C43), `T_CostDeriv` (C73, C74), `T_Simulator` (C44-C45, C70), `T_Gradient` (C66, C69, C75), `T_Channel` (C67, C68), `T_ChannelSuper` (C67), `T_OpenSuper` (C83), `T_Stats` (C71, C72), `T_Optimizer` (C46-C52, C62), `T_Data` (C53-C56), `T_Noise` (C57-C61, C63-C65), `T_Filter` (C76, C77), `T_Part` (C78), `T_Invariance` (C79), `T_Copy` (C80), `T_Bloch` (C81), `T_Spectrum` (C82), `T_OpenSym` (C83), `T_Sensitive` (C84), `T_Gauss` (C85), `T_Closed` (C86), `T_Rabi` (C87), `T_Norm` (C88), `T_Init` (C89) | the theorems, their assumptions, a concrete case per property |

## 3. Properties: model and proof plan

C01-C03, C05: `mat*` operations as sums over indices; ring reasoning over finite sums.
C04: rank-n arrays, mixed radix index arithmetic; induction over the list of factors.
C06: heap of arrays, operator expressions as a small language; frame invariant by induction over programs; `c06_values` gives the entries of the result of every statement, against the specification in `S_OpHeap`.
C07: spectral exponential from an eigen-decomposition oracle; unitarity from the decomposition's contract.
C08: directional derivative of truncated exponentials (epsilon coefficient of the polynomial in A + eps D, and real derivative).
C09, C10: refutations with witnesses, and positive partial statements.
C11, C12: entry-wise specification; SVD contract as hypothesis.
C13-C21: transfer function objects with their mutable times/cached matrix; adjointness as an identity of bilinear forms.
C22: real derivative (stdlib `derivable_pt_lim`) of composite functions.
C23-C28: solver state machine; telescoping by induction on the propagator list; cache coherence as an invariant over call histories.
C29-C31: Monte Carlo generators; pool as arbitrary permutation of task completions.
C32-C34: vectorisation identities; heap for the dissipation operators. C28 for the Lindblad solver: the directions as super
operators; entries of a super operator from its action on the matrix units.
C35-C43: fidelities as complex arithmetic; Cauchy-Schwarz for the bounds; derivative by real analysis.
C38: the gradient is a total derivative: along every curve of amplitudes the fidelity changes by the sum of
gradient entry times velocity (`is_gradient`); the partial derivatives are the case of one moving amplitude (`only`).
C44-C45: simulator as fold over cost functions.
C46-C53: optimiser wrappers as a state machine with heap for cost arrays; annealer moves as functions of the random draws.
C54-C56: data container log invariants, dictionary round trip, argmin. c54_list_indices, c55_container_names, c55_result_names, c55_file_name and c55_file_errors were added after wrong programs survived (comparison of lists by identity, unknown names accepted, other file names, a missing file read as an empty container).
C57-C62: noise generators, rounding to powers of two, integer formatting.
C66: a curve of pulses is carried through the transfer function (affine, C16), the amplitude function (C22), the
generators and exponentials (C28) to the fidelity (C38); the simulator lays the gradients out (C44).
C67: one small step 1 + h G + h^2 K.K^+ is a sum of Kraus terms; its m-th power tends to exp(G) (`chernoff`), complete
positivity is closed under products and limits, the trace is constant along the differential equation. Dissipation given as
super operators or by a function: a weighted sum of dissipations is one dissipation with the weights multiplied (`flatten`).
C68: the fidelity is v^+ J v for the Choi matrix J of the evolution and the vectorised target v; v^+ J v <= |v|^2 tr J
holds for every positive J (sum of v^+ J v over pairs of entries), tr J and |v|^2 are the dimension of the target.
C69: the partial derivatives of C66 are limits of the quotients of C45; one bound for the finitely many entries; the norm
of the difference is at most the largest entry times the number of entries.
C70: the attributes check() reads, after any sequence of pulse assignments.
C71: the clock as a sequence of readings; forgetting the statistics maps a recorded run to a run of C46-C50; invariant over
 the run: begin plus all recorded times is not behind the last reading.
C72: entry-wise.
C73: the sum of tr(o X o Y) over the Pauli matrices and the identity is 2 tr X tr Y; with it every entry is 2/3 of the derivative
of the entanglement fidelity (C38). C74: the entry of one time step; refutations by evaluation.
C75: every read of a Monte Carlo solver after a pulse as a value (`mc_reads`); the final propagators of all traces are curves of the
amplitudes as in C66, with the noise as part of the drift; if the target is the noiseless propagator, both arguments of the fidelity move.
C76: invariant of the solver with its kept pulse sequence (`inv` in `P_FilterFn3`) over all client histories; the package is a record of functions with contracts.
C77: the arguments of the calls and the layout of the result; the refutations hold for every Monte Carlo solver.
C78: the partial trace of C04 as a sum over the basis states of the removed subsystems; Cauchy-Schwarz per summand for the range and for the case of equality; `c78_pulse` is the gradient through the whole chain, by the argument of C66.

C79: C23 gives every step as the exponential of its generator; `exp(tX)` is unique as the solution of its differential equation, so a matrix V with V X = X' V carries exp(tX) to exp(tX') (`mexp_carry`, any shape of V), exp((s+t)X) = exp(sX) exp(tX) and exp(t(X + c 1)) = e^{ct} exp(tX); the rest is induction over the time steps. The fidelities are unchanged by c35/c36. The cases are qubits (and a qubit embedded in three levels) with two to four time steps, drifts that do not commute, and the exact exponential.
C80: python's deepcopy of nested lists as a function on the heap of C55; the copy lives above the old end of the heap, so no statement on one reaches the other.
C81: the Pauli expectation values of U psi entry by entry; `describes` says |phi><phi| = (1 + r.sigma)/2; the angle follows from tr of the product of two such matrices. `c81_solver` combines it with C23.
C82: sums of non-negative reals; the mixture is unique up to a positive factor, which the brightest component fixes. Column i of a unitary V with H = V diag(w) V^dagger is an eigenvector.
C83: C67 gives the generator of every step as the super operator that does what the master equation says; super operators that do the same are equal (`acts_unique`), so the first three and the units reduce to identities of the master equation. For a unitary V the super operator rho -> V rho V^+ carries one generator to the other, hence the exponentials (`mexp_carry`). The mean of Q is a row vector the generator maps to zero; stationary states are columns it maps to zero. Without rates, U rho U^+ solves the same equation as the exponential. Cases: a qubit with two or three steps, drifts that do not commute, decay or dephasing with rates that change, complex factors and displacements, and the exact exponential. For dissipation given as super operators or by a function (`T_OpenSuper`), a solver is described by the map `Di` it applies to the states in each time step (`damped_by_operators`, `damped_by_function` in `S_OpenSuper`); offset, basis, conserved quantities, stationary states, other units and divided time steps are proved for it, with the dissipation hypotheses stated on that map, and `c83_super_operators` gives the same propagators as a solver with dissipation operators of the same action, so the other symmetries carry over to it from such a solver.
C84: for skew Hermitian X and Y, exp(-tX) exp(tY) v moves with a speed of at most ||Y - X|| ||v|| (`mexp_apart`, Cauchy-Schwarz and the mean value theorem for the real part of an inner product), so one step separates the states by at most K_t ||v||; the unitary steps keep distances and norms, and the bounds add up (`path_gap`). Fidelities are squares of inner products of modulus at most 1 (`squares`, `squares_scaled`). Cases: a qubit whose amplitude, duration or noise differs by 0.01, with the resulting numbers.
C85: `LibGauss` proves E(t)^2 + G(t^2) = pi/4 for E(t) the integral of exp(-x^2) up to t and G(s) the integral of exp(-s(1+x^2))/(1+x^2) over [0,1] (differentiation under the integral by hand), with 0 <= G(s) <= exp(-s), hence erf tends to 1; `LibGauss2` inverts erf by the intermediate value theorem and integrates normal densities. The standard deviation: the square of the inverse of erf is convex in the share, so each square at the middle of a cell is below its mean over the cell (`cell_lt`, by a function with derivative erf' times a non-negative one; the two unbounded cells by a limit), and the means add up to the variance; from below, the cells are moved by half a width towards the middle (`square_above`). The two-dimensional selection is described for any cells with shares of at most 1/(n+1) (`select_spec`); the shares of the grid are bounded by exp(-1/2) on the inner 2000 points of each direction, the left out row and column by exp(-12)/2000.
C86: `mexp_eigen` in `P_Closed`: exp(tau X) v = exp(tau z) v for X v = z v, from `mexp_shift` (X - z 1 and X commute) and `mexp_zero`; `spectral_steps` runs it through the time steps of either kind of solver. A rotation splits the state into the eigenvectors (psi +- C psi)/2 of the involution. The Lindblad theorems use the n^2 matrix units as modes for diagonal operators, and four modes for relaxation.
C63-C65: discrete Fourier inversion from a primitive root of unity; Parseval-free, entry by entry.

C87: `P_Rabi` computes the exponentials of sigma_z/2, sigma_x and sigma_y from any decomposition numpy may return (`spectral_independent`) and the entries of the transformed operators; `P_Rabi2` reads the parts of the two solvers off their constructors and applies `rabi` and `spectral` of C86; `P_Rabi3` has the phase control (chain rule of C22), the integral of the spectrum by its antiderivative and the random pulses.
C88: `P_Norm` reads the Frobenius norm as the length of the vector of all entries (Cauchy-Schwarz and Minkowski of `LibNorm`), the sums by induction over the maximum; unitary factors through tr(A^dagger A). `P_Norm2`: the decomposition A = U diag(s) W turns a vector by two unitaries, so the largest singular value bounds and attains the stretching; the sums of s and of s^2 give the other orders. `evolution_norm` combines it with the unitarity behind C84.
C89: `P_Init` proves that the binding succeeds exactly for calls that fit. `P_Init2`: a constructor commutes with every map of values that respects None (`run_fm`), so its run on arbitrary values is the image of one run on symbols, which the kernel computes for every class of the table. The table was extracted from the syntax trees of the sources.

### Findings in `transfer_function.py`

* Matrix transfer functions keep the cached matrix across `set_times`. A later call raises `ValueError`, or returns
  wrong values if the first grid had one step (c17_cached_matrix_raises_refuted, c17_cached_matrix_wrong_refuted).
* `CustomMTF` with `x_times` stores the argument of `set_times` as `x_times` and never sets `y_times`; every
  later call raises (c13_custom_refuted). Without `x_times` the first `set_times` stores the computed grid in the same
  attribute, so the next one (a second solver with the same transfer function, or new times) takes the other
  branch: `x_times` becomes the pulse grid while `num_x`, `y_times` and the matrix stay (c13_custom_twice_refuted).
  With padding, `int()` rounds a number of rows that does not fit, and `num_x` differs from the rows of the
  result (c13_custom_rows_refuted). The length of the grid is not compared with the matrix (c13_custom_length_refuted).
* `ConvolutionTF.gradient_chain_rule` always uses mode 'reflect' and does not flip the kernel
  (c16_mode_refuted, c16_asymmetric_kernel_refuted).
* `ConcatenateMTF` cannot be called (c18_matrix_refuted).
* `ParallelMTF` drops the offsets of its parts (c19_offset_refuted); `ParallelTF` does not compare `num_x`.
* `ExponentialMTF` uses only the first time step, and raises for one step with padding shorter than the
  oversampling (c20_one_step_refuted).
* `ExponentialMTF.old_call` (l.1444) and `ExponentialMTF.reverse_state` (l.1578) read `self.xtimes`, and the latter also
  `self.start_value` (l.1601), attributes that no class of the package sets: every call ends with an AttributeError (read in the
  source; the two methods are not modelled).

Not modelled in `transfer_function.py`: plotting, `reverse_state`, the deprecated `GaussianMTF`, the
values of the Gaussian kernel (any kernel is allowed).

### Findings in `amplitude_functions.py`

* `CustomAmpFunc` accepts functions that mix time steps (pulse filtering in the amplitude function), but the
  derivative array has only one time index, so the gradient is wrong for them (c22_mixed_times_refuted).
* `UnaryAnalyticAmpFunc` uses `np.vectorize`, which raises on empty arrays (modelled; hence `0 < T`, `0 < P`).

### Findings in `solver_algorithms.py`

* `set_optimization_parameters` stores the parameters before checking them, so a retry of a rejected call
  returns silently with the old amplitudes (c26_retry_refuted).
* `set_times` keeps `_opt_pars` and `_ctrl_amps`, so setting the same parameters again does nothing
  (c26_set_times_refuted). The list of drift Hamiltonians keeps its length (c26_drift_refuted).
  A LindbladSolver with constant dissipation keeps its list of dissipation super operators too: after set_times with
  fewer steps a solver that was read before works and a fresh one raises AssertionError (c26_dissipation_refuted).
* An exception while propagating leaves `_prop` filled with `None`; the next read returns it (c25_failed_read_refuted).
* With the identity transfer and amplitude functions the solver keeps the caller's array and reads it lazily
  (c25_in_place_refuted).
* Reading the derivatives overwrites the propagators by the exponentials of `dexp`, which differ for the series
  methods; cached products stay (c23_series_refuted).
* 'grape' returns derivatives as [time][control] and, with `calculate_propagator_derivatives`, depends on the
  order of reads (c28_grape_refuted, c25_grape_refuted).
* Noise samples with fewer time steps than the solver leave the remaining steps without noise
  (c29_short_samples_refuted).
* `SchroedingerSMCControlNoise` adds noise to the parameters, but the derivatives of its noisy propagators treat the noise
  amplitudes as constants: with a nonlinear amplitude function the gradient is wrong, for a square and the parameter 0 it
  vanishes where the costs do not (c75_control_noise_refuted).
* `_calc_diss_sup_op` adds the other initial super operators to the first one in place; every evaluation
  adds them again (c34_sum_refuted).

* `create_pulse_sequence` with a kept pulse sequence assigns `c_coeffs` in the order of the controls (l.738), but the package
  sorts its operators by their identifiers when the sequence is created. With more than ten controls 'Control10' is before
  'Control2', and the amplitudes go to the wrong operators (c76_reordered_refuted). That the package sorts is not part of
  /repo; it is the hypothesis `sorts`.
* `SchroedingerSMonteCarlo.create_ff_h_n` does not store `filter_function_n_oper_identifiers` (c77_monte_carlo_refuted) and calls
  a callable noise Hamiltonian with one argument only, where the base class passes three (c77_callable_refuted).

Not modelled in `solver_algorithms.py`: `LindbladSControlNoise` (unfinished in the source), `plot_bloch_sphere`, logging.

### Findings in `cost_functions.py`

* `OperationInfidelity.grad` ignores `map_to_closest_unitary` (c38_closest_unitary_refuted).
* `OperationNoiseInfidelity` with `neglect_systematic_errors` and computational states compares the truncated
  propagator with itself, so identical traces cost 1 - p^2, p the population that stays (c41_no_noise_subspace_refuted).
* `angle_axis_representation` tests entry [0, 0] of u u^dagger twice and never [1, 1] (c43_second_row_refuted).
* `OperatorMatrixNorm` cannot be constructed (`super().__init__()` lacks the solver; c89_matrix_norm_refuted).
* `derivative_entanglement_fidelity_with_du` tests `if computational_states`, the fidelity tests `is not None`; they
  differ for an empty list (visible in the model: `trunc_if`, `trunc_opt`).
* `state_fidelity_subspace` indexes a scalar when the imaginary part is large: IndexError instead of the warning
  (c78_warning_refuted).
* `StateInfidelitySubspace` has costs for vectorised density matrices, but its gradient raises AssertionError
  (c78_vectorised_gradient_refuted).
* `LeakageLiouville` returns an array of shape (1,) (modelled by its entry).
* The deprecated `derivative_entanglement_fidelity` multiplies by all durations at once (`2 / d / d * delta_t`, not `delta_t[t]`): with
  the list its docstring asks for it raises TypeError (c74_list_refuted), with an array of two or more durations numpy cannot
  write the result into one entry (c74_steps_refuted).
* `derivative_average_gate_fidelity` takes one duration for all time steps, and all functions for the average gate fidelity work for
  two dimensions only (c73_dimension, c42).

Not modelled in `cost_functions.py`: `OperatorMatrixNorm` (see above); of `OperatorFilterFunctionInfidelity` the calls of the filter_functions package
are parameters (`M_FilterFn`).

### Findings in `simulator.py`

* The setter of `pulse` takes the shape from the old pulse; with no old pulse it raises AttributeError (`set_pulse`).
  So `check()` refuses a fitting pulse of a new shape until it is set a second time, and time steps given as a list, which the
  docstring allows, always raise AttributeError there (`c70_..._refuted`).
* A cost function whose solver is not in the simulator's list is evaluated at that solver's old pulse (hypothesis `set_up` of C44).
* `numeric_gradient` leaves the solvers at the last shifted pulse.
* The docstring of `CostFunction.grad` gives the axes (time, control, function); `wrapped_jac_function` needs (time, function, control).

* With `numeric_jacobian` the evaluations of the gradient are recorded as cost function times (c71_numeric).

### Findings in `optimize.py`

* Cost weights are applied in place (`costs *= weights`) to the array that was stored as the minimum and in the
  summary, after the comparison: the stored minimum holds weighted costs and new unweighted costs are compared
  with them, so a worse evaluation can replace the best one (c48_weights_refuted).
* The stored best parameters are a view of the array the optimiser passed; an optimiser that reuses its buffer
  changes them (c48_alias_refuted).
* A wall time exceeded before the first evaluation ends in AttributeError with `use_jacobian_func`
  (c48_early_abort_refuted).
* `write_state_to_result` passes parameters of shape (num_t, num_ctrl) to a wrapper that expects the flat vector and
  un-flattens it again: the gradient norm of an aborted run belongs to a scrambled pulse when num_t > 1 and num_ctrl > 1
  (c50_refuted). Without jacobian it is 0 (c50_no_jacobian_refuted). The call is one more jacobian evaluation.
* `self.termination_conditions = default_termination_conditions` shares one dictionary between all optimisers;
  `SimulatedAnnealing` thereby sets `max_wall_time` to 1e8 for every optimiser of the process (c51_refuted).
* `max_cost_func_calls` is never read. `SimulatedAnnealing.run_optimization` does not catch `WallTimeExceeded`.
* Integer pulses truncate bounds that are not integers (c52_integer_refuted).
* `write_state_to_result` writes the end time before its additional jacobian evaluation; for the least squares optimiser
  nothing corrects it, so the gradient share of an aborted run can exceed 1 (c71_aborted_refuted).
* A result holds the statistics object of the simulator: direct evaluations after the run are added to it
  (c71_later_refuted). The next run takes a new object (c71_earlier).

Model: the simulator is a program with its own state (`simc`, `simj`); scipy's minimisers are arbitrary terminating
interactive programs that call the two wrappers and read the clock (`sp`); the norm is its square; arrays
handed over by reference are heap cells, so that in-place weights and reused buffers are visible; random draws of the
annealer are arguments. Not modelled: scipy's own termination tests, the annealing schedule of `simanneal`
(any sequence of moves and returns to earlier states is covered), logging. The recorded times are in `M_Stats`: a run
with them is a run without them and a heap of statistics objects (c71_same_run); those of the annealer (l.857-858) are
not modelled.

### Findings in `data_container.py`, `optimization_data.py`, `analyser.py`, `parallel.py`

* `absolute_costs` returns roots of sums of squares, its docstring says sums (c72_sum_refuted); a run with one cost
  function among runs with k counts it k times (c72_broadcast_refuted); a run without a stored evaluation makes it raise.
* `OptimizationResult.to_dict` leaves out `status`; reading the dictionary back gives None (c55_result_refuted).
* `DataContainer._from_dict(d._to_dict())` shares its lists with `d`: appending to one changes the length of the
  other (c55_shared_refuted). A container whose indices are None reads back with `[]` (c55_none_indices_refuted).
* `DataContainer.__deepcopy__(self)` has no `memo` argument, so `copy.deepcopy(container)` raises `TypeError` (c80_deepcopy_refuted).
* `check_length` is `pass`; the property `index` returns the bound method `list.index`.
* An empty container created with indices takes over the indices of the first result appended to it.
* No optimiser passes `init_parameters` to `OptimizationResult`, so the container stores None for every run.
* An aborted run without evaluation has `final_cost` `np.inf` among vectors; `n_least_square` then raises
  `ValueError` (c56_value_error).
* Forked workers start from the same numpy random state: runs of a stochastic optimiser in different
  processes use the same random numbers. The model passes the process state explicitly.
* Not modelled: NaN costs, plotting, the time functions of `Analyser`, objects pickle rejects.

### Findings in `noise.py`

* `NTGQuasiStatic.__init__` with `correct_std_for_discrete_sampling` (the default) writes the corrected values into the
  caller's list (c59_refuted); a second generator built from the same list corrects again (c59_second_refuted).
* The correction divides by the standard deviation of `n_traces` times the number of operators samples, but each operator
  gets `n_traces` samples: wrong for two or more operators (c58_two_refuted). With two operators and one trace each the
  check for a single trace passes and all noise is zero (c58_single_refuted).
* The default `n_traces=1` with the default correction and one operator raises `RuntimeWarning` as an exception.
* Counts that are None or 0 are looked up in `noise_samples`, which samples again: `RecursionError`. Deterministic sampling
  with `n_traces=0` leaves an empty array cached and raises `ZeroDivisionError`.
* Monte Carlo sampling with no `n_samples_per_trace` and no redraw gives traces of one sample.
* `fast_colored_noise` with an odd number of samples takes the density at `j/((n-1) dt)` instead of `j/(n dt)`
  (c64_odd_refuted). `NTGColoredNoise` never rounds, so an odd product of samples and ratio is affected.
* The docstring of `fast_colored_noise` says the number of samples is rounded down to a power of two; the code rounds up
  (c61_rounded).
* `bell_curve_1dim` is normalised with `1/(2 pi std)` instead of `1/(sqrt(2 pi) std)`: the area under it is
  `1/sqrt(2 pi)`, below one half (c85_bell_1dim_refuted).
* `sample_2dim_gaussian_distribution` takes at most one sample per grid point, so it returns fewer than `n_samples` samples
  for more than 10^8 (c85_2dim_refuted). The loops leave out the last row and column of the grid (share below 10^-6).
* erfinv, the square root and the roots of unity are parameters with contracts: odd, positive, midpoint convex on [0,1);
  non-negative root of non-negative numbers; primitive root of norm one. The examples use the cube for erfinv, the real
  square root and cos, sin. The real inverse of the
  error function meets these contracts (c85_erfinv). Not modelled: plotting, rounding of `np.log2` above 2^48.

### Findings in `plotting.py`, `energy_spectrum.py`

* `plot_bloch_vector_evolution` multiplies the propagators by the initial state: the forward propagators of a solver whose
  initial state already is a ket raise `ValueError` (c81_errors). A density matrix as initial state is multiplied from the
  left only (not modelled, read off).
* `vector_color_map` documents vectors and colours as columns but reads and returns rows (c82_columns_refuted).

### Findings in `examples/rabi_driving`

* `transform_ket_to_rot_frame` (`lab_frame_setup.py` l.200) has the opposite sign of `transform_prop_to_rot_frame`
  (l.168-171): the states come out in a frame that rotates the other way. A state that rests in the rotating frame comes
  out turned by twice the angle, after a quarter period orthogonal to itself (c87_ket_refuted).
* `random_xy_init_pulse(seed=0)` does not seed: `if seed:` (`setup.py` l.334, `rabi_xy_setup.py` l.217; c87_seed_refuted).
* `x_half` and `y_half` are exp(+i pi/4 sigma), rotations by minus a quarter turn in the usual convention
  (c87_x_half, c87_y_half; not counted as an error).
* The comment on the frequency range in `setup.py` (l.151-152) does not describe `f_qs_min`, `f_qs_max` (read off).

## 4. Trusted base

* The kernel of Coq 8.16.1. No axiom is declared in `rocq/theories`, no kernel check is switched off.
* What `Print Assumptions` lists under each theorem. This is nothing for most theorems. Where the reals of the standard
  library occur it is `ClassicalDedekindReals.sig_forall_dec`, `ClassicalDedekindReals.sig_not_dec`,
  `FunctionalExtensionality.functional_extensionality_dep` and, for some theorems on limits, `Classical_Prop.classic`.
* The transcription from python. Every model definition cites file and lines; the comment also states what it leaves out.
* Exact arithmetic: rounding, nan, infinities and overflow are outside of the model.

What the model contains, per file of `/repo/qopt`:

| file | modelled | not modelled |
|---|---|---|
| `matrix.py` | `DenseOperator` and the functions at the end of the file | `__truediv__` by an ndarray, `__getitem__`, `flatten`, `clean`, `spectral_decomposition` (a parameter of C82), the abstract methods of `OperatorMatrix`, the stub `SparseOperator` (l.1310) |
| `transfer_function.py` | all classes except the one on the right | `plot_pulse`, `ExponentialMTF.old_call`, `.plot_pulse_old`, `.reverse_state` (l.1438-1500, 1564-1612), `exp_saturation` (l.1402-1404), the deprecated `GaussianMTF` (l.1615-1716) |
| `amplitude_functions.py` | everything | |
| `solver_algorithms.py` | `Solver`, `SchroedingerSolver`, `SchroedingerSMonteCarlo`, `SchroedingerSMCControlNoise`, `LindbladSolver`, the interface to `filter_functions` | `plot_bloch_sphere` (l.751-779), the methods of `LindbladSControlNoise` (l.2149-2197; it can be constructed, but its `_compute_propagation` calls `np.array(shape=...)`, l.2159, which raises `TypeError`) |
| `cost_functions.py` | everything except the class on the right | `OperatorMatrixNorm` (l.222-402, cannot be constructed) |
| `simulator.py` | everything | the printed warnings |
| `optimize.py` | everything except what is on the right | the time stamps of the annealer (l.857-858), the loop of the package `simanneal` (a parameter), printed output |
| `data_container.py` | everything | |
| `optimization_data.py` | everything | |
| `analyser.py` | everything except the plots | `plot_costs`, `plot_absolute_costs` |
| `parallel.py` | everything | |
| `performance_statistics.py` | everything | |
| `noise.py` | `sample_1dim_gaussian_distribution`, `bell_curve_1dim`, `bell_curve_2dim`, `sample_2dim_gaussian_distribution`, `fast_colored_noise`, the noise trace generators | `plot_periodogram` |
| `util.py` | `closest_unitary` | `timeit` (l.89-111); the decorators only print |
| `plotting.py` | the points of `plot_bloch_vector_evolution` | the sphere itself |
| `examples/rabi_driving` | `lab_frame_setup.py`; of the two other modules the gates, amplitude functions, noise spectrum and random pulses | the solvers and cost functions they build from the classes above |
| `energy_spectrum.py` | the colours and the arguments of the scatter calls | the drawing |

Code outside of the repository that is a parameter of the model, with the promises that theorems assume as visible hypotheses:
LAPACK `eigh`, `eig`, `svd` and scipy `expm`, `expm_frechet` (record `LinAlg`), numpy's square root, exponential and logarithm, `erfinv`,
the random numbers of numpy, scipy's optimisers, `simanneal`, `filter_functions`, `time.time`, the file system behind pickle, the
scheduling of `multiprocessing.Pool`.

## 5. Build history

Commits 43e769f, 239f9e2 and 0ce702c do not build: the example `c08_case` in `T_Matrix.v` stated a wrong
value, (15+28i)/6 instead of (16+16i)/6, and the truncated build output hid the error. Only the
example was wrong, no theorem statement or model definition changed in the repair (a869c22). Every later
milestone was checked by the exit status of a complete build.
