(** Model of the construction of objects: how python binds the arguments of a call to the parameters of __init__, how the
    classes of qopt pass them on to the __init__ of their parents and store them as attributes, and which classes have
    abstract methods.  The values are the arguments of the client, None, and the values of other expressions, which are
    represented by their source text.  Not modelled: the checks of the values in the bodies (if ...: raise, assert), the calls of
    other methods (Solver.__init__ l.327 set_times and l.343 consistency_checks, DataContainer.__init__ l.142 check_length), and what is
    assigned to attributes in branches and loops: such an attribute gets the text "line ..." of the statement.  An argument that the body changes in place
    (NTGQuasiStatic.__init__ l.463 corrects the list standard_deviation) is still the same object.
    The decorators deprecated and needs_refactoring (util.py l.58-86) hand on all arguments.  Left out: the exception class
    WallTimeExceeded (optimize.py l.102) and PulseAnnealer (l.644), whose parents are not part of qopt.  OptimizationResult and the like inherit from object. *)
Require Import List Arith Bool String.
From Verif Require Import LibBase.
Import ListNotations.
Local Open Scope res_scope.
Local Open Scope string_scope.
Set Implicit Arguments.

(** expressions on the right hand sides: a parameter, a parameter or a text if it is None (if p is None: p = ...), None, anything else *)
Inductive expr := EPar (p : string) | EDef (p text : string) | ENone | ETxt (text : string).
(** statements of __init__: self.a = e, super().__init__(k=e, ...) *)
Inductive stmt := SSet (a : string) (e : expr) | SSuper (kws : list (string * expr)).
(** parameters with their defaults; the first parameter self is left out *)
Definition signature := list (string * option expr).
(** name, parent, __init__, names of the methods, names of the abstract methods *)
Record cls := Cls { c_name : string; c_parent : option string; c_init : option (signature * list stmt); c_methods : list string; c_abstract : list string }.

(** the values *)
Inductive val (V : Type) := VNone | VGiven (v : V) | VText (text : string).
Arguments VNone {V}. Arguments VGiven {V}. Arguments VText {V}.
(** what the code does with values: None, other expressions, "if p is None: p = ..." *)
Record vops (A : Type) := { v_none : A; v_text : string -> A; v_or : A -> string -> A }.
Definition val_ops (V : Type) : vops (val V) :=
  {| v_none := VNone; v_text := VText; v_or := fun v t => match v with VNone => VText t | _ => v end |}.

Section Values.
Variable A : Type.
Variable ops : vops A.
Fixpoint assoc (p : string) (l : list (string * A)) : option A :=
  match l with [] => None | (k, v) :: r => if k =? p then Some v else assoc p r end.
Definition has (p : string) (l : list (string * A)) : bool := match assoc p l with Some _ => true | None => false end.
Definition eval (frame : list (string * A)) (e : expr) : res A :=
  match e with
  | EPar p => match assoc p frame with Some v => Ok v | None => Err UnboundLocalError end
  | EDef p t => match assoc p frame with Some v => Ok (v_or ops v t) | None => Err UnboundLocalError end
  | ENone => Ok (v_none ops)
  | ETxt t => Ok (v_text ops t)
  end.
(** the call of a python function without *args and **kwargs: too many positional arguments, an unknown keyword, a parameter given
    twice and a missing one raise TypeError *)
Definition bind_args (sig : signature) (args : list A) (kws : list (string * A)) : res (list (string * A)) :=
  check (List.length args <=? List.length sig)%nat else TypeError ;;
  given <- foldM (fun g kv => check existsb (fun q => fst q =? fst kv) sig else TypeError ;; check negb (has (fst kv) g) else TypeError ;; Ok (g ++ [kv])%list) kws (combine (map fst sig) args) ;;
  mapM (fun q => match assoc (fst q) given with
                 | Some v => Ok (fst q, v)
                 | None => match snd q with Some e => v <- eval [] e ;; Ok (fst q, v) | None => Err TypeError end
                 end) sig.
(** attributes: the last assignment counts *)
Definition set_attr (a : string) (v : A) (self : list (string * A)) : list (string * A) := (a, v) :: self.
(** __init__ of the first class of the list that has one; its super() refers to the rest of the list.  object.__init__ takes no arguments *)
Fixpoint run_init (mro : list cls) (args : list A) (kws : list (string * A)) (self : list (string * A)) : res (list (string * A)) :=
  match mro with
  | [] => match args, kws with [], [] => Ok self | _, _ => Err TypeError end
  | c :: rest =>
    match c_init c with
    | None => run_init rest args kws self
    | Some (sig, body) =>
      frame <- bind_args sig args kws ;;
      foldM (fun self s => match s with
        | SSet a e => v <- eval frame e ;; Ok (set_attr a v self)
        | SSuper ks => vs <- mapM (fun k => v <- eval frame (snd k) ;; Ok (fst k, v)) ks ;; run_init rest [] vs self
        end) body self
    end
  end.
End Values.

(** the class and its parents *)
Fixpoint mro (fuel : nat) (table : list cls) (name : string) : list cls :=
  match fuel, find (fun c => c_name c =? name) table with
  | S f, Some c => c :: match c_parent c with Some p => mro f table p | None => [] end
  | _, _ => []
  end.
(** the abstract methods that no class before the abstract one implements (abc.ABCMeta) *)
Definition left_abstract (l : list cls) : list string :=
  filter (fun m => match find (fun c => existsb (fun x => x =? m) (c_methods c)) l with
                   | Some c => existsb (fun x => x =? m) (c_abstract c) | None => false end) (flat_map c_abstract l).
(** the call Name(args, kws): classes with abstract methods raise TypeError *)
Definition construct {A} (ops : vops A) (table : list cls) (name : string) (args : list A) (kws : list (string * A)) : res (list (string * A)) :=
  let l := mro (List.length table) table name in
  match left_abstract l with [] => run_init ops l args kws [] | _ => Err TypeError end.

(** the classes of qopt *)
Definition classes : list cls := [
  (* amplitude_functions.py l.72-120 *)
  Cls "AmplitudeFunction" (None)
     (None)
     ["__call__"; "derivative_by_chain_rule"]
     ["__call__"; "derivative_by_chain_rule"];
  (* amplitude_functions.py l.123-137, __init__ l.127 *)
  Cls "IdentityAmpFunc" (Some "AmplitudeFunction")
     (Some ([],
      []))
     ["__init__"; "__call__"; "derivative_by_chain_rule"]
     [];
  (* amplitude_functions.py l.140-175, __init__ l.158 *)
  Cls "UnaryAnalyticAmpFunc" (Some "AmplitudeFunction")
     (Some ([("value_function", None); ("derivative_function", None)],
      [SSet "value_function" (ETxt "np.vectorize(value_function)");
       SSet "derivative_function" (ETxt "np.vectorize(derivative_function)")]))
     ["__init__"; "__call__"; "derivative_by_chain_rule"]
     [];
  (* amplitude_functions.py l.178-220, __init__ l.202 *)
  Cls "CustomAmpFunc" (Some "AmplitudeFunction")
     (Some ([("value_function", None); ("derivative_function", None)],
      [SSet "value_function" (EPar "value_function");
       SSet "derivative_function" (EPar "derivative_function")]))
     ["__init__"; "__call__"; "derivative_by_chain_rule"]
     [];
  (* analyser.py l.54-249, __init__ l.63 *)
  Cls "Analyser" (None)
     (Some ([("data", None)],
      [SSet "data" (EPar "data");
       SSet "infidelities" (ENone)]))
     ["__init__"; "n_least_square"; "plot_costs"; "absolute_costs"; "plot_absolute_costs"; "integral_cost_fkt_times"; "integral_grad_fkt_times"; "opt_times"; "total_cost_fkt_time"; "total_grad_fkt_time"; "time_share_cost_fkt"; "time_share_grad_fkt"]
     [];
  (* cost_functions.py l.110-159, __init__ l.126 *)
  Cls "CostFunction" (None)
     (Some ([("solver", None); ("label", Some ENone)],
      [SSet "solver" (EPar "solver");
       SSet "label" (EDef "label" "['Unspecified Cost Function']")]))
     ["__init__"; "costs"; "grad"]
     ["costs"; "grad"];
  (* cost_functions.py l.222-402, __init__ l.260 *)
  Cls "OperatorMatrixNorm" (Some "CostFunction")
     (Some ([("solver", None); ("target", None); ("mode", Some (ETxt "'scalar'")); ("label", Some ENone)],
      [SSuper [];
       SSet "solver" (EPar "solver");
       SSet "target" (EPar "target");
       SSet "mode" (EPar "mode");
       SSet "label" (ETxt "line 267")]))
     ["__init__"; "costs"; "grad"]
     [];
  (* cost_functions.py l.989-1038, __init__ l.997 *)
  Cls "StateInfidelity" (Some "CostFunction")
     (Some ([("solver", None); ("target", None); ("label", Some ENone); ("computational_states", Some ENone); ("rescale_propagated_state", Some (ETxt "False"))],
      [SSuper [("solver", EPar "solver"); ("label", EDef "label" "['State Infidelity']")];
       SSet "target" (ETxt "line 1009");
       SSet "computational_states" (EPar "computational_states");
       SSet "rescale_propagated_state" (EPar "rescale_propagated_state")]))
     ["__init__"; "costs"; "grad"]
     [];
  (* cost_functions.py l.1041-1106, __init__ l.1065 *)
  Cls "StateInfidelitySubspace" (Some "CostFunction")
     (Some ([("solver", None); ("target", None); ("dims", None); ("remove", None); ("label", Some ENone)],
      [SSuper [("solver", EPar "solver"); ("label", EDef "label" "['State Infidelity']")];
       SSet "target" (ETxt "line 1077");
       SSet "dims" (EPar "dims");
       SSet "remove" (EPar "remove")]))
     ["__init__"; "costs"; "grad"]
     [];
  (* cost_functions.py l.1109-1176, __init__ l.1118 *)
  Cls "StateNoiseInfidelity" (Some "CostFunction")
     (Some ([("solver", None); ("target", None); ("label", Some ENone); ("computational_states", Some ENone); ("rescale_propagated_state", Some (ETxt "False")); ("neglect_systematic_errors", Some (ETxt "True"))],
      [SSuper [("solver", EPar "solver"); ("label", EDef "label" "['State Infidelity']")];
       SSet "solver" (EPar "solver");
       SSet "target" (ETxt "line 1132");
       SSet "computational_states" (EPar "computational_states");
       SSet "rescale_propagated_state" (EPar "rescale_propagated_state");
       SSet "neglect_systematic_errors" (EPar "neglect_systematic_errors");
       SSet "neglect_systematic_errors" (ETxt "line 1141")]))
     ["__init__"; "costs"; "grad"]
     [];
  (* cost_functions.py l.1179-1316, __init__ l.1243 *)
  Cls "OperationInfidelity" (Some "CostFunction")
     (Some ([("solver", None); ("target", None); ("fidelity_measure", Some (ETxt "'entanglement'")); ("super_operator_formalism", Some (ETxt "False")); ("label", Some ENone); ("computational_states", Some ENone); ("map_to_closest_unitary", Some (ETxt "False"))],
      [SSuper [("solver", EPar "solver"); ("label", ETxt "line 1252")];
       SSet "target" (EPar "target");
       SSet "computational_states" (EPar "computational_states");
       SSet "map_to_closest_unitary" (EPar "map_to_closest_unitary");
       SSet "fidelity_measure" (ETxt "line 1263");
       SSet "super_operator" (EPar "super_operator_formalism")]))
     ["__init__"; "costs"; "grad"]
     [];
  (* cost_functions.py l.1319-1454, __init__ l.1361 *)
  Cls "OperationNoiseInfidelity" (Some "CostFunction")
     (Some ([("solver", None); ("target", None); ("label", Some ENone); ("fidelity_measure", Some (ETxt "'entanglement'")); ("computational_states", Some ENone); ("map_to_closest_unitary", Some (ETxt "False")); ("neglect_systematic_errors", Some (ETxt "True"))],
      [SSuper [("solver", EPar "solver"); ("label", EDef "label" "['Operator Noise Infidelity']")];
       SSet "solver" (EPar "solver");
       SSet "target" (EPar "target");
       SSet "computational_states" (EPar "computational_states");
       SSet "map_to_closest_unitary" (EPar "map_to_closest_unitary");
       SSet "fidelity_measure" (EPar "fidelity_measure");
       SSet "neglect_systematic_errors" (EPar "neglect_systematic_errors");
       SSet "neglect_systematic_errors" (ETxt "line 1380")]))
     ["__init__"; "_to_comp_space"; "_effective_target"; "costs"; "grad"]
     [];
  (* cost_functions.py l.1457-1523, __init__ l.1485 *)
  Cls "LiouvilleMonteCarloEntanglementInfidelity" (Some "CostFunction")
     (Some ([("solver", None); ("target", None); ("label", Some ENone); ("computational_states", Some ENone)],
      [SSuper [("solver", EPar "solver"); ("label", EDef "label" "['Super Operator M.C. Ent. Infidelity']")];
       SSet "solver" (EPar "solver");
       SSet "target" (EPar "target");
       SSet "computational_states" (EPar "computational_states")]))
     ["__init__"; "costs"; "grad"]
     [];
  (* cost_functions.py l.1526-1626, __init__ l.1552 *)
  Cls "OperatorFilterFunctionInfidelity" (Some "CostFunction")
     (Some ([("solver", None); ("noise_power_spec_density", None); ("omega", None); ("label", Some ENone)],
      [SSuper [("solver", EPar "solver"); ("label", EDef "label" "['Infidelity Filter Function']")];
       SSet "noise_power_spec_density" (EPar "noise_power_spec_density");
       SSet "_omega" (EPar "omega")]))
     ["__init__"; "omega"; "costs"; "grad"]
     [];
  (* cost_functions.py l.1629-1691, __init__ l.1651 *)
  Cls "LeakageError" (Some "CostFunction")
     (Some ([("solver", None); ("computational_states", None); ("label", Some ENone)],
      [SSuper [("solver", EPar "solver"); ("label", EDef "label" "['Leakage Error']")];
       SSet "computational_states" (EPar "computational_states")]))
     ["__init__"; "costs"; "grad"]
     [];
  (* cost_functions.py l.1694-1752, __init__ l.1719 *)
  Cls "IncoherentLeakageError" (Some "CostFunction")
     (Some ([("solver", None); ("computational_states", None); ("label", Some ENone)],
      [SSuper [("solver", EPar "solver"); ("label", EDef "label" "['Incoherent Leakage Error']")];
       SSet "solver" (EPar "solver");
       SSet "computational_states" (EPar "computational_states")]))
     ["__init__"; "costs"; "grad"]
     [];
  (* cost_functions.py l.1755-1871, __init__ l.1789 *)
  Cls "LeakageLiouville" (Some "CostFunction")
     (Some ([("solver", None); ("computational_states", None); ("label", Some ENone); ("verbose", Some (ETxt "0")); ("input_unitary", Some (ETxt "False")); ("monte_carlo", Some (ETxt "False"))],
      [SSuper [("solver", EPar "solver"); ("label", EDef "label" "['Leakage Error Lindblad']")];
       SSet "computational_states" (EPar "computational_states");
       SSet "dim_comp" (ETxt "len(self.computational_states)");
       SSet "verbose" (EPar "verbose");
       SSet "projector_leakage_bra" (ETxt "ket_vectorize_density_matrix(projector_leakage).transpose()");
       SSet "projector_comp_ket" (ETxt "ket_vectorize_density_matrix(projector_comp)");
       SSet "input_unitary" (EPar "input_unitary");
       SSet "monte_carlo" (EPar "monte_carlo")]))
     ["__init__"; "costs"; "grad"]
     [];
  (* data_container.py l.58-286, __init__ l.113 *)
  Cls "DataContainer" (None)
     (Some ([("storage_path", Some ENone); ("file_name", Some (ETxt "'Temp File'")); ("indices", Some ENone); ("final_costs", Some ENone); ("init_parameters", Some ENone); ("final_parameters", Some ENone); ("costs", Some ENone); ("parameters", Some ENone); ("status", Some ENone); ("optimization_stats", Some ENone); ("append_time_to_path", Some (ETxt "True"))],
      [SSet "final_costs" (EDef "final_costs" "[]");
       SSet "indices" (EDef "indices" "[]");
       SSet "init_parameters" (EDef "init_parameters" "[]");
       SSet "final_parameters" (EDef "final_parameters" "[]");
       SSet "costs" (EDef "costs" "[]");
       SSet "parameters" (EDef "parameters" "[]");
       SSet "status" (EDef "status" "[]");
       SSet "optimization_statistics" (EDef "optimization_stats" "[]");
       SSet "storage_path" (ETxt "line 126");
       SSet "append_time_to_path" (EPar "append_time_to_path");
       SSet "_asyncrone_writer" (ENone);
       SSet "file_name" (EPar "file_name")]))
     ["__init__"; "__len__"; "index"; "check_length"; "append_optim_result"; "_append"; "__deepcopy__"; "to_pickle"; "from_pickle"; "_to_dict"; "_from_dict"]
     [];
  (* matrix.py l.91-676, __init__ l.105 *)
  Cls "OperatorMatrix" (None)
     (Some ([],
      [SSet "data" (ENone);
       SSet "_size" (ETxt "0");
       SSet "_factormatrix" (ENone);
       SSet "_prop_eigen" (ENone);
       SSet "_eig_vec" (ENone);
       SSet "_eig_vec_dag" (ENone);
       SSet "_prop" (ENone)]))
     ["__init__"; "copy"; "clean"; "__add__"; "__iadd__"; "__mul__"; "__imul__"; "__rmul__"; "__sub__"; "__isub__"; "__truediv__"; "__itruediv__"; "shape"; "__getitem__"; "__setitem__"; "dag"; "tr"; "ptrace"; "conj"; "conjugate"; "transpose"; "kron"; "flatten"; "norm"; "spectral_decomposition"; "exp"; "dexp"; "identity_like"; "truncate_to_subspace"; "pauli_0"; "pauli_x"; "pauli_y"; "pauli_z"; "pauli_m"; "pauli_p"]
     ["copy"; "__iadd__"; "__mul__"; "__imul__"; "__rmul__"; "__isub__"; "__truediv__"; "__itruediv__"; "__getitem__"; "__setitem__"; "dag"; "tr"; "ptrace"; "conj"; "transpose"; "kron"; "flatten"; "norm"; "spectral_decomposition"; "exp"; "dexp"; "identity_like"; "truncate_to_subspace"];
  (* matrix.py l.679-1307, __init__ l.698 *)
  Cls "DenseOperator" (Some "OperatorMatrix")
     (Some ([("obj", None)],
      [SSuper [];
       SSet "data" (ENone);
       SSet "data" (ETxt "line 704");
       SSet "data" (ETxt "self.data.astype(np.complex128, copy=False)")]))
     ["__init__"; "copy"; "__imul__"; "__mul__"; "__rmul__"; "__iadd__"; "__isub__"; "__truediv__"; "__itruediv__"; "__getitem__"; "__setitem__"; "__repr__"; "dag"; "conj"; "transpose"; "flatten"; "norm"; "tr"; "ptrace"; "kron"; "_exp_diagonalize"; "_dexp_diagonalization"; "spectral_decomposition"; "exp"; "prop"; "dexp"; "identity_like"; "truncate_to_subspace"]
     [];
  (* matrix.py l.1310-1311 *)
  Cls "SparseOperator" (Some "OperatorMatrix")
     (None)
     []
     [];
  (* noise.py l.313-387, __init__ l.344 *)
  Cls "NoiseTraceGenerator" (None)
     (Some ([("n_samples_per_trace", None); ("always_redraw_samples", None); ("n_traces", Some (ETxt "1")); ("n_noise_operators", Some (ETxt "1")); ("noise_samples", Some ENone)],
      [SSet "_noise_samples" (EPar "noise_samples");
       SSet "_n_samples_per_trace" (EPar "n_samples_per_trace");
       SSet "_n_traces" (EPar "n_traces");
       SSet "_n_noise_operators" (EPar "n_noise_operators");
       SSet "always_redraw_samples" (EPar "always_redraw_samples")]))
     ["__init__"; "noise_samples"; "n_samples_per_trace"; "n_traces"; "n_noise_operators"; "_sample_noise"]
     ["_sample_noise"];
  (* noise.py l.390-517, __init__ l.433 *)
  Cls "NTGQuasiStatic" (Some "NoiseTraceGenerator")
     (Some ([("standard_deviation", None); ("n_samples_per_trace", None); ("n_traces", Some (ETxt "1")); ("noise_samples", Some ENone); ("always_redraw_samples", Some (ETxt "True")); ("correct_std_for_discrete_sampling", Some (ETxt "True")); ("sampling_mode", Some (ETxt "'uncorrelated_deterministic'"))],
      [SSuper [("noise_samples", EPar "noise_samples"); ("n_samples_per_trace", EPar "n_samples_per_trace"); ("n_traces", EPar "n_traces"); ("n_noise_operators", ETxt "n_noise_operators"); ("always_redraw_samples", EPar "always_redraw_samples")];
       SSet "standard_deviation" (EPar "standard_deviation");
       SSet "sampling_mode" (EPar "sampling_mode")]))
     ["__init__"; "n_traces"; "_sample_noise"]
     [];
  (* noise.py l.520-693, __init__ l.569 *)
  Cls "NTGColoredNoise" (Some "NoiseTraceGenerator")
     (Some ([("n_samples_per_trace", None); ("noise_spectral_density", None); ("dt", None); ("n_traces", Some (ETxt "1")); ("n_noise_operators", Some (ETxt "1")); ("always_redraw_samples", Some (ETxt "True")); ("low_frequency_extension_ratio", Some (ETxt "1"))],
      [SSuper [("n_traces", EPar "n_traces"); ("n_samples_per_trace", EPar "n_samples_per_trace"); ("noise_samples", ENone); ("n_noise_operators", EPar "n_noise_operators"); ("always_redraw_samples", EPar "always_redraw_samples")];
       SSet "noise_spectral_density" (EPar "noise_spectral_density");
       SSet "dt" (EPar "dt");
       SSet "low_frequency_extension_ratio" (EPar "low_frequency_extension_ratio")]))
     ["__init__"; "_sample_noise"; "plot_periodogram"]
     [];
  (* optimization_data.py l.53-171, __init__ l.108 *)
  Cls "OptimizationResult" (None)
     (Some ([("final_cost", Some ENone); ("indices", Some ENone); ("final_parameters", Some ENone); ("final_grad_norm", Some ENone); ("init_parameters", Some ENone); ("num_iter", Some ENone); ("termination_reason", Some (ETxt "'not started yet'")); ("status", Some ENone); ("optimization_stats", Some ENone); ("optimizer", Some ENone); ("optim_summary", Some ENone)],
      [SSet "final_cost" (EPar "final_cost");
       SSet "indices" (EPar "indices");
       SSet "final_parameters" (EPar "final_parameters");
       SSet "final_grad_norm" (EPar "final_grad_norm");
       SSet "init_parameters" (EPar "init_parameters");
       SSet "num_iter" (EPar "num_iter");
       SSet "termination_reason" (EPar "termination_reason");
       SSet "status" (EPar "status");
       SSet "optimizer" (EPar "optimizer");
       SSet "optimization_stats" (EPar "optimization_stats");
       SSet "optim_summary" (EPar "optim_summary")]))
     ["__init__"; "to_dict"; "from_dict"]
     [];
  (* optimization_data.py l.174-218, __init__ l.203 *)
  Cls "OptimizationSummary" (None)
     (Some ([("indices", Some ENone); ("iter_num", Some (ETxt "0")); ("costs", Some ENone); ("gradients", Some ENone); ("parameters", Some ENone)],
      [SSet "indices" (EPar "indices");
       SSet "iter_num" (EPar "iter_num");
       SSet "costs" (EDef "costs" "[]");
       SSet "gradients" (EDef "gradients" "[]");
       SSet "parameters" (EDef "parameters" "[]")]))
     ["__init__"]
     [];
  (* optimize.py l.107-360, __init__ l.157 *)
  Cls "Optimizer" (None)
     (Some ([("system_simulator", Some ENone); ("termination_cond", Some ENone); ("save_intermediary_steps", Some (ETxt "True")); ("cost_func_weights", Some ENone); ("use_jacobian_function", Some (ETxt "True")); ("store_optimizer", Some (ETxt "False"))],
      [SSet "system_simulator" (EPar "system_simulator");
       SSet "use_jacobian_function" (EPar "use_jacobian_function");
       SSet "termination_conditions" (ETxt "default_termination_conditions");
       SSet "optim_iter_summary" (ENone);
       SSet "pulse_shape" (ETxt "()");
       SSet "_opt_start_time" (ETxt "0");
       SSet "_min_costs" (ETxt "np.inf");
       SSet "_min_costs_par" (ENone);
       SSet "_n_cost_fkt_eval" (ETxt "0");
       SSet "_n_jac_fkt_eval" (ETxt "0");
       SSet "save_intermediary_steps" (EPar "save_intermediary_steps");
       SSet "store_optimizer" (EPar "store_optimizer");
       SSet "cost_func_weights" (EPar "cost_func_weights");
       SSet "cost_func_weights" (ETxt "line 187")]))
     ["__init__"; "cost_func_wrapper"; "cost_jacobian_wrapper"; "run_optimization"; "prepare_optimization"; "write_state_to_result"]
     ["run_optimization"];
  (* optimize.py l.363-460, __init__ l.392 *)
  Cls "LeastSquaresOptimizer" (Some "Optimizer")
     (Some ([("system_simulator", Some ENone); ("termination_cond", Some ENone); ("save_intermediary_steps", Some (ETxt "True")); ("method", Some (ETxt "'trf'")); ("bounds", Some ENone); ("use_jacobian_function", Some (ETxt "True")); ("cost_func_weights", Some ENone); ("store_optimizer", Some (ETxt "False"))],
      [SSuper [("system_simulator", EPar "system_simulator"); ("termination_cond", EPar "termination_cond"); ("save_intermediary_steps", EPar "save_intermediary_steps"); ("cost_func_weights", EPar "cost_func_weights"); ("use_jacobian_function", EPar "use_jacobian_function"); ("store_optimizer", EPar "store_optimizer")];
       SSet "method" (EPar "method");
       SSet "bounds" (EPar "bounds")]))
     ["__init__"; "run_optimization"]
     [];
  (* optimize.py l.463-633, __init__ l.480 *)
  Cls "ScalarMinimizingOptimizer" (Some "Optimizer")
     (Some ([("system_simulator", Some ENone); ("termination_cond", Some ENone); ("save_intermediary_steps", Some (ETxt "True")); ("method", Some (ETxt "'L-BFGS-B'")); ("bounds", Some ENone); ("use_jacobian_function", Some (ETxt "True")); ("cost_func_weights", Some ENone); ("store_optimizer", Some (ETxt "False"))],
      [SSuper [("system_simulator", EPar "system_simulator"); ("termination_cond", EPar "termination_cond"); ("save_intermediary_steps", EPar "save_intermediary_steps"); ("cost_func_weights", EPar "cost_func_weights"); ("use_jacobian_function", EPar "use_jacobian_function"); ("store_optimizer", EPar "store_optimizer")];
       SSet "method" (EPar "method");
       SSet "bounds" (EPar "bounds")]))
     ["__init__"; "cost_func_wrapper"; "cost_jacobian_wrapper"; "run_optimization"]
     [];
  (* optimize.py l.760-881, __init__ l.806 *)
  Cls "SimulatedAnnealing" (Some "Optimizer")
     (Some ([("system_simulator", None); ("bounds", None); ("store_optimizer", Some (ETxt "False")); ("initial_temperature", Some (ETxt "1.0")); ("final_temperature", Some (ETxt "1e-06")); ("step_size", Some (ETxt "1")); ("step_ratio", Some (ETxt "1.0")); ("steps", Some (ETxt "1000")); ("updates", Some (ETxt "100"))],
      [SSuper [("system_simulator", EPar "system_simulator"); ("termination_cond", ETxt "termination_conditions"); ("save_intermediary_steps", ETxt "False"); ("store_optimizer", EPar "store_optimizer")];
       SSet "annealer" (ETxt "PulseAnnealer(initial_state=0, bounds=bounds, energy_functio")]))
     ["__init__"; "run_optimization"; "prepare_optimization"]
     [];
  (* performance_statistics.py l.41-67, __init__ l.62 *)
  Cls "PerformanceStatistics" (None)
     (Some ([],
      [SSet "start_t_opt" (ENone);
       SSet "end_t_opt" (ENone);
       SSet "indices" (ENone);
       SSet "cost_func_eval_times" (ETxt "[]");
       SSet "grad_func_eval_times" (ETxt "[]")]))
     ["__init__"]
     [];
  (* simulator.py l.63-390, __init__ l.115 *)
  Cls "Simulator" (None)
     (Some ([("solvers", None); ("cost_funcs", None); ("optimization_parameters", Some ENone); ("num_ctrl", Some ENone); ("times", Some ENone); ("num_times", Some ENone); ("record_performance_statistics", Some (ETxt "True")); ("numeric_jacobian", Some (ETxt "False"))],
      [SSet "_num_ctrl" (EPar "num_ctrl");
       SSet "_num_times" (EPar "num_times");
       SSet "_optimization_parameteres" (EPar "optimization_parameters");
       SSet "_times" (EPar "times");
       SSet "solvers" (EPar "solvers");
       SSet "cost_funcs" (EPar "cost_funcs");
       SSet "stats" (ETxt "performance_statistics.PerformanceStatistics() if record_per");
       SSet "numeric_jacobian" (EPar "numeric_jacobian")]))
     ["__init__"; "pulse"; "check"; "cost_indices"; "wrapped_cost_functions"; "wrapped_jac_function"; "compare_numeric_to_analytic_gradient"; "numeric_gradient"]
     [];
  (* solver_algorithms.py l.82-779, __init__ l.265 *)
  Cls "Solver" (None)
     (Some ([("h_ctrl", None); ("h_drift", None); ("tau", None); ("initial_state", Some ENone); ("opt_pars", Some ENone); ("ctrl_amps", Some ENone); ("filter_function_h_n", Some ENone); ("filter_function_basis", Some ENone); ("filter_function_n_coeffs_deriv", Some ENone); ("exponential_method", Some ENone); ("is_skew_hermitian", Some (ETxt "True")); ("transfer_function", Some ENone); ("amplitude_function", Some ENone); ("paranoia_level", Some (ETxt "2"))],
      [SSet "h_ctrl" (EPar "h_ctrl");
       SSet "_ctrl_amps" (EPar "ctrl_amps");
       SSet "_opt_pars" (EPar "opt_pars");
       SSet "initial_state" (ETxt "line 289");
       SSet "exponential_method" (EDef "exponential_method" "'Frechet'");
       SSet "_prop" (ENone);
       SSet "_fwd_prop" (ENone);
       SSet "_reversed_prop" (ENone);
       SSet "_derivative_prop" (ENone);
       SSet "pulse_sequence" (ENone);
       SSet "_filter_function_h_n" (EDef "filter_function_h_n" "[]");
       SSet "filter_function_n_oper_identifiers" (ETxt "[]");
       SSet "filter_function_basis" (EPar "filter_function_basis");
       SSet "filter_function_n_coeffs_deriv" (EPar "filter_function_n_coeffs_deriv");
       SSet "_is_skew_hermitian" (EPar "is_skew_hermitian");
       SSet "transfer_function" (EDef "transfer_function" "IdentityTF(num_ctrls=len(h_ctrl))");
       SSet "transferred_time" (ENone);
       SSet "h_drift" (ETxt "line 329");
       SSet "amplitude_function" (EDef "amplitude_function" "IdentityAmpFunc()");
       SSet "transferred_parameters" (ENone)]))
     ["__init__"; "set_times"; "set_optimization_parameters"; "reset_cached_propagators"; "consistency_checks"; "propagators"; "forward_propagators"; "frechet_deriv_propagators"; "reversed_propagators"; "filter_function_n_coeffs_deriv_vals"; "create_ff_h_n"; "_compute_propagation"; "_compute_forward_propagation"; "_compute_reversed_propagation"; "_compute_propagation_derivatives"; "_diagonalize_and_propagate_pulse_sequence"; "create_pulse_sequence"; "plot_bloch_sphere"]
     ["_compute_propagation"; "_compute_propagation_derivatives"];
  (* solver_algorithms.py l.782-980, __init__ l.838 *)
  Cls "SchroedingerSolver" (Some "Solver")
     (Some ([("h_drift", None); ("h_ctrl", None); ("tau", None); ("initial_state", Some ENone); ("ctrl_amps", Some ENone); ("calculate_propagator_derivatives", Some (ETxt "True")); ("filter_function_h_n", Some ENone); ("filter_function_basis", Some ENone); ("filter_function_n_coeffs_deriv", Some ENone); ("exponential_method", Some ENone); ("frechet_deriv_approx_method", Some ENone); ("is_skew_hermitian", Some (ETxt "True")); ("transfer_function", Some ENone); ("amplitude_function", Some ENone)],
      [SSuper [("h_drift", EPar "h_drift"); ("h_ctrl", EPar "h_ctrl"); ("initial_state", EPar "initial_state"); ("tau", EPar "tau"); ("ctrl_amps", EPar "ctrl_amps"); ("filter_function_h_n", EPar "filter_function_h_n"); ("filter_function_basis", EPar "filter_function_basis"); ("filter_function_n_coeffs_deriv", EPar "filter_function_n_coeffs_deriv"); ("exponential_method", EPar "exponential_method"); ("is_skew_hermitian", EPar "is_skew_hermitian"); ("transfer_function", EPar "transfer_function"); ("amplitude_function", EPar "amplitude_function")];
       SSet "id_text" (ETxt "'ALL'");
       SSet "cache_text" (ETxt "'Save'");
       SSet "calculate_propagator_derivatives" (EPar "calculate_propagator_derivatives");
       SSet "frechet_deriv_approx_method" (EPar "frechet_deriv_approx_method");
       SSet "_dyn_gen" (ENone)]))
     ["__init__"; "set_optimization_parameters"; "reset_cached_propagators"; "_compute_dyn_gen"; "_compute_derivative_directions"; "_compute_propagation"; "_compute_propagation_derivatives"]
     [];
  (* solver_algorithms.py l.1015-1478, __init__ l.1111 *)
  Cls "SchroedingerSMonteCarlo" (Some "SchroedingerSolver")
     (Some ([("h_drift", None); ("h_ctrl", None); ("tau", None); ("h_noise", None); ("noise_trace_generator", None); ("initial_state", Some ENone); ("ctrl_amps", Some ENone); ("calculate_propagator_derivatives", Some (ETxt "False")); ("processes", Some (ETxt "1")); ("filter_function_h_n", Some ENone); ("filter_function_basis", Some ENone); ("filter_function_n_coeffs_deriv", Some ENone); ("exponential_method", Some ENone); ("frechet_deriv_approx_method", Some ENone); ("is_skew_hermitian", Some (ETxt "True")); ("transfer_function", Some ENone); ("amplitude_function", Some ENone); ("noise_amplitude_function", Some ENone)],
      [SSuper [("h_drift", EPar "h_drift"); ("h_ctrl", EPar "h_ctrl"); ("initial_state", EPar "initial_state"); ("tau", EPar "tau"); ("ctrl_amps", EPar "ctrl_amps"); ("filter_function_h_n", EPar "filter_function_h_n"); ("filter_function_basis", EPar "filter_function_basis"); ("filter_function_n_coeffs_deriv", EPar "filter_function_n_coeffs_deriv"); ("exponential_method", EPar "exponential_method"); ("calculate_propagator_derivatives", EPar "calculate_propagator_derivatives"); ("frechet_deriv_approx_method", EPar "frechet_deriv_approx_method"); ("is_skew_hermitian", EPar "is_skew_hermitian"); ("transfer_function", EPar "transfer_function"); ("amplitude_function", EPar "amplitude_function")];
       SSet "h_noise" (EPar "h_noise");
       SSet "noise_trace_generator" (EPar "noise_trace_generator");
       SSet "noise_amplitude_function" (EPar "noise_amplitude_function");
       SSet "processes" (EPar "processes");
       SSet "_dyn_gen_noise" (ENone);
       SSet "_prop_noise" (ENone);
       SSet "_derivative_prop_noise" (ENone);
       SSet "_fwd_prop_noise" (ENone);
       SSet "_reversed_prop_noise" (ENone)]))
     ["__init__"; "set_optimization_parameters"; "reset_cached_propagators"; "propagators_noise"; "forward_propagators_noise"; "frechet_deriv_propagators_noise"; "reversed_propagators_noise"; "_compute_dyn_gen_noise"; "_compute_propagation"; "_compute_forward_propagation"; "_compute_reversed_propagation"; "_compute_propagation_derivatives"; "create_ff_h_n"]
     [];
  (* solver_algorithms.py l.1481-1569, __init__ l.1495 *)
  Cls "SchroedingerSMCControlNoise" (Some "SchroedingerSMonteCarlo")
     (Some ([("h_drift", None); ("h_ctrl", None); ("tau", None); ("noise_trace_generator", None); ("initial_state", Some ENone); ("ctrl_amps", Some ENone); ("calculate_propagator_derivatives", Some (ETxt "False")); ("processes", Some (ETxt "1")); ("filter_function_h_n", Some ENone); ("filter_function_basis", Some ENone); ("filter_function_n_coeffs_deriv", Some ENone); ("exponential_method", Some ENone); ("frechet_deriv_approx_method", Some ENone); ("is_skew_hermitian", Some (ETxt "True")); ("transfer_function", Some ENone); ("amplitude_function", Some ENone)],
      [SSuper [("h_drift", EPar "h_drift"); ("h_ctrl", EPar "h_ctrl"); ("initial_state", EPar "initial_state"); ("tau", EPar "tau"); ("h_noise", EPar "h_ctrl"); ("noise_trace_generator", EPar "noise_trace_generator"); ("ctrl_amps", EPar "ctrl_amps"); ("calculate_propagator_derivatives", EPar "calculate_propagator_derivatives"); ("processes", EPar "processes"); ("filter_function_h_n", EPar "filter_function_h_n"); ("filter_function_basis", EPar "filter_function_basis"); ("filter_function_n_coeffs_deriv", EPar "filter_function_n_coeffs_deriv"); ("exponential_method", EPar "exponential_method"); ("frechet_deriv_approx_method", EPar "frechet_deriv_approx_method"); ("is_skew_hermitian", EPar "is_skew_hermitian"); ("transfer_function", EPar "transfer_function"); ("amplitude_function", EPar "amplitude_function"); ("noise_amplitude_function", ETxt "noise_amplitude_function")]]))
     ["__init__"]
     [];
  (* solver_algorithms.py l.1572-2105, __init__ l.1802 *)
  Cls "LindbladSolver" (Some "SchroedingerSolver")
     (Some ([("h_drift", None); ("h_ctrl", None); ("tau", None); ("initial_state", Some ENone); ("ctrl_amps", Some ENone); ("calculate_unitary_derivatives", Some (ETxt "False")); ("filter_function_h_n", Some ENone); ("filter_function_basis", Some ENone); ("filter_function_n_coeffs_deriv", Some ENone); ("exponential_method", Some ENone); ("frechet_deriv_approx_method", Some ENone); ("initial_diss_super_op", Some ENone); ("lindblad_operators", Some ENone); ("prefactor_function", Some ENone); ("prefactor_derivative_function", Some ENone); ("super_operator_function", Some ENone); ("super_operator_derivative_function", Some ENone); ("is_skew_hermitian", Some (ETxt "False")); ("transfer_function", Some ENone); ("amplitude_function", Some ENone)],
      [SSet "_diss_sup_op" (ENone);
       SSet "_diss_sup_op_deriv" (ENone);
       SSet "_initial_diss_super_op" (EPar "initial_diss_super_op");
       SSet "_lindblad_operators" (EPar "lindblad_operators");
       SSet "_prefactor_function" (EPar "prefactor_function");
       SSet "_prefactor_deriv_function" (EPar "prefactor_derivative_function");
       SSet "_sup_op_func" (EPar "super_operator_function");
       SSet "_sup_op_deriv_func" (EPar "super_operator_derivative_function");
       SSet "_is_hermitian" (EPar "is_skew_hermitian");
       SSuper [("h_drift", EPar "h_drift"); ("h_ctrl", EPar "h_ctrl"); ("initial_state", ETxt "line 1832"); ("tau", EPar "tau"); ("ctrl_amps", EPar "ctrl_amps"); ("calculate_propagator_derivatives", EPar "calculate_unitary_derivatives"); ("filter_function_h_n", EPar "filter_function_h_n"); ("filter_function_basis", EPar "filter_function_basis"); ("filter_function_n_coeffs_deriv", EPar "filter_function_n_coeffs_deriv"); ("exponential_method", EPar "exponential_method"); ("frechet_deriv_approx_method", EPar "frechet_deriv_approx_method"); ("is_skew_hermitian", EPar "is_skew_hermitian"); ("transfer_function", EPar "transfer_function"); ("amplitude_function", EPar "amplitude_function")]]))
     ["__init__"; "set_optimization_parameters"; "reset_cached_propagators"; "_calc_diss_sup_op"; "_calc_diss_sup_op_deriv"; "_compute_derivative_directions"; "_parse_dissipative_super_operator"; "_compute_dyn_gen"]
     [];
  (* solver_algorithms.py l.2108-2197, __init__ l.2116 *)
  Cls "LindbladSControlNoise" (Some "LindbladSolver")
     (Some ([("h_drift", None); ("h_ctrl", None); ("initial_state", None); ("tau", None); ("ctrl_amps", None); ("transfer_function", Some ENone); ("calculate_unitary_derivatives", Some (ETxt "True")); ("filter_function_h_n", Some ENone); ("exponential_method", Some ENone); ("lindblad_operators", Some ENone); ("constant_lindblad_operators", Some (ETxt "False")); ("noise_psd", Some (ETxt "1"))],
      [SSuper [("h_drift", EPar "h_drift"); ("h_ctrl", EPar "h_ctrl"); ("initial_state", EPar "initial_state"); ("tau", EPar "tau"); ("ctrl_amps", EPar "ctrl_amps"); ("calculate_unitary_derivatives", EPar "calculate_unitary_derivatives"); ("filter_function_h_n", EPar "filter_function_h_n"); ("exponential_method", EPar "exponential_method")];
       SSet "lindblad_super_operator" (ETxt "line 2128");
       SSet "transfer_function" (EPar "transfer_function");
       SSet "constant_lindblad_operators" (EPar "constant_lindblad_operators");
       SSet "noise_psd" (EPar "noise_psd");
       SSet "incoherent_dyn_gen" (ENone)]))
     ["__init__"; "_compute_propagation"]
     [];
  (* transfer_function.py l.120-549, __init__ l.259 *)
  Cls "TransferFunction" (None)
     (Some ([("num_ctrls", Some (ETxt "1")); ("bound_type", Some ENone); ("oversampling", Some (ETxt "1")); ("offset", Some ENone)],
      [SSet "num_ctrls" (EPar "num_ctrls");
       SSet "bound_type" (EPar "bound_type");
       SSet "oversampling" (EPar "oversampling");
       SSet "offset" (EPar "offset");
       SSet "_transfer_matrix" (ENone);
       SSet "_num_y" (ETxt "0");
       SSet "_y_times" (ENone);
       SSet "_absolute_y_times" (ENone);
       SSet "num_x" (ETxt "0");
       SSet "x_times" (ENone)]))
     ["__init__"; "__call__"; "num_padding_elements"; "gradient_chain_rule"; "set_times"; "set_absolute_times"; "plot_pulse"; "_check_dimensions_datatype"]
     ["__call__"; "gradient_chain_rule"];
  (* transfer_function.py l.552-576, __init__ l.560 *)
  Cls "IdentityTF" (Some "TransferFunction")
     (Some ([("num_ctrls", Some (ETxt "1"))],
      [SSuper [("bound_type", ENone); ("oversampling", ETxt "1"); ("num_ctrls", EPar "num_ctrls"); ("offset", ETxt "0.0")];
       SSet "name" (ETxt "'Identity'")]))
     ["__init__"; "__call__"; "gradient_chain_rule"]
     [];
  (* transfer_function.py l.579-687, __init__ l.592 *)
  Cls "OversamplingTF" (Some "TransferFunction")
     (Some ([("num_ctrls", Some (ETxt "1")); ("bound_type", Some ENone); ("oversampling", Some (ETxt "1"))],
      [SSuper [("num_ctrls", EPar "num_ctrls"); ("bound_type", EPar "bound_type"); ("oversampling", EPar "oversampling")]]))
     ["__init__"; "_calculate_transfer_matrix"; "__call__"; "gradient_chain_rule"]
     [];
  (* transfer_function.py l.690-777, __init__ l.702 *)
  Cls "ConvolutionTF" (Some "TransferFunction")
     (Some ([("kernel", None); ("mode", Some (ETxt "'nearest'")); ("num_ctrls", Some (ETxt "1")); ("cval", Some (ETxt "0.0"))],
      [SSuper [("num_ctrls", EPar "num_ctrls")];
       SSet "kernel" (ETxt "line 708");
       SSet "mode" (EPar "mode");
       SSet "cval" (EPar "cval")]))
     ["__init__"; "__call__"; "gradient_chain_rule"; "transfer_matrix"; "_calculate_transfer_matrix"]
     [];
  (* transfer_function.py l.780-905, __init__ l.825 *)
  Cls "GaussianConvolution" (Some "TransferFunction")
     (Some ([("sigma", None); ("num_ctrls", Some (ETxt "1")); ("order", Some (ETxt "0")); ("mode", Some (ETxt "'nearest'")); ("truncate", Some (ETxt "4.0"))],
      [SSuper [("num_ctrls", EPar "num_ctrls")];
       SSet "sigma" (EPar "sigma");
       SSet "order" (EPar "order");
       SSet "mode" (EPar "mode");
       SSet "truncate" (EPar "truncate")]))
     ["__init__"; "__call__"; "gradient_chain_rule"; "transfer_matrix"; "_calculate_transfer_matrix"]
     [];
  (* transfer_function.py l.908-979, __init__ l.927 *)
  Cls "ConcatenateTF" (Some "TransferFunction")
     (Some ([("tf1", None); ("tf2", None)],
      [SSuper [("num_ctrls", ETxt "tf1.num_ctrls"); ("offset", ETxt "offset"); ("oversampling", ETxt "tf1.oversampling * tf2.oversampling")];
       SSet "tf1" (EPar "tf1");
       SSet "tf2" (EPar "tf2");
       SSet "_num_y" (ETxt "tf1._num_y");
       SSet "_y_times" (ETxt "tf1._y_times");
       SSet "x_times" (ETxt "tf2.x_times");
       SSet "num_x" (ETxt "tf2.num_x")]))
     ["__init__"; "__call__"; "gradient_chain_rule"; "plot_pulse"; "set_times"]
     [];
  (* transfer_function.py l.982-1061, __init__ l.1000 *)
  Cls "ParallelTF" (Some "TransferFunction")
     (Some ([("tf1", None); ("tf2", None)],
      [SSuper [("num_ctrls", ETxt "tf1.num_ctrls + tf2.num_ctrls"); ("oversampling", ETxt "tf1.oversampling"); ("offset", ENone)];
       SSet "bound_type" (ETxt "tf1.bound_type");
       SSet "tf1" (EPar "tf1");
       SSet "tf2" (EPar "tf2");
       SSet "_y_times" (ETxt "tf1._y_times");
       SSet "x_times" (ETxt "tf1.x_times");
       SSet "num_x" (ETxt "self.tf1.num_x");
       SSet "_num_y" (ETxt "tf1._num_y")]))
     ["__init__"; "__call__"; "gradient_chain_rule"; "set_times"]
     [];
  (* transfer_function.py l.1064-1132 *)
  Cls "MatrixTF" (Some "TransferFunction")
     (None)
     ["__call__"; "transfer_matrix"; "_calculate_transfer_matrix"; "gradient_chain_rule"]
     ["_calculate_transfer_matrix"];
  (* transfer_function.py l.1135-1170, __init__ l.1139 *)
  Cls "OversamplingMTF" (Some "MatrixTF")
     (Some ([("oversampling", Some (ETxt "1")); ("bound_type", Some ENone); ("num_ctrls", Some (ETxt "1")); ("offset", Some (ETxt "0"))],
      [SSuper [("bound_type", EPar "bound_type"); ("oversampling", EPar "oversampling"); ("num_ctrls", EPar "num_ctrls"); ("offset", EPar "offset")];
       SSet "name" (ETxt "'Oversampling'")]))
     ["__init__"; "_calculate_transfer_matrix"]
     [];
  (* transfer_function.py l.1173-1241, __init__ l.1190 *)
  Cls "ConcatenateMTF" (Some "MatrixTF")
     (Some ([("tf1", None); ("tf2", None)],
      [SSuper [("num_ctrls", ETxt "tf1.num_ctrls"); ("offset", ETxt "offset"); ("oversampling", ETxt "tf1.oversampling * tf2.oversampling")];
       SSet "tf1" (EPar "tf1");
       SSet "tf2" (EPar "tf2");
       SSet "_num_y" (ETxt "tf1._num_y");
       SSet "_y_times" (ETxt "tf1._y_times");
       SSet "x_times" (ETxt "tf2.x_times");
       SSet "num_x" (ETxt "tf2.num_x")]))
     ["__init__"; "transfer_matrix"; "set_times"; "plot_pulse"; "_calculate_transfer_matrix"]
     [];
  (* transfer_function.py l.1244-1301, __init__ l.1262 *)
  Cls "ParallelMTF" (Some "MatrixTF")
     (Some ([("tf1", None); ("tf2", None)],
      [SSuper [("num_ctrls", ETxt "tf1.num_ctrls + tf2.num_ctrls"); ("oversampling", ETxt "tf1.oversampling"); ("offset", ENone)];
       SSet "bound_type" (ETxt "tf1.bound_type");
       SSet "tf1" (EPar "tf1");
       SSet "tf2" (EPar "tf2");
       SSet "_num_y" (ETxt "tf1._num_y");
       SSet "_y_times" (ETxt "tf1._y_times");
       SSet "x_times" (ETxt "tf1.x_times");
       SSet "num_x" (ETxt "self.tf1.num_x")]))
     ["__init__"; "_calculate_transfer_matrix"; "set_times"]
     [];
  (* transfer_function.py l.1304-1399, __init__ l.1337 *)
  Cls "CustomMTF" (Some "MatrixTF")
     (Some ([("transfer_matrix", None); ("x_times", Some ENone); ("bound_type", Some ENone); ("oversampling", Some (ETxt "1")); ("offset", Some ENone); ("num_ctrls", Some (ETxt "1"))],
      [SSuper [("oversampling", EPar "oversampling"); ("bound_type", EPar "bound_type"); ("offset", EPar "offset"); ("num_ctrls", EPar "num_ctrls")];
       SSet "_transfer_matrix" (EPar "transfer_matrix");
       SSet "_num_y" (ETxt "transfer_matrix.shape[1]");
       SSet "num_x" (ETxt "transfer_matrix.shape[0]");
       SSet "x_times" (EPar "x_times");
       SSet "bound_type" (EPar "bound_type");
       SSet "oversampling" (EPar "oversampling")]))
     ["__init__"; "transfer_matrix"; "set_times"; "_calculate_transfer_matrix"]
     [];
  (* transfer_function.py l.1407-1612, __init__ l.1420 *)
  Cls "ExponentialMTF" (Some "MatrixTF")
     (Some ([("awg_rise_time", None); ("oversampling", Some (ETxt "1")); ("bound_type", Some (ETxt "('x', 0)")); ("offset", Some ENone); ("num_ctrls", Some (ETxt "1"))],
      [SSuper [("oversampling", EPar "oversampling"); ("bound_type", EPar "bound_type"); ("num_ctrls", EPar "num_ctrls")];
       SSet "awg_rise_time" (EPar "awg_rise_time");
       SSet "offset" (EPar "offset")]))
     ["__init__"; "transfer_matrix"; "old_call"; "plot_pulse_old"; "_calculate_transfer_matrix"; "gradient_chain_rule"; "reverse_state"]
     [];
  (* transfer_function.py l.1615-1715, __init__ l.1647 *)
  Cls "GaussianMTF" (Some "MatrixTF")
     (Some ([("omega", Some (ETxt "1")); ("over_sample_rate", Some (ETxt "5")); ("start", Some (ETxt "0.0")); ("end", Some (ETxt "0.0")); ("bound_type", Some (ETxt "('w', 2)"))],
      [SSuper [];
       SSet "N" (EPar "over_sample_rate");
       SSet "dt" (ETxt "1 / over_sample_rate");
       SSet "boundary" (ETxt "[start, end]");
       SSet "omega" (EPar "omega");
       SSet "bound_type" (EPar "bound_type");
       SSet "name" (ETxt "'Gaussian'");
       SSet "_transfer_matrix" (ENone);
       SSet "cte" (ENone)]))
     ["__init__"; "_calculate_transfer_matrix"; "__call__"; "transfer_matrix"; "gradient_chain_rule"; "set_times"]
     []
].
