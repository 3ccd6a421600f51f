(** Specification for C89: when the arguments of a call fit to the parameters, and which value a parameter gets. *)
Require Import List Arith String.
From Verif Require Import LibBase M_Init.
Import ListNotations.
Local Open Scope string_scope.
Set Implicit Arguments.

Section Call.
Variable V : Type.
Variables (sig : signature) (args : list (val V)) (kws : list (string * val V)).
(** the first parameters are given by position, keywords name others and none twice, nothing without a default is left out *)
Definition fits : Prop :=
  List.length args <= List.length sig /\ NoDup (map fst kws) /\ (forall k, In k (map fst kws) -> In k (skipn (List.length args) (map fst sig))) /\
  forall p, In (p, None) sig -> In p (firstn (List.length args) (map fst sig)) \/ In p (map fst kws).
(** the value of a default *)
Definition default_value (e : expr) (v : val V) : Prop := match e with ENone => v = VNone | ETxt t => v = VText t | _ => False end.
(** given by position, by keyword, or the default *)
Definition receives (p : string) (v : val V) : Prop :=
  (exists i, nth_error (map fst sig) i = Some p /\ nth_error args i = Some v) \/ In (p, v) kws \/
  (~ In p (firstn (List.length args) (map fst sig)) /\ ~ In p (map fst kws) /\ exists e, In (p, Some e) sig /\ default_value e v).
End Call.

(** the signature of a class is that of the first __init__ among itself and its parents *)
Inductive signature_of (table : list cls) : string -> signature -> Prop :=
| sig_own c sig body : In c table -> c_init c = Some (sig, body) -> signature_of table (c_name c) sig
| sig_inherited c p sig : In c table -> c_init c = None -> c_parent c = Some p -> signature_of table p sig -> signature_of table (c_name c) sig
| sig_object c : In c table -> c_init c = None -> c_parent c = None -> signature_of table (c_name c) [].

(** the classes a client is meant to use *)
Definition concrete : list string :=
  ["IdentityAmpFunc"; "UnaryAnalyticAmpFunc"; "CustomAmpFunc"; "Analyser"; "StateInfidelity"; "StateInfidelitySubspace"; "StateNoiseInfidelity"; "OperationInfidelity";
   "OperationNoiseInfidelity"; "LiouvilleMonteCarloEntanglementInfidelity"; "OperatorFilterFunctionInfidelity"; "LeakageError"; "IncoherentLeakageError"; "LeakageLiouville";
   "DataContainer"; "DenseOperator"; "NTGQuasiStatic"; "NTGColoredNoise"; "OptimizationResult"; "OptimizationSummary"; "LeastSquaresOptimizer"; "ScalarMinimizingOptimizer";
   "SimulatedAnnealing"; "PerformanceStatistics"; "Simulator"; "SchroedingerSolver"; "SchroedingerSMonteCarlo"; "SchroedingerSMCControlNoise"; "LindbladSolver"; "LindbladSControlNoise";
   "IdentityTF"; "OversamplingTF"; "ConvolutionTF"; "GaussianConvolution"; "ConcatenateTF"; "ParallelTF"; "OversamplingMTF"; "ConcatenateMTF"; "ParallelMTF"; "CustomMTF"; "ExponentialMTF"; "GaussianMTF"].
Definition abstract : list string :=
  ["AmplitudeFunction"; "CostFunction"; "OperatorMatrix"; "SparseOperator"; "NoiseTraceGenerator"; "Optimizer"; "Solver"; "TransferFunction"; "MatrixTF"].

(** parameters that are converted, checked or used up before anything is stored *)
Definition converted : list (string * string) :=
  [("UnaryAnalyticAmpFunc", "value_function"); ("UnaryAnalyticAmpFunc", "derivative_function"); ("StateInfidelity", "target"); ("StateInfidelitySubspace", "target"); ("StateNoiseInfidelity", "target");
   ("StateNoiseInfidelity", "neglect_systematic_errors"); ("OperationInfidelity", "fidelity_measure"); ("OperationInfidelity", "label"); ("OperationNoiseInfidelity", "neglect_systematic_errors");
   ("DataContainer", "storage_path"); ("DenseOperator", "obj"); ("NTGQuasiStatic", "correct_std_for_discrete_sampling"); ("LeastSquaresOptimizer", "termination_cond"); ("LeastSquaresOptimizer", "cost_func_weights");
   ("ScalarMinimizingOptimizer", "termination_cond"); ("ScalarMinimizingOptimizer", "cost_func_weights"); ("SimulatedAnnealing", "bounds"); ("SimulatedAnnealing", "initial_temperature"); ("SimulatedAnnealing", "final_temperature");
   ("SimulatedAnnealing", "step_size"); ("SimulatedAnnealing", "step_ratio"); ("SimulatedAnnealing", "steps"); ("SimulatedAnnealing", "updates"); ("Simulator", "record_performance_statistics");
   ("SchroedingerSolver", "h_drift"); ("SchroedingerSolver", "tau"); ("SchroedingerSolver", "initial_state"); ("SchroedingerSMonteCarlo", "h_drift"); ("SchroedingerSMonteCarlo", "tau"); ("SchroedingerSMonteCarlo", "initial_state");
   ("SchroedingerSMCControlNoise", "h_drift"); ("SchroedingerSMCControlNoise", "tau"); ("SchroedingerSMCControlNoise", "initial_state"); ("LindbladSolver", "h_drift"); ("LindbladSolver", "tau"); ("LindbladSolver", "initial_state");
   ("LindbladSControlNoise", "h_drift"); ("LindbladSControlNoise", "tau"); ("LindbladSControlNoise", "initial_state"); ("LindbladSControlNoise", "lindblad_operators"); ("ConvolutionTF", "kernel"); ("GaussianMTF", "start"); ("GaussianMTF", "end")].
(** attributes that have another name than the parameter, apart from a leading underscore *)
Definition aliases : list (string * string) :=
  [("super_operator_formalism", "super_operator"); ("optimization_stats", "optimization_statistics"); ("optimization_parameters", "_optimization_parameteres"); ("calculate_unitary_derivatives", "calculate_propagator_derivatives");
   ("prefactor_derivative_function", "_prefactor_deriv_function"); ("super_operator_function", "_sup_op_func"); ("super_operator_derivative_function", "_sup_op_deriv_func"); ("over_sample_rate", "N")].
(** the attribute that keeps parameter p *)
Definition keeps (p a : string) : Prop := a = p \/ a = "_" ++ p \/ In (p, a) aliases.
(** what obj.a yields after the assignments obj, the last one first *)
Definition attribute V (obj : list (string * val V)) (a : string) (v : val V) : Prop :=
  exists later earlier, obj = (later ++ (a, v) :: earlier)%list /\ ~ In a (map fst later).
