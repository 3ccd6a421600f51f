(** The gradient of the whole chain and its numeric approximation, properties C66, C69 and C75 of properties.jsonl: transfer function, amplitude function, solver, cost
    function and simulator together.  Statements only; the proofs are in P_Grad.v, P_GradTotal.v, P_GradTotal2.v and
    P_GradSim.v, those of C69 in P_SimCheck.v and P_SimCheckWit.v,
    those of C75 in P_GradNoise.v, P_GradNoise2.v, P_GradNoise3.v, P_GradNoiseWit.v and P_GradNoiseRef.v.  The concrete cases are built in P_GradWit.v: two time steps, oversampled by two, one control with a square
    as its amplitude function, drift sigma_z and control sigma_x, and library functions that keep scipy's promises. *)
Require Import List Arith Lia Bool Reals.
From Verif Require Import LibBase LibRing LibArr LibCplx LibMat LibDeriv M_Matrix S_Linear S_Deriv S_Exp M_Transfer S_Transfer M_Amplitude S_Amplitude
  M_Solver S_Solver M_Cost S_Cost S_CostGrad M_Simulator M_CostProg S_Simulator S_Gradient P_Grad P_GradTotal P_GradTotal2 P_GradSim P_GradWit M_SimCheck S_SimCheck P_SimCheck P_SimCheckWit
  P_GradNoise P_GradNoise2 P_GradNoise3 P_GradNoiseWit P_GradNoiseRef.
Import ListNotations.
Open Scope nat_scope.
Set Implicit Arguments.

(** ---------- C66: the gradient by the pulse is the derivative of the costs ---------- *)
Theorem c66_operation : forall (rexp : R -> R) (la : LinAlg RField) (eps : cplx RField) d tau (s0 : @st RField) n k (c : @cfun RField) (y : RA) (V : op RField) b,
  optimised la eps d tau s0 n k -> evaluable rexp la eps n s0 y -> right_amplitudes rexp d s0 y -> wfa [length tau; ctrls d] y ->
  n = k -> is_matrix n n V ->
  cf_costs c = prog_operation_infidelity la V false None b -> cf_grad c = prog_operation_infidelity_grad la V false None b ->
  exists phi h, costs_number rexp la eps d tau s0 c phi /\ gradient_at (F:=RField) rexp la eps s0 c y h /\ is_pulse_gradient d tau phi y h.
Proof. intros rexp la eps d tau s0 n k c y V b O EV HA Wy. exact (@total_operation rexp la eps d tau s0 n k c y O EV HA Wy V b). Qed.
Print Assumptions c66_operation.
Theorem c66_operation_subspace : forall (rexp : R -> R) (la : LinAlg RField) (eps : cplx RField) d tau (s0 : @st RField) n k (c : @cfun RField) (y : RA) (V : op RField) cs,
  optimised la eps d tau s0 n k -> evaluable rexp la eps n s0 y -> right_amplitudes rexp d s0 y -> wfa [length tau; ctrls d] y ->
  n = k -> is_matrix (length cs) (length cs) V -> cs <> [] -> (forall i, In i cs -> i < n) ->
  cf_costs c = prog_operation_infidelity la V false (Some cs) false -> cf_grad c = prog_operation_infidelity_grad la V false (Some cs) false ->
  exists phi h, costs_number rexp la eps d tau s0 c phi /\ gradient_at (F:=RField) rexp la eps s0 c y h /\ is_pulse_gradient d tau phi y h.
Proof. intros rexp la eps d tau s0 n k c y V cs O EV HA Wy. exact (@total_operation_sub rexp la eps d tau s0 n k c y O EV HA Wy V cs). Qed.
Print Assumptions c66_operation_subspace.
Theorem c66_state : forall (rexp : R -> R) (la : LinAlg RField) (eps : cplx RField) d tau (s0 : @st RField) n k (c : @cfun RField) (y : RA) (phi0 : op RField) b,
  optimised la eps d tau s0 n k -> evaluable rexp la eps n s0 y -> right_amplitudes rexp d s0 y -> wfa [length tau; ctrls d] y ->
  k = 1 -> is_matrix n 1 phi0 -> 1 < n ->
  cf_costs c = prog_state_infidelity la phi0 None b -> cf_grad c = prog_state_infidelity_grad la phi0 None b ->
  exists phi h, costs_number rexp la eps d tau s0 c phi /\ gradient_at (F:=RField) rexp la eps s0 c y h /\ is_pulse_gradient d tau phi y h.
Proof. intros rexp la eps d tau s0 n k c y phi0 b O EV HA Wy. exact (@total_state rexp la eps d tau s0 n k c y O EV HA Wy phi0 b). Qed.
Print Assumptions c66_state.
Theorem c66_state_subspace : forall (rexp : R -> R) (la : LinAlg RField) (eps : cplx RField) d tau (s0 : @st RField) n k (c : @cfun RField) (y : RA) (phi0 : op RField) cs b,
  optimised la eps d tau s0 n k -> evaluable rexp la eps n s0 y -> right_amplitudes rexp d s0 y -> wfa [length tau; ctrls d] y ->
  k = 1 -> is_matrix (length cs) 1 phi0 -> 1 < length cs -> n <> 1 -> (forall i, In i cs -> i < n) ->
  cf_costs c = prog_state_infidelity la phi0 (Some cs) b -> cf_grad c = prog_state_infidelity_grad la phi0 (Some cs) b ->
  exists phi h, costs_number rexp la eps d tau s0 c phi /\ gradient_at (F:=RField) rexp la eps s0 c y h /\ is_pulse_gradient d tau phi y h.
Proof. intros rexp la eps d tau s0 n k c y phi0 cs b O EV HA Wy. exact (@total_state_sub rexp la eps d tau s0 n k c y O EV HA Wy phi0 cs b). Qed.
Print Assumptions c66_state_subspace.
Theorem c66_leakage : forall (rexp : R -> R) (la : LinAlg RField) (eps : cplx RField) d tau (s0 : @st RField) n k (c : @cfun RField) (y : RA) cs,
  optimised la eps d tau s0 n k -> evaluable rexp la eps n s0 y -> right_amplitudes rexp d s0 y -> wfa [length tau; ctrls d] y ->
  n = k -> cs <> [] -> levels n cs -> Forall (is_hermitian (S:=RS) n : op RField -> Prop) (s_drift s0) ->
  Forall (is_hermitian (S:=RS) n : op RField -> Prop) (c_ctrl (s_conf s0)) -> is_unitary (S:=RS) n (c_init (s_conf s0)) ->
  cf_costs c = prog_leakage la cs -> cf_grad c = prog_leakage_grad la cs ->
  exists phi h, costs_number rexp la eps d tau s0 c phi /\ gradient_at (F:=RField) rexp la eps s0 c y h /\ is_pulse_gradient d tau phi y h.
Proof. intros rexp la eps d tau s0 n k c y cs O EV HA Wy. exact (@total_leakage rexp la eps d tau s0 n k c y O EV HA Wy cs). Qed.
Print Assumptions c66_leakage.
(** any solver of the Schroedinger classes, if the calls return *)
Theorem c66_operation_if_returned : forall (rexp : R -> R) (la : LinAlg RField) (eps : cplx RField) d tau (s0 : @st RField) n k (c : @cfun RField) (y : RA) (h : RA) (phi : RA -> R) (V : op RField) b,
  optimised la eps d tau s0 n k -> right_amplitudes rexp d s0 y -> wfa [length tau; ctrls d] y ->
  gradient_at (F:=RField) rexp la eps s0 c y h -> costs_number rexp la eps d tau s0 c phi ->
  n = k -> is_matrix n n V ->
  cf_costs c = prog_operation_infidelity la V false None b -> cf_grad c = prog_operation_infidelity_grad la V false None b -> is_pulse_gradient d tau phi y h.
Proof. intros rexp la eps d tau s0 n k c y h phi. intros. eapply pulse_operation; eauto. Qed.
Print Assumptions c66_operation_if_returned.
Theorem c66_operation_subspace_if_returned : forall (rexp : R -> R) (la : LinAlg RField) (eps : cplx RField) d tau (s0 : @st RField) n k (c : @cfun RField) (y : RA) (h : RA) (phi : RA -> R) (V : op RField) cs,
  optimised la eps d tau s0 n k -> right_amplitudes rexp d s0 y -> wfa [length tau; ctrls d] y ->
  gradient_at (F:=RField) rexp la eps s0 c y h -> costs_number rexp la eps d tau s0 c phi ->
  n = k -> is_matrix (length cs) (length cs) V -> cs <> [] -> (forall i, In i cs -> i < n) ->
  cf_costs c = prog_operation_infidelity la V false (Some cs) false -> cf_grad c = prog_operation_infidelity_grad la V false (Some cs) false -> is_pulse_gradient d tau phi y h.
Proof. intros rexp la eps d tau s0 n k c y h phi. intros. eapply pulse_operation_sub; eauto. Qed.
Print Assumptions c66_operation_subspace_if_returned.
Theorem c66_state_if_returned : forall (rexp : R -> R) (la : LinAlg RField) (eps : cplx RField) d tau (s0 : @st RField) n k (c : @cfun RField) (y : RA) (h : RA) (phi : RA -> R) (phi0 : op RField) b,
  optimised la eps d tau s0 n k -> right_amplitudes rexp d s0 y -> wfa [length tau; ctrls d] y ->
  gradient_at (F:=RField) rexp la eps s0 c y h -> costs_number rexp la eps d tau s0 c phi ->
  k = 1 -> is_matrix n 1 phi0 -> 1 < n ->
  cf_costs c = prog_state_infidelity la phi0 None b -> cf_grad c = prog_state_infidelity_grad la phi0 None b -> is_pulse_gradient d tau phi y h.
Proof. intros rexp la eps d tau s0 n k c y h phi. intros. eapply pulse_state; eauto. Qed.
Print Assumptions c66_state_if_returned.
Theorem c66_state_subspace_if_returned : forall (rexp : R -> R) (la : LinAlg RField) (eps : cplx RField) d tau (s0 : @st RField) n k (c : @cfun RField) (y : RA) (h : RA) (phi : RA -> R) (phi0 : op RField) cs b,
  optimised la eps d tau s0 n k -> right_amplitudes rexp d s0 y -> wfa [length tau; ctrls d] y ->
  gradient_at (F:=RField) rexp la eps s0 c y h -> costs_number rexp la eps d tau s0 c phi ->
  k = 1 -> is_matrix (length cs) 1 phi0 -> 1 < length cs -> n <> 1 -> (forall i, In i cs -> i < n) ->
  cf_costs c = prog_state_infidelity la phi0 (Some cs) b -> cf_grad c = prog_state_infidelity_grad la phi0 (Some cs) b -> is_pulse_gradient d tau phi y h.
Proof. intros rexp la eps d tau s0 n k c y h phi. intros. eapply pulse_state_sub; eauto. Qed.
Print Assumptions c66_state_subspace_if_returned.
Theorem c66_leakage_if_returned : forall (rexp : R -> R) (la : LinAlg RField) (eps : cplx RField) d tau (s0 : @st RField) n k (c : @cfun RField) (y : RA) (h : RA) (phi : RA -> R) cs,
  optimised la eps d tau s0 n k -> right_amplitudes rexp d s0 y -> wfa [length tau; ctrls d] y ->
  gradient_at (F:=RField) rexp la eps s0 c y h -> costs_number rexp la eps d tau s0 c phi ->
  n = k -> cs <> [] -> levels n cs -> length (s_drift s0) = length (s_time s0) -> Forall (is_hermitian (S:=RS) n : op RField -> Prop) (s_drift s0) ->
  Forall (is_hermitian (S:=RS) n : op RField -> Prop) (c_ctrl (s_conf s0)) -> is_unitary (S:=RS) n (c_init (s_conf s0)) ->
  cf_costs c = prog_leakage la cs -> cf_grad c = prog_leakage_grad la cs -> is_pulse_gradient d tau phi y h.
Proof. intros rexp la eps d tau s0 n k c y h phi. intros. eapply pulse_leakage; eauto. Qed.
Print Assumptions c66_leakage_if_returned.
(** method "Frechet" *)
Theorem c66_frechet : forall (la : LinAlg RField) (eps : cplx RField) n (s0 : @st RField),
  scipy_exact la n -> c_meth (s_conf s0) = Frechet -> square_hamiltonians n s0 ->
  exact_exponentials la eps n s0 /\ answering la eps n s0.
Proof. exact frechet_exact. Qed.
Print Assumptions c66_frechet.
(** the simulator *)
Theorem c66_simulator : forall (rexp : R -> R) (la : LinAlg RField) (eps : cplx RField) (m : @sim RField) (w0 w : @world RField) p (y : RA) T P dl,
  set_up (F:=RField) la eps m w0 -> simulated (F:=RField) rexp la eps m w0 w -> sm_numeric m = false -> pulse_used (F:=RField) m p y -> wfa [T; P] y ->
  (forall y' : RA, wfa [T; P] y' -> accepted (F:=RField) rexp la eps m w0 y') ->
  Forall (fun c => differentiable rexp la eps w0 T P c y) (sm_cfs m) ->
  exists f : nat -> RA -> R,
   (forall w1 y', simulated (F:=RField) rexp la eps m w0 w1 -> wfa [T; P] y' ->
      exists w' v, wrapped_cost (F:=RField) rexp la eps m (Some y') w1 = (w', Ok v) /\ v = map (fun k => f k y') (seq 0 (length (sm_cfs m)))) /\
   exists w' J, wrapped_jac (F:=RField) rexp la eps m p dl w = (w', Ok J) /\ wfa [T; length (sm_cfs m); P] J /\
    forall k, k < length (sm_cfs m) -> has_gradient T P (f k) y (fun t q => get3 0%R J t k q).
Proof. exact simulator_gradient. Qed.
Print Assumptions c66_simulator.

Example c66_operator_case : forall rexp, let s0 := wsolver (Some (mid (S:=RS) 2)) in
  optimised wla c0 wd wtau s0 2 2 /\ evaluable rexp wla c0 2 s0 wy /\ right_amplitudes rexp wd s0 wy /\ wfa [length wtau; ctrls wd] wy /\
  is_matrix (S:=RS) 2 2 wsx /\ is_matrix (S:=RS) 1 1 wone /\ levels 2 [0] /\ Forall (is_hermitian (S:=RS) 2 : op RField -> Prop) (s_drift s0) /\
  Forall (is_hermitian (S:=RS) 2 : op RField -> Prop) (c_ctrl (s_conf s0)) /\ is_unitary (S:=RS) 2 (c_init (s_conf s0)) /\
  length (s_drift s0) = 4 /\ length (s_time s0) = 4 /\ scipy_exact wla 2.
Proof.
  intros rexp s0. split; [exact (wsolver_optimised wid_matrix)|]. split; [apply wy_evaluable|]. split; [apply wsolver_amps|]. split; [exact wy_wf|].
  split; [exact wsx_matrix|]. split; [exact wone_matrix|]. split; [exact wlevels|]. split; [apply wdrift_herm|]. split; [apply wctrl_herm|].
  split; [exact wid_unitary|]. split; [reflexivity|]. split; [reflexivity|apply wla_exact].
Qed.
Example c66_state_case : forall rexp, let s0 := wsolver (Some wket) in
  optimised wla c0 wd wtau s0 2 1 /\ evaluable rexp wla c0 2 s0 wy /\ right_amplitudes rexp wd s0 wy /\ wfa [length wtau; ctrls wd] wy /\
  is_matrix (S:=RS) 2 1 wket /\ is_matrix (S:=RS) (length [1; 0]) 1 wket.
Proof.
  intros rexp s0. split; [exact (wsolver_optimised wket_matrix)|]. split; [apply wy_evaluable|]. split; [apply wsolver_amps|]. split; [exact wy_wf|].
  split; exact wket_matrix.
Qed.
Example c66_simulator_case : forall rexp,
  set_up (F:=RField) wla c0 wsim wworld /\ simulated (F:=RField) rexp wla c0 wsim wworld wworld /\ sm_numeric wsim = false /\ pulse_used (F:=RField) wsim (Some wy) wy /\ wfa [2; 1] wy /\
  (forall y' : RA, wfa [2; 1] y' -> accepted (F:=RField) rexp wla c0 wsim wworld y') /\
  Forall (fun c => differentiable rexp wla c0 wworld 2 1 c wy) (sm_cfs wsim) /\ length (sm_cfs wsim) = 2.
Proof.
  intros rexp. split; [exact wsim_set_up|]. split; [constructor|]. split; [reflexivity|]. split; [now left|]. split; [exact wy_wf|].
  split; [intros; now apply wsim_accepted|]. split; [apply wsim_differentiable|reflexivity].
Qed.

(** ---------- C69: the numeric gradient tends to the jacobian ---------- *)
Theorem c69_numeric : forall (rexp : R -> R) (la : LinAlg RField) (eps : cplx RField) (m : @sim RField) (w0 : @world RField) (y : RA) T P,
  set_up (F:=RField) la eps m w0 -> sm_numeric m = false -> wfa [T; P] y ->
  (forall y' : RA, wfa [T; P] y' -> accepted (F:=RField) rexp la eps m w0 y') ->
  Forall (fun c => differentiable rexp la eps w0 T P c y) (sm_cfs m) ->
  exists J, wfa [T; length (sm_cfs m); P] J /\
   (forall p w dl, simulated (F:=RField) rexp la eps m w0 w -> pulse_used (F:=RField) m p y -> exists w', wrapped_jac (F:=RField) rexp la eps m p dl w = (w', Ok J)) /\
   forall e, (0 < e)%R -> exists d0, (0 < d0)%R /\ forall p w delta symmetric, simulated (F:=RField) rexp la eps m w0 w -> pulse_used (F:=RField) m p y ->
     delta <> 0%R -> (Rabs delta < d0)%R ->
     exists w' G, numeric_gradient (F:=RField) rexp la eps m p delta symmetric w = (w', Ok G) /\ wfa [T; length (sm_cfs m); P] G /\
      entries_close T (length (sm_cfs m)) P e G J.
Proof. exact numeric_converges. Qed.
Print Assumptions c69_numeric.
Theorem c69_compare : forall (rexp : R -> R) (la : LinAlg RField) (eps : cplx RField) (m : @sim RField) (w0 : @world RField) (y : RA) T P, let n := length (sm_cfs m) in
  set_up (F:=RField) la eps m w0 -> sm_numeric m = false -> wfa [T; P] y ->
  (forall y' : RA, wfa [T; P] y' -> accepted (F:=RField) rexp la eps m w0 y') ->
  Forall (fun c => differentiable rexp la eps w0 T P c y) (sm_cfs m) ->
  exists J, wfa [T; n; P] J /\
   (forall p w dl, simulated (F:=RField) rexp la eps m w0 w -> pulse_used (F:=RField) m p y -> exists w', wrapped_jac (F:=RField) rexp la eps m p dl w = (w', Ok J)) /\
   forall e, (0 < e)%R -> exists d0, (0 < d0)%R /\ forall p w delta symmetric dl, simulated (F:=RField) rexp la eps m w0 w -> pulse_used (F:=RField) m p y ->
     delta <> 0%R -> (Rabs delta < d0)%R ->
     exists w1 w2 (G : RA) a r, numeric_gradient (F:=RField) rexp la eps m p delta symmetric w = (w1, Ok G) /\
      @compare_gradients RField rexp la eps sqrt m p delta symmetric dl w = (w2, Ok (a, r)) /\ simulated (F:=RField) rexp la eps m w0 w2 /\
      a = frobenius T n P (fun t k q => get3 0%R G t k q - get3 0%R J t k q)%R /\ (a < e)%R /\
      ((exists t k q, t < T /\ k < n /\ q < P /\ get3 0%R J t k q <> 0%R) ->
        r = (a / ((frobenius T n P (get3 0%R G) + frobenius T n P (get3 0%R J)) / 2))%R /\ (0 <= r < e)%R).
Proof. exact compare_converges. Qed.
Print Assumptions c69_compare.
(** the cost functions of c66_simulator_case, and a simulator whose jacobian is known and does not vanish *)
Example c69_case : forall rexp,
  set_up (F:=RField) wla c0 wsim wworld /\ sm_numeric wsim = false /\ wfa [2; 1] wy /\
  (forall y' : RA, wfa [2; 1] y' -> accepted (F:=RField) rexp wla c0 wsim wworld y') /\
  Forall (fun c => differentiable rexp wla c0 wworld 2 1 c wy) (sm_cfs wsim) /\ length (sm_cfs wsim) = 2.
Proof.
  intros rexp. split; [exact wsim_set_up|]. split; [reflexivity|]. split; [exact wy_wf|].
  split; [intros; now apply wsim_accepted|]. split; [apply wsim_differentiable|reflexivity].
Qed.
Example c69_case_nonzero : forall rexp dl,
  set_up (F:=RField) wla c0 vsim wworld /\ sm_numeric vsim = false /\ wfa [2; 1] wy /\
  (forall y' : RA, wfa [2; 1] y' -> accepted (F:=RField) rexp wla c0 vsim wworld y') /\
  Forall (fun c => differentiable rexp wla c0 wworld 2 1 c wy) (sm_cfs vsim) /\
  exists w', wrapped_jac (F:=RField) rexp wla c0 vsim (Some wy) dl wworld = (w', Ok (Arr [2; 1; 1] [2; 0]%R)).
Proof.
  intros rexp dl. split; [exact vsim_set_up|]. split; [reflexivity|]. split; [exact wy_wf|].
  split; [intros; now apply vsim_accepted|]. split; [apply vsim_differentiable|apply vsim_jac].
Qed.

(** ---------- C75: the gradient of the noise infidelity ---------- *)
Theorem c75_noise_partial : forall (rexp : R -> R) (la : LinAlg RField) (eps : cplx RField) d tau (s0 : @st RField) n (m : @mcconf RField) (c : @cfun RField) (y : RA) (target : option (op RField)) cs dd unit neglect,
  optimised la eps d tau s0 n n -> noisy la eps n s0 m -> pulse_free s0 m -> right_amplitudes rexp d s0 y -> wfa [length tau; ctrls d] y ->
  (exists x, snd (call (F:=RField) rexp (s_tf s0) y) = Ok x) ->
  subspace n cs dd -> cs = None \/ unit = false -> (forall V, target = Some V -> neglect = false -> is_matrix dd dd V) ->
  cf_costs c = prog_noise_infidelity la (mc_traces m) target cs unit neglect ->
  cf_grad c = prog_noise_infidelity_grad la (mc_traces m) (length (s_time s0)) (length (c_ctrl (s_conf s0))) target cs unit neglect ->
  exists phi h, costs_number rexp la eps d tau s0 c phi /\ gradient_at (F:=RField) rexp la eps s0 c y h /\ is_pulse_gradient d tau phi y h.
Proof. exact noise_gradient. Qed.
Print Assumptions c75_noise_partial.
Theorem c75_frechet : forall (la : LinAlg RField) (eps : cplx RField) n (s0 : @st RField) ops,
  scipy_exact la n -> c_meth (s_conf s0) = Frechet -> exact_noisy la eps n s0 ops.
Proof. exact frechet_noisy. Qed.
Print Assumptions c75_frechet.
(** noise on the parameters of a nonlinear amplitude function: all the other hypotheses, and another gradient *)
Theorem c75_control_noise_refuted : forall rexp : R -> R, exists (la : LinAlg RField) (eps : cplx RField) d tau (s0 : @st RField) n (m : @mcconf RField) (c : @cfun RField) (y : RA) (target : option (op RField)) cs dd unit neglect,
  (optimised la eps d tau s0 n n /\ noisy la eps n s0 m /\ mc_ampf m = NControl /\ right_amplitudes rexp d s0 y /\ wfa [length tau; ctrls d] y /\
   (exists x, snd (call (F:=RField) rexp (s_tf s0) y) = Ok x) /\
   subspace n cs dd /\ (cs = None \/ unit = false) /\ (forall V, target = Some V -> neglect = false -> is_matrix dd dd V) /\
   cf_costs c = prog_noise_infidelity la (mc_traces m) target cs unit neglect /\
   cf_grad c = prog_noise_infidelity_grad la (mc_traces m) (length (s_time s0)) (length (c_ctrl (s_conf s0))) target cs unit neglect) /\
  exists phi h, costs_number rexp la eps d tau s0 c phi /\ gradient_at (F:=RField) rexp la eps s0 c y h /\ ~ is_pulse_gradient d tau phi y h.
Proof. exact control_noise_witness. Qed.
Print Assumptions c75_control_noise_refuted.

Example c75_noise_case : forall rexp, let s0 := nsolver in
  optimised wla c0 wd wtau s0 2 2 /\ noisy wla c0 2 s0 nmc /\ pulse_free s0 nmc /\ right_amplitudes rexp wd s0 wy /\ wfa [length wtau; ctrls wd] wy /\
  (exists x, snd (call (F:=RField) rexp (s_tf s0) wy) = Ok x) /\ mc_traces nmc = 2 /\ length (mc_ops nmc) = 2 /\ length (s_time s0) = 4 /\ length (c_ctrl (s_conf s0)) = 1 /\
  subspace 2 None 2 /\ subspace 2 (Some [1]) 1 /\ is_matrix (S:=RS) 2 2 wsx /\ is_matrix (S:=RS) 1 1 wone /\ c_meth (s_conf s0) = Frechet.
Proof.
  intros rexp s0. split; [exact nsolver_optimised|]. split; [exact nsolver_noisy|]. split; [now left|]. split; [apply nsolver_amps|]. split; [exact wy_wf|]. split; [apply nsolver_call|].
  repeat (split; [reflexivity|]). split; [split; [reflexivity|]; split; [discriminate|]; intros i [<-|[]]; lia|]. split; [exact wsx_matrix|]. split; [exact wone_matrix|reflexivity].
Qed.
Example c75_control_case : forall rexp, let s0 := csolver in
  optimised wla c0 wd wtau s0 2 2 /\ noisy wla c0 2 s0 cmc /\ pulse_free s0 cmc /\ mc_ampf cmc = NControl /\ right_amplitudes rexp wd s0 wy /\ wfa [length wtau; ctrls wd] wy /\
  (exists x, snd (call (F:=RField) rexp (s_tf s0) wy) = Ok x).
Proof.
  intros rexp s0. split; [exact csolver_optimised|]. split; [exact csolver_noisy|]. split; [right; repeat split; reflexivity|]. split; [reflexivity|]. split; [apply csolver_amps|]. split; [exact wy_wf|apply csolver_call].
Qed.
(** three such costs in a simulator: the hypotheses of c66_simulator *)
Example c75_simulator_case : forall rexp,
  set_up (F:=RField) wla c0 nsim nworld /\ simulated (F:=RField) rexp wla c0 nsim nworld nworld /\ sm_numeric nsim = false /\ pulse_used (F:=RField) nsim (Some wy) wy /\ wfa [2; 1] wy /\
  (forall y' : RA, wfa [2; 1] y' -> accepted (F:=RField) rexp wla c0 nsim nworld y') /\
  Forall (fun c => differentiable rexp wla c0 nworld 2 1 c wy) (sm_cfs nsim) /\ length (sm_cfs nsim) = 3.
Proof.
  intros rexp. split; [exact nsim_set_up|]. split; [constructor|]. split; [reflexivity|]. split; [now left|]. split; [exact wy_wf|].
  split; [intros; now apply nsim_accepted|]. split; [apply nsim_differentiable|reflexivity].
Qed.
