(** Theorems about the propagators of LindbladSolver in qopt/solver_algorithms.py, and about the cost functions of noisy
    evolutions in qopt/cost_functions.py, properties C67 and C68 of properties.jsonl.
    Statements only; the proofs are in P_Trotter.v and P_Channel*.v, the concrete cases in P_ChannelWit.v and P_ChannelFidWit.v. *)
Require Import List Arith Reals.
From Verif Require Import LibBase LibRing LibArr LibCplx LibMat LibDeriv M_Matrix S_Linear S_Exp M_Transfer S_Transfer M_Solver S_Solver M_Cost S_Cost S_Lindblad S_Channel S_ChannelCost
  P_Trotter P_Channel2 P_Channel3 P_ChannelFid P_ChannelFid2 P_GradWit P_ChannelWit P_ChannelFidWit.
Import ListNotations.
Set Implicit Arguments.

(** ---------- C67: Lindblad propagators are quantum channels ---------- *)
Theorem c67_step : forall n H (Ls : list (mat RS)) w (G : mat RS) (tau : R) E,
  hermitian_fun (F:=RField) n H -> (forall k, k < length Ls -> (0 <= w k)%R) -> (0 <= tau)%R ->
  acts_as (F:=RField) n G (master (F:=RField) n H Ls w) -> is_exponential (n * n) (mscale (S:=RS) (cofk (tau : RField)) G) E -> channel n E.
Proof. exact @exp_channel. Qed.
Print Assumptions c67_step.
Theorem c67_propagators : forall (rexp : R -> R) (la : LinAlg RField) (eps : cplx RField) d (s0 s : @st RField) n l u w ps,
  used (F:=RField) rexp la eps d s0 s -> physical n l s u w -> exponentiates la (n * n) s ->
  returns (F:=RField) rexp la eps s SPropag (VProp ps) ->
  length ps = length (s_time s) /\ forall t, t < length (s_time s) -> exists E, nth_error ps t = Some (Some E) /\ channel n E.
Proof. exact @used_channels. Qed.
Print Assumptions c67_propagators.
Theorem c67_forward : forall (rexp : R -> R) (la : LinAlg RField) (eps : cplx RField) d (s0 s : @st RField) n l u w fs,
  used (F:=RField) rexp la eps d s0 s -> physical n l s u w -> exponentiates la (n * n) s -> channel n (c_init (s_conf s)) ->
  (exists ps, returns (F:=RField) rexp la eps s SPropag (VProp ps)) -> returns (F:=RField) rexp la eps s SFwd (VOps fs) ->
  length fs = Datatypes.S (length (s_time s)) /\ Forall (channel n) fs.
Proof. exact @used_forward_channels. Qed.
Print Assumptions c67_forward.
Theorem c67_states : forall (rexp : R -> R) (la : LinAlg RField) (eps : cplx RField) d (s0 s : @st RField) n l u w fs rho,
  used (F:=RField) rexp la eps d s0 s -> physical n l s u w -> exponentiates la (n * n) s ->
  vectorised n rho (c_init (s_conf s)) -> density n rho ->
  (exists ps, returns (F:=RField) rexp la eps s SPropag (VProp ps)) -> returns (F:=RField) rexp la eps s SFwd (VOps fs) ->
  length fs = Datatypes.S (length (s_time s)) /\ Forall (fun f => exists sigma, vectorised n sigma f /\ density n sigma) fs.
Proof. exact @used_forward_states. Qed.
Print Assumptions c67_states.
Theorem c67_density : forall n (E : mat RS) rho, channel n E -> density n rho -> density n (apply_super (F:=RField) n E rho).
Proof. exact @channel_density. Qed.
Print Assumptions c67_density.
(** a spin driven with the amplitudes 0 and 1, relaxing with the rates 1 and 2 *)
Example c67_case : forall i, used (F:=RField) (fun x => x) lla c0 (DId 1) (lsolver i) (lrun i) /\ physical 2 lconf (lrun i) ly lrates /\ exponentiates lla 4 (lrun i) /\
  (exists ps, returns (F:=RField) (fun x => x) lla c0 (lrun i) SPropag (VProp ps)) /\ length (s_time (lrun i)) = 2.
Proof. intros i. split; [apply lused|]. split; [apply lphysical|]. split; [apply lexact|]. split; [apply lpropagators|]. reflexivity. Qed.
Example c67_case_channel : channel 2 (c_init (s_conf (lrun None))) /\ exists fs, returns (F:=RField) (fun x => x) lla c0 (lrun None) SFwd (VOps fs).
Proof. split; [exact (channel_mid 2)|]. apply lforward. now left. Qed.
Example c67_case_state : vectorised 2 lexc (c_init (s_conf (lrun (Some lvec)))) /\ density 2 lexc /\
  exists fs, returns (F:=RField) (fun x => x) lla c0 (lrun (Some lvec)) SFwd (VOps fs).
Proof. split; [apply lvec_state|]. split; [apply lvec_state|]. apply lforward. right. exists lvec. split; [reflexivity|]. apply lvec_state. Qed.

(** ---------- C68: the costs of noisy evolutions lie between 0 and 1 ---------- *)
Theorem c68_fidelity : forall n (V E : mat RS), 0 < n -> is_unitary (S:=RS) n V -> channel n E ->
  exists f : R, entanglement_fidelity_super (F:=RField) V E None = Ok f /\ (0 <= f <= 1)%R.
Proof. exact @super_range. Qed.
Print Assumptions c68_fidelity.
Theorem c68_fidelity_subspace : forall n (V E : mat RS) cs, cs <> [] -> levels n cs -> is_unitary (S:=RS) (length cs) V -> channel n E ->
  exists f : R, entanglement_fidelity_super (F:=RField) V E (Some cs) = Ok f /\ (0 <= f <= 1)%R.
Proof. exact @super_range_sub. Qed.
Print Assumptions c68_fidelity_subspace.
Theorem c68_operation : forall n (r : @reads RField) (V E : mat RS), 0 < n -> is_last (r_fwd r) E -> channel n E -> is_unitary (S:=RS) n V -> forall (la : LinAlg RField) b,
  exists x : R, operation_infidelity (F:=RField) la r V true None b = Ok x /\ (0 <= x <= 1)%R.
Proof. exact @infidelity_range. Qed.
Print Assumptions c68_operation.
Theorem c68_operation_subspace : forall n (r : @reads RField) (V E : mat RS) cs, cs <> [] -> levels n cs -> is_last (r_fwd r) E -> channel n E -> is_unitary (S:=RS) (length cs) V -> forall (la : LinAlg RField) b,
  exists x : R, operation_infidelity (F:=RField) la r V true (Some cs) b = Ok x /\ (0 <= x <= 1)%R.
Proof. exact @infidelity_range_sub. Qed.
Print Assumptions c68_operation_subspace.
Theorem c68_monte_carlo : forall n (r : @reads RField) (V : mat RS), 0 < n -> traces_of (is_unitary (S:=RS) n) (r_nfwd r) -> is_unitary (S:=RS) n V ->
  exists x : R, liouville_infidelity (F:=RField) r V None = Ok x /\ (0 <= x <= 1)%R.
Proof. exact @mc_infidelity_range. Qed.
Print Assumptions c68_monte_carlo.
Theorem c68_monte_carlo_subspace : forall n (r : @reads RField) (V : mat RS) cs, cs <> [] -> levels n cs -> traces_of (is_unitary (S:=RS) n) (r_nfwd r) -> is_unitary (S:=RS) (length cs) V ->
  exists x : R, liouville_infidelity (F:=RField) r V (Some cs) = Ok x /\ (0 <= x <= 1)%R.
Proof. exact @mc_infidelity_range_sub. Qed.
Print Assumptions c68_monte_carlo_subspace.
Theorem c68_leakage : forall n (r : @reads RField) cs input_unitary monte_carlo, cs <> [] -> levels n cs -> leak_input n r input_unitary monte_carlo ->
  exists x : R, leakage_liouville (F:=RField) r n cs input_unitary monte_carlo = Ok x /\ (0 <= x <= 1)%R.
Proof. exact @leak_range. Qed.
Print Assumptions c68_leakage.
Theorem c68_unitary : forall n (U : mat RS), is_unitary (S:=RS) n U -> channel n (op_to_super (F:=RField) U).
Proof. exact @unitary_channel. Qed.
Print Assumptions c68_unitary.
Theorem c68_average : forall n (l : list (list (mat RS))), traces_of (is_unitary (S:=RS) n) l -> exists P, average_super (F:=RField) l = Ok P /\ channel n P.
Proof. exact @avg_unitary. Qed.
Print Assumptions c68_average.
Theorem c68_lindblad : forall d (rexp : R -> R) (la : LinAlg RField) (eps : cplx RField) (s0 s : @st RField) n l u w fs (r : @reads RField) (V : mat RS) cs b,
  used (F:=RField) rexp la eps d s0 s -> physical n l s u w -> exponentiates la (n * n) s -> channel n (c_init (s_conf s)) ->
  (exists ps, returns (F:=RField) rexp la eps s SPropag (VProp ps)) -> returns (F:=RField) rexp la eps s SFwd (VOps fs) -> r_fwd r = fs ->
  0 < n -> is_unitary (S:=RS) n V -> cs <> [] -> levels n cs ->
  (exists x : R, operation_infidelity (F:=RField) la r V true None b = Ok x /\ (0 <= x <= 1)%R) /\
  (exists x : R, leakage_liouville (F:=RField) r n cs false false = Ok x /\ (0 <= x <= 1)%R).
Proof. exact @used_costs. Qed.
Print Assumptions c68_lindblad.
(** two traces, one with a flip of the spin: the infidelity with the identity and the leakage out of one level are 1/2 *)
Example c68_case : traces_of (is_unitary (S:=RS) 2) (r_nfwd treads) /\ is_unitary (S:=RS) 2 tid /\ liouville_infidelity (F:=RField) treads tid None = Ok (/ 2)%R /\
  liouville_infidelity (F:=RField) treads (mid (S:=RS) 1) (Some [1]) = Ok (/ 2)%R /\ leak_input 2 treads true true /\ leakage_liouville (F:=RField) treads 2 [0] true true = Ok (/ 2)%R.
Proof.
  split; [apply ttraces|]. split; [apply tunitary; now right|]. split; [apply tinfidelity|]. split; [apply tinfidelity_sub|]. split; [apply ttraces|apply tleak].
Qed.
(** the solver of c67_case *)
Example c68_case_lindblad : exists fs, returns (F:=RField) (fun x => x) lla c0 (lrun None) SFwd (VOps fs) /\
  exists x : R, operation_infidelity (F:=RField) lla (mkreads (F:=RField) fs [] [] [] [] [] 0 2 1) tsx true None false = Ok x /\ (0 <= x <= 1)%R.
Proof.
  destruct (@lforward None (or_introl eq_refl)) as [fs Q]. exists fs. split; [exact Q|].
  refine (proj1 (@c68_lindblad (DId 1) (fun x => x) lla c0 (lsolver None) (lrun None) 2 lconf ly lrates fs (mkreads (F:=RField) fs [] [] [] [] [] 0 2 1) tsx [0] false
    (lused None) (lphysical None) (lexact None) (channel_mid 2) (lpropagators None) Q eq_refl (Nat.lt_0_succ 1) (tunitary (or_introl eq_refl)) _ _)); [discriminate|].
  split; [repeat constructor; intros []|]. intros i [<-|[]]. repeat constructor.
Qed.
