(** Theorems about the state fidelity of a part of a composite system in qopt/cost_functions.py, property C78 of
    properties.jsonl.  Statements only; the proofs and the concrete cases are in the P_CostSub*.v files. *)
Require Import List Arith Lia Bool Reals.
From Verif Require Import LibBase LibRing LibArr LibCplx LibMat LibEx LibDeriv M_Matrix S_Linear S_Deriv M_Cost M_CostSub S_PTrace S_Cost S_CostGrad P_CostWit S_CostSub P_CostSub P_CostSub2 P_CostSub3 S_Exp M_Transfer S_Transfer M_Amplitude S_Amplitude M_Solver S_Solver M_Simulator S_Simulator S_Gradient P_GradWit P_GradPart P_GradPartWit.
Import ListNotations.
Open Scope nat_scope.
Set Implicit Arguments.
Notation iter := (fun l : list nat => l).

(** ---------- C78: state_fidelity_subspace, StateInfidelitySubspace ---------- *)
Theorem c78_value : forall (F : OField) dims removed L (tol : F) (t psi : op F), proper_part dims removed -> places dims removed L ->
  is_matrix 1 (own dims removed) t -> is_matrix (whole dims) 1 psi ->
  state_fidelity_subspace iter tol t psi dims removed = Ok (found dims removed L t psi).
Proof. intros F dims removed L tol t psi H1 H2. exact (@ket_value F dims removed L H1 H2 tol t psi). Qed.
Print Assumptions c78_value.
Theorem c78_density : forall (F : OField) dims removed L (tol : F) (t rho : op F), proper_part dims removed -> places dims removed L ->
  is_matrix 1 (own dims removed) t -> is_hermitian (S:=CStar F) (whole dims) rho ->
  state_fidelity_subspace iter tol t rho dims removed = Ok (cre (found_mixed dims removed L t rho)).
Proof. intros F dims removed L tol t rho H1 H2. exact (@density_value F dims removed L H1 H2 tol t rho). Qed.
Print Assumptions c78_density.
Theorem c78_vectorised : forall (F : OField) dims removed L (tol : F) (t rho v : op F), proper_part dims removed -> places dims removed L ->
  is_matrix 1 (own dims removed) t -> is_hermitian (S:=CStar F) (whole dims) rho -> stacked (whole dims) rho v ->
  state_fidelity_subspace iter tol t v dims removed = Ok (cre (found_mixed dims removed L t rho)).
Proof. intros F dims removed L tol t rho v H1 H2. exact (@stacked_value F dims removed L H1 H2 tol t rho v). Qed.
Print Assumptions c78_vectorised.
Theorem c78_places : forall dims removed, proper_part dims removed -> exists L, places dims removed L.
Proof. intros dims removed H. exact (ex_intro _ _ (place_ok H)). Qed.
Print Assumptions c78_places.
Theorem c78_range : forall (F : OField) dims removed (tol : F) (t phi psi : op F), proper_part dims removed ->
  is_state (own dims removed) phi -> is_bra_of (own dims removed) t phi -> is_state (whole dims) psi ->
  exists f, state_fidelity_subspace iter tol t psi dims removed = Ok f /\ kle k0 f /\ kle f k1.
Proof. intros F dims removed tol t phi psi H. exact (@part_range F dims removed _ H (place_ok H) tol t phi psi). Qed.
Print Assumptions c78_range.
Theorem c78_one : forall (F : OField) dims removed L (tol : F) (t phi psi : op F), proper_part dims removed -> places dims removed L ->
  is_state (own dims removed) phi -> is_bra_of (own dims removed) t phi -> is_state (whole dims) psi ->
  (state_fidelity_subspace iter tol t psi dims removed = Ok k1 <-> exists chi, is_matrix (rest dims removed) 1 chi /\ is_product_state dims removed L phi chi psi).
Proof. intros F dims removed L tol t phi psi H1 H2. exact (@part_one F dims removed L H1 H2 tol t phi psi). Qed.
Print Assumptions c78_one.
Theorem c78_product : forall (F : OField) dims removed L (la : LinAlg F) (tol : F) (t phi chi psi : op F) b, proper_part dims removed -> places dims removed L ->
  is_matrix 1 (own dims removed) t -> is_matrix (own dims removed) 1 phi -> is_state (rest dims removed) chi -> is_product_state dims removed L phi chi psi ->
  state_fidelity_subspace iter tol t psi dims removed = state_fidelity la t phi None b.
Proof. intros F dims removed L la tol t phi chi psi b H1 H2. exact (@part_product F dims removed L H1 H2 la tol t phi chi psi b). Qed.
Print Assumptions c78_product.
Theorem c78_rest : forall (F : OField) dims removed L (tol : F) (t psi psi' : op F) V, proper_part dims removed -> places dims removed L ->
  is_matrix 1 (own dims removed) t -> is_matrix (whole dims) 1 psi -> is_unitary (S:=CStar F) (rest dims removed) V -> acted_on_rest dims removed L V psi psi' ->
  state_fidelity_subspace iter tol t psi' dims removed = state_fidelity_subspace iter tol t psi dims removed.
Proof. intros F dims removed L tol t psi psi' V H1 H2. exact (@part_rest F dims removed L H1 H2 tol t psi psi' V). Qed.
Print Assumptions c78_rest.
Theorem c78_costs : forall (F : OField) dims removed L (tol : F) r (t phi psi : op F), proper_part dims removed -> places dims removed L ->
  is_last (r_fwd r) psi -> is_matrix (whole dims) 1 psi -> is_matrix (own dims removed) 1 phi -> 1 < own dims removed -> is_bra_of (own dims removed) t phi ->
  state_infidelity_part iter tol r phi dims removed = Ok (ksub k1 (found dims removed L t psi)) /\
  state_infidelity_part iter tol r t dims removed = Ok (ksub k1 (found dims removed L t psi)).
Proof. exact @part_costs. Qed.
Print Assumptions c78_costs.
Theorem c78_gradient : forall dims removed (tol : RField) T Cn (t : rop) fwd ders revs, proper_part dims removed -> is_matrix 1 (own dims removed) t ->
  propagator_lists (whole dims) 1 T Cn fwd ders revs ->
  exists g, derivative_state_fidelity_subspace iter t fwd ders revs dims removed = Ok g /\
    is_gradient (whole dims) 1 T Cn fwd ders revs (fun (U : rop) (v : R) => state_fidelity_subspace (F:=RField) iter tol t U dims removed = Ok v) g.
Proof. intros dims removed tol T Cn t fwd ders revs H. exact (@part_gradient dims removed H tol T Cn t fwd ders revs). Qed.
Print Assumptions c78_gradient.
Theorem c78_costs_gradient : forall dims removed (tol : RField) T Cn r (phi : rop), proper_part dims removed -> is_matrix (own dims removed) 1 phi -> 1 < own dims removed ->
  propagator_lists (whole dims) 1 T Cn (r_fwd r) (r_der r) (r_rev r) ->
  exists g, state_infidelity_part_grad iter r phi dims removed = Ok g /\
    is_gradient (whole dims) 1 T Cn (r_fwd r) (r_der r) (r_rev r) (cost_at (fun r => state_infidelity_part iter tol r phi dims removed)) g.
Proof. intros dims removed tol T Cn r phi H. exact (@part_infidelity_gradient dims removed H tol T Cn r phi). Qed.
Print Assumptions c78_costs_gradient.
(** vectorised density matrices, for which the costs are defined, have no gradient *)
(** the same through the whole chain: the gradient by the optimisation parameters of the pulse *)
Theorem c78_pulse : forall (rexp : R -> R) (la : LinAlg RField) (eps : cplx RField) (tol : RField) (t : op RField) dims removed d tau (s0 : @st RField) n (c : @cfun RField) (y : RA),
  optimised la eps d tau s0 n 1 -> evaluable rexp la eps n s0 y -> right_amplitudes rexp d s0 y -> wfa [length tau; ctrls d] y ->
  proper_part dims removed -> n = whole dims -> is_matrix (own dims removed) 1 t -> 1 < own dims removed ->
  cf_costs c = prog_state_part iter tol t dims removed -> cf_grad c = prog_state_part_grad iter t dims removed ->
  exists phi h, costs_number rexp la eps d tau s0 c phi /\ gradient_at (F:=RField) rexp la eps s0 c y h /\ is_pulse_gradient d tau phi y h.
Proof. intros rexp la eps tol t dims removed d tau s0 n c y. intros. eapply total_part; eauto. Qed.
Print Assumptions c78_pulse.
Theorem c78_vectorised_gradient_refuted : forall dims removed T Cn r (phi : rop), proper_part dims removed -> T <> 0 ->
  propagator_lists (whole dims * whole dims) 1 T Cn (r_fwd r) (r_der r) (r_rev r) ->
  state_infidelity_part_grad (F:=RField) iter r phi dims removed = Err AssertionError.
Proof. exact stacked_gradient. Qed.
Print Assumptions c78_vectorised_gradient_refuted.
(** an imaginary part above the tolerance raises where a warning is announced *)
Theorem c78_warning_refuted : forall (F : OField) dims removed L (tol : F) (t rho : op F), proper_part dims removed -> places dims removed L ->
  is_matrix 1 (own dims removed) t -> is_matrix (whole dims) (whole dims) rho ->
  ~ kle (kmul (cim (found_mixed dims removed L t rho)) (cim (found_mixed dims removed L t rho))) (kmul tol tol) ->
  state_fidelity_subspace iter tol t rho dims removed = Err IndexError.
Proof. intros F dims removed L tol t rho H1 H2. exact (@complex_raises F dims removed L H1 H2 tol t rho). Qed.
Print Assumptions c78_warning_refuted.
Example c78_case_parts : proper_part [2; 2] [1] /\ places [2; 2] [1] (place [2; 2] [1]) /\ proper_part [2; 3; 2] [2; 0] /\ places [2; 3; 2] [2; 0] (place [2; 3; 2] [2; 0]) /\ place [2; 3; 2] [2; 0] 1 2 = 10.
Proof. exact (conj two_qubits (conj (place_ok two_qubits) (conj (proj1 three_parts) (conj (place_ok (proj1 three_parts)) (proj2 three_parts))))). Qed.
Example c78_case : is_state (F:=Qf) 4 bell /\ is_state (F:=Qf) 2 chi34 /\ state_fidelity_subspace iter (qq 1 100000) e0b bell [2; 2] [1] = Ok (qq 9 25) /\
  state_fidelity_subspace iter (qq 1 100000) e0b bell' [2; 2] [1] = Ok (qq 9 25) /\ state_fidelity_subspace iter (qq 1 100000) e0b prod34 [2; 2] [1] = Ok (qq 9 25).
Proof. exact part_case. Qed.
Example c78_case_product : is_product_state (F:=Qf) [2; 2] [1] (place [2; 2] [1]) e34 chi34 prod34 /\ acted_on_rest (F:=Qf) [2; 2] [1] (place [2; 2] [1]) ru bell bell' /\ is_unitary (S:=QS) 2 ru.
Proof. exact (conj qproduct (conj qacted ru_unitary)). Qed.
Example c78_case_mixed : is_hermitian (S:=QS) 4 mixed /\ stacked (F:=Qf) 4 mixed mixed_vec /\
  state_fidelity_subspace iter (qq 1 100000) e0b mixed [2; 2] [1] = Ok (qq 3 4) /\ state_fidelity_subspace iter (qq 1 100000) e0b mixed_vec [2; 2] [1] = Ok (qq 3 4).
Proof. exact mixed_case. Qed.
Example c78_case_gradient : (forall a, propagator_lists 4 1 1 1 (r_fwd (ent_reads a)) (r_der (ent_reads a)) (r_rev (ent_reads a)) /\
    final_propagator 4 1 1 1 (r_fwd (ent_reads a)) (r_der (ent_reads a)) (r_rev (ent_reads a)) (only 0 0) ent a) /\
  exists g, state_infidelity_part_grad (F:=RField) iter (ent_reads (PI/4)) k0r [2; 2] [1] = Ok g /\ get2 0%R g 0 0 = 1%R.
Proof. exact (conj (fun a => conj (ent_lists a) (ent_final a)) ent_case). Qed.
Example c78_case_vectorised : propagator_lists (whole [2;2] * whole [2;2]) 1 1 1 (r_fwd vec_reads) (r_der vec_reads) (r_rev vec_reads).
Proof. exact vec_lists. Qed.
Example c78_case_warning : is_unitary (S:=QS) 4 phase4 /\ kleb (kmul (cim (found_mixed (F:=Qf) [2;2] [1] (place [2;2] [1]) e0b phase4)) (cim (found_mixed (F:=Qf) [2;2] [1] (place [2;2] [1]) e0b phase4))) (kmul (qq 1 100000) (qq 1 100000)) = false.
Proof. exact complex_case. Qed.
Example c78_case_pulse : forall rexp, let s0 := vsolver (Some vket) in
  optimised wla c0 wd wtau s0 4 1 /\ evaluable rexp wla c0 4 s0 wy /\ right_amplitudes rexp wd s0 wy /\ wfa [length wtau; ctrls wd] wy /\
  proper_part [2; 2] [1] /\ 4 = whole [2; 2] /\ is_matrix (S:=RS) (own [2; 2] [1]) 1 vtarget /\ 1 < own [2; 2] [1].
Proof.
  intros rexp s0. split; [exact (vsolver_optimised vket_matrix)|]. split; [apply vy_evaluable|]. split; [apply vsolver_amps|]. split; [exact wy_wf|].
  split; [exact vpart|]. split; [reflexivity|]. split; [exact vtarget_matrix|]. cbn. auto.
Qed.
