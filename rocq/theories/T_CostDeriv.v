(** Theorems about the derivatives of the average gate fidelity and the grape derivative of the entanglement fidelity in
    qopt/cost_functions.py, properties C73 and C74 of properties.jsonl.
    Statements only; the proofs are in P_CostDeriv.v and P_CostDerivGrad.v, the concrete cases in P_CostDerivWit.v. *)
Require Import List Arith Reals.
From Verif Require Import LibBase LibRing LibArr LibCplx LibMat LibDeriv M_Matrix S_Linear S_Deriv M_Solver M_Cost M_CostDeriv S_Cost S_CostGrad S_CostDeriv
  P_CostDeriv P_CostDerivGrad P_CostDerivWit.
Import ListNotations.
Set Implicit Arguments.

(** ---------- C73: derivatives of the average gate fidelity ---------- *)
Theorem c73_gradient : forall (la : LinAlg RField) T Cn V ps fwd ders revs dus,
  T <> 0 -> is_matrix 2 2 V -> length ps = T -> propagator_lists 2 2 T Cn fwd ders revs -> evolution 2 ps fwd revs -> array_of T Cn ders dus ->
  exists a g, derivative_average_gate_fid_with_du ps fwd dus V = Ok a /\ real_entries (F:=RField) T Cn a (get2 0%R g) /\
    is_gradient 2 2 T Cn fwd ders revs (fun (U : rop) (v : R) => average_gate_fidelity (F:=RField) U V = Ok (cofk (v : RField))) g.
Proof. exact @du_gradient. Qed.
Print Assumptions c73_gradient.
Theorem c73_entanglement : forall (la : LinAlg RField) T Cn V ps fwd ders revs dus b,
  T <> 0 -> is_matrix 2 2 V -> length ps = T -> propagator_lists 2 2 T Cn fwd ders revs -> evolution 2 ps fwd revs -> array_of T Cn ders dus ->
  exists a e, derivative_average_gate_fid_with_du ps fwd dus V = Ok a /\ derivative_entanglement_fidelity la V fwd ders revs None b = Ok e /\ wfa [T; Cn] e /\
    real_entries (F:=RField) T Cn a (fun t c => (2 / 3 * get2 0 e t c)%R).
Proof. exact @du_relation. Qed.
Print Assumptions c73_entanglement.
Theorem c73_grape : forall (F : OField) (T N : nat) (V : op F) ps past revs (ham dus : arr (op F)) (dt : F),
  T <> 0 -> N <> 0 -> is_matrix 2 2 V -> evolution 2 ps past revs -> length ps = T -> length past = S T -> length revs = S T ->
  Forall (is_matrix 2 2) past -> Forall (is_matrix 2 2) revs -> wfa [T; N] ham -> wfa [T; N] dus ->
  (forall t c x p, t < T -> c < N -> nth_error ps t = Some p -> is_hermitian 2 (get2 x ham t c) /\ grape_derivative 2 dt (get2 x ham t c) p (get2 x dus t c)) ->
  derivative_average_gate_fidelity ham ps past (OScal (cofk dt)) V = derivative_average_gate_fid_with_du ps past dus V.
Proof. exact @grape_is_du. Qed.
Print Assumptions c73_grape.
Theorem c73_dimension : forall (F : OField) n ps past dus (V : op F),
  ps <> [] -> Forall (is_matrix n n) ps -> n <> 2 -> derivative_average_gate_fid_with_du ps past dus V = Err NotImplementedError.
Proof. exact @du_dimension. Qed.
Print Assumptions c73_dimension.
(** the propagators u0 X and u1 Z at u0 = u1 = 1, with the target ZX: both derivatives are 4/3 *)
Example c73_case : length ps2 = 2 /\ is_matrix 2 2 target2 /\ propagator_lists 2 2 2 1 fwd2 ders2 revs2 /\ evolution (F:=RField) 2 ps2 fwd2 revs2 /\ array_of (F:=RField) 2 1 ders2 dus2.
Proof. exact (conj eq_refl case2). Qed.
Example c73_case_value : exists a, derivative_average_gate_fid_with_du ps2 fwd2 dus2 target2 = Ok a /\ real_entries (F:=RField) 2 1 a (fun _ _ => (4 / 3)%R).
Proof. exact case2_value. Qed.
(** the control Hamiltonians X and Z, in time steps of length 1/2 *)
Example c73_case_grape : wfa [2; 1] dus2 /\ wfa [2; 1] dusg /\
  forall t c x p, t < 2 -> c < 1 -> nth_error ps2 t = Some p -> is_hermitian (S:=RS) 2 (get2 x dus2 t c) /\ grape_derivative (F:=RField) 2 (1/2)%R (get2 x dus2 t c) p (get2 x dusg t c).
Proof. exact case2_grape. Qed.

(** ---------- C74: the grape derivative of the entanglement fidelity ---------- *)
(** The full claim: for one duration per time step, as a list, the derivatives.  It holds for one time step and an array only. *)
Theorem c74_one_step_partial : forall (la : LinAlg RField) d Cn (V p f0 f1 r0 r1 : rop) (hs Ds : list rop) (dt : R) b b',
  is_matrix d d V -> is_matrix d d p -> propagator_lists d d 1 Cn [f0; f1] (map (fun D => [D]) Ds) [r0; r1] -> is_product (S:=RS) d d d p f0 f1 ->
  length hs = Cn -> Forall (is_matrix d d) hs -> (forall c h D, nth_error hs c = Some h -> nth_error Ds c = Some D -> grape_derivative (F:=RField) d dt h p D) ->
  exists a g, derivative_entanglement_fidelity_grape hs [f0; f1] [r0; r1] (TArray (F:=RField) [dt]) V = Ok a /\ real_entries (F:=RField) 1 Cn a (get2 0%R g) /\
    derivative_entanglement_fidelity la V [f0; f1] (map (fun D => [D]) Ds) [r0; r1] None b = Ok g /\
    is_gradient d d 1 Cn [f0; f1] (map (fun D => [D]) Ds) [r0; r1] (fun (U : rop) (v : R) => entanglement_fidelity (F:=RField) la V U None b' = Ok v) g.
Proof. exact @grape_one. Qed.
Print Assumptions c74_one_step_partial.
Theorem c74_list_refuted : forall d (fwd revs hs : list rop) l (V x : rop), is_last fwd x -> is_matrix d d x -> is_matrix d d V -> hs <> [] -> l <> [] ->
  derivative_entanglement_fidelity_grape hs fwd revs (TList l) V = Err TypeError.
Proof. exact @grape_list. Qed.
Print Assumptions c74_list_refuted.
Theorem c74_steps_refuted : forall d (fwd revs hs : list rop) l (V : rop) T, is_matrix d d V -> T = length l -> length fwd = S T -> length revs = S T ->
  Forall (is_matrix d d) fwd -> Forall (is_matrix d d) revs -> Forall (is_matrix d d) hs -> hs <> [] -> 1 < T ->
  derivative_entanglement_fidelity_grape hs fwd revs (TArray l) V = Err ValueError.
Proof. exact @grape_array. Qed.
Print Assumptions c74_steps_refuted.
(** one time step with the propagator Z, the control Hamiltonian X and the length 1/2 *)
Example c74_case : is_matrix 2 2 target2 /\ is_matrix (S:=RS) 2 2 (pauli_z RField) /\
  propagator_lists 2 2 1 1 [mid (S:=RS) 2; mmul (S:=RS) (pauli_z RField) (mid (S:=RS) 2)] (map (fun D => [D]) [gd (pauli_x RField) (pauli_z RField)]) [mid (S:=RS) 2; mmul (S:=RS) (mid (S:=RS) 2) (pauli_z RField)] /\
  is_product (S:=RS) 2 2 2 (pauli_z RField) (mid (S:=RS) 2) (mmul (S:=RS) (pauli_z RField) (mid (S:=RS) 2)) /\
  Forall (@is_matrix RS 2 2) [pauli_x RField] /\
  (forall c h D, nth_error [pauli_x RField] c = Some h -> nth_error [gd (pauli_x RField) (pauli_z RField)] c = Some D -> grape_derivative (F:=RField) 2 (1/2)%R h (pauli_z RField) D).
Proof. exact case1. Qed.
(** the lists of c73_case with two durations *)
Example c74_case_steps : length fwd2 = 3 /\ length revs2 = 3 /\ Forall (is_matrix 2 2) fwd2 /\ Forall (is_matrix 2 2) revs2.
Proof. destruct case2 as (_ & (L1 & F1 & L2 & F2 & _) & _). auto. Qed.
