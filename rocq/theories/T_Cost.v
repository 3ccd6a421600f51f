(** Theorems about qopt/cost_functions.py, properties C35 to C43 of properties.jsonl.  Statements only; the proofs are in
    the P_Cost*.v files.  After the theorems of each property there is a concrete case (built in P_CostWit.v). *)
Require Import List Arith Lia Bool ZArith QArith Qcanon Reals.
From Verif Require Import LibBase LibRing LibArr LibCplx LibNorm LibMat LibDeriv LibEx M_Matrix S_Linear M_OpHeap M_Transfer S_Transfer M_Amplitude
  M_Solver S_Solver S_Deriv M_Cost S_Cost S_CostGrad P_Cost P_Cost2 P_Cost3 P_CostGrad P_CostGrad2 P_CostWit.
Import ListNotations.
Open Scope nat_scope.
Open Scope k_scope.
Set Implicit Arguments.

(** ---------- C35: state fidelity ---------- *)
Theorem c35_range : forall (F : OField) (la : LinAlg F) n (t phi psi : op F) b,
  is_state n phi -> is_state n psi -> is_bra_of n t phi ->
  exists f, state_fidelity la t psi None b = Ok f /\ 0 <= f /\ f <= 1.
Proof. exact @state_fid_range. Qed.
Print Assumptions c35_range.
Theorem c35_symmetric : forall (F : OField) (la : LinAlg F) n (t s phi psi : op F) b,
  is_matrix n 1 phi -> is_matrix n 1 psi -> is_bra_of n t phi -> is_bra_of n s psi ->
  state_fidelity la t psi None b = state_fidelity la s phi None b.
Proof. exact @state_fid_sym. Qed.
Print Assumptions c35_symmetric.
Theorem c35_phase : forall (F : OField) (la : LinAlg F) n (t t' psi psi' : op F) c d b,
  is_matrix 1 n t -> is_matrix n 1 psi -> cnorm2 c = 1 -> cnorm2 d = 1 ->
  is_multiple 1 n d t t' -> is_multiple n 1 c psi psi' ->
  state_fidelity la t' psi' None b = state_fidelity la t psi None b.
Proof. exact @state_fid_phase. Qed.
Print Assumptions c35_phase.
Theorem c35_unitary : forall (F : OField) (la : LinAlg F) n (t t' phi phi' psi psi' W : op F) b,
  is_matrix n 1 phi -> is_matrix n 1 psi -> is_unitary n W ->
  is_product n n 1 W phi phi' -> is_product n n 1 W psi psi' -> is_bra_of n t phi -> is_bra_of n t' phi' ->
  state_fidelity la t' psi' None b = state_fidelity la t psi None b.
Proof. exact @state_fid_unitary. Qed.
Print Assumptions c35_unitary.
Theorem c35_one : forall (F : OField) (la : LinAlg F) n (t phi psi : op F) b,
  is_state n phi -> is_state n psi -> is_bra_of n t phi ->
  (state_fidelity la t psi None b = Ok 1 <-> same_up_to_phase n 1 phi psi).
Proof. exact @state_fid_one. Qed.
Print Assumptions c35_one.
Theorem c35_overlap : forall (F : OField) (la : LinAlg F) n (t psi : op F) b,
  is_matrix 1 n t -> is_matrix n 1 psi ->
  state_fidelity la t psi None b = Ok (cnorm2 (sumn (S:=(CStar F)) n (fun i => cmul t.[0,i] psi.[i,0]))).
Proof. exact @state_fid_val. Qed.
Print Assumptions c35_overlap.
Theorem c35_not_scalar : forall (F : OField) (la : LinAlg F) m n k (t psi : op F) b,
  is_matrix m n t -> is_matrix n k psi -> (m <> 1 \/ k <> 1)%nat ->
  state_fidelity la t psi None b = Err ValueError.
Proof. exact @state_fid_not_scalar. Qed.
Print Assumptions c35_not_scalar.
Theorem c35_subspace : forall (F : OField) (la : LinAlg F) n (t psi : op F) cs b,
  is_matrix 1 (length cs) t -> is_matrix n 1 psi -> (n <> 1)%nat -> (forall i, In i cs -> (i < n)%nat) ->
  state_fidelity la t psi (Some cs) b = Ok (cnorm2 (sumn (S:=(CStar F)) (length cs) (fun a => cmul t.[0,a] psi.[nth a cs 0%nat, 0]))).
Proof. exact @state_fid_sub. Qed.
Print Assumptions c35_subspace.
Theorem c35_subspace_range : forall (F : OField) (la : LinAlg F) n (t phi psi : op F) cs b,
  is_bra_of (length cs) t phi -> is_state (length cs) phi -> is_state n psi -> (n <> 1)%nat -> levels n cs ->
  exists f, state_fidelity la t psi (Some cs) b = Ok f /\ 0 <= f /\ f <= 1.
Proof. exact @state_fid_sub_range. Qed.
Print Assumptions c35_subspace_range.
Example c35_case : is_state (F:=QcField) 2 e0 /\ is_state (F:=QcField) 2 e34 /\ is_bra_of (F:=QcField) 2 e0b e0 /\
  state_fidelity qla0 e0b e34 None false = Ok (qq 9 25).
Proof. split; [apply e0_state|]. split; [apply e34_state|]. split; [apply e0_bra|apply state_case]. Qed.

(** ---------- C36: entanglement fidelity ---------- *)
Theorem c36_range : forall (F : OField) (la : LinAlg F) d (V : op F) (U : op F) b,
  (d <> 0)%nat -> is_unitary d V -> is_unitary d U ->
  exists f, entanglement_fidelity la V U None b = Ok f /\ 0 <= f /\ f <= 1.
Proof. exact @ent_fid_range. Qed.
Print Assumptions c36_range.
Theorem c36_symmetric : forall (F : OField) (la : LinAlg F) d (V : op F) (U : op F) b,
  is_matrix d d V -> is_matrix d d U ->
  entanglement_fidelity la V U None b = entanglement_fidelity la U V None b.
Proof. exact @ent_fid_sym. Qed.
Print Assumptions c36_symmetric.
Theorem c36_phase : forall (F : OField) (la : LinAlg F) d (V : op F) (U : op F) (V' : op F) (U' : op F) c e b,
  is_matrix d d V -> is_matrix d d U -> cnorm2 c = 1 -> cnorm2 e = 1 ->
  is_multiple d d c V V' -> is_multiple d d e U U' ->
  entanglement_fidelity la V' U' None b = entanglement_fidelity la V U None b.
Proof. exact @ent_fid_phase. Qed.
Print Assumptions c36_phase.
Theorem c36_left_unitary : forall (F : OField) (la : LinAlg F) d (V : op F) (U : op F) (V' : op F) (U' : op F) (W : op F) b,
  is_matrix d d V -> is_matrix d d U -> is_unitary d W ->
  is_product d d d W V V' -> is_product d d d W U U' ->
  entanglement_fidelity la V' U' None b = entanglement_fidelity la V U None b.
Proof. exact @ent_fid_unitary_l. Qed.
Print Assumptions c36_left_unitary.
Theorem c36_right_unitary : forall (F : OField) (la : LinAlg F) d (V : op F) (U : op F) (V' : op F) (U' : op F) (W : op F) b,
  is_matrix d d V -> is_matrix d d U -> is_unitary d W ->
  is_product d d d V W V' -> is_product d d d U W U' ->
  entanglement_fidelity la V' U' None b = entanglement_fidelity la V U None b.
Proof. exact @ent_fid_unitary_r. Qed.
Print Assumptions c36_right_unitary.
Theorem c36_one : forall (F : OField) (la : LinAlg F) d (V : op F) (U : op F) b,
  (d <> 0)%nat -> is_unitary d V -> is_unitary d U ->
  (entanglement_fidelity la V U None b = Ok 1 <-> same_up_to_phase d d V U).
Proof. exact @ent_fid_one. Qed.
Print Assumptions c36_one.
Theorem c36_subspace : forall (F : OField) (la : LinAlg F) n (V : op F) (U : op F) cs b T,
  is_matrix (length cs) (length cs) V -> is_matrix n n U -> (forall i, In i cs -> (i < n)%nat) -> is_block cs U T ->
  entanglement_fidelity la V U (Some cs) false = entanglement_fidelity la V T None b.
Proof. exact @ent_fid_sub. Qed.
Print Assumptions c36_subspace.
Theorem c36_subspace_range : forall (F : OField) (la : LinAlg F) n (V : op F) (U : op F) cs,
  cs <> [] -> is_unitary (length cs) V -> is_unitary n U -> levels n cs ->
  exists f, entanglement_fidelity la V U (Some cs) false = Ok f /\ 0 <= f /\ f <= 1.
Proof. exact @ent_fid_sub_range. Qed.
Print Assumptions c36_subspace_range.
Example c36_case : is_unitary (S:=CStar QcField) 2 ru /\ is_unitary (S:=CStar QcField) 2 iru /\ same_up_to_phase (F:=QcField) 2 2 ru iru /\
  entanglement_fidelity qla0 ru q2 None false = Ok (qq 9 25) /\ entanglement_fidelity qla0 ru iru None false = Ok k1 /\
  is_block (F:=QcField) [0; 1]%nat lu lblk /\ entanglement_fidelity qla0 q2 lu (Some [0; 1]%nat) false = Ok (qq 16 25).
Proof.
  split; [apply ru_unitary|]. split; [apply iru_unitary|]. split; [apply ru_phase|]. destruct ent_case as [A B]. split; [exact A|]. split; [exact B|].
  split; [apply lblk_block|apply sub_case].
Qed.

(** ---------- C37: fidelity of super operators ---------- *)
Theorem c37_agrees : forall (F : OField) (la : LinAlg F) d (V : op F) (U : op F) Q b,
  is_matrix d d V -> is_matrix d d U -> is_super_of d U Q ->
  entanglement_fidelity_super V Q None = entanglement_fidelity la V U None b.
Proof. exact @super_fid. Qed.
Print Assumptions c37_agrees.
Theorem c37_agrees_subspace : forall (F : OField) (la : LinAlg F) n (V : op F) (U : op F) Q cs,
  is_matrix (length cs) (length cs) V -> is_matrix n n U -> levels n cs -> is_super_of n U Q ->
  entanglement_fidelity_super V Q (Some cs) = entanglement_fidelity la V U (Some cs) false.
Proof. exact @super_fid_sub. Qed.
Print Assumptions c37_agrees_subspace.
Theorem c37_super_operator : forall (F : OField) n (U : op F),
  is_matrix n n U -> is_super_of n U (op_to_super U).
Proof. exact @super_is. Qed.
Print Assumptions c37_super_operator.
Example c37_case : is_super_of (F:=QcField) 2 iru (op_to_super iru) /\ entanglement_fidelity_super ru (op_to_super iru) None = Ok k1 /\ levels 3 [0; 1]%nat.
Proof. destruct super_case as [A B]. split; [exact A|]. split; [exact B|apply lvl01]. Qed.

(** ---------- C38: gradients ---------- *)
Close Scope k_scope.
Theorem c38_entanglement_fidelity : forall (la : LinAlg RField) d T Cn V fwd ders revs b b',
  is_matrix d d V -> propagator_lists d d T Cn fwd ders revs ->
  exists g, derivative_entanglement_fidelity la V fwd ders revs None b = Ok g /\ is_gradient d d T Cn fwd ders revs (fun (U : rop) (v : R) => entanglement_fidelity (F:=RField) la V U None b' = Ok v) g.
Proof. exact @ent_gradient. Qed.
Print Assumptions c38_entanglement_fidelity.
Theorem c38_entanglement_fidelity_subspace : forall (la : LinAlg RField) n T Cn V fwd ders revs cs,
  is_matrix (length cs) (length cs) V -> cs <> [] -> (forall i, In i cs -> i < n) -> propagator_lists n n T Cn fwd ders revs ->
  exists g, derivative_entanglement_fidelity la V fwd ders revs (Some cs) false = Ok g /\ is_gradient n n T Cn fwd ders revs (fun (U : rop) (v : R) => entanglement_fidelity (F:=RField) la V U (Some cs) false = Ok v) g.
Proof. exact @ent_gradient_sub. Qed.
Print Assumptions c38_entanglement_fidelity_subspace.
Theorem c38_super_fidelity : forall d T Cn V fwd ders revs,
  is_matrix d d V -> propagator_lists (d*d) (d*d) T Cn fwd ders revs ->
  exists g, derivative_fidelity_super V fwd ders revs None = Ok g /\ is_gradient (d*d) (d*d) T Cn fwd ders revs (fun (U : rop) (v : R) => entanglement_fidelity_super (F:=RField) V U None = Ok v) g.
Proof. exact @super_gradient. Qed.
Print Assumptions c38_super_fidelity.
Theorem c38_super_fidelity_subspace : forall n T Cn V fwd ders revs cs,
  is_matrix (length cs) (length cs) V -> levels n cs -> propagator_lists (n*n) (n*n) T Cn fwd ders revs ->
  exists g, derivative_fidelity_super V fwd ders revs (Some cs) = Ok g /\ is_gradient (n*n) (n*n) T Cn fwd ders revs (fun (U : rop) (v : R) => entanglement_fidelity_super (F:=RField) V U (Some cs) = Ok v) g.
Proof. exact @super_gradient_sub. Qed.
Print Assumptions c38_super_fidelity_subspace.
Theorem c38_state_fidelity : forall (la : LinAlg RField) n T Cn t fwd ders revs b b',
  is_matrix 1 n t -> propagator_lists n 1 T Cn fwd ders revs ->
  exists g, derivative_state_fidelity la t fwd ders revs None b = Ok g /\ is_gradient n 1 T Cn fwd ders revs (fun (U : rop) (v : R) => state_fidelity (F:=RField) la t U None b' = Ok v) g.
Proof. exact @state_gradient. Qed.
Print Assumptions c38_state_fidelity.
Theorem c38_state_fidelity_subspace : forall (la : LinAlg RField) n T Cn t fwd ders revs cs b,
  is_matrix 1 (length cs) t -> cs <> [] -> n <> 1 -> (forall i, In i cs -> i < n) -> propagator_lists n 1 T Cn fwd ders revs ->
  exists g, derivative_state_fidelity la t fwd ders revs (Some cs) b = Ok g /\ is_gradient n 1 T Cn fwd ders revs (fun (U : rop) (v : R) => state_fidelity (F:=RField) la t U (Some cs) b = Ok v) g.
Proof. exact @state_gradient_sub. Qed.
Print Assumptions c38_state_fidelity_subspace.
Theorem c38_operation : forall (la : LinAlg RField) d T Cn r V b b',
  is_matrix d d V -> propagator_lists d d T Cn (r_fwd r) (r_der r) (r_rev r) ->
  exists g, operation_infidelity_grad la r V false None b = Ok g /\ is_gradient d d T Cn (r_fwd r) (r_der r) (r_rev r) (cost_at (fun r => operation_infidelity la r V false None b')) g.
Proof. exact @infidelity_gradient. Qed.
Print Assumptions c38_operation.
Theorem c38_operation_subspace : forall (la : LinAlg RField) n T Cn r V cs b,
  is_matrix (length cs) (length cs) V -> cs <> [] -> (forall i, In i cs -> i < n) -> propagator_lists n n T Cn (r_fwd r) (r_der r) (r_rev r) ->
  exists g, operation_infidelity_grad la r V false (Some cs) b = Ok g /\ is_gradient n n T Cn (r_fwd r) (r_der r) (r_rev r) (cost_at (fun r => operation_infidelity la r V false (Some cs) false)) g.
Proof. exact @infidelity_gradient_sub. Qed.
Print Assumptions c38_operation_subspace.
Theorem c38_super : forall (la : LinAlg RField) d T Cn r V b b',
  is_matrix d d V -> propagator_lists (d*d) (d*d) T Cn (r_fwd r) (r_der r) (r_rev r) ->
  exists g, operation_infidelity_grad la r V true None b = Ok g /\ is_gradient (d*d) (d*d) T Cn (r_fwd r) (r_der r) (r_rev r) (cost_at (fun r => operation_infidelity la r V true None b')) g.
Proof. exact @infidelity_gradient_super. Qed.
Print Assumptions c38_super.
Theorem c38_super_subspace : forall (la : LinAlg RField) n T Cn r V cs b b',
  is_matrix (length cs) (length cs) V -> levels n cs -> propagator_lists (n*n) (n*n) T Cn (r_fwd r) (r_der r) (r_rev r) ->
  exists g, operation_infidelity_grad la r V true (Some cs) b = Ok g /\ is_gradient (n*n) (n*n) T Cn (r_fwd r) (r_der r) (r_rev r) (cost_at (fun r => operation_infidelity la r V true (Some cs) b')) g.
Proof. exact @infidelity_gradient_super_sub. Qed.
Print Assumptions c38_super_subspace.
Theorem c38_state : forall (la : LinAlg RField) n T Cn r phi b b',
  is_matrix n 1 phi -> 1 < n -> propagator_lists n 1 T Cn (r_fwd r) (r_der r) (r_rev r) ->
  exists g, state_infidelity_grad la r phi None b = Ok g /\ is_gradient n 1 T Cn (r_fwd r) (r_der r) (r_rev r) (cost_at (fun r => state_infidelity la r phi None b')) g.
Proof. exact @state_infidelity_gradient. Qed.
Print Assumptions c38_state.
Theorem c38_state_subspace : forall (la : LinAlg RField) n T Cn r phi cs b,
  is_matrix (length cs) 1 phi -> 1 < length cs -> n <> 1 -> (forall i, In i cs -> i < n) -> propagator_lists n 1 T Cn (r_fwd r) (r_der r) (r_rev r) ->
  exists g, state_infidelity_grad la r phi (Some cs) b = Ok g /\ is_gradient n 1 T Cn (r_fwd r) (r_der r) (r_rev r) (cost_at (fun r => state_infidelity la r phi (Some cs) b)) g.
Proof. exact @state_infidelity_gradient_sub. Qed.
Print Assumptions c38_state_subspace.
Theorem c38_leakage : forall (la : LinAlg RField) n T Cn r cs,
  cs <> [] -> levels n cs -> propagator_lists n n T Cn (r_fwd r) (r_der r) (r_rev r) ->
  exists g, leakage_grad la r cs = Ok g /\
    is_gradient n n T Cn (r_fwd r) (r_der r) (r_rev r) (fun U v => is_unitary n U /\ forall r', is_last (r_fwd r') U -> leakage la r' cs = Ok v) g.
Proof. exact @leakage_gradient. Qed.
Print Assumptions c38_leakage.
Theorem c38_solver : forall (rexp : kcar RField -> kcar RField) (la : LinAlg RField) (eps : cplx RField) d (s0 s : st) (es : list (op RField)) fs rs ders n (X : nat -> R -> op RField) Y v a V b b' r w,
  used rexp la eps d s0 s -> returns rexp la eps s SPropag (VProp (map Some es)) -> returns rexp la eps s SFwd (VOps fs) -> returns rexp la eps s SRev (VOps rs) ->
  all_square n (map Some es) -> is_matrix n n (c_init (s_conf s)) ->
  r_fwd r = fs -> r_rev r = rs -> r_der r = ders -> ders <> [] -> Forall (fun row : list (op RField) => length row = length es /\ Forall (is_matrix n n) row) ders ->
  (forall t, t < length es -> nth_error es t = Some (X t a)) -> (forall t h, t < length es -> is_matrix n n (X t h)) ->
  (forall t i j, t < length es -> i < n -> j < n -> cderiv (fun h => mg (X t h) i j) a
     (sumn (S:=RS) (length ders) (fun c => cmul (cofk (v t c : RField)) (mg (nth t (nth c ders []) (Arr [] [] : op RField)) i j)))) ->
  (forall h, chain n n (map (fun t => X t h) (seq 0 (length es))) (c_init (s_conf s)) (Y h)) -> is_matrix n n V ->
  (forall h r', is_last (r_fwd r') (Y h) -> operation_infidelity la r' V false None b' = Ok (w h)) ->
  exists g, operation_infidelity_grad la r V false None b = Ok g /\
    derivable_pt_lim w a (Rsum (length es) (fun t => Rsum (length ders) (fun c => (get2 0%R g t c * v t c)%R))).
Proof. exact @solver_gradient. Qed.
Print Assumptions c38_solver.
Theorem c38_closest_unitary_refuted : forall (la : LinAlg RField) (svd_ok : forall h, exists U s W, la_svd la (mk2 1 1 (fun _ _ => rr (cos h))) = (U, s, W) /\ is_svd 1 (mk2 1 1 (fun _ _ => rr (cos h))) U s W),
  exists g, operation_infidelity_grad la (rot_reads (PI/4)) rone false (Some [0]) true = Ok g /\ get2 0%R g 0 0 = 1%R /\
   (forall h r', is_last (r_fwd r') (rot h) -> operation_infidelity la r' rone false (Some [0]) true = Ok 0%R).
Proof. exact @grad_ignores_map. Qed.
Print Assumptions c38_closest_unitary_refuted.
Example c38_case : propagator_lists 2 2 1 1 (r_fwd (rot_reads (PI/4)%R)) (r_der (rot_reads (PI/4)%R)) (r_rev (rot_reads (PI/4)%R)) /\
  final_propagator 2 2 1 1 (r_fwd (rot_reads (PI/4)%R)) (r_der (rot_reads (PI/4)%R)) (r_rev (rot_reads (PI/4)%R)) (only 0 0) rot (PI/4)%R /\
  (forall h, exists U s W, la_svd rla (mk2 1 1 (fun _ _ => rr (cos h))) = (U, s, W) /\ is_svd 1 (mk2 1 1 (fun _ _ => rr (cos h))) U s W).
Proof. split; [apply rot_lists|]. split; [apply rot_final|exact rsvd_ok]. Qed.

(** ---------- C39: leakage ---------- *)
Open Scope k_scope.
Theorem c39_range : forall (F : OField) (la : LinAlg F) n r (U : (op F)) cs,
  is_last (r_fwd r) U -> is_unitary n U -> cs <> [] -> levels n cs ->
  leakage la r cs = Ok (1 - staying cs U) /\ 0 <= 1 - staying cs U /\ 1 - staying cs U <= 1.
Proof. exact @leakage_val. Qed.
Print Assumptions c39_range.
Theorem c39_zero : forall (F : OField) (la : LinAlg F) n r (U : (op F)) (T : (op F)) cs,
  is_last (r_fwd r) U -> is_unitary n U -> cs <> [] -> levels n cs -> is_block cs U T ->
  (leakage la r cs = Ok 0 <-> is_unitary (length cs) T).
Proof. exact @leakage_zero. Qed.
Print Assumptions c39_zero.
Theorem c39_clipped : forall (F : OField) (la : LinAlg F) n r (U : (op F)) cs,
  is_last (r_fwd r) U -> is_matrix n n U -> (forall i, In i cs -> (i < n)%nat) ->
  leakage la r cs = Ok (kmax 0 (1 - staying cs U)).
Proof. exact @leakage_clip. Qed.
Print Assumptions c39_clipped.
Example c39_case : is_last (r_fwd lreads) lu /\ is_unitary (S:=CStar QcField) 3 lu /\ levels 3 [0; 1]%nat /\ is_block (F:=QcField) [0; 1]%nat lu lblk /\
  leakage qla0 lreads [0; 1]%nat = Ok (qq 8 25).
Proof. split; [apply lreads_last|]. split; [apply lu_unitary|]. split; [apply lvl01|]. split; [apply lblk_block|apply leak_case]. Qed.

(** ---------- C40: leakage in Liouville space ---------- *)
Theorem c40_agrees : forall (F : OField) (la : LinAlg F) n r (U : (op F)) cs,
  is_last (r_fwd r) U -> is_unitary n U -> cs <> [] -> levels n cs ->
  leakage_liouville r n cs true false = leakage la r cs.
Proof. exact @liouville_agrees. Qed.
Print Assumptions c40_agrees.
Theorem c40_agrees_super : forall (F : OField) (la : LinAlg F) n r r' (U : (op F)) (Q : (op F)) cs,
  is_last (r_fwd r) U -> is_last (r_fwd r') Q -> is_super_of n U Q -> is_unitary n U -> cs <> [] -> levels n cs ->
  leakage_liouville r' n cs false false = leakage la r cs.
Proof. exact @liouville_agrees_super. Qed.
Print Assumptions c40_agrees_super.
Example c40_case : leakage_liouville lreads 3 [0; 1]%nat true false = Ok (qq 8 25) /\ is_super_of (F:=QcField) 3 lu (op_to_super lu).
Proof. split; [apply leak_case|]. apply super_is. apply lu_unitary. Qed.

(** ---------- C41: noise averages ---------- *)
Theorem c41_mean : forall (F : OField) (la : LinAlg F) r (V : (op F)) cs b us f,
  finals r us ->
  (forall i, (i < r_traces r)%nat -> entanglement_fidelity la V (us i) cs b = Ok (f i)) ->
  noise_infidelity la r (Some V) cs b false = Ok (average (r_traces r) (fun i => 1 - f i)).
Proof. exact @noise_mean. Qed.
Print Assumptions c41_mean.
Theorem c41_mean_neglect : forall (F : OField) (la : LinAlg F) r tgt cs b neglect us f (U : (op F)) (T : (op F)),
  (tgt = None \/ neglect = true) -> finals r us -> is_last (r_fwd r) U ->
  op_truncate la U cs b = Ok T ->
  (forall i, (i < r_traces r)%nat -> entanglement_fidelity la T (us i) cs b = Ok (f i)) ->
  noise_infidelity la r tgt cs b neglect = Ok (average (r_traces r) (fun i => 1 - f i)).
Proof. exact @noise_mean_neglect. Qed.
Print Assumptions c41_mean_neglect.
Theorem c41_no_noise : forall (F : OField) (la : LinAlg F) n r tgt b neglect (U : (op F)),
  (tgt = None \/ neglect = true) -> finals r (fun _ => U) -> is_last (r_fwd r) U ->
  is_unitary n U -> (n <> 0)%nat -> (r_traces r <> 0)%nat ->
  noise_infidelity la r tgt None b neglect = Ok 0.
Proof. exact @noise_zero. Qed.
Print Assumptions c41_no_noise.
Theorem c41_no_noise_mapped : forall (F : OField) (la : LinAlg F) n r tgt neglect (U : (op F)) cs (T : (op F)) X s Y,
  (tgt = None \/ neglect = true) -> finals r (fun _ => U) -> is_last (r_fwd r) U ->
  is_matrix n n U -> levels n cs -> cs <> [] -> (r_traces r <> 0)%nat -> is_block cs U T -> la_svd la T = (X, s, Y) -> is_svd (length cs) T X s Y ->
  noise_infidelity la r tgt (Some cs) true neglect = Ok 0.
Proof. exact @noise_zero_mapped. Qed.
Print Assumptions c41_no_noise_mapped.
Theorem c41_gradient : forall (F : OField) (la : LinAlg F) r (V : (op F)) cs b g,
  grads la r V cs g -> (forall i, (i < r_traces r)%nat -> wfa [r_steps r; r_ctrls r] (g i)) ->
  exists a, noise_infidelity_grad la r (Some V) cs b false = Ok a /\ shape a = [r_steps r; r_ctrls r] /\
   forall t c, (t < r_steps r)%nat -> (c < r_ctrls r)%nat -> get2 0 a t c = average (r_traces r) (fun i => - get2 0 (g i) t c).
Proof. exact @noise_grad. Qed.
Print Assumptions c41_gradient.
Theorem c41_gradient_neglect : forall (F : OField) (la : LinAlg F) r tgt cs b neglect g h us (U : (op F)) (T : (op F)),
  (tgt = None \/ neglect = true) -> is_last (r_fwd r) U -> op_truncate la U cs b = Ok T ->
  finals r us -> grads la r T cs g ->
  (forall i, (i < r_traces r)%nat -> exists T', op_truncate la (us i) cs b = Ok T' /\ derivative_entanglement_fidelity la T' (r_fwd r) (r_der r) (r_rev r) cs false = Ok (h i)) ->
  (forall i, (i < r_traces r)%nat -> wfa [r_steps r; r_ctrls r] (g i) /\ wfa [r_steps r; r_ctrls r] (h i)) ->
  exists a, noise_infidelity_grad la r tgt cs b neglect = Ok a /\ shape a = [r_steps r; r_ctrls r] /\
   forall t c, (t < r_steps r)%nat -> (c < r_ctrls r)%nat -> get2 0 a t c = average (r_traces r) (fun i => - (get2 0 (g i) t c + get2 0 (h i) t c)).
Proof. exact @noise_grad_neglect. Qed.
Print Assumptions c41_gradient_neglect.
Theorem c41_no_noise_subspace_refuted :
  exists (r : reads Qf) (U : op Qf) cs, finals r (fun _ => U) /\ is_last (r_fwd r) U /\ is_unitary (S:=QS) 3 U /\ levels 3 cs /\
  (forall la, noise_infidelity la r None (Some cs) false true = Ok (qq 336 625)) /\ qq 336 625 <> k0.
Proof. exact @noise_neglect_leaks. Qed.
Print Assumptions c41_no_noise_subspace_refuted.
Theorem c41_no_noise_subspace : forall (F : OField) (la : LinAlg F) n r tgt neglect (U : (op F)) cs,
  (tgt = None \/ neglect = true) -> finals r (fun _ => U) -> is_last (r_fwd r) U ->
  is_matrix n n U -> levels n cs -> cs <> [] -> (r_traces r <> 0)%nat ->
  noise_infidelity la r tgt (Some cs) false neglect = Ok (1 - staying cs U * staying cs U).
Proof. exact @noise_identical_sub. Qed.
Print Assumptions c41_no_noise_subspace.
Example c41_case : finals lreads (fun _ => lu) /\ is_last (r_fwd lreads) lu /\ is_unitary (S:=CStar QcField) 3 lu /\ r_traces lreads = 2%nat.
Proof. split; [apply lreads_finals|]. split; [apply lreads_last|]. split; [apply lu_unitary|reflexivity]. Qed.

(** ---------- C42: average gate fidelity ---------- *)
Theorem c42_formula : forall (F : OField) (la : LinAlg F) (U : (op F)) (V : (op F)) b,
  is_matrix 2 2 U -> is_matrix 2 2 V ->
  exists f, entanglement_fidelity la V U None b = Ok f /\
    average_gate_fidelity U V = Ok (cofk ((kofnat 2 * f + 1) / kofnat 3)).
Proof. exact @agf_val. Qed.
Print Assumptions c42_formula.
Theorem c42_other_dimensions : forall (F : OField) (U : (op F)) (V : (op F)) n m,
  is_matrix n m U -> n <> 2%nat -> average_gate_fidelity U V = Err NotImplementedError.
Proof. exact @agf_dim. Qed.
Print Assumptions c42_other_dimensions.
Example c42_case : average_gate_fidelity ru q2 = Ok (cq 43 0 75) /\ entanglement_fidelity qla0 q2 ru None false = Ok (qq 9 25).
Proof. split; [apply agf_case|]. apply keqr_ok. vm_compute. reflexivity. Qed.

(** ---------- C43: angle axis representation ---------- *)
Theorem c43_value_error : forall (F : OField) (rf : RealFun F) (u : op F),
  is_matrix 2 2 u -> (angle_axis rf u = Err ValueError <->
  (off_by (rf_atol rf + rf_rtol rf) (gram2 u 0 0) 1 \/ off_by (rf_atol rf) (gram2 u 1 0) 0 \/ off_by (rf_atol rf) (gram2 u 0 1) 0)).
Proof. exact @angle_value_error. Qed.
Print Assumptions c43_value_error.
Theorem c43_unitary_accepted : forall (F : OField) (rf : RealFun F), is_sqrt (rf_sqrt rf) -> forall u : op F, is_unitary 2 u ->
  exists beta n1 n2 n3, angle_axis rf u = Ok (beta, [n1; n2; n3]).
Proof. exact @angle_unitary. Qed.
Print Assumptions c43_unitary_accepted.
Theorem c43_second_row_refuted : exists u : op QcField, is_matrix 2 2 u /\ ~ is_unitary (S:=CStar QcField) 2 u /\
  forall s a p, s (k0 : QcField) = k0 -> angle_axis (float_rf s a p) u = Ok (k0, [k1; k0; k0]).
Proof. exact bad_u_refutes. Qed.
Print Assumptions c43_second_row_refuted.
Example c43_case : off_by (F:=QcField) (kadd (qq 1 100000000) (qq 1 100000)) (gram2 (mq 2 2 [[cq 2 0 1; c0]; [c0; c1]]) 0 0) k1 /\ is_sqrt (F:=RField) sqrt.
Proof. split; [apply far_case|]. exact sqrt_ok. Qed.
