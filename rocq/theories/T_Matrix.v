(** Theorems about qopt/matrix.py, properties C01 to C12 of properties.jsonl.  Statements only; the
    proofs are in the P_*.v files.  After the theorems of each property there is a concrete case. *)
Require Import List Arith Lia Bool Reals Permutation ZArith QArith.
From Verif Require Import LibBase LibRing LibArr LibCplx LibMat LibNorm LibDeriv LibEx M_Matrix S_Linear S_Exp S_PTrace
  M_OpHeap P_Linear P_Matrix P_Series P_Spectral P_Svd P_RealExp P_Frechet P_Dexp P_DexpWit P_PTrace P_OpHeap S_OpHeap P_OpHeap2 P_Wit.
Import ListNotations.
Open Scope nat_scope.
Set Implicit Arguments.

(** ---------- C01: the adjoint ---------- *)
Theorem c01_adjoint_of_product : forall (F : OField) m n p (A : op F) (B : op F),
  is_matrix m n A -> is_matrix n p B ->
  exists P, op_mul A (ODense B) = Ok P /\ is_product m n p A B P
    /\ op_mul (op_dag B) (ODense (op_dag A)) = Ok (op_dag P).
Proof. exact @adjoint_laws. Qed.
Print Assumptions c01_adjoint_of_product.
Theorem c01_mismatch_raises : forall (F : OField) m n n' p (A : op F) (B : op F),
  wfm m n A -> wfm n' p B -> n <> n' ->
  op_mul A (ODense B) = Err ValueError.
Proof. exact @op_mul_dense_err. Qed.
Print Assumptions c01_mismatch_raises.
Theorem c01_dag_entries : forall (F : OField) m n (A : op F),
  is_matrix m n A ->
  is_matrix n m (op_dag A) /\ (forall i j, i < n -> j < m -> (op_dag A).[i,j] = cconj A.[j,i]).
Proof. exact @dag_entries. Qed.
Print Assumptions c01_dag_entries.
Theorem c01_conj_entries : forall (F : OField) m n (A : op F),
  is_matrix m n A ->
  is_matrix m n (op_conj A) /\ (forall i j, i < m -> j < n -> (op_conj A).[i,j] = cconj A.[i,j]).
Proof. exact @conj_entries. Qed.
Print Assumptions c01_conj_entries.
Theorem c01_transpose_entries : forall (F : OField) m n (A : op F),
  is_matrix m n A ->
  is_matrix n m (op_transpose A) /\ (forall i j, i < n -> j < m -> (op_transpose A).[i,j] = A.[j,i]).
Proof. exact @transpose_entries. Qed.
Print Assumptions c01_transpose_entries.
Theorem c01_involution : forall (F : OField) m n (A : op F),
  is_matrix m n A ->
  op_dag (op_dag A) = A /\ op_conj (op_transpose A) = op_dag A /\ op_transpose (op_conj A) = op_dag A.
Proof. exact @dag_involutive. Qed.
Print Assumptions c01_involution.

(** [[1, 2i, 0], [3, 0, 1-i]] and [[1, i], [0, 2], [1+i, 0]] *)
Definition exA := mq 2 3 [[zq 1; cq 0 2 1; zq 0]; [zq 3; zq 0; cq 1 (-1) 1]].
Definition exB := mq 3 2 [[zq 1; cq 0 1 1]; [zq 0; zq 2]; [cq 1 1 1; zq 0]].
Example c01_case : is_matrix 2 3 exA /\ is_matrix 3 2 exB /\
  op_mul exA (ODense exB) = Ok (mq 2 2 [[zq 1; cq 0 5 1]; [zq 5; cq 0 3 1]]) /\
  op_mul (op_dag exB) (ODense (op_dag exA)) = Ok (mq 2 2 [[zq 1; zq 5]; [cq 0 (-5) 1; cq 0 (-3) 1]]) /\
  op_mul exA (ODense exA) = Err ValueError.
Proof.
  split; [split; reflexivity|]. split; [split; reflexivity|].
  split; [apply (f_equal Ok); apply meqb_eq; vm_compute; reflexivity|].
  split; [apply (f_equal Ok); apply meqb_eq; vm_compute; reflexivity|]. reflexivity.
Qed.

(** ---------- C02: the Kronecker product ---------- *)
Theorem c02_entries : forall (F : OField) m n p q (A : op F) (B : op F),
  is_matrix m n A -> is_matrix p q B ->
  exists K, op_kron A (ODense B) = Ok K /\ is_matrix (m * p) (n * q) K /\
   forall a b c d, a < m -> b < p -> c < n -> d < q -> K.[a * p + b, c * q + d] = cmul A.[a,c] B.[b,d].
Proof. exact @kron_entries. Qed.
Print Assumptions c02_entries.
Theorem c02_mixed_product : forall (F : OField) m n p m' n' p' (A : op F) (B : op F) (D : op F) E,
  is_matrix m n A -> is_matrix n p B ->
  is_matrix m' n' D -> is_matrix n' p' E ->
  exists AD BE AB DE K,
   op_kron A (ODense D) = Ok AD /\ op_kron B (ODense E) = Ok BE /\
   op_mul A (ODense B) = Ok AB /\ op_mul D (ODense E) = Ok DE /\
   op_mul AD (ODense BE) = Ok K /\ op_kron AB (ODense DE) = Ok K.
Proof. exact @kron_mixed. Qed.
Print Assumptions c02_mixed_product.
Theorem c02_adjoint : forall (F : OField) m n p q (A : op F) (B : op F),
  is_matrix m n A -> is_matrix p q B ->
  exists K, op_kron A (ODense B) = Ok K /\ op_kron (op_dag A) (ODense (op_dag B)) = Ok (op_dag K).
Proof. exact @kron_dag. Qed.
Print Assumptions c02_adjoint.
Theorem c02_identity : forall (F : OField) m n (A : op F) (B : op F),
  is_matrix m m A -> is_matrix n n B ->
  exists I J K, op_identity_like A = Ok I /\ op_identity_like B = Ok J /\ op_kron I (ODense J) = Ok K /\
  is_identity (m * n) K.
Proof. exact @kron_identity. Qed.
Print Assumptions c02_identity.
Example c02_case : is_matrix 2 3 exA /\ is_matrix 2 2 (pauli_y QcField) /\
  op_kron (mq 1 2 [[zq 2; cq 0 1 1]]) (ODense (pauli_y QcField)) =
    Ok (mq 2 4 [[zq 0; cq 0 (-2) 1; zq 0; zq 1]; [cq 0 2 1; zq 0; zq (-1); zq 0]]).
Proof.
  split; [split; reflexivity|]. split; [split; reflexivity|].
  apply (f_equal Ok); apply meqb_eq; vm_compute; reflexivity.
Qed.

(** ---------- C03: the trace ---------- *)
Theorem c03_trace_is_diagonal_sum : forall (F : OField) n (A : op F),
  is_matrix n n A -> op_tr A = sumn (S:=(CStar F)) n (fun i => A.[i,i]).
Proof. exact @trace_sum. Qed.
Print Assumptions c03_trace_is_diagonal_sum.
Theorem c03_cyclic : forall (F : OField) m n (A : op F) (B : op F),
  is_matrix m n A -> is_matrix n m B ->
  exists P Q, op_mul A (ODense B) = Ok P /\ op_mul B (ODense A) = Ok Q /\ op_tr P = op_tr Q.
Proof. exact @trace_laws. Qed.
Print Assumptions c03_cyclic.
Theorem c03_linear : forall (F : OField) n (A : op F) (B : op F) (c : (cplx F)),
  is_matrix n n A -> is_matrix n n B ->
  exists P Q, op_add A (ODense B) = Ok P /\ op_mul A (OScal c) = Ok Q /\
   op_tr P = cadd (op_tr A) (op_tr B) /\ op_tr Q = cmul c (op_tr A).
Proof. exact @trace_linear. Qed.
Print Assumptions c03_linear.
Theorem c03_kron : forall (F : OField) m n (A : op F) (B : op F),
  is_matrix m m A -> is_matrix n n B ->
  exists K, op_kron A (ODense B) = Ok K /\ op_tr K = cmul (op_tr A) (op_tr B).
Proof. exact @trace_kron. Qed.
Print Assumptions c03_kron.
Theorem c03_adjoint : forall (F : OField) n (A : op F),
  is_matrix n n A -> op_tr (op_dag A) = cconj (op_tr A).
Proof. exact @trace_dag. Qed.
Print Assumptions c03_adjoint.
Example c03_case : is_matrix 2 3 exA /\ is_matrix 3 2 exB /\
  (exists P Q, op_mul exA (ODense exB) = Ok P /\ op_mul exB (ODense exA) = Ok Q /\
     nr P = 2 /\ nr Q = 3 /\ ceqb (op_tr P) (cq 1 3 1) = true /\ ceqb (op_tr Q) (cq 1 3 1) = true).
Proof. split; [split; reflexivity|]. split; [split; reflexivity|]. do 2 eexists. repeat split; vm_compute; reflexivity. Qed.

(** ---------- C04: the partial trace ---------- *)
Theorem c04_product_operator : forall (F : OField) dims remove0 As (M : op F),
  is_product_operator dims As M -> prodn dims <> 1 ->
  NoDup remove0 -> (forall q, In q remove0 -> q < length dims) -> remove0 <> [] -> length remove0 < length dims ->
  let keep := kept (length dims) remove0 in let dk := select dims keep in
  exists R, op_ptrace (fun l => l) M dims remove0 = Ok R /\ is_matrix (prodn dk) (prodn dk) R /\
    forall x y, vidx dk x -> vidx dk y ->
      mg R (ravel dk x) (ravel dk y) =
      cmul (lprod (S:=(CStar F)) (map (fun q => trace_of (nth q dims 0) (nth q As (Arr [] []))) remove0))
           (lprod (S:=(CStar F)) (map (fun a => mg (nth (nth a keep 0) As (Arr [] [])) (nth a x 0) (nth a y 0)) (seq 0 (length keep)))).
Proof. exact @op_ptrace_product. Qed.
Print Assumptions c04_product_operator.
Theorem c04_preserves_trace : forall (F : OField) dims remove0 (M : op F),
  is_matrix (prodn dims) (prodn dims) M -> prodn dims <> 1 ->
  NoDup remove0 -> (forall q, In q remove0 -> q < length dims) -> remove0 <> [] -> length remove0 < length dims ->
  exists R, op_ptrace (fun l => l) M dims remove0 = Ok R /\
    trace_of (prodn (select dims (kept (length dims) remove0))) R = trace_of (prodn dims) M.
Proof. exact @op_ptrace_trace. Qed.
Print Assumptions c04_preserves_trace.
Theorem c04_linear : forall (F : OField) dims remove0 (A B Z : op F) c,
  is_matrix (prodn dims) (prodn dims) A -> is_matrix (prodn dims) (prodn dims) B ->
  is_matrix (prodn dims) (prodn dims) Z ->
  (forall i j, i < prodn dims -> j < prodn dims -> Z.[i,j] = cadd A.[i,j] (cmul c B.[i,j])) ->
  prodn dims <> 1 ->
  NoDup remove0 -> (forall q, In q remove0 -> q < length dims) -> remove0 <> [] -> length remove0 < length dims ->
  let d := prodn (select dims (kept (length dims) remove0)) in
  exists RA RB RZ, op_ptrace (fun l => l) A dims remove0 = Ok RA /\ op_ptrace (fun l => l) B dims remove0 = Ok RB /\
    op_ptrace (fun l => l) Z dims remove0 = Ok RZ /\
    forall i j, i < d -> j < d -> RZ.[i,j] = cadd RA.[i,j] (cmul c RB.[i,j]).
Proof. exact @op_ptrace_linear. Qed.
Print Assumptions c04_linear.
Theorem c04_mismatch_raises : forall (F : OField) set_iter dims remove0 (M : op F) m,
  is_matrix m m M -> m <> 1 -> m <> prodn dims ->
  op_ptrace set_iter M dims remove0 = Err AssertionError.
Proof. exact @op_ptrace_mismatch. Qed.
Print Assumptions c04_mismatch_raises.
Theorem c04_ket : forall (F : OField) set_iter dims remove0 n (psi : op F),
  is_matrix n 1 psi -> n <> 1 ->
  exists rho, is_matrix n n rho /\ (forall i j, i < n -> j < n -> rho.[i,j] = cmul psi.[i,0] (cconj psi.[j,0])) /\
    op_ptrace set_iter psi dims remove0 = op_ptrace set_iter rho dims remove0.
Proof. exact @op_ptrace_ket. Qed.
Print Assumptions c04_ket.
(** how product operators arise *)
Theorem c04_kron_is_product_operator : forall (F : OField) d dims (A : op F) As M,
  is_matrix d d A -> is_product_operator dims As M ->
  exists K, op_kron A (ODense M) = Ok K /\ is_product_operator (d :: dims) (A :: As) K.
Proof. exact @kron_product_operator. Qed.
Print Assumptions c04_kron_is_product_operator.
Theorem c04_single_is_product_operator : forall (F : OField) d (A : op F),
  is_matrix d d A -> is_product_operator [d] [A] A.
Proof. exact @single_product_operator. Qed.
Print Assumptions c04_single_is_product_operator.
(** where the code departs from the property: tracing out all or none of the subsystems raises *)
Theorem c04_all_or_none_refuted : forall (F : OField) dims (M : op F),
  is_matrix (prodn dims) (prodn dims) M -> prodn dims <> 1 ->
  op_ptrace (fun l => l) M dims [] = Err TypeError /\ op_ptrace (fun l => l) M dims (seq 0 (length dims)) = Err TypeError.
Proof. exact @op_ptrace_all_or_none. Qed.
Print Assumptions c04_all_or_none_refuted.
(** and an iteration order of python sets that occurs for nine subsystems permutes the factors *)
Theorem c04_set_order_refuted :
  exists (set_iter : list nat -> list nat) (dims removed : list nat) (As : list (op QcField)) (M R : op QcField) x,
  (forall l, Permutation (set_iter l) l) /\ is_product_operator dims As M /\
  NoDup removed /\ (forall q, In q removed -> q < length dims) /\
  let keep := kept (length dims) removed in let dk := select dims keep in
  op_ptrace set_iter M dims removed = Ok R /\ vidx dk x /\
  mg R (ravel dk x) (ravel dk x) <>
    cmul (lprod (S:=CStar QcField) (map (fun q => trace_of (nth q dims 0) (nth q As (Arr [] []))) removed))
         (lprod (S:=CStar QcField) (map (fun a => mg (nth (nth a keep 0) As (Arr [] [])) (nth a x 0) (nth a x 0)) (seq 0 (length keep)))).
Proof. exact @op_ptrace_nine. Qed.
Print Assumptions c04_set_order_refuted.
(** dimensions 2, 3, 2; the middle factor has trace 6 *)
Definition exP0 := mq 2 2 [[zq 1; zq 2]; [cq 0 1 1; zq 3]].
Definition exP1 := mq 3 3 [[zq 1; zq 4; zq 0]; [zq 0; zq 2; zq 0]; [zq 7; zq 0; zq 3]].
Definition exP2 := mq 2 2 [[zq 0; zq 1]; [zq 1; zq 5]].
Definition exP : op QcField := mkron (S:=CStar QcField) exP0 (mkron (S:=CStar QcField) exP1 exP2).
Example c04_case : is_product_operator [2; 3; 2] [exP0; exP1; exP2] exP /\ prodn [2; 3; 2] <> 1 /\
  NoDup [1] /\ (forall q, In q [1] -> q < 3) /\ length [1] < 3 /\
  op_ptrace (fun l => l) exP [2; 3; 2] [1] =
    Ok (mscale (S:=CStar QcField) (zq 6) (mkron (S:=CStar QcField) exP0 exP2)).
Proof.
  split; [apply product_by_enumeration; [split; reflexivity|vm_compute; reflexivity]|].
  split; [discriminate|]. split; [repeat constructor; auto|].
  split; [intros q [<-|[]]; auto|]. split; [cbn; auto with arith|].
  apply (f_equal Ok). apply meqb_eq. vm_compute. reflexivity.
Qed.

(** ---------- C05: vectorisation and super operators ---------- *)
Theorem c05_round_trip : forall (F : OField) d (A : op F),
  is_matrix d d A ->
  exists v, op_vec A = Ok v /\ is_matrix (d * d) 1 v /\ op_unvec v = Ok A.
Proof. exact @unvec_vec. Qed.
Print Assumptions c05_round_trip.
Theorem c05_column_major : forall (F : OField) d (A : op F),
  is_matrix d d A ->
  exists v, op_vec A = Ok v /\ is_matrix (d * d) 1 v /\
    forall i j, i < d -> j < d -> v.[j * d + i, 0] = A.[i,j].
Proof. exact @vec_entries. Qed.
Print Assumptions c05_column_major.
Theorem c05_not_square_raises : forall (F : OField) m n (A : op F),
  is_matrix m n A -> m <> n -> op_vec A = Err ValueError.
Proof. exact @vec_not_square. Qed.
Print Assumptions c05_not_square_raises.
Theorem c05_not_vectorised_raises : forall (F : OField) m n (v : op F),
  is_matrix m n v -> n <> 1 \/ (forall d, d * d <> m) -> op_unvec v = Err ValueError.
Proof. exact @unvec_raises. Qed.
Print Assumptions c05_not_vectorised_raises.
Theorem c05_super_operator_action : forall (F : OField) d (U R : op F),
  is_matrix d d U -> is_matrix d d R ->
  exists UR URU v w,
    op_mul U (ODense R) = Ok UR /\ op_mul UR (ODense (op_dag U)) = Ok URU /\
    op_vec R = Ok v /\ op_vec URU = Ok w /\ op_mul (op_to_super U) (ODense v) = Ok w.
Proof. exact @super_action. Qed.
Print Assumptions c05_super_operator_action.
Theorem c05_super_operators_compose : forall (F : OField) d (U V : op F),
  is_matrix d d U -> is_matrix d d V ->
  exists UV SUV, op_mul U (ODense V) = Ok UV /\
    op_mul (op_to_super U) (ODense (op_to_super V)) = Ok SUV /\ SUV = op_to_super UV.
Proof. exact @super_compose. Qed.
Print Assumptions c05_super_operators_compose.
Example c05_case : is_matrix 2 2 exP0 /\
  op_vec exP0 = Ok (mq 4 1 [[zq 1]; [cq 0 1 1]; [zq 2]; [zq 3]]) /\
  (exists v w, op_vec exP0 = Ok v /\ op_mul (op_to_super (pauli_y QcField)) (ODense v) = Ok w /\
     op_unvec w = Ok (mq 2 2 [[zq 3; cq 0 (-1) 1]; [zq (-2); zq 1]])).
Proof.
  split; [split; reflexivity|]. split; [apply (f_equal Ok); apply meqb_eq; vm_compute; reflexivity|].
  do 2 eexists. split; [reflexivity|]. split; [reflexivity|]. apply (f_equal Ok); apply meqb_eq; vm_compute; reflexivity.
Qed.

(** ---------- C06: sharing of data between operators ---------- *)
Theorem c06_out_of_place_leaves_values : forall (F : OField) (p q : list (instr F)) k v,
  Forall (@out_of_place F) q ->
  valof (run (heap0 F) p) k = Ok v -> valof (run (heap0 F) (p ++ q)) k = Ok v.
Proof. exact @reach_frame. Qed.
Print Assumptions c06_out_of_place_leaves_values.
Theorem c06_in_place_agrees : forall (F : OField) (p : list (instr F)) b x y A B m n m' n' h' h'',
  valof (run (heap0 F) p) x = Ok A -> valof (run (heap0 F) p) y = Ok B -> wfm m n A -> wfm m' n' B ->
  step (run (heap0 F) p) (IBinIn b x y) = Ok h' -> step (run (heap0 F) p) (IBin b x y) = Ok h'' ->
  valof h' x = valof h'' (length (objs (run (heap0 F) p))).
Proof. exact @reach_inplace_agrees. Qed.
Print Assumptions c06_in_place_agrees.
Theorem c06_in_place_defined : forall (F : OField) (h : heap F) b x y A B m n m' n' h'' M,
  valof h x = Ok A -> valof h y = Ok B -> wfm m n A -> wfm m' n' B -> b <> BKron ->
  step h (IBin b x y) = Ok h'' -> bin b A B = Ok M -> shape M = shape A ->
  exists h', step h (IBinIn b x y) = Ok h'.
Proof. exact @inplace_defined. Qed.
Print Assumptions c06_in_place_defined.
Theorem c06_in_place_touches_only_target : forall (F : OField) (p q : list (instr F)) k v,
  Forall (@no_wrap F) p -> Forall (@no_wrap F) q ->
  Forall (fun i => target i <> Some k) q ->
  valof (run (heap0 F) p) k = Ok v -> valof (run (heap0 F) (p ++ q)) k = Ok v.
Proof. exact @reach_inplace_frame. Qed.
Print Assumptions c06_in_place_touches_only_target.
(** what a statement on one operator computes, in place or not *)
Theorem c06_values : forall (F : OField) (p : list (instr F)) a A m n i,
  valof (run (heap0 F) p) a = Ok A -> is_matrix (S:=CStar F) m n A -> acts_on a m n i ->
  exists h' B, step (run (heap0 F) p) i = Ok h' /\ valof h' (result_of i (length (objs (run (heap0 F) p)))) = Ok B /\ effect m n A i B.
Proof. exact @reach_effect. Qed.
Print Assumptions c06_values.
(** wrapping an operator in DenseOperator(...) shares the data *)
Theorem c06_wrapping_refuted :
  exists (p : list (instr QcField)) (i : instr QcField) (k : nat) (v v' : op QcField),
  Forall (fun j => target j = None) p /\ target i <> Some k /\
  valof (run (heap0 QcField) p) k = Ok v /\ valof (run (heap0 QcField) (p ++ [i])) k = Ok v' /\ v <> v'.
Proof. exact @wrap_aliases. Qed.
Print Assumptions c06_wrapping_refuted.
Definition exProg : list (instr QcField) :=
  [INew exP0; INew exP2; IBin BMul 0 1; ITrans 2; IBinIn BAdd 0 1; IDagIn 3].
Example c06_case : Forall (@no_wrap QcField) exProg /\ ~ Forall (@out_of_place QcField) exProg /\
  valof (run (heap0 QcField) exProg) 0 = Ok (mq 2 2 [[zq 1; zq 3]; [cq 1 1 1; zq 8]]) /\
  valof (run (heap0 QcField) exProg) 1 = Ok exP2 /\
  valof (run (heap0 QcField) exProg) 3 = Ok (op_conj (mq 2 2 [[zq 2; zq 11]; [zq 3; cq 15 1 1]])).
Proof.
  split; [repeat constructor|].
  split; [intros H; rewrite Forall_forall in H; specialize (H (IDagIn 3) ltac:(cbn; tauto)); discriminate H|].
  split; [|split]; apply (f_equal Ok); apply meqb_eq; vm_compute; reflexivity.
Qed.
(** the transposed product of exProg, conjugated in place *)
Example c06_values_case : exists A, valof (run (heap0 QcField) exProg) 3 = Ok A /\ is_matrix (S:=CStar QcField) 2 2 A /\ acts_on 3 2 2 (IConjIn 3 : instr QcField) /\
  exists h' B, step (run (heap0 QcField) exProg) (IConjIn 3) = Ok h' /\ valof h' 3 = Ok B /\ mg B 0 1 = zq 11 /\ mg B 1 1 = cq 15 1 1.
Proof.
  exists (op_conj (mq 2 2 [[zq 2; zq 11]; [zq 3; cq 15 1 1]])).
  assert (V : valof (run (heap0 QcField) exProg) 3 = Ok (op_conj (mq 2 2 [[zq 2; zq 11]; [zq 3; cq 15 1 1]]))) by (apply c06_case).
  split; [exact V|]. split; [split; reflexivity|]. split; [reflexivity|].
  destruct (@c06_values QcField exProg 3 _ 2 2 (IConjIn 3) V (conj eq_refl eq_refl) eq_refl) as (h' & B & S1 & S2 & _ & _ & E).
  exists h', B. split; [exact S1|]. split; [exact S2|]. rewrite !E by auto. split; apply injective_projections; apply Qcanon.Qc_is_canon; reflexivity.
Qed.

(** ---------- C07: the spectral exponential ---------- *)
Theorem c07_unitary : forall (F : OField) la skew n (A : op F) tau,
  exp_laws (la_cexp la) -> eig_ok la skew n A ->
  is_skew_hermitian n (mscale (S:=(CStar F)) tau A) ->
  exists E, op_exp la A tau Spectral skew = Ok E /\ is_unitary n E.
Proof. exact @spectral_unitary. Qed.
Print Assumptions c07_unitary.
Theorem c07_zero : forall (F : OField) la skew n (A : op F),
  exp_laws (la_cexp la) -> eig_ok la skew n A ->
  exists E, op_exp la A c0 Spectral skew = Ok E /\ is_identity n E.
Proof. exact @spectral_zero. Qed.
Print Assumptions c07_zero.
Theorem c07_group : forall (F : OField) la skew n (A : op F) s t,
  exp_laws (la_cexp la) -> eig_ok la skew n A ->
  exists Es Et Est, op_exp la A s Spectral skew = Ok Es /\ op_exp la A t Spectral skew = Ok Et /\
    op_exp la A (cadd s t) Spectral skew = Ok Est /\ op_mul Es (ODense Et) = Ok Est.
Proof. exact @spectral_group. Qed.
Print Assumptions c07_group.
Theorem c07_independent_of_decomposition : forall (F : OField) (la la' : LinAlg F) skew skew' n (A : op F) tau,
  la_cexp la = la_cexp la' -> eig_ok la skew n A -> eig_ok la' skew' n A ->
  op_exp la A tau Spectral skew = op_exp la' A tau Spectral skew'.
Proof. exact @spectral_independent. Qed.
Print Assumptions c07_independent_of_decomposition.
Theorem c07_is_the_exponential : forall la skew n A tau,
  la_cexp la = cexpR -> eig_ok la skew n A ->
  exists E, op_exp la A tau Spectral skew = Ok E /\ is_exponential n (mscale (S:=RS) tau A) E.
Proof. exact @spectral_exponential. Qed.
Print Assumptions c07_is_the_exponential.
Theorem c07_solves_the_ode : forall la skew n A,
  la_cexp la = cexpR -> eig_ok la skew n A ->
  exists E : R -> op RField,
    (forall s, op_exp la A (cofk (s:RField)) Spectral skew = Ok (E s)) /\
    (forall s, is_matrix n n (E s)) /\ is_identity n (E 0%R) /\
    (forall t i j, i < n -> j < n ->
       cderiv (fun s => (E s).[i,j]) t (sumn (S:=RS) n (fun k => cmul A.[i,k] (E t).[k,j]))) /\
    (forall X : R -> op RField, (forall s, is_matrix n n (X s)) -> is_identity n (X 0%R) ->
       (forall t i j, i < n -> j < n ->
          cderiv (fun s => (X s).[i,j]) t (sumn (S:=RS) n (fun k => cmul A.[i,k] (X t).[k,j]))) ->
       forall t, X t = E t).
Proof. exact @spectral_is_exponential. Qed.
Print Assumptions c07_solves_the_ode.
(** for a non-normal operator exp(0) is not even the identity *)
Theorem c07_non_normal_refuted :
  exists (la : LinAlg RField) (A V : (op RField)) (w : list RC) (E : (op RField)),
  la_cexp la = cexpR /\ la_eig la A = (w, V) /\
  (forall i k, i < 2 -> k < 2 -> sumn (S:=RS) 2 (fun j => cmul A.[i,j] V.[j,k]) = cmul V.[i,k] (nth k w c0)) /\
  (forall k, k < 2 -> sumn (S:=KStar RField) 2 (fun i => cnorm2 V.[i,k]) = 1%R) /\
  csub (cmul V.[0,0] V.[1,1]) (cmul V.[0,1] V.[1,0]) <> c0 /\
  op_exp la A c0 Spectral false = Ok E /\ ~ is_identity 2 E.
Proof. exact @exp_nonnormal_wrong. Qed.
Print Assumptions c07_non_normal_refuted.
(** A is the projector on (4/5, -3/5) and tau = -i pi *)
Example c07_case : exp_laws (la_cexp wla) /\ eig_ok wla false 2 wA /\ eig_ok hla false 2 wA /\
  is_skew_hermitian 2 (mscale (S:=RS) wtau wA) /\ la_cexp wla = cexpR /\
  snd (la_eig wla wA) = wV /\ snd (la_eig hla wA) = hV.
Proof.
  exact (conj exp_laws_R (conj wA_eig_ok (conj hA_eig_ok (conj wA_skew (conj eq_refl (conj eq_refl eq_refl)))))).
Qed.

(** ---------- C08: the truncated series ---------- *)
Theorem c08_series_value : forall (F : OField) la n (A : op F) tau m skew (P2 : op F) (P3 : op F),
  is_series m -> is_matrix n n A ->
  is_product n n n A A P2 -> is_product n n n P2 A P3 ->
  exists X, op_exp la A tau m skew = Ok X /\ is_matrix n n X /\ forall i j, i < n -> j < n ->
  X.[i,j] =
  match m with
  | FirstOrder => cadd (delta i j) (cmul tau A.[i,j])
  | SecondOrder => cadd (cadd (delta i j) (cmul tau A.[i,j])) (cmul (cdiv (cmul tau tau) (cofk (kofnat 2))) P2.[i,j])
  | _ => cadd (cadd (cadd (delta i j) (cmul tau A.[i,j]))
           (cmul (cdiv (cmul tau tau) (cofk (kofnat 2))) P2.[i,j]))
           (cmul (cdiv (cmul (cmul tau tau) tau) (cofk (kofnat 6))) P3.[i,j])
  end.
Proof. exact @exp_series_value. Qed.
Print Assumptions c08_series_value.
Theorem c08_series_derivative : forall (F : OField) la n (A : op F) (D : op F) tau m skew e,
  is_series m -> is_matrix n n A -> is_matrix n n D ->
  exists G X R0 R1,
    op_dexp_grad la A D tau m skew e = Ok G /\ op_exp la A tau m skew = Ok X /\
    is_matrix n n G /\ is_matrix n n X /\
    forall eps : (cplx F), exists De Ae Xe,
      op_mul D (OScal eps) = Ok De /\ op_add A (ODense De) = Ok Ae /\
      op_exp la Ae tau m skew = Ok Xe /\ is_matrix n n Xe /\
      forall i j, i < n -> j < n ->
        Xe.[i,j] = cadd (cadd X.[i,j] (cmul eps G.[i,j]))
                     (cmul (cmul eps eps) (cadd (R0 i j) (cmul eps (R1 i j)))).
Proof. exact @series_derivative. Qed.
Print Assumptions c08_series_derivative.
Example c08_case : is_series ThirdOrder /\ is_matrix 2 2 exP0 /\ is_matrix 2 2 exP2 /\
  (forall la : LinAlg QcField, exists X, op_exp la exP0 (zq 1) ThirdOrder false = Ok X /\
     ceqb (mg (S:=CStar QcField) X 0 0) (cq 16 16 6) = true).
Proof.
  split; [right; right; reflexivity|]. split; [split; reflexivity|]. split; [split; reflexivity|].
  intros la. eexists. split; [reflexivity|]. vm_compute. reflexivity.
Qed.

(** ---------- C09: the exponential returned by dexp ---------- *)
Theorem c09_spectral : forall (F : OField) (la : LinAlg F) A D tau skew eps E dU,
  op_dexp la A D tau Spectral skew eps = Ok (E, dU) -> op_exp la A tau Spectral skew = Ok E.
Proof. exact @dexp_expm_spectral. Qed.
Print Assumptions c09_spectral.
Theorem c09_frechet : forall (F : OField) (la : LinAlg F) A D tau skew eps E dU,
  (forall X Y, fst (la_expm_frechet la X Y) = la_expm la X) ->
  op_dexp la A D tau Frechet skew eps = Ok (E, dU) -> op_exp la A tau Frechet skew = Ok E.
Proof. exact @dexp_expm_frechet. Qed.
Print Assumptions c09_frechet.
(** the truncated series return the spectral exponential instead *)
Theorem c09_series_refuted :
  exists (la : LinAlg RField) (A D : (op RField)) (E E' dU : (op RField)),
  la_cexp la = cexpR /\ eig_ok la false 1 A /\
  op_dexp la A D c1 FirstOrder false c1 = Ok (E, dU) /\ op_exp la A c1 FirstOrder false = Ok E' /\ E <> E'.
Proof. exact @dexp_expm_differs. Qed.
Print Assumptions c09_series_refuted.
Example c09_case : exists E dU, op_dexp hla wA wA wtau Spectral false c1 = Ok (E, dU).
Proof.
  destruct (@c10_case_lemma) as [E [dU [H _]]]. eauto.
Qed.

(** ---------- C10: the spectral derivative ---------- *)
Theorem c10_hermitian_eigenvectors : forall la skew n A D w V tau eps,
  la_cexp la = cexpR -> eig_ok la skew n A ->
  eig_pair la A skew = (w, V) -> is_matrix n n D ->
  is_skew_hermitian n (mscale (S:=RS) tau A) -> is_skew_hermitian n (mscale (S:=RS) tau D) ->
  (forall i j, i < n -> j < n -> i <> j -> nth i w c0 <> nth j w c0) -> is_hermitian n V ->
  exists E dU, op_dexp la A D tau Spectral skew eps = Ok (E, dU) /\
    op_exp la A tau Spectral skew = Ok E /\ is_exp_derivative n tau A D dU.
Proof. exact @dexp_spectral_ok. Qed.
Print Assumptions c10_hermitian_eigenvectors.
Theorem c10_degenerate_is_nan : forall (la : LinAlg RField) skew n A D w V tau eps i j,
  is_matrix n n A -> is_matrix n n D ->
  eig_pair la A skew = (w, V) -> i < n -> j < n -> i <> j -> nth i w c0 = nth j w c0 ->
  op_dexp la A D tau Spectral skew eps = Err FloatNaN.
Proof. exact @dexp_degenerate. Qed.
Print Assumptions c10_degenerate_is_nan.
(** for a Hermitian operator and eigenvectors that do not form a Hermitian matrix it is wrong *)
Theorem c10_spectral_refuted :
  exists (la : LinAlg RField) (A : (op RField)) (tau : RC) (dU : (op RField)),
  la_cexp la = cexpR /\ eig_ok la false 2 A /\ is_hermitian 2 A /\ cre tau = 0%R /\
  op_dexp_grad la A A tau Spectral false c1 = Ok dU /\
  exists Z E : R -> (op RField), (forall s, is_perturbed 2 tau A A s (Z s)) /\ (forall s, is_exponential 2 (Z s) (E s)) /\
    ~ cderiv (fun s => (E s).[0,0]) 0%R dU.[0,0].
Proof. exact @dexp_spectral_wrong. Qed.
Print Assumptions c10_spectral_refuted.
Example c10_case : la_cexp hla = cexpR /\ eig_ok hla false 2 wA /\ eig_pair hla wA false = ([c0; c1], hV) /\
  is_matrix 2 2 wA /\ is_skew_hermitian 2 (mscale (S:=RS) wtau wA) /\
  (forall i j, i < 2 -> j < 2 -> i <> j -> nth i [c0; c1] c0 <> nth j [c0; c1] (c0 : RC)) /\ is_hermitian 2 hV.
Proof.
  exact (conj eq_refl (conj hA_eig_ok (conj eq_refl (conj (proj1 hA_eig_ok) (conj wA_skew (conj h_distinct hV_hermitian)))))).
Qed.

(** ---------- C11: truncation ---------- *)
Theorem c11_square_block : forall (F : OField) la n (A : op F) ix,
  is_matrix n n A -> (forall i, In i ix -> i < n) ->
  exists T, op_truncate la A (Some ix) false = Ok T /\ is_matrix (length ix) (length ix) T /\
  forall a b, a < length ix -> b < length ix -> T.[a,b] = A.[nth a ix 0, nth b ix 0].
Proof. exact @truncate_square. Qed.
Print Assumptions c11_square_block.
Theorem c11_out_of_range_raises : forall (F : OField) la n (A : op F) ix i,
  is_matrix n n A -> In i ix -> n <= i ->
  op_truncate la A (Some ix) false = Err IndexError.
Proof. exact @truncate_out_of_range. Qed.
Print Assumptions c11_out_of_range_raises.
Theorem c11_all_indices : forall (F : OField) la n (A : op F),
  is_matrix n n A -> op_truncate la A (Some (seq 0 n)) false = Ok A.
Proof. exact @truncate_all. Qed.
Print Assumptions c11_all_indices.
Theorem c11_composes : forall (F : OField) la n (A : op F) ix jx,
  is_matrix n n A -> (forall i, In i ix -> i < n) ->
  (forall j, In j jx -> j < length ix) ->
  exists T, op_truncate la A (Some ix) false = Ok T /\
    op_truncate la T (Some jx) false = op_truncate la A (Some (map (fun j => nth j ix 0) jx)) false.
Proof. exact @truncate_compose. Qed.
Print Assumptions c11_composes.
Theorem c11_adjoint : forall (F : OField) la n (A : op F) ix,
  is_matrix n n A -> (forall i, In i ix -> i < n) ->
  exists T, op_truncate la A (Some ix) false = Ok T /\
    op_truncate la (op_dag A) (Some ix) false = Ok (op_dag T).
Proof. exact @truncate_dag. Qed.
Print Assumptions c11_adjoint.
Theorem c11_ket_rows : forall (F : OField) la n (v : op F) ix tu,
  is_matrix n 1 v -> n <> 1 -> (forall i, In i ix -> i < n) ->
  exists T, op_truncate la v (Some ix) tu = Ok T /\ is_matrix (length ix) 1 T /\
  forall a, a < length ix -> T.[a,0] = v.[nth a ix 0, 0].
Proof. exact @truncate_ket. Qed.
Print Assumptions c11_ket_rows.
Theorem c11_none : forall (F : OField) la (A : op F) tu,
  op_truncate la A None tu = Ok A.
Proof. exact @truncate_none. Qed.
Print Assumptions c11_none.
Theorem c11_map_to_closest_unitary : forall (F : OField) la n (A : op F) ix,
  is_matrix n n A -> (forall i, In i ix -> i < n) ->
  exists T, op_truncate la A (Some ix) false = Ok T /\
    op_truncate la A (Some ix) true = Ok (op_closest_unitary la T).
Proof. exact @truncate_closest. Qed.
Print Assumptions c11_map_to_closest_unitary.
(** rescaling a bra always raises, and a ket is returned without being rescaled *)
Theorem c11_bra_rescale_refuted : forall (F : OField) la n (v : op F) ix,
  is_matrix 1 n v -> n <> 1 ->
  exists e, op_truncate la v (Some ix) true = Err e.
Proof. exact @truncate_bra_rescale. Qed.
Print Assumptions c11_bra_rescale_refuted.
Theorem c11_ket_rescale_refuted : forall la : LinAlg QcField, exists v T,
  is_matrix 2 1 v /\ sumn (S:=KStar QcField) 2 (fun i => cnorm2 (F:=QcField) (mg (S:=CStar QcField) v i 0)) = k1 /\
  op_truncate la v (Some [0]) true = Ok T /\
  cnorm2 (F:=QcField) (mg (S:=CStar QcField) T 0 0) <> k1.
Proof. exact truncate_ket_not_rescaled. Qed.
Print Assumptions c11_ket_rescale_refuted.
Example c11_case : forall la : LinAlg QcField, is_matrix 3 3 exP1 /\ (forall i, In i [2; 0] -> i < 3) /\
  op_truncate la exP1 (Some [2; 0]) false = Ok (mq 2 2 [[zq 3; zq 7]; [zq 0; zq 1]]) /\
  op_truncate la exP1 (Some [3]) false = Err IndexError.
Proof.
  intros la. split; [split; reflexivity|]. split; [intros i [<-|[<-|[]]]; auto with arith|].
  split; [apply (f_equal Ok); apply meqb_eq; vm_compute; reflexivity|reflexivity].
Qed.

(** ---------- C12: the closest unitary ---------- *)
Theorem c12_unitary : forall (F : OField) la n (A : op F) (U : op F) s (W : op F),
  la_svd la A = (U, s, W) -> is_svd n A U s W ->
  is_unitary n (op_closest_unitary la A).
Proof. exact @closest_is_unitary. Qed.
Print Assumptions c12_unitary.
Theorem c12_fixes_unitaries : forall (F : OField) la n (A : op F) (U : op F) s (W : op F),
  la_svd la A = (U, s, W) -> is_svd n A U s W ->
  is_unitary n A -> op_closest_unitary la A = A.
Proof. exact @closest_fixes_unitary. Qed.
Print Assumptions c12_fixes_unitaries.
Theorem c12_minimises_distance : forall (F : OField) la n (A : op F) (U : op F) s (W : op F) (Q : op F),
  la_svd la A = (U, s, W) -> is_svd n A U s W ->
  is_unitary n Q -> kle (frob_dist2 n A (op_closest_unitary la A)) (frob_dist2 n A Q).
Proof. exact @closest_minimal. Qed.
Print Assumptions c12_minimises_distance.
(** the SVD of [[0, 2], [3, 0]] *)
Example c12_case : is_svd 2 (mq 2 2 [[zq 0; zq 2]; [zq 3; zq 0]]) (pauli_x QcField) [qq 3 1; qq 2 1] (pauli_0 QcField) /\
  ~ is_unitary 2 (mq 2 2 [[zq 0; zq 2]; [zq 3; zq 0]]).
Proof. exact svd_case. Qed.
