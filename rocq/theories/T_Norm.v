(** Theorems about DenseOperator.norm in qopt/matrix.py, property C88 of properties.jsonl.
    Statements only; the proofs are in P_Norm.v and P_Norm2.v, the concrete cases in P_NormWit.v. *)
Require Import List Arith ZArith Reals.
From Verif Require Import LibBase LibRing LibArr LibCplx LibMat LibDeriv M_Matrix S_Linear M_Norm S_Norm M_Transfer S_Transfer M_Solver S_Solver S_Invariance S_Sensitive
  P_GradWit P_InvarianceWit P_SensitiveWit P_Norm P_Norm2 P_NormWit.
Import ListNotations.
Set Implicit Arguments.

(** ---------- C88: norms of operators ---------- *)
(** what is returned *)
Theorem c88_frobenius : forall (la : LinAlg RField) m n (A : op RField), is_matrix (S:=RS) m n A ->
  exists x, op_norm la NFro A = Ok x /\ op_norm la NDefault A = Ok x /\ frobenius_norm m n A x.
Proof. exact @frobenius_value. Qed.
Print Assumptions c88_frobenius.
Theorem c88_sums : forall (la : LinAlg RField) m n (A : op RField), is_matrix (S:=RS) m n A -> 0 < m -> 0 < n ->
  (exists x, op_norm la (NInt 1) A = Ok x /\ largest n (column_sum m A) x) /\ (exists x, op_norm la (NInt (-1)) A = Ok x /\ smallest n (column_sum m A) x) /\
  (exists x, op_norm la NInf A = Ok x /\ largest m (row_sum n A) x) /\ (exists x, op_norm la NMinf A = Ok x /\ smallest m (row_sum n A) x).
Proof. exact @sums_value. Qed.
Print Assumptions c88_sums.
Theorem c88_singular_values : forall (la : LinAlg RField) n (A U : op RField) (s : list R) (W : op RField),
  is_svd (F:=RField) n A U s W -> la_svd la A = (U, s, W) -> 0 < n ->
  exists x y z, op_norm la (NInt 2) A = Ok x /\ op_norm la NFro A = Ok y /\ op_norm la NNuc A = Ok z /\ (x <= y <= z)%R /\ (y <= sqrt (INR n) * x)%R /\
    (forall v, (vector_length n (image n A v) <= x * vector_length n v)%R) /\ exists v, vector_length n v = 1%R /\ vector_length n (image n A v) = x.
Proof. exact @spectral_value. Qed.
Print Assumptions c88_singular_values.
Theorem c88_smallest : forall (la : LinAlg RField) n (A U : op RField) (s : list R) (W : op RField),
  is_svd (F:=RField) n A U s W -> la_svd la A = (U, s, W) -> 0 < n ->
  exists x, op_norm la (NInt (-2)) A = Ok x /\ (forall v, (x * vector_length n v <= vector_length n (image n A v))%R) /\
    exists v, vector_length n v = 1%R /\ vector_length n (image n A v) = x.
Proof. exact @smallest_value. Qed.
Print Assumptions c88_smallest.
(** the laws of norms *)
Theorem c88_zero : forall (la : LinAlg RField) o m n (A : op RField) x, simple_ord o -> is_matrix (S:=RS) m n A -> op_norm la o A = Ok x ->
  (0 <= x)%R /\ (x = 0%R <-> forall i j, i < m -> j < n -> (A : mat RS).[i,j] = c0).
Proof. exact @zero_iff. Qed.
Print Assumptions c88_zero.
Theorem c88_scaled : forall (la : LinAlg RField) o m n c (A B : op RField) x, simple_ord o -> is_matrix (S:=RS) m n A -> op_norm la o A = Ok x ->
  op_mul (F:=RField) A (OScal c) = Ok B -> op_norm la o B = Ok (modulus c * x)%R.
Proof. exact @scaled. Qed.
Print Assumptions c88_scaled.
Theorem c88_triangle : forall (la : LinAlg RField) o m n (A B P : op RField) x y, simple_ord o -> is_matrix (S:=RS) m n A -> is_matrix (S:=RS) m n B ->
  op_norm la o A = Ok x -> op_norm la o B = Ok y -> op_add (F:=RField) A (ODense B) = Ok P -> exists z, op_norm la o P = Ok z /\ (z <= x + y)%R.
Proof. exact @triangle. Qed.
Print Assumptions c88_triangle.
Theorem c88_product : forall (la : LinAlg RField) o m n p (A B P : op RField) x y, simple_ord o -> is_matrix (S:=RS) m n A -> is_matrix (S:=RS) n p B ->
  op_norm la o A = Ok x -> op_norm la o B = Ok y -> op_mul (F:=RField) A (ODense B) = Ok P -> exists z, op_norm la o P = Ok z /\ (z <= x * y)%R.
Proof. exact @product. Qed.
Print Assumptions c88_product.
Theorem c88_spectral_product : forall (la : LinAlg RField) n (A B P UA WA UB WB UP WP : op RField) (sA sB sP : list R) x y z,
  is_svd (F:=RField) n A UA sA WA -> la_svd la A = (UA, sA, WA) -> is_svd (F:=RField) n B UB sB WB -> la_svd la B = (UB, sB, WB) ->
  is_svd (F:=RField) n P UP sP WP -> la_svd la P = (UP, sP, WP) -> op_mul (F:=RField) A (ODense B) = Ok P ->
  op_norm la (NInt 2) A = Ok x -> op_norm la (NInt 2) B = Ok y -> op_norm la (NInt 2) P = Ok z -> (z <= x * y)%R.
Proof. exact @spectral_product. Qed.
Print Assumptions c88_spectral_product.
(** adjoints, Kronecker products, vectorisation, unitary operators, traces *)
Theorem c88_adjoint : forall (la : LinAlg RField) m n (A : op RField), is_matrix (S:=RS) m n A ->
  op_norm la NFro (op_dag (F:=RField) A) = op_norm la NFro A /\ op_norm la (NInt 1) (op_dag (F:=RField) A) = op_norm la NInf A /\ op_norm la NInf (op_dag (F:=RField) A) = op_norm la (NInt 1) A.
Proof. exact @adjoint. Qed.
Print Assumptions c88_adjoint.
Theorem c88_kron : forall (la : LinAlg RField) m n p q (A B P : op RField) x y, is_matrix (S:=RS) m n A -> is_matrix (S:=RS) p q B ->
  op_norm la NFro A = Ok x -> op_norm la NFro B = Ok y -> op_kron (F:=RField) A (ODense B) = Ok P -> op_norm la NFro P = Ok (x * y)%R.
Proof. exact @kron_norm. Qed.
Print Assumptions c88_kron.
Theorem c88_vectorised : forall (la : LinAlg RField) n (A v : op RField), is_matrix (S:=RS) n n A -> op_vec (F:=RField) A = Ok v -> op_norm la NFro v = op_norm la NFro A.
Proof. exact @vectorised_norm. Qed.
Print Assumptions c88_vectorised.
Theorem c88_unitary : forall (la : LinAlg RField) n p (U B : op RField), is_unitary (S:=RS) n U -> is_matrix (S:=RS) n p B ->
  (forall P, op_mul (F:=RField) U (ODense B) = Ok P -> op_norm la NFro P = op_norm la NFro B) /\
  (forall P, op_mul (F:=RField) (op_dag (F:=RField) B) (ODense U) = Ok P -> op_norm la NFro P = op_norm la NFro B) /\
  op_norm la NFro U = Ok (sqrt (INR n)).
Proof. exact @unitary_norms. Qed.
Print Assumptions c88_unitary.
Theorem c88_trace : forall (la : LinAlg RField) m n (A B P : op RField) x y, is_matrix (S:=RS) m n A -> is_matrix (S:=RS) m n B ->
  op_norm la NFro A = Ok x -> op_norm la NFro B = Ok y -> op_mul (F:=RField) (op_dag (F:=RField) A) (ODense B) = Ok P ->
  (modulus (op_tr (F:=RField) P) <= x * y)%R /\ (A = B -> op_tr (F:=RField) P = cofk ((x * x)%R : RField)).
Proof. exact @trace_bound. Qed.
Print Assumptions c88_trace.
(** the norm of what a solver returns *)
Theorem c88_evolution : forall (la : LinAlg RField) (rexp : R -> R) (la' : LinAlg RField) (eps : cplx RField) (s : @st RField) n k u ps fs t f,
  evolution rexp la' eps s n k u ps fs -> hermitian_system n s -> nth_error fs t = Some f -> op_norm la NFro f = op_norm la NFro (c_init (s_conf s)).
Proof. exact @evolution_norm. Qed.
Print Assumptions c88_evolution.
(** [[3, 4 i], [0, 0]] *)
Example c88_case : is_matrix (S:=RS) 2 2 nmat /\ forall la, op_norm la NFro nmat = Ok 5%R /\ op_norm la (NInt 1) nmat = Ok 4%R /\ op_norm la (NInt (-1)) nmat = Ok 3%R /\
  op_norm la NInf nmat = Ok 7%R /\ op_norm la NMinf nmat = Ok 0%R.
Proof. split; [exact nmat_ok|exact nmat_norms]. Qed.
(** [[0, 2], [3, 0]] and its square *)
Example c88_case_svd : is_svd (F:=RField) 2 smat sxm [3; 2]%R sidm /\ la_svd sla smat = (sxm, [3; 2]%R, sidm) /\
  is_svd (F:=RField) 2 ssq sidm [6; 6]%R sidm /\ la_svd sla ssq = (sidm, [6; 6]%R, sidm) /\ op_mul (F:=RField) smat (ODense smat) = Ok ssq /\
  op_norm sla (NInt 2) smat = Ok 3%R /\ op_norm sla (NInt (-2)) smat = Ok 2%R /\ op_norm sla NNuc smat = Ok 5%R /\ op_norm sla (NInt 2) ssq = Ok 6%R.
Proof. destruct smat_svd. destruct ssq_svd as (? & ? & ?). destruct smat_norms as (? & ? & ? & ?). repeat (split; [assumption|]). assumption. Qed.
(** no columns, no largest sum; an order that numpy does not know *)
Example c88_case_errors : forall la, op_norm la (NInt 1) (Arr [2; 0] []) = Err ValueError /\ op_norm la NStr nmat = Err ValueError /\ op_norm la (NInt 3) nmat = Err ValueError.
Proof. intros la. split; [|split]; reflexivity. Qed.
(** a driven spin *)
Example c88_case_evolution : forall rexp : R -> R, exists ps fs f, evolution rexp wla c0 (s_ref rexp 1) 2 1 (ipulse [1; 3]%R) ps fs /\ hermitian_system 2 (s_ref rexp 1) /\ nth_error fs 2 = Some f.
Proof. exact norm_evolution. Qed.
