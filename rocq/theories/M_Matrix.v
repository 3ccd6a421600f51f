(** Model of qopt/matrix.py: the class DenseOperator and the module level functions, at the level of
    values (arrays in, arrays or exceptions out).  Sharing of buffers is modelled in M_OpHeap.v.

    Simplifications common to the whole file: numbers are exact; the decimal constants 0.5,
    0.3333333333333333333 and 0.16666666666666666 are the fractions 1/2, 1/3 and 1/6; QuTiP and scipy
    sparse inputs are not modelled; index arguments are non-negative. *)
Require Import List Arith Lia Bool.
From Verif Require Import LibBase LibRing LibArr LibCplx LibMat.
Import ListNotations.
Open Scope res_scope.
Set Implicit Arguments.

(** A DenseOperator's data: matrix.py l.679-715 (a rank two complex128 array). *)
Definition op (F : OField) := mat (CStar F).

(** What may stand on the other side of an arithmetic operation, matrix.py l.84-86 (VALID_SCALARS) and
    the [type(other)] tests of l.730-801: a DenseOperator, an ndarray, a scalar, anything else. *)
Inductive operand (F : OField) :=
| ODense (A : op F)
| ONd (A : op F)
| OScal (c : cplx F)
| OOther.
Arguments ODense {F}. Arguments ONd {F}. Arguments OScal {F}. Arguments OOther {F}.

(** External linear algebra used by matrix.py (numpy.linalg / scipy.linalg / np.exp), as parameters:
    l.993 eigh, l.996 eig, l.1123 expm, l.1216 expm_frechet, l.1451 svd, l.1000 np.exp.
    [eigh]/[eig] return eigenvalues and the matrix of eigenvectors (columns);
    [svd] returns U, singular values, V^h; [expm_frechet a e] returns (expm a, derivative). *)
Record LinAlg (F : OField) := mkLA {
  la_eigh : op F -> list F * op F;
  la_eig : op F -> list (cplx F) * op F;
  la_expm : op F -> op F;
  la_expm_frechet : op F -> op F -> op F * op F;
  la_svd : op F -> op F * list F * op F;
  la_cexp : cplx F -> cplx F
}.

Section Model.
Variable F : OField.
Notation C := (cplx F).
Notation S := (CStar F).

(** numpy broadcasting of a rank two array B into the fixed shape of A: every dimension of B is equal
    to A's or 1 (used by the in-place operations l.769-790, which cannot enlarge self). *)
Definition bcast_ok (A B : op F) : bool :=
  (Nat.eqb (nr B) (nr A) || Nat.eqb (nr B) 1) && (Nat.eqb (nc B) (nc A) || Nat.eqb (nc B) 1).
Definition bidx (d i : nat) : nat := if Nat.eqb d 1 then 0 else i.
Definition bcast (A B : op F) : op F :=
  mk2 (nr A) (nc A) (fun i j => mg B (bidx (nr B) i) (bidx (nc B) j)).
(** scalar broadcast to A's shape *)
Definition bconst (A : op F) (c : C) : op F := mk2 (nr A) (nc A) (fun _ _ => c).

(** matrix.py l.717-721 copy *)
Definition op_copy (A : op F) : op F := A.

(** np.matmul(A, B): inner dimensions must agree, else ValueError *)
Definition np_matmul (A B : op F) : res (op F) :=
  check Nat.eqb (nc A) (nr B) else ValueError ;; Ok (mmul A B).

(** np.matmul(A, B, out=A): additionally the result must fit into A's buffer *)
Definition np_matmul_out (A B : op F) : res (op F) :=
  P <- np_matmul A B ;;
  check Nat.eqb (nc P) (nc A) else ValueError ;; Ok P.

(** matrix.py l.723-738 __imul__: new value of self *)
Definition op_imul (A : op F) (o : operand F) : res (op F) :=
  match o with
  | ODense B => np_matmul_out A B
  | ONd B => np_matmul_out A B
  | OScal c => Ok (mscale (S:=S) c A)
  | OOther => Err NotImplementedError
  end.

(** matrix.py l.740-753 __mul__ *)
Definition op_mul (A : op F) (o : operand F) : res (op F) :=
  match o with
  | OScal c => op_imul (op_copy A) (OScal c)
  | ONd B => np_matmul A B
  | ODense B => np_matmul A B
  | OOther => Err NotImplementedError
  end.

(** matrix.py l.755-765 __rmul__ (other * self).  For two DenseOperators python calls __mul__. *)
Definition op_rmul (A : op F) (o : operand F) : res (op F) :=
  match o with
  | ONd B => np_matmul B A
  | OScal c => op_imul (op_copy A) (OScal c)
  | ODense _ => Err NotImplementedError
  | OOther => Err NotImplementedError
  end.

(** matrix.py l.767-777 __iadd__ *)
Definition op_iadd (A : op F) (o : operand F) : res (op F) :=
  match o with
  | ODense B | ONd B =>
      check bcast_ok A B else ValueError ;; Ok (madd (S:=S) A (bcast A B))
  | OScal c => Ok (madd (S:=S) A (bconst A c))
  | OOther => Err NotImplementedError
  end.

(** matrix.py l.128-153 __add__: copy, then in-place addition *)
Definition op_add (A : op F) (o : operand F) : res (op F) := op_iadd (op_copy A) o.

(** matrix.py l.779-790 __isub__ *)
Definition op_isub (A : op F) (o : operand F) : res (op F) :=
  match o with
  | ODense B | ONd B =>
      check bcast_ok A B else ValueError ;; Ok (msub (S:=S) A (bcast A B))
  | OScal c => Ok (msub (S:=S) A (bconst A c))
  | OOther => Err NotImplementedError
  end.

(** matrix.py l.268-294 __sub__ *)
Definition op_sub (A : op F) (o : operand F) : res (op F) := op_isub (op_copy A) o.

(** matrix.py l.792-795 __truediv__, scalar case; the element wise division by an ndarray is not
    modelled; division by zero, where numpy fills inf/nan, is reported as FloatNaN. *)
Definition op_truediv (A : op F) (o : operand F) : res (op F) :=
  match o with
  | OScal c => if ceqb c c0 then Err FloatNaN else Ok (mscale (S:=S) (cinv c) A)
  | ONd _ => Err FloatNaN
  | ODense _ => Err NotImplementedError
  | OOther => Err NotImplementedError
  end.

(** matrix.py l.815-825 dag: conjugate a copy, then copy the transpose *)
Definition op_dag (A : op F) : op F := mtr (mconj (S:=S) (op_copy A)).
(** matrix.py l.827-835 conj *)
Definition op_conj (A : op F) : op F := mconj (S:=S) (op_copy A).
(** matrix.py l.837-844 transpose *)
Definition op_transpose (A : op F) : op F := mtr (S:=S) (op_copy A).
(** matrix.py l.870-872 tr (numpy trace of a rectangular array sums the short diagonal) *)
Definition op_tr (A : op F) : C := mtrace (S:=S) A.
(** matrix.py l.961-970 kron *)
Definition op_kron (A : op F) (o : operand F) : res (op F) :=
  match o with
  | ODense B | ONd B => Ok (mkron (S:=S) A B)
  | OScal _ | OOther => Err ValueError
  end.
(** matrix.py l.1276-1279 identity_like *)
Definition op_identity_like (A : op F) : res (op F) :=
  check Nat.eqb (nr A) (nc A) else AssertionError ;; Ok (mid (S:=S) (nr A)).

(** Pauli operators, matrix.py l.648-676 *)
Definition of_rows (m n : nat) (l : list (list C)) : op F :=
  mk2 m n (fun i j => nth j (nth i l []) c0).
Definition pauli_0 : op F := mid (S:=S) 2.
Definition pauli_x : op F := of_rows 2 2 [[c0; c1]; [c1; c0]].
Definition pauli_y : op F := of_rows 2 2 [[c0; copp ci]; [ci; c0]].
Definition pauli_z : op F := of_rows 2 2 [[c1; c0]; [c0; copp c1]].
Definition pauli_m : op F := of_rows 2 2 [[c0; c0]; [c1; c0]].
Definition pauli_p : op F := of_rows 2 2 [[c0; c1]; [c0; c0]].

(** ---- partial trace, matrix.py l.874-959 ---- *)

(** np.sort *)
Fixpoint insert_nat (x : nat) (l : list nat) : list nat :=
  match l with [] => [x] | y :: l' => if Nat.leb x y then x :: l else y :: insert_nat x l' end.
Fixpoint sort_nat (l : list nat) : list nat :=
  match l with [] => [] | x :: l' => insert_nat x (sort_nat l') end.

Definition mem_nat (x : nat) (l : list nat) : bool := existsb (Nat.eqb x) l.
Fixpoint nodup_nat (l : list nat) : bool :=
  match l with [] => true | x :: l' => negb (mem_nat x l') && nodup_nat l' end.

(** position of p in the permutation *)
Fixpoint index_of (p : nat) (l : list nat) : nat :=
  match l with [] => 0 | x :: l' => if Nat.eqb x p then 0 else Datatypes.S (index_of p l') end.

(** ndarray.transpose(perm): axis k of the result is axis perm[k] of the argument *)
Definition np_transpose {T} (d : T) (perm : list nat) (a : arr T) : arr T :=
  mkn (map (fun p => nth p (shape a) 0) perm)
      (fun ix => getn d a (map (fun p => nth (index_of p perm) ix 0) (seq 0 (length perm)))).

(** np.trace of a rank four array: sum over the first two axes *)
Definition np_trace4 (a : arr C) : op F :=
  mk2 (nth 2 (shape a) 0) (nth 3 (shape a) 0)
      (fun j k => sumn (S:=S) (Nat.min (nth 0 (shape a) 0) (nth 1 (shape a) 0))
                       (fun i => getn c0 a [i; i; j; k])).

(** l.931 [list(set(np.arange(n_dim)) - set(remove))]: the iteration order of a python set is an
    implementation detail, so it is the parameter [set_iter], applied to the remaining subsystems in
    ascending order.  (CPython yields ascending order for fewer than nine subsystems; for nine
    subsystems, list(set(range(9)) - set(range(7))) is [8, 7].) *)
Definition ptrace_keep (set_iter : list nat -> list nat) (n_dim : nat) (remove : list nat) : list nat :=
  set_iter (filter (fun q => negb (mem_nat q remove)) (seq 0 n_dim)).

(** l.919-922: kets are turned into density matrices first *)
Definition ptrace_mat (A : op F) : res (op F) :=
  if Nat.eqb (nc A) 1 then op_mul A (ODense (op_dag A)) else Ok A.

(** l.946-953, the array computation *)
Definition ptrace_array (dims remove keep : list nat) (mat : op F) : op F :=
  let n_dim := length dims in
  let dims_rm := map (fun q => nth q dims 0) remove in
  let dims_keep := map (fun q => nth q dims 0) keep in
  np_trace4
    (reshape [prodn dims_rm; prodn dims_rm; prodn dims_keep; prodn dims_keep]
       (np_transpose c0 (remove ++ map (fun q => n_dim + q) remove ++ keep ++ map (fun q => n_dim + q) keep)
          (reshape (dims ++ dims) mat))).

(** l.874-959.  np.prod([]) is the float 1.0, which reshape rejects with a TypeError: this happens when
    nothing or everything is traced out. *)
Definition op_ptrace (set_iter : list nat -> list nat) (A : op F) (dims remove0 : list nat) : res (op F) :=
  mat <- ptrace_mat A ;;
  check Nat.eqb (nr mat) (prodn dims) else AssertionError ;;
  let n_dim := length dims in
  let remove := sort_nat remove0 in
  let keep := ptrace_keep set_iter n_dim remove in
  check forallb (fun q => Nat.ltb q n_dim) remove else IndexError ;;
  check Nat.eqb (nr mat * nc mat) (prodn dims * prodn dims) else ValueError ;;
  check nodup_nat remove else ValueError ;;
  match remove, keep with
  | [], _ => Err TypeError
  | _, [] => Err TypeError
  | _, _ => Ok (ptrace_array dims remove keep mat)
  end.

(** ---- truncation, matrix.py l.1281-1307 ---- *)
(** self.data[np.ix_(rows, cols)] *)
Definition np_ix2 (A : op F) (rows cols : list nat) : res (op F) :=
  check forallb (fun i => Nat.ltb i (nr A)) rows && forallb (fun j => Nat.ltb j (nc A)) cols
  else IndexError ;;
  Ok (mk2 (length rows) (length cols) (fun a b => mg A (nth a rows 0) (nth b cols 0))).
(** self.data[np.ix_(rows)]: all columns are kept *)
Definition np_ix1 (A : op F) (rows : list nat) : res (op F) :=
  check forallb (fun i => Nat.ltb i (nr A)) rows else IndexError ;;
  Ok (mk2 (length rows) (nc A) (fun a b => mg A (nth a rows 0) b)).

(** matrix.py l.1435-1453 closest_unitary (also util.py l.114-128) *)
Definition op_closest_unitary (la : LinAlg F) (A : op F) : op F :=
  let '(U, _, Vh) := la_svd la A in mmul (S:=S) U Vh.

(** l.1281-1307; the second test for a bra shadows the branch intended for kets, and norm('fre') is not
    a valid norm, so both raise/are unreachable exactly as below. *)
Definition op_truncate (la : LinAlg F) (A : op F) (idx : option (list nat)) (to_unitary : bool) : res (op F) :=
  match idx with
  | None => Ok A
  | Some ix =>
      if Nat.eqb (nr A) (nc A) then
        out <- np_ix2 A ix ix ;;
        Ok (if to_unitary then op_closest_unitary la out else out)
      else if Nat.eqb (nr A) 1 then
        out <- np_ix2 A [0] ix ;;
        if to_unitary then Err ValueError else Ok out
      else if Nat.eqb (nr A) 1 then
        out <- np_ix2 A ix [0] ;;
        if to_unitary then Err ValueError else Ok out
      else np_ix1 A ix
  end.

(** ---- super operators and vectorisation ---- *)
(** matrix.py l.1314-1352 convert_unitary_to_super_operator *)
Definition op_to_super (U : op F) : op F := mkron (S:=S) (op_conj U) U.

(** matrix.py l.1355-1391 ket_vectorize_density_matrix: data.T.reshape([size, 1]) *)
Definition op_vec (A : op F) : res (op F) :=
  check Nat.eqb (nr A) (nc A) else ValueError ;;
  Ok (reshape [nr A * nc A; 1] (mtr (S:=S) A)).

(** int(np.sqrt(n)) *)
Definition isqrt (n : nat) : nat := Nat.sqrt n.

(** matrix.py l.1394-1432 convert_ket_vectorized_density_matrix_to_square *)
Definition op_unvec (v : op F) : res (op F) :=
  check Nat.eqb (nc v) 1 else ValueError ;;
  let n := nr v * nc v in
  let d := isqrt n in
  check Nat.eqb (d * d) n else ValueError ;;
  Ok (mtr (S:=S) (reshape [d; d] v)).

(** ---- exponentials ---- *)
Definition chalf : C := cofk (kdiv k1 (kofnat 2)).
Definition cthird : C := cofk (kdiv k1 (kofnat 3)).
Definition csixth : C := cofk (kdiv k1 (kofnat 6)).

(** eigen-decomposition as used in l.992-996 and l.1038-1042 *)
Definition eig_pair (la : LinAlg F) (A : op F) (skew : bool) : list C * op F :=
  if skew then
    let '(w, V) := la_eigh la (mscale (S:=S) (copp ci) A) in (map (fun x => cmul ci (cofk x)) w, V)
  else la_eig la A.

(** einsum('ij,j,kj->ik', V, exp(tau*w), conj(V)) of l.1000 *)
Definition spectral_fun (w : list C) (V : op F) (f : C -> C) : op F :=
  mk2 (nr V) (nr V) (fun i k =>
    sumn (S:=S) (nc V) (fun j => cmul (cmul (mg V i j) (f (nth j w c0))) (cconj (mg V k j)))).

(** matrix.py l.972-1003 _exp_diagonalize *)
Definition op_exp_diag (la : LinAlg F) (A : op F) (tau : C) (skew : bool) : op F :=
  let '(w, V) := eig_pair la A skew in
  spectral_fun w V (fun x => la_cexp la (cmul tau x)).

Inductive emethod := Spectral | Approx | Frechet | FirstOrder | SecondOrder | ThirdOrder | UnknownMethod.

(** matrix.py l.1125-1137: the truncated series *)
Definition exp_first (A : op F) (tau : C) : op F :=
  madd (S:=S) (mid (nr A)) (mscale (S:=S) tau A).
Definition exp_second (A : op F) (tau : C) : op F :=
  madd (S:=S) (exp_first A tau) (mscale (S:=S) (cmul (cmul tau tau) chalf) (mmul (S:=S) A A)).
Definition exp_third (A : op F) (tau : C) : op F :=
  let b := mscale (S:=S) tau A in
  let bb := mscale (S:=S) chalf (mmul (S:=S) b b) in
  madd (S:=S) (madd (S:=S) (madd (S:=S) (mid (nr A)) b) bb)
       (mscale (S:=S) cthird (mmul (S:=S) bb b)).

(** matrix.py l.1080-1142 exp.  All methods need a square matrix: the truncated series fail with a
    ValueError in the addition of np.eye (shape[0] x shape[0]), LAPACK raises LinAlgError. *)
Definition op_exp (la : LinAlg F) (A : op F) (tau : C) (m : emethod) (skew : bool) : res (op F) :=
  match m with
  | UnknownMethod => Err ValueError
  | _ =>
    if negb (Nat.eqb (nr A) (nc A)) then
      match m with
      | Spectral => Err LinAlgError
      | _ => Err ValueError
      end
    else
      match m with
      | Spectral => Ok (op_exp_diag la A tau skew)
      | Approx | Frechet => Ok (la_expm la (mscale (S:=S) tau A))
      | FirstOrder => Ok (exp_first A tau)
      | SecondOrder => Ok (exp_second A tau)
      | ThirdOrder => Ok (exp_third A tau)
      | UnknownMethod => Err ValueError
      end
  end.

(** matrix.py l.1005-1069 _dexp_diagonalization.  eig_val_diffs[i,j] = w[j] - w[i] (l.1046-1047);
    a vanishing off-diagonal difference makes numpy produce nan. *)
Definition eig_diff (w : list C) (i j : nat) : C := csub (nth j w c0) (nth i w c0).
Definition degenerate (n : nat) (w : list C) : bool :=
  existsb (fun i => existsb (fun j => negb (Nat.eqb i j) && ceqb (eig_diff w i j) c0) (seq 0 n)) (seq 0 n).
Definition omega_mat (la : LinAlg F) (n : nat) (w : list C) (tau : C) : op F :=
  mk2 n n (fun i j =>
    if Nat.eqb i j then tau
    else cdiv (csub (la_cexp la (cmul (eig_diff w i j) tau)) c1) (eig_diff w i j)).
(** element wise product *)
Definition mhad (A B : op F) : op F := mk2 (nr A) (nc A) (fun i j => cmul (mg A i j) (mg B i j)).

Definition op_dexp_diag (la : LinAlg F) (A D : op F) (tau : C) (skew : bool) : res (op F * op F) :=
  let '(w, V) := eig_pair la A skew in
  let Vd := mdag (S:=S) V in
  if degenerate (nr A) w then Err FloatNaN else
  let Dt := mmul (S:=S) (mmul (S:=S) V D) Vd in
  let K := mhad Dt (omega_mat la (nr A) w tau) in
  let E := spectral_fun w V (fun x => la_cexp la (cmul tau x)) in
  let dv := mmul (S:=S) (mmul (S:=S) Vd K) V in
  Ok (E, mmul (S:=S) E dv).

(** l.1240-1262 *)
Definition dexp_first (D : op F) (tau : C) : op F := mscale (S:=S) tau D.
Definition anticomm (A D : op F) : op F := madd (S:=S) (mmul (S:=S) A D) (mmul (S:=S) D A).
Definition dexp_second (A D : op F) (tau : C) : op F :=
  madd (S:=S) (dexp_first D tau) (mscale (S:=S) (cmul (cmul tau tau) chalf) (anticomm A D)).
Definition dexp_third (A D : op F) (tau : C) : op F :=
  madd (S:=S)
    (madd (S:=S) (dexp_first D tau) (mscale (S:=S) chalf (mscale (S:=S) tau (mscale (S:=S) tau (anticomm A D)))))
    (mscale (S:=S) (cmul (cmul (cmul tau tau) tau) csixth)
       (madd (S:=S) (madd (S:=S) (mmul (S:=S) (mmul (S:=S) A A) D) (mmul (S:=S) (mmul (S:=S) D A) A))
                    (mmul (S:=S) (mmul (S:=S) A D) A))).

(** matrix.py l.1148-1274 dexp with compute_expm=True; with compute_expm=False the second component is
    returned (see [op_dexp_grad]).  In the series methods and 'approx' the exponential comes from
    self.exp(tau), i.e. the default method 'spectral' (l.1237, 1242, 1247, 1254).  Square operators
    of equal shape only (shape errors of numpy are reported as ValueError). *)
Definition op_dexp (la : LinAlg F) (A D : op F) (tau : C) (m : emethod) (skew : bool) (epsilon : C)
  : res (op F * op F) :=
  match m with
  | UnknownMethod => Err NotImplementedError
  | _ =>
    if negb (Nat.eqb (nr A) (nc A) && Nat.eqb (nr D) (nr A) && Nat.eqb (nc D) (nc A)) then Err ValueError
    else
      match m with
      | Frechet => Ok (la_expm_frechet la (mscale (S:=S) tau A) (mscale (S:=S) tau D))
      | Spectral => op_dexp_diag la A D tau skew
      | Approx =>
          let dprop := la_expm la (mscale (S:=S) tau (madd (S:=S) A (mscale (S:=S) epsilon D))) in
          prop <- op_exp la A tau Spectral false ;;
          Ok (prop, mscale (S:=S) (cdiv c1 epsilon) (msub (S:=S) dprop prop))
      | FirstOrder => prop <- op_exp la A tau Spectral false ;; Ok (prop, dexp_first D tau)
      | SecondOrder => prop <- op_exp la A tau Spectral false ;; Ok (prop, dexp_second A D tau)
      | ThirdOrder => prop <- op_exp la A tau Spectral false ;; Ok (prop, dexp_third A D tau)
      | UnknownMethod => Err NotImplementedError
      end
  end.
Definition op_dexp_grad (la : LinAlg F) (A D : op F) (tau : C) (m : emethod) (skew : bool) (epsilon : C)
  : res (op F) :=
  p <- op_dexp la A D tau m skew epsilon ;; Ok (snd p).
End Model.
