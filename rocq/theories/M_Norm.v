(** Model of DenseOperator.norm, qopt/matrix.py l.850-868, which hands the data to numpy.linalg.norm.  Numbers are exact reals.
    The singular values are those of the library (argument [la], as in M_Matrix.v). *)
Require Import List Arith ZArith Reals.
From Verif Require Import LibBase LibRing LibArr LibCplx LibMat LibDeriv M_Matrix.
Import ListNotations.
Open Scope res_scope.
Set Implicit Arguments.

(** the argument ord, l.850: None, 'fro', 'nuc', np.inf, -np.inf, a number, any other string *)
Inductive norm_ord := NDefault | NFro | NNuc | NInf | NMinf | NInt (k : Z) | NStr.

(** np.abs of a complex number *)
Definition np_abs (z : cplx RField) : R := sqrt (cnorm2 z).
(** ndarray.max and ndarray.min of a vector; both raise for an empty one *)
Definition np_max (l : list R) : res R := match l with [] => Err ValueError | x :: r => Ok (fold_left Rmax r x) end.
Definition np_min (l : list R) : res R := match l with [] => Err ValueError | x :: r => Ok (fold_left Rmin r x) end.
(** np.abs(data).sum(axis=0) and np.abs(data).sum(axis=1) *)
Definition col_sums (A : op RField) : list R := map (fun j => sumn (S:=KStar RField) (nr A) (fun i => np_abs (mg A i j))) (seq 0 (nc A)).
Definition row_sums (A : op RField) : list R := map (fun i => sumn (S:=KStar RField) (nc A) (fun j => np_abs (mg A i j))) (seq 0 (nr A)).
(** l.868: numpy.linalg.norm of a matrix. None and 'fro' (also spelled 'f'): the root of the dot product of the raveled array with
    itself; 1, -1, inf, -inf: largest and smallest sums; 2, -2, 'nuc': from the singular values; else ValueError *)
Definition op_norm (la : LinAlg RField) (ord : norm_ord) (A : op RField) : res R :=
  let singular := snd (fst (la_svd la A)) in
  match ord with
  | NDefault | NFro => Ok (sqrt (sumn (S:=KStar RField) (length (data A)) (fun k => cnorm2 (nth k (data A) c0))))
  | NNuc => Ok (fold_left Rplus singular 0%R)
  | NInf => np_max (row_sums A)
  | NMinf => np_min (row_sums A)
  | NInt 1 => np_max (col_sums A)
  | NInt (-1) => np_min (col_sums A)
  | NInt 2 => np_max singular
  | NInt (-2) => np_min singular
  | NInt _ | NStr => Err ValueError
  end.
