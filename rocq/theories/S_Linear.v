(** Specification vocabulary for linear algebra, in terms of entries only (no model functions).
    [A.[i,j]] is the entry of an array; everything else is written out as sums over indices. *)
Require Import List Arith.
From Verif Require Import LibRing LibArr LibCplx LibMat.
Import ListNotations.
Set Implicit Arguments.

Notation "A .[ i , j ]" := (mg A i j) (at level 2, left associativity, format "A .[ i ,  j ]").

(** A is an m x n array *)
Definition is_matrix {S : StarRing} (m n : nat) (A : mat S) : Prop :=
  shape A = [m; n] /\ length (data A) = m * n.

(** 1 if i = j, else 0 *)
Definition delta {S : StarRing} (i j : nat) : S := if Nat.eqb i j then s1 else s0.

(** A is the n x n identity *)
Definition is_identity {S : StarRing} (n : nat) (A : mat S) : Prop :=
  is_matrix n n A /\ forall i j, i < n -> j < n -> A.[i,j] = delta i j.

(** Hermitian: A[j,i] = conj A[i,j] *)
Definition is_hermitian {S : StarRing} (n : nat) (A : mat S) : Prop :=
  is_matrix n n A /\ forall i j, i < n -> j < n -> A.[j,i] = sconj A.[i,j].

(** skew Hermitian: A[j,i] = - conj A[i,j] *)
Definition is_skew_hermitian {S : StarRing} (n : nat) (A : mat S) : Prop :=
  is_matrix n n A /\ forall i j, i < n -> j < n -> A.[j,i] = sopp (sconj A.[i,j]).

(** unitary: the columns are orthonormal and so are the rows *)
Definition is_unitary {S : StarRing} (n : nat) (U : mat S) : Prop :=
  is_matrix n n U /\
  (forall i j, i < n -> j < n -> sumn n (fun k => smul (sconj U.[k,i]) U.[k,j]) = delta i j) /\
  (forall i j, i < n -> j < n -> sumn n (fun k => smul U.[i,k] (sconj U.[j,k])) = delta i j).

(** P is the matrix product of A (m x n) and B (n x p) *)
Definition is_product {S : StarRing} (m n p : nat) (A B P : mat S) : Prop :=
  is_matrix m p P /\
  forall i j, i < m -> j < p -> P.[i,j] = sumn n (fun k => smul A.[i,k] B.[k,j]).

(** product of a list of numbers *)
Fixpoint lprod {S : StarRing} (l : list S) : S :=
  match l with [] => s1 | x :: l' => smul x (lprod l') end.

(** A = V diag(w) V^dagger with unitary V: what LAPACK promises for Hermitian (normal) matrices *)
Definition is_eigendecomposition {F : OField} (n : nat) (A : mat (CStar F)) (w : list (cplx F))
    (V : mat (CStar F)) : Prop :=
  is_matrix n n A /\ length w = n /\ is_unitary n V /\
  forall i j, i < n -> j < n ->
    A.[i,j] = sumn n (fun k => cmul (cmul V.[i,k] (nth k w c0)) (cconj V.[j,k])).

(** the laws of the scalar complex exponential used below *)
Definition exp_laws {F : OField} (e : cplx F -> cplx F) : Prop :=
  e c0 = c1 /\ (forall x y, e (cadd x y) = cmul (e x) (e y)) /\ (forall x, e (cconj x) = cconj (e x)).

(** A = U diag(s) W with unitary U, W and s >= 0: what LAPACK promises for the SVD of a square matrix *)
Definition is_svd {F : OField} (n : nat) (A U : mat (CStar F)) (s : list F) (W : mat (CStar F)) : Prop :=
  is_matrix n n A /\ is_unitary n U /\ is_unitary n W /\ length s = n /\
  (forall k, k < n -> kle k0 (nth k s k0)) /\
  forall i j, i < n -> j < n ->
    A.[i,j] = sumn n (fun k => cmul (cmul U.[i,k] (cofk (nth k s k0))) W.[k,j]).

(** squared Frobenius distance of two n x n matrices *)
Definition frob_dist2 {F : OField} (n : nat) (A B : mat (CStar F)) : F :=
  sumn (S:=KStar F) n (fun i => sumn (S:=KStar F) n (fun j => cnorm2 (csub A.[i,j] B.[i,j]))).
