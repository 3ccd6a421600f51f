(** Specification vocabulary for the norms of operators (C88): entries only. *)
Require Import List Arith ZArith Reals.
From Verif Require Import LibBase LibRing LibArr LibCplx LibMat LibDeriv M_Matrix M_Norm S_Linear.
Import ListNotations.
Set Implicit Arguments.
Notation RSum := (sumn (S:=KStar RField)).

(** |z| *)
Definition modulus (z : cplx RField) : R := sqrt (fst z * fst z + snd z * snd z).
(** x is the root of the sum of all |A[i,j]|^2 *)
Definition frobenius_norm (m n : nat) (A : mat RS) (x : R) : Prop := (0 <= x)%R /\ (x * x)%R = RSum m (fun i => RSum n (fun j => modulus A.[i,j] * modulus A.[i,j])%R).
(** x is the largest (smallest) of f 0, ..., f (n - 1) *)
Definition largest (n : nat) (f : nat -> R) (x : R) : Prop := (exists k, k < n /\ f k = x) /\ forall k, k < n -> (f k <= x)%R.
Definition smallest (n : nat) (f : nat -> R) (x : R) : Prop := (exists k, k < n /\ f k = x) /\ forall k, k < n -> (x <= f k)%R.
(** the sum of the moduli of a column, of a row *)
Definition column_sum (m : nat) (A : mat RS) (j : nat) : R := RSum m (fun i => modulus A.[i,j]).
Definition row_sum (n : nat) (A : mat RS) (i : nat) : R := RSum n (fun j => modulus A.[i,j]).
(** the length of a vector *)
Definition vector_length (n : nat) (v : nat -> cplx RField) : R := sqrt (RSum n (fun i => modulus (v i) * modulus (v i))%R).
(** A v *)
Definition image (n : nat) (A : mat RS) (v : nat -> cplx RField) (i : nat) : cplx RField := sumn (S:=RS) n (fun j => cmul A.[i,j] (v j)).
(** the three norms that need no singular values *)
Definition simple_ord (o : norm_ord) : Prop := o = NFro \/ o = NInt 1 \/ o = NInf.
