(** Specification vocabulary for the comparison of gradients (C69) and for check() (C70). *)
Require Import List Arith Reals.
From Verif Require Import LibArr S_Deriv M_SimCheck.
Import ListNotations.
Set Implicit Arguments.

(** the root of the sum of the squares of all entries of a T x n x P array *)
Definition frobenius (T n P : nat) (g : nat -> nat -> nat -> R) : R :=
  sqrt (Rsum T (fun t => Rsum n (fun k => Rsum P (fun q => (g t k q * g t k q)%R)))).
(** all entries of the arrays differ by less than e *)
Definition entries_close (T n P : nat) (e : R) (a b : RA) : Prop :=
  forall t k q, t < T -> k < n -> q < P -> (Rabs (get3 0%R a t k q - get3 0%R b t k q) < e)%R.
(** the attributes after calls of the setter, raising or not *)
Fixpoint sets (a : atts) (l : list (option (list nat))) : atts := match l with [] => a | y :: l => sets (fst (pulse_setter a y)) l end.
