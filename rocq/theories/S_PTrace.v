(** Specification vocabulary for the partial trace: operators on a composite system with subsystem
    dimensions [dims], addressed by multi indices (row major flattening [ravel]). *)
Require Import List Arith.
From Verif Require Import LibRing LibArr LibCplx LibMat S_Linear.
Import ListNotations.
Set Implicit Arguments.

(** the entries of a list at the positions given by another list *)
Definition select (l : list nat) (qs : list nat) : list nat := map (fun q => nth q l 0) qs.

(** M is the product operator of the list As (factor q acts on subsystem q): its entry at two multi
    indices is the product of the entries of the factors *)
Definition is_product_operator {S : StarRing} (dims : list nat) (As : list (mat S)) (M : mat S) : Prop :=
  is_matrix (prodn dims) (prodn dims) M /\
  forall x y, vidx dims x -> vidx dims y ->
    M.[ravel dims x, ravel dims y] =
    lprod (map (fun q => (nth q As (Arr [] [])).[nth q x 0, nth q y 0]) (seq 0 (length dims))).

(** tr(A) of a d x d matrix as a sum of diagonal entries *)
Definition trace_of {S : StarRing} (d : nat) (A : mat S) : S := sumn d (fun i => A.[i,i]).

(** the subsystems that are not removed, in ascending order *)
Definition kept (n : nat) (removed : list nat) : list nat :=
  filter (fun q => negb (existsb (Nat.eqb q) removed)) (seq 0 n).
