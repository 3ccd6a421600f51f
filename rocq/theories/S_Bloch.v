(** Specification vocabulary for the points on the Bloch sphere (C81); no model functions. *)
Require Import List Arith.
From Verif Require Import LibBase LibRing LibArr LibCplx LibMat M_Matrix S_Linear.
Import ListNotations.
Set Implicit Arguments.
Open Scope k_scope.

Section Spec.
Variable F : OField.
Notation C := (cplx F).
Definition two : F := 1 + 1.
(** <phi|psi> of kets with two entries *)
Definition braket (phi psi : op F) : C := cadd (cmul (cconj phi.[0,0]) psi.[0,0]) (cmul (cconj phi.[1,0]) psi.[1,0]).
(** a normalised ket of a qubit *)
Definition qubit (psi : op F) : Prop := is_matrix (S:=CStar F) 2 1 psi /\ braket psi psi = c1.
Definition on_sphere (p : F * F * F) : Prop := let '(x, y, z) := p in x * x + y * y + z * z = 1.
Definition dot (p q : F * F * F) : F := let '(x, y, z) := p in let '(x', y', z') := q in x * x' + y * y' + z * z'.
(** 2 |psi><psi| = 1 + x sigma_x + y sigma_y + z sigma_z, entry by entry *)
Definition describes (p : F * F * F) (psi : op F) : Prop :=
  let '(x, y, z) := p in
  cmul (cofk two) (cmul psi.[0,0] (cconj psi.[0,0])) = (1 + z, 0) /\
  cmul (cofk two) (cmul psi.[0,0] (cconj psi.[1,0])) = (x, - y) /\
  cmul (cofk two) (cmul psi.[1,0] (cconj psi.[0,0])) = (x, y) /\
  cmul (cofk two) (cmul psi.[1,0] (cconj psi.[1,0])) = (1 - z, 0).
(** a 2 x 2 matrix with orthonormal columns *)
Definition isometry (U : op F) : Prop :=
  is_matrix (S:=CStar F) 2 2 U /\ forall i j, (i < 2)%nat -> (j < 2)%nat -> sumn (S:=CStar F) 2 (fun k => cmul (cconj U.[k,i]) U.[k,j]) = delta (S:=CStar F) i j.
End Spec.
Arguments braket {F}. Arguments qubit {F}. Arguments on_sphere {F}. Arguments dot {F}. Arguments describes {F}. Arguments isometry {F}.
