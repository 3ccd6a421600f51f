(** Model of plot_bloch_vector_evolution, plotting.py l.58-125: the points it puts on the Bloch sphere.

    Only what is drawn is modelled: the columns of the array a passed to add_points (l.121).  matplotlib and the look of the sphere are
    not.  qutip.expect(A, psi) of a ket is a parameter-free contract, <psi|A|psi>; what qutip makes of products that are
    not kets (the initial state is documented as a state) is the parameter [other]. *)
Require Import List Arith Bool.
From Verif Require Import LibBase LibRing LibArr LibCplx LibMat M_Matrix.
Import ListNotations.
Open Scope res_scope.
Set Implicit Arguments.

Section Bloch.
Variable F : OField.
Notation C := (cplx F).
Notation S := (CStar F).
Definition point : Type := (F * F * F)%type.
(** what qutip does with an array that is not a ket *)
Variable other : op F -> res point.

(** qt.sigmax(), qt.sigmay(), qt.sigmaz(), l.116 *)
Definition sigmax : op F := Arr [2; 2] [c0; c1; c1; c0].
Definition sigmay : op F := Arr [2; 2] [c0; copp ci; ci; c0].
Definition sigmaz : op F := Arr [2; 2] [c1; c0; c0; copp c1].
(** qt.expect(A, psi) for a ket: the real part of <psi|A|psi> (A is Hermitian) *)
Definition expect_ket (A psi : op F) : F :=
  cre (mg (mmul (S:=S) (mdag (S:=S) psi) (mmul (S:=S) A psi)) 0 0).
(** a[:, i] = [expect(x, state), expect(y, state), expect(z, state)], l.117-120 *)
Definition bloch_point (psi : op F) : res point :=
  if Nat.eqb (nr psi) 2 && Nat.eqb (nc psi) 1 then Ok (expect_ket sigmax psi, expect_ket sigmay psi, expect_ket sigmaz psi) else other psi.
(** plot_bloch_vector_evolution, l.94-121: forward_propagators[0] of an empty list raises IndexError *)
Definition bloch_points (props : list (op F)) (init : op F) : res (list point) :=
  match props with
  | [] => Err IndexError
  | p0 :: _ =>
      check Nat.eqb (nr p0) 2 else ValueError ;;
      states <- mapM (fun prop => op_mul prop (ODense init)) props ;;
      mapM bloch_point states
  end.
End Bloch.
