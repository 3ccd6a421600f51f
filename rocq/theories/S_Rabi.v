(** Specification vocabulary for the example of Rabi driving (C87). *)
Require Import List Arith Reals.
From Verif Require Import LibBase LibRing LibArr LibCplx LibMat LibDeriv M_Matrix S_Linear S_Deriv S_Invariance S_Closed.
Import ListNotations.
Set Implicit Arguments.

(** numpy: np.linalg.eig decomposes the operator A of two levels, np.exp is the exponential *)
Definition diagonalises (la : LinAlg RField) (A : mat RS) : Prop := la_cexp la = cexpR /\ is_eigendecomposition (F:=RField) 2 A (fst (la_eig la A)) (snd (la_eig la A)).
(** half of sigma_z times a sign *)
Definition half_z (sign : R) (A : mat RS) : Prop := is_matrix 2 2 A /\ A.[0,0] = ((sign / 2, 0)%R : RC) /\ A.[0,1] = c0 /\ A.[1,0] = c0 /\ A.[1,1] = ((- (sign / 2), 0)%R : RC).
Definition turns (la : LinAlg RField) (sign : R) : Prop := forall A, half_z sign A -> diagonalises la A.
(** [Q] is [P], from time t0 to time t1, seen from a frame rotating with the angular frequency w about the z axis:
    exp(i w t1 sigma_z / 2) P exp(-i w t0 sigma_z / 2) *)
Definition in_frame (w t1 t0 : R) (P Q : mat RS) : Prop := is_matrix 2 2 Q /\
  Q.[0,0] = cmul (phase (- (w * (t1 - t0) / 2))) P.[0,0] /\ Q.[0,1] = cmul (phase (- (w * (t1 + t0) / 2))) P.[0,1] /\
  Q.[1,0] = cmul (phase (w * (t1 + t0) / 2)) P.[1,0] /\ Q.[1,1] = cmul (phase (w * (t1 - t0) / 2)) P.[1,1].
(** [v'] is the state [v] at time t seen from this frame: exp(i w t sigma_z / 2) v *)
Definition ket_in_frame (w t : R) (v v' : mat RS) : Prop := is_matrix 2 1 v' /\
  v'.[0,0] = cmul (phase (- (w * t / 2))) v.[0,0] /\ v'.[1,0] = cmul (phase (w * t / 2)) v.[1,0].
(** <v|v'> *)
Definition overlap (v v' : mat RS) : RC := cadd (cmul (cconj v.[0,0]) v'.[0,0]) (cmul (cconj v.[1,0]) v'.[1,0]).
(** the 2 x 2 matrix with these entries *)
Definition entries (A : mat RS) (a b c d : RC) : Prop := is_matrix 2 2 A /\ A.[0,0] = a /\ A.[0,1] = b /\ A.[1,0] = c /\ A.[1,1] = d.
(** the parameters of the periodic signal: an array of three numbers, or three rows of one number *)
Definition signal_pars (y : RA) (a f p : R) : Prop :=
  (wfa [3] y /\ get1 0%R y 0 = a /\ get1 0%R y 1 = f /\ get1 0%R y 2 = p) \/ (wfa [3; 1] y /\ get2 0%R y 0 0 = a /\ get2 0%R y 1 0 = f /\ get2 0%R y 2 0 = p).
