(** Specification vocabulary for the deprecated derivatives of cost_functions.py *)
Require Import List Arith.
From Verif Require Import LibBase LibRing LibArr LibCplx LibMat M_Matrix S_Linear.
Import ListNotations.
Set Implicit Arguments.

Section S.
Variable F : OField.
Notation op := (op F).
(** fwd and revs are the forward and the reversed propagators of an evolution with the time step propagators ps:
    fwd[t + 1] = ps[t] fwd[t], revs[0] = 1 and revs[k + 1] = revs[k] ps[T - 1 - k] *)
Definition evolution (n : nat) (ps fwd revs : list op) : Prop :=
  Forall (is_matrix n n) ps /\
  (forall t p f f', nth_error ps t = Some p -> nth_error fwd t = Some f -> nth_error fwd (S t) = Some f' -> is_product n n n p f f') /\
  (exists r0, nth_error revs 0 = Some r0 /\ is_identity n r0) /\
  (forall k p r r', nth_error (rev ps) k = Some p -> nth_error revs k = Some r -> nth_error revs (S k) = Some r' -> is_product n n n r p r').
(** the derivatives ders[ctrl][t] as an array indexed [t, ctrl] *)
Definition array_of (T Cn : nat) (ders : list (list op)) (dus : arr op) : Prop :=
  wfa [T; Cn] dus /\ forall t c row d x, nth_error ders c = Some row -> nth_error row t = Some d -> get2 x dus t c = d.
(** the complex T x Cn array a has the entries x t c, which are real *)
Definition real_entries (T Cn : nat) (a : arr (cplx F)) (x : nat -> nat -> F) : Prop :=
  wfa [T; Cn] a /\ forall t c, t < T -> c < Cn -> get2 c0 a t c = cofk (x t c).
(** the grape approximation of the derivative of one time step: D = -i dt H P *)
Definition grape_derivative (n : nat) (dt : F) (H P D : op) : Prop :=
  is_matrix n n D /\ forall i j, i < n -> j < n -> D.[i,j] = cmul (cmul (copp ci) (cofk dt)) (sumn (S:=CStar F) n (fun k => cmul H.[i,k] P.[k,j])).
End S.
