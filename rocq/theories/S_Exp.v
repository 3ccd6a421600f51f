(** Specification of the matrix exponential over the reals: E is exp(X) if it is the value at time 1 of a
    solution of Y' = X Y, Y(0) = 1 (derivatives entry by entry, as limits of difference quotients). *)
Require Import List Arith Reals.
From Verif Require Import LibRing LibArr LibCplx LibMat LibDeriv S_Linear.
Set Implicit Arguments.

Definition is_exponential (n : nat) (X E : mat RS) : Prop :=
  exists Y : R -> mat RS,
    (forall s, is_matrix n n (Y s)) /\ is_identity n (Y 0%R) /\
    (forall t i j, i < n -> j < n ->
       cderiv (fun s => (Y s).[i,j]) t (sumn (S:=RS) n (fun k => cmul X.[i,k] (Y t).[k,j]))) /\
    Y 1%R = E.

(** Z = tau * (A + s D), entry by entry *)
Definition is_perturbed (n : nat) (tau : RC) (A D : mat RS) (s : R) (Z : mat RS) : Prop :=
  is_matrix n n Z /\
  forall i j, i < n -> j < n -> Z.[i,j] = cmul tau (cadd A.[i,j] (cmul (cofk (s : RField)) D.[i,j])).

(** dU is the derivative of s -> exp(tau (A + s D)) at s = 0 *)
Definition is_exp_derivative (n : nat) (tau : RC) (A D dU : mat RS) : Prop :=
  is_matrix n n dU /\
  forall Z E : R -> mat RS,
    (forall s, is_perturbed n tau A D s (Z s)) -> (forall s, is_exponential n (Z s) (E s)) ->
    forall i j, i < n -> j < n -> cderiv (fun s => (E s).[i,j]) 0%R dU.[i,j].
