(** Specification of amplitude functions: what it means that the derivative function given by the user
    is correct. *)
Require Import List Arith Reals.
From Verif Require Import LibBase LibRing LibArr LibCplx S_Deriv M_Amplitude.
Import ListNotations.
Set Implicit Arguments.

(** At the T x P array x the value is a T x C array, and the array of derivatives describes it: the
    amplitudes of time step t depend on the parameters of time step t only, and entry [t,p,c] of the
    derivative array is the derivative of amplitude [t,c] by parameter [t,p]. *)
Definition correct_derivative (T P C : nat) (a : amp RField) (x : RA) : Prop :=
  match a with
  | AIdentity => P = C
  | AUnary f df => P = C /\ forall t p, t < T -> p < P -> derivable_pt_lim f (ent x t p) (df (ent x t p))
  | ACustom f df =>
      (forall y, wfa [T; P] y -> exists u, f y = Ok u /\ wfa [T; C] u) /\
      exists d, df x = Ok d /\ wfa [T; P; C] d /\
        forall c v, curve_at T P x c v ->
          forall t k, t < T -> k < C ->
            derivable_pt_lim (fun s => match f (c s) with Ok u => ent u t k | Err _ => 0%R end) 0
              (Rsum P (fun p => (get3 0%R d t p k * v t p)%R))
  end.

(** f after the amplitude function, as function of the optimisation parameters *)
Definition after_amp (a : amp RField) (f : RA -> R) (y : RA) : R :=
  match amp_call a y with Ok u => f u | Err _ => 0%R end.
