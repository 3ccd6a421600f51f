(** Specification vocabulary for derivatives of functions of real arrays, on top of the stdlib's
    [derivable_pt_lim]; no model functions. *)
Require Import List Arith Reals.
From Verif Require Import LibRing LibArr LibCplx.
Import ListNotations.
Set Implicit Arguments.

Notation RA := (arr R).
(** entry [t,p] of a real array *)
Definition ent (x : RA) (t p : nat) : R := get2 0%R x t p.
(** sum over k < n *)
Fixpoint Rsum (n : nat) (f : nat -> R) : R :=
  match n with O => 0%R | S n' => (Rsum n' f + f n')%R end.

(** c is a curve of T x P arrays through x at time 0, and v holds the velocities of its entries there *)
Definition curve_at (T P : nat) (x : RA) (c : R -> RA) (v : nat -> nat -> R) : Prop :=
  c 0%R = x /\ (forall s, wfa [T; P] (c s)) /\
  forall t p, t < T -> p < P -> derivable_pt_lim (fun s => ent (c s) t p) 0 (v t p).

(** g is the gradient of f at the T x P array x: along every curve through x the derivative of f is the
    sum of g times the velocity *)
Definition has_gradient (T P : nat) (f : RA -> R) (x : RA) (g : nat -> nat -> R) : Prop :=
  forall c v, curve_at T P x c v ->
    derivable_pt_lim (fun s => f (c s)) 0 (Rsum T (fun t => Rsum P (fun p => (g t p * v t p)%R))).

(** the array x with s added to entry [t0,p0] *)
Definition bump (T P : nat) (x : RA) (t0 p0 : nat) (s : R) : RA :=
  mk2 T P (fun t p => if (Nat.eqb t t0 && Nat.eqb p p0)%bool then (ent x t p + s)%R else ent x t p).

(** g is the partial derivative of f by entry [t,p] at x *)
Definition is_partial (T P : nat) (f : RA -> R) (x : RA) (t p : nat) (g : R) : Prop :=
  derivable_pt_lim (fun s => f (bump T P x t p s)) 0 g.
