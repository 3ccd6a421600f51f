(** Specification vocabulary for gradients: a propagator that depends on the control amplitudes. *)
Require Import List Arith Reals.
From Verif Require Import LibBase LibRing LibArr LibCplx LibMat LibDeriv M_Matrix S_Linear S_Deriv M_Cost S_Cost.
Import ListNotations.
Set Implicit Arguments.
Notation rop := (op RField).

(** what a solver with T time steps and Cn controls returns: T + 1 forward propagators (n x k), T + 1 reversed
    propagators and for each control the T derivatives of the time step propagators (n x n) *)
Definition propagator_lists (n k T Cn : nat) (fwd : list rop) (ders : list (list rop)) (revs : list rop) : Prop :=
  length fwd = S T /\ Forall (is_matrix n k) fwd /\ length revs = S T /\ Forall (is_matrix n n) revs /\
  length ders = Cn /\ Cn <> 0 /\ Forall (fun row : list rop => length row = T /\ Forall (is_matrix n n) row) ders.
(** Y h is the final propagator along a curve on which the amplitudes [t, c] have the velocities v t c at h = a: its value at
    a is the last forward propagator and its derivative at a is the sum over t and c of
    v t c (propagation after step t) (derivative of step t by amplitude c) (propagation up to step t) *)
Definition final_propagator (n k T Cn : nat) (fwd : list rop) (ders : list (list rop)) (revs : list rop) (v : nat -> nat -> R) (Y : R -> rop) (a : R) : Prop :=
  (forall h, is_matrix n k (Y h)) /\ is_last fwd (Y a) /\
  exists Z : nat -> nat -> rop,
    (forall t c, t < T -> c < Cn -> exists row D Rt f W, nth_error ders c = Some row /\ nth_error row t = Some D /\
       nth_error (rev revs) (S t) = Some Rt /\ nth_error fwd t = Some f /\ is_product n n k D f W /\ is_product n n k Rt W (Z t c)) /\
    forall i j, i < n -> j < k -> cderiv (fun h => (Y h).[i,j]) a
      (sumn (S:=RS) T (fun t => sumn (S:=RS) Cn (fun c => cmul (cofk (v t c : RField)) (Z t c).[i,j]))).
(** the amplitude [t0, c0] moves with velocity 1, all others stay *)
Definition only (t0 c0 t c : nat) : R := if (Nat.eqb t t0 && Nat.eqb c c0)%bool then 1%R else 0%R.
(** g is a T x Cn array: along every curve the derivative of the quantity q is the sum of g[t, c] times the velocity of
    amplitude [t, c], however the propagator depends on the amplitudes *)
Definition is_gradient (n k T Cn : nat) (fwd : list rop) (ders : list (list rop)) (revs : list rop) (q : rop -> R -> Prop) (g : arr (kcar RField)) : Prop :=
  wfa [T; Cn] g /\
  forall v Y a w, final_propagator n k T Cn fwd ders revs v Y a -> (forall h, q (Y h) (w h)) ->
    derivable_pt_lim w a (Rsum T (fun t => Rsum Cn (fun c => (get2 0%R g t c * v t c)%R))).
(** v is the value of the cost function for solvers with the final propagator U *)
Definition cost_at (cost : reads RField -> res (kcar RField)) (U : rop) (v : R) : Prop := forall r, is_last (r_fwd r) U -> cost r = Ok v.
