(** Specification vocabulary for physical evolutions: super operators (vectorised column by column, S_Lindblad) that
    keep the trace and are completely positive. *)
Require Import List Arith Reals.
From Verif Require Import LibBase LibRing LibArr LibCplx LibMat LibDeriv M_Matrix S_Linear S_Exp M_Solver S_Solver S_Lindblad.
Import ListNotations.
Set Implicit Arguments.

Notation Sg := (sumn (S:=RS)).
(** v^+ rho v for a state rho of an n level system together with a k level system *)
Definition quad (n k : nat) (v : nat -> nat -> RC) (rho : nat -> nat -> nat -> nat -> RC) : RC :=
  Sg n (fun a => Sg k (fun x => Sg n (fun b => Sg k (fun y => cmul (cmul (cconj (v a x)) (rho a x b y)) (v b y))))).
(** rho is positive semidefinite: v^+ rho v is a real number >= 0 for all v *)
Definition positive (n k : nat) (rho : nat -> nat -> nat -> nat -> RC) : Prop :=
  forall v, cim (quad n k v rho) = 0%R /\ (0 <= cre (quad n k v rho))%R.
(** the super operator acts on the first system *)
Definition extend (n : nat) (M : mat RS) (rho : nat -> nat -> nat -> nat -> RC) (i x j y : nat) : RC :=
  apply_super (F:=RField) n M (fun a b => rho a x b y) i j.
Definition completely_positive (n : nat) (M : mat RS) : Prop :=
  forall k rho, positive n k rho -> positive n k (extend n M rho).
Definition trace_preserving (n : nat) (M : mat RS) : Prop :=
  forall rho, Sg n (fun i => apply_super (F:=RField) n M rho i i) = Sg n (fun i => rho i i).
Definition channel (n : nat) (M : mat RS) : Prop :=
  is_matrix (n * n) (n * n) M /\ completely_positive n M /\ trace_preserving n M.
(** density matrices *)
Definition density (n : nat) (rho : nat -> nat -> RC) : Prop :=
  positive n 1 (fun a _ b _ => rho a b) /\ Sg n (fun i => rho i i) = c1.
(** the column v holds rho, column by column *)
Definition vectorised (n : nat) (rho : nat -> nat -> RC) (v : mat RS) : Prop :=
  is_matrix (n * n) 1 v /\ forall a b, a < n -> b < n -> v.[b * n + a, 0] = rho a b.
(** the solver's way of computing exponentials is exact for the generators of its super operators *)
Definition exponentiates (la : LinAlg RField) (n : nat) (s : @st RField) : Prop :=
  forall (G P : mat RS) (tau : R), is_matrix n n G -> op_exp la G (cofk (tau : RField)) (c_meth (s_conf s)) (c_skew (s_conf s)) = Ok P ->
    is_exponential n (mscale (S:=RS) (cofk (tau : RField)) G) P.
(** a LindbladSolver given Hermitian Hamiltonians, dissipation operators, rates >= 0 and time steps >= 0 *)
Definition physical (n : nat) (l : @liconf RField) (s : @st RField) (u : arr R) (w : nat -> nat -> R) : Prop :=
  c_class (s_conf s) = CLindblad l /\ li_func l = None /\
  (exists Ls, li_ops l = Some Ls /\ Forall (is_matrix (S:=RS) n n : mat RS -> Prop) Ls /\ rates (F:=RField) l u (s_tpars s) (length Ls) w /\
     forall t k, t < length (s_time s) -> k < length Ls -> (0 <= w t k)%R) /\
  Forall (is_hermitian (S:=RS) n : mat RS -> Prop) (s_drift s) /\ Forall (is_hermitian (S:=RS) n : mat RS -> Prop) (c_ctrl (s_conf s)) /\
  length (s_time s) <= length (s_drift s) /\ amplitudes (F:=RField) s u /\ Forall (fun tau => 0 <= tau)%R (s_time s).
