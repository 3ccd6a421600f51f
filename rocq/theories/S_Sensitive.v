(** Specification vocabulary for the sensitivity of the simulated evolution to its parameters (C84). *)
Require Import List Arith Reals.
From Verif Require Import LibBase LibRing LibArr LibCplx LibMat LibNorm LibDeriv M_Matrix S_Linear S_Deriv S_Exp M_Transfer S_Transfer M_Amplitude S_Amplitude M_Solver S_Solver S_Lindblad S_Invariance.
Import ListNotations.
Set Implicit Arguments.

(** the length of a vector *)
Definition size (n : nat) (v : nat -> RC) : R := sqrt (sumn (S:=KStar RField) n (fun i => cnorm2 (v i))).
(** the distance of the states in the columns x of f and f' *)
Definition gap (n : nat) (f f' : mat RS) (x : nat) : R := size n (fun i => csub f.[i,x] f'.[i,x]).
(** no vector becomes longer than K times its length *)
Definition limited (n : nat) (K : R) (M : nat -> nat -> RC) : Prop :=
  (0 <= K)%R /\ forall v, (size n (fun i => sumn (S:=RS) n (fun j => cmul (M i j) (v j))) <= K * size n v)%R.
(** the Hamiltonian in time step t times the duration of the step *)
Definition action (s : @st RField) (u : RA) (t i j : nat) : RC :=
  cmul (cofk (nth t (s_time s) 0%R : RField)) (hamiltonian (F:=RField) (Dr s t) (c_ctrl (s_conf s)) (fun c => get2 (k0 : RField) u t c) i j).
(** all Hamiltonians are Hermitian, one drift Hamiltonian per time step *)
Record hermitian_system (n : nat) (s : @st RField) : Prop := mkhs {
  hs_length : length (s_drift s) = length (s_time s);
  hs_drift : Forall (is_hermitian (S:=RS) n : op RField -> Prop) (s_drift s);
  hs_ctrl : Forall (is_hermitian (S:=RS) n : op RField -> Prop) (c_ctrl (s_conf s)) }.
(** sum_c |u_c - u'_c| h_c for the amplitudes of time step t *)
Definition weighted_change (h : nat -> R) (u u' : RA) (m t : nat) : R := total (fun c => Rabs (get2 0 u t c - get2 0 u' t c) * h c)%R m.
(** the solver's method returns the exponentials of the time steps with noise added to the operators ops *)
Definition exact_noise_steps (la : LinAlg RField) (n : nat) (s : @st RField) (ops : list (op RField)) : Prop :=
  forall t (tau : R) u v (G E : op RField), nth_error (s_time s) t = Some tau ->
    is_noisy_generator (F:=RField) n (Dr s t) (c_ctrl (s_conf s)) u ops v G ->
    op_exp la G (cofk (tau : RField)) (c_meth (s_conf s)) (c_skew (s_conf s)) = Ok E -> is_exponential n (mscale (S:=RS) (cofk (tau : RField)) G) E.
(** sum_o |noise sample of operator o| h_o in time step t of trace j *)
Definition weighted_noise (h : nat -> R) (samples : RA) (m j t : nat) : R := total (fun o => Rabs (get3 0 samples o j t) * h o)%R m.
