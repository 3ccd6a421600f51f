(** Specification vocabulary for the gradient by the pulse (C66): the setting of a pulse optimisation. *)
Require Import List Arith Reals.
From Verif Require Import LibBase LibRing LibArr LibCplx LibMat LibDeriv M_Matrix S_Linear S_Deriv S_Exp M_Transfer S_Transfer M_Amplitude S_Amplitude M_Solver S_Solver M_Simulator S_Simulator.
Import ListNotations.
Set Implicit Arguments.
Notation dop := (Arr [] [] : op RField).

(** [s0] is a solver as its constructor returns it for the time steps [tau]; [d] describes the transfer function *)
Definition constructed_on (d : desc RField) (tau : list R) (s0 : @st RField) : Prop :=
  no_custom d /\
  exists cls drift ctrl init amps meth skew calc approx t a udiss,
    build d = Ok t /\ build_solver (F:=RField) cls drift ctrl tau init amps meth skew calc approx t a udiss = Ok s0.

(** whatever the amplitudes are, the solver's method returns the exponential of every time step and its derivative by
    every amplitude *)
Definition exact_exponentials (la : LinAlg RField) (eps : cplx RField) (n : nat) (s0 : @st RField) : Prop :=
  forall t (tau : R) u G, nth_error (s_time s0) t = Some tau ->
    is_generator (F:=RField) n (nth t (s_drift s0) dop) (c_ctrl (s_conf s0)) u G ->
    (forall E, op_exp la G (cofk (tau : RField)) (c_meth (s_conf s0)) (c_skew (s_conf s0)) = Ok E ->
       is_exponential n (mscale (S:=RS) (cofk (tau : RField)) G) E) /\
    (forall c D E X, c < length (c_ctrl (s_conf s0)) -> is_direction (F:=RField) n (nth c (c_ctrl (s_conf s0)) dop) D ->
       op_dexp la G D (cofk (tau : RField)) (c_meth (s_conf s0)) (c_skew (s_conf s0)) eps = Ok (E, X) ->
       is_exp_derivative n (cofk (tau : RField)) G D X).

(** a Schroedinger solver for n x n Hamiltonians and an n x k initial state, exact derivatives, and a transfer function
    that returns its gradient (C19) *)
Record optimised (la : LinAlg RField) (eps : cplx RField) (d : desc RField) (tau : list R) (s0 : @st RField) (n k : nat) : Prop := mkopt {
  o_built : constructed_on d tau s0;
  o_good : good la eps (s_conf s0);
  o_schr : schroedinger (s_conf s0);
  o_approx : c_approx (s_conf s0) = GNone;
  o_matched : matched d;
  o_sym : sym_convs d;
  o_ctrls : 0 < ctrls d;
  o_square : square_hamiltonians n s0;
  o_init : is_matrix n k (c_init (s_conf s0));
  o_exact : exact_exponentials la eps n s0 }.

(** the derivative given to the amplitude function is right at the transferred pulse *)
Definition right_amplitudes (rexp : R -> R) (d : desc RField) (s0 : @st RField) (y : RA) : Prop :=
  forall x, snd (call (F:=RField) rexp (s_tf s0) y) = Ok x ->
    correct_derivative (length (s_time s0)) (ctrls d) (length (c_ctrl (s_conf s0))) (c_amp (s_conf s0)) x.

(** the calls of exp and dexp for the time steps return: numpy and scipy do not raise *)
Definition answering (la : LinAlg RField) (eps : cplx RField) (n : nat) (s0 : @st RField) : Prop :=
  forall t (tau : R) u G, nth_error (s_time s0) t = Some tau ->
    is_generator (F:=RField) n (nth t (s_drift s0) dop) (c_ctrl (s_conf s0)) u G ->
    (exists E, op_exp la G (cofk (tau : RField)) (c_meth (s_conf s0)) (c_skew (s_conf s0)) = Ok E) /\
    (forall c D, c < length (c_ctrl (s_conf s0)) -> is_direction (F:=RField) n (nth c (c_ctrl (s_conf s0)) dop) D ->
       exists EX, op_dexp la G D (cofk (tau : RField)) (c_meth (s_conf s0)) (c_skew (s_conf s0)) eps = Ok EX).

(** what expm and expm_frechet of scipy.linalg promise for n x n matrices *)
Definition scipy_exact (la : LinAlg RField) (n : nat) : Prop :=
  (forall A : op RField, is_matrix n n A -> is_exponential n A (la_expm la A)) /\
  (forall A D : op RField, is_matrix n n A -> is_matrix n n D ->
     is_exp_derivative n c1 A D (snd (la_expm_frechet la A D))).

(** costs() returns a number for every pulse, and [h], the gradient by the pulse, is its derivative at y *)
Definition costs_number (rexp : R -> R) (la : LinAlg RField) (eps : cplx RField) (d : desc RField) (tau : list R) (s0 : @st RField)
    (c : @cfun RField) (phi : RA -> R) : Prop :=
  forall y', wfa [length tau; ctrls d] y' -> costs_at (F:=RField) rexp la eps s0 c y' (scalar RField (phi y')).
Definition is_pulse_gradient (d : desc RField) (tau : list R) (phi : RA -> R) (y h : RA) : Prop :=
  wfa [length tau; 1; ctrls d] h /\ has_gradient (length tau) (ctrls d) phi y (fun t p => get3 0%R h t 0 p).
(** the library calls return, one drift term for every time step, and the transfer function accepts y *)
Definition evaluable (rexp : R -> R) (la : LinAlg RField) (eps : cplx RField) (n : nat) (s0 : @st RField) (y : RA) : Prop :=
  c_class (s_conf s0) = CSchroedinger /\ answering la eps n s0 /\ length (s_drift s0) = length (s_time s0) /\ s_time s0 <> [] /\
  exists x, snd (call (F:=RField) rexp (s_tf s0) y) = Ok x.

(** cost function [c] of a simulator for the new solvers w0 has the gradient that its class returns, for pulses of shape (T, P) *)
Definition differentiable (rexp : R -> R) (la : LinAlg RField) (eps : cplx RField) (w0 : @world RField) (T P : nat) (c : @cfun RField) (y : RA) : Prop :=
  exists s0 d tau phi h, nth_error w0 (cf_solver c) = Some s0 /\ length tau = T /\ ctrls d = P /\
    costs_number rexp la eps d tau s0 c phi /\ gradient_at (F:=RField) rexp la eps s0 c y h /\ is_pulse_gradient d tau phi y h.

(** ---- Monte Carlo solvers (C75) ---- *)
(** whatever the amplitudes and the noise are, the solver's method returns the exponential of every time step and its
    derivative by every amplitude, and the calls return *)
Definition exact_noisy (la : LinAlg RField) (eps : cplx RField) (n : nat) (s0 : @st RField) (ops : list (op RField)) : Prop :=
  forall t (tau : R) u v G, nth_error (s_time s0) t = Some tau ->
    is_noisy_generator (F:=RField) n (nth t (s_drift s0) dop) (c_ctrl (s_conf s0)) u ops v G ->
    (exists E, op_exp la G (cofk (tau : RField)) (c_meth (s_conf s0)) (c_skew (s_conf s0)) = Ok E /\
       is_exponential n (mscale (S:=RS) (cofk (tau : RField)) G) E) /\
    (forall c D, c < length (c_ctrl (s_conf s0)) -> is_direction (F:=RField) n (nth c (c_ctrl (s_conf s0)) dop) D ->
       exists E X, op_dexp la G D (cofk (tau : RField)) (c_meth (s_conf s0)) (c_skew (s_conf s0)) eps = Ok (E, X) /\
         is_exp_derivative n (cofk (tau : RField)) G D X).
(** the noise does not depend on the pulse: noise added to the noise Hamiltonians, or to the parameters if these are the
    control amplitudes *)
Definition pulse_free (s0 : @st RField) (m : @mcconf RField) : Prop :=
  mc_ampf m = NNone \/
  mc_ampf m = NControl /\ c_amp (s_conf s0) = AIdentity /\ length (mc_ops m) = length (c_ctrl (s_conf s0)).
(** a Monte Carlo solver with at least one trace, no multiprocessing; one drift term for every time step *)
Definition noisy (la : LinAlg RField) (eps : cplx RField) (n : nat) (s0 : @st RField) (m : @mcconf RField) : Prop :=
  sampled (F:=RField) n s0 m /\ mc_procs m = PSeq /\ mc_traces m <> 0 /\ exact_noisy la eps n s0 (mc_ops m) /\
  length (s_drift s0) = length (s_time s0) /\ s_time s0 <> [].
(** the computational states exist; [d] is the dimension of their space *)
Definition subspace (n : nat) (cs : option (list nat)) (d : nat) : Prop :=
  match cs with None => d = n | Some l => d = length l /\ l <> [] /\ forall i, In i l -> i < n end.
