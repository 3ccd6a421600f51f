(** Specification vocabulary for the symmetries of the simulated evolution (C79). *)
Require Import List Arith Reals.
From Verif Require Import LibBase LibRing LibArr LibCplx LibMat LibDeriv M_Matrix S_Linear S_Deriv S_Exp M_Transfer S_Transfer M_Amplitude S_Amplitude M_Solver S_Solver M_Simulator S_Simulator S_Gradient.
Import ListNotations.
Set Implicit Arguments.
Notation Dr s t := (nth t (s_drift s) dop).
Notation Ct s c := (nth c (c_ctrl (s_conf s)) dop).

(** the solver's method returns the exponentials of the time steps *)
Definition exact_steps (la : LinAlg RField) (n : nat) (s : @st RField) : Prop :=
  forall t (tau : R) u (G E : op RField), nth_error (s_time s) t = Some tau ->
    is_generator (F:=RField) n (Dr s t) (c_ctrl (s_conf s)) u G ->
    op_exp la G (cofk (tau : RField)) (c_meth (s_conf s)) (c_skew (s_conf s)) = Ok E -> is_exponential n (mscale (S:=RS) (cofk (tau : RField)) G) E.
(** a solver of the Schroedinger equation for n levels after some calls, with the control amplitudes u; its propagators and
    its forward propagators, for k initial states (the columns of the initial state) *)
Record evolution (rexp : R -> R) (la : LinAlg RField) (eps : cplx RField) (s : @st RField) (n k : nat) (u : RA) (ps : list (option (op RField))) (fs : list (op RField)) : Prop := mkevo {
  ev_used : exists d s0, used (F:=RField) rexp la eps d s0 s;
  ev_schr : schroedinger (s_conf s);
  ev_square : square_hamiltonians (F:=RField) n s;
  ev_amps : amplitudes (F:=RField) s u;
  ev_init : is_matrix n k (c_init (s_conf s));
  ev_exact : exact_steps la n s;
  ev_props : returns (F:=RField) rexp la eps s SPropag (VProp ps);
  ev_fwd : returns (F:=RField) rexp la eps s SFwd (VOps fs) }.

(** V H = H' V for an m x n matrix V: V carries the Hamiltonian H of n levels to the Hamiltonian H' of m levels *)
Definition carries (m n : nat) (V H H' : mat RS) : Prop :=
  forall i j, i < m -> j < n -> sumn (S:=RS) n (fun l => cmul V.[i,l] H.[l,j]) = sumn (S:=RS) m (fun l => cmul H'.[i,l] V.[l,j]).
(** the amplitudes u' in time step t' are those of u in time step t, for m controls *)
Definition same_row (m : nat) (u : RA) (t : nat) (u' : RA) (t' : nat) : Prop := forall c, c < m -> get2 0%R u t c = get2 0%R u' t' c.
(** <f_a| Q |f_b> for the columns a and b of f *)
Definition expectation (n : nat) (Q f : mat RS) (a b : nat) : RC :=
  sumn (S:=RS) n (fun i => sumn (S:=RS) n (fun j => cmul (cconj f.[i,a]) (cmul Q.[i,j] f.[j,b]))).
(** H' = H + e 1 *)
Definition shifted (n : nat) (e : R) (H H' : mat RS) : Prop :=
  forall i j, i < n -> j < n -> H'.[i,j] = cadd H.[i,j] (cmul (cofk (e : RField)) (delta (S:=RS) i j)).
(** H = c H' for a real number c *)
Definition rescaled (n : nat) (c : R) (H' H : mat RS) : Prop :=
  forall i j, i < n -> j < n -> H.[i,j] = cmul (cofk (c : RField)) H'.[i,j].
(** exp(- i phi) *)
Definition phase (phi : R) : RC := (cos phi, - sin phi)%R.
(** the sum of the first t terms *)
Fixpoint total (f : nat -> R) (t : nat) : R := match t with 0 => 0%R | Datatypes.S t' => (total f t' + f t')%R end.
