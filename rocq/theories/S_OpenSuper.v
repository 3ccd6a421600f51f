(** Specification vocabulary for the symmetries of the evolution of open systems whose dissipation is given as super operators
    or by a function (C83). *)
Require Import List Arith Reals.
From Verif Require Import LibBase LibRing LibArr LibCplx LibMat LibDeriv M_Matrix S_Linear S_Deriv S_Exp M_Transfer S_Transfer M_Amplitude S_Amplitude M_Solver S_Solver S_Lindblad S_Channel S_Invariance S_OpenSym.
Import ListNotations.
Set Implicit Arguments.

(** the dissipation of time step t, as a map of states *)
Notation damping := (nat -> (nat -> nat -> RC) -> nat -> nat -> RC).
(** the solver got the super operators Ds as initial_diss_super_op, and multiplies them by the rates w *)
Definition damped_by_operators (n : nat) (s0 s : @st RField) (u : RA) (Di : damping) : Prop := exists l Ds w,
  c_class (s_conf s) = CLindblad l /\ li_func l = None /\ li_ops l = None /\ s_udiss s0 = Some Ds /\ Forall (is_matrix (S:=RS) (n * n) (n * n) : mat RS -> Prop) Ds /\
  rates (F:=RField) l u (s_tpars s) (length Ds) w /\
  forall t rho i j, t < length (s_time s) -> i < n -> j < n -> Di t rho i j = Sg (length Ds) (fun q => cmul (cofk (w t q : RField)) (apply_super (F:=RField) n (nth q Ds (Arr [] [])) rho i j)).
(** the solver got a function super_operator_function (of the amplitudes and the transferred parameters) that returns the super operators Ds, one per time step *)
Definition damped_by_function (n : nat) (s : @st RField) (u : RA) (Di : damping) : Prop := exists l f Ds,
  c_class (s_conf s) = CLindblad l /\ li_func l = Some f /\ f u (s_tpars s) = Ok Ds /\ Forall (is_matrix (S:=RS) (n * n) (n * n) : mat RS -> Prop) Ds /\
  forall t rho i j, t < length (s_time s) -> i < n -> j < n -> Di t rho i j = apply_super (F:=RField) n (nth t Ds (Arr [] [])) rho i j.
(** a LindbladSolver for n levels after some calls, with the control amplitudes u and the dissipation Di given in either way; its
    propagators and its forward propagators, for k columns of the initial state *)
Record super_evolution (rexp : R -> R) (la : LinAlg RField) (eps : cplx RField) (s : @st RField) (n k : nat) (u : RA) (Di : damping)
    (ps : list (option (op RField))) (fs : list (op RField)) : Prop := mkse {
  se_used : exists d s0, used (F:=RField) rexp la eps d s0 s /\ (damped_by_operators n s0 s u Di \/ damped_by_function n s u Di);
  se_drift : Forall (is_hermitian (S:=RS) n : mat RS -> Prop) (s_drift s);
  se_ctrl : Forall (is_hermitian (S:=RS) n : mat RS -> Prop) (c_ctrl (s_conf s));
  se_amps : amplitudes (F:=RField) s u;
  se_init : is_matrix (n * n) k (c_init (s_conf s));
  se_exact : exponentiates la (n * n) s;
  se_props : returns (F:=RField) rexp la eps s SPropag (VProp ps);
  se_fwd : returns (F:=RField) rexp la eps s SFwd (VOps fs) }.
(** -i [H, rho] + Di rho in time step t *)
Definition damped_motion (n : nat) (s : @st RField) (u : RA) (Di : damping) (t : nat) (rho : nat -> nat -> RC) (i j : nat) : RC :=
  cadd (commutation (F:=RField) n (hamiltonian (F:=RField) (Dr s t) (c_ctrl (s_conf s)) (fun c => get2 (k0 : RField) u t c)) rho i j) (Di t rho i j).
