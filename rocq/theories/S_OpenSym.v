(** Specification vocabulary for the symmetries of the evolution of open systems (C83). *)
Require Import List Arith Reals.
From Verif Require Import LibBase LibRing LibArr LibCplx LibMat LibDeriv M_Matrix S_Linear S_Deriv S_Exp M_Transfer S_Transfer M_Amplitude S_Amplitude M_Solver S_Solver S_Lindblad S_Channel S_Invariance.
Import ListNotations.
Set Implicit Arguments.

(** a LindbladSolver for n levels after some calls, with the control amplitudes u, the dissipation operators Ls and their rates
    w in each time step; its propagators and its forward propagators, for k columns of the initial state *)
Record open_evolution (rexp : R -> R) (la : LinAlg RField) (eps : cplx RField) (s : @st RField) (n k : nat) (Ls : list (mat RS)) (u : RA) (w : nat -> nat -> R)
    (ps : list (option (op RField))) (fs : list (op RField)) : Prop := mkoe {
  oe_used : exists d s0, used (F:=RField) rexp la eps d s0 s;
  oe_class : exists l, c_class (s_conf s) = CLindblad l /\ li_func l = None /\ li_ops l = Some Ls /\ rates (F:=RField) l u (s_tpars s) (length Ls) w;
  oe_ops : Forall (is_matrix (S:=RS) n n : mat RS -> Prop) Ls;
  oe_drift : Forall (is_hermitian (S:=RS) n : mat RS -> Prop) (s_drift s);
  oe_ctrl : Forall (is_hermitian (S:=RS) n : mat RS -> Prop) (c_ctrl (s_conf s));
  oe_amps : amplitudes (F:=RField) s u;
  oe_init : is_matrix (n * n) k (c_init (s_conf s));
  oe_exact : exponentiates la (n * n) s;
  oe_props : returns (F:=RField) rexp la eps s SPropag (VProp ps);
  oe_fwd : returns (F:=RField) rexp la eps s SFwd (VOps fs) }.

(** the right hand side of the master equation in time step t *)
Definition motion (n : nat) (s : @st RField) (Ls : list (mat RS)) (u : RA) (w : nat -> nat -> R) (t : nat) : (nat -> nat -> RC) -> nat -> nat -> RC :=
  master (F:=RField) n (hamiltonian (F:=RField) (Dr s t) (c_ctrl (s_conf s)) (fun c => get2 (k0 : RField) u t c)) Ls (w t).
Notation Lk Ls k := (nth k Ls (Arr [] [])).
(** W rho W^+ *)
Definition turned (n : nat) (W : mat RS) (rho : nat -> nat -> RC) (i j : nat) : RC :=
  Sg n (fun b => Sg n (fun a => cmul (cmul (cconj W.[j,b]) W.[i,a]) (rho a b))).
(** tr (Q rho) *)
Definition mean (n : nat) (Q : mat RS) (rho : nat -> nat -> RC) : RC := Sg n (fun b => Sg n (fun a => cmul Q.[b,a] (rho a b))).
(** L' = z L *)
Definition is_factor (n : nat) (z : RC) (L L' : mat RS) : Prop := forall i j, i < n -> j < n -> L'.[i,j] = cmul z L.[i,j].
(** L' = L + a 1 *)
Definition displaced (n : nat) (a : RC) (L L' : mat RS) : Prop := forall i j, i < n -> j < n -> L'.[i,j] = cadd L.[i,j] (cmul a (delta (S:=RS) i j)).
(** sum_k w_k L_k L_k^+ = sum_k w_k L_k^+ L_k *)
Definition balanced (n : nat) (Ls : list (mat RS)) (w : nat -> R) : Prop := forall i j, i < n -> j < n ->
  Sg (length Ls) (fun k => cmul (cofk (w k : RField)) (Sg n (fun a => cmul (Lk Ls k).[i,a] (cconj (Lk Ls k).[j,a])))) =
  Sg (length Ls) (fun k => cmul (cofk (w k : RField)) (number_op (F:=RField) n (Lk Ls k) i j)).
(** (conj(a) L - a L^+) / (2 i): the Hamiltonian that makes up for displacing L by a *)
Definition compensation (L : mat RS) (a : RC) (i j : nat) : RC :=
  cmul (cofk (kdiv k1 (kofnat 2) : RField)) (cmul (copp ci) (csub (cmul (cconj a) L.[i,j]) (cmul a (cconj L.[j,i])))).
(** f R f^+ for a k x k matrix R *)
Definition mixture (k : nat) (R f : mat RS) (i j : nat) : RC := Sg k (fun b => Sg k (fun a => cmul (cmul (cconj f.[j,b]) f.[i,a]) R.[a,b])).
(** the state in column x of f, which holds states column by column *)
Notation column n f x := (fun a b => (f : mat RS).[b * n + a, x]).
(** both solvers have the same control Hamiltonians, amplitudes, time steps and initial state *)
Record same_setting (s s' : @st RField) (u u' : RA) : Prop := mksame {
  sa_time : s_time s = s_time s';
  sa_ctrl : c_ctrl (s_conf s) = c_ctrl (s_conf s');
  sa_amps : forall t, t < length (s_time s) -> same_row (length (c_ctrl (s_conf s))) u t u' t;
  sa_init : c_init (s_conf s) = c_init (s_conf s') }.
