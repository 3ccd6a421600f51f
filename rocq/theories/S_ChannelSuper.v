(** Specification vocabulary for Lindblad solvers that are given their dissipation as super operators (C67). *)
Require Import List Arith Reals.
From Verif Require Import LibBase LibRing LibArr LibCplx LibMat LibDeriv M_Matrix S_Linear S_Exp M_Solver S_Solver S_Lindblad S_Channel.
Import ListNotations.
Set Implicit Arguments.

(** the super operator D is a dissipation: sum_k v_k (L_k rho L_k^+ - {L_k^+ L_k, rho} / 2) for some operators L_k and rates v_k >= 0 *)
Definition dissipative (n : nat) (D : mat RS) : Prop := is_matrix (n * n) (n * n) D /\ exists (Ls : list (mat RS)) (v : nat -> R),
  (forall k, k < length Ls -> (0 <= v k)%R) /\
  forall rho i j, i < n -> j < n -> apply_super (F:=RField) n D rho i j = Sg (length Ls) (fun k => cmul (cofk (v k : RField)) (dissipation (F:=RField) n (nth k Ls (Arr [] [])) rho i j)).
(** a LindbladSolver with Hermitian Hamiltonians and time steps >= 0 *)
Definition closed_part (n : nat) (l : @liconf RField) (s : @st RField) (u : arr R) : Prop :=
  c_class (s_conf s) = CLindblad l /\
  Forall (is_hermitian (S:=RS) n : mat RS -> Prop) (s_drift s) /\ Forall (is_hermitian (S:=RS) n : mat RS -> Prop) (c_ctrl (s_conf s)) /\
  length (s_time s) <= length (s_drift s) /\ amplitudes (F:=RField) s u /\ Forall (fun tau => 0 <= tau)%R (s_time s).
(** its dissipation is given by super operators, with rates >= 0 *)
Definition given_super (n : nat) (l : @liconf RField) (s0 s : @st RField) (u : arr R) (w : nat -> nat -> R) : Prop :=
  li_func l = None /\ li_ops l = None /\ exists Ds, s_udiss s0 = Some Ds /\ Forall (dissipative n) Ds /\ rates (F:=RField) l u (s_tpars s) (length Ds) w /\
  forall t k, t < length (s_time s) -> k < length Ds -> (0 <= w t k)%R.
(** its dissipation is given by a function of the amplitudes and the transferred parameters, which returns a super operator
    for every time step *)
Definition given_function (n : nat) (l : @liconf RField) (s : @st RField) (u : arr R) : Prop :=
  exists f Ds, li_func l = Some f /\ f u (s_tpars s) = Ok Ds /\ Forall (dissipative n) Ds /\ length (s_time s) <= length Ds.
