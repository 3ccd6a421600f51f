(** Model of the class StateInfidelitySubspace of qopt/cost_functions.py (l.1041-1106).  The functions it calls, l.551-700, are in
    M_Cost; [set_iter] and [tol] are their parameters.  The solver is what it returns when it is read, see [reads] in M_Cost. *)
Require Import List Arith.
From Verif Require Import LibBase LibRing LibArr LibCplx LibMat M_Matrix M_OpHeap M_Transfer M_Amplitude M_Solver M_Cost M_Simulator.
Import ListNotations.
Open Scope res_scope.
Set Implicit Arguments.

Section M.
Variable F : OField.
Notation op := (op F).
Notation arrF := (arr F).
Variable set_iter : list nat -> list nat.
Variable tol : F.

(** costs, l.1085-1094; __init__, l.1065-1083, turns the target into a bra *)
Definition state_infidelity_part (r : reads F) (target : op) (dims remove : list nat) : res F :=
  l <- idx_last (r_fwd r) ;; f <- state_fidelity_subspace set_iter tol (as_bra target) l dims remove ;; Ok (ksub k1 f).
(** grad, l.1096-1106 *)
Definition state_infidelity_part_grad (r : reads F) (target : op) (dims remove : list nat) : res arrF :=
  g <- derivative_state_fidelity_subspace set_iter (as_bra target) (r_fwd r) (r_der r) (r_rev r) dims remove ;; Ok (neg_arr g).
(** costs and grad as programs that read their solver (see [prog] in M_Simulator.v), l.1085-1094, 1096-1106 *)
Definition prog_state_part (target : op) (dims remove : list nat) : @prog F :=
  PRead SFwd (fun v => match v with
    | VOps fs => PRet (x <- state_infidelity_part (only_fwd fs) target dims remove ;; Ok (scalar F x))
    | _ => PRet (Err TypeError) end).
Definition prog_state_part_grad (target : op) (dims remove : list nat) : @prog F :=
  PRead SFwd (fun v => PRead SRev (fun r => PRead SDer (fun d => PRet (match v, d, r with
    | VOps fs, VDer ds, VOps rs => ds' <- cells ds ;; state_infidelity_part_grad (mkreads fs rs ds' [] [] [] 0 0 0) target dims remove
    | _, _, _ => Err TypeError end)))).
End M.
