(** The classes of qopt/cost_functions.py that offer an analytic gradient, as programs that read their solver
    (see [prog] in M_Simulator.v).  A property that is read twice in a row is read once here; the second read returns
    the cached list (C25).  OperationInfidelity is in M_Simulator.v. *)
Require Import List Arith Bool.
From Verif Require Import LibBase LibRing LibArr LibCplx LibMat M_Matrix M_OpHeap M_Transfer M_Amplitude M_Solver M_Cost M_Simulator.
Import ListNotations.
Open Scope res_scope.
Set Implicit Arguments.

Section Model.
Variable F : OField.
Variable la : LinAlg F.
Notation arrF := (arr (kcar F)).
Notation op := (op F).
Notation prog := (@prog F).

(** StateInfidelity.costs, cost_functions.py l.1017-1026 *)
Definition prog_state_infidelity (target : op) (cs : option (list nat)) (rescale : bool) : prog :=
  PRead SFwd (fun v => match v with
    | VOps fs => PRet (x <- state_infidelity la (only_fwd fs) target cs rescale ;; Ok (scalar F x))
    | _ => PRet (Err TypeError) end).
(** StateInfidelity.grad, l.1028-1038: the properties are read in the order of the keyword arguments *)
Definition prog_state_infidelity_grad (target : op) (cs : option (list nat)) (rescale : bool) : prog :=
  PRead SFwd (fun v => PRead SRev (fun r => PRead SDer (fun d => PRet (match v, d, r with
    | VOps fs, VDer ds, VOps rs => ds' <- cells ds ;; state_infidelity_grad la (mkreads fs rs ds' [] [] [] 0 0 0) target cs rescale
    | _, _, _ => Err TypeError end)))).

(** LeakageError.costs, l.1659-1668 *)
Definition prog_leakage (cs : list nat) : prog :=
  PRead SFwd (fun v => match v with
    | VOps fs => PRet (x <- leakage la (only_fwd fs) cs ;; Ok (scalar F x))
    | _ => PRet (Err TypeError) end).
(** LeakageError.grad, l.1670-1691: the derivatives are read first *)
Definition prog_leakage_grad (cs : list nat) : prog :=
  PRead SDer (fun d => PRead SFwd (fun v => PRead SRev (fun r => PRet (match v, d, r with
    | VOps fs, VDer ds, VOps rs => ds' <- cells ds ;; leakage_grad la (mkreads fs rs ds' [] [] [] 0 0 0) cs
    | _, _, _ => Err TypeError end)))).

(** OperationNoiseInfidelity, l.1319-1454, for a Monte Carlo solver with [K] noise traces (at least one; without traces
    the loops do not read anything), [T] time steps and [C] controls: n_traces, len(transferred_time) and len(h_ctrl) are
    those of the solver and are passed here as numbers.  [neglected] is self.neglect_systematic_errors after l.1379-1383. *)
Definition neglected (target : option op) (neglect : bool) : bool := match target with None => true | Some _ => neglect end.
(** the noiseless propagators are read for the effective target only, l.1396-1400 *)
Definition with_forward (b : bool) (k : list op -> prog) : prog :=
  if b then PRead SFwd (fun v => match v with VOps fs => k fs | _ => PRet (Err TypeError) end) else k [].
(** costs, l.1402-1422 *)
Definition prog_noise_infidelity (K : nat) (target : option op) (cs : option (list nat)) (unit neglect : bool) : prog :=
  with_forward (neglected target neglect) (fun fs => PRead SNFwd (fun v => match v with
    | VNOps fss => PRet (x <- noise_infidelity la (mkreads fs [] [] fss [] [] K 0 0) target cs unit neglect ;; Ok (scalar F x))
    | _ => PRet (Err TypeError) end)).
(** grad, l.1424-1454: forward_propagators_noise, frechet_deriv_propagators_noise and reversed_propagators_noise, then
    frechet_deriv_propagators and reversed_propagators if systematic errors are neglected *)
Definition prog_noise_infidelity_grad (K T C : nat) (target : option op) (cs : option (list nat)) (unit neglect : bool) : prog :=
  with_forward (neglected target neglect) (fun fs =>
  PRead SNFwd (fun v : @sval F => PRead SNDer (fun d : @sval F => PRead SNRev (fun r : @sval F => match v, d, r with
    | VNOps fss, VNDer dss, VNOps rss =>
        if neglected target neglect
        then PRead SDer (fun d0 : @sval F => PRead SRev (fun r0 : @sval F => PRet (match d0, r0 with
          | VDer ds, VOps rs => ds' <- cells ds ;; dss' <- mapM (@cells F) dss ;;
                                noise_infidelity_grad la (mkreads fs rs ds' fss rss dss' K T C) target cs unit neglect
          | _, _ => Err TypeError end)))
        else PRet (dss' <- mapM (@cells F) dss ;; noise_infidelity_grad la (mkreads fs [] [] fss rss dss' K T C) target cs unit neglect)
    | _, _, _ => PRet (Err TypeError) end)))).
End Model.
