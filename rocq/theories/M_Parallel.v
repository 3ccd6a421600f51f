(** The optimisers of M_Optimizer as workers of parallel.py.  The state of an optimiser is [ost]; the state of the process
    is its clock.  A result is pickled: arrays it refers to become part of it. *)
Require Import List Arith String.
From Verif Require Import LibBase LibRing LibArr M_Optimizer M_Data.
Import ListNotations.
Open Scope list_scope.
Set Implicit Arguments.
Local Notation length := List.length.

Section Worker.
Variable F : OField.
Notation arrF := (arr (kcar F)).
(** opaque values: arrays, numbers *)
Inductive pyv := PArr (a : arrF) | PNum (x : F) | PNat (n : nat).
Variable W : Type.
Variable simc : arrF -> W -> W * res (list F).
Variable simj : arrF -> W -> W * res arrF.

(** the OptimizationResult built in optimize.py l.443-456, 556-569, 590-603, 612-626 and 345-359; no optimiser passes
    init_parameters.  termination_reason, stats and the optional optimizer are left out (None).  sp: scipy's algorithm *)
Definition result_data (ix : list string) (s : @ost F W) (r : @oresult F) : rdata pyv :=
  let obj o := match o with Some a => VObj (PArr a) | None => VNone _ end in
  mkrd (mkres (obj (r_cost r)) (VStrs _ ix) (obj (r_pars r)) (match r_grad r with Some g => VObj (PNum g) | None => VNone _ end) (VNone _)
     (VObj (PNat (r_iter r))) (VNone _) (VObj (PNat (r_status r))) (VNone _) (VNone _) (VNone _))
   (match r_sum r with None => None
    | Some m => Some (map (fun a => VObj (PArr (Arr [length (cells_of s a)] (cells_of s a)))) (sum_costs m), map (fun p => VObj (PArr (view_of s p))) (sum_pars m)) end).
(** optimizer.run_optimization(initial_pulse) in a worker whose clock shows p; afterwards it shows tick p *)
Definition opt_run (kd : okind) (me : omethod) (cf : @oconf F) (sp : arrF -> @algo F) (ix : list string) (tick : F -> F) (u : arrF) (sp0 : @ost F W * F)
  : (@ost F W * F) * res (rdata pyv) :=
  let '(s, p) := sp0 in
  match run_optimization simc simj kd me cf u p sp s with
  | (s', Ok r) => ((s', tick p), Ok (result_data ix s' r))
  | (s', Err e) => ((s', tick p), Err e)
  end.
End Worker.
