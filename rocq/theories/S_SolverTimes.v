(** Specification vocabulary for histories of a solver that change the times (C26). *)
Require Import List.
From Verif Require Import LibBase LibRing LibArr M_Transfer M_Solver S_Solver.
Import ListNotations.
Set Implicit Arguments.

Section Spec.
Variable F : OField.
(** set_optimization_parameters, reading a property or set_times *)
Definition allowed_times (o : @sop F) : Prop := allowed o \/ exists tau, o = STimes tau.
(** no dissipation super operators that are computed only once *)
Definition adapts (c : @sconf F) : Prop := match c_class c with CLindblad l => has_fun l | _ => True end.
(** the parameters set last by [SSet y :: hist] *)
Definition last_set_after (y : arr (kcar F)) (hist : list (@sop F)) : arr (kcar F) := match last_set hist with Some y' => y' | None => y end.
End Spec.
Arguments allowed_times {F}. Arguments adapts {F}. Arguments last_set_after {F}.
