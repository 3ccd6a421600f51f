(** Specification vocabulary for the costs of noisy evolutions: what the solver's propagators have to be. *)
Require Import List Arith Reals.
From Verif Require Import LibBase LibRing LibArr LibCplx LibMat LibDeriv M_Matrix S_Linear M_Cost S_Cost S_Channel.
Import ListNotations.
Set Implicit Arguments.

(** forward propagators for several noise traces: at least one trace, none of them empty, all propagators as P says *)
Definition traces_of (P : mat RS -> Prop) (l : list (list (mat RS))) : Prop :=
  l <> [] /\ forall fs, In fs l -> fs <> [] /\ Forall P fs.
(** the propagators LeakageLiouville reads with the flags input_unitary and monte_carlo *)
Definition leak_input (n : nat) (r : @reads RField) (input_unitary monte_carlo : bool) : Prop :=
  let P := if input_unitary then is_unitary (S:=RS) n else channel n in
  if monte_carlo then traces_of P (r_nfwd r) else exists U, is_last (r_fwd r) U /\ P U.
