(** Theorems about copies of a DataContainer, qopt/data_container.py, property C80 of properties.jsonl.  Statements only; the
    proofs are in P_Copy.v. *)
Require Import List Arith Lia Bool String.
From Verif Require Import LibBase LibRing M_OpHeap M_Data S_Data P_Data P_Data2 P_DataWit M_Copy P_Copy.
Import ListNotations.
Open Scope list_scope.
Open Scope nat_scope.
Set Implicit Arguments.
Local Notation length := List.length.

(** ---------- C80 ---------- *)
(** the copy made by calling the method is equal to the container and shares no list with it *)
Theorem c80_method_partial : forall (V : Type) (objeq : V -> V -> bool) (d : dcont V) h, made objeq d -> closed h -> closed_container h d ->
  exists h3 d', dunder_deepcopy d h = (h ++ h3, Ok d') /\ equal_container h d (h ++ h3) d' /\
    Forall (above (length h)) (attributes d') /\ Forall (Forall (above (length h))) h3.
Proof. exact copy_ok. Qed.
Print Assumptions c80_method_partial.
Theorem c80_original_partial : forall (V : Type) (objeq : V -> V -> bool) (d d' : dcont V) h h3 r h4 x, made objeq d -> closed h -> closed_container h d ->
  dunder_deepcopy d h = (h ++ h3, Ok d') -> append_optim_result objeq d' r (h ++ h3) = (h4, x) -> equal_container h d h4 d.
Proof. exact copy_leaves_original. Qed.
Print Assumptions c80_original_partial.
Theorem c80_copy_partial : forall (V : Type) (objeq : V -> V -> bool) (d d' : dcont V) h h3 r h4 x, made objeq d -> closed h -> closed_container h d ->
  dunder_deepcopy d h = (h ++ h3, Ok d') -> append_optim_result objeq d r (h ++ h3) = (h4, x) -> equal_container h d h4 d'.
Proof. exact original_leaves_copy. Qed.
Print Assumptions c80_copy_partial.
(** copy.deepcopy fails for every container *)
Theorem c80_deepcopy_refuted : forall (V : Type) (d : dcont V) h, deepcopy_container d h = (h, Err TypeError).
Proof. exact deepcopy_fails. Qed.
Print Assumptions c80_deepcopy_refuted.
(** a container with one result, its copy, and a second result appended to the copy *)
Example c80_case : made Nat.eqb dmade /\ closed hmade /\ closed_container hmade dmade /\
  match dunder_deepcopy dmade hmade with
  | (h, Ok d') => match append_optim_result Nat.eqb d' (rA 20 VNone) h with (h4, Ok d4) => dc_len h d' = Ok 1 /\ dc_len h4 d4 = Ok 2 /\ dc_len h4 dmade = Ok 1 | _ => False end
  | _ => False end.
Proof. split; [apply dmade_made|]. split; [apply hmade_closed|]. split; [apply hmade_closed|]. vm_compute. auto. Qed.
