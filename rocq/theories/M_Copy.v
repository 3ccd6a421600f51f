(** Model of DataContainer.__deepcopy__, data_container.py l.222-236, and of copy.deepcopy applied to a container. *)
Require Import List Arith Bool String.
From Verif Require Import LibBase LibRing M_OpHeap M_Data.
Import ListNotations.
Open Scope string_scope.
Open Scope list_scope.
Set Implicit Arguments.
Local Notation length := List.length.

Section Copy.
Variable V : Type.
Notation val := (val V).
Notation lheap := (lheap V).
Notation kwargs := (kwargs V).
Notation dcont := (dcont V).

(** copy.deepcopy(v) for a value v whose objects are in h0: new objects with the same items and the same sharing, behind
    the objects of h.  Like for pickle (M_Data, load), the objects of h0 that v does not refer to are copied as well, which
    nobody can observe; opaque values are equal to their copies. *)
Definition deepcopy (h0 : lheap) (v : val) (h : lheap) : lheap * val :=
  (h ++ map (map (shift (length h))) h0, shift (length h) v).
(** the keyword arguments final_costs=copy.deepcopy(self.final_costs), ..., evaluated in order, l.223-235 *)
Fixpoint copy_kwargs (h0 : lheap) (kw : kwargs) (h : lheap) : lheap * kwargs :=
  match kw with
  | [] => (h, [])
  | (n, v) :: kw' => let '(h1, w) := deepcopy h0 v h in let '(h2, kw2) := copy_kwargs h0 kw' h1 in (h2, (n, w) :: kw2)
  end.
(** the attributes in the order of the call, l.223-235 *)
Definition copy_args (d : dcont) : kwargs :=
  [("final_costs", d_final_costs d); ("indices", d_indices d); ("init_parameters", d_init d); ("final_parameters", d_final d);
   ("costs", d_costs d); ("parameters", d_pars d); ("status", d_status d); ("storage_path", d_storage d); ("file_name", d_file d);
   ("optimization_stats", d_stats d); ("append_time_to_path", d_time d)].
(** container.__deepcopy__(), l.222-236 *)
Definition dunder_deepcopy (d : dcont) (h : lheap) : lheap * res dcont :=
  let '(h1, kw) := copy_kwargs h (copy_args d) h in new_container kw h1.
(** number of arguments __deepcopy__ takes besides self, l.222 *)
Definition dunder_arity : nat := 0.
(** a method called with [given] positional arguments: python raises TypeError unless it takes that many *)
Definition call_method {T} (arity given : nat) (h : lheap) (body : lheap -> lheap * res T) : lheap * res T :=
  if Nat.eqb arity given then body h else (h, Err TypeError).
(** copy.deepcopy(container): the standard library calls container.__deepcopy__(memo), with one argument *)
Definition deepcopy_container (d : dcont) (h : lheap) : lheap * res dcont := call_method dunder_arity 1 h (dunder_deepcopy d).
End Copy.
