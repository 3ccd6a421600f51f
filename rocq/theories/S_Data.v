(** Specification for data containers, results, run selection and parallel runs (C53 to C56). *)
Require Import List Arith Bool String.
From Verif Require Import LibBase LibRing M_OpHeap M_Data.
Import ListNotations.
Open Scope list_scope.
Open Scope nat_scope.
Set Implicit Arguments.
Local Notation length := List.length.
Arguments FNum {F}. Arguments FVec {F}. Arguments VNone {V}. Arguments VStr {V}. Arguments VBool {V}. Arguments VStrs {V}. Arguments VRef {V}.

Section Log.
Variable V : Type.
Notation val := (val V).
Notation lheap := (lheap V).
Notation dcont := (dcont V).
Notation ores := (ores V).

(** results as optimisers make them: indices a list of strings, a summary or none *)
Definition result_ok (r : ores) : Prop := (exists l, r_indices r = VStrs l) /\ (r_summary r = VNone \/ exists c p, r_summary r = VSummary c p).
Definition accepts (log : list ores) (r : ores) : Prop := match log with [] => True | q :: _ => r_indices q = r_indices r end.

Definition event_ok (e : dev V) : Prop := match e with ENew _ => True | EAppend _ r => result_ok r end.

(** the results appended to each container *)
Inductive logs : list (dev V) -> list (list ores) -> Prop :=
| logs_nil : logs [] []
| logs_new evs ls : logs evs ls -> logs (evs ++ [ENew V]) (ls ++ [[]])
| logs_append evs ls i r log : logs evs ls -> nth_error ls i = Some log -> accepts log r -> logs (evs ++ [EAppend i r]) (lset ls i (log ++ [r]))
| logs_reject evs ls i r log : logs evs ls -> nth_error ls i = Some log -> ~ accepts log r -> logs (evs ++ [EAppend i r]) ls
| logs_nobody evs ls i r : logs evs ls -> nth_error ls i = None -> logs (evs ++ [EAppend i r]) ls.

Definition list_is (h : lheap) (v : val) (l : list val) : Prop := exists a, v = VRef a /\ nth_error h a = Some l.
(** costs and parameters of a result: the lists of its summary; a list without items if it has none *)
Definition costs_entry (h : lheap) (r : ores) (v : val) : Prop := match r_summary r with VSummary c _ => v = c | _ => list_is h v [] end.
Definition pars_entry (h : lheap) (r : ores) (v : val) : Prop := match r_summary r with VSummary _ p => v = p | _ => list_is h v [] end.
(** the container d holds the results of log, in order *)
Definition holds (h : lheap) (d : dcont) (log : list ores) : Prop :=
  dc_len h d = Ok (length log) /\
  list_is h (d_final_costs d) (map (@r_final_cost V) log) /\ list_is h (d_init d) (map (@r_init V) log) /\ list_is h (d_final d) (map (@r_final V) log) /\
  list_is h (d_status d) (map (@r_stat V) log) /\ list_is h (d_stats d) (map (@r_stats V) log) /\
  (exists cs, list_is h (d_costs d) cs /\ Forall2 (costs_entry h) log cs) /\ (exists ps, list_is h (d_pars d) ps /\ Forall2 (pars_entry h) log ps) /\
  match log with [] => True | r :: _ => d_indices d = r_indices r end.

(** equality of values up to depth n, through lists; [equal_value] is equality of the (possibly circular) values *)
Fixpoint agree (n : nat) (h : lheap) (v : val) (h' : lheap) (v' : val) : Prop :=
  match n with
  | 0 => True
  | S n =>
      match v, v' with
      | VNone, VNone => True | VStr s, VStr t => s = t | VBool b, VBool c => b = c | VStrs l, VStrs m => l = m | VObj x, VObj y => x = y
      | VRef a, VRef b => exists l l', nth_error h a = Some l /\ nth_error h' b = Some l' /\ Forall2 (fun x y => agree n h x h' y) l l'
      | VSummary c p, VSummary c' p' => agree n h c h' c' /\ agree n h p h' p'
      | _, _ => False
      end
  end.
Definition equal_value h v h' v' : Prop := forall n, agree n h v h' v'.
Definition equal_container h (d : dcont) h' (d' : dcont) : Prop :=
  equal_value h (d_storage d) h' (d_storage d') /\ equal_value h (d_file d) h' (d_file d') /\ equal_value h (d_indices d) h' (d_indices d') /\
  equal_value h (d_final_costs d) h' (d_final_costs d') /\ equal_value h (d_init d) h' (d_init d') /\ equal_value h (d_final d) h' (d_final d') /\
  equal_value h (d_costs d) h' (d_costs d') /\ equal_value h (d_pars d) h' (d_pars d') /\ equal_value h (d_status d) h' (d_status d') /\
  equal_value h (d_stats d) h' (d_stats d') /\ equal_value h (d_time d) h' (d_time d').
(** references point to objects *)
Fixpoint closed_val (n : nat) (v : val) : Prop := match v with VRef a => a < n | VSummary c p => closed_val n c /\ closed_val n p | _ => True end.
Definition closed (h : lheap) : Prop := Forall (Forall (closed_val (length h))) h.
Definition attributes (d : dcont) : list val := [d_storage d; d_file d; d_indices d; d_final_costs d; d_init d; d_final d; d_costs d; d_pars d; d_status d; d_stats d; d_time d].
Definition closed_container (h : lheap) (d : dcont) : Prop := Forall (closed_val (length h)) (attributes d).
(** every list of the value is at n or behind *)
Fixpoint above (n : nat) (v : val) : Prop := match v with VRef a => n <= a | VSummary c p => above n c /\ above n p | _ => True end.
(** containers made by the constructor, with results appended; the heap may change in between *)
Inductive made (objeq : V -> V -> bool) : dcont -> Prop :=
| made_new kw h h' d : new_container kw h = (h', Ok d) -> made objeq d
| made_append d d' r h h' : made objeq d -> result_ok r -> append_optim_result objeq d r h = (h', Ok d') -> made objeq d'.
End Log.
Arguments event_ok {V} e.

(** the names a dictionary of a container and of a result may hold *)
Definition container_names : list string := ["storage_path"; "file_name"; "indices"; "final_costs"; "init_parameters"; "final_parameters"; "costs"; "parameters"; "status"; "optimization_stats"; "append_time_to_path"]%string.
Definition result_names : list string := ["final_cost"; "indices"; "final_parameters"; "final_grad_norm"; "init_parameters"; "num_iter"; "termination_reason"; "status"; "optimization_stats"; "optimizer"; "optim_summary"]%string.

(** index of the first smallest entry *)
Definition first_min (F : OField) (l : list F) (i : nat) : Prop :=
  i < length l /\ (forall j, j < length l -> kle (nth i l k0) (nth j l k0)) /\ (forall j, j < i -> klt (nth i l k0) (nth j l k0)).
(** the final costs of a run as a vector, and its sum of squares *)
Definition costs_of (F : OField) (c : fcost F) : list F := match c with FNum x => [x] | FVec l => l end.
Definition total (F : OField) (c : fcost F) : F := sumn (S:=KStar F) (length (costs_of c)) (fun i => kmul (nth i (costs_of c) k0) (nth i (costs_of c) k0)).
(** all numbers, or all vectors of one length *)
Definition uniform (F : OField) (l : list (fcost F)) : Prop := (forall c, In c l -> exists x, c = FNum x) \/ (exists n, forall c, In c l -> exists v, c = FVec v /\ length v = n).
Arguments first_min {F}. Arguments costs_of {F}. Arguments total {F}. Arguments uniform {F}.
Arguments np_argmin {F}. Arguments sq_sum {F}. Arguments n_least_square {F}. Arguments cost_rows {F}. Arguments argmin_from {F}.

Section Parallel.
Variables V O P U : Type.
Variable run : U -> O * P -> (O * P) * res (rdata V).
(** the result r comes from a run with an optimiser in state o and the initial pulse u *)
Definition run_from (o : O) (u : U) (r : rdata V) : Prop := exists p o' p', run u (o, p) = ((o', p'), Ok r).
(** results of this optimiser have these indices; without a summary the attribute is None *)
Definition has_indices (o : O) (ix : list string) : Prop :=
  forall u p o' p' r, run u (o, p) = ((o', p'), Ok r) -> r_indices (q_res r) = VStrs ix /\ (q_sum r = None -> r_summary (q_res r) = VNone).
(** entry i of every list of the container *)
Definition nth_of (h : lheap V) (v : val V) (i : nat) (x : val V) : Prop := exists l, list_is h v l /\ nth_error l i = Some x.
Definition entry_is (h : lheap V) (d : dcont V) (i : nat) (r : rdata V) : Prop :=
  let q := q_res r in
  nth_of h (d_final_costs d) i (r_final_cost q) /\ nth_of h (d_init d) i (r_init q) /\ nth_of h (d_final d) i (r_final q) /\
  nth_of h (d_status d) i (r_stat q) /\ nth_of h (d_stats d) i (r_stats q) /\
  (exists c, nth_of h (d_costs d) i c /\ list_is h c (match q_sum r with Some (cs, _) => cs | None => [] end)) /\
  (exists p, nth_of h (d_pars d) i p /\ list_is h p (match q_sum r with Some (_, ps) => ps | None => [] end)).
End Parallel.
