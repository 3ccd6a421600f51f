(** Model of data_container.py and optimization_data.py, of analyser.py l.68-86 and of parallel.py l.79-110.

    Python lists that the code appends to are heap objects (a list of their items); everything else a container or
    a result holds is a value.  Lists of strings (cost indices) are values: nothing appends to them.
    Numpy arrays, numbers and statistics objects are opaque values of type V; the code does not look into them. *)
Require Import List Arith Bool String Ascii.
From Verif Require Import LibBase LibRing M_OpHeap M_Pool.
Import ListNotations.
Open Scope string_scope.
Open Scope list_scope.
Open Scope res_scope.
Set Implicit Arguments.
Local Notation length := List.length.

Section Data.
Variable V : Type.
(** ==; for objects given by the client *)
Variable objeq : V -> V -> bool.

(** VSummary: an OptimizationSummary with its attributes costs and parameters (references to lists); the other
    attributes are not used here *)
Inductive val := VNone | VStr (s : string) | VBool (b : bool) | VStrs (l : list string) | VRef (a : nat) | VObj (v : V) | VSummary (costs pars : val).
Definition lheap := list (list val).
Definition items (h : lheap) (a : nat) : list val := nth a h [].

(** keyword arguments and dictionaries, in order of insertion *)
Definition kwargs := list (string * val).
Fixpoint kget (k : kwargs) (n : string) : option val := match k with [] => None | (m, v) :: k' => if String.eqb m n then Some v else kget k' n end.
(** binding keyword arguments to parameters with defaults; an unknown name raises TypeError *)
Definition bind_args (params kw : kwargs) : res (list val) :=
  if forallb (fun p => existsb (fun q => String.eqb (fst q) (fst p)) params) kw
  then Ok (map (fun q => match kget kw (fst q) with Some v => v | None => snd q end) params)
  else Err TypeError.
Definition arg (l : list val) (i : nat) : val := nth i l VNone.

(** ---- DataContainer ---- *)
Record dcont := mkdc { d_storage : val; d_file : val; d_indices : val; d_final_costs : val; d_init : val; d_final : val;
  d_costs : val; d_pars : val; d_status : val; d_stats : val; d_time : val }.
(** parameters of DataContainer.__init__, data_container.py l.113-124 *)
Definition dc_params : kwargs := [("storage_path", VNone); ("file_name", VStr "Temp File"); ("indices", VNone); ("final_costs", VNone);
  ("init_parameters", VNone); ("final_parameters", VNone); ("costs", VNone); ("parameters", VNone); ("status", VNone);
  ("optimization_stats", VNone); ("append_time_to_path", VBool true)].
(** [] if x is None else x, l.130-140 *)
Definition or_new (h : lheap) (v : val) : lheap * val := match v with VNone => (h ++ [[]], VRef (length h)) | _ => (h, v) end.
(** the default storage path, l.126-128 *)
Definition default_path : string := "data_container.py/..\..\temp".
(** DataContainer.__init__, l.113-148; the new empty list of indices is a value *)
Definition new_container (kw : kwargs) (h : lheap) : lheap * res dcont :=
  match bind_args dc_params kw with
  | Err e => (h, Err e)
  | Ok l =>
      let path := match arg l 0 with VNone => VStr default_path | v => v end in
      let '(h, fc) := or_new h (arg l 3) in
      let ix := match arg l 2 with VNone => VStrs [] | v => v end in
      let '(h, ip) := or_new h (arg l 4) in
      let '(h, fp) := or_new h (arg l 5) in
      let '(h, co) := or_new h (arg l 6) in
      let '(h, pa) := or_new h (arg l 7) in
      let '(h, st) := or_new h (arg l 8) in
      let '(h, os) := or_new h (arg l 9) in
      (h, Ok (mkdc path (arg l 1) ix fc ip fp co pa st os (arg l 10)))
  end.
(** len(x) *)
Definition py_len (h : lheap) (v : val) : res nat :=
  match v with VRef a => Ok (length (items h a)) | VStrs l => Ok (length l) | VStr s => Ok (String.length s) | _ => Err TypeError end.
(** DataContainer.__len__, l.150-162 *)
Definition dc_len (h : lheap) (d : dcont) : res nat := match d_costs d with VNone => Ok 0 | v => py_len h v end.
(** x.append(v) *)
Definition py_append (x v : val) (h : lheap) : lheap * res unit :=
  match x with VRef a => (lset h a (items h a ++ [v]), Ok tt) | _ => (h, Err AttributeError) end.
(** x == y.  Lists compare their items (items that are lists by identity). *)
Fixpoint strs_eqb (l m : list string) : bool := match l, m with [], [] => true | x :: l', y :: m' => String.eqb x y && strs_eqb l' m' | _, _ => false end.
Fixpoint atom_eqb (x y : val) : bool :=
  match x, y with
  | VNone, VNone => true | VStr s, VStr t => String.eqb s t | VBool b, VBool c => Bool.eqb b c | VStrs l, VStrs m => strs_eqb l m
  | VRef a, VRef b => Nat.eqb a b | VObj v, VObj w => objeq v w | VSummary c p, VSummary c' p' => atom_eqb c c' && atom_eqb p p' | _, _ => false end.
Fixpoint list_eqb (l m : list val) : bool := match l, m with [], [] => true | x :: l', y :: m' => atom_eqb x y && list_eqb l' m' | _, _ => false end.
Definition py_eqb (h : lheap) (x y : val) : bool :=
  match x, y with VRef a, VRef b => Nat.eqb a b || list_eqb (items h a) (items h b) | _, _ => atom_eqb x y end.

(** ---- OptimizationResult, optimization_data.py l.108-133 ---- *)
Record ores := mkres { r_final_cost : val; r_indices : val; r_final : val; r_grad_norm : val; r_init : val; r_num_iter : val;
  r_reason : val; r_stat : val; r_stats : val; r_optimizer : val; r_summary : val }.
Definition res_params : kwargs := [("final_cost", VNone); ("indices", VNone); ("final_parameters", VNone); ("final_grad_norm", VNone);
  ("init_parameters", VNone); ("num_iter", VNone); ("termination_reason", VStr "not started yet"); ("status", VNone);
  ("optimization_stats", VNone); ("optimizer", VNone); ("optim_summary", VNone)].
Definition new_result (kw : kwargs) : res ores :=
  l <- bind_args res_params kw ;;
  Ok (mkres (arg l 0) (arg l 1) (arg l 2) (arg l 3) (arg l 4) (arg l 5) (arg l 6) (arg l 7) (arg l 8) (arg l 9) (arg l 10)).
(** OptimizationResult.to_dict, l.135-154 *)
Definition result_to_dict (r : ores) : kwargs :=
  [("final_cost", r_final_cost r); ("indices", r_indices r); ("final_parameters", r_final r); ("final_grad_norm", r_grad_norm r);
   ("init_parameters", r_init r); ("num_iter", r_num_iter r); ("termination_reason", r_reason r); ("optimizer", r_optimizer r);
   ("optimization_stats", r_stats r); ("optim_summary", r_summary r)].
(** OptimizationResult.from_dict, l.156-171 *)
Definition result_from_dict (k : kwargs) : res ores := new_result k.

(** DataContainer._append, data_container.py l.203-220: the attribute indices of the container and the lists it refers to *)
Definition dc_append (d : dcont) (fc ix ip fp co pa st os : val) (h : lheap) : lheap * res dcont :=
  match dc_len h d with
  | Err e => (h, Err e)
  | Ok n =>
      let go d' h0 :=
        fold_left (fun (acc : lheap * res dcont) (p : val * val) =>
          match snd acc with Err _ => acc | Ok d => match py_append (fst p) (snd p) (fst acc) with (h', Ok _) => (h', Ok d) | (h', Err e) => (h', Err e) end end)
          [(d_final_costs d', fc); (d_init d', ip); (d_final d', fp); (d_costs d', co); (d_pars d', pa); (d_status d', st); (d_stats d', os)] (h0, Ok d') in
      if Nat.eqb n 0 then go (mkdc (d_storage d) (d_file d) ix (d_final_costs d) (d_init d) (d_final d) (d_costs d) (d_pars d) (d_status d) (d_stats d) (d_time d)) h
      else if py_eqb h (d_indices d) ix then go d h else (h, Err AssertionError)
  end.
(** DataContainer.append_optim_result, l.172-201 *)
Definition append_optim_result (d : dcont) (r : ores) (h : lheap) : lheap * res dcont :=
  match r_summary r with
  | VNone => dc_append d (r_final_cost r) (r_indices r) (r_init r) (r_final r) (VRef (length h)) (VRef (Datatypes.S (length h))) (r_stat r) (r_stats r) (h ++ [[]; []])
  | VSummary c p => dc_append d (r_final_cost r) (r_indices r) (r_init r) (r_final r) c p (r_stat r) (r_stats r) h
  | _ => (h, Err AttributeError)
  end.

(** ---- serialisation ---- *)
(** DataContainer._to_dict, l.271-282 *)
Definition dc_to_dict (d : dcont) : kwargs :=
  [("final_costs", d_final_costs d); ("indices", d_indices d); ("init_parameters", d_init d); ("final_parameters", d_final d);
   ("costs", d_costs d); ("parameters", d_pars d); ("status", d_status d); ("storage_path", d_storage d); ("file_name", d_file d);
   ("append_time_to_path", d_time d); ("optimization_stats", d_stats d)].
(** DataContainer._from_dict, l.284-286 *)
Definition dc_from_dict (k : kwargs) (h : lheap) : lheap * res dcont := new_container k h.

(** pickle.dump stores the value with everything it refers to; pickle.load builds new objects with the same items and the
    same sharing.  A file holds the dictionary and the heap at the time of the dump; loading puts that heap behind the
    existing objects (objects not referred to are harmless).  Opaque values are equal after loading. *)
Fixpoint shift (n : nat) (v : val) : val := match v with VRef a => VRef (a + n) | VSummary c p => VSummary (shift n c) (shift n p) | _ => v end.
Definition files := list (string * (kwargs * lheap)).
Fixpoint fget (fs : files) (n : string) : option (kwargs * lheap) := match fs with [] => None | (m, x) :: fs' => if String.eqb m n then Some x else fget fs' n end.
Definition load (x : kwargs * lheap) (h : lheap) : lheap * kwargs :=
  (h ++ map (map (shift (length h))) (snd x), map (fun p => (fst p, shift (length h) (snd p))) (fst x)).

(** os.path.join(a, b) on a posix system *)
Definition slash : ascii := "/"%char.
Fixpoint ends_slash (s : string) : bool := match s with EmptyString => false | String c EmptyString => Ascii.eqb c slash | String _ s' => ends_slash s' end.
Definition path_join (a b : string) : string :=
  match b with
  | String c _ => if Ascii.eqb c slash then b else if (String.eqb a "" || ends_slash a)%bool then (a ++ b)%string else (a ++ "/" ++ b)%string
  | EmptyString => if (String.eqb a "" || ends_slash a)%bool then a else (a ++ "/")%string
  end.
(** the file name DataContainer.to_pickle uses, l.247-251 *)
Definition pickle_name (d : dcont) (filename : val) : res string :=
  match filename with
  | VNone => match d_file d with
             | VNone => match d_storage d with VStr s => Ok s | _ => Err TypeError end
             | VStr f => match d_storage d with VStr s => Ok (path_join s f) | _ => Err TypeError end
             | _ => Err TypeError end
  | VStr s => Ok s
  | _ => Err TypeError
  end.
(** DataContainer.to_pickle, l.238-254; may_write: open(filename, 'wb') succeeds *)
Definition to_pickle (may_write : string -> bool) (d : dcont) (filename : val) (h : lheap) (fs : files) : files * res unit :=
  match pickle_name d filename with
  | Err e => (fs, Err e)
  | Ok s => if may_write s then ((s, (dc_to_dict d, h)) :: fs, Ok tt) else (fs, Err PyException)
  end.
(** DataContainer.from_pickle, l.256-269 *)
Definition from_pickle (filename : string) (fs : files) (h : lheap) : lheap * res dcont :=
  match fget fs filename with
  | None => (h, Err PyException)
  | Some x => let '(h', k) := load x h in dc_from_dict k h'
  end.
(** ---- histories: containers made without arguments, results appended; also rejected ones ---- *)
Inductive dev := ENew | EAppend (i : nat) (r : ores).
Definition dstate := (lheap * list dcont)%type.
Definition dstep (s : dstate) (e : dev) : dstate :=
  match e with
  | ENew => match new_container [] (fst s) with (h, Ok d) => (h, snd s ++ [d]) | (h, Err _) => (h, snd s) end
  | EAppend i r => match nth_error (snd s) i with
                   | None => s
                   | Some d => match append_optim_result d r (fst s) with (h, Ok d') => (h, lset (snd s) i d') | (h, Err _) => (h, snd s) end
                   end
  end.
Definition drun (evs : list dev) : dstate := fold_left dstep evs ([], []).
End Data.

(** ---- Analyser.n_least_square, analyser.py l.68-86 ---- *)
Section Analyser.
Variable F : OField.
(** a final cost is a number or a vector *)
Inductive fcost := FNum (x : F) | FVec (l : list F).
(** np.asarray(final_costs), with a number as a vector of length one when all are numbers (l.82-84); items of different
    shapes raise ValueError *)
Definition cost_rows (l : list fcost) : res (list (list F)) :=
  match l with
  | [] => Ok []
  | FNum _ :: _ => mapM (fun c => match c with FNum x => Ok [x] | FVec _ => Err ValueError end) l
  | FVec v :: _ => mapM (fun c => match c with FVec w => if Nat.eqb (length w) (length v) then Ok w else Err ValueError | FNum _ => Err ValueError end) l
  end.
(** np.sum(final_costs**2, axis=1) *)
Definition sq_sum (v : list F) : F := fold_left (fun s x => kadd s (kmul x x)) v k0.
(** np.argmin: a later entry replaces the candidate only if it is smaller; without entries ValueError *)
Fixpoint argmin_from (l : list F) (j i : nat) (m : F) : nat :=
  match l with [] => i | x :: l' => if kltb x m then argmin_from l' (Datatypes.S j) j x else argmin_from l' (Datatypes.S j) i m end.
Definition np_argmin (l : list F) : res nat := match l with [] => Err ValueError | x :: l' => Ok (argmin_from l' 1 0 x) end.
Definition n_least_square (final_costs : list fcost) : res nat := rows <- cost_rows final_costs ;; np_argmin (map sq_sum rows).
End Analyser.

(** ---- parallel.py ---- *)
Section Parallel.
Variables V O P U : Type.
Variable objeq : V -> V -> bool.
(** O: the state of an optimiser with everything it refers to; U: initial pulses; P: the state of a process that is not
    part of the optimiser (random number generator, clock).  A result as it arrives from a worker: the attributes and
    the items of the lists of its summary. *)
Record rdata := mkrd { q_res : ores V; q_sum : option (list (val V) * list (val V)) }.
(** optimizer.run_optimization(initial_pulse) *)
Variable run : U -> O * P -> (O * P) * res rdata.

(** optimisers are objects in a heap; copy.deepcopy makes a new object with the same state *)
Definition oheap := list O.
Definition deepcopy (opt : nat) (h : oheap) : oheap * nat := match nth_error h opt with Some o => (h ++ [o], length h) | None => (h, opt) end.
(** [copy.deepcopy(optimizer) for _ in initial_pulses], parallel.py l.103 *)
Fixpoint copies (opt : nat) (pulses : list U) (h : oheap) : oheap * list nat :=
  match pulses with [] => (h, []) | _ :: ps => let '(h, a) := deepcopy opt h in let '(h, l) := copies opt ps h in (h, a :: l) end.

(** a worker unpickles a chunk of tasks: a copy of the optimisers with their sharing, here a copy of the whole heap; it
    runs the tasks one after the other (run_optimization, l.59-76) *)
Fixpoint work (h : oheap) (p : P) (tasks : list (nat * U)) : P * res (list rdata) :=
  match tasks with
  | [] => (p, Ok [])
  | (a, u) :: ts =>
      match nth_error h a with
      | None => (p, Err KeyError)
      | Some o => match run u (o, p) with
                  | ((_, p'), Err e) => (p', Err e)
                  | ((o', p'), Ok r) => match work (lset h a o') p' ts with (p'', Ok rs) => (p'', Ok (r :: rs)) | (p'', Err e) => (p'', Err e) end
                  end
      end
  end.
(** the pool: sched lists (chunk, worker) in the order of completion; all workers start from the process state p0 *)
Record pstate := mkps { ps_workers : nat -> P; ps_results : list (option (list rdata)); ps_error : option exn }.
Definition complete (h : oheap) (chs : list (list (nat * U))) (s : pstate) (cw : nat * nat) : pstate :=
  let '(c, w) := cw in
  let '(p', r) := work h (ps_workers s w) (nth c chs []) in
  let ws := fun v => if Nat.eqb v w then p' else ps_workers s v in
  match ps_error s, r with
  | None, Ok rs => mkps ws (lset (ps_results s) c (Some rs)) None
  | None, Err e => mkps ws (ps_results s) (Some e)
  | Some e, _ => mkps ws (ps_results s) (Some e)
  end.
Definition starmap (h : oheap) (p0 : P) (chunk : nat) (sched : list (nat * nat)) (tasks : list (nat * U)) : res (list rdata) :=
  let chs := chunks chunk tasks in
  let s := fold_left (complete h chs) sched (mkps (fun _ => p0) (repeat None (length chs)) None) in
  match ps_error s with Some e => Err e | None => Ok (List.concat (map (fun r => match r with Some ys => ys | None => [] end) (ps_results s))) end.

(** a result arrives in the calling process: new lists for the summary *)
Definition receive (r : rdata) (h : lheap V) : lheap V * ores V :=
  match q_sum r with
  | None => (h, q_res r)
  | Some (c, p) => (h ++ [c; p], let q := q_res r in mkres (r_final_cost q) (r_indices q) (r_final q) (r_grad_norm q) (r_init q) (r_num_iter q) (r_reason q)
      (r_stat q) (r_stats q) (r_optimizer q) (VSummary (VRef V (length h)) (VRef V (Datatypes.S (length h)))))
  end.
(** for result in results: data.append_optim_result(result), l.108-109 *)
Fixpoint append_all (d : dcont V) (rs : list (ores V)) (h : lheap V) : lheap V * res (dcont V) :=
  match rs with
  | [] => (h, Ok d)
  | r :: rs' => match append_optim_result objeq d r h with (h', Ok d') => append_all d' rs' h' | (h', Err e) => (h', Err e) end
  end.
Fixpoint receive_all (rs : list rdata) (h : lheap V) : lheap V * list (ores V) :=
  match rs with [] => (h, []) | r :: rs' => let '(h, q) := receive r h in let '(h, qs) := receive_all rs' h in (h, q :: qs) end.
(** run_optimization_parallel, l.79-110; the optimisers' heap is returned as well *)
Definition run_optimization_parallel (opt : nat) (pulses : list U) (p0 : P) (chunk : nat) (sched : list (nat * nat)) (oh : oheap) (h : lheap V)
  : oheap * (lheap V * res (dcont V)) :=
  let '(oh, opts) := copies opt pulses oh in
  match starmap oh p0 chunk sched (combine opts pulses) with
  | Err e => (oh, (h, Err e))
  | Ok results =>
      let '(h, rs) := receive_all results h in
      match new_container [] h with
      | (h, Err e) => (oh, (h, Err e))
      | (h, Ok d) => (oh, append_all d rs h)
      end
  end.
End Parallel.
