(** Model of qopt/simulator.py.  The solvers are objects in a heap: [world] is the list of all solver objects, a
    simulator and its cost functions refer to them by position.  Solvers are those of M_Solver.v; every solver owns
    its transfer function.  A one dimensional array is a list.  The recorded evaluation times
    (l.202-208, 264-288) are in M_Stats.v; with and without them the same calls are made.  check (l.151-161) and
    compare_numeric_to_analytic_gradient (l.295-336) are in M_SimCheck.v. *)
Require Import List Arith Bool.
From Verif Require Import LibBase LibRing LibArr LibCplx LibMat M_Matrix M_OpHeap M_Transfer M_Amplitude M_Solver M_Cost.
Import ListNotations.
Open Scope res_scope.
Set Implicit Arguments.

Section Model.
Variable F : OField.
Variable rexp : F -> F.
Variable la : LinAlg F.
Variable eps : cplx F.
Notation arrF := (arr (kcar F)).
Notation op := (op F).
Notation st := (@st F).
Notation sm := (@sm F).
Notation K := (KStar F).

(** ---- cost functions ---- *)
(** CostFunction.costs and .grad, cost_functions.py l.110-159 (abstract, also implemented by users): a program that
    reads properties of its solver and returns an array or raises.  [PAmps] reads the control amplitudes. *)
Inductive prog := PRet (r : res arrF) | PRead (o : @sop F) (k : @sval F -> prog) | PAmps (k : option arrF -> prog).
Fixpoint run (p : prog) (s : st) : st * res arrF :=
  match p with
  | PRet r => (s, r)
  | PRead o k => match sstep rexp la eps s o with (s', Ok v) => run (k v) s' | (s', Err e) => (s', Err e) end
  | PAmps k => run (k (s_amps s)) s
  end.
(** label, solver (its position in the world), costs(), grad() *)
Record cfun := mkcf { cf_solver : nat; cf_label : list nat; cf_costs : prog; cf_grad : prog }.

(** OperationInfidelity.costs, cost_functions.py l.1271-1291, as such a program *)
Definition only_fwd (fs : list op) : reads F := mkreads fs [] [] [] [] [] 0 0 0.
Definition scalar (x : F) : arrF := Arr [] [x].
Definition prog_operation_infidelity (V : op) (super : bool) (cs : option (list nat)) (b : bool) : prog :=
  PRead SFwd (fun v => match v with
    | VOps fs => PRet (x <- operation_infidelity la (only_fwd fs) V super cs b ;; Ok (scalar x))
    | _ => PRet (Err TypeError) end).
(** OperationInfidelity.grad, cost_functions.py l.1293-1316; an unassigned cell of the derivatives cannot be multiplied *)
Definition cells (l : list (list (option op))) : res (list (list op)) :=
  mapM (fun row => mapM (fun o => match o with Some A => Ok A | None => Err AttributeError end) row) l.
Definition prog_operation_infidelity_grad (V : op) (super : bool) (cs : option (list nat)) (b : bool) : prog :=
  PRead SFwd (fun v => PRead SRev (fun r => PRead SDer (fun d => PRet (match v, d, r with
    | VOps fs, VDer ds, VOps rs => ds' <- cells ds ;; operation_infidelity_grad la (mkreads fs rs ds' [] [] [] 0 0 0) V super cs b
    | _, _, _ => Err TypeError end)))).

(** ---- the simulator ---- *)
Definition world := list st.
Definition wm (A : Type) := world -> world * res A.
(** a method call on the solver at position i *)
Definition on {A} (i : nat) (m : sm A) : wm A := fun w =>
  match nth_error w i with
  | Some s => let '(s', r) := m s in (lset w i s', r)
  | None => (w, Err AttributeError)
  end.
Definition wbind {A B} (m : wm A) (k : A -> wm B) : wm B :=
  fun w => match m w with (w', Ok a) => k a w' | (w', Err e) => (w', Err e) end.
Definition wret {A} (r : res A) : wm A := fun w => (w, r).
(** [f(x) for x in l], evaluated from left to right *)
Fixpoint wmap {A B} (f : A -> wm B) (l : list A) : wm (list B) :=
  match l with
  | [] => wret (Ok [])
  | x :: l' => wbind (f x) (fun y => wbind (wmap f l') (fun ys => wret (Ok (y :: ys))))
  end.

(** solvers, cost_funcs, _optimization_parameteres (sic), numeric_jacobian, l.115-137 *)
Record sim := mksim { sm_solvers : list nat; sm_cfs : list cfun; sm_pulse : option arrF; sm_numeric : bool }.

(** pulse.setter, l.144-149: the shape is taken from the old pulse; (None).shape raises *)
Definition set_pulse (m : sim) (y : option arrF) : res sim :=
  match y, sm_pulse m with
  | Some _, None => Err AttributeError
  | Some _, Some old => if Nat.eqb (rank old) 2 then Ok (mksim (sm_solvers m) (sm_cfs m) y (sm_numeric m)) else Err ValueError
  | None, _ => Ok (mksim (sm_solvers m) (sm_cfs m) y (sm_numeric m))
  end.

(** cost_indices, l.163-169 *)
Definition cost_indices (m : sim) : list nat := flat_map cf_label (sm_cfs m).

(** if pulse is None: pulse = self.pulse, l.194-195, 256-257, 365-368.  Without any pulse the source passes None on to
    the solvers; modelled as an exception. *)
Definition the_pulse (m : sim) (pulse : option arrF) : res arrF :=
  match pulse, sm_pulse m with Some y, _ => Ok y | None, Some y => Ok y | None, None => Err AttributeError end.

(** for solver in self.solvers: solver.set_optimization_parameters(pulse), l.197-198, 259-260 *)
Definition set_all (m : sim) (y : arrF) : wm (list unit) := wmap (fun i => on i (set_pars rexp y)) (sm_solvers m).

(** np.concatenate of one dimensional arrays *)
Definition np_concat (l : list (list F)) : res (list F) := match l with [] => Err ValueError | _ => Ok (concat l) end.

(** wrapped_cost_functions, l.171-235 *)
Definition wrapped_cost (m : sim) (pulse : option arrF) : wm (list F) :=
  wbind (wret (the_pulse m pulse)) (fun y =>
  wbind (set_all m y) (fun _ =>
  wbind (wmap (fun c => wbind (on (cf_solver c) (run (cf_costs c))) (fun a => wret (Ok (data a)))) (sm_cfs m)) (fun l =>
  wret (np_concat l)))).

(** if len(jac_u.shape) == 2: np.expand_dims(jac_u, axis=1), l.275-276 *)
Definition expand1 (g : arrF) : arrF := if Nat.eqb (rank g) 2 then Arr [dim0 g; 1; dim1 g] (data g) else g.

(** solver.transfer_function(pulse), derivative_by_chain_rule, gradient_chain_rule, l.279-284 *)
Definition to_pulse (y g : arrF) : sm arrF := fun s =>
  let '(t1, r) := call rexp (s_tf s) y in
  let s1 := set_tf s t1 in
  match r with
  | Err e => (s1, Err e)
  | Ok x =>
    match amp_chain (c_amp (s_conf s)) g x with
    | Err e => (s1, Err e)
    | Ok jx => let '(t2, r2) := grad rexp t1 jx in (set_tf s1 t2, r2)
    end
  end.
Definition jac_of (y : arrF) (c : cfun) : wm arrF :=
  on (cf_solver c) (seqm (run (cf_grad c)) (fun g => to_pulse y (expand1 g))).

(** np.concatenate(jacobians, axis=1), l.291, for arrays of rank 3 (a jacobian of another rank can only come from a
    cost function that returns one, with identity transfer and amplitude functions; modelled as ValueError) *)
Definition concat_axis1 (l : list arrF) : res arrF :=
  match l with
  | [] => Err ValueError
  | a :: _ =>
    check forallb (fun b => Nat.eqb (rank b) 3 && Nat.eqb (dim0 b) (dim0 a) && Nat.eqb (dim2 b) (dim2 a)) l else ValueError ;;
    Ok (Arr [dim0 a; list_sum (map dim1 l); dim2 a]
          (flat_map (fun t => flat_map (fun b => flat_map (fun f => map (fun c => get3 k0 b t f c) (seq 0 (dim2 a))) (seq 0 (dim1 b))) l)
             (seq 0 (dim0 a))))
  end.

(** delta = np.zeros_like(test_pulse); delta[t, c] = delta_eps, l.379-380; test_pulse + delta and - delta *)
Definition shifted (y : arrF) (t c : nat) (d : F) : arrF :=
  mk2 (dim0 y) (dim1 y) (fun i j => kadd (get2 k0 y i j) (if Nat.eqb i t && Nat.eqb j c then d else k0)).
(** (fwd_val - bck_val) / step; the number of costs may not depend on the pulse *)
Definition difference (n : nat) (a b : list F) (step : F) : res (list F) :=
  check Nat.eqb (length a) n && Nat.eqb (length b) n else ValueError ;;
  Ok (map (fun p => kdiv (ksub (fst p) (snd p)) step) (combine a b)).

(** numeric_gradient, l.338-390: a list of columns, one for every (time, control), then filled into the array.
    Division by delta_eps = 0 gives nan in the source. *)
Definition numeric_gradient (m : sim) (pulse : option arrF) (delta : F) (symmetric : bool) : wm arrF :=
  wbind (wret (the_pulse m pulse)) (fun y =>
  wbind (wrapped_cost m (Some y)) (fun central =>
  if negb (Nat.eqb (rank y) 2) then wret (Err ValueError) else
  wbind (wmap (fun t => wmap (fun c =>
      wbind (wrapped_cost m (Some (shifted y t c delta))) (fun fwd =>
      if symmetric
      then wbind (wrapped_cost m (Some (shifted y t c (kopp delta)))) (fun bck => wret (difference (length central) fwd bck (kmul (kofnat 2) delta)))
      else wret (difference (length central) fwd central delta)))
      (seq 0 (dim1 y))) (seq 0 (dim0 y))) (fun cols =>
  wret (Ok (mk3 (dim0 y) (length central) (dim1 y) (fun t f c => nth f (nth c (nth t cols []) []) k0)))))).

(** wrapped_jac_function, l.237-293 *)
Definition wrapped_jac (m : sim) (pulse : option arrF) (delta : F) : wm arrF :=
  if sm_numeric m then numeric_gradient m pulse delta false else
  wbind (wret (the_pulse m pulse)) (fun y =>
  wbind (set_all m y) (fun _ =>
  wbind (wmap (jac_of y) (sm_cfs m)) (fun l => wret (concat_axis1 l)))).
End Model.
Arguments prog {F}. Arguments cfun {F}. Arguments sim {F}. Arguments world {F}. Arguments PRet {F}. Arguments PRead {F}. Arguments PAmps {F}.
Arguments expand1 {F}. Arguments concat_axis1 {F}. Arguments shifted {F}. Arguments difference {F}. Arguments np_concat {F}.
