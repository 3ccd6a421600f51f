(** Model of qopt/optimize.py: Optimizer, LeastSquaresOptimizer, ScalarMinimizingOptimizer.
    Arrays that are shared live in a heap: the cost vectors (the array returned by the simulator is stored, scaled in
    place and handed to scipy) and the parameter arrays of the caller (the optimiser stores views of them).  The
    simulator is a parameter: two functions of the pulse and of a state; wrapped_cost_functions returns a new array at
    every call (np.concatenate).  The clock is an argument of the calls.  np.linalg.norm is modelled by its square (the
    comparison of norms is the same); np.inf as initial minimum is None.  Not modelled here: the performance statistics (M_Stats.v),
    the stored reference to the optimiser itself (store_optimizer), verbosity. *)
Require Import List Arith Bool.
From Verif Require Import LibBase LibRing LibArr M_OpHeap.
Import ListNotations.
Open Scope res_scope.
Set Implicit Arguments.

Section Model.
Variable F : OField.
Notation arrF := (arr (kcar F)).
Variable W : Type.
(** system_simulator.wrapped_cost_functions(pulse), .wrapped_jac_function(pulse) *)
Variable simc : arrF -> W -> W * res (list F).
Variable simj : arrF -> W -> W * res arrF.

(** ---- numpy ---- *)
(** a.T for rank 2 *)
Definition np_T (a : arrF) : arrF := mk2 (dim1 a) (dim0 a) (fun i j => get2 k0 a j i).
(** a.reshape(sh): the data in C order *)
Definition np_reshape (sh : list nat) (a : arrF) : res arrF :=
  check Nat.eqb (prodn sh) (length (data a)) else ValueError ;; Ok (Arr sh (data a)).
(** initial_control_amplitudes.T.flatten(), l.425, 541, 578, 610 *)
Definition flatten (y : arrF) : arrF := let d := data (np_T y) in Arr [length d] d.
(** optimization_parameters.reshape(self.pulse_shape[::-1]).T for pulse_shape = (nt, nc), l.214, 220, 224-225, 251 *)
Definition unflatten (nt nc : nat) (x : arrF) : res arrF := a <- np_reshape [nc; nt] x ;; Ok (np_T a).
(** the square of np.linalg.norm *)
Definition sqnorm (l : list F) : F := fold_left (fun s x => kadd s (kmul x x)) l k0.
(** costs *= weights: arrays of one dimension, weights of length 1 are broadcast, l.228-229 *)
Definition scale_costs (v ws : list F) : res (list F) :=
  if Nat.eqb (length ws) (length v) then Ok (map (fun p => kmul (fst p) (snd p)) (combine v ws))
  else match ws with [u] => Ok (map (fun x => kmul x u) v) | _ => Err ValueError end.
(** np.einsum('ab, a -> ab', jacobian, weights), l.263-264; sizes must agree or one of them be 1 *)
Definition scale_rows (j : arrF) (ws : list F) : res arrF :=
  let n := dim0 j in let k := length ws in
  check Nat.eqb n k || Nat.eqb n 1 || Nat.eqb k 1 else ValueError ;;
  let r := if Nat.eqb n 1 then k else n in
  Ok (mk2 r (dim1 j) (fun a b => kmul (get2 k0 j (if Nat.eqb n 1 then 0 else a) b) (nth (if Nat.eqb k 1 then 0 else a) ws k0))).

(** ---- state ---- *)
(** a view .reshape((nc, nt)).T of a stored array *)
Record view := mkview { v_addr : nat; v_t : nat; v_c : nat }.
(** OptimizationSummary, optimization_data.py l.203-218; costs are references to arrays *)
Record summary := mksum { iter_num : nat; sum_costs : list nat; sum_grads : list arrF; sum_pars : list view }.
(** cost_func_weights (None if empty, l.185-191), save_intermediary_steps, use_jacobian_function,
    termination_conditions['max_wall_time'] *)
Record oconf := mkoc { oc_weights : option (list F); oc_save : bool; oc_jac : bool; oc_wall : F }.
(** pulse_shape, _min_costs, _min_costs_par, _n_cost_fkt_eval, _n_jac_fkt_eval, optim_iter_summary, _opt_start_time,
    l.172-179.  pulse_shape of another rank than 2 is modelled as None; with it the calls raise. *)
Record ost := mko { o_heap : list arrF; o_w : W; o_shape : option (nat * nat); o_min : option nat; o_par : option view;
  o_nc : nat; o_nj : nat; o_sum : option summary; o_start : F }.
Definition om (A : Type) := ost -> ost * res A.
Definition with_w (s : ost) w := mko (o_heap s) w (o_shape s) (o_min s) (o_par s) (o_nc s) (o_nj s) (o_sum s) (o_start s).
Definition with_heap (s : ost) h := mko h (o_w s) (o_shape s) (o_min s) (o_par s) (o_nc s) (o_nj s) (o_sum s) (o_start s).
Definition with_sum (s : ost) x := mko (o_heap s) (o_w s) (o_shape s) (o_min s) (o_par s) (o_nc s) (o_nj s) x (o_start s).
Definition with_min (s : ost) m p := mko (o_heap s) (o_w s) (o_shape s) m p (o_nc s) (o_nj s) (o_sum s) (o_start s).
Definition inc_nc (s : ost) := mko (o_heap s) (o_w s) (o_shape s) (o_min s) (o_par s) (Datatypes.S (o_nc s)) (o_nj s) (o_sum s) (o_start s).
Definition inc_nj (s : ost) := mko (o_heap s) (o_w s) (o_shape s) (o_min s) (o_par s) (o_nc s) (Datatypes.S (o_nj s)) (o_sum s) (o_start s).

(** the data of a stored array *)
Definition cells_of (s : ost) (a : nat) : list F := match nth_error (o_heap s) a with Some x => data x | None => [] end.

(** Optimizer.__init__, l.157-191, without the termination conditions (M_Anneal.v): the weights *)
Definition init_weights (ws : option (list F)) : option (list F) := match ws with Some [] => None | _ => ws end.
Definition new_optimizer (w : W) : ost := mko [] w None None None 0 0 None k0.

(** the part of cost_func_wrapper that stores the costs, l.216-225 *)
Definition store_summary (cf : oconf) (a : nat) (p : view) : om unit := fun s =>
  if oc_save cf then
    match o_sum s with
    | None => (s, Err AttributeError)
    | Some m => (with_sum s (Some (mksum (Datatypes.S (iter_num m)) (sum_costs m ++ [a]) (sum_grads m) (sum_pars m ++ [p]))), Ok tt)
    end
  else (s, Ok tt).
Definition smaller (s : ost) (a : nat) : bool :=
  match o_min s with None => true | Some b => kltb (sqnorm (cells_of s a)) (sqnorm (cells_of s b)) end.
Definition store_min (a : nat) (p : view) (s : ost) : ost := if smaller s a then with_min s (Some a) (Some p) else s.

(** Optimizer.cost_func_wrapper, l.193-232: the argument is a reference, the result too *)
Definition cost_func_wrapper (cf : oconf) (x : nat) (now : F) : om nat := fun s =>
  if kltb (oc_wall cf) (ksub now (o_start s)) then (s, Err WallTimeExceeded) else
  match o_shape s, nth_error (o_heap s) x with
  | Some (nt, nc), Some xa =>
    match unflatten nt nc xa with
    | Err e => (s, Err e)
    | Ok y =>
      match simc y (o_w s) with
      | (w', Err e) => (with_w s w', Err e)
      | (w', Ok v) =>
        let a := length (o_heap s) in
        let p := mkview x nt nc in
        let s1 := with_heap (with_w s w') (o_heap s ++ [Arr [length v] v]) in
        match store_summary cf a p s1 with
        | (s2, Err e) => (s2, Err e)
        | (s2, Ok _) =>
          let s3 := store_min a p s2 in
          match oc_weights cf with
          | None => (inc_nc s3, Ok a)
          | Some ws =>
            match scale_costs (cells_of s3 a) ws with
            | Err e => (s3, Err e)
            | Ok v' => (inc_nc (with_heap s3 (lset (o_heap s3) a (Arr [length v'] v'))), Ok a)
            end
          end
        end
      end
    end
  | _, _ => (s, Err ValueError)
  end.

(** jacobian.transpose([1, 2, 0]) and the reshape to (num_f, num_ctrl * num_t), l.257-259 *)
Definition jac_matrix (j : arrF) : res arrF :=
  check Nat.eqb (rank j) 3 else ValueError ;;
  let b := mk3 (dim1 j) (dim2 j) (dim0 j) (fun f c t => get3 k0 j t f c) in
  np_reshape [dim0 b; dim1 b * dim2 b] b.

(** Optimizer.cost_jacobian_wrapper, l.234-267.  The stored gradient is the array of the simulator; the result is a new
    array or a view of it that scipy does not write to, so both are values here. *)
Definition cost_jacobian_wrapper (cf : oconf) (x : arrF) : om arrF := fun s =>
  match o_shape s with
  | None => (s, Err ValueError)
  | Some (nt, nc) =>
    match unflatten nt nc x with
    | Err e => (s, Err e)
    | Ok y =>
      match simj y (o_w s) with
      | (w', Err e) => (with_w s w', Err e)
      | (w', Ok j) =>
        let s1 := with_w s w' in
        let store := if oc_save cf then match o_sum s1 with
             | None => (s1, Err AttributeError)
             | Some m => (with_sum s1 (Some (mksum (iter_num m) (sum_costs m) (sum_grads m ++ [j]) (sum_pars m))), Ok tt) end
             else (s1, Ok tt) in
        match store with
        | (s2, Err e) => (s2, Err e)
        | (s2, Ok _) =>
          match (m <- jac_matrix j ;; match oc_weights cf with None => Ok m | Some ws => scale_rows m ws end) with
          | Err e => (s2, Err e)
          | Ok m => (inc_nj s2, Ok m)
          end
        end
      end
    end
  end.

(** Optimizer.prepare_optimization, l.290-320 *)
Definition prepare (cf : oconf) (nt nc : nat) (now : F) (s : ost) : ost :=
  mko (o_heap s) (o_w s) (Some (nt, nc)) None None 0 0 (if oc_save cf then Some (mksum 0 [] [] []) else o_sum s) now.

(** ScalarMinimizingOptimizer.cost_func_wrapper and cost_jacobian_wrapper, l.500-525: np.sum, np.sum(axis=0) *)
Definition np_sum (l : list F) : F := fold_left kadd l k0.
Definition sum_rows (m : arrF) : arrF := mk1 (dim1 m) (fun b => np_sum (map (fun a => get2 k0 m a b) (seq 0 (dim0 m)))).
Definition scalar_cost (cf : oconf) (x : nat) (now : F) : om F := fun s =>
  match cost_func_wrapper cf x now s with (s', Ok a) => (s', Ok (np_sum (cells_of s' a))) | (s', Err e) => (s', Err e) end.
Definition scalar_jac (cf : oconf) (x : arrF) : om arrF := fun s =>
  match cost_jacobian_wrapper cf x s with (s', Ok m) => (s', Ok (sum_rows m)) | (s', Err e) => (s', Err e) end.

(** the class of the optimiser *)
Inductive okind := LeastSquares | ScalarMin.
(** self.cost_func_wrapper, self.cost_jacobian_wrapper as scipy sees them; a number is an array without axes *)
Definition call_cost (k : okind) (cf : oconf) (x : nat) (now : F) : om arrF := fun s =>
  match k with
  | LeastSquares => match cost_func_wrapper cf x now s with (s', Ok a) => (s', Ok (Arr [length (cells_of s' a)] (cells_of s' a))) | (s', Err e) => (s', Err e) end
  | ScalarMin => match scalar_cost cf x now s with (s', Ok v) => (s', Ok (Arr [] [v])) | (s', Err e) => (s', Err e) end
  end.
Definition call_jac (k : okind) (cf : oconf) (x : arrF) : om arrF :=
  match k with LeastSquares => cost_jacobian_wrapper cf x | ScalarMin => scalar_jac cf x end.

(** OptimizationResult, optimization_data.py l.108-133.  r_cost = None is np.inf; r_grad is the square of
    final_grad_norm (None if not given). *)
Record oresult := mkor { r_cost : option arrF; r_pars : option arrF; r_grad : option F; r_iter : nat; r_status : nat; r_sum : option summary }.

Definition view_of (s : ost) (p : view) : arrF := np_T (Arr [v_c p; v_t p] (cells_of s (v_addr p))).
(** Optimizer.write_state_to_result, l.322-360; None.reshape raises AttributeError *)
Definition write_state_to_result (k : okind) (cf : oconf) : om oresult := fun s =>
  let fin (s' : ost) g := mkor (match o_min s' with Some a => Some (Arr [length (cells_of s' a)] (cells_of s' a)) | None => None end)
     (match o_par s' with Some p => Some (view_of s' p) | None => None end) (Some g) (o_nc s') 5 (o_sum s') in
  if oc_jac cf then
    match o_par s with
    | None => (s, Err AttributeError)
    | Some p => match call_jac k cf (view_of s p) s with
        | (s', Ok m) => (s', Ok (fin s' (sqnorm (data m))))
        | (s', Err e) => (s', Err e) end
    end
  else (s, Ok (fin s k0)).

(** ---- scipy ---- *)
(** what scipy.optimize.least_squares / minimize return *)
Record sci := mksci { sc_fun : arrF; sc_x : arrF; sc_grad : arrF; sc_nfev : nat; sc_status : nat }.
(** an algorithm that calls the two wrappers with new arrays and looks at the returned values *)
Inductive algo := Stop (r : sci) | AskCost (x : arrF) (now : F) (k : arrF -> algo) | AskJac (x : arrF) (k : arrF -> algo).
(** jac_given: the jacobian was passed to scipy; without it the algorithm cannot call it *)
Fixpoint interp (kd : okind) (cf : oconf) (jac_given : bool) (p : algo) : om sci := fun s =>
  match p with
  | Stop r => (s, Ok r)
  | AskCost x now k =>
      let a := length (o_heap s) in
      match call_cost kd cf a now (with_heap s (o_heap s ++ [x])) with
      | (s', Ok v) => interp kd cf jac_given (k v) s'
      | (s', Err e) => (s', Err e) end
  | AskJac x k =>
      if jac_given then
        match call_jac kd cf x s with
        | (s', Ok v) => interp kd cf jac_given (k v) s'
        | (s', Err e) => (s', Err e) end
      else (s, Err TypeError)
  end.
(** the methods of ScalarMinimizingOptimizer, l.537, 574, 606; only L-BFGS-B is given the jacobian and reports its norm *)
Inductive omethod := LBFGSB | OtherMethod.
(** run_optimization, l.411-460 and 527-633.  The algorithm gets x0 = initial_control_amplitudes.T.flatten(); the clock
    at prepare_optimization is t0; bounds, tolerances and options are arguments of the algorithm. *)
Definition run_optimization (kd : okind) (me : omethod) (cf : oconf) (y0 : arrF) (t0 : F) (sp : arrF -> algo) : om oresult := fun s =>
  if negb (Nat.eqb (rank y0) 2) then (s, Err ValueError) else
  let s1 := prepare cf (dim0 y0) (dim1 y0) t0 s in
  let lb := match kd, me with ScalarMin, OtherMethod => false | _, _ => true end in
  match interp kd cf (oc_jac cf && lb) (sp (flatten y0)) s1 with
  | (s', Ok r) =>
      match unflatten (dim0 y0) (dim1 y0) (sc_x r) with
      | Err e => (s', Err e)
      | Ok y => (s', Ok (mkor (Some (sc_fun r)) (Some y) (if lb then Some (sqnorm (data (sc_grad r))) else None) (sc_nfev r) (sc_status r) (o_sum s')))
      end
  | (s', Err WallTimeExceeded) => write_state_to_result kd cf s'
  | (s', Err e) => (s', Err e)
  end.
End Model.
Arguments np_T {F}. Arguments flatten {F}. Arguments unflatten {F}. Arguments sqnorm {F}. Arguments scale_costs {F}. Arguments scale_rows {F}.
Arguments cells_of {F W}. Arguments view_of {F W}. Arguments jac_matrix {F}. Arguments oconf {F}. Arguments ost {F W}. Arguments summary {F}.
Arguments oresult {F}. Arguments sci {F}. Arguments algo {F}. Arguments np_sum {F}. Arguments sum_rows {F}. Arguments prepare {F W}.
Arguments smaller {F W}. Arguments store_min {F W}. Arguments store_summary {F W}. Arguments new_optimizer {F W}.
Arguments mksum {F}. Arguments mko {F W}. Arguments mkoc {F}. Arguments mkor {F}. Arguments mksci {F}. Arguments Stop {F}. Arguments AskCost {F}. Arguments AskJac {F}.
