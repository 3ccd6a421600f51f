(** Model of the recorded evaluation times: qopt/performance_statistics.py l.41-67, the recording in qopt/simulator.py
    (l.134-135, 202-208, 262-288), in qopt/optimize.py (l.311-320, 334-335, 436-437, 630-631) and their evaluation in
    qopt/analyser.py l.161-249.  time.time() is a sequence of readings, [clock i] the i-th one; the reading of the wall time
    check (optimize.py l.209) is the argument now of M_Optimizer.v and not part of the sequence.  The statistics are objects
    in a heap: the result of an optimisation refers to the object the simulator writes to.  The attribute indices is left
    out. *)
Require Import List Arith Bool.
From Verif Require Import LibBase LibRing LibArr LibCplx LibMat M_Matrix M_OpHeap M_Transfer M_Amplitude M_Solver M_Cost M_Simulator M_Optimizer.
Import ListNotations.
Open Scope res_scope.
Set Implicit Arguments.

Section Model.
Variable F : OField.
Variable rexp : F -> F.
Variable la : LinAlg F.
Variable eps : cplx F.
Variable clock : nat -> F.
Notation arrF := (arr (kcar F)).
Notation world := (@world F).
Notation sim := (@sim F).

(** PerformanceStatistics, performance_statistics.py l.62-67 *)
Record stats := mkstats { t_begin : option F; t_end : option F; cost_times : list (list F); grad_times : list (list F) }.
Definition new_stats : stats := mkstats None None [] [].
(** the solvers, all statistics objects, the attribute stats of the simulator, the number of clock readings so far *)
Record tw := mktw { tw_w : world; tw_heap : list stats; tw_cur : option nat; tw_n : nat }.
Definition tm (A : Type) := tw -> tw * res A.
(** stats = PerformanceStatistics() if record_performance_statistics else None, simulator.py l.134-135 *)
Definition new_sim (w : world) (record : bool) : tw := if record then mktw w [new_stats] (Some 0) 0 else mktw w [] None 0.

Definition tret {A} (r : res A) : tm A := fun w => (w, r).
Definition tbind {A B} (m : tm A) (k : A -> tm B) : tm B := fun w => match m w with (w', Ok a) => k a w' | (w', Err e) => (w', Err e) end.
Fixpoint tmap {A B} (f : A -> tm B) (l : list A) : tm (list B) :=
  match l with [] => tret (Ok []) | x :: l' => tbind (f x) (fun y => tbind (tmap f l') (fun ys => tret (Ok (y :: ys)))) end.
(** a call that neither reads the clock nor the statistics *)
Definition lift {A} (m : wm F A) : tm A := fun w => match m (tw_w w) with (w', r) => (mktw w' (tw_heap w) (tw_cur w) (tw_n w), r) end.
(** time.time() *)
Definition now : tm F := fun w => (mktw (tw_w w) (tw_heap w) (tw_cur w) (Datatypes.S (tw_n w)), Ok (clock (tw_n w))).
(** an assignment to an attribute of self.stats *)
Definition upd (f : stats -> stats) : tm unit := fun w =>
  match tw_cur w with
  | None => (w, Err AttributeError)
  | Some a => (mktw (tw_w w) (match nth_error (tw_heap w) a with Some t => lset (tw_heap w) a (f t) | None => tw_heap w end) (tw_cur w) (tw_n w), Ok tt)
  end.
(** l[-1].append(x) *)
Definition append_last (l : list (list F)) (x : F) : list (list F) :=
  match rev l with [] => l | r :: l' => rev l' ++ [r ++ [x]] end.
Definition open_costs (t : stats) : stats := mkstats (t_begin t) (t_end t) (cost_times t ++ [[]]) (grad_times t).
Definition log_cost (x : F) (t : stats) : stats := mkstats (t_begin t) (t_end t) (append_last (cost_times t) x) (grad_times t).
Definition open_grads (t : stats) : stats := mkstats (t_begin t) (t_end t) (cost_times t) (grad_times t ++ [[]]).
Definition log_grad (x : F) (t : stats) : stats := mkstats (t_begin t) (t_end t) (cost_times t) (append_last (grad_times t) x).

(** t_start = time.time(); ...; t_end = time.time(); append(t_end - t_start), l.205-208, 270-288 *)
Definition measured {A} (log : F -> stats -> stats) (m : tm A) : tm A :=
  tbind now (fun a => tbind m (fun v => tbind now (fun b => tbind (upd (log (ksub b a))) (fun _ => tret (Ok v))))).
(** the loop over the cost functions with and without statistics *)
Definition loop {A B} (opn : stats -> stats) (log : F -> stats -> stats) (f : A -> wm F B) (l : list A) : tm (list B) := fun w =>
  match tw_cur w with
  | Some _ => tbind (upd opn) (fun _ => tmap (fun c => measured log (lift (f c))) l) w
  | None => tmap (fun c => lift (f c)) l w
  end.
(** wrapped_cost_functions, simulator.py l.171-235 *)
Definition timed_cost (m : sim) (pulse : option arrF) : tm (list F) :=
  tbind (tret (the_pulse m pulse)) (fun y =>
  tbind (lift (set_all rexp m y)) (fun _ =>
  tbind (loop open_costs log_cost (fun c => wbind (on (cf_solver c) (run rexp la eps (cf_costs c))) (fun a => wret (Ok (data a)))) (sm_cfs m)) (fun l =>
  tret (np_concat l)))).
(** numeric_gradient, l.338-390, calls wrapped_cost_functions *)
Definition timed_numeric (m : sim) (pulse : option arrF) (delta : F) (symmetric : bool) : tm arrF :=
  tbind (tret (the_pulse m pulse)) (fun y =>
  tbind (timed_cost m (Some y)) (fun central =>
  if negb (Nat.eqb (rank y) 2) then tret (Err ValueError) else
  tbind (tmap (fun t => tmap (fun c =>
      tbind (timed_cost m (Some (shifted y t c delta))) (fun fwd =>
      if symmetric
      then tbind (timed_cost m (Some (shifted y t c (kopp delta)))) (fun bck => tret (difference (length central) fwd bck (kmul (kofnat 2) delta)))
      else tret (difference (length central) fwd central delta)))
      (seq 0 (dim1 y))) (seq 0 (dim0 y))) (fun cols =>
  tret (Ok (mk3 (dim0 y) (length central) (dim1 y) (fun t f c => nth f (nth c (nth t cols []) []) k0)))))).
(** wrapped_jac_function, l.237-293 *)
Definition timed_jac (m : sim) (pulse : option arrF) (delta : F) : tm arrF :=
  if sm_numeric m then timed_numeric m pulse delta false else
  tbind (tret (the_pulse m pulse)) (fun y =>
  tbind (lift (set_all rexp m y)) (fun _ =>
  tbind (loop open_grads log_grad (jac_of rexp la eps y) (sm_cfs m)) (fun l => tret (concat_axis1 l)))).

(** ---- the optimisers ---- *)
Notation ost := (@ost F tw).
Notation oconf := (@oconf F).
(** prepare_optimization: new statistics with the start time, optimize.py l.311-320 *)
Definition begin_stats (t0 : F) (w : tw) : tw :=
  match tw_cur w with
  | None => w
  | Some _ => mktw (tw_w w) (tw_heap w ++ [mkstats (Some t0) None [] []]) (Some (length (tw_heap w))) (tw_n w)
  end.
(** if stats is not None: stats.end_t_opt = time.time(), l.334-335, 436-437, 630-631 *)
Definition end_stats (w : tw) : tw :=
  match tw_cur w with
  | None => w
  | Some _ => fst (tbind now (fun b => upd (fun t => mkstats (t_begin t) (Some b) (cost_times t) (grad_times t))) w)
  end.
(** run_optimization, l.411-460 and 527-633; the result refers to the statistics object of the simulator.  [dl] is the
    step of a numeric jacobian. *)
Definition timed_run (m : sim) (dl : F) (kd : okind) (me : omethod) (cf : oconf) (y0 : arrF) (sp : arrF -> @algo F) : ost -> ost * res (@oresult F * option nat) := fun s =>
  let simc := fun y => timed_cost m (Some y) in
  let simj := fun y => timed_jac m (Some y) dl in
  let ends s := with_w s (end_stats (o_w s)) in
  if negb (Nat.eqb (rank y0) 2) then (s, Err ValueError) else
  let '(w0, _) := now (o_w s) in
  let t0 := clock (tw_n (o_w s)) in
  let s1 := prepare cf (dim0 y0) (dim1 y0) t0 (with_w s (begin_stats t0 w0)) in
  let lb := match kd, me with ScalarMin, OtherMethod => false | _, _ => true end in
  match interp simc simj kd cf (oc_jac cf && lb) (sp (flatten y0)) s1 with
  | (s2, Ok r) =>
      let s2' := match kd with LeastSquares => ends s2 | ScalarMin => s2 end in
      match unflatten (dim0 y0) (dim1 y0) (sc_x r) with
      | Err e => (s2', Err e)
      | Ok y =>
        let res := mkor (Some (sc_fun r)) (Some y) (if lb then Some (sqnorm (data (sc_grad r))) else None) (sc_nfev r) (sc_status r) (o_sum s2') in
        let s3 := match kd with LeastSquares => s2' | ScalarMin => ends s2' end in
        (s3, Ok (res, tw_cur (o_w s3)))
      end
  | (s2, Err WallTimeExceeded) =>
      match write_state_to_result simj kd cf (ends s2) with
      | (s3, Err e) => (s3, Err e)
      | (s3, Ok res) =>
        let s4 := match kd with LeastSquares => s3 | ScalarMin => ends s3 end in
        (s4, Ok (res, tw_cur (o_w s4)))
      end
  | (s2, Err e) => (s2, Err e)
  end.

(** ---- analyser.py ---- *)
(** np.sum(np.asarray(times), axis=0), l.161-197: the sums of the columns; rows of different lengths raise.  Without any row
    numpy returns 0.0, here a vector without entries (their sums are the same). *)
Definition column_sums (rows : list (list F)) : res (list F) :=
  match rows with
  | [] => Ok []
  | r :: _ =>
    check forallb (fun q => Nat.eqb (length q) (length r)) rows else ValueError ;;
    Ok (map (fun i => np_sum (map (fun q => nth i q k0) rows)) (seq 0 (length r)))
  end.
(** integral_cost_fkt_times, integral_grad_fkt_times, l.161-197 *)
Definition integral_cost_times (t : stats) := column_sums (cost_times t).
Definition integral_grad_times (t : stats) := column_sums (grad_times t).
(** opt_times, l.199-213; a difference with None raises TypeError *)
Definition opt_times (l : list stats) : res (list F) :=
  mapM (fun t => match t_begin t, t_end t with Some a, Some b => Ok (ksub b a) | _, _ => Err TypeError end) l.
(** total_cost_fkt_time, total_grad_fkt_time, l.215-241 *)
Definition total_of (f : stats -> res (list F)) (l : list stats) : res F :=
  foldM (fun acc t => v <- f t ;; Ok (kadd acc (np_sum v))) l k0.
Definition total_cost_time := total_of integral_cost_times.
Definition total_grad_time := total_of integral_grad_times.
(** time_share_cost_fkt, time_share_grad_fkt, l.243-249; a division by zero gives nan *)
Definition share (tot : res F) (l : list stats) : res F := a <- tot ;; b <- opt_times l ;; Ok (kdiv a (np_sum b)).
Definition time_share_cost (l : list stats) := share (total_cost_time l) l.
Definition time_share_grad (l : list stats) := share (total_grad_time l) l.
End Model.
Arguments append_last {F}. Arguments mkstats {F}. Arguments mktw {F}. Arguments column_sums {F}. Arguments stats {F}. Arguments tw {F}. Arguments new_sim {F}. Arguments new_stats {F}.
