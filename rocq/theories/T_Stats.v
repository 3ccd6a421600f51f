(** Theorems about the recorded times in qopt/simulator.py, qopt/optimize.py and qopt/analyser.py, and about the
    absolute costs of qopt/analyser.py, properties C71 and C72 of properties.jsonl.  Statements only; the proofs are in P_Stats*.v and P_Absolute.v, the concrete cases in P_StatsWit.v. *)
Require Import List Arith Reals.
From Verif Require Import LibBase LibRing LibArr LibCplx LibMat M_Matrix M_Solver M_Cost M_Simulator S_Simulator M_Optimizer M_Stats M_Absolute S_Stats P_GradWit P_SimCheckWit
  P_Stats P_Stats2 P_Stats3 P_Stats4 P_Stats5 P_StatsWit P_Absolute.
Import ListNotations.
Set Implicit Arguments.

(** ---------- C71: recorded evaluation times ---------- *)
(** recording changes neither values nor exceptions nor the solvers *)
Theorem c71_same_costs : forall F rexp (la : LinAlg F) eps clock m p (w : @tw F),
  wrapped_cost rexp la eps m p (tw_w w) = (tw_w (fst (timed_cost rexp la eps clock m p w)), snd (timed_cost rexp la eps clock m p w)).
Proof. exact (fun F rexp la eps clock m p w => proj2 (@timed_cost_erases F rexp la eps clock m p w)). Qed.
Print Assumptions c71_same_costs.
Theorem c71_same_jacobian : forall F rexp (la : LinAlg F) eps clock m p dl (w : @tw F),
  wrapped_jac rexp la eps m p dl (tw_w w) = (tw_w (fst (timed_jac rexp la eps clock m p dl w)), snd (timed_jac rexp la eps clock m p dl w)).
Proof. exact (fun F rexp la eps clock m p dl w => proj2 (@timed_jac_erases F rexp la eps clock m p dl w)). Qed.
Print Assumptions c71_same_jacobian.
Theorem c71_same_run : forall F rexp (la : LinAlg F) eps clock m dl kd me cf y0 sp (s : @ost F (@tw F)),
  let simc := fun y => wrapped_cost rexp la eps m (Some y) in let simj := fun y => wrapped_jac rexp la eps m (Some y) dl in
  let '(s', r) := timed_run rexp la eps clock m dl kd me cf y0 sp s in
  run_optimization simc simj kd me cf y0 (clock (tw_n (o_w s))) sp (mko (o_heap s) (tw_w (o_w s)) (o_shape s) (o_min s) (o_par s) (o_nc s) (o_nj s) (o_sum s) (o_start s))
  = (mko (o_heap s') (tw_w (o_w s')) (o_shape s') (o_min s') (o_par s') (o_nc s') (o_nj s') (o_sum s') (o_start s'), match r with Ok (x, _) => Ok x | Err e => Err e end).
Proof. exact run_same. Qed.
Print Assumptions c71_same_run.
(** an evaluation adds one row: the times between two readings of the clock around each cost function *)
Theorem c71_costs : forall F rexp (la : LinAlg F) eps clock m p (w w' : @tw F) v a t,
  tw_cur w = Some a -> nth_error (tw_heap w) a = Some t -> timed_cost rexp la eps clock m p w = (w', Ok v) ->
  nth_error (tw_heap w') a = Some (mkstats (t_begin t) (t_end t) (cost_times t ++ [durations clock (tw_n w) (length (sm_cfs m))]) (grad_times t)) /\
  (forall i, i <> a -> nth_error (tw_heap w') i = nth_error (tw_heap w) i) /\ tw_cur w' = Some a /\ tw_n w' = tw_n w + 2 * length (sm_cfs m).
Proof. exact cost_adds. Qed.
Print Assumptions c71_costs.
Theorem c71_jacobian : forall F rexp (la : LinAlg F) eps clock m p dl (w w' : @tw F) v a t, sm_numeric m = false ->
  tw_cur w = Some a -> nth_error (tw_heap w) a = Some t -> timed_jac rexp la eps clock m p dl w = (w', Ok v) ->
  nth_error (tw_heap w') a = Some (mkstats (t_begin t) (t_end t) (cost_times t) (grad_times t ++ [durations clock (tw_n w) (length (sm_cfs m))])) /\
  (forall i, i <> a -> nth_error (tw_heap w') i = nth_error (tw_heap w) i) /\ tw_cur w' = Some a /\ tw_n w' = tw_n w + 2 * length (sm_cfs m).
Proof. exact grad_adds. Qed.
Print Assumptions c71_jacobian.
(** a numeric jacobian adds rows to the times of the costs only *)
Theorem c71_numeric : forall F rexp (la : LinAlg F) eps clock m y dl (w w' : @tw F) v a t, sm_numeric m = true ->
  tw_cur w = Some a -> nth_error (tw_heap w) a = Some t -> timed_jac rexp la eps clock m (Some y) dl w = (w', Ok v) ->
  exists rows, length rows = 1 + dim0 y * dim1 y /\ Forall (fun q : list F => length q = length (sm_cfs m)) rows /\ tw_cur w' = Some a /\
   nth_error (tw_heap w') a = Some (mkstats (t_begin t) (t_end t) (cost_times t ++ rows) (grad_times t)).
Proof. exact numeric_records. Qed.
Print Assumptions c71_numeric.
Example c71_records : forall (rexp : R -> R) (clock : nat -> R), exists (w w' : @tw RField) v w'' j,
  w = new_sim wworld true /\ @timed_cost RField rexp wla c0 clock vsim (Some wy) w = (w', Ok v) /\ @timed_jac RField rexp wla c0 clock vsim (Some wy) 1%R w' = (w'', Ok j) /\
  tw_heap w'' = [@mkstats RField None None [[(clock 1%nat - clock 0%nat)%R]] [[(clock 3%nat - clock 2%nat)%R]]].
Proof. exact two_records. Qed.
Example c71_numeric_records : forall (rexp : R -> R) (clock : nat -> R), exists (w w' : @tw RField) j rows, w = new_sim wworld true /\
  @timed_jac RField rexp wla c0 clock nsim (Some wy) 1%R w = (w', Ok j) /\ length rows = 3 /\ tw_heap w' = [@mkstats RField None None rows []].
Proof. exact three_records. Qed.

(** the shares of the analyser are the quotients of the sums *)
Theorem c71_values : forall l ds, Forall2 lasted l ds -> Forall (fun t : @stats RField => even (cost_times t) /\ even (grad_times t)) l ->
  time_share_cost (F:=RField) l = Ok (recorded (@cost_times RField) l / added ds)%R /\ time_share_grad (F:=RField) l = Ok (recorded (@grad_times RField) l / added ds)%R.
Proof. exact share_values. Qed.
Print Assumptions c71_values.
(** they are parts of the whole, and are defined for runs that finished *)
Theorem c71_shares_partial : forall fin l a b ts, Forall (outcome fin) l ->
  time_share_cost (F:=RField) l = Ok a -> time_share_grad (F:=RField) l = Ok b -> opt_times (F:=RField) l = Ok ts -> (0 < added ts)%R ->
  (0 <= a)%R /\ (0 <= b)%R /\ (a + b <= 1)%R.
Proof. exact shares_bound. Qed.
Print Assumptions c71_shares_partial.
Theorem c71_defined_partial : forall fin l, fin 5 = false -> Forall (outcome fin) l ->
  exists a b ts, time_share_cost (F:=RField) l = Ok a /\ time_share_grad (F:=RField) l = Ok b /\ opt_times (F:=RField) l = Ok ts.
Proof. exact shares_return. Qed.
Print Assumptions c71_defined_partial.
Example c71_case : let t := @mkstats RField (Some 0%R) (Some 3%R) [[1%R]] [] in
  outcome (fun n => Nat.eqb n 1) t /\ time_share_cost (F:=RField) [t; t] = Ok (2 / 6)%R /\ time_share_grad (F:=RField) [t; t] = Ok (0 / 6)%R.
Proof. exact stop_shares. Qed.
(** a least squares run that the wall time ends evaluates the jacobian after the end of the run was written down *)
Theorem c71_aborted_refuted : exists (rexp : R -> R) (la : LinAlg RField) (eps : cplx RField) (clock : nat -> R) m dl kd me cf y0 sp s s' res a t g ts,
  monotone clock /\ tw_cur (o_w s) <> None /\ @timed_run RField rexp la eps clock m dl kd me cf y0 sp s = (s', Ok (res, Some a)) /\ nth_error (tw_heap (o_w s')) a = Some t /\
  opt_times (F:=RField) [t] = Ok ts /\ (0 < added ts)%R /\ time_share_grad (F:=RField) [t] = Ok g /\ (1 < g)%R.
Proof. exact late_share. Qed.
Print Assumptions c71_aborted_refuted.
(** a run does not touch the statistics of earlier runs; evaluations after a run are added to the statistics in its result *)
Theorem c71_earlier : forall (rexp : R -> R) (la : LinAlg RField) (eps : cplx RField) (clock : nat -> R) m dl kd me cf y0 sp s i t,
  nth_error (tw_heap (o_w s)) i = Some t -> tw_cur (o_w s) <> None ->
  nth_error (tw_heap (o_w (fst (@timed_run RField rexp la eps clock m dl kd me cf y0 sp s)))) i = Some t.
Proof. exact run_others. Qed.
Print Assumptions c71_earlier.
Theorem c71_later_refuted : forall (rexp : R -> R) (la : LinAlg RField) (eps : cplx RField) (clock : nat -> R) m dl kd me cf y0 sp s s' res a t p w' v,
  tw_cur (o_w s) <> None -> @timed_run RField rexp la eps clock m dl kd me cf y0 sp s = (s', Ok (res, Some a)) -> nth_error (tw_heap (o_w s')) a = Some t ->
  @timed_cost RField rexp la eps clock m p (o_w s') = (w', Ok v) ->
  nth_error (tw_heap w') a = Some (mkstats (t_begin t) (t_end t) (cost_times t ++ [durations (F:=RField) clock (tw_n (o_w s')) (length (sm_cfs m))]) (grad_times t)).
Proof. exact run_later. Qed.
Print Assumptions c71_later_refuted.
Example c71_run_case : forall (rexp : R -> R) (clock : nat -> R) dl, clock 0 = 0%R -> exists s' res, tw_cur (o_w vs0) <> None /\ nth_error (tw_heap (o_w vs0)) 0 = Some new_stats /\
  @timed_run RField rexp wla c0 clock vsim dl LeastSquares LBFGSB vcf wy vstop vs0 = (s', Ok (res, Some 1)) /\ r_status res = 1 /\
  nth_error (tw_heap (o_w s')) 1 = Some (@mkstats RField (Some (clock 0)) (Some (clock 3)) [[(clock 2%nat - clock 1%nat)%R]] []).
Proof. exact stop_case. Qed.

(** ---------- C72: absolute costs ---------- *)
(** the root of the sum of the squares for each evaluation of each run, nan behind the last evaluation *)
Theorem c72_values_partial : forall (runs : list (list (list R))) k, runs <> [] -> 0 < k -> (forall run, In run runs -> run <> [] /\ forall v, In v run -> length v = k) ->
  exists A, @absolute_costs RField sqrt runs = Ok A /\ length A = length runs /\
   forall i run row, nth_error runs i = Some run -> nth_error A i = Some row -> length row = list_max (map (@length _) runs) /\
    (forall j v, nth_error run j = Some v -> nth_error row j = Some (Some (norm2 v))) /\ (forall j, length run <= j < length row -> nth_error row j = Some None).
Proof. exact absolute_values. Qed.
Print Assumptions c72_values_partial.
Example c72_case : @absolute_costs RField sqrt [[[3%R; 4%R]; [0%R; 1%R]]; [[0%R; 2%R]]] = Ok [[Some 5%R; Some 1%R]; [Some 2%R; None]].
Proof. exact absolute_case. Qed.
(** it is not the sum that the docstring promises *)
Theorem c72_sum_refuted : exists (runs : list (list (list R))) v z, In [v] runs /\ @absolute_costs RField sqrt runs = Ok [[Some z]] /\ z <> added v.
Proof. exact absolute_sum. Qed.
Print Assumptions c72_sum_refuted.
(** a run with one cost among runs with k costs: the cost counts k times *)
Theorem c72_broadcast_refuted : forall (v : list R) x k, length v = k -> k <> 1 ->
  @absolute_costs RField sqrt [[v]; [[x]]] = Ok [[Some (norm2 v)]; [Some (norm2 (repeat x k))]].
Proof. exact absolute_broadcast. Qed.
Print Assumptions c72_broadcast_refuted.
(** a container without runs, and runs without stored evaluations *)
Theorem c72_no_runs : @absolute_costs RField sqrt [] = Err ValueError.
Proof. exact absolute_empty. Qed.
Print Assumptions c72_no_runs.
Theorem c72_first_empty : forall runs, @absolute_costs RField sqrt ([] :: runs) = Err IndexError.
Proof. exact absolute_first_empty. Qed.
Print Assumptions c72_first_empty.
Theorem c72_run_empty : forall (rest : list (list (list R))) v r0, In [] rest -> @absolute_costs RField sqrt ((v :: r0) :: rest) = Err ValueError.
Proof. exact absolute_run_empty. Qed.
Print Assumptions c72_run_empty.
