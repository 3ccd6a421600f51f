(** Theorems about qopt/optimize.py, properties C46 to C52 and C62 of properties.jsonl.  Statements only; the proofs are
    in P_Optimizer.v, P_Optimizer2.v, P_Optimizer3.v, P_Anneal.v; the concrete cases and refuting runs in P_OptimizerWit.v. *)
Require Import List Arith Lia Bool ZArith QArith Qcanon Reals String.
From Verif Require Import LibBase LibRing LibArr LibCplx LibMat LibEx M_OpHeap S_Deriv M_Optimizer S_Optimizer P_Optimizer P_Optimizer2 P_Optimizer3 M_Anneal S_Anneal P_Anneal P_OptimizerWit.
Import ListNotations.
Open Scope nat_scope.
Set Implicit Arguments.
Local Notation length := List.length.
Local Notation Q := QcField.
Local Notation qarr := (arr (kcar QcField)).


(** ---------- C46: flat parameters ---------- *)
Theorem c46_round_trip : forall (F : OField) nt nc,
  (forall y : (arr (kcar F)), wfa [nt; nc] y -> same_parameters nt nc y (flatten y) /\ unflatten nt nc (flatten y) = Ok y) /\
  (forall x : (arr (kcar F)), wfa [nt * nc] x -> exists y, unflatten nt nc x = Ok y /\ same_parameters nt nc y x /\ flatten y = x).
Proof. exact @flat_round_trip. Qed.
Print Assumptions c46_round_trip.
Theorem c46_costs : forall (F : OField) (W : Type) (simc : (arr (kcar F)) -> W -> W * res (list F)) (simj : (arr (kcar F)) -> W -> W * res (arr (kcar F))) (cf : @oconf F) (nt nc n : nat) (phi : (arr (kcar F)) -> list F) (J : (arr (kcar F)) -> (arr (kcar F))) (HS : simulates simc simj nt nc n phi J) (HW : forall ws, oc_weights cf = Some ws -> length ws = n) (t0 : F) (s : @ost F W) now x y,
  in_use simc simj cf nt nc t0 s -> kle (ksub now t0) (oc_wall cf) -> same_parameters nt nc y x ->
  weighted (oc_weights cf) (phi y) (answer simc LeastSquares cf s now x).
Proof. exact @answer_least_squares. Qed.
Print Assumptions c46_costs.
Theorem c46_jacobian : forall (F : OField) (W : Type) (simc : (arr (kcar F)) -> W -> W * res (list F)) (simj : (arr (kcar F)) -> W -> W * res (arr (kcar F))) (cf : @oconf F) (nt nc n : nat) (phi : (arr (kcar F)) -> list F) (J : (arr (kcar F)) -> (arr (kcar F))) (HS : simulates simc simj nt nc n phi J) (HW : forall ws, oc_weights cf = Some ws -> length ws = n) (t0 : F) (s : @ost F W) x y,
  in_use simc simj cf nt nc t0 s -> same_parameters nt nc y x ->
  exists s' m, call_jac simj LeastSquares cf x s = (s', Ok m) /\ wfa [n; nt * nc] m /\
   forall t f c, t < nt -> f < n -> c < nc -> get2 k0 m f (c * nt + t) = kmul (get3 k0 (J y) t f c) (weight (oc_weights cf) f).
Proof. exact @jacobian_least_squares. Qed.
Print Assumptions c46_jacobian.
Theorem c46_derivative : forall (W : Type) (simc : (arr (kcar RField)) -> W -> W * res (list RField)) (simj : (arr (kcar RField)) -> W -> W * res (arr (kcar RField))) (cf : @oconf RField) (nt nc n : nat) (phi : (arr (kcar RField)) -> list RField) (J : (arr (kcar RField)) -> (arr (kcar RField))) (HS : simulates simc simj nt nc n phi J) (HW : forall ws, oc_weights cf = Some ws -> length ws = n) (t0 : RField) (s : @ost RField W) now (x y : (arr (kcar RField))),
  in_use simc simj cf nt nc t0 s -> kle (ksub now t0) (oc_wall cf) -> same_parameters nt nc y x -> jacobian_of nt nc n phi J y ->
  exists s' m, call_jac simj LeastSquares cf x s = (s', Ok m) /\ wfa [n; nt * nc] m /\
   forall f j, f < n -> j < nt * nc -> derivable_pt_lim (fun e => nth f (answer simc LeastSquares cf s now (bump1 (nt * nc) x j e)) 0%R) 0 (get2 0%R m f j).
Proof. exact @derivative_least_squares. Qed.
Print Assumptions c46_derivative.
Example c46_case : simulates (@sc2 QcField) (@sj2 QcField) 2 2 2 (@phi2 QcField) (@J2 QcField) /\
  (forall ws, oc_weights (cf2 (Some [qq 2 1; qq 3 1]) true) = Some ws -> length ws = 2) /\
  in_use (@sc2 QcField) (@sj2 QcField) (cf2 (Some [qq 2 1; qq 3 1]) true) 2 2 k1 (@su QcField (Some [qq 2 1; qq 3 1])) /\
  kle (ksub k1 k1) (oc_wall (cf2 (F:=QcField) None true)) /\ same_parameters 2 2 (yu QcField) (flatten (yu QcField)).
Proof. split; [apply sim2|]. split; [apply w2_ok|]. split; [apply su_use|]. split; [apply now_ok|apply yu_same]. Qed.
Example c46_case_real : simulates (@sc2 RField) (@sj2 RField) 2 2 2 (@phi2 RField) (@J2 RField) /\
  in_use (@sc2 RField) (@sj2 RField) (cf2 None true) 2 2 k1 (@su RField None) /\ same_parameters 2 2 (yu RField) (flatten (yu RField)) /\ jacobian_of 2 2 2 (@phi2 RField) (@J2 RField) (yu RField).
Proof. split; [apply sim2|]. split; [apply su_use|]. split; [apply yu_same|apply jac2]. Qed.

(** ---------- C47: scalar objective ---------- *)
Theorem c47_objective : forall (F : OField) (W : Type) (simc : (arr (kcar F)) -> W -> W * res (list F)) (simj : (arr (kcar F)) -> W -> W * res (arr (kcar F))) (cf : @oconf F) (nt nc n : nat) (phi : (arr (kcar F)) -> list F) (J : (arr (kcar F)) -> (arr (kcar F))) (HS : simulates simc simj nt nc n phi J) (HW : forall ws, oc_weights cf = Some ws -> length ws = n) (t0 : F) (s : @ost F W) now x y,
  in_use simc simj cf nt nc t0 s -> kle (ksub now t0) (oc_wall cf) -> same_parameters nt nc y x ->
  answer simc ScalarMin cf s now x = [sumn (S:=KStar F) n (fun f => kmul (nth f (phi y) k0) (weight (oc_weights cf) f))].
Proof. exact @answer_scalar. Qed.
Print Assumptions c47_objective.
Theorem c47_gradient : forall (F : OField) (W : Type) (simc : (arr (kcar F)) -> W -> W * res (list F)) (simj : (arr (kcar F)) -> W -> W * res (arr (kcar F))) (cf : @oconf F) (nt nc n : nat) (phi : (arr (kcar F)) -> list F) (J : (arr (kcar F)) -> (arr (kcar F))) (HS : simulates simc simj nt nc n phi J) (HW : forall ws, oc_weights cf = Some ws -> length ws = n) (t0 : F) (s : @ost F W) x y,
  in_use simc simj cf nt nc t0 s -> same_parameters nt nc y x ->
  exists s' m, call_jac simj ScalarMin cf x s = (s', Ok m) /\ wfa [nt * nc] m /\
   forall t c, t < nt -> c < nc -> get1 k0 m (c * nt + t) = sumn (S:=KStar F) n (fun f => kmul (get3 k0 (J y) t f c) (weight (oc_weights cf) f)).
Proof. exact @jacobian_scalar. Qed.
Print Assumptions c47_gradient.
Theorem c47_derivative : forall (W : Type) (simc : (arr (kcar RField)) -> W -> W * res (list RField)) (simj : (arr (kcar RField)) -> W -> W * res (arr (kcar RField))) (cf : @oconf RField) (nt nc n : nat) (phi : (arr (kcar RField)) -> list RField) (J : (arr (kcar RField)) -> (arr (kcar RField))) (HS : simulates simc simj nt nc n phi J) (HW : forall ws, oc_weights cf = Some ws -> length ws = n) (t0 : RField) (s : @ost RField W) now (x y : (arr (kcar RField))),
  in_use simc simj cf nt nc t0 s -> kle (ksub now t0) (oc_wall cf) -> same_parameters nt nc y x -> jacobian_of nt nc n phi J y ->
  exists s' m, call_jac simj ScalarMin cf x s = (s', Ok m) /\ wfa [nt * nc] m /\
   forall j, j < nt * nc -> derivable_pt_lim (fun e => nth 0 (answer simc ScalarMin cf s now (bump1 (nt * nc) x j e)) 0%R) 0 (get1 0%R m j).
Proof. exact @derivative_scalar. Qed.
Print Assumptions c47_derivative.
Example c47_case : simulates (@sc2 RField) (@sj2 RField) 2 2 2 (@phi2 RField) (@J2 RField) /\
  (forall ws, oc_weights (cf2 (Some [2%R; 3%R] : option (list RField)) true) = Some ws -> length ws = 2) /\
  in_use (@sc2 RField) (@sj2 RField) (cf2 (Some [2%R; 3%R] : option (list RField)) true) 2 2 k1 (@su RField (Some [2%R; 3%R])) /\
  kle (ksub k1 k1) (oc_wall (cf2 (F:=RField) None true)) /\ same_parameters 2 2 (yu RField) (flatten (yu RField)) /\ jacobian_of 2 2 2 (@phi2 RField) (@J2 RField) (yu RField).
Proof. split; [apply sim2|]. split; [apply w2_ok|]. split; [apply su_use|]. split; [apply now_ok|]. split; [apply yu_same|apply jac2]. Qed.

(** ---------- C48: best evaluation ---------- *)
(** without weights; callers do not write to arrays they have passed *)
Theorem c48_best_partial : forall (F : OField) (W : Type) (simc : (arr (kcar F)) -> W -> W * res (list F)) (simj : (arr (kcar F)) -> W -> W * res (arr (kcar F))) (cf : @oconf F) nt nc n (s : @ost F (@record F W)) w now h,
  has_costs simc simj nt nc n -> oc_weights cf = None -> o_w s = (w, [], []) -> Forall no_poke h ->
  exists w' lc lj, o_w (orun (rec_costs simc) (rec_jac simj) cf (prepare cf nt nc now s) h) = (w', lc, lj) /\
    stores_best (orun (rec_costs simc) (rec_jac simj) cf (prepare cf nt nc now s) h) lc.
Proof. exact @best_so_far. Qed.
Print Assumptions c48_best_partial.
Theorem c48_aborted_partial : forall (F : OField) (W : Type) (simc : (arr (kcar F)) -> W -> W * res (list F)) (simj : (arr (kcar F)) -> W -> W * res (arr (kcar F))) kd me cf y0 t0 sp (s s' : @ost F (@record F W)) r n w,
  has_costs simc simj (dim0 y0) (dim1 y0) n -> oc_weights cf = None ->
  o_w s = (w, [], []) -> stopped (rec_costs simc) (rec_jac simj) kd me cf y0 t0 sp s -> run_optimization (rec_costs simc) (rec_jac simj) kd me cf y0 t0 sp s = (s', Ok r) ->
  exists w' lc lj, o_w s' = (w', lc, lj) /\ r_iter r = length lc /\
   ((lc = [] /\ r_cost r = None /\ r_pars r = None) \/ exists i y v, is_best lc i y v /\ r_cost r = Some (Arr [length v] v) /\ r_pars r = Some y).
Proof. exact @stopped_returns_best. Qed.
Print Assumptions c48_aborted_partial.
(** with weights: some evaluation, with its weighted costs *)
Theorem c48_stored_evaluation_partial : forall (F : OField) (W : Type) (simc : (arr (kcar F)) -> W -> W * res (list F)) (simj : (arr (kcar F)) -> W -> W * res (arr (kcar F))) (cf : @oconf F) nt nc n (s : @ost F (@record F W)) w now h,
  has_costs simc simj nt nc n -> (forall ws, oc_weights cf = Some ws -> length ws = n) -> o_w s = (w, [], []) -> Forall no_poke h ->
  let s' := orun (rec_costs simc) (rec_jac simj) cf (prepare cf nt nc now s) h in
  exists w' lc lj, o_w s' = (w', lc, lj) /\ ((lc = [] /\ o_min s' = None /\ o_par s' = None) \/
    exists y v a p, In (y, v) lc /\ o_min s' = Some a /\ weighted (oc_weights cf) v (cells_of s' a) /\ o_par s' = Some p /\ view_of s' p = y).
Proof. exact @stored_is_evaluation. Qed.
Print Assumptions c48_stored_evaluation_partial.
Theorem c48_weights_refuted :
  exists W (simc : qarr -> W -> W * res (list Q)) simj cf nt nc n (s : @ost Q (@record Q W)) w now h, has_costs simc simj nt nc n /\
  (forall ws, oc_weights cf = Some ws -> length ws = n) /\ o_w s = (w, [], []) /\ Forall no_poke h /\
  let s' := orun (rec_costs simc) (rec_jac simj) cf (prepare cf nt nc now s) h in
  exists w' lc lj a p, o_w s' = (w', lc, lj) /\ o_min s' = Some a /\ o_par s' = Some p /\
    (forall y v, In (y, v) lc -> cells_of s' a <> v) /\ (forall i y v, is_best lc i y v -> view_of s' p <> y).
Proof. exact @best_weighted_refuted. Qed.
Print Assumptions c48_weights_refuted.
Theorem c48_alias_refuted :
  exists W (simc : qarr -> W -> W * res (list Q)) simj cf nt nc n (s : @ost Q (@record Q W)) w now h, has_costs simc simj nt nc n /\
  oc_weights cf = None /\ o_w s = (w, [], []) /\
  let s' := orun (rec_costs simc) (rec_jac simj) cf (prepare cf nt nc now s) h in
  exists w' lc lj p, o_w s' = (w', lc, lj) /\ o_par s' = Some p /\ lc <> [] /\ forall y v, In (y, v) lc -> view_of s' p <> y.
Proof. exact @best_alias_refuted. Qed.
Print Assumptions c48_alias_refuted.
Theorem c48_early_abort_refuted :
  exists W (simc : qarr -> W -> W * res (list Q)) simj kd me cf y0 t0 sp n (s s' : @ost Q (@record Q W)) w, has_costs simc simj (dim0 y0) (dim1 y0) n /\
  o_w s = (w, [], []) /\ oc_weights cf = None /\ stopped (rec_costs simc) (rec_jac simj) kd me cf y0 t0 sp s /\ run_optimization (rec_costs simc) (rec_jac simj) kd me cf y0 t0 sp s = (s', Err AttributeError).
Proof. exact @stopped_early_refuted. Qed.
Print Assumptions c48_early_abort_refuted.
Example c48_case : has_costs (@sc2 QcField) (@sj2 QcField) 2 2 2 /\ oc_weights (cf2 (F:=QcField) None true) = None /\ o_w rs0 = (0, [], []) /\ Forall no_poke hist /\
  let s := orun (rec_costs (@sc2 QcField)) (rec_jac (@sj2 QcField)) (cf2 None true) (prepare (cf2 None true) 2 2 (qq 0 1) rs0) hist in o_nc s = 2 /\ o_nj s = 1.
Proof. split; [apply costs2|]. split; [reflexivity|]. split; [reflexivity|]. split; [apply hist_ok|apply hist_counts]. Qed.
Example c48_case_aborted : dim0 (yu QcField) = 2 /\ dim1 (yu QcField) = 2 /\
  stopped (rec_costs (@sc2 QcField)) (rec_jac (@sj2 QcField)) LeastSquares LBFGSB (cf2 None true) (yu QcField) (qq 0 1) prog rs0 /\
  exists s' r, run_optimization (rec_costs (@sc2 QcField)) (rec_jac (@sj2 QcField)) LeastSquares LBFGSB (cf2 None true) (yu QcField) (qq 0 1) prog rs0 = (s', Ok r).
Proof.
  split; [reflexivity|]. split; [reflexivity|]. destruct (@stopped2 LeastSquares None true (or_introl eq_refl)) as [A B]. split; [exact A|exact (B eq_refl)].
Qed.

(** ---------- C49: iteration summary ---------- *)
Theorem c49_summary : forall (F : OField) (W : Type) (simc : (arr (kcar F)) -> W -> W * res (list F)) (simj : (arr (kcar F)) -> W -> W * res (arr (kcar F))) (cf : @oconf F) nt nc n (s : @ost F (@record F W)) w now h,
  has_costs simc simj nt nc n -> (forall ws, oc_weights cf = Some ws -> length ws = n) -> o_w s = (w, [], []) -> Forall no_poke h -> oc_save cf = true ->
  let s' := orun (rec_costs simc) (rec_jac simj) cf (prepare cf nt nc now s) h in
  exists w' lc lj m, o_w s' = (w', lc, lj) /\ o_sum s' = Some m /\ iter_num m = length lc /\ o_nc s' = length lc /\ o_nj s' = length lj /\
    Forall2 (fun e a => weighted (oc_weights cf) (snd e) (cells_of s' a)) lc (sum_costs m) /\ map (view_of s') (sum_pars m) = map fst lc /\ sum_grads m = map snd lj.
Proof. exact @summary_complete. Qed.
Print Assumptions c49_summary.
Theorem c49_counters : forall (F : OField) (W : Type) (simc : (arr (kcar F)) -> W -> W * res (list F)) (simj : (arr (kcar F)) -> W -> W * res (arr (kcar F))) (cf : @oconf F) nt nc n (s : @ost F (@record F W)) w now h,
  has_costs simc simj nt nc n -> (forall ws, oc_weights cf = Some ws -> length ws = n) -> o_w s = (w, [], []) -> Forall no_poke h ->
  let s' := orun (rec_costs simc) (rec_jac simj) cf (prepare cf nt nc now s) h in
  exists w' lc lj, o_w s' = (w', lc, lj) /\ o_nc s' = length lc /\ o_nj s' = length lj.
Proof. exact @counters. Qed.
Print Assumptions c49_counters.
Example c49_case : has_costs (@sc2 QcField) (@sj2 QcField) 2 2 2 /\ (forall ws, oc_weights (cf2 (Some [qq 2 1; qq 3 1]) true) = Some ws -> length ws = 2) /\
  o_w rs0 = (0, [], []) /\ Forall no_poke hist /\ oc_save (cf2 (Some [qq 2 1; qq 3 1]) true) = true.
Proof. split; [apply costs2|]. split; [apply w2_ok|]. split; [reflexivity|]. split; [apply hist_ok|reflexivity]. Qed.

(** ---------- C50: gradient of an aborted run ---------- *)
(** one time step or one control *)
Theorem c50_thin_partial : forall (F : OField) (W : Type) (simc : (arr (kcar F)) -> W -> W * res (list F)) (simj : (arr (kcar F)) -> W -> W * res (arr (kcar F))) kd me cf y0 t0 sp (s s' : @ost F (@record F W)) r n w,
  has_costs simc simj (dim0 y0) (dim1 y0) n -> (forall ws, oc_weights cf = Some ws -> length ws = n) ->
  o_w s = (w, [], []) -> stopped (rec_costs simc) (rec_jac simj) kd me cf y0 t0 sp s -> run_optimization (rec_costs simc) (rec_jac simj) kd me cf y0 t0 sp s = (s', Ok r) ->
  oc_jac cf = true -> dim0 y0 <= 1 \/ dim1 y0 <= 1 ->
  exists sa y m, r_pars r = Some y /\ call_jac (rec_jac simj) kd cf (flatten y) sa = (s', Ok m) /\ o_shape sa = Some (dim0 y0, dim1 y0) /\ r_grad r = Some (sumsq (data m)).
Proof. exact @stopped_gradient. Qed.
Print Assumptions c50_thin_partial.
Theorem c50_refuted :
  exists W (simc : qarr -> W -> W * res (list Q)) simj kd me cf y0 t0 sp n (s s' : @ost Q (@record Q W)) r w, has_costs simc simj (dim0 y0) (dim1 y0) n /\
  o_w s = (w, [], []) /\ oc_weights cf = None /\ oc_jac cf = true /\ stopped (rec_costs simc) (rec_jac simj) kd me cf y0 t0 sp s /\ run_optimization (rec_costs simc) (rec_jac simj) kd me cf y0 t0 sp s = (s', Ok r) /\
  exists y, r_pars r = Some y /\ exists s2 m, call_jac (rec_jac simj) kd cf (flatten y) s' = (s2, Ok m) /\ r_grad r <> Some (sumsq (data m)).
Proof. exact @stopped_gradient_refuted. Qed.
Print Assumptions c50_refuted.
Theorem c50_no_jacobian_refuted :
  exists W (simc : qarr -> W -> W * res (list Q)) simj kd me cf y0 t0 sp n (s s' : @ost Q (@record Q W)) r w, has_costs simc simj (dim0 y0) (dim1 y0) n /\
  o_w s = (w, [], []) /\ oc_weights cf = None /\ dim1 y0 = 1 /\ stopped (rec_costs simc) (rec_jac simj) kd me cf y0 t0 sp s /\ run_optimization (rec_costs simc) (rec_jac simj) kd me cf y0 t0 sp s = (s', Ok r) /\
  exists y, r_pars r = Some y /\ exists s2 m, call_jac (rec_jac simj) kd cf (flatten y) s' = (s2, Ok m) /\ r_grad r = Some k0 /\ r_grad r <> Some (sumsq (data m)).
Proof. exact @stopped_no_jacobian_refuted. Qed.
Print Assumptions c50_no_jacobian_refuted.
Example c50_case : has_costs sct sjt 2 1 1 /\ dim0 yt = 2 /\ dim1 yt = 1 /\ oc_jac (cf2 (F:=QcField) None true) = true /\
  stopped (rec_costs sct) (rec_jac sjt) ScalarMin LBFGSB (cf2 None true) yt (qq 0 1) progt rs0 /\
  exists s' r, run_optimization (rec_costs sct) (rec_jac sjt) ScalarMin LBFGSB (cf2 None true) yt (qq 0 1) progt rs0 = (s', Ok r).
Proof. split; [apply costst|]. split; [reflexivity|]. split; [reflexivity|]. split; [reflexivity|]. apply stoppedt. Qed.

(** ---------- C51: termination conditions ---------- *)
Theorem c51_refuted :
  exists (defaults : dict Z) long evs i j k e1 e2, distinct_keys defaults /\ Forall args_ok evs /\
  nth_error evs i = Some e1 /\ nth_error evs j = Some e2 /\ i < j /\
  read_condition (fold_left (construct long) evs ([defaults], [])) i k <> match overridden defaults [given long e1] k with Some v => Ok v | None => Err KeyError end /\
  exists k', read_condition (fold_left (construct long) evs ([defaults], [])) j k' <> match overridden defaults [given long e2] k' with Some v => Ok v | None => Err KeyError end.
Proof. exact @conditions_refuted. Qed.
Print Assumptions c51_refuted.
Theorem c51_all_arguments : forall (V : Type) long (defaults : (dict V)) (evs : list (tev V)),
  distinct_keys defaults -> Forall args_ok evs ->
  forall i k, i < length evs -> read_condition (fold_left (construct long) evs ([defaults], [])) i k =
   match overridden defaults (map (given long) evs) k with Some v => Ok v | None => Err KeyError end.
Proof. exact @conditions_shared. Qed.
Print Assumptions c51_all_arguments.
Theorem c51_alone_partial : forall (V : Type) long (defaults : (dict V)) (e : tev V),
  distinct_keys defaults -> args_ok e -> forall k,
  read_condition (fold_left (construct long) [e] ([defaults], [])) 0 k = match overridden defaults [given long e] k with Some v => Ok v | None => Err KeyError end.
Proof. exact @conditions_alone. Qed.
Print Assumptions c51_alone_partial.
Example c51_case : distinct_keys tdef /\ Forall args_ok tevs /\ 1 < length tevs.
Proof. split; [apply tdef_distinct|]. split; [apply tevs_ok|cbn; lia]. Qed.

(** ---------- C52: annealing ---------- *)
Theorem c52_move : forall (F : OField) T C z (a : @annealer F) rnd mask p,
  bounds_ok T C a -> an_step a = SInt z -> (0 < z)%Z -> drawn T C z rnd -> wfa [T; C] p ->
  exists p', move a rnd mask p = Ok p' /\ inside T C (an_lo a) (an_hi a) p' /\ (inside T C (an_lo a) (an_hi a) p -> steps T C z (an_ratio a) mask p p').
Proof. exact @move_ok. Qed.
Print Assumptions c52_move.
Theorem c52_run : forall (F : OField) T C z (a : @annealer F) h,
  forall l, bounds_ok T C a -> an_step a = SInt z -> (0 < z)%Z -> draws_ok T C z h -> l <> [] -> Forall (inside T C (an_lo a) (an_hi a)) l ->
  forall l', anneal a l h = Ok l' -> Forall (inside T C (an_lo a) (an_hi a)) l'.
Proof. exact @anneal_ok. Qed.
Print Assumptions c52_run.
Theorem c52_run_total : forall (F : OField) T C z (a : @annealer F) h,
  forall l, bounds_ok T C a -> an_step a = SInt z -> (0 < z)%Z -> draws_ok T C z h -> l <> [] -> Forall (fun p => wfa [T; C] p) l ->
  Forall (fun e => match e with AMove _ _ => True | ABack k => k < length l end) h -> exists l', anneal a l h = Ok l' /\ length l' = length l + length h.
Proof. exact @anneal_total. Qed.
Print Assumptions c52_run_total.
Theorem c52_step_size : forall (F : OField) (a : @annealer F) rnd mask p,
  (forall z, an_step a = SInt z -> (z <= 0)%Z) -> move a rnd mask p = Err ValueError.
Proof. exact @move_step. Qed.
Print Assumptions c52_step_size.
Theorem c52_integer_refuted :
  exists T C z (a : @annealer Q) rnd mask p p', wfa [T; C] (an_lo a) /\ wfa [T; C] (an_hi a) /\
  (forall t c, t < T -> c < C -> kle (get2 k0 (an_lo a) t c) (get2 k0 (an_hi a) t c)) /\ an_step a = SInt z /\ (0 < z)%Z /\ drawn T C z rnd /\ inside T C (an_lo a) (an_hi a) p /\
  move a rnd mask p = Ok p' /\ ~ inside T C (an_lo a) (an_hi a) p'.
Proof. exact @move_integer_refuted. Qed.
Print Assumptions c52_integer_refuted.
Example c52_case : bounds_ok 2 1 ann /\ an_step ann = SInt 2 /\ (0 < 2)%Z /\ drawn 2 1 2 arnd /\ inside 2 1 (an_lo ann) (an_hi ann) apul /\
  draws_ok 2 1 2 [AMove arnd amask; AMove arnd amask; @ABack QcField 1; AMove arnd amask].
Proof. split; [apply ann_bounds|]. split; [reflexivity|]. split; [reflexivity|]. split; [apply arnd_drawn|]. split; [apply apul_inside|apply adraws]. Qed.

(** ---------- C62: time_string ---------- *)
Open Scope Z_scope.
Theorem c62_time_string : forall q,
  exists hs ms ss h m s n, time_string q = (hs ++ ":" ++ ms ++ ":" ++ ss)%string /\ reads hs h /\ reads ms m /\ reads ss s /\
  (4 <= String.length hs)%nat /\ two_digits ms /\ two_digits ss /\ 0 <= m < 60 /\ 0 <= s < 60 /\ ((0 <= q)%Q -> 0 <= h) /\
  rounded q n /\ 3600 * h + 60 * m + s = n.
Proof. exact @time_string_ok. Qed.
Print Assumptions c62_time_string.
Theorem c62_rounded_unique : forall q n m,
  rounded q n -> rounded q m -> n = m.
Proof. exact @rounded_unique. Qed.
Print Assumptions c62_rounded_unique.
Example c62_case : time_string (37230 # 4)%Q = "   2:35:08"%string /\ time_string (15 # 2)%Q = "   0:00:08"%string /\ time_string (13 # 2)%Q = "   0:00:06"%string.
Proof. split; [|split]; vm_compute; reflexivity. Qed.
