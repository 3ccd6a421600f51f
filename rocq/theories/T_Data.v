(** Theorems about qopt/parallel.py, data_container.py, optimization_data.py and analyser.py, properties C53 to C56 of
    properties.jsonl.  Statements only; the proofs are in P_Data.v, P_Data2.v, P_Data3.v, P_Parallel.v; the concrete cases and refuting
    runs in P_DataWit.v. *)
Require Import List Arith Lia Bool ZArith QArith Qcanon String Permutation.
From Verif Require Import LibBase LibRing LibArr LibCplx LibEx M_OpHeap M_Pool M_Optimizer P_OptimizerWit M_Data S_Data P_Data P_Data2 P_Parallel M_Parallel P_DataWit P_Parallel2 P_Data3.
Import ListNotations.
Open Scope list_scope.
Open Scope nat_scope.
Set Implicit Arguments.
Local Notation concat := List.concat.
Local Notation length := List.length.
Local Notation Q := QcField.

(** ---------- C53: parallel runs ---------- *)
Theorem c53_results : forall (V O P U : Type) (objeq : V -> V -> bool) (run : U -> O * P -> (O * P) * res (rdata V)) opt o oh pulses p0 chunk sched h oh' h' d ix,
  nth_error oh opt = Some o -> has_indices run o ix -> 0 < chunk ->
  Permutation (map fst sched) (seq 0 (length (chunks chunk pulses))) ->
  run_optimization_parallel objeq run opt pulses p0 chunk sched oh h = (oh', (h', Ok d)) ->
  dc_len h' d = Ok (length pulses) /\ forall i u, nth_error pulses i = Some u -> exists r, run_from run o u r /\ entry_is h' d i r.
Proof. exact @parallel_results. Qed.
Print Assumptions c53_results.
Theorem c53_schedule : forall (V O P U : Type) (objeq : V -> V -> bool) (run : U -> O * P -> (O * P) * res (rdata V)) opt o oh pulses p0 chunk sched h oh' h' d ix q,
  nth_error oh opt = Some o -> has_indices run o ix -> 0 < chunk ->
  Permutation (map fst sched) (seq 0 (length (chunks chunk pulses))) -> (forall u p p', snd (run u (o, p)) = snd (run u (o, p'))) ->
  run_optimization_parallel objeq run opt pulses p0 chunk sched oh h = (oh', (h', Ok d)) ->
  forall i u, nth_error pulses i = Some u -> exists r, snd (run u (o, q)) = Ok r /\ entry_is h' d i r.
Proof. exact @parallel_schedule. Qed.
Print Assumptions c53_schedule.
Theorem c53_total : forall (V O P U : Type) (objeq : V -> V -> bool) (run : U -> O * P -> (O * P) * res (rdata V)) opt o oh pulses p0 chunk sched h ix,
  nth_error oh opt = Some o -> has_indices run o ix -> 0 < chunk ->
  Permutation (map fst sched) (seq 0 (length (chunks chunk pulses))) -> (forall u p, In u pulses -> exists s r, run u (o, p) = (s, Ok r)) ->
  exists oh' h' d, run_optimization_parallel objeq run opt pulses p0 chunk sched oh h = (oh', (h', Ok d)).
Proof. exact @parallel_total. Qed.
Print Assumptions c53_total.
Theorem c53_unchanged : forall (V O P U : Type) (objeq : V -> V -> bool) (run : U -> O * P -> (O * P) * res (rdata V)) opt pulses p0 chunk sched oh h oh' x,
  run_optimization_parallel objeq run opt pulses p0 chunk sched oh h = (oh', x) ->
  forall a o, nth_error oh a = Some o -> nth_error oh' a = Some o.
Proof. exact @parallel_unchanged. Qed.
Print Assumptions c53_unchanged.
(** the optimisers of C46 to C50 as workers *)
Theorem c53_optimizer : forall (F : OField) (W : Type) (simc : arr F -> W -> W * res (list F)) (simj : arr F -> W -> W * res (arr F)) kd me cf sp ix tick objeq opt (o : @ost F W) oh pulses p0 chunk sched h oh' h' d,
  nth_error oh opt = Some o -> 0 < chunk -> Permutation (map fst sched) (seq 0 (length (chunks chunk pulses))) ->
  run_optimization_parallel objeq (opt_run simc simj kd me cf sp ix tick) opt pulses p0 chunk sched oh h = (oh', (h', Ok d)) ->
  dc_len h' d = Ok (length pulses) /\
  forall i u, nth_error pulses i = Some u -> exists p s r, run_optimization simc simj kd me cf u p sp o = (s, Ok r) /\
    (forall a, r_cost r = Some a -> nth_of h' (d_final_costs d) i (@VObj (pyv F) (PArr F a))) /\
    (forall a, r_pars r = Some a -> nth_of h' (d_final d) i (@VObj (pyv F) (PArr F a))) /\
    nth_of h' (d_status d) i (@VObj (pyv F) (PNat F (r_status r))) /\
    (forall m, r_sum r = Some m ->
       (exists c, nth_of h' (d_costs d) i c /\ list_is h' c (map (fun a => @VObj (pyv F) (PArr F (Arr [length (cells_of s a)] (cells_of s a)))) (sum_costs m))) /\
       (exists c, nth_of h' (d_pars d) i c /\ list_is h' c (map (fun q => @VObj (pyv F) (PArr F (view_of s q))) (sum_pars m)))).
Proof. exact parallel_optimizer. Qed.
Print Assumptions c53_optimizer.
Example c53_case : nth_error [rs0] 0 = Some rs0 /\ has_indices orun2 rs0 ["c"]%string /\ 0 < 1 /\ Permutation (map fst sched2) (seq 0 (length (chunks 1 [yt; pul2; yt]))) /\
  exists oh h d, run_optimization_parallel pyeq orun2 0 [yt; pul2; yt] (qq 0 1) 1 sched2 [rs0] [] = (oh, (h, Ok d)).
Proof. split; [reflexivity|]. split; [apply opt_run_indices|]. split; [lia|]. split; [apply sched2_ok|apply par2_returns]. Qed.

(** ---------- C54: container as log ---------- *)
Theorem c54_log : forall (V : Type) (objeq : V -> V -> bool) evs,
  Forall event_ok evs ->
  exists ls, logs evs ls /\ length (snd (drun objeq evs)) = length ls /\
   forall i d log, nth_error (snd (drun objeq evs)) i = Some d -> nth_error ls i = Some log -> holds (fst (drun objeq evs)) d log.
Proof. exact @container_log. Qed.
Print Assumptions c54_log.
Theorem c54_rejected : forall (V : Type) (objeq : V -> V -> bool) evs ls i d log r,
  Forall event_ok evs -> logs evs ls -> nth_error (snd (drun objeq evs)) i = Some d -> nth_error ls i = Some log ->
  result_ok r -> ~ accepts log r ->
  exists h', append_optim_result objeq d r (fst (drun objeq evs)) = (h', Err AssertionError) /\
   forall a l, nth_error (fst (drun objeq evs)) a = Some l -> nth_error h' a = Some l.
Proof. exact @container_rejects. Qed.
Print Assumptions c54_rejected.
Theorem c54_accepted : forall (V : Type) (objeq : V -> V -> bool) evs ls i d log r,
  Forall event_ok evs -> logs evs ls -> nth_error (snd (drun objeq evs)) i = Some d -> nth_error ls i = Some log ->
  result_ok r -> accepts log r -> exists h' d', append_optim_result objeq d r (fst (drun objeq evs)) = (h', Ok d') /\ holds h' d' (log ++ [r]).
Proof. exact @container_accepts. Qed.
Print Assumptions c54_accepted.
Example c54_case : Forall event_ok evs /\ logs evs [[rA 10 VNone; rA 20 (VSummary (ob 1) (ob 2))]; [rB 40]] /\
  result_ok (rB 30) /\ ~ accepts [rA 10 VNone; rA 20 (VSummary (ob 1) (ob 2))] (rB 30) /\ accepts [rB 40] (rB 30) /\ length (snd (drun Nat.eqb evs)) = 2.
Proof. split; [apply evs_ok|]. split; [apply evs_logs|]. split; [apply rB_ok|]. split; [apply evs_rejected|]. split; reflexivity. Qed.

(** cost indices that are list objects: compared by their items *)
Theorem c54_list_indices : forall (V : Type) (objeq : V -> V -> bool) (d : dcont V) (r : ores V) (h : lheap V) n l m,
  dc_len h d = Ok (S n) -> list_is h (d_indices d) (map VStr l) -> list_is h (r_indices r) (map VStr m) ->
  (r_summary r = VNone \/ exists c p, r_summary r = VSummary c p) ->
  (snd (append_optim_result objeq d r h) = Err AssertionError <-> l <> m) /\
  (l <> m -> forall a x, nth_error h a = Some x -> nth_error (fst (append_optim_result objeq d r h)) a = Some x).
Proof. exact @list_indices. Qed.
Print Assumptions c54_list_indices.
Example c54_list_case : dc_len hlist dlist = Ok 1 /\ list_is hlist (d_indices dlist) (map VStr ["a"; "b"]%string) /\
  list_is hlist (r_indices (rlist 8)) (map VStr ["a"; "b"]%string) /\ list_is hlist (r_indices (rlist 9)) (map VStr ["a"; "c"]%string) /\
  (exists h' d', append_optim_result Nat.eqb dlist (rlist 8) hlist = (h', Ok d') /\ dc_len h' d' = Ok 2).
Proof. exact list_indices_case. Qed.

(** ---------- C55: serialisation ---------- *)
Theorem c55_dict : forall (V : Type) (objeq : V -> V -> bool) (d : dcont V) h,
  made objeq d -> dc_from_dict (dc_to_dict d) h = (h, Ok d).
Proof. exact @dict_round_trip. Qed.
Print Assumptions c55_dict.
Theorem c55_pickle : forall (V : Type) (objeq : V -> V -> bool) may_write (d : dcont V) filename h fs fs' s,
  made objeq d -> closed h -> closed_container h d ->
  pickle_name d filename = Ok s -> to_pickle may_write d filename h fs = (fs', Ok tt) ->
  forall fs2 (h2 : lheap V), fget fs2 s = fget fs' s ->
  exists h3 d', from_pickle s fs2 h2 = (h2 ++ h3, Ok d') /\ equal_container h d (h2 ++ h3) d' /\ Forall (above (length h2)) (attributes d') /\ Forall (Forall (above (length h2))) h3.
Proof. exact @pickle_round_trip. Qed.
Print Assumptions c55_pickle.
Theorem c55_result_partial : forall (V : Type) (r : ores V),
  result_from_dict (result_to_dict r) =
  Ok (mkres (r_final_cost r) (r_indices r) (r_final r) (r_grad_norm r) (r_init r) (r_num_iter r) (r_reason r) VNone (r_stats r) (r_optimizer r) (r_summary r)).
Proof. exact @result_round_trip. Qed.
Print Assumptions c55_result_partial.
(** which dictionaries are read *)
Theorem c55_container_names : forall (V : Type) (k : kwargs V) (h : lheap V),
  (incl (map fst k) container_names -> exists h' d, dc_from_dict k h = (h', Ok d)) /\
  (~ incl (map fst k) container_names -> dc_from_dict k h = (h, Err TypeError)).
Proof. exact @container_unknown. Qed.
Print Assumptions c55_container_names.
Theorem c55_result_names : forall (V : Type) (k : kwargs V),
  (incl (map fst k) result_names -> exists r, result_from_dict k = Ok r) /\ (~ incl (map fst k) result_names -> result_from_dict k = Err TypeError).
Proof. exact @result_unknown. Qed.
Print Assumptions c55_result_names.
Example c55_names_case : ~ incl (map fst [("final_cost", ob 1)]%string) container_names /\ incl (map fst [("final_cost", ob 1); ("num_iter", ob 3)]%string) result_names.
Proof. exact unknown_case. Qed.
(** the name of the file; exceptions of writing and reading *)
Theorem c55_file_name : forall (V : Type) (d : dcont V) s f, d_storage d = VStr s ->
  (forall g, pickle_name d (VStr g) = Ok g) /\
  (d_file d = VNone -> pickle_name d VNone = Ok s) /\
  (d_file d = VStr f ->
    ((exists g, f = ("/" ++ g)%string) -> pickle_name d VNone = Ok f) /\
    ((forall g, f <> ("/" ++ g)%string) -> s = ""%string \/ (exists t, s = (t ++ "/")%string) -> pickle_name d VNone = Ok (s ++ f)%string) /\
    ((forall g, f <> ("/" ++ g)%string) -> s <> ""%string -> (forall t, s <> (t ++ "/")%string) -> pickle_name d VNone = Ok (s ++ "/" ++ f)%string)).
Proof. exact @pickle_file. Qed.
Print Assumptions c55_file_name.
Theorem c55_file_errors : forall (V : Type) (may_write : string -> bool) (d : dcont V) filename s (h : lheap V) (fs : files V),
  (pickle_name d filename = Ok s -> may_write s = false -> to_pickle may_write d filename h fs = (fs, Err PyException)) /\
  (~ In s (map fst fs) -> from_pickle s fs h = (h, Err PyException)).
Proof. exact @pickle_errors. Qed.
Print Assumptions c55_file_errors.
Example c55_file_case : (forall g, "x.pkl"%string <> ("/" ++ g)%string) /\ "/data"%string <> ""%string /\ (forall t, "/data"%string <> (t ++ "/")%string) /\
  d_storage dmade = VStr "/data"%string /\ pickle_name dmade VNone = Ok "/data/x.pkl"%string.
Proof. destruct file_case as (A & B & C & D). repeat split; auto. Qed.
Theorem c55_result_refuted :
  exists (r r' : ores nat), result_from_dict (result_to_dict r) = Ok r' /\ r_stat r = ob 5 /\ r_stat r' <> r_stat r.
Proof. exact @result_status_refuted. Qed.
Print Assumptions c55_result_refuted.
Theorem c55_none_indices_refuted :
  exists (d0 d d' : dcont nat) r h0 h h', new_container [] [] = (h0, Ok d0) /\ append_optim_result Nat.eqb d0 r h0 = (h, Ok d) /\
  dc_from_dict (dc_to_dict d) h = (h', Ok d') /\ d_indices d' <> d_indices d.
Proof. exact @none_indices_refuted. Qed.
Print Assumptions c55_none_indices_refuted.
Theorem c55_shared_refuted :
  exists (d d' d2 : dcont nat) r h h1 h2, made Nat.eqb d /\ dc_from_dict (dc_to_dict d) h = (h1, Ok d') /\ result_ok r /\
  append_optim_result Nat.eqb d' r h1 = (h2, Ok d2) /\ dc_len h1 d = Ok 1 /\ dc_len h2 d = Ok 2.
Proof. exact @dict_shares_refuted. Qed.
Print Assumptions c55_shared_refuted.
Example c55_case : made Nat.eqb dmade /\ closed hmade /\ closed_container hmade dmade /\ pickle_name dmade VNone = Ok "/data/x.pkl"%string /\
  exists fs, to_pickle (fun _ => true) dmade VNone hmade [] = (fs, Ok tt).
Proof. split; [apply dmade_made|]. split; [apply hmade_closed|]. split; [apply hmade_closed|]. apply dmade_pickle. Qed.

(** ---------- C56: run selection ---------- *)
Theorem c56_best : forall (F : OField) (l : list (fcost F)),
  uniform l -> l <> [] -> exists i, n_least_square l = Ok i /\ first_min (map (@total F) l) i.
Proof. exact @best_run. Qed.
Print Assumptions c56_best.
Theorem c56_unique : forall (F : OField) (l : list F) i j,
  first_min l i -> first_min l j -> i = j.
Proof. exact @first_min_unique. Qed.
Print Assumptions c56_unique.
Theorem c56_value_error : forall (F : OField) (l : list (fcost F)),
  l = [] \/ ~ uniform l -> n_least_square l = Err ValueError.
Proof. exact @no_best_run. Qed.
Print Assumptions c56_value_error.
Example c56_case : uniform runs /\ runs <> [] /\ n_least_square runs = Ok 1.
Proof. split; [apply runs_uniform|]. split; [discriminate|apply runs_best]. Qed.
