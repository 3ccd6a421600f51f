(** C53 with the optimisers of M_Optimizer: what the container holds after a parallel run. *)
Require Import List Arith Lia Bool String Permutation.
From Verif Require Import LibBase LibRing LibArr M_Pool M_Optimizer M_Data S_Data P_Data P_Data2 P_Parallel M_Parallel P_DataWit.
Import ListNotations.
Open Scope list_scope.
Set Implicit Arguments.
Local Notation length := List.length.

Lemma parallel_optimizer (F : OField) (W : Type) (simc : arr F -> W -> W * res (list F)) (simj : arr F -> W -> W * res (arr F)) kd me cf sp ix tick objeq opt (o : @ost F W) oh pulses p0 chunk sched h oh' h' d :
  nth_error oh opt = Some o -> 0 < chunk -> Permutation (map fst sched) (seq 0 (length (chunks chunk pulses))) ->
  run_optimization_parallel objeq (opt_run simc simj kd me cf sp ix tick) opt pulses p0 chunk sched oh h = (oh', (h', Ok d)) ->
  dc_len h' d = Ok (length pulses) /\
  forall i u, nth_error pulses i = Some u -> exists p s r, run_optimization simc simj kd me cf u p sp o = (s, Ok r) /\
    (forall a, r_cost r = Some a -> nth_of h' (d_final_costs d) i (@VObj (pyv F) (PArr F a))) /\
    (forall a, r_pars r = Some a -> nth_of h' (d_final d) i (@VObj (pyv F) (PArr F a))) /\
    nth_of h' (d_status d) i (@VObj (pyv F) (PNat F (r_status r))) /\
    (forall m, r_sum r = Some m ->
       (exists c, nth_of h' (d_costs d) i c /\ list_is h' c (map (fun a => @VObj (pyv F) (PArr F (Arr [length (cells_of s a)] (cells_of s a)))) (sum_costs m))) /\
       (exists c, nth_of h' (d_pars d) i c /\ list_is h' c (map (fun q => @VObj (pyv F) (PArr F (view_of s q))) (sum_pars m)))).
Proof.
  intros Ho Hc Hp E. destruct (@parallel_results _ _ _ _ objeq _ opt o oh pulses p0 chunk sched h oh' h' d ix Ho (@opt_run_indices F W simc simj kd me cf sp ix tick o) Hc Hp E) as [L H]. split; auto.
  intros i u Hu. destruct (H i u Hu) as (q & (p & o1 & p1 & R) & (E1 & _ & E2 & E3 & _ & E4 & E5)). unfold opt_run in R. destruct (run_optimization simc simj kd me cf u p sp o) as [s [r|]] eqn:Er; inversion R; subst. exists p, o1, r. split; auto.
  cbn in E1, E2, E3, E4, E5. split; [intros a Ea; now rewrite Ea in E1|]. split; [intros a Ea; now rewrite Ea in E2|]. split; [exact E3|].
  intros m Em. rewrite Em in E4, E5. auto.
Qed.
