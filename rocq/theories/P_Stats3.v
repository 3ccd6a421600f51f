(** Recording does not change a run; what a run records; the shares of the analyser (C71). *)
Require Import List Arith Lia Bool Reals Lra.
From Verif Require Import LibBase LibRing LibArr LibCplx LibMat M_Matrix M_OpHeap M_Transfer M_Amplitude M_Solver M_Cost M_Simulator M_Optimizer M_Stats S_Stats P_Stats P_Stats2.
Import ListNotations.
Set Implicit Arguments.

(** ---- the wrappers commute with a projection of the simulator's state ---- *)
Section Proj.
Variable F : OField.
Variables W V : Type.
Variable pr : W -> V.
Notation arrF := (arr (kcar F)).
Variable simc : arrF -> W -> W * res (list F).
Variable simj : arrF -> W -> W * res arrF.
Variable simc' : arrF -> V -> V * res (list F).
Variable simj' : arrF -> V -> V * res arrF.
Hypothesis HC : forall y w, simc' y (pr w) = (pr (fst (simc y w)), snd (simc y w)).
Hypothesis HJ : forall y w, simj' y (pr w) = (pr (fst (simj y w)), snd (simj y w)).
Definition pj (s : @ost F W) : @ost F V := mko (o_heap s) (pr (o_w s)) (o_shape s) (o_min s) (o_par s) (o_nc s) (o_nj s) (o_sum s) (o_start s).
Definition pj2 {A} (p : @ost F W * res A) : @ost F V * res A := (pj (fst p), snd p).
Lemma pj_cost cf x now s : cost_func_wrapper simc' cf x now (pj s) = pj2 (cost_func_wrapper simc cf x now s).
Proof.
  destruct s as [h w sh mi pa n1 n2 su st]. unfold cost_func_wrapper, pj2. cbn [pj o_start o_shape o_heap o_w]. destruct (kltb _ _); [reflexivity|].
  destruct sh as [[nt nc]|]; [|reflexivity]. destruct (nth_error h x) as [xa|]; [|reflexivity].
  destruct (unflatten nt nc xa) as [y|]; [|reflexivity]. rewrite HC. destruct (simc y w) as [w' [v|]]; [|reflexivity].
  unfold store_summary, store_min, smaller, cells_of. cbn [pj o_heap o_w o_shape o_min o_par o_nc o_nj o_sum o_start with_heap with_w with_sum fst snd].
  destruct (oc_save cf); [destruct su as [sm|]; [|reflexivity]|];
    cbn [pj o_heap o_w o_shape o_min o_par o_nc o_nj o_sum o_start with_heap with_w with_sum fst snd]; (destruct mi as [b|]; [match goal with |- context [kltb ?a ?b] => destruct (kltb a b) end|]);
    (destruct (oc_weights cf); [|reflexivity]); cbn [pj o_heap o_w o_shape o_min o_par o_nc o_nj o_sum o_start with_heap with_w with_sum with_min];
    match goal with |- context [scale_costs ?a ?b] => destruct (scale_costs a b) end; reflexivity.
Qed.
Lemma pj_jac cf x s : cost_jacobian_wrapper simj' cf x (pj s) = pj2 (cost_jacobian_wrapper simj cf x s).
Proof.
  destruct s as [h w sh mi pa n1 n2 su st]. unfold cost_jacobian_wrapper, pj2. cbn [pj o_start o_shape o_heap o_w]. destruct sh as [[nt nc]|]; [|reflexivity].
  destruct (unflatten nt nc x) as [y|]; [|reflexivity]. rewrite HJ. destruct (simj y w) as [w' [v|]]; [|reflexivity]. cbn [pj o_heap o_w o_shape o_min o_par o_nc o_nj o_sum o_start with_heap with_w with_sum fst snd].
  destruct (oc_save cf); [destruct su as [sm|]; [|reflexivity]|]; destruct (bind _ _); reflexivity.
Qed.
Lemma pj_call_cost kd cf x now s : call_cost simc' kd cf x now (pj s) = pj2 (call_cost simc kd cf x now s).
Proof. unfold call_cost, scalar_cost. destruct kd; rewrite pj_cost; destruct (cost_func_wrapper simc cf x now s) as [s' [v|]]; reflexivity. Qed.
Lemma pj_call_jac kd cf x s : call_jac simj' kd cf x (pj s) = pj2 (call_jac simj kd cf x s).
Proof. unfold call_jac, scalar_jac. destruct kd; rewrite pj_jac; auto. destruct (cost_jacobian_wrapper simj cf x s) as [s' [v|]]; reflexivity. Qed.
Lemma pj_interp kd cf g p : forall s, interp simc' simj' kd cf g p (pj s) = pj2 (interp simc simj kd cf g p s).
Proof.
  induction p as [r|x now k IH|x k IH]; intros s; cbn [interp]; auto.
  - change (with_heap (pj s) (o_heap (pj s) ++ [x])) with (pj (with_heap s (o_heap s ++ [x]))). rewrite pj_call_cost. cbn [pj o_heap].
    destruct (call_cost simc _ _ _ _ _) as [s' [v|]]; cbn [pj2 fst snd]; auto.
  - destruct g; auto. rewrite pj_call_jac. destruct (call_jac simj _ _ _ _) as [s' [v|]]; cbn [pj2 fst snd]; auto.
Qed.
Lemma pj_write kd cf s : write_state_to_result simj' kd cf (pj s) = pj2 (write_state_to_result simj kd cf s).
Proof.
  unfold write_state_to_result. destruct (oc_jac cf); auto. cbn [pj o_par]. destruct (o_par s) as [p|]; auto.
  change (view_of _ p) with (view_of s p) at 1. fold (pj s). rewrite pj_call_jac. destruct (call_jac simj _ _ _ _) as [s' [v|]]; reflexivity.
Qed.
End Proj.

Section Run.
Variable F : OField.
Variable rexp : F -> F.
Variable la : LinAlg F.
Variable eps : cplx F.
Variable clock : nat -> F.
Notation arrF := (arr (kcar F)).
Notation tw := (@tw F).
Notation erased := (pj (@tw_w F)).

Lemma end_world (w : tw) : tw_w (end_stats clock w) = tw_w w.
Proof. unfold end_stats. destruct (tw_cur w) as [a|] eqn:E; auto. unfold tbind, now, upd. cbn [tw_cur]. now rewrite E. Qed.
Lemma end_cur (w : tw) : tw_cur (end_stats clock w) = tw_cur w.
Proof. unfold end_stats. destruct (tw_cur w) as [a|] eqn:E; auto. unfold tbind, now, upd. cbn [tw_cur]. now rewrite E. Qed.
Lemma begin_world t0 (w : tw) : tw_w (begin_stats t0 w) = tw_w w.
Proof. unfold begin_stats. now destruct (tw_cur w). Qed.
Lemma erased_ends (s : @ost F tw) : erased (with_w s (end_stats clock (o_w s))) = erased s.
Proof. unfold pj. cbn [with_w o_heap o_w o_shape o_min o_par o_nc o_nj o_sum o_start]. now rewrite end_world. Qed.

Theorem run_erases m dl kd me cf y0 sp s : run_optimization (fun y => wrapped_cost rexp la eps m (Some y)) (fun y => wrapped_jac rexp la eps m (Some y) dl) kd me cf y0 (clock (tw_n (o_w s))) sp (erased s)
  = (erased (fst (timed_run rexp la eps clock m dl kd me cf y0 sp s)), match snd (timed_run rexp la eps clock m dl kd me cf y0 sp s) with Ok (r, _) => Ok r | Err e => Err e end).
Proof.
  unfold run_optimization, timed_run. destruct (negb _); auto. unfold now at 1 2. cbv zeta.
  set (w1 := begin_stats _ _). set (t0 := clock (tw_n (o_w s))).
  replace (prepare cf (dim0 y0) (dim1 y0) t0 (erased s)) with (erased (prepare cf (dim0 y0) (dim1 y0) t0 (with_w s w1))).
  2:{ unfold pj, prepare. cbn [with_w o_heap o_w o_shape o_min o_par o_nc o_nj o_sum o_start]. unfold w1. now rewrite begin_world. }
  rewrite (@pj_interp F tw _ (@tw_w F) (fun y => timed_cost rexp la eps clock m (Some y)) (fun y => timed_jac rexp la eps clock m (Some y) dl)).
  2:{ intros y w. apply timed_cost_erases. }
  2:{ intros y w. apply timed_jac_erases. }
  destruct (interp _ _ kd cf _ _ _) as [s2 [r|e]]; unfold pj2; cbn [fst snd].
  - destruct (unflatten _ _ _) as [y|e].
    + destruct kd; cbn [fst snd]; rewrite ?erased_ends; reflexivity.
    + destruct kd; cbn [fst snd]; rewrite ?erased_ends; reflexivity.
  - destruct e; cbn [fst snd]; auto. rewrite <- (erased_ends s2).
    rewrite (@pj_write F tw _ (@tw_w F) (fun y => timed_jac rexp la eps clock m (Some y) dl)).
    2:{ intros y w. apply timed_jac_erases. }
    destruct (write_state_to_result _ kd cf _) as [s3 [res|e]]; unfold pj2; cbn [fst snd]; auto. destruct kd; rewrite ?erased_ends; reflexivity.
Qed.

(** ---- the numeric jacobian records evaluations of the costs ---- *)
Definition grows {A} (n k : nat) (t : tm F A) : Prop := forall a st w w' v, tw_cur w = Some a -> nth_error (tw_heap w) a = Some st -> t w = (w', Ok v) ->
  exists rows, length rows = k /\ Forall (fun q : list F => length q = n) rows /\ tw_cur w' = Some a /\
    nth_error (tw_heap w') a = Some (mkstats (t_begin st) (t_end st) (cost_times st ++ rows) (grad_times st)).
Lemma grows_ret {A} n (r : res A) : grows n 0 (tret r).
Proof. intros a [tb te tc tg] w w' v Hc Hs E. injection E as <- _. exists []. cbn. rewrite app_nil_r. auto. Qed.
Lemma grows_bind {A B} n k1 k2 (t : tm F A) (k : A -> tm F B) : grows n k1 t -> (forall x, grows n k2 (k x)) -> grows n (k1 + k2) (tbind t k).
Proof.
  intros H1 H2 a st w w' v Hc Hs. unfold tbind. destruct (t w) as [w1 [x|]] eqn:E1; [|discriminate]. intros E2.
  destruct (H1 a st w w1 x Hc Hs E1) as (r1 & L1 & R1 & C1 & S1). destruct (H2 x a _ w1 w' v C1 S1 E2) as (r2 & L2 & R2 & C2 & S2).
  exists (r1 ++ r2). rewrite app_length. split; [congruence|]. split; [apply Forall_app; auto|]. split; auto. rewrite S2. cbn. now rewrite app_assoc.
Qed.
Lemma grows_map {A B} n k (f : A -> tm F B) l : (forall x, grows n k (f x)) -> grows n (length l * k) (tmap f l).
Proof.
  intros H. induction l as [|x l IH]; cbn [tmap length Nat.mul]; [apply grows_ret|]. apply grows_bind; [apply H|]. intros y.
  rewrite <- (Nat.add_0_r (length l * k)). apply grows_bind; [exact IH|]. intros. apply grows_ret.
Qed.
Lemma durations_len k n : length (durations clock k n) = n.
Proof. unfold durations. now rewrite map_length, seq_length. Qed.
Lemma grows_cost m p : grows (length (sm_cfs m)) 1 (timed_cost rexp la eps clock m p).
Proof.
  intros a st w w' v Hc Hs E. destruct (@cost_records F rexp la eps clock m p w w' v a st Hc Hs E) as (H1 & H2 & _). exists [durations clock (tw_n w) (length (sm_cfs m))].
  split; auto. split; [constructor; auto; apply durations_len|]. split; auto. rewrite H1. eapply lset_nth; eauto.
Qed.
Lemma grows_ok {A B} n k x (h : A -> tm F B) : grows n k (h x) -> grows n k (tbind (tret (Ok x)) h).
Proof. intros H. exact H. Qed.
Lemma grows_numeric m (y : arrF) dl (sym : bool) : grows (length (sm_cfs m)) (1 + dim0 y * (dim1 y * (if sym then 2 else 1))) (timed_numeric rexp la eps clock m (Some y) dl sym).
Proof.
  unfold timed_numeric. apply grows_ok.
  apply grows_bind; [apply grows_cost|]. intros cn. destruct (negb _); [intros a st w w' v _ _ E; discriminate|].
  rewrite <- (Nat.add_0_r (dim0 y * _)). apply grows_bind; [|intros; apply grows_ret]. rewrite <- (seq_length (dim0 y) 0) at 1. apply grows_map. intros t.
  rewrite <- (seq_length (dim1 y) 0) at 1. apply grows_map. intros c. destruct sym.
  - apply (@grows_bind _ _ _ 1 1); [apply grows_cost|]. intros fw. apply (@grows_bind _ _ _ 1 0); [apply grows_cost|]. intros. apply grows_ret.
  - apply (@grows_bind _ _ _ 1 0); [apply grows_cost|]. intros fw. apply grows_ret.
Qed.

Theorem numeric_records m (y : arrF) dl w w' v a t : sm_numeric m = true -> tw_cur w = Some a -> nth_error (tw_heap w) a = Some t -> timed_jac rexp la eps clock m (Some y) dl w = (w', Ok v) ->
  exists rows, length rows = 1 + dim0 y * dim1 y /\ Forall (fun q : list F => length q = length (sm_cfs m)) rows /\ tw_cur w' = Some a /\
   nth_error (tw_heap w') a = Some (mkstats (t_begin t) (t_end t) (cost_times t ++ rows) (grad_times t)).
Proof.
  intros Hn Hc Hs E. unfold timed_jac in E. rewrite Hn in E. destruct (@grows_numeric m y dl false a t w w' v Hc Hs E) as (rows & L & H). exists rows. split; [|exact H]. rewrite L. now rewrite Nat.mul_1_r.
Qed.
(** ---- rows are complete as long as no evaluation raises ---- *)
Definition rect (a n : nat) (w : tw) : Prop := tw_cur w = Some a /\ exists t, nth_error (tw_heap w) a = Some t /\ Forall (fun q : list F => length q = n) (cost_times t) /\ Forall (fun q : list F => length q = n) (grad_times t).
Lemma rect_cost m p a w w' v : rect a (length (sm_cfs m)) w -> timed_cost rexp la eps clock m p w = (w', Ok v) -> rect a (length (sm_cfs m)) w'.
Proof.
  intros (Hc & t & Hs & R1 & R2) E. destruct (@grows_cost m p a t w w' v Hc Hs E) as (rows & _ & HR & C & S). split; auto. eexists. split; [exact S|]. cbn. split; auto. apply Forall_app; auto.
Qed.
Lemma rect_jac m y dl a w w' v : rect a (length (sm_cfs m)) w -> timed_jac rexp la eps clock m (Some y) dl w = (w', Ok v) -> rect a (length (sm_cfs m)) w'.
Proof.
  intros (Hc & t & Hs & R1 & R2) E. destruct (sm_numeric m) eqn:N.
  - unfold timed_jac in E. rewrite N in E. destruct (@grows_numeric m y dl false a t w w' v Hc Hs E) as (rows & _ & HR & C & S). split; auto. eexists. split; [exact S|]. cbn. split; auto. apply Forall_app; auto.
  - destruct (@grad_records F rexp la eps clock m (Some y) dl w w' v a t N Hc Hs E) as (H1 & H2 & _). split; auto. eexists. split; [rewrite H1; eapply lset_nth; eauto|]. cbn. split; auto.
    apply Forall_app. split; auto. constructor; auto. apply durations_len.
Qed.
Lemma rect_end a n w : rect a n w -> rect a n (end_stats clock w) /\ exists t, nth_error (tw_heap (end_stats clock w)) a = Some t /\ t_end t <> None.
Proof.
  intros (Hc & t & Hs & R1 & R2). unfold end_stats. rewrite Hc. unfold tbind, now, upd. cbn [tw_cur tw_heap tw_n tw_w]. rewrite Hc, Hs. unfold rect. cbn [fst tw_cur tw_heap]. split.
  - split; auto. eexists. split; [eapply lset_nth; eauto|]. auto.
  - eexists. split; [eapply lset_nth; eauto|]. discriminate.
Qed.
Lemma cur_begin t0 (w : tw) : tw_cur w <> None -> begin_stats t0 w = mktw (tw_w w) (tw_heap w ++ [mkstats (Some t0) None [] []]) (Some (length (tw_heap w))) (tw_n w).
Proof. unfold begin_stats. now destruct (tw_cur w). Qed.
Lemma nth_snoc {A} (l : list A) x : nth_error (l ++ [x]) (length l) = Some x.
Proof. rewrite nth_error_app2, Nat.sub_diag by lia. reflexivity. Qed.
End Run.
Theorem run_same F rexp (la : LinAlg F) eps clock m dl kd me cf y0 sp (s : @ost F (@tw F)) :
  let simc := fun y => wrapped_cost rexp la eps m (Some y) in let simj := fun y => wrapped_jac rexp la eps m (Some y) dl in
  let '(s', r) := timed_run rexp la eps clock m dl kd me cf y0 sp s in
  run_optimization simc simj kd me cf y0 (clock (tw_n (o_w s))) sp (mko (o_heap s) (tw_w (o_w s)) (o_shape s) (o_min s) (o_par s) (o_nc s) (o_nj s) (o_sum s) (o_start s))
  = (mko (o_heap s') (tw_w (o_w s')) (o_shape s') (o_min s') (o_par s') (o_nc s') (o_nj s') (o_sum s') (o_start s'), match r with Ok (x, _) => Ok x | Err e => Err e end).
Proof.
  cbv zeta. assert (H := @run_erases F rexp la eps clock m dl kd me cf y0 sp s). destruct (timed_run rexp la eps clock m dl kd me cf y0 sp s) as [s' r]. exact H.
Qed.
Theorem cost_adds F rexp (la : LinAlg F) eps clock m p (w w' : @tw F) v a t :
  tw_cur w = Some a -> nth_error (tw_heap w) a = Some t -> timed_cost rexp la eps clock m p w = (w', Ok v) ->
  nth_error (tw_heap w') a = Some (mkstats (t_begin t) (t_end t) (cost_times t ++ [durations clock (tw_n w) (length (sm_cfs m))]) (grad_times t)) /\
  (forall i, i <> a -> nth_error (tw_heap w') i = nth_error (tw_heap w) i) /\ tw_cur w' = Some a /\ tw_n w' = tw_n w + 2 * length (sm_cfs m).
Proof.
  intros Hc Hs E. destruct (@cost_records F rexp la eps clock m p w w' v a t Hc Hs E) as (H & H2 & H3). rewrite H. split; [eapply lset_nth; eauto|]. split; [|auto]. intros i Hi. apply lset_other. auto.
Qed.
Theorem grad_adds F rexp (la : LinAlg F) eps clock m p dl (w w' : @tw F) v a t : sm_numeric m = false ->
  tw_cur w = Some a -> nth_error (tw_heap w) a = Some t -> timed_jac rexp la eps clock m p dl w = (w', Ok v) ->
  nth_error (tw_heap w') a = Some (mkstats (t_begin t) (t_end t) (cost_times t) (grad_times t ++ [durations clock (tw_n w) (length (sm_cfs m))])) /\
  (forall i, i <> a -> nth_error (tw_heap w') i = nth_error (tw_heap w) i) /\ tw_cur w' = Some a /\ tw_n w' = tw_n w + 2 * length (sm_cfs m).
Proof.
  intros Hn Hc Hs E. destruct (@grad_records F rexp la eps clock m p dl w w' v a t Hn Hc Hs E) as (H & H2 & H3). rewrite H. split; [eapply lset_nth; eauto|]. split; [|auto]. intros i Hi. apply lset_other. auto.
Qed.
