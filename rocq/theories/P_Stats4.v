(** The statistics in the result of a run, and the shares of the analyser (C71). *)
Require Import List Arith Lia Bool Reals Lra.
From Verif Require Import LibBase LibRing LibArr LibCplx LibMat M_Matrix M_OpHeap M_Transfer M_Amplitude M_Solver M_Cost M_Simulator M_Optimizer M_Stats S_Stats P_Stats P_Stats2 P_Stats3.
Import ListNotations.
Set Implicit Arguments.

Section Run.
Variable rexp : R -> R.
Variable la : LinAlg RField.
Variable eps : cplx RField.
Variable clock : nat -> R.
Hypothesis Hm : monotone clock.
Notation arrR := (arr (kcar RField)).
Notation tw := (@tw RField).
Notation stats := (@stats RField).
Notation run m dl kd me cf y0 sp s := (@timed_run RField rexp la eps clock m dl kd me cf y0 sp s).

(** the end of the run is at or behind everything recorded *)
Definition closed (b : R) (t : stats) : Prop := t_begin t = Some b /\ positive (cost_times t) /\ positive (grad_times t) /\ exists e, t_end t = Some e /\ (b + total (cost_times t) + total (grad_times t) <= e)%R.
Lemma fits_end a b (w : tw) : fits clock a b w -> fits clock a b (end_stats (F:=RField) clock w) /\ exists t, nth_error (tw_heap (end_stats (F:=RField) clock w)) a = Some t /\ closed b t.
Proof.
  intros (Hc & t & Hs & B & P1 & P2 & L). unfold end_stats. rewrite Hc. unfold tbind, now, upd. cbn [tw_cur tw_heap tw_n tw_w]. rewrite Hc, Hs. unfold fits. cbn [fst tw_cur tw_heap tw_n].
  assert (X := Hm (tw_n w)). split.
  - split; auto. eexists. split; [eapply lset_nth; eauto|]. cbn [t_begin cost_times grad_times]. repeat (split; [assumption|]). lra.
  - eexists. split; [eapply lset_nth; eauto|]. unfold closed. cbn [t_begin t_end cost_times grad_times]. repeat (split; [assumption|]). eexists. split; [reflexivity|]. exact L.
Qed.
Lemma begin_fits (w : tw) : tw_cur w <> None ->
  fits clock (length (tw_heap w)) (clock (tw_n w)) (begin_stats (F:=RField) (clock (tw_n w)) (mktw (tw_w w) (tw_heap w) (tw_cur w) (S (tw_n w)))).
Proof.
  intros H. rewrite cur_begin by exact H. split; [reflexivity|]. eexists. cbn [tw_heap tw_n]. split; [apply nth_snoc|]. cbn [t_begin cost_times grad_times]. split; auto.
  split; [constructor|]. split; [constructor|]. unfold total, lsum. cbn. assert (X := Hm (tw_n w)). lra.
Qed.

Theorem run_fits m dl kd me cf y0 sp s s' res a : tw_cur (o_w s) <> None -> run m dl kd me cf y0 sp s = (s', Ok (res, Some a)) ->
  oc_jac cf = false \/ kd = ScalarMin \/ r_status res <> 5 ->
  exists t, nth_error (tw_heap (o_w s')) a = Some t /\ closed (clock (tw_n (o_w s))) t.
Proof.
  intros Hc E Hk. unfold timed_run in E. destruct (negb _) in E; [discriminate|]. unfold now at 1 in E. cbv zeta in E.
  assert (X := @begin_fits (o_w s) Hc). set (w1 := begin_stats _ _) in *. set (s1 := prepare _ _ _ _ _) in E. change (fits clock (length (tw_heap (o_w s))) (clock (tw_n (o_w s))) (o_w s1)) in X.
  set (b := clock (tw_n (o_w s))) in *. set (a0 := length (tw_heap (o_w s))) in *.
  set (simc := fun y : arrR => @timed_cost RField rexp la eps clock m (Some y)) in E. set (simj := fun y : arrR => @timed_jac RField rexp la eps clock m (Some y) dl) in E.
  assert (HC : forall y w, fits clock a0 b w -> fits clock a0 b (fst (simc y w))) by (intros y w; exact (@fits_cost rexp la eps clock Hm a0 b m (Some y) w)).
  assert (HJ : forall y w, fits clock a0 b w -> fits clock a0 b (fst (simj y w))) by (intros y w; exact (@fits_jac rexp la eps clock Hm a0 b m (Some y) dl w)).
  set (g := (oc_jac cf && _)%bool) in E. assert (Y := @interp_keeps RField tw simc simj (fits clock a0 b) HC HJ kd cf g (sp (flatten y0)) s1 X).
  destruct (interp simc simj kd cf g (sp (flatten y0)) s1) as [s2 [r|e]]; cbn [fst] in Y; destruct (fits_end Y) as [Y1 (t & T1 & T2)].
  - destruct (unflatten _ _ _) as [y|]; [|discriminate].
    assert (tw_cur (end_stats (F:=RField) clock (o_w s2)) = Some a0) as C1 by (rewrite end_cur; apply Y).
    destruct kd; injection E as <- _ Ea; cbn [with_w o_w] in *; rewrite C1 in Ea; injection Ea as <-; eauto.
  - destruct e; try discriminate.
    destruct (oc_jac cf) eqn:EJ.
    + destruct (write_state_to_result simj kd cf _) as [s3 [re|]] eqn:EW; [|discriminate].
      destruct kd.
      * injection E as <- <- _. exfalso. unfold write_state_to_result in EW. rewrite EJ in EW. destruct (o_par _) as [vw|] in EW; [|discriminate].
        destruct (call_jac _ _ _ _ _) as [s4 [v4|]] in EW; [|discriminate]. injection EW as _ <-. cbn in Hk. destruct Hk as [Hk|[Hk|Hk]]; congruence.
      * assert (Z := @write_keeps RField tw simj (fits clock a0 b) HJ ScalarMin cf (with_w s2 (end_stats (F:=RField) clock (o_w s2))) Y1). rewrite EW in Z. cbn [fst] in Z.
        destruct (fits_end Z) as [Z1 (t' & T1' & T2')]. assert (tw_cur (end_stats (F:=RField) clock (o_w s3)) = Some a0) as C1 by (rewrite end_cur; apply Z).
        injection E as <- _ Ea. cbn [with_w o_w] in *. rewrite C1 in Ea. injection Ea as <-. eauto.
    + unfold write_state_to_result in E. rewrite EJ in E. destruct (fits_end Y1) as [Y2 (t' & T1' & T2')]. cbn [with_w o_w] in E.
      assert (tw_cur (end_stats (F:=RField) clock (o_w s2)) = Some a0) as C1 by (rewrite end_cur; apply Y).
      destruct kd; injection E as <- _ Ea; cbn [with_w o_w] in *; rewrite ?end_cur in Ea; rewrite (proj1 Y) in Ea; injection Ea as <-; eauto.
Qed.

(** a run uses a new object and leaves the others alone, however it ends *)
Lemma others_end a h (w : tw) : others a h w -> others a h (end_stats (F:=RField) clock w).
Proof.
  intros H. unfold end_stats. rewrite (proj1 H). unfold tbind, now. apply others_upd. exact H.
Qed.
Theorem run_others m dl kd me cf y0 sp s i t : nth_error (tw_heap (o_w s)) i = Some t -> tw_cur (o_w s) <> None ->
  nth_error (tw_heap (o_w (fst (run m dl kd me cf y0 sp s)))) i = Some t.
Proof.
  intros Hi Hc. unfold timed_run. destruct (negb _); [exact Hi|]. unfold now at 1. cbv zeta.
  set (w1 := begin_stats _ _). set (s1 := prepare _ _ _ _ _).
  assert (X : others (length (tw_heap (o_w s))) (tw_heap w1) (o_w s1)). { split; [|split; auto]. change (o_w s1) with w1. unfold w1. rewrite cur_begin by exact Hc. reflexivity. }
  set (a0 := length (tw_heap (o_w s))) in *. set (h := tw_heap w1) in *.
  assert (Hlt : i < a0) by (unfold a0; apply nth_error_Some; congruence).
  assert (Hh : nth_error h i = Some t). { unfold h, w1. rewrite cur_begin by exact Hc. cbn [tw_heap]. rewrite nth_error_app1 by exact Hlt. exact Hi. }
  assert (K : forall w, others a0 h w -> nth_error (tw_heap w) i = Some t) by (intros w (_ & _ & K); rewrite K by lia; exact Hh).
  set (simc := fun y : arrR => @timed_cost RField rexp la eps clock m (Some y)). set (simj := fun y : arrR => @timed_jac RField rexp la eps clock m (Some y) dl).
  assert (HC : forall y w, others a0 h w -> others a0 h (fst (simc y w))) by (intros y w; exact (@others_cost rexp la eps clock a0 h m (Some y) w)).
  assert (HJ : forall y w, others a0 h w -> others a0 h (fst (simj y w))) by (intros y w; exact (@others_jac rexp la eps clock a0 h m (Some y) dl w)).
  set (g := (oc_jac cf && _)%bool). assert (Y := @interp_keeps RField tw simc simj (others a0 h) HC HJ kd cf g (sp (flatten y0)) s1 X).
  destruct (interp simc simj kd cf g (sp (flatten y0)) s1) as [s2 [r|e]]; cbn [fst] in Y; assert (Y1 := others_end Y).
  - destruct (unflatten _ _ _) as [y|]; destruct kd; cbn [fst with_w o_w]; apply K; assumption.
  - destruct e; cbn [fst]; try (apply K; assumption).
    assert (Z := @write_keeps RField tw simj (others a0 h) HJ kd cf (with_w s2 (end_stats (F:=RField) clock (o_w s2))) Y1).
    destruct (write_state_to_result simj kd cf _) as [s3 [re|]]; cbn [fst] in *; [|apply K; assumption]. destruct kd; cbn [with_w o_w]; apply K; auto using others_end.
Qed.
Theorem run_new m dl kd me cf y0 sp s s' res a : tw_cur (o_w s) <> None -> run m dl kd me cf y0 sp s = (s', Ok (res, Some a)) ->
  a = length (tw_heap (o_w s)) /\ tw_cur (o_w s') = Some a.
Proof.
  intros Hc E. unfold timed_run in E. destruct (negb _) in E; [discriminate|]. unfold now at 1 in E. cbv zeta in E.
  set (w1 := begin_stats _ _) in E. set (s1 := prepare _ _ _ _ _) in E.
  assert (X : others (length (tw_heap (o_w s))) (tw_heap w1) (o_w s1)). { split; [|split; auto]. change (o_w s1) with w1. unfold w1. rewrite cur_begin by exact Hc. reflexivity. }
  set (a0 := length (tw_heap (o_w s))) in *. set (h := tw_heap w1) in *.
  set (simc := fun y : arrR => @timed_cost RField rexp la eps clock m (Some y)) in E. set (simj := fun y : arrR => @timed_jac RField rexp la eps clock m (Some y) dl) in E.
  assert (HC : forall y w, others a0 h w -> others a0 h (fst (simc y w))) by (intros y w; exact (@others_cost rexp la eps clock a0 h m (Some y) w)).
  assert (HJ : forall y w, others a0 h w -> others a0 h (fst (simj y w))) by (intros y w; exact (@others_jac rexp la eps clock a0 h m (Some y) dl w)).
  set (g := (oc_jac cf && _)%bool) in E. assert (Y := @interp_keeps RField tw simc simj (others a0 h) HC HJ kd cf g (sp (flatten y0)) s1 X).
  destruct (interp simc simj kd cf g (sp (flatten y0)) s1) as [s2 [r|e]]; cbn [fst] in Y; assert (Y1 := others_end Y).
  - destruct (unflatten _ _ _) as [y|]; [|discriminate]. destruct kd; injection E as <- _ Ea; cbn [with_w o_w] in *; rewrite end_cur in *; rewrite (proj1 Y) in Ea; injection Ea as <-; split; auto; apply Y.
  - destruct e; try discriminate.
    assert (Z := @write_keeps RField tw simj (others a0 h) HJ kd cf (with_w s2 (end_stats (F:=RField) clock (o_w s2))) Y1).
    destruct (write_state_to_result simj kd cf _) as [s3 [re|]]; cbn [fst] in *; [|discriminate].
    destruct kd; injection E as <- _ Ea; cbn [with_w o_w] in *; rewrite ?end_cur in *; rewrite (proj1 Z) in Ea; injection Ea as <-; split; auto; apply Z.
Qed.
(** complete rows if the run finished *)
Theorem run_rect m dl kd me cf y0 sp s s' res a : tw_cur (o_w s) <> None -> run m dl kd me cf y0 sp s = (s', Ok (res, Some a)) -> r_status res <> 5 ->
  exists t, nth_error (tw_heap (o_w s')) a = Some t /\ Forall (fun q => length q = length (sm_cfs m)) (cost_times t) /\ Forall (fun q => length q = length (sm_cfs m)) (grad_times t).
Proof.
  intros Hc E Hk. unfold timed_run in E. destruct (negb _) in E; [discriminate|]. unfold now at 1 in E. cbv zeta in E.
  set (w1 := begin_stats _ _) in E. set (s1 := prepare _ _ _ _ _) in E. set (a0 := length (tw_heap (o_w s))) in *. set (n := length (sm_cfs m)).
  assert (X : rect a0 n (o_w s1)). { change (o_w s1) with w1. unfold w1. rewrite cur_begin by exact Hc. split; [reflexivity|]. eexists. split; [apply nth_snoc|]. cbn. auto. }
  set (simc := fun y : arrR => @timed_cost RField rexp la eps clock m (Some y)) in E. set (simj := fun y : arrR => @timed_jac RField rexp la eps clock m (Some y) dl) in E.
  assert (HC : forall y w w' v, rect a0 n w -> simc y w = (w', Ok v) -> rect a0 n w') by (intros y w w' v; exact (@rect_cost RField rexp la eps clock m (Some y) a0 w w' v)).
  assert (HJ : forall y w w' v, rect a0 n w -> simj y w = (w', Ok v) -> rect a0 n w') by (intros y w w' v; exact (@rect_jac RField rexp la eps clock m y dl a0 w w' v)).
  set (g := (oc_jac cf && _)%bool) in E. assert (Y := @interp_returns RField tw simc simj (rect a0 n) HC HJ kd cf g (sp (flatten y0)) s1).
  destruct (interp simc simj kd cf g (sp (flatten y0)) s1) as [s2 [r|e]].
  - specialize (Y s2 r X eq_refl). destruct (@rect_end RField clock _ _ _ Y) as [(C1 & t & T1 & T2) _].
    destruct (unflatten _ _ _) as [y|]; [|discriminate]. destruct kd; injection E as <- _ Ea; cbn [with_w o_w] in *; rewrite C1 in Ea; injection Ea as <-; eauto.
  - destruct e; try discriminate. exfalso. unfold write_state_to_result in E. destruct (oc_jac cf).
    + destruct (o_par _) as [vw|]; [|discriminate]. destruct (call_jac _ _ _ _ _) as [s4 [v|]]; [|discriminate]. destruct kd; injection E as _ <- _; now apply Hk.
    + destruct kd; injection E as _ <- _; now apply Hk.
Qed.
(** the object in the result is the one the simulator goes on writing to *)
Theorem run_later m dl kd me cf y0 sp s s' res a t p w' v : tw_cur (o_w s) <> None -> run m dl kd me cf y0 sp s = (s', Ok (res, Some a)) -> nth_error (tw_heap (o_w s')) a = Some t ->
  @timed_cost RField rexp la eps clock m p (o_w s') = (w', Ok v) ->
  nth_error (tw_heap w') a = Some (mkstats (t_begin t) (t_end t) (cost_times t ++ [durations (F:=RField) clock (tw_n (o_w s')) (length (sm_cfs m))]) (grad_times t)).
Proof.
  intros Hc E N EC. destruct (run_new _ _ _ _ _ _ _ _ Hc E) as [_ C]. destruct (@cost_records RField rexp la eps clock m p (o_w s') w' v a t C N EC) as (H & _). rewrite H. eapply lset_nth; eauto.
Qed.
End Run.
