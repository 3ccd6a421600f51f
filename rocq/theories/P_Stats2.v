(** The recorded times of a run fit into the time of the run (C71). *)
Require Import List Arith Lia Bool Reals Lra.
From Verif Require Import LibBase LibRing LibArr LibCplx LibMat M_Matrix M_OpHeap M_Transfer M_Amplitude M_Solver M_Cost M_Simulator M_Optimizer M_Stats S_Stats P_Stats.
Import ListNotations.
Set Implicit Arguments.

(** ---- the wrappers of the optimisers only touch the simulator through its two functions ---- *)
Section Wrap.
Variable F : OField.
Variable W : Type.
Notation arrF := (arr (kcar F)).
Variable simc : arrF -> W -> W * res (list F).
Variable simj : arrF -> W -> W * res arrF.
Notation ost := (@ost F W).

Section Always.
Variable I : W -> Prop.
Hypothesis HC : forall y w, I w -> I (fst (simc y w)).
Hypothesis HJ : forall y w, I w -> I (fst (simj y w)).
Lemma cost_wrapper_keeps cf x now (s : ost) : I (o_w s) -> I (o_w (fst (cost_func_wrapper simc cf x now s))).
Proof.
  intros H. unfold cost_func_wrapper. destruct (kltb _ _); auto. destruct (o_shape s) as [[nt nc]|]; auto. destruct (nth_error (o_heap s) x) as [xa|]; auto.
  destruct (unflatten nt nc xa) as [y|]; auto. assert (X := HC y H). destruct (simc y (o_w s)) as [w' [v|]]; cbn [fst] in X; auto.
  unfold store_summary. destruct (oc_save cf).
  - cbn [o_sum with_heap with_w]. destruct (o_sum s); auto. unfold store_min. destruct (smaller _ _); destruct (oc_weights cf); auto; destruct (scale_costs _ _); auto.
  - unfold store_min. destruct (smaller _ _); destruct (oc_weights cf); auto; destruct (scale_costs _ _); auto.
Qed.
Lemma jac_wrapper_keeps cf x (s : ost) : I (o_w s) -> I (o_w (fst (cost_jacobian_wrapper simj cf x s))).
Proof.
  intros H. unfold cost_jacobian_wrapper. destruct (o_shape s) as [[nt nc]|]; auto. destruct (unflatten nt nc x) as [y|]; auto.
  assert (X := HJ y H). destruct (simj y (o_w s)) as [w' [v|]]; cbn [fst] in X; auto. destruct (oc_save cf).
  - cbn [o_sum with_w]. destruct (o_sum s); auto. destruct (bind _ _); auto.
  - destruct (bind _ _); auto.
Qed.
Lemma call_cost_keeps kd cf x now (s : ost) : I (o_w s) -> I (o_w (fst (call_cost simc kd cf x now s))).
Proof.
  intros H. assert (X := @cost_wrapper_keeps cf x now s H). unfold call_cost, scalar_cost. destruct kd; destruct (cost_func_wrapper simc cf x now s) as [s' [v|]]; auto.
Qed.
Lemma call_jac_keeps kd cf x (s : ost) : I (o_w s) -> I (o_w (fst (call_jac simj kd cf x s))).
Proof.
  intros H. assert (X := @jac_wrapper_keeps cf x s H). unfold call_jac, scalar_jac. destruct kd; auto. destruct (cost_jacobian_wrapper simj cf x s) as [s' [v|]]; auto.
Qed.
Lemma interp_keeps kd cf g p : forall s : ost, I (o_w s) -> I (o_w (fst (interp simc simj kd cf g p s))).
Proof.
  induction p as [r|x now k IH|x k IH]; intros s H; cbn [interp]; auto.
  - assert (X := @call_cost_keeps kd cf (length (o_heap s)) now (with_heap s (o_heap s ++ [x])) H). destruct (call_cost _ _ _ _ _ _) as [s' [v|]]; auto.
  - destruct g; auto. assert (X := @call_jac_keeps kd cf x s H). destruct (call_jac _ _ _ _ _) as [s' [v|]]; auto.
Qed.
Lemma write_keeps kd cf (s : ost) : I (o_w s) -> I (o_w (fst (write_state_to_result simj kd cf s))).
Proof.
  intros H. unfold write_state_to_result. destruct (oc_jac cf); auto. destruct (o_par s) as [p|]; auto. assert (X := @call_jac_keeps kd cf (view_of s p) s H).
  destruct (call_jac _ _ _ _ _) as [s' [v|]]; auto.
Qed.
End Always.

Section Returning.
Variable I : W -> Prop.
Hypothesis HC : forall y w w' v, I w -> simc y w = (w', Ok v) -> I w'.
Hypothesis HJ : forall y w w' j, I w -> simj y w = (w', Ok j) -> I w'.
Lemma cost_wrapper_returns cf x now (s s' : ost) a : I (o_w s) -> cost_func_wrapper simc cf x now s = (s', Ok a) -> I (o_w s').
Proof.
  intros H. unfold cost_func_wrapper. destruct (kltb _ _); [discriminate|]. destruct (o_shape s) as [[nt nc]|]; [|discriminate]. destruct (nth_error (o_heap s) x) as [xa|]; [|discriminate].
  destruct (unflatten nt nc xa) as [y|]; [|discriminate]. destruct (simc y (o_w s)) as [w' [v|]] eqn:E; [|discriminate]. assert (X := HC H E).
  unfold store_summary. destruct (oc_save cf).
  - cbn [o_sum with_heap with_w]. destruct (o_sum s); [|discriminate]. unfold store_min. destruct (smaller _ _); (destruct (oc_weights cf); [destruct (scale_costs _ _); [|discriminate]|]); intros Q; injection Q as <- <-; exact X.
  - unfold store_min. destruct (smaller _ _); (destruct (oc_weights cf); [destruct (scale_costs _ _); [|discriminate]|]); intros Q; injection Q as <- <-; exact X.
Qed.
Lemma jac_wrapper_returns cf x (s s' : ost) a : I (o_w s) -> cost_jacobian_wrapper simj cf x s = (s', Ok a) -> I (o_w s').
Proof.
  intros H. unfold cost_jacobian_wrapper. destruct (o_shape s) as [[nt nc]|]; [|discriminate]. destruct (unflatten nt nc x) as [y|]; [|discriminate].
  destruct (simj y (o_w s)) as [w' [v|]] eqn:E; [|discriminate]. assert (X := HJ H E). destruct (oc_save cf).
  - cbn [o_sum with_w]. destruct (o_sum s); [|discriminate]. destruct (bind _ _); [|discriminate]. intros Q; injection Q as <- <-; exact X.
  - destruct (bind _ _); [|discriminate]. intros Q; injection Q as <- <-; exact X.
Qed.
Lemma interp_returns kd cf g p : forall (s s' : ost) r, I (o_w s) -> interp simc simj kd cf g p s = (s', Ok r) -> I (o_w s').
Proof.
  induction p as [r0|x now k IH|x k IH]; intros s s' r H; cbn [interp].
  - intros E. injection E as <- <-. exact H.
  - destruct (call_cost _ _ _ _ _ _) as [s1 [v|]] eqn:E1; [|discriminate]. apply IH. clear IH. unfold call_cost, scalar_cost in E1.
    destruct kd; destruct (cost_func_wrapper simc cf (length (o_heap s)) now (with_heap s (o_heap s ++ [x]))) as [s2 [u|]] eqn:E2; try discriminate; injection E1 as <- <-; (eapply cost_wrapper_returns; [|exact E2]); exact H.
  - destruct g; [|discriminate]. destruct (call_jac _ _ _ _ _) as [s1 [v|]] eqn:E1; [|discriminate]. apply IH. clear IH. unfold call_jac, scalar_jac in E1.
    destruct kd; [eapply jac_wrapper_returns; eauto|]. destruct (cost_jacobian_wrapper simj cf x s) as [s2 [u|]] eqn:E2; [|discriminate]. injection E1 as <- <-. eapply jac_wrapper_returns; eauto.
Qed.
End Returning.
End Wrap.

Section Inv.
Variable rexp : R -> R.
Variable la : LinAlg RField.
Variable eps : cplx RField.
Variable clock : nat -> R.
Hypothesis Hm : monotone clock.
Notation arrR := (arr (kcar RField)).
Notation tw := (@tw RField).
Notation stats := (@stats RField).
Notation tm := (@tm RField).
Notation wm := (@wm RField).

Definition preserves (I : tw -> Prop) {A} (t : tm A) : Prop := forall w, I w -> I (fst (t w)).
Lemma preserves_ret I {A} (r : res A) : preserves I (tret r).
Proof. intros w H. exact H. Qed.
Lemma preserves_bind I {A B} (t : tm A) (k : A -> tm B) : preserves I t -> (forall a, preserves I (k a)) -> preserves I (tbind t k).
Proof. intros H1 H2 w H. unfold tbind. specialize (H1 w H). destruct (t w) as [w1 [a|]]; auto. now apply H2. Qed.
Lemma preserves_map I {A B} (f : A -> tm B) l : (forall a, preserves I (f a)) -> preserves I (tmap f l).
Proof.
  intros H. induction l as [|x l IH]; cbn [tmap]; [apply preserves_ret|]. apply preserves_bind; [apply H|]. intros b. apply preserves_bind; [exact IH|]. intros. apply preserves_ret.
Qed.

(** all evaluations of the simulator keep what one measurement keeps *)
Section Sim.
Variable I : tw -> Prop.
Hypothesis HL : forall A (m : wm A), preserves I (lift m).
Hypothesis HO : preserves I (upd (F:=RField) (open_costs (F:=RField))) /\ preserves I (upd (F:=RField) (open_grads (F:=RField))).
Hypothesis HM : forall A (m : wm A), preserves I (measured (F:=RField) clock (log_cost (F:=RField)) (lift m)) /\ preserves I (measured (F:=RField) clock (log_grad (F:=RField)) (lift m)).
Lemma loop_keeps {A B} opn log (f : A -> wm B) l : preserves I (upd (F:=RField) opn) -> (forall C (m : wm C), preserves I (measured (F:=RField) clock log (lift m))) ->
  preserves I (loop (F:=RField) clock opn log f l).
Proof.
  intros H1 H2 w Hw. unfold loop. destruct (tw_cur w).
  - apply (@preserves_bind I unit (list B)); auto. intros _. apply preserves_map. intros. apply H2.
  - apply preserves_map; auto.
Qed.
Lemma cost_keeps m p : preserves I (timed_cost (F:=RField) rexp la eps clock m p).
Proof.
  unfold timed_cost. apply preserves_bind; [apply preserves_ret|]. intros y. apply preserves_bind; [apply HL|]. intros _.
  apply preserves_bind; [|intros; apply preserves_ret]. apply loop_keeps; [apply HO|]. intros. apply HM.
Qed.
Lemma jac_keeps m p dl : preserves I (timed_jac (F:=RField) rexp la eps clock m p dl).
Proof.
  unfold timed_jac. destruct (sm_numeric m).
  - unfold timed_numeric. apply preserves_bind; [apply preserves_ret|]. intros y. apply preserves_bind; [apply cost_keeps|]. intros cn.
    destruct (negb _); [apply preserves_ret|]. apply preserves_bind; [|intros; apply preserves_ret]. apply preserves_map. intros t. apply preserves_map. intros c.
    apply preserves_bind; [apply cost_keeps|]. intros fw. apply preserves_ret.
  - apply preserves_bind; [apply preserves_ret|]. intros y. apply preserves_bind; [apply HL|]. intros _.
    apply preserves_bind; [|intros; apply preserves_ret]. apply loop_keeps; [apply HO|]. intros. apply HM.
Qed.
End Sim.

(** ---- the sum of the recorded times ---- *)
Definition lsum (l : list R) : R := fold_right Rplus 0%R l.
Definition total (rows : list (list R)) : R := lsum (map lsum rows).
Lemma lsum_app a b : lsum (a ++ b) = (lsum a + lsum b)%R.
Proof. unfold lsum. induction a as [|x a IH]; [cbn [app fold_right]; lra|]. cbn [app fold_right]. rewrite IH. lra. Qed.
Lemma total_app a b : total (a ++ b) = (total a + total b)%R.
Proof. unfold total. now rewrite map_app, lsum_app. Qed.
Definition positive (rows : list (list R)) : Prop := Forall (Forall (Rle 0)) rows.
Lemma append_last_total (l : list (list R)) x : (0 <= x)%R -> positive l -> (total (append_last (F:=RField) l x) <= total l + x)%R /\ positive (append_last (F:=RField) l x).
Proof.
  intros Hx Hp. destruct l as [|r0 l0 _] using rev_ind; [cbn; split; auto; lra|].
  change (append_last (F:=RField) (l0 ++ [r0]) x) with (@append_last RField (l0 ++ [r0]) x). rewrite (@append_last_snoc RField). rewrite !total_app.
  split; [unfold total at 2 4; cbn [map]; unfold lsum at 1 3; cbn [fold_right]; rewrite lsum_app; cbn; lra|].
  apply Forall_app in Hp. destruct Hp as [P1 P2]. apply Forall_app. split; auto. constructor; auto. inversion P2; subst. apply Forall_app. split; auto.
Qed.

Definition fits (a : nat) (b : R) (w : tw) : Prop := tw_cur w = Some a /\ exists t, nth_error (tw_heap w) a = Some t /\ t_begin t = Some b /\
  positive (cost_times t) /\ positive (grad_times t) /\ (b + total (cost_times t) + total (grad_times t) <= clock (tw_n w))%R.
Lemma fits_lift a b A (m : wm A) : preserves (fits a b) (lift m).
Proof. intros w H. unfold lift. destruct (m (tw_w w)). exact H. Qed.
Lemma fits_open a b : preserves (fits a b) (upd (F:=RField) (open_costs (F:=RField))) /\ preserves (fits a b) (upd (F:=RField) (open_grads (F:=RField))).
Proof.
  split; intros w (C & t & Ht & B & P1 & P2 & L); unfold upd; rewrite C, Ht; (split; [exact eq_refl|]); eexists; cbn [fst tw_heap]; (split; [eapply lset_nth; eauto|]);
    cbn [open_costs open_grads t_begin cost_times grad_times tw_n]; rewrite total_app; (split; [auto|]); repeat (split; [try (apply Forall_app; split); auto; repeat constructor|]); cbn; lra.
Qed.
Lemma fits_measured a b A (m : wm A) : preserves (fits a b) (measured (F:=RField) clock (log_cost (F:=RField)) (lift m)) /\ preserves (fits a b) (measured (F:=RField) clock (log_grad (F:=RField)) (lift m)).
Proof.
  assert (M1 : forall n, (clock n <= clock (S n))%R) by exact Hm.
  split; intros w (C & t & Ht & B & P1 & P2 & L); unfold measured, tbind, now, lift; cbn [tw_w]; destruct (m (tw_w w)) as [w1 [v|e]];
    try (split; [exact C|]; exists t; cbn [fst tw_heap tw_n]; assert (X := M1 (tw_n w)); repeat (split; [assumption|]); lra);
    unfold upd, tret; cbn [tw_w tw_heap tw_cur tw_n]; rewrite C, Ht; (split; [reflexivity|]); eexists; cbn [fst tw_heap]; (split; [eapply lset_nth; eauto|]);
    assert (X1 := M1 (tw_n w)); assert (X2 := M1 (S (tw_n w))); cbn [log_cost log_grad t_begin cost_times grad_times tw_n].
  - destruct (@append_last_total (cost_times t) (clock (S (tw_n w)) - clock (tw_n w))%R) as [Y1 Y2]; auto; [lra|].
    split; [auto|]. split; [exact Y2|]. split; [auto|]. eapply Rle_trans; [|exact X2]. eapply Rle_trans; [apply Rplus_le_compat_r, Rplus_le_compat_l, Y1|]. lra.
  - destruct (@append_last_total (grad_times t) (clock (S (tw_n w)) - clock (tw_n w))%R) as [Y1 Y2]; auto; [lra|].
    split; [auto|]. split; [auto|]. split; [exact Y2|]. eapply Rle_trans; [|exact X2]. eapply Rle_trans; [apply Rplus_le_compat_l, Y1|]. lra.
Qed.
Lemma fits_cost a b m p : preserves (fits a b) (timed_cost (F:=RField) rexp la eps clock m p).
Proof. apply cost_keeps; intros; auto using fits_lift, fits_open, fits_measured. Qed.
Lemma fits_jac a b m p dl : preserves (fits a b) (timed_jac (F:=RField) rexp la eps clock m p dl).
Proof. apply jac_keeps; intros; auto using fits_lift, fits_open, fits_measured. Qed.

(** ---- objects of other runs are not touched ---- *)
Definition others (a : nat) (h : list stats) (w : tw) : Prop := tw_cur w = Some a /\ length (tw_heap w) = length h /\ forall i, i <> a -> nth_error (tw_heap w) i = nth_error h i.
Lemma lset_len {A} (l : list A) i x : length (lset l i x) = length l.
Proof. revert i. induction l as [|z l IH]; intros [|i]; cbn; auto. Qed.
Lemma others_lift a h A (m : wm A) : preserves (others a h) (lift m).
Proof. intros w H. unfold lift. destruct (m (tw_w w)). exact H. Qed.
Lemma others_upd a h f : preserves (others a h) (upd (F:=RField) f).
Proof.
  intros w (C & L & H). unfold upd. rewrite C. split; [reflexivity|]. cbn [fst tw_heap]. destruct (nth_error (tw_heap w) a) as [t|]; [|auto]. rewrite lset_len. split; auto.
  intros i Hi. rewrite lset_other by auto. auto.
Qed.
Lemma others_now a h : preserves (others a h) (now (F:=RField) clock).
Proof. intros w H. exact H. Qed.
Lemma others_measured a h log A (m : wm A) : preserves (others a h) (measured (F:=RField) clock log (lift m)).
Proof.
  unfold measured. apply preserves_bind; [apply others_now|]. intros x. apply preserves_bind; [apply others_lift|]. intros v. apply preserves_bind; [apply others_now|]. intros y.
  apply preserves_bind; [apply others_upd|]. intros _. apply preserves_ret.
Qed.
Lemma others_cost a h m p : preserves (others a h) (timed_cost (F:=RField) rexp la eps clock m p).
Proof. apply cost_keeps; intros; auto using others_lift, others_upd, others_measured. Qed.
Lemma others_jac a h m p dl : preserves (others a h) (timed_jac (F:=RField) rexp la eps clock m p dl).
Proof. apply jac_keeps; intros; auto using others_lift, others_upd, others_measured. Qed.
End Inv.
