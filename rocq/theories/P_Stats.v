(** The recorded evaluation times (C71). *)
Require Import List Arith Lia Bool.
From Verif Require Import LibBase LibRing LibArr LibCplx LibMat M_Matrix M_OpHeap M_Transfer M_Amplitude M_Solver M_Cost M_Simulator M_Optimizer M_Stats S_Stats.
Import ListNotations.
Set Implicit Arguments.

Section Erase.
Variable F : OField.
Variable rexp : F -> F.
Variable la : LinAlg F.
Variable eps : cplx F.
Variable clock : nat -> F.
Notation arrF := (arr (kcar F)).
Notation tw := (@tw F).
Notation stats := (@stats F).
Notation tm := (@tm F).
Notation wm := (@wm F).

(** ---- without the recording ---- *)
Definition erases {A} (t : tm A) (m : wm A) : Prop := forall w, tw_cur (fst (t w)) = tw_cur w /\ m (tw_w w) = (tw_w (fst (t w)), snd (t w)).
Lemma erases_ret {A} (r : res A) : erases (tret r) (wret r).
Proof. intros w. split; auto. Qed.
Lemma erases_lift {A} (m : wm A) : erases (lift m) m.
Proof. intros w. unfold lift. destruct (m (tw_w w)) as [w' r] eqn:E. split; auto. Qed.
Lemma erases_bind {A B} (t : tm A) (m : wm A) (k : A -> tm B) (h : A -> wm B) : erases t m -> (forall a, erases (k a) (h a)) -> erases (tbind t k) (wbind m h).
Proof.
  intros H1 H2 w. unfold tbind, wbind. destruct (H1 w) as [C1 E1]. rewrite E1. destruct (t w) as [w1 [a|e]]; cbn [fst snd] in *; auto.
  destruct (H2 a w1) as [C2 E2]. split; [congruence|exact E2].
Qed.
Lemma erases_map {A B} (f : A -> tm B) (g : A -> wm B) l : (forall a, In a l -> erases (f a) (g a)) -> erases (tmap f l) (wmap g l).
Proof.
  induction l as [|x l IH]; intros H; cbn [tmap wmap]; [apply erases_ret|]. apply erases_bind; [apply H; now left|]. intros b.
  apply erases_bind; [apply IH; intros; apply H; now right|]. intros. apply erases_ret.
Qed.
(** with a statistics object *)
Definition erases_on {A} (c : nat) (t : tm A) (m : wm A) : Prop := forall w, tw_cur w = Some c -> tw_cur (fst (t w)) = Some c /\ m (tw_w w) = (tw_w (fst (t w)), snd (t w)).
Lemma measured_erases {A} c log (t : tm A) (m : wm A) : erases t m -> erases_on c (measured clock log t) m.
Proof.
  intros H w Hw. unfold measured, tbind, now. set (w1 := mktw (tw_w w) (tw_heap w) (tw_cur w) (S (tw_n w))). destruct (H w1) as [C1 E1]. change (tw_w w1) with (tw_w w) in E1. change (tw_cur w1) with (tw_cur w) in C1. rewrite E1.
  destruct (t w1) as [w2 [a|e]]; cbn [fst snd] in *; [|split; [congruence|auto]].
  unfold upd, tret. cbn [tw_cur]. rewrite C1, Hw. cbn [fst snd tw_cur tw_w]. auto.
Qed.
Lemma map_erases_on {A B} c (f : A -> tm B) (g : A -> wm B) l : (forall a, In a l -> erases_on c (f a) (g a)) -> erases_on c (tmap f l) (wmap g l).
Proof.
  induction l as [|x l IH]; intros H w Hw; cbn [tmap wmap]; [split; auto|]. unfold tbind, wbind. destruct (H x (or_introl eq_refl) w Hw) as [C1 E1]. rewrite E1.
  destruct (f x w) as [w1 [b|e]]; cbn [fst snd] in *; auto. destruct (IH (fun a Ha => H a (or_intror Ha)) w1 C1) as [C2 E2]. rewrite E2.
  destruct (tmap f l w1) as [w2 [bs|e]]; cbn [fst snd] in *; auto.
Qed.
Lemma loop_erases {A B} opn log (f : A -> wm B) l : erases (loop clock opn log f l) (wmap f l).
Proof.
  intros w. unfold loop. destruct (tw_cur w) as [c|] eqn:Ec.
  - unfold tbind at 1 2 3. unfold upd at 1 2 3. rewrite Ec. set (w1 := mktw _ _ _ _). assert (C1 : tw_cur w1 = Some c) by reflexivity.
    destruct (@map_erases_on A B c (fun x => measured clock log (lift (f x))) f l (fun a _ => measured_erases log (erases_lift (f a))) w1 C1) as [C2 E2]. split; [exact C2|exact E2].
  - destruct (@erases_map A B (fun x => lift (f x)) f l (fun a _ => erases_lift (f a)) w) as [C E]. split; [congruence|exact E].
Qed.
Theorem timed_cost_erases m p : erases (timed_cost rexp la eps clock m p) (wrapped_cost rexp la eps m p).
Proof.
  unfold timed_cost, wrapped_cost. apply erases_bind; [apply erases_ret|]. intros y. apply erases_bind; [apply erases_lift|]. intros _.
  apply erases_bind; [apply loop_erases|]. intros. apply erases_ret.
Qed.
Theorem timed_numeric_erases m p dl sym : erases (timed_numeric rexp la eps clock m p dl sym) (numeric_gradient rexp la eps m p dl sym).
Proof.
  unfold timed_numeric, numeric_gradient. apply erases_bind; [apply erases_ret|]. intros y. apply erases_bind; [apply timed_cost_erases|]. intros cn.
  destruct (negb _); [apply erases_ret|]. apply erases_bind; [|intros; apply erases_ret]. apply erases_map. intros t _. apply erases_map. intros c _.
  apply erases_bind; [apply timed_cost_erases|]. intros fw. destruct sym; [|apply erases_ret]. apply erases_bind; [apply timed_cost_erases|]. intros. apply erases_ret.
Qed.
Theorem timed_jac_erases m p dl : erases (timed_jac rexp la eps clock m p dl) (wrapped_jac rexp la eps m p dl).
Proof.
  unfold timed_jac, wrapped_jac. destruct (sm_numeric m); [apply timed_numeric_erases|]. apply erases_bind; [apply erases_ret|]. intros y.
  apply erases_bind; [apply erases_lift|]. intros _. apply erases_bind; [apply loop_erases|]. intros. apply erases_ret.
Qed.

(** ---- what is recorded ---- *)
Lemma append_last_snoc (l : list (list F)) r x : append_last (l ++ [r]) x = l ++ [r ++ [x]].
Proof. unfold append_last. rewrite rev_app_distr. cbn. now rewrite rev_involutive. Qed.
Lemma lset_nth {A} (l : list A) i x y : nth_error l i = Some y -> nth_error (lset l i x) i = Some x.
Proof. revert i. induction l as [|z l IH]; intros [|i] H; cbn in *; try discriminate; auto. Qed.
Lemma lset_lset {A} (l : list A) i x y : lset (lset l i x) i y = lset l i y.
Proof. revert i. induction l as [|z l IH]; intros [|i]; cbn; auto. now rewrite IH. Qed.
Lemma lset_other {A} (l : list A) i j x : i <> j -> nth_error (lset l i x) j = nth_error l j.
Proof. revert i j. induction l as [|z l IH]; intros [|i] [|j] H; cbn; auto; try lia. Qed.

Lemma measured_records {A} a t log (m : wm A) w w' v : tw_cur w = Some a -> nth_error (tw_heap w) a = Some t -> measured clock log (lift m) w = (w', Ok v) ->
  w' = mktw (tw_w w') (lset (tw_heap w) a (log (ksub (clock (S (tw_n w))) (clock (tw_n w))) t)) (Some a) (S (S (tw_n w))).
Proof.
  intros Ha Ht. unfold measured, tbind, now, lift. cbn [tw_w]. destruct (m (tw_w w)) as [w1 [b|e]]; [|discriminate].
  unfold upd, tret. cbn [tw_w tw_heap tw_cur tw_n]. rewrite Ha, Ht. intros E. injection E as <- <-. reflexivity.
Qed.
Lemma durations_S k n : durations clock k (S n) = ksub (clock (k + 1)) (clock k) :: durations clock (S (S k)) n.
Proof.
  unfold durations. cbn [seq map]. f_equal; [f_equal; f_equal; lia|]. rewrite <- seq_shift, map_map. apply map_ext. intros i. f_equal; f_equal; lia.
Qed.
(** [put x t]: x is appended to the last list *)
Lemma map_records {A B} a log (f : A -> wm B) l : forall t w w' vs, tw_cur w = Some a -> nth_error (tw_heap w) a = Some t ->
  tmap (fun c => measured clock log (lift (f c))) l w = (w', Ok vs) ->
  tw_heap w' = lset (tw_heap w) a (fold_left (fun t x => log x t) (durations clock (tw_n w) (length l)) t) /\ tw_cur w' = Some a /\ tw_n w' = tw_n w + 2 * length l.
Proof.
  induction l as [|c l IH]; intros t w w' vs Ha Ht E; cbn [tmap] in E.
  - injection E as <- <-. cbn. split; [|split; [auto|lia]]. symmetry. clear - Ht. revert a Ht. induction (tw_heap w) as [|z h IH]; intros [|a] H; cbn in *; try discriminate; [congruence|]. now rewrite IH.
  - unfold tbind at 1 in E. destruct (measured clock log (lift (f c)) w) as [w1 [b|e]] eqn:E1; [|discriminate].
    assert (W1 := @measured_records B a t log (f c) w w1 b Ha Ht E1). unfold tbind in E. destruct (tmap _ l w1) as [w2 [bs|e]] eqn:E2; [|discriminate]. injection E as <- <-.
    assert (H1 : tw_heap w1 = lset (tw_heap w) a (log (ksub (clock (S (tw_n w))) (clock (tw_n w))) t)) by now rewrite W1.
    assert (C1 : tw_cur w1 = Some a) by now rewrite W1. assert (N1 : tw_n w1 = S (S (tw_n w))) by now rewrite W1.
    destruct (IH (log (ksub (clock (S (tw_n w))) (clock (tw_n w))) t) w1 w2 bs C1) as (A1 & A2 & A3); auto.
    { rewrite H1. eapply lset_nth; eauto. }
    cbn [length]. split; [|split; [auto|lia]]. rewrite A1, H1, lset_lset, N1, durations_S. cbn [fold_left]. replace (tw_n w + 1) with (S (tw_n w)) by lia. reflexivity.
Qed.
Lemma fold_log_cost (xs : list F) : forall (t : stats) l r, cost_times t = l ++ [r] ->
  fold_left (fun t x => log_cost x t) xs t = mkstats (t_begin t) (t_end t) (l ++ [r ++ xs]) (grad_times t).
Proof.
  induction xs as [|x xs IH]; intros t l r H; cbn [fold_left]; [rewrite app_nil_r, <- H; now destruct t|].
  rewrite (IH _ l (r ++ [x])); [cbn [log_cost t_begin t_end grad_times cost_times]; now rewrite <- app_assoc|]. cbn [log_cost cost_times]. rewrite H. apply append_last_snoc.
Qed.
Lemma fold_log_grad (xs : list F) : forall (t : stats) l r, grad_times t = l ++ [r] ->
  fold_left (fun t x => log_grad x t) xs t = mkstats (t_begin t) (t_end t) (cost_times t) (l ++ [r ++ xs]).
Proof.
  induction xs as [|x xs IH]; intros t l r H; cbn [fold_left]; [rewrite app_nil_r, <- H; now destruct t|].
  rewrite (IH _ l (r ++ [x])); [cbn [log_grad t_begin t_end grad_times cost_times]; now rewrite <- app_assoc|]. cbn [log_grad grad_times]. rewrite H. apply append_last_snoc.
Qed.
Lemma loop_records {A B} a t opn log (f : A -> wm B) l w w' vs : tw_cur w = Some a -> nth_error (tw_heap w) a = Some t -> loop clock opn log f l w = (w', Ok vs) ->
  tw_heap w' = lset (tw_heap w) a (fold_left (fun t x => log x t) (durations clock (tw_n w) (length l)) (opn t)) /\ tw_cur w' = Some a /\ tw_n w' = tw_n w + 2 * length l.
Proof.
  intros Ha Ht. unfold loop. rewrite Ha. unfold tbind, upd at 1. rewrite Ha, Ht. set (w1 := mktw _ _ _ _). intros E.
  destruct (@map_records A B a log f l (opn t) w1 w' vs eq_refl) as (A1 & A2 & A3); auto. { cbn. eapply lset_nth; eauto. }
  split; [|auto]. rewrite A1. cbn [w1 tw_heap tw_n]. now rewrite lset_lset.
Qed.
Lemma lift_keeps {A} (m : wm A) w : tw_heap (fst (lift m w)) = tw_heap w /\ tw_cur (fst (lift m w)) = tw_cur w /\ tw_n (fst (lift m w)) = tw_n w.
Proof. unfold lift. destruct (m (tw_w w)). auto. Qed.

Theorem cost_records m p w w' v a t : tw_cur w = Some a -> nth_error (tw_heap w) a = Some t -> timed_cost rexp la eps clock m p w = (w', Ok v) ->
  tw_heap w' = lset (tw_heap w) a (mkstats (t_begin t) (t_end t) (cost_times t ++ [durations clock (tw_n w) (length (sm_cfs m))]) (grad_times t)) /\
  tw_cur w' = Some a /\ tw_n w' = tw_n w + 2 * length (sm_cfs m).
Proof.
  intros Ha Ht. unfold timed_cost. unfold tbind at 1, tret at 1. destruct (the_pulse m p) as [y|]; [|discriminate]. unfold tbind at 1.
  destruct (lift_keeps (set_all rexp m y) w) as (K1 & K2 & K3). destruct (lift (set_all rexp m y) w) as [w1 [u|]]; [|discriminate]. cbn [fst] in *.
  unfold tbind. destruct (loop _ _ _ _ _ w1) as [w2 [l|]] eqn:E; [|discriminate]. unfold tret. intros E2. assert (w2 = w') as <- by congruence.
  assert (Ha1 : tw_cur w1 = Some a) by congruence. assert (Ht1 : nth_error (tw_heap w1) a = Some t) by congruence.
  pose proof (@loop_records (@cfun F) (list F) a t _ _ _ _ w1 w2 l Ha1 Ht1 E) as (A1 & A2 & A3).
  split; [|split; [auto|congruence]]. rewrite A1, K1, K3. f_equal. now rewrite (@fold_log_cost _ (open_costs t) (cost_times t) [] eq_refl).
Qed.
Theorem grad_records m p dl w w' v a t : sm_numeric m = false -> tw_cur w = Some a -> nth_error (tw_heap w) a = Some t -> timed_jac rexp la eps clock m p dl w = (w', Ok v) ->
  tw_heap w' = lset (tw_heap w) a (mkstats (t_begin t) (t_end t) (cost_times t) (grad_times t ++ [durations clock (tw_n w) (length (sm_cfs m))])) /\
  tw_cur w' = Some a /\ tw_n w' = tw_n w + 2 * length (sm_cfs m).
Proof.
  intros Hn Ha Ht. unfold timed_jac. rewrite Hn. unfold tbind at 1, tret at 1. destruct (the_pulse m p) as [y|]; [|discriminate]. unfold tbind at 1.
  destruct (lift_keeps (set_all rexp m y) w) as (K1 & K2 & K3). destruct (lift (set_all rexp m y) w) as [w1 [u|]]; [|discriminate]. cbn [fst] in *.
  unfold tbind. destruct (loop _ _ _ _ _ w1) as [w2 [l|]] eqn:E; [|discriminate]. unfold tret. intros E2. assert (w2 = w') as <- by congruence.
  assert (Ha1 : tw_cur w1 = Some a) by congruence. assert (Ht1 : nth_error (tw_heap w1) a = Some t) by congruence.
  pose proof (@loop_records (@cfun F) arrF a t _ _ _ _ w1 w2 l Ha1 Ht1 E) as (A1 & A2 & A3).
  split; [|split; [auto|congruence]]. rewrite A1, K1, K3. f_equal. now rewrite (@fold_log_grad _ (open_grads t) (grad_times t) [] eq_refl).
Qed.
End Erase.
