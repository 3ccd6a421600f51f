(** Proofs about the simulator. *)
Require Import List Arith Lia Bool.
From Verif Require Import LibBase LibRing LibArr LibCplx LibMat M_Matrix M_OpHeap M_Transfer S_Transfer P_Transfer2 M_Amplitude M_Solver S_Solver
  P_Solver P_Solver2 P_Solver5 P_Solver6 P_Solver7 M_Cost M_Simulator S_Simulator.
Import ListNotations.
Set Implicit Arguments.

Section Sim.
Variable F : OField.
Variable rexp : F -> F.
Variable la : LinAlg F.
Variable eps : cplx F.
Notation arrF := (arr (kcar F)).
Notation st := (@st F).
Notation Reach := (Reach rexp la eps).
Notation Fresh := (Fresh rexp la eps).
Notation sstep := (sstep rexp la eps).

Lemma reach_conf U d ys (s0 s : st) : Fresh U d ys s0 -> Reach U d ys s0 s -> s_conf s = s_conf s0 /\ s_drift s = s_drift s0 /\ s_time s = s_time s0.
Proof.
  intros F0 R. pose proof (r_core R) as H. destruct (s_opt s) as [y'|].
  - destruct H as (f1 & E1 & B1). cbn [M_Solver.sstep] in E1. destruct (M_Solver.set_pars rexp y' s0) as [q r] eqn:Eq.
    assert (H0 : opt_equal (s_opt s0) y' = false) by now rewrite (f_opt F0).
    pose proof (@set_pars_new F rexp U s0 y' q r H0 Eq) as H. destruct (amps_of rexp s0 y') as [[x u]|]; [|subst r; discriminate].
    destruct H as (-> & _ & H3 & _). cbn in E1. inversion E1; subst q. rewrite H3 in B1.
    repeat split; [exact (f_equal (@s_conf F) B1)|exact (f_equal (@s_drift F) B1)|exact (f_equal (@s_time F) B1)].
  - repeat split; [exact (f_equal (@s_conf F) H)|exact (f_equal (@s_drift F) H)|exact (f_equal (@s_time F) H)].
Qed.

(** a pulse the new solver accepts is accepted by the used one *)
Lemma set_reach U d ys (s0 s f : st) y : Fresh U d ys s0 -> Reach U d ys s0 s -> with_pulse rexp la eps s0 y f ->
  exists s', set_pars rexp y s = (s', Ok tt) /\ Reach U d ys s0 s' /\ s_opt s' = Some y.
Proof.
  intros F0 R Hf. unfold with_pulse in Hf. destruct (reach_conf F0 R) as (K1 & K2 & K3).
  assert (H0 : opt_equal (s_opt s0) y = false) by now rewrite (f_opt F0).
  destruct (@set_fresh_like F rexp la eps U s0 y f VUnit (g_derivs (f_good F0)) (fresh_Inv F0) H0 Hf) as (x & u & A1 & _).
  assert (E : exists s', set_pars rexp y s = (s', Ok tt)).
  { destruct (opt_equal (s_opt s) y) eqn:Eo. { exists s. now apply set_pars_known. }
    destruct (set_pars rexp y s) as [s' r] eqn:Es. pose proof (@set_pars_new F rexp U s y s' r Eo Es) as H.
    assert (A : amps_of rexp s y = Ok (x, u)).
    { rewrite <- A1. unfold amps_of. rewrite K1, K3. destruct (ready_same (f_custom F0) (f_ready F0) (r_ready R)) as [Hc _]. now rewrite Hc. }
    rewrite A in H. destruct H as (-> & _). eauto. }
  destruct E as [s' E]. exists s'. split; auto.
  destruct (@reach_step F rexp la eps U d ys s0 s (SSet y) s' VUnit F0 R) as (P1 & P2 & P3); eauto. cbn. now rewrite E.
Qed.

(** reading: as on a new solver with the same pulse *)
Lemma read_reach U d ys (s0 s f : st) y o v : Fresh U d ys s0 -> Reach U d ys s0 s -> s_opt s = Some y -> with_pulse rexp la eps s0 y f -> is_read o = true ->
  returns rexp la eps f o v -> exists s', sstep s o = (s', Ok v) /\ Reach U d ys s0 s' /\ s_opt s' = Some y.
Proof.
  intros F0 R O Hf Ho Hv. unfold with_pulse in Hf. destruct (reach_conf F0 R) as (K1 & K2 & K3).
  assert (H0 : opt_equal (s_opt s0) y = false) by now rewrite (f_opt F0).
  destruct (@set_fresh_like F rexp la eps U s0 y f VUnit (g_derivs (f_good F0)) (fresh_Inv F0) H0 Hf) as (x & u & A1 & _ & A2 & A3 & A4 & A5).
  pose proof (r_core R) as C. rewrite O in C. destruct C as (f' & Ef & B). rewrite Hf in Ef. inversion Ef; subst f'.
  assert (E : snd (sstep s o) = Ok v).
  { apply (@read_coherent F rexp la eps U s f o v); auto; [rewrite K1; apply (f_good F0)|apply (r_inv R)]. }
  destruct (sstep s o) as [s' r] eqn:Es. cbn in E. subst r. exists s'. split; auto.
  destruct (@reach_step F rexp la eps U d ys s0 s o s' v F0 R) as (P1 & P2 & P3); auto. split; auto. rewrite <- O. auto.
Qed.
Lemma run_reach U d ys (s0 f : st) y (p : @prog F) : Fresh U d ys s0 -> with_pulse rexp la eps s0 y f -> reads_only p ->
  forall s a, Reach U d ys s0 s -> s_opt s = Some y -> evaluates rexp la eps f p a ->
  exists s', run rexp la eps p s = (s', Ok a) /\ Reach U d ys s0 s' /\ s_opt s' = Some y.
Proof.
  intros F0 Hf. induction p as [r|o k IH|k IH]; intros Hr s a R O E; cbn in *.
  - subst r. eauto.
  - destruct Hr as [Ho Hr]. destruct E as (v & Hv & E). destruct (read_reach F0 R O Hf Ho Hv) as (s' & -> & R' & O'). eauto.
  - apply IH; auto. assert (Ha : s_amps s = s_amps f).
    { pose proof (r_core R) as C. rewrite O in C. destruct C as (f' & Ef & B). unfold with_pulse in Hf. rewrite Hf in Ef. inversion Ef; subst f'.
      exact (f_equal (@s_amps F) B). } now rewrite Ha.
Qed.
(** programs that read keep a used solver used *)
Lemma run_keeps U d ys (s0 : st) (p : @prog F) : Fresh U d ys s0 -> reads_only p -> forall s s' a, Reach U d ys s0 s ->
  run rexp la eps p s = (s', Ok a) -> Reach U d ys s0 s' /\ s_opt s' = s_opt s.
Proof.
  intros F0. induction p as [r|o k IH|k IH]; intros Hr s s' a R E; cbn in *.
  - inversion E; subst. auto.
  - destruct Hr as [Ho Hr]. destruct (sstep s o) as [s1 [v|]] eqn:Es; [|discriminate].
    destruct (@reach_step F rexp la eps U d ys s0 s o s1 v F0 R) as (P1 & P2 & P3); auto.
    destruct (IH v (Hr v) s1 s' a P1 E) as [Q1 Q2]. split; auto. rewrite Q2. auto.
  - eapply IH; eauto.
Qed.
Lemma set_keeps U d ys (s0 s s' : st) y u : Fresh U d ys s0 -> Reach U d ys s0 s -> set_pars rexp y s = (s', Ok u) -> Reach U d ys s0 s' /\ s_opt s' = Some y.
Proof.
  intros F0 R E. destruct (@reach_step F rexp la eps U d ys s0 s (SSet y) s' VUnit F0 R) as (P1 & P2 & P3); eauto. cbn. now rewrite E.
Qed.

(** the transfer function *)
Lemma Inv_tf U (s : st) t : Inv la eps U s -> Inv la eps U (set_tf s t).
Proof.
  destruct s. intros [[K1 K2 K3 K4 K5 K6] N]. cbn in *. split; [constructor; assumption|]. cbn. match goal with |- context [c_class ?c] => destruct (c_class c) as [|mc|l] end; auto. 
  destruct N. constructor; assumption.
Qed.
Lemma reach_tf U d ys (s0 s : st) t : Reach U d ys s0 s -> ready rexp d ys t -> Reach U d ys s0 (set_tf s t).
Proof. intros [A B C] H. constructor; [now apply Inv_tf|exact H|exact C]. Qed.
Lemma ready_grad_step d ys (t : tf F) g : ready rexp d ys t -> ready rexp d ys (fst (grad rexp t g)).
Proof.
  intros (t0 & t1 & sets & evals & A & B & C & D & E). exists t0, t1, sets, (evals ++ [TGrad g]).
  repeat split; auto. { apply Forall_app. split; auto. constructor; [|constructor]. exact Logic.I. }
  subst t. unfold do_ops. rewrite fold_left_app. reflexivity.
Qed.
Lemma to_pulse_reach U d ys (s0 s s' : st) y g r : Fresh U d ys s0 -> Reach U d ys s0 s -> to_pulse rexp y g s = (s', r) ->
  Reach U d ys s0 s' /\ s_opt s' = s_opt s /\
  (forall x k h, snd (call rexp (s_tf s0) y) = Ok x -> amp_chain (c_amp (s_conf s0)) g x = Ok k -> snd (grad rexp (s_tf s0) k) = Ok h -> r = Ok h).
Proof.
  intros F0 R E. unfold to_pulse in E. destruct (reach_conf F0 R) as (K1 & _).
  pose proof (ready_call_step y (r_ready R)) as R1. destruct (ready_same (f_custom F0) (f_ready F0) (r_ready R)) as [Hc _].
  destruct (call rexp (s_tf s) y) as [t1 r1] eqn:E1. cbn [fst] in R1. specialize (Hc y). rewrite E1 in Hc. cbn [snd] in Hc. rewrite K1 in E.
  destruct r1 as [x|e].
  - destruct (amp_chain (c_amp (s_conf s0)) g x) as [k|e] eqn:Ea.
    + pose proof (ready_grad_step k R1) as R2. destruct (ready_same (f_custom F0) (f_ready F0) R1) as [_ [Hg _]]. specialize (Hg k).
      destruct (grad rexp t1 k) as [t2 r2] eqn:E2. cbn [fst snd] in *. inversion E; subst. split; [|split; [reflexivity|]].
      * apply reach_tf; auto. now apply reach_tf.
      * intros x' k' h H1 H2 H3. rewrite Hc in H1. inversion H1; subst x'. rewrite Ea in H2. inversion H2; subst k'. congruence.
    + inversion E; subst. split; [now apply reach_tf|]. split; auto. intros x' k' h H1 H2 H3. rewrite Hc in H1. inversion H1; subst x'. congruence.
  - inversion E; subst. split; [now apply reach_tf|]. split; auto. intros x' k' h H1 H2 H3. congruence.
Qed.

(** ---- worlds ---- *)
Notation world := (@world F).
(** every solver is a used one; those at the positions in [js] have the pulse [y] *)
Definition winv (w0 w : world) : Prop :=
  length w = length w0 /\ forall i s0, nth_error w0 i = Some s0 -> exists U d ys s, Fresh U d ys s0 /\ nth_error w i = Some s /\ Reach U d ys s0 s.
Definition has_pulse (w : world) (y : arrF) (i : nat) : Prop := exists s, nth_error w i = Some s /\ s_opt s = Some y.
Lemma nth_error_lset {A} (l : list A) i x j : i < length l -> nth_error (lset l i x) j = if Nat.eqb j i then Some x else nth_error l j.
Proof.
  revert i j. induction l as [|a l IH]; intros i j Hi; [cbn in Hi; lia|]. destruct i, j; cbn; auto. apply IH. cbn in Hi. lia.
Qed.
Lemma winv_set w0 w i (s0 s : st) U d ys : winv w0 w -> nth_error w0 i = Some s0 -> Fresh U d ys s0 -> Reach U d ys s0 s -> winv w0 (lset w i s).
Proof.
  intros [L H] Hi F0 R. split; [now rewrite lset_length|]. intros j s1 Hj.
  assert (Li : i < length w) by (rewrite L; apply nth_error_Some; congruence).
  rewrite nth_error_lset by auto. destruct (Nat.eqb_spec j i) as [->|].
  - rewrite Hi in Hj. inversion Hj; subst. exists U, d, ys, s. auto.
  - apply H; auto.
Qed.
Lemma has_pulse_set w y i s j : i < length w -> s_opt s = Some y -> has_pulse w y j \/ j = i -> has_pulse (lset w i s) y j.
Proof.
  intros L O H. unfold has_pulse. rewrite nth_error_lset by auto. destruct (Nat.eqb_spec j i) as [->|]; [eauto|].
  destruct H as [(s1 & A & B)|]; [eauto|contradiction].
Qed.

Lemma set_all_ok (m : @sim F) (w0 : world) y : (forall i, In i (sm_solvers m) -> i < length w0) -> accepted rexp la eps m w0 y ->
  forall w, winv w0 w -> exists w' u, set_all rexp m y w = (w', Ok u) /\ winv w0 w' /\ (forall i, In i (sm_solvers m) -> has_pulse w' y i).
Proof.
  intros Hi Ha. unfold set_all.
  cut (forall l (l0 : list nat) w, (forall i, In i l -> In i (sm_solvers m)) -> winv w0 w -> (forall i, In i l0 -> has_pulse w y i) ->
    exists w' u, wmap (fun i => on i (set_pars rexp y)) l w = (w', Ok u) /\ winv w0 w' /\ (forall i, In i l0 \/ In i l -> has_pulse w' y i)).
  { intros H w Hw. destruct (H (sm_solvers m) [] w) as (w' & u & A & B & C); auto. { intros i []. } exists w', u. auto. }
  induction l as [|i l IH]; intros l0 w Hl Hw H0.
  - exists w, []. split; auto. split; auto. intros i [H|[]]; auto.
  - assert (Li := Hi i (Hl i (or_introl eq_refl))). destruct (nth_error w0 i) as [s0|] eqn:E0; [|apply nth_error_None in E0; lia].
    destruct (proj2 Hw i s0 E0) as (U & d & ys & s & F0 & Es & R). destruct (Ha i s0 (Hl i (or_introl eq_refl)) E0) as [f Hf].
    destruct (set_reach F0 R Hf) as (s' & Eset & R' & O'). cbn [wmap]. unfold wbind at 1. unfold on at 1. rewrite Es, Eset.
    assert (Lw : i < length w) by (rewrite (proj1 Hw); auto).
    destruct (IH (i :: l0) (lset w i s')) as (w' & u & A & B & C).
    + intros j Hj. apply Hl. now right.
    + eapply winv_set; eauto.
    + intros j [->|Hj]; apply has_pulse_set; auto.
    + unfold wbind. rewrite A. exists w', (tt :: u). split; auto. split; auto. intros j [Hj|[->|Hj]]; apply C; cbn; auto.
Qed.
Lemma set_all_keeps (m : @sim F) (w0 : world) y : (forall i, In i (sm_solvers m) -> i < length w0) ->
  forall w w' u, winv w0 w -> set_all rexp m y w = (w', Ok u) -> winv w0 w' /\ (forall i, In i (sm_solvers m) -> has_pulse w' y i).
Proof.
  intros Hi. unfold set_all.
  cut (forall l (l0 : list nat) w w' u, (forall i, In i l -> i < length w0) -> winv w0 w -> (forall i, In i l0 -> has_pulse w y i) ->
    wmap (fun i => on i (set_pars rexp y)) l w = (w', Ok u) -> winv w0 w' /\ (forall i, In i l0 \/ In i l -> has_pulse w' y i)).
  { intros H w w' u Hw E. destruct (H (sm_solvers m) [] w w' u) as (B & C); auto. intros i []. }
  induction l as [|i l IH]; intros l0 w w' u Hl Hw H0 E.
  - cbn in E. inversion E; subst. split; auto. intros i [H|[]]; auto.
  - cbn [wmap] in E. unfold wbind at 1 in E. unfold on at 1 in E. assert (Li := Hl i (or_introl eq_refl)).
    destruct (nth_error w0 i) as [s0|] eqn:E0; [|apply nth_error_None in E0; lia].
    destruct (proj2 Hw i s0 E0) as (U & d & ys & s & F0 & Es & R). rewrite Es in E. destruct (set_pars rexp y s) as [s' [[]|]] eqn:Eset; [|discriminate].
    destruct (set_keeps _ F0 R Eset) as [R' O']. unfold wbind in E. destruct (wmap _ l (lset w i s')) as [w1 [us|]] eqn:Em; [|discriminate]. inversion E; subst.
    assert (Lw : i < length w) by (rewrite (proj1 Hw); auto).
    destruct (IH (i :: l0) (lset w i s') w' us) as (B & C); auto.
    + intros j Hj. apply Hl. now right.
    + eapply winv_set; eauto.
    + intros j [->|Hj]; apply has_pulse_set; auto.
    + split; auto. intros j [Hj|[->|Hj]]; apply C; cbn; auto.
Qed.

(** one method call on one solver *)
Lemma wmap_calls {A B} (f : A -> wm F B) (I : world -> Prop) (P : A -> B -> Prop) l vals :
  Forall2 (fun c b => P c b) l vals -> (forall c b w, In c l -> P c b -> I w -> exists w', f c w = (w', Ok b) /\ I w') ->
  forall w, I w -> exists w', wmap f l w = (w', Ok vals) /\ I w'.
Proof.
  induction 1 as [|c b l vals H1 H2 IH]; intros Hf w Hw; [exists w; auto|].
  destruct (Hf c b w (or_introl eq_refl) H1 Hw) as (w1 & E1 & I1). destruct IH with (w := w1) as (w2 & E2 & I2); auto.
  { intros. apply Hf; auto. now right. }
  exists w2. split; auto. cbn [wmap]. unfold wbind. now rewrite E1, E2.
Qed.
Lemma wmap_keeps {A B} (f : A -> wm F B) (I : world -> Prop) l :
  (forall c b w w', In c l -> I w -> f c w = (w', Ok b) -> I w') -> forall w w' vs, I w -> wmap f l w = (w', Ok vs) -> I w'.
Proof.
  induction l as [|c l IH]; intros Hf w w' vs Hw E; cbn [wmap] in E; [inversion E; subst; auto|].
  unfold wbind in E. destruct (f c w) as [w1 [b|]] eqn:E1; [|discriminate]. destruct (wmap f l w1) as [w2 [bs|]] eqn:E2; [|discriminate].
  inversion E; subst. eapply IH; [| |exact E2]. { intros. eapply Hf; eauto. now right. } eapply Hf; eauto. now left.
Qed.

Definition pulsed (m : @sim F) (w0 : world) y w : Prop := winv w0 w /\ forall i, In i (sm_solvers m) -> has_pulse w y i.

Lemma pulsed_call {A} (m : @sim F) (w0 w : world) y i s0 (f : st -> st * res A) a : pulsed m w0 y w -> In i (sm_solvers m) -> nth_error w0 i = Some s0 ->
  (forall U d ys s, Fresh U d ys s0 -> Reach U d ys s0 s -> s_opt s = Some y -> exists s', f s = (s', Ok a) /\ Reach U d ys s0 s' /\ s_opt s' = Some y) ->
  exists w', on i f w = (w', Ok a) /\ pulsed m w0 y w'.
Proof.
  intros [Hw Hp] Hi E0 H. destruct (proj2 Hw i s0 E0) as (U & d & ys & s & F0 & Es & R). destruct (Hp i Hi) as (s1 & Es1 & O).
  rewrite Es in Es1. inversion Es1; subst s1. destruct (H U d ys s F0 R O) as (s' & E & R' & O'). unfold on. rewrite Es, E.
  assert (Lw : i < length w) by (apply nth_error_Some; congruence).
  exists (lset w i s'). split; auto. split; [eapply winv_set; eauto|]. intros j Hj. apply has_pulse_set; auto.
Qed.
Lemma pulsed_keeps {A} (m : @sim F) (w0 w w' : world) y i (f : st -> st * res A) a : pulsed m w0 y w -> In i (sm_solvers m) -> i < length w0 ->
  (forall U d ys s0 s s', Fresh U d ys s0 -> Reach U d ys s0 s -> f s = (s', Ok a) -> Reach U d ys s0 s' /\ s_opt s' = s_opt s) ->
  on i f w = (w', Ok a) -> pulsed m w0 y w'.
Proof.
  intros [Hw Hp] Hi Li H E. destruct (nth_error w0 i) as [s0|] eqn:E0; [|apply nth_error_None in E0; lia].
  destruct (proj2 Hw i s0 E0) as (U & d & ys & s & F0 & Es & R). destruct (Hp i Hi) as (s1 & Es1 & O).
  rewrite Es in Es1. inversion Es1; subst s1. unfold on in E. rewrite Es in E. destruct (f s) as [s' r] eqn:Ef. inversion E; subst.
  destruct (H U d ys s0 s s' F0 R Ef) as [R' O']. assert (Lw : i < length w) by (apply nth_error_Some; congruence).
  split; [eapply winv_set; eauto|]. intros j Hj. apply has_pulse_set; auto. congruence.
Qed.
(** the pulse setter of the loop leaves a pulsed world *)
Lemma pulse_of (m : @sim F) p y : pulse_used m p y -> the_pulse m p = Ok y.
Proof. intros [->|[-> H]]; cbn; auto. now rewrite H. Qed.
Lemma of_pulse (m : @sim F) p y : the_pulse m p = Ok y -> pulse_used m p y.
Proof. unfold the_pulse, pulse_used. destruct p, (sm_pulse m); intros H; inversion H; subst; auto. Qed.

Notation set_up := (set_up la eps).
Lemma set_up_winv (m : @sim F) w0 : set_up m w0 -> winv w0 w0.
Proof.
  intros (H & _). split; auto. intros i s0 E. destruct (H s0 (nth_error_In _ _ E)) as (d & Hc & G).
  destruct (@constructed_fresh F rexp la eps d s0 Hc G) as [tau F0]. exists (s_udiss s0), d, tau, s0. split; auto. split; auto. now apply fresh_reach.
Qed.

(** ---- the costs ---- *)
Lemma wrapped_cost_ok (m : @sim F) (w0 w : world) p y vals : set_up m w0 -> winv w0 w -> pulse_used m p y -> accepted rexp la eps m w0 y ->
  Forall2 (fun c a => exists s0, nth_error w0 (cf_solver c) = Some s0 /\ costs_at rexp la eps s0 c y a) (sm_cfs m) vals ->
  exists w', wrapped_cost rexp la eps m p w = (w', Ok (concat (map (@data F) vals))) /\ pulsed m w0 y w'.
Proof.
  intros (S1 & S2 & S3 & S4) Hw Hp Ha Hv. unfold wrapped_cost. unfold wbind at 1. unfold wret at 1. rewrite (pulse_of Hp).
  destruct (@set_all_ok m w0 y S2 Ha w Hw) as (w1 & u & E1 & W1 & P1). unfold wbind at 1. rewrite E1.
  destruct (@wmap_calls _ _ (fun c => wbind (on (cf_solver c) (run rexp la eps (cf_costs c))) (fun a => wret (Ok (data a)))) (pulsed m w0 y)
     (fun c l => exists a s0, nth_error w0 (cf_solver c) = Some s0 /\ costs_at rexp la eps s0 c y a /\ l = data a) (sm_cfs m) (map (@data F) vals)) with (w := w1) as (w2 & E2 & P2).
  - clear - Hv. induction Hv as [|c a l l' (s0 & A & B) H IH]; cbn; constructor; auto. exists a, s0. auto.
  - intros c l w2 Hc (a & s0 & A & (f & Hf & Hev) & ->) Hw2. destruct (S4 c Hc) as (C1 & C2 & C3).
    destruct (@pulsed_call _ m w0 w2 y (cf_solver c) s0 (run rexp la eps (cf_costs c)) a Hw2 C1 A) as (w3 & E3 & P3).
    { intros U d ys s F0 R O. exact (@run_reach U d ys s0 f y _ F0 Hf C2 s a R O Hev). }
    exists w3. split; auto. unfold wbind. now rewrite E3.
  - split; auto.
  - exists w2. split; auto. unfold wbind at 1. rewrite E2. unfold wret, np_concat. destruct (sm_cfs m); [congruence|]. inversion Hv; subst. reflexivity.
Qed.
Lemma wrapped_cost_keeps (m : @sim F) (w0 w w' : world) p v : set_up m w0 -> winv w0 w -> wrapped_cost rexp la eps m p w = (w', Ok v) ->
  exists y, pulse_used m p y /\ pulsed m w0 y w'.
Proof.
  intros (S1 & S2 & S3 & S4) Hw E. unfold wrapped_cost in E. unfold wbind at 1 in E. unfold wret at 1 in E. destruct (the_pulse m p) as [y|] eqn:Ep; [|discriminate].
  exists y. split; [now apply of_pulse|]. unfold wbind at 1 in E. destruct (set_all rexp m y w) as [w1 [u|]] eqn:E1; [|discriminate].
  destruct (@set_all_keeps m w0 y S2 w w1 u Hw E1) as [W1 P1]. unfold wbind at 1 in E.
  match type of E with context [wmap ?f ?l w1] => destruct (wmap f l w1) as [w2 [ls|]] eqn:E2; [|discriminate]; pose proof (@wmap_keeps _ _ f (pulsed m w0 y) l) as H end.
  unfold wret in E. inversion E; subst w2. eapply H; [| |exact E2]; [|split; auto].
  intros c b w2 w3 Hc Hw2 E3. destruct (S4 c Hc) as (C1 & C2 & C3). unfold wbind in E3. destruct (on (cf_solver c) _ w2) as [w4 [a|]] eqn:E4; [|discriminate].
  unfold wret in E3. inversion E3; subst w4. eapply pulsed_keeps; eauto. intros U d ys s0 s s' F0 R Er. exact (@run_keeps U d ys s0 _ F0 C2 s s' _ R Er).
Qed.

(** ---- the jacobian ---- *)
Lemma expand1_spec (g g' : arrF) : ((length (shape g) <> 2 /\ g' = g) \/ exists m n, shape g = [m; n] /\ shape g' = [m; 1; n] /\ data g' = data g) -> expand1 g = g'.
Proof.
  intros [[H ->]|(m & n & A & B & C)]; unfold expand1, rank.
  - apply Nat.eqb_neq in H. now rewrite H.
  - rewrite A. cbn. unfold dim0, dim1. rewrite A. cbn. destruct g'. cbn in *. now subst.
Qed.
Lemma jac_of_ok (m : @sim F) (w0 w : world) y c s0 h : set_up m w0 -> pulsed m w0 y w -> In c (sm_cfs m) -> nth_error w0 (cf_solver c) = Some s0 ->
  gradient_at rexp la eps s0 c y h -> exists w', jac_of rexp la eps y c w = (w', Ok h) /\ pulsed m w0 y w'.
Proof.
  intros (S1 & S2 & S3 & S4) Hw Hc E0 (f & g & g' & x & k & Hf & Hev & Hx & H1 & H2 & H3). destruct (S4 c Hc) as (C1 & C2 & C3).
  apply expand1_spec in Hx. unfold jac_of. apply (@pulsed_call _ m w0 w y (cf_solver c) s0); auto.
  intros U d ys s F0 R O. destruct (@run_reach U d ys s0 f y _ F0 Hf C3 s g R O Hev) as (s1 & E1 & R1 & O1). unfold seqm. rewrite E1, Hx.
  destruct (to_pulse rexp y g' s1) as [s2 r] eqn:E2. destruct (to_pulse_reach y g' F0 R1 E2) as (R2 & O2 & V). rewrite (V x k h) by auto. exists s2. split; auto. split; auto. congruence.
Qed.
Lemma wrapped_jac_ok (m : @sim F) (w0 w : world) p y hs dl : set_up m w0 -> sm_numeric m = false -> winv w0 w -> pulse_used m p y -> accepted rexp la eps m w0 y ->
  Forall2 (fun c h => exists s0, nth_error w0 (cf_solver c) = Some s0 /\ gradient_at rexp la eps s0 c y h) (sm_cfs m) hs ->
  exists w', wrapped_jac rexp la eps m p dl w = (w', concat_axis1 hs) /\ pulsed m w0 y w'.
Proof.
  intros HS Hn Hw Hp Ha Hv. pose proof HS as (S1 & S2 & S3 & S4). unfold wrapped_jac. rewrite Hn. unfold wbind at 1. unfold wret at 1. rewrite (pulse_of Hp).
  destruct (@set_all_ok m w0 y S2 Ha w Hw) as (w1 & u & E1 & W1 & P1). unfold wbind at 1. rewrite E1.
  destruct (@wmap_calls _ _ (jac_of rexp la eps y) (pulsed m w0 y) (fun c h => exists s0, nth_error w0 (cf_solver c) = Some s0 /\ gradient_at rexp la eps s0 c y h) (sm_cfs m) hs) with (w := w1) as (w2 & E2 & P2); auto.
  - intros c h w2 Hc (s0 & A & B) Hw2. eapply jac_of_ok; eauto.
  - split; auto.
  - exists w2. split; auto. unfold wbind. now rewrite E2.
Qed.
(** numeric_gradient only evaluates the costs *)
Lemma wmap_winv {A B} (f : A -> wm F B) w0 l : (forall c b w w', winv w0 w -> f c w = (w', Ok b) -> winv w0 w') -> forall w w' vs, winv w0 w -> wmap f l w = (w', Ok vs) -> winv w0 w'.
Proof. intros H. apply wmap_keeps. intros. eapply H; eauto. Qed.
Lemma numeric_keeps (m : @sim F) (w0 w w' : world) p dl b v : set_up m w0 -> winv w0 w -> numeric_gradient rexp la eps m p dl b w = (w', Ok v) -> winv w0 w'.
Proof.
  intros HS Hw E.
  assert (HC : forall p w w' v, winv w0 w -> wrapped_cost rexp la eps m p w = (w', Ok v) -> winv w0 w').
  { intros p1 w1 w2 v1 H1 H2. destruct (wrapped_cost_keeps _ HS H1 H2) as (y & _ & A & _). exact A. }
  unfold numeric_gradient in E. unfold wbind at 1 in E. unfold wret at 1 in E. destruct (the_pulse m p) as [y|] eqn:Ep; [|discriminate].
  unfold wbind at 1 in E. destruct (wrapped_cost rexp la eps m (Some y) w) as [w1 [cen|]] eqn:E1; [|discriminate].
  destruct (negb (Nat.eqb (rank y) 2)); [discriminate|]. unfold wbind at 1 in E.
  match type of E with context [wmap ?f ?l w1] => destruct (wmap f l w1) as [w2 [ls|]] eqn:E2; [|discriminate]; pose proof (@wmap_winv _ _ f w0 l) as H end.
  unfold wret in E. inversion E; subst w2. eapply H; [| |exact E2]; [|eauto].
  clear H. intros t row w2 w3 J2 E3. revert w2 w3 row J2 E3. apply wmap_winv. intros c col w2 w3 J2 E3. unfold wbind at 1 in E3.
  destruct (wrapped_cost rexp la eps m (Some (shifted y t c dl)) w2) as [w4 [fw|]] eqn:E4; [|discriminate]. apply HC in E4; auto.
  destruct b.
  - unfold wbind at 1 in E3. destruct (wrapped_cost rexp la eps m (Some (shifted y t c (kopp dl))) w4) as [w5 [bk|]] eqn:E5; [|discriminate]. apply HC in E5; auto. unfold wret in E3. now inversion E3; subst.
  - unfold wret in E3. now inversion E3; subst.
Qed.
Lemma wrapped_jac_keeps (m : @sim F) (w0 w w' : world) p dl v : set_up m w0 -> winv w0 w -> wrapped_jac rexp la eps m p dl w = (w', Ok v) -> winv w0 w'.
Proof.
  intros HS Hw E. unfold wrapped_jac in E. destruct (sm_numeric m). { eapply numeric_keeps; eauto. }
  pose proof HS as (S1 & S2 & S3 & S4). unfold wbind at 1 in E. unfold wret at 1 in E. destruct (the_pulse m p) as [y|] eqn:Ep; [|discriminate].
  unfold wbind at 1 in E. destruct (set_all rexp m y w) as [w1 [u|]] eqn:E1; [|discriminate].
  destruct (@set_all_keeps m w0 y S2 w w1 u Hw E1) as [W1 P1]. unfold wbind at 1 in E.
  destruct (wmap (jac_of rexp la eps y) (sm_cfs m) w1) as [w2 [ls|]] eqn:E2; [|discriminate]. unfold wret in E. inversion E; subst w2.
  assert (P : pulsed m w0 y w'). 2:{ apply P. }
  eapply wmap_keeps; [| |exact E2]; [|split; auto]. intros c b w2 w3 Hc Hw2 E3. destruct (S4 c Hc) as (C1 & C2 & C3). unfold jac_of in E3.
  eapply pulsed_keeps; eauto. intros U d ys s0 s s' F0 R Er. unfold seqm in Er. destruct (run rexp la eps (cf_grad c) s) as [s1 [g|]] eqn:Eg; [|discriminate].
  destruct (@run_keeps U d ys s0 _ F0 C3 s s1 _ R Eg) as [R1 O1]. destruct (to_pulse_reach y (expand1 g) F0 R1 Er) as (R2 & O2 & _). split; auto. congruence.
Qed.
Lemma simulated_winv (m : @sim F) (w0 w : world) : set_up m w0 -> simulated rexp la eps m w0 w -> winv w0 w.
Proof.
  intros HS. induction 1 as [|w w' p v _ IH E|w w' p dl v _ IH E].
  - eapply set_up_winv; eauto.
  - destruct (wrapped_cost_keeps _ HS IH E) as (y & _ & A & _). exact A.
  - eapply wrapped_jac_keeps; eauto.
Qed.

(** ---- layout ---- *)
Lemma concat_blocks {A} (ls : list (list A)) : blocks ls (concat ls).
Proof.
  split.
  - induction ls; cbn; auto. now rewrite app_length, IHls.
  - induction ls as [|l0 ls IH]; intros [|i] l k x Hi Hk; try discriminate; cbn in *.
    + inversion Hi; subst. unfold offset. cbn. rewrite nth_error_app1; auto. apply nth_error_Some. congruence.
    + unfold offset in *. cbn [firstn list_sum fold_right]. change (fold_right Nat.add 0 ?z) with (list_sum z). rewrite nth_error_app2 by lia. 
      rewrite <- (IH i l k x Hi Hk). f_equal. unfold list_sum. lia.
Qed.

Theorem sim_costs (m : @sim F) (w0 w : world) p y vals : set_up m w0 -> simulated rexp la eps m w0 w -> pulse_used m p y -> accepted rexp la eps m w0 y ->
  Forall2 (fun c a => exists s0, nth_error w0 (cf_solver c) = Some s0 /\ costs_at rexp la eps s0 c y a) (sm_cfs m) vals ->
  exists w' v, wrapped_cost rexp la eps m p w = (w', Ok v) /\ blocks (map (@data F) vals) v /\
   (forall i, In i (sm_solvers m) -> exists s, nth_error w' i = Some s /\ s_opt s = Some y).
Proof.
  intros HS Hw Hp Ha Hv. apply simulated_winv in Hw; auto. destruct (wrapped_cost_ok HS Hw Hp Ha Hv) as (w' & E & P). exists w', (concat (map (@data F) vals)).
  split; auto. split; [apply concat_blocks|]. apply P.
Qed.
(** one cost per index *)
Lemma sim_indices (m : @sim F) (vals : list arrF) (v : list F) : Forall2 (fun c a => length (cf_label c) = length (data a)) (sm_cfs m) vals -> blocks (map (@data F) vals) v ->
  length v = length (cost_indices m) /\
  forall i c a k x, nth_error (sm_cfs m) i = Some c -> nth_error vals i = Some a -> nth_error (cf_label c) k = Some x ->
    nth_error (cost_indices m) (offset (map (@length F) (map (@data F) vals)) i + k) = Some x /\
    nth_error v (offset (map (@length F) (map (@data F) vals)) i + k) = nth_error (data a) k.
Proof.
  intros H [L B]. unfold cost_indices. rewrite flat_map_concat_map.
  assert (E : map (@length nat) (map (@cf_label F) (sm_cfs m)) = map (@length F) (map (@data F) vals)).
  { clear - H. induction H; cbn; auto. now f_equal. }
  destruct (concat_blocks (map (@cf_label F) (sm_cfs m))) as [L' B']. rewrite L, L', E. split; auto.
  intros i c a k x Hc Ha Hk. split.
  - rewrite <- E. apply (B' i (cf_label c)); auto. now apply map_nth_error.
  - assert (Lk : k < length (data a)).
    { assert (Hl : length (cf_label c) = length (data a)).
      { clear - H Hc Ha. revert i Hc Ha. induction H; intros [|i] Hc Ha; try discriminate; cbn in *; [congruence|eauto]. }
      rewrite <- Hl. apply nth_error_Some. congruence. }
    destruct (nth_error (data a) k) as [z|] eqn:Ez; [|apply nth_error_None in Ez; lia].
    apply (B i (data a)); auto. now apply map_nth_error.
Qed.
End Sim.
