(** set_times in the middle of a history of a solver (C26). *)
Require Import List Arith Lia Bool.
From Verif Require Import LibBase LibRing LibArr LibCplx LibMat M_Matrix M_OpHeap M_Transfer S_Transfer P_Transfer2 M_Amplitude M_Solver S_Solver S_SolverTimes P_Loops P_Solver P_Solver2 P_Solver3 P_Solver4 P_Solver5 P_Solver6.
Import ListNotations.
Open Scope res_scope.
Set Implicit Arguments.

Section Times.
Variable F : OField.
Variable rexp : F -> F.
Variable la : LinAlg F.
Variable eps : cplx F.
Notation arrF := (arr (kcar F)).
Notation op := (op F).
Notation st := (@st F).
Implicit Types (s b f : st) (U : option (list op)).
Notation Inv := (Inv la eps).
Notation good := (good la eps).
Notation sstep := (sstep rexp la eps).
Notation srun := (srun rexp la eps).
Notation all_ok := (all_ok rexp la eps).
Notation returns := (returns rexp la eps).

Lemma no_matrix_no_custom (d : desc F) : no_matrix d -> no_custom d.
Proof. induction d; cbn; intuition. Qed.

(** what stays true through all calls *)
Record Loose U (t0 : tf F) s0 s : Prop := mkLoose {
  w_inv : Inv U s; w_conf : s_conf s = s_conf s0; w_drift : s_drift s = s_drift s0; w_tf : exists ops, s_tf s = do_ops rexp t0 ops }.

Lemma times_state s tau s' v : sstep s (STimes tau) = (s', Ok v) ->
  exists t' xs, set_times (s_tf s) tau = (t', Ok tt) /\ b_xt (tbase t') = Some xs /\ s' = reset_cached (set_time (set_tf s t') xs) /\ v = VUnit.
Proof.
  cbn [M_Solver.sstep]. unfold solver_set_times. destruct (set_times (s_tf s) tau) as [t' [[]|e]]; [|discriminate]. destruct (b_xt (tbase t')) as [xs|] eqn:Ex; [|discriminate].
  cbn [mapv]. intros H. inversion H; subst. eauto 6.
Qed.
Lemma times_loose U t0 s0 s tau s' v : adapts (s_conf s0) -> Loose U t0 s0 s -> sstep s (STimes tau) = (s', Ok v) -> Loose U t0 s0 s' /\ s_opt s' = s_opt s /\ s_amps s' = s_amps s /\ s_tpars s' = s_tpars s.
Proof.
  intros A L E. destruct (times_state _ _ E) as (t' & xs & E1 & E2 & -> & ->). set (s1 := set_time (set_tf s t') xs).
  destruct (reset_fields s1) as (A1 & A2 & A3 & A4 & A5 & A6 & A7 & A8 & A9 & A10 & A11).
  assert (Cs : s_conf s1 = s_conf s0) by apply (w_conf L).
  split; [|rewrite A5, A6, A7; auto]. constructor.
  - apply empty_Inv; auto.
    + rewrite A10. exact (Inv_n (w_inv L)).
    + pose proof (i_l (proj1 (w_inv L))) as J. unfold IL in *. rewrite A1, A11, A8, Cs. rewrite (w_conf L) in J. unfold adapts in A. destruct (c_class (s_conf s0)) as [|m|l]; auto.
      assert (El : match li_pref l, li_func l with None, None => s_l s1 | _, _ => mkl None None end = mkl (F:=F) None None) by (destruct A; destruct (li_pref l), (li_func l); auto; congruence).
      rewrite El. cbn. split; [discriminate|]. split; [discriminate|]. intros _. apply J. auto.
  - now rewrite A1.
  - rewrite A2. apply (w_drift L).
  - destruct (w_tf L) as [ops Ho]. exists (ops ++ [TSet tau]). rewrite A3. cbn. unfold do_ops. rewrite fold_left_app. fold (do_ops rexp t0 ops). rewrite <- Ho. cbn. now rewrite E1.
Qed.
Lemma step_loose U t0 s0 s o s' v : adapts (s_conf s0) -> good (s_conf s0) -> Loose U t0 s0 s -> allowed_times o -> sstep s o = (s', Ok v) ->
  Loose U t0 s0 s' /\ s_opt s' = match o with SSet y => Some y | _ => s_opt s end.
Proof.
  intros A G L Ho E. assert (Gs : good (s_conf s)) by now rewrite (w_conf L). destruct Ho as [[Ho|[y ->]]|[tau ->]].
  - destruct (@read_step F rexp la eps U s o s' (Ok v) Ho Gs (w_inv L) E) as (K & V & _). destruct (V v eq_refl) as [I' _].
    destruct (conf_keeps K) as (C1 & _ & _ & C2 & O & _). destruct K as [T B]. split; [|rewrite O; destruct o; try discriminate; auto].
    constructor; auto; [now rewrite C1, (w_conf L)|now rewrite C2, (w_drift L)|rewrite T; apply (w_tf L)].
  - destruct (opt_equal (s_opt s) y) eqn:Eo.
    + cbn [M_Solver.sstep] in E. rewrite set_pars_known in E by auto. cbn in E. inversion E; subst s'. split; auto. now apply opt_equal_eq.
    + destruct (@set_fresh_like F rexp la eps U s y s' v (g_derivs Gs) (w_inv L) Eo E) as (x & u & A1 & -> & A2 & A3 & A4 & A5).
      split; [|exact (f_equal (@s_opt F) A3)]. constructor; auto; [rewrite (f_equal (@s_conf F) A3 : s_conf s' = s_conf s); apply (w_conf L)|rewrite (f_equal (@s_drift F) A3 : s_drift s' = s_drift s); apply (w_drift L)|].
      destruct (w_tf L) as [ops Hops]. exists (ops ++ [TCall y]). rewrite A2, Hops. unfold do_ops. now rewrite fold_left_app.
  - destruct (@times_loose U t0 s0 s tau s' v A L E) as (L' & O & _). auto.
Qed.
Lemma run_loose U t0 s0 hist : adapts (s_conf s0) -> good (s_conf s0) -> Forall allowed_times hist -> forall s, Loose U t0 s0 s -> all_ok s hist ->
  Loose U t0 s0 (srun s hist) /\ s_opt (srun s hist) = fold_left (fun acc o => match o with SSet y => Some y | _ => acc end) hist (s_opt s).
Proof.
  intros A G. induction hist as [|o hist IH]; intros Al s L H; [split; auto|]. inversion Al; subst. destruct H as [[v Hv] H].
  destruct (sstep s o) as [s' r] eqn:E. cbn [fst snd] in Hv, H. subst r. destruct (@step_loose U t0 s0 s o s' v A G L H2 E) as [L' O].
  change (srun s (o :: hist)) with (srun (fst (sstep s o)) hist). rewrite E. cbn [fst fold_left]. destruct (IH H3 s' L' H) as [P Q]. split; auto. rewrite Q. f_equal. rewrite O. destruct o; auto.
Qed.

Lemma srun_app s h1 h2 : srun s (h1 ++ h2) = srun (srun s h1) h2.
Proof. unfold M_Solver.srun. apply fold_left_app. Qed.
Lemma all_ok_app s h1 h2 : all_ok s (h1 ++ h2) <-> all_ok s h1 /\ all_ok (srun s h1) h2.
Proof.
  revert s. induction h1 as [|o h IH]; intros s; cbn [app]; [cbn; intuition|]. cbn [S_Solver.all_ok]. change (srun s (o :: h)) with (srun (fst (sstep s o)) h). rewrite IH. intuition.
Qed.

(** the solver of the new times: set_times on the new solver *)
Section Two.
Variables (d : desc F) (s0 : st) (tau : list F).
Hypothesis C : constructed d s0.
Hypothesis G : good (s_conf s0).
Hypothesis N : no_matrix d.
Hypothesis AD : adapts (s_conf s0).
Notation U := (s_udiss s0).

Lemma start : exists t0 tau0 t1, build d = Ok t0 /\ set_times t0 tau0 = (t1, Ok tt) /\ s_tf s0 = t1 /\ Fresh rexp la eps U d tau0 s0 /\ Loose U t0 s0 s0.
Proof.
  destruct C as (Hc & cls & drift & ctrl & tau0 & init & amps & meth & skew & calc & approx & t & a & udiss & Hb & H).
  pose proof (@build_fresh F rexp la eps cls drift ctrl tau0 init amps meth skew calc approx d t a udiss s0 Hb Hc H G) as Fr.
  assert (Eu : udiss = U) by (symmetry; apply (f_u Fr)). subst udiss.
  unfold build_solver in H. destruct (idx ctrl 0) as [h0|]; [|discriminate]. cbn [bind] in H.
  destruct (set_times t tau0) as [t' r] eqn:Et. destruct r as [[]|]; [|discriminate]. exists t, tau0, t'.
  assert (Etf : s_tf s0 = t').
  { cbn [bind] in H. destruct (b_xt (tbase t')) as [xs|]; [|discriminate]. destruct (_ || _); [|discriminate]. destruct (forallb _ ctrl); [|discriminate]. destruct (forallb _ _); [|discriminate]. now inversion H. }
  split; auto. split; auto. split; auto. split; auto. constructor; auto; [eapply fresh_Inv; eauto|]. exists [TSet tau0]. cbn. now rewrite Et.
Qed.

Lemma new_times t0 s s' v : build d = Ok t0 -> Loose U t0 s0 s -> sstep s (STimes tau) = (s', Ok v) ->
  exists f, sstep s0 (STimes tau) = (f, Ok VUnit) /\ Fresh rexp la eps U d tau f /\ s_tf s' = s_tf f /\ s_time s' = s_time f /\ s_conf f = s_conf s0 /\ s_drift f = s_drift s0 /\ v = VUnit.
Proof.
  intros Hb L E. destruct start as (t1 & tau0 & t2 & B1 & B2 & B3 & B4 & B5). assert (t1 = t0) by congruence. subst t1.
  destruct (times_state _ _ E) as (t' & xs & E1 & E2 & -> & ->). destruct (w_tf L) as [ops Hops]. rewrite Hops in E1.
  destruct (@set_times_takes_effect F rexp d t0 ops tau N Hb) as [X1 X2]. rewrite E1 in X1, X2. cbn [fst snd] in X1, X2. specialize (X2 (eq_sym X1)).
  assert (Z : set_times (s_tf s0) tau = (t', Ok tt)).
  { rewrite B3. assert (D1 : do_ops rexp t0 [TSet tau0] = t2) by (cbn; now rewrite B2). destruct (@set_times_takes_effect F rexp d t0 [TSet tau0] tau N Hb) as [Z1 Z2]. rewrite D1 in Z1, Z2.
    rewrite (surjective_pairing (set_times t2 tau)), Z1, (Z2 (eq_sym X1)), <- X1, X2. reflexivity. }
  exists (reset_cached (set_time (set_tf s0 t') xs)). set (f := reset_cached _).
  destruct (reset_fields (set_time (set_tf s0 t') xs)) as (A1 & A2 & A3 & A4 & A5 & A6 & A7 & A8 & A9 & A10 & A11). fold f in A1, A2, A3, A4, A5, A6, A7, A8, A9, A10, A11.
  destruct (reset_fields (set_time (set_tf s t') xs)) as (D1 & D2 & D3 & D4 & _).
  split. { cbn [M_Solver.sstep]. unfold solver_set_times. rewrite Z, E2. reflexivity. }
  split; [|rewrite A3, A4, D3, D4; cbn; auto]. constructor.
  - rewrite A1. exact G.
  - now apply no_matrix_no_custom.
  - rewrite A3. cbn. exists t0, t', [TSet tau0], []. split; auto. split. { constructor; [exact Logic.I|constructor]. } split; [|split; auto]. cbn. rewrite B2. cbn. rewrite <- B3. exact Z.
  - rewrite A5. apply (f_opt B4).
  - exact A9.
  - rewrite A10. cbn. rewrite (f_n B4). now destruct (c_class (s_conf s0)).
  - rewrite A11. cbn. rewrite (f_l B4). destruct (c_class (s_conf s0)) as [| |l]; auto. now destruct (li_pref l), (li_func l).
  - rewrite A8. reflexivity.
Qed.

(** reads of a state that belongs to the new times *)
Lemma reach_coherent f s y hist2 o v : Fresh rexp la eps U d tau f -> Reach rexp la eps U d tau f s -> s_opt s = Some y -> Forall allowed hist2 -> all_ok s hist2 -> is_read o = true ->
  returns (srun f [SSet (last_set_after y hist2)]) o v -> returns (srun s hist2) o v.
Proof.
  intros F0 R Oy A H Ho Hv. destruct (@history F rexp la eps U d tau f hist2 F0 A s R H) as [R' O]. rewrite Oy in O.
  assert (O' : s_opt (srun s hist2) = Some (last_set_after y hist2)).
  { rewrite O. unfold last_set_after, last_set. clear. assert (K : forall (acc : option arrF) h, fold_left (fun acc (o : @sop F) => match o with SSet y => Some y | _ => acc end) h acc =
      match fold_left (fun acc (o : @sop F) => match o with SSet y => Some y | _ => acc end) h None with Some y' => Some y' | None => acc end).
    { intros acc h. revert acc. induction h as [|o h IH]; intros acc; cbn; auto. rewrite (IH (match o with SSet y0 => Some y0 | _ => acc end)), (IH (match o with SSet y0 => Some y0 | _ => None end)).
      destruct (fold_left _ h None); auto. destruct o; auto. }
    rewrite K. destruct (fold_left _ hist2 None); auto. }
  set (s1 := srun s hist2) in *. set (y1 := last_set_after y hist2) in *. pose proof (r_core R') as K. rewrite O' in K. destruct K as (f1 & Ef & B).
  unfold S_Solver.returns in *. unfold M_Solver.srun in Hv. cbn [fold_left] in Hv. rewrite Ef in Hv. cbn [fst] in Hv.
  assert (H0 : opt_equal (s_opt f) y1 = false) by now rewrite (f_opt F0).
  destruct (@set_fresh_like F rexp la eps U f y1 f1 VUnit (g_derivs (f_good F0)) (fresh_Inv F0) H0 Ef) as (x & u & A1 & _ & A2 & A3 & A4 & A5).
  assert (Kc : s_conf s1 = s_conf f) by (transitivity (s_conf f1); [exact (f_equal (@s_conf F) B)|exact (f_equal (@s_conf F) A3)]).
  apply (@read_coherent F rexp la eps U s1 f1 o v); auto; [rewrite Kc; apply (f_good F0)|apply (r_inv R')].
Qed.

Lemma times_then_parameters hist y hist2 o v :
  Forall allowed_times hist -> Forall allowed hist2 -> all_ok s0 (hist ++ STimes tau :: SSet y :: hist2) -> last_set hist <> Some y -> is_read o = true ->
  returns (srun s0 [STimes tau; SSet (last_set_after y hist2)]) o v -> returns (srun s0 (hist ++ STimes tau :: SSet y :: hist2)) o v.
Proof.
  intros A1 A2 H Hy Ho Hv. destruct start as (t0 & tau0 & t1 & B1 & B2 & B3 & B4 & B5). apply all_ok_app in H. destruct H as [H1 H].
  destruct (@run_loose U t0 s0 hist AD G A1 s0 B5 H1) as [L O]. rewrite (f_opt B4) in O. fold (last_set hist) in O. rewrite srun_app. set (s := srun s0 hist) in *.
  destruct H as [[v1 E1] H]. destruct (sstep s (STimes tau)) as [s1 r1] eqn:Es. cbn [fst snd] in E1, H. subst r1.
  destruct (@new_times t0 s s1 _ B1 L Es) as (f & Ef & Ff & T1 & T2 & T3 & T4 & ->). destruct (@times_loose U t0 s0 s tau s1 _ AD L Es) as (L1 & O1 & _).
  destruct H as [[v2 E2] H]. destruct (sstep s1 (SSet y)) as [s2 r2] eqn:Es2. cbn [fst snd] in E2, H. subst r2.
  assert (Eo : opt_equal (s_opt s1) y = false). { destruct (opt_equal (s_opt s1) y) eqn:X; auto. apply opt_equal_eq in X. congruence. }
  assert (Gs : good (s_conf s1)) by now rewrite (w_conf L1).
  destruct (@set_fresh_like F rexp la eps U s1 y s2 v2 (g_derivs Gs) (w_inv L1) Eo Es2) as (x & u & X1 & -> & X2 & X3 & X4 & X5).
  assert (A0 : amps_of rexp f y = Ok (x, u)). { rewrite <- X1. unfold amps_of. now rewrite T1, T2, T3, (w_conf L1). }
  assert (R : Reach rexp la eps U d tau f s2).
  { constructor; auto.
    - rewrite X2, T1. apply ready_call_step. apply (f_ready Ff).
    - rewrite (f_equal (@s_opt F) X3 : s_opt s2 = Some y). destruct (sstep f (SSet y)) as [f0 r0] eqn:E0. cbn [M_Solver.sstep] in E0. destruct (set_pars rexp y f) as [q r] eqn:Eq.
      assert (H0 : opt_equal (s_opt f) y = false) by now rewrite (f_opt Ff). pose proof (@set_pars_new F rexp U f y q r H0 Eq) as P. rewrite A0 in P. destruct P as (-> & _ & P3 & _).
      cbn in E0. inversion E0; subst. exists f0. split; auto. rewrite X3, P3. unfold core. now rewrite T2, T3, T4, (w_conf L1), (w_drift L1). }
  unfold M_Solver.srun. cbn [fold_left]. rewrite Es. cbn [fst]. rewrite Es2. cbn [fst].
  apply (@reach_coherent f s2 y hist2 o v Ff R (f_equal (@s_opt F) X3) A2 H Ho). unfold M_Solver.srun in Hv. cbn [fold_left] in Hv. rewrite Ef in Hv. exact Hv.
Qed.

(** the amplitudes are kept: right if they are those of the new times *)
Lemma times_same_amplitudes hist y hist2 o v :
  Forall allowed_times hist -> Forall allowed hist2 -> all_ok s0 (hist ++ STimes tau :: hist2) -> last_set hist = Some y -> all_ok s0 [STimes tau; SSet y] ->
  s_amps (srun s0 [STimes tau; SSet y]) = s_amps (srun s0 hist) -> s_tpars (srun s0 [STimes tau; SSet y]) = s_tpars (srun s0 hist) -> is_read o = true ->
  returns (srun s0 [STimes tau; SSet (last_set_after y hist2)]) o v -> returns (srun s0 (hist ++ STimes tau :: hist2)) o v.
Proof.
  intros A1 A2 H Hy Hf Ha Ht Ho Hv. destruct start as (t0 & tau0 & t1 & B1 & B2 & B3 & B4 & B5). apply all_ok_app in H. destruct H as [H1 H].
  destruct (@run_loose U t0 s0 hist AD G A1 s0 B5 H1) as [L O]. rewrite (f_opt B4) in O. fold (last_set hist) in O. rewrite srun_app. set (s := srun s0 hist) in *.
  destruct H as [[v1 E1] H]. destruct (sstep s (STimes tau)) as [s1 r1] eqn:Es. cbn [fst snd] in E1, H. subst r1.
  destruct (@new_times t0 s s1 _ B1 L Es) as (f & Ef & Ff & T1 & T2 & T3 & T4 & ->). destruct (@times_loose U t0 s0 s tau s1 _ AD L Es) as (L1 & O1 & O2 & O3).
  unfold M_Solver.srun in Ha, Ht. cbn [fold_left] in Ha, Ht. rewrite Ef in Ha, Ht. cbn [fst] in Ha, Ht. cbn [S_Solver.all_ok] in Hf. rewrite Ef in Hf. cbn [fst snd] in Hf.
  destruct Hf as [_ [[v2 E2] _]]. destruct (sstep f (SSet y)) as [f1 r2] eqn:Ef1. cbn [fst snd] in E2, Ha, Ht. subst r2.
  assert (H0 : opt_equal (s_opt f) y = false) by now rewrite (f_opt Ff).
  destruct (@set_fresh_like F rexp la eps U f y f1 v2 (g_derivs (f_good Ff)) (fresh_Inv Ff) H0 Ef1) as (x & u & X1 & -> & X2 & X3 & X4 & X5).
  assert (R : Reach rexp la eps U d tau f s1).
  { constructor; [apply (w_inv L1)|rewrite T1; apply (f_ready Ff)|]. rewrite O1, O, Hy. exists f1. split; auto.
    assert (Y1 : s_amps f1 = Some u) by exact (f_equal (@s_amps F) X3). assert (Y2 : s_tpars f1 = Some x) by exact (f_equal (@s_tpars F) X3).
    rewrite X3. unfold bare, core. rewrite (w_conf L1), (w_drift L1), T2, T3, T4, O1, O2, O3, O, Hy, <- Ha, <- Ht, Y1, Y2. reflexivity. }
  unfold M_Solver.srun. cbn [fold_left]. rewrite Es. cbn [fst].
  assert (Oy : s_opt s1 = Some y) by (rewrite O1, O; exact Hy).
  apply (@reach_coherent f s1 y hist2 o v Ff R Oy A2 H Ho). unfold M_Solver.srun in Hv. cbn [fold_left] in Hv. rewrite Ef in Hv. exact Hv.
Qed.
End Two.
End Times.
