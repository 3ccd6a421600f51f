(** Parallel evaluation of noise traces, exponential methods, parameters after rejected ones. *)
Require Import List Arith Lia Bool.
From Verif Require Import LibBase LibRing LibArr LibCplx LibMat M_Matrix S_Linear M_OpHeap M_Transfer S_Transfer M_Amplitude M_Solver S_Solver P_DexpWit P_Loops P_Solver P_Solver2 P_Solver3 P_Solver4 P_Solver5 P_Solver6 P_Solver7 P_Solver8 P_Solver9 P_SolverMC.
Import ListNotations.
Open Scope res_scope.
Set Implicit Arguments.

Section Rest.
Variable F : OField.
Variable rexp : F -> F.
Variable la : LinAlg F.
Variable eps : cplx F.
Notation op := (op F).
Notation st := (@st F).

Lemma agrees_spectral (c : @sconf F) : c_meth c = Spectral -> agrees la eps c.
Proof. intros H A D E X tau. rewrite H. apply dexp_expm_spectral. Qed.
Lemma agrees_frechet (c : @sconf F) : (forall X Y, fst (la_expm_frechet la X Y) = la_expm la X) -> c_meth c = Frechet -> agrees la eps c.
Proof. intros Hl H A D E X tau. rewrite H. now apply dexp_expm_frechet. Qed.

(** ---- the number of processes does not matter ---- *)
Lemma pngens_ext m m' (b b' : st) : mc_ops m = mc_ops m' -> mc_traces m = mc_traces m' -> mc_samples m = mc_samples m' -> mc_ampf m = mc_ampf m' ->
  s_drift b = s_drift b' -> c_ctrl (s_conf b) = c_ctrl (s_conf b') -> s_amps b = s_amps b' -> s_opt b = s_opt b' -> s_tpars b = s_tpars b' -> c_amp (s_conf b) = c_amp (s_conf b') ->
  pngens m b = pngens m' b'.
Proof.
  intros E1 E2 E3 E4 E5 E6 E7 E8 E9 E10. unfold pngens, schr_dyn, noise_array. now rewrite E1, E2, E3, E4, E5, E6, E7, E8, E9, E10.
Qed.
Lemma pnexps_ext m m' (b b' : st) ng : mc_traces m = mc_traces m' -> s_time b = s_time b' -> c_meth (s_conf b) = c_meth (s_conf b') -> c_skew (s_conf b) = c_skew (s_conf b') ->
  pnexps la m b ng = pnexps la m' b' ng.
Proof. intros E1 E2 E3 E4. unfold pnexps, pexps, numt, exp_at. now rewrite E1, E2, E3, E4. Qed.

Lemma run_conf U d tau (s0 s : st) y : Fresh rexp la eps U d tau s0 -> Reach rexp la eps U d tau s0 s -> s_opt s = Some y -> s_conf s = s_conf s0.
Proof.
  intros Fr R O. pose proof (r_core R) as K. rewrite O in K. destruct K as (f & E & B). transitivity (s_conf f); [exact (f_equal (@s_conf F) B)|].
  cbn [M_Solver.sstep] in E. destruct (set_pars rexp y s0) as [q r] eqn:Eq.
  assert (H0 : opt_equal (s_opt s0) y = false) by now rewrite (f_opt Fr).
  pose proof (@set_pars_new F rexp U s0 y q r H0 Eq) as K. destruct (amps_of rexp s0 y) as [[x u]|].
  - destruct K as (-> & _ & K & _). cbn in E. inversion E; subst. exact (f_equal (@s_conf F) K).
  - subst r. discriminate.
Qed.
Lemma used_processes d (s0 s0' : st) m m' hist hist' y pss pss' :
  constructed d s0 -> constructed d s0' -> good la eps (s_conf s0) -> good la eps (s_conf s0') ->
  c_class (s_conf s0) = CMonteCarlo m -> c_class (s_conf s0') = CMonteCarlo m' ->
  mc_ops m = mc_ops m' -> mc_traces m = mc_traces m' -> mc_samples m = mc_samples m' -> mc_ampf m = mc_ampf m' ->
  same_problem s0 s0' -> c_amp (s_conf s0) = c_amp (s_conf s0') -> s_tf s0 = s_tf s0' ->
  Forall allowed hist -> all_ok rexp la eps s0 hist -> last_set hist = Some y -> Forall allowed hist' -> all_ok rexp la eps s0' hist' -> last_set hist' = Some y ->
  returns rexp la eps (srun rexp la eps s0 hist) SNProp (VDer pss) -> returns rexp la eps (srun rexp la eps s0' hist') SNProp (VDer pss') -> pss = pss'.
Proof.
  intros Hc Hc' G G' Hm Hm' E1 E2 E3 E4 Sp Ea Et A H Hl A' H' Hl' Hr Hr'.
  destruct (@used_amps F rexp la eps d s0 hist y Hc G A H Hl) as (x & u & X1 & X2 & [X3 _] & _ & X4 & X5).
  destruct (@used_amps F rexp la eps d s0' hist' y Hc' G' A' H' Hl') as (x' & u' & Y1 & Y2 & [Y3 _] & _ & Y4 & Y5).
  rewrite <- Et in Y1. assert (x' = x) by congruence. subst x'. rewrite <- Ea in Y2. assert (u' = u) by congruence. subst u'.
  destruct (@constructed_fresh F rexp la eps d s0 Hc G) as [tau Fr]. destruct (@constructed_fresh F rexp la eps d s0' Hc' G') as [tau' Fr'].
  destruct (@history F rexp la eps (s_udiss s0) d tau s0 hist Fr A s0 (fresh_reach Fr) H) as [R O]. rewrite (f_opt Fr) in O. unfold last_set in Hl. rewrite Hl in O.
  destruct (@history F rexp la eps (s_udiss s0') d tau' s0' hist' Fr' A' s0' (fresh_reach Fr') H') as [R' O']. rewrite (f_opt Fr') in O'. unfold last_set in Hl'. rewrite Hl' in O'.
  assert (U : used rexp la eps d s0 (srun rexp la eps s0 hist)) by (split; auto; split; auto; exists hist; auto).
  assert (U' : used rexp la eps d s0' (srun rexp la eps s0' hist')) by (split; auto; split; auto; exists hist'; auto).
  pose proof (@used_value F rexp la eps d s0 _ SNProp _ U eq_refl Hr) as V. pose proof (@used_value F rexp la eps d s0' _ SNProp _ U' eq_refl Hr') as V'.
  pose proof (run_conf Fr R O) as Cf. pose proof (run_conf Fr' R' O') as Cf'.
  cbn [rval] in V, V'. unfold mc_is in V, V'. rewrite Cf, Hm in V. rewrite Cf', Hm' in V'. destruct V as (ng & ess & B1 & B2 & ->). destruct V' as (ng' & ess' & B1' & B2' & ->).
  destruct Sp as (S1 & S2 & S3 & S4 & S5). destruct X5 as (P1 & P2 & P3 & P4 & P5). destruct Y5 as (Q1 & Q2 & Q3 & Q4 & Q5).
  assert (Z1 : pngens m (bare (s_udiss s0) (srun rexp la eps s0 hist)) = pngens m' (bare (s_udiss s0') (srun rexp la eps s0' hist'))).
  { apply pngens_ext; cbn [s_drift s_conf s_amps s_opt s_tpars bare]; auto; try congruence. }
  assert (ng' = ng) by congruence. subst ng'.
  assert (Z2 : pnexps la m (bare (s_udiss s0) (srun rexp la eps s0 hist)) ng = pnexps la m' (bare (s_udiss s0') (srun rexp la eps s0' hist')) ng).
  { apply pnexps_ext; cbn [s_time s_conf bare]; congruence. }
  congruence.
Qed.

(** ---- set_optimization_parameters in any state ---- *)
Lemma new_parameters (s s' : st) y : opt_equal (s_opt s) y = false -> M_Solver.set_pars rexp y s = (s', Ok tt) ->
  exists x u, snd (call rexp (s_tf s) y) = Ok x /\ amp_call (c_amp (s_conf s)) x = Ok u /\ s_tpars s' = Some x /\ s_amps s' = Some u /\
    s_opt s' = Some y /\ dim0 u = length (s_time s) /\ dim1 u = length (c_ctrl (s_conf s)) /\ s_k s' = k_none.
Proof.
  intros Ho E. pose proof (@set_pars_new F rexp (s_udiss s) s y s' (Ok tt) Ho E) as K. unfold amps_of in K.
  destruct (snd (call rexp (s_tf s) y)) as [x|] eqn:E1; cbn [bind] in K; [|discriminate].
  destruct (amp_call (c_amp (s_conf s)) x) as [u|] eqn:E2; cbn [bind] in K; [|discriminate].
  destruct (Nat.eqb (rank u) 2); cbn [bind] in K; [|discriminate]. destruct (Nat.eqb_spec (dim0 u) (length (s_time s))) as [D0|]; cbn [bind] in K; [|discriminate].
  destruct (Nat.eqb_spec (dim1 u) (length (c_ctrl (s_conf s)))) as [D1|]; cbn [bind] in K; [|discriminate].
  destruct K as (_ & _ & B & _ & Kk & _). exists x, u.
  pose proof (f_equal (@s_amps F) B) as B4. pose proof (f_equal (@s_tpars F) B) as B5. pose proof (f_equal (@s_opt F) B) as B6. cbn in B4, B5, B6. repeat split; auto.
Qed.
End Rest.
