(** Proofs for the interface to filter_functions: the statements. *)
Require Import String List Arith Lia Bool Permutation Sorting.Sorted.
From Verif Require Import LibBase LibRing LibArr LibCplx LibMat M_Matrix S_Linear P_Linear M_Transfer M_Amplitude M_Solver S_Solver P_Solver7 P_Solver9 M_FilterFn S_FilterFn P_FilterFn P_FilterFn2 P_FilterFn3 P_FilterFn4.
Import ListNotations.
Open Scope res_scope.
Set Implicit Arguments.

Section Statements.
Variable F : OField.
Variable rexp : F -> F.
Variable la : LinAlg F.
Variable eps : cplx F.
Variable B E : Type.
Notation arrF := (arr (kcar F)).
Notation op := (op F).
Notation S := (CStar F).
Notation st := (@st F).
Notation pkg := (pkg F B E).
Notation pseq := (pseq F B E).
Notation fsol := (fsol F B E).
Notation term := (term F).
Notation dop := (Arr [] [] : op).
Implicit Types P : pkg.
Notation create := (create_pulse_sequence rexp la eps).

Lemma created P n (f f' : fsol) y b p : lines_up P -> (f_ps f = None \/ exists y0, y = Some y0 /\ opt_equal (s_opt (f_s f)) y0 = false) ->
  create P y b f = (f', Ok p) -> shaped n (f_s f') ->
  f_ps f' = Some p /\ describes P n (f_s f') p /\ p_basis p = (match b with Some _ => b | None => ff_basis (f_conf f) end) /\
  (~ is_monte_carlo (f_s f') -> exists l, noise_terms (f_s f') (ff_h_n (f_conf f)) l /\ has_noise P (f_s f') p l).
Proof.
  intros LU Hnew H Sh. destruct (@create_split F rexp la eps B E P f f' y b p H) as (f1 & u & f2 & H1 & Hu & H2 & H3 & Hp).
  assert (N1 : f_ps f1 = None /\ f_conf f1 = f_conf f).
  { destruct y as [y|]; subst f1.
    - unfold solver_call. destruct (sstep rexp la eps (f_s f) (SSet y)) as [s' r]. cbn [fst f_ps f_conf]. split; auto.
      destruct Hnew as [Hnew|(y0 & Ey & Hne)]; [now destruct (negb _)|]. inversion Ey; subst. now rewrite Hne.
    - destruct Hnew as [Hnew|(y0 & Ey & _)]; [auto|discriminate]. }
  destruct N1 as [N1 C1]. unfold build_pulse in H2. rewrite N1 in H2. apply fbind_ok in H2. destruct H2 as (f3 & hn & HN & H4).
  pose proof HN as K. apply noise_keeps in K. destruct K as (K1 & K2 & K3). rewrite K1 in H4.
  destruct (new_pulse _ _ _ _ _) as [p2|] eqn:Eq; [|discriminate]. inversion H4; subst f2; clear H4.
  assert (K4 : f_s f' = f_s f3).
  { clear -H3. unfold diagonalize_ps in H3. cbn [f_ps set_ps] in H3. destruct (_ <- _ ;; _) as [[e us]|]; [|inversion H3]. destruct (idx _ _); inversion H3; subst; cbn; auto. }
  rewrite K4, K1 in *. assert (Du : length (c_ctrl (s_conf (f_s f1))) = dim1 u) by (destruct Sh as (_ & _ & _ & Su); now destruct (Su u Hu)).
  destruct (@new_controls F B E P (f_s f1) u p2 hn _ LU Du Eq) as (OC & Edt & Eb & En & _).
  destruct (@diagonalized F B E P n (set_ps f3 (Some p2)) f' p2 u) as (_ & _ & _ & p3 & D4 & D5 & D6); cbn [f_s set_ps f_ps]; rewrite ?K1; auto.
  cbn [f_s set_ps] in D6. rewrite K1 in D6. rewrite Hp in D4. inversion D4; subst p3. split; auto. split; auto.
  destruct D5 as (_ & _ & _ & D5n & D5i & D5c & _ & D5b). split. { rewrite D5b, Eb, C1. reflexivity. }
  intros NM. exists hn. split. { rewrite <- C1. apply (proj1 (@base_noise F B E f1 f3 hn NM HN)). } unfold has_noise. now rewrite D5n, D5i, D5c.
Qed.
Lemma current P n s0 c (f : fsol) p : sorts P -> reached la rexp eps P s0 c f -> f_ps f = Some p -> shaped n (f_s f) -> length (c_ctrl (s_conf (f_s f))) <= 10 ->
  describes P n (f_s f) p /\ (~ is_monte_carlo (f_s f) -> exists l, noise_terms (f_s f) (ff_h_n (f_conf f)) l /\ has_noise P (f_s f) p l /\ f_ids f = map (@term_id F) l).
Proof.
  intros SO HR Hp Sh L. destruct (@reached_inv F rexp la eps B E P n s0 c f SO HR p Hp Sh L) as [D (u & l & T)]. split; [exact D|]. intros NM. exists l.
  destruct T as (_ & _ & _ & _ & _ & T6 & T7 & T8). split; [|split; auto].
  destruct (create_ff_h_n f) as [f2 r] eqn:Ec. cbn [snd] in T6. subst r. exact (proj1 (@base_noise F B E f f2 l NM Ec)).
Qed.
Lemma costs_asked P n s0 c (f f' : fsol) k k' x : sorts P -> reached la rexp eps P s0 c f -> ff_costs rexp la eps P k f = (f', Ok (k', x)) ->
  shaped n (f_s f') -> length (c_ctrl (s_conf (f_s f'))) <= 10 -> ~ is_monte_carlo (f_s f') ->
  exists p w sp l, f_ps f' = Some p /\ describes P n (f_s f') p /\ noise_terms (f_s f') (ff_h_n (f_conf f')) l /\ has_noise P (f_s f') p l /\
    frequencies P k p w /\ fc_density k w = Ok sp /\ infidelity P p sp w (map (@term_id F) l) = Ok x /\ fc_omega k' = Some w.
Proof.
  intros SO HR H Sh L NM. destruct (@costs_split F rexp la eps B E P n f f' k k' x SO (@reached_inv F rexp la eps B E P n s0 c f SO HR) H) as (I & p & w & sp & Hp & Hw & Hs & Hi & Ho & _).
  destruct (I p Hp Sh L) as [D (u & l & T)]. destruct T as (_ & _ & _ & _ & _ & T6 & T7 & T8). exists p, w, sp, l. rewrite (T7 NM) in Hi.
  destruct (create_ff_h_n f') as [f2 r] eqn:Ec. cbn [snd] in T6. subst r. pose proof (proj1 (@base_noise F B E f' f2 l NM Ec)). auto 10.
Qed.
Lemma coeffs_given (f : fsol) d : coeffs_deriv f = Ok d -> given_derivative (f_s f) (f_conf f) d.
Proof.
  unfold coeffs_deriv, given_derivative. destruct (ff_deriv (f_conf f)) as [g|]; [|congruence]. unfold call_three. intros H.
  destruct (g [s_opt (f_s f); s_tpars (f_s f); s_amps (f_s f)]) as [v|e]; cbn [bind] in H. { inversion H; eauto. }
  destruct e; try discriminate H. destruct (g [s_amps (f_s f)]) as [v|]; [|discriminate]. cbn in H. inversion H. eauto.
Qed.
Lemma grad_asked P n s0 c (f f' : fsol) k k' g : sorts P -> reached la rexp eps P s0 c f -> ff_grad rexp la eps P k f = (f', Ok (k', g)) ->
  shaped n (f_s f') -> length (c_ctrl (s_conf (f_s f'))) <= 10 -> ~ is_monte_carlo (f_s f') ->
  exists p w sp l d x, f_ps f' = Some p /\ describes P n (f_s f') p /\ noise_terms (f_s f') (ff_h_n (f_conf f')) l /\ has_noise P (f_s f') p l /\
    frequencies P k p w /\ fc_density k w = Ok sp /\ given_derivative (f_s f') (f_conf f') d /\
    infidelity_derivative P p sp w (p_cids p) (map (@term_id F) l) d = Ok x /\
    shape g = [dim1 x; dim0 x; dim2 x] /\ (forall t i j, i < dim0 x -> t < dim1 x -> j < dim2 x -> get3 k0 g t i j = get3 k0 x i t j) /\
    forall i, i < length (c_ctrl (s_conf (f_s f'))) -> nth_error (p_copers p) i = nth_error (c_ctrl (s_conf (f_s f'))) i.
Proof.
  intros SO HR H Sh L NM. destruct (@grad_split F rexp la eps B E P n f f' k k' g SO (@reached_inv F rexp la eps B E P n s0 c f SO HR) H) as (I & p & w & sp & d & x & Hp & Hw & Hs & Hd & Hi & Hg & _).
  destruct (I p Hp Sh L) as [D (u & l & T)]. destruct T as (_ & T2 & T3 & _ & _ & T6 & T7 & T8). exists p, w, sp, l, d, x. rewrite (T7 NM), <- T3 in Hi.
  destruct (create_ff_h_n f') as [f2 r] eqn:Ec. cbn [snd] in T6. subst r. pose proof (proj1 (@base_noise F B E f' f2 l NM Ec)).
  unfold transpose102 in Hg. destruct (Nat.eqb (rank x) 3); [|discriminate]. cbn [bind] in Hg. inversion Hg; subst g; clear Hg.
  apply coeffs_given in Hd. do 9 (split; [assumption || reflexivity|]). split; [|intros i _; now rewrite T2].
  intros t i j Hi' Ht Hj. rewrite get3_mk3 by auto. reflexivity.
Qed.

(** ---- Monte Carlo ---- *)
Lemma reset_conf (s : st) : s_conf (reset_cached s) = s_conf s.
Proof. apply reset_fixed. Qed.
Lemma set_conf (s : st) y : s_conf (fst (set_pars rexp y s)) = s_conf s.
Proof.
  assert (Kb : forall s : st, s_conf (fst (base_set_pars rexp y s)) = s_conf s).
  { intros s1. unfold base_set_pars. destruct (opt_equal _ _); [reflexivity|]. destruct (call _ _ _) as [t' r]. destruct r; [|reflexivity]. destruct (amp_call _ _); [|reflexivity].
    repeat (match goal with |- context [if ?x then _ else _] => destruct x; [reflexivity|] end). cbn [fst]. rewrite reset_conf. reflexivity. }
  assert (Ks : forall s : st, s_conf (fst (schr_set_pars rexp y s)) = s_conf s).
  { intros s1. unfold schr_set_pars. rewrite Kb. destruct (opt_equal _ _); rewrite ?reset_conf; reflexivity. }
  unfold set_pars. destruct (c_class (s_conf s)).
  - apply Ks.
  - rewrite Ks. destruct (opt_equal _ _); rewrite ?reset_conf; reflexivity.
  - destruct (opt_equal _ _); [reflexivity|]. pose proof (Ks s) as K. destruct (schr_set_pars rexp y s) as [s' r]. destruct r; cbn [fst] in *; rewrite ?reset_conf; exact K.
Qed.
Lemma step_conf (s : st) o : s_conf (fst (sstep rexp la eps s o)) = s_conf s.
Proof.
  destruct o; try (match goal with |- context [sstep _ _ _ _ ?o] => destruct (sstep rexp la eps s o) as [s' r] eqn:Es; exact (proj1 (@read_fixed F rexp la eps s o s' r eq_refl Es)) end); cbn [sstep]; unfold mapv.
  - pose proof (set_conf s y) as K. destruct (set_pars rexp y s) as [s' r]. destruct r; exact K.
  - unfold solver_set_times. destruct (set_times _ _) as [t' r]. destruct r; [|reflexivity]. destruct (b_xt _); cbn [fst]; [rewrite reset_conf|]; reflexivity.
  - unfold mutate. cbn [fst]. destruct (s_talias s), (s_ualias s); reflexivity.
Qed.
Definition stuck (f : fsol) : Prop := is_monte_carlo (f_s f) /\ f_ids f = [].
Lemma noise_stuck (f f' : fsol) r : create_ff_h_n f = (f', r) -> stuck f -> stuck f'.
Proof.
  intros H [M I]. pose proof (noise_keeps _ H) as (K1 & _). split; [now rewrite K1|]. unfold create_ff_h_n in H. destruct M as [m Em].
  rewrite Em in H. inversion H; subst; auto.
Qed.
Lemma call_stuck (f : fsol) o : stuck f -> stuck (fst (solver_call rexp la eps o f)).
Proof.
  intros [M I]. unfold solver_call in *. pose proof (step_conf (f_s f) o) as K. destruct (sstep _ _ _ _ _) as [s' r]. split; auto. cbn [fst f_s f_ids] in *.
  unfold is_monte_carlo in *. now rewrite K.
Qed.
Lemma diag_stuck P (f : fsol) : stuck f -> stuck (fst (diagonalize_ps P f)).
Proof. intros St. unfold diagonalize_ps. destruct (f_ps f); auto. destruct (_ <- _ ;; _) as [[e us]|]; auto. destruct (idx _ _); auto. Qed.
Lemma build_stuck P (f : fsol) u b : stuck f -> stuck (fst (build_pulse P u b f)).
Proof.
  intros St. unfold build_pulse. destruct (f_ps f) as [p|]; unfold fbind.
  - match goal with |- context [create_ff_h_n ?g] => assert (Sg : stuck g) by exact St; destruct (create_ff_h_n g) as [f1 r] eqn:Ec; pose proof (noise_stuck Ec Sg) as K end. destruct r; auto. destruct (parse _ _ _); auto.
  - destruct (create_ff_h_n f) as [f1 r] eqn:Ec. pose proof (noise_stuck Ec St) as K. destruct r; auto. destruct (new_pulse _ _ _ _ _); auto.
Qed.
Lemma create_stuck P (f : fsol) y b : stuck f -> stuck (fst (create P y b f)).
Proof.
  intros St. unfold create_pulse_sequence, fbind at 1. match goal with |- stuck (fst (let (f', r) := ?m in _)) => assert (K : stuck (fst m)); [|destruct m as [f1 [[]|]]; auto] end.
  { destruct y as [y|]; [|destruct (s_amps (f_s f)); auto]. unfold fbind. pose proof (@call_stuck f (SSet y) St) as K. destruct (solver_call _ _ _ _ _) as [f1 r]. destruct r; auto. }
  cbn [fst] in K. destruct (s_amps (f_s f1)) as [u|]; auto. unfold fbind.
  match goal with |- context [build_pulse P u ?b f1] => pose proof (@build_stuck P f1 u b K) as K2; destruct (build_pulse P u b f1) as [f2 [[]|]]; auto end.
  cbn [fst] in K2. pose proof (@diag_stuck P f2 K2) as K3. destruct (diagonalize_ps P f2) as [f3 [[]|]]; auto.
Qed.
Lemma need_stuck P (f : fsol) : stuck f -> stuck (fst (need_pulse rexp la eps P f)).
Proof. intros St. unfold need_pulse. destruct (f_ps f); auto. now apply create_stuck. Qed.
Lemma omega_stuck P (f : fsol) k : stuck f -> stuck (fst (omega rexp la eps P k f)).
Proof. intros St. unfold omega. destruct (fc_omega k); auto. unfold fbind. pose proof (@need_stuck P f St) as K. destruct (need_pulse _ _ _ _ _) as [f1 r]. destruct r; auto. Qed.
Lemma costs_stuck P (f : fsol) k : stuck f -> stuck (fst (ff_costs rexp la eps P k f)).
Proof.
  intros St. unfold ff_costs, fbind. pose proof (@need_stuck P f St) as K. destruct (need_pulse _ _ _ _ _) as [f1 r]. destruct r; auto.
  cbn [fst] in K. pose proof (@omega_stuck P f1 k K) as K2. destruct (omega _ _ _ _ _ _) as [f2 r2]. destruct r2; auto.
Qed.
Lemma grad_stuck P (f : fsol) k : stuck f -> stuck (fst (ff_grad rexp la eps P k f)).
Proof.
  intros St. unfold ff_grad, fbind. pose proof (@need_stuck P f St) as K. destruct (need_pulse _ _ _ _ _) as [f1 r]. destruct r; auto.
  cbn [fst] in K. pose proof (@omega_stuck P f1 k K) as K2. destruct (omega _ _ _ _ _ _) as [f2 r2]. destruct r2; auto.
Qed.
Lemma run_stuck P hist : forall f : fsol, stuck f -> stuck (frun rexp la eps P f hist).
Proof.
  induction hist as [|o hist IH]; intros f St; [exact St|]. unfold frun. cbn [fold_left]. apply IH. clear IH. destruct o as [o|y b|k|k]; cbn [fstep]; unfold fbind.
  - pose proof (@call_stuck f o St) as K. destruct (solver_call _ _ _ _ _) as [f1 r]. destruct r; auto.
  - pose proof (@create_stuck P f y b St) as K. destruct (create P y b f) as [f1 r]. destruct r; auto.
  - pose proof (@costs_stuck P f k St) as K. destruct (ff_costs _ _ _ _ _ _) as [f1 r]. destruct r; auto.
  - pose proof (@grad_stuck P f k St) as K. destruct (ff_grad _ _ _ _ _ _) as [f1 r]. destruct r; auto.
Qed.
(** whatever was called before, the package is asked for an empty list of noise terms *)
Lemma no_identifiers P s0 c hist (f f' : fsol) k k' x : is_monte_carlo s0 -> f = frun rexp la eps P (new_fsol s0 c) hist -> ff_costs rexp la eps P k f = (f', Ok (k', x)) ->
  exists p w sp, f_ps f' = Some p /\ fc_density k w = Ok sp /\ infidelity P p sp w [] = Ok x.
Proof.
  intros M Ef H. assert (Sf : stuck f) by (subst f; apply run_stuck; split; auto). clear Ef.
  unfold ff_costs in H. apply fbind_ok in H. destruct H as (f1 & p & H1 & H2). apply fbind_ok in H2. destruct H2 as (f2 & w & H2 & H3).
  pose proof (@need_stuck P f Sf) as K. rewrite H1 in K. cbn [fst] in K. pose proof (@omega_stuck P f1 k K) as K2. rewrite H2 in K2. cbn [fst] in K2.
  assert (Hp : f_ps f1 = Some p).
  { unfold need_pulse in H1. destruct (f_ps f) eqn:Ep; [inversion H1; subst; auto|]. now destruct (@create_split F rexp la eps B E P f f1 None None p H1) as (a1 & a2 & a3 & _ & _ & _ & _ & a4). }
  destruct (@omega_split F rexp la eps B E P f1 f2 k p w Hp H2) as [-> _].
  destruct (fc_density k w) as [sp|] eqn:Es; [|discriminate]. cbn [bind] in H3. rewrite (proj2 K) in H3. destruct (infidelity P p sp w []) as [x'|] eqn:Ei; [|discriminate].
  cbn [bind] in H3. inversion H3; subst. eauto 10.
Qed.

Lemma mc_noise (f f' : fsol) m l0 l : c_class (s_conf (f_s f)) = CMonteCarlo m -> ff_h_n (f_conf f) = HList l0 -> create_ff_h_n f = (f', Ok l) ->
  (l0 <> [] /\ l = l0) \/ (l0 = [] /\ unit_noise (f_s f) m l).
Proof.
  intros Hc Hl H. unfold create_ff_h_n, mc_ff_h_n in H. rewrite Hc, Hl in H. cbn [bind] in H. destruct l0 as [|x l0]; [|left; inversion H; subst; split; [discriminate|reflexivity]].
  right. split; [reflexivity|]. inversion H; subst; clear H. split. { rewrite map_length, combine_length, seq_length. apply Nat.min_id. }
  intros i o Ho. exists (repeat k1 (length (s_time (f_s f')))), (numbered "Noise" i).
  assert (Hi : i < length (mc_ops m)) by (apply nth_error_Some; congruence). split.
  - rewrite nth_error_map. rewrite (nth_error_nth' _ (0, dop)) by (rewrite combine_length, seq_length; lia). rewrite combine_nth by apply seq_length.
    rewrite seq_nth by auto. cbn [option_map fst snd Nat.add]. now rewrite (nth_error_nth _ _ _ Ho).
  - split; [apply repeat_length|]. intros x Hx. now apply repeat_spec in Hx.
Qed.
Lemma created_mc P n (f f' : fsol) y b p m l0 : lines_up P -> (f_ps f = None \/ exists y0, y = Some y0 /\ opt_equal (s_opt (f_s f)) y0 = false) ->
  create P y b f = (f', Ok p) -> shaped n (f_s f') -> c_class (s_conf (f_s f')) = CMonteCarlo m -> ff_h_n (f_conf f) = HList l0 ->
  exists l, has_noise P (f_s f') p l /\ ((l0 <> [] /\ l = l0) \/ (l0 = [] /\ unit_noise (f_s f') m l)).
Proof.
  intros LU Hnew H Sh Hm Hl. destruct (@create_split F rexp la eps B E P f f' y b p H) as (f1 & u & f2 & H1 & Hu & H2 & H3 & Hp).
  assert (N1 : f_ps f1 = None /\ f_conf f1 = f_conf f).
  { destruct y as [y|]; subst f1.
    - unfold solver_call. destruct (sstep rexp la eps (f_s f) (SSet y)) as [s' r]. cbn [fst f_ps f_conf]. split; auto.
      destruct Hnew as [Hnew|(y0 & Ey & Hne)]; [now destruct (negb _)|]. inversion Ey; subst. now rewrite Hne.
    - destruct Hnew as [Hnew|(y0 & Ey & _)]; [auto|discriminate]. }
  destruct N1 as [N1 C1]. pose proof (@build_keeps F B E P _ _ _ _ _ H2) as Kb. pose proof (@diag_keeps F B E P _ _ _ H3) as Kd.
  unfold build_pulse in H2. rewrite N1 in H2. apply fbind_ok in H2. destruct H2 as (f3 & hn & HN & H4).
  pose proof HN as K. apply noise_keeps in K. destruct K as (K1 & K2 & K3). rewrite K1 in H4.
  destruct (new_pulse _ _ _ _ _) as [p2|] eqn:Eq; [|discriminate]. inversion H4; subst f2; clear H4.
  rewrite Kd in *. cbn [f_s set_ps] in *. rewrite K1 in *.
  assert (Du : length (c_ctrl (s_conf (f_s f1))) = dim1 u) by (destruct Sh as (_ & _ & _ & Su); now destruct (Su u Hu)).
  destruct (@new_controls F B E P (f_s f1) u p2 hn _ LU Du Eq) as (OC & Edt & Eb & En & _).
  destruct (@diagonalized F B E P n (set_ps f3 (Some p2)) f' p2 u) as (_ & _ & _ & p3 & D4 & D5 & D6); cbn [f_s set_ps f_ps]; rewrite ?K1; auto.
  rewrite Hp in D4. inversion D4; subst p3. destruct D5 as (_ & _ & _ & D5n & D5i & D5c & _ & D5b).
  exists hn. split. { unfold has_noise. now rewrite D5n, D5i, D5c. } rewrite <- C1 in Hl. exact (@mc_noise f1 f3 m l0 hn Hm Hl HN).
Qed.
Lemma callable_fails P (f : fsol) h u b : is_monte_carlo (f_s f) -> ff_h_n (f_conf f) = HCall h -> (forall l, length l <> 3 -> h l = Err TypeError) ->
  f_ps f = None -> s_amps (f_s f) = Some u -> create P None b f = (f, Err TypeError).
Proof.
  intros [m Hm] Hh Ht Hp Hu. unfold create_pulse_sequence, fbind at 1. rewrite !Hu.
  unfold fbind at 1, build_pulse. rewrite Hp. unfold fbind, create_ff_h_n. rewrite Hm. unfold mc_ff_h_n. rewrite Hh, Ht by (cbn; lia). reflexivity.
Qed.

(** ---- propagators ---- *)
Lemma same_cumulative n (x y : op) (ps qs : list (option op)) fs gs : cumulative n n x ps fs -> cumulative n n y qs gs -> x = y -> length ps = length qs ->
  (forall t, t < length ps -> nth_error ps t = nth_error qs t) -> fs = gs.
Proof.
  intros (L1 & Z1 & C1) (L2 & Z2 & C2) Exy L Eq. apply nth_ext with (d := dop) (d' := dop); [congruence|]. intros i. induction i as [|i IH]; intros Hi. { now rewrite Z1, Z2. }
  assert (H1 : i < length ps) by lia. assert (H2 : i < length qs) by lia. destruct (C1 i H1) as (A & g & g' & A1 & A2 & A3 & A4). destruct (C2 i H2) as (A' & h & h' & B1 & B2 & B3 & B4).
  rewrite (nth_error_nth _ _ _ A3), (nth_error_nth _ _ _ B3). assert (A' = A) by (specialize (Eq i H1); congruence). subst A'.
  assert (h = g). { specialize (IH ltac:(lia)). rewrite (nth_error_nth _ _ _ A2), (nth_error_nth _ _ _ B2) in IH. now symmetry. } subst h.
  destruct A4 as [M1 E1], B4 as [M2 E2]. apply is_matrix_wfm in M1, M2. apply (mat_ext M1 M2). intros r c Hr Hc. now rewrite E1, E2.
Qed.
Lemma same_propagators P d (s0 s : st) n p fs ps : used rexp la eps d s0 s -> schroedinger (s_conf s) -> shaped n s -> describes P n s p -> diagonalizes la P n (s_conf s) ->
  is_identity (S:=S) n (c_init (s_conf s)) -> returns rexp la eps s SPropag (VProp ps) -> returns rexp la eps s SFwd (VOps fs) ->
  exists e, p_eig p = Some (e, fs) /\ exists l U, fs = l ++ [U] /\ p_total p = Some U.
Proof.
  intros U Sc Sh (Hdt & u & hs & e & us & W & Hu & Lh & Hh & Hd & He & (l & Hl) & Ht) Dg Id Rp Rf.
  destruct Sh as (SQ & _ & _ & Su). destruct (Su u Hu) as [Du _].
  pose proof (@used_propagators F rexp la eps d s0 s n u ps U Sc SQ (conj Hu Du) Rp) as [Lp Pp].
  assert (Mh : Forall (is_matrix (S:=S) n n) hs). { apply Forall_forall. intros H HI. destruct (In_nth _ _ dop HI) as (t & Ht' & <-). assert (Ht2 : t < length (s_time s)) by (rewrite <- Lh; exact Ht'). apply (Hh t Ht2). }
  destruct (Dg hs (s_time s) e us Mh Lh Hd) as (I & es & HI & Le & Cu & Me & Ee).
  assert (Eps : ps = map Some es).
  { apply nth_ext with (d := None) (d' := None); [rewrite map_length; congruence|]. intros t Ht'. rewrite Lp in Ht'. destruct (Pp t Ht') as (A & G & tau & P1 & P2 & P3 & P4).
    rewrite (nth_error_nth _ _ _ P1). rewrite (nth_indep _ None (Some dop)) by (rewrite map_length; lia). rewrite (map_nth Some). f_equal.
    assert (D : is_direction n (nth t hs dop) G).
    { destruct P3 as [M3 E3]. split; auto. intros i j Hi Hj. rewrite (E3 i j Hi Hj). destruct (Hh t Ht') as [_ E4]. now rewrite (E4 i j Hi Hj). }
    pose proof (Ee t G Ht' D) as E5. rewrite (nth_error_nth _ _ _ P2) in E5. congruence. }
  assert (SQp : all_square n ps). { intros A HA. rewrite Eps in HA. apply in_map_iff in HA. destruct HA as (A' & EA & HA). inversion EA; subst. rewrite Forall_forall in Me. now apply Me. }
  pose proof (@used_forward F rexp la eps d s0 s ps fs n n U Rp Rf SQp (proj1 Id)) as Cf.
  assert (Ei : c_init (s_conf s) = I). { destruct Id as [M1 E1], HI as [M2 E2]. apply is_matrix_wfm in M1, M2. apply (mat_ext M1 M2). intros i j Hi Hj. now rewrite E1, E2. }
  assert (fs = us). { refine (@same_cumulative n _ _ ps (map Some es) fs us Cf Cu Ei _ _); rewrite Eps; auto. }
  exists e. split; [congruence|]. exists l, W. split; congruence.
Qed.
End Statements.
