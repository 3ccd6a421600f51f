(** Proofs for the interface to filter_functions: every client, the costs, the gradient, the propagators. *)
Require Import String List Arith Lia Bool Permutation Sorting.Sorted.
From Verif Require Import LibBase LibRing LibArr LibCplx LibMat M_Matrix S_Linear P_Linear M_Transfer M_Amplitude M_Solver S_Solver P_Solver7 P_Solver9 M_FilterFn S_FilterFn P_FilterFn P_FilterFn2 P_FilterFn3.
Import ListNotations.
Open Scope res_scope.
Set Implicit Arguments.

Section Clients.
Variable F : OField.
Variable rexp : F -> F.
Variable la : LinAlg F.
Variable eps : cplx F.
Variable B E : Type.
Notation arrF := (arr (kcar F)).
Notation op := (op F).
Notation S := (CStar F).
Notation st := (@st F).
Notation pkg := (pkg F B E).
Notation pseq := (pseq F B E).
Notation fsol := (fsol F B E).
Notation term := (term F).
Notation dop := (Arr [] [] : op).
Variable P : pkg.
Notation create := (create_pulse_sequence rexp la eps P).

Lemma call_inv n (f : fsol) o : (forall z, o <> SMutate z) -> inv P n f -> inv P n (fst (solver_call rexp la eps o f)).
Proof.
  intros NM I. unfold solver_call. destruct (sstep rexp la eps (f_s f) o) as [s' r] eqn:Es. cbn [fst].
  assert (K : forall d : bool, (d = false -> fixed (f_s f) s') -> inv P n (mkfs s' (f_conf f) (if d then None else f_ps f) (f_ids f))).
  { intros d Hd. destruct d; [intros p Hp; discriminate Hp|]. apply (@inv_fixed F B E P n f (mkfs s' (f_conf f) (f_ps f) (f_ids f)) (Hd eq_refl)); auto. }
  apply K. intros Hd. destruct o; try (match type of Es with sstep _ _ _ _ ?o = _ => exact (@read_fixed F rexp la eps (f_s f) o s' r eq_refl Es) end).
  - cbn [sstep] in Es. unfold mapv in Es. destruct (set_pars rexp y (f_s f)) as [s1 r1] eqn:E1. apply negb_false_iff in Hd.
    pose proof (@set_same F rexp _ _ _ _ Hd E1) as Q. destruct r1; inversion Es; now subst.
  - cbn [sstep] in Es. unfold mapv in Es. destruct (solver_set_times tau (f_s f)) as [s1 r1] eqn:E1. destruct r1; inversion Es; subst; [discriminate|]. now apply times_failed in E1.
  - exfalso. eapply NM. reflexivity.
Qed.
Lemma create_split (f f' : fsol) y b p : create y b f = (f', Ok p) -> exists f1 u f2,
  (match y with Some y => f1 = fst (solver_call rexp la eps (SSet y) f) | None => f1 = f end) /\ s_amps (f_s f1) = Some u /\
  build_pulse P u (match b with Some _ => b | None => ff_basis (f_conf f1) end) f1 = (f2, Ok tt) /\ diagonalize_ps P f2 = (f', Ok tt) /\ f_ps f' = Some p.
Proof.
  intros H. unfold create_pulse_sequence in H. apply fbind_ok in H. destruct H as (f1 & [] & H1 & H2).
  destruct (s_amps (f_s f1)) as [u|] eqn:Eu; [|discriminate]. apply fbind_ok in H2. destruct H2 as (f2 & [] & H2 & H3).
  apply fbind_ok in H3. destruct H3 as (f3 & [] & H3 & H4). exists f1, u, f2. split.
  - destruct y as [y|]. + apply fbind_ok in H1. destruct H1 as (f4 & v & H1 & H5). inversion H5; subst. now rewrite H1. + destruct (s_amps (f_s f)); inversion H1; auto.
  - split; auto. split; auto. destruct (f_ps f3) eqn:Ep; inversion H4; subst. auto.
Qed.
Lemma build_keeps (f f' : fsol) u b r : build_pulse P u b f = (f', r) -> f_s f' = f_s f.
Proof.
  unfold build_pulse. destruct (f_ps f); unfold fbind; intros H.
  - match type of H with context [create_ff_h_n ?g] => destruct (create_ff_h_n g) as [f1 [hn|]] eqn:Ec; apply noise_keeps in Ec end; [|inversion H; subst; cbn in *; tauto].
    cbn [f_s set_ps] in Ec. destruct (parse _ _ _); inversion H; subst; cbn; tauto.
  - destruct (create_ff_h_n f) as [f1 [hn|]] eqn:Ec; apply noise_keeps in Ec; [|inversion H; subst; tauto]. destruct (new_pulse _ _ _ _ _); inversion H; subst; cbn; tauto.
Qed.
Lemma diag_keeps (f f' : fsol) r : diagonalize_ps P f = (f', r) -> f_s f' = f_s f.
Proof. unfold diagonalize_ps. intros H. destruct (f_ps f); [|inversion H; auto]. destruct (_ <- _ ;; _) as [[e us]|]; [|inversion H; auto]. destruct (idx _ _); inversion H; subst; cbn; auto. Qed.
Lemma create_keeps (f f' : fsol) b p : create None b f = (f', Ok p) -> f_s f' = f_s f.
Proof.
  intros H. destruct (create_split _ _ _ H) as (f1 & u & f2 & H1 & Hu & H2 & H3 & Hp). apply build_keeps in H2. apply diag_keeps in H3. congruence.
Qed.
Lemma create_inv n (f f' : fsol) y b p : sorts P -> inv P n f -> create y b f = (f', Ok p) -> inv P n f' /\ f_ps f' = Some p.
Proof.
  intros SO I H. destruct (create_split _ _ _ H) as (f1 & u & f2 & H1 & Hu & H2 & H3 & Hp). split; [|exact Hp].
  assert (I1 : inv P n f1). { destruct y as [y|]; subst f1; auto. apply call_inv; auto. discriminate. }
  assert (K2 : f_s f2 = f_s f1 /\ f_conf f2 = f_conf f1).
  { clear -H2. unfold build_pulse in H2. destruct (f_ps f1).
    - apply fbind_ok in H2. destruct H2 as (f3 & hn & A1 & A2). apply noise_keeps in A1. cbn [f_s f_conf set_ps] in A1. destruct (parse _ _ _); inversion A2; subst; cbn; tauto.
    - apply fbind_ok in H2. destruct H2 as (f3 & hn & A1 & A2). apply noise_keeps in A1. destruct (new_pulse _ _ _ _ _); inversion A2; subst; cbn; tauto. }
  assert (K3 : f_s f' = f_s f2 /\ f_conf f' = f_conf f2).
  { clear -H3. unfold diagonalize_ps in H3. destruct (f_ps f2); [|inversion H3]. destruct (_ <- _ ;; _) as [[e us]|]; [|inversion H3]. destruct (idx _ _); inversion H3; subst; cbn; auto. }
  destruct K2 as [K2 _], K3 as [K3 _]. intros p' Hp' Sh L. rewrite K3, K2 in Sh, L.
  destruct (@built _ _ _ P n f1 f2 u _ SO I1 Sh L Hu H2) as (_ & C2 & p2 & l & Hp2 & T). rewrite <- K2 in Sh, L, Hu. 
  destruct (T) as (T1 & T2 & T3 & T4 & T5 & T6 & T7 & T8).
  assert (Du : length (c_ctrl (s_conf (f_s f2))) = dim1 u) by (destruct Sh as (_ & _ & _ & Su); now destruct (Su u Hu)).
  destruct (triples_parts _ u Du) as (Q1 & Q2 & Q3).
  assert (OC : ordered_controls (f_s f2) u p2). { eexists. split; [apply Permutation_refl|]. split; [congruence|]. split; congruence. }
  destruct (@diagonalized _ _ _ P n f2 f' p2 u Sh Hu Hp2 OC T5 H3) as (D1 & D2 & D3 & p3 & D4 & D5 & D6).
  rewrite Hp' in D4. inversion D4; subst p3. split; [now rewrite D1|]. exists u, l.
  unfold terms_of in *. rewrite D1, D3. destruct D5 as (-> & -> & -> & -> & -> & -> & -> & _). repeat (split; auto).
  rewrite <- T6. apply noise_fixed; auto. rewrite D1. apply fixed_refl.
Qed.
Lemma need_inv n (f f' : fsol) p : sorts P -> inv P n f -> need_pulse rexp la eps P f = (f', Ok p) -> inv P n f' /\ f_ps f' = Some p.
Proof. intros SO I H. unfold need_pulse in H. destruct (f_ps f) eqn:Ep; [inversion H; subst; auto|]. eapply create_inv; eauto. Qed.
Lemma omega_split (f f' : fsol) c p w : f_ps f = Some p -> omega rexp la eps P c f = (f', Ok w) ->
  f' = f /\ match fc_omega c with Some w' => w = w' | None => sample_frequencies P p = Ok w end.
Proof.
  intros Hp H. unfold omega in H. destruct (fc_omega c). { inversion H; auto. }
  apply fbind_ok in H. destruct H as (f1 & p1 & H1 & H2). unfold need_pulse in H1. rewrite Hp in H1. inversion H1; subst. inversion H2; auto.
Qed.
Lemma costs_split n (f f' : fsol) c c' x : sorts P -> inv P n f -> ff_costs rexp la eps P c f = (f', Ok (c', x)) -> inv P n f' /\ exists p w sp,
  f_ps f' = Some p /\ match fc_omega c with Some w' => w = w' | None => sample_frequencies P p = Ok w end /\ fc_density c w = Ok sp /\
  infidelity P p sp w (f_ids f') = Ok x /\ fc_omega c' = Some w /\ fc_density c' = fc_density c.
Proof.
  intros SO I H. unfold ff_costs in H. apply fbind_ok in H. destruct H as (f1 & p & H1 & H2). apply fbind_ok in H2. destruct H2 as (f2 & w & H2 & H3).
  destruct (need_inv SO I H1) as [I1 Hp]. destruct (omega_split _ _ Hp H2) as [-> Hw]. split. { inversion H3; now subst. }
  destruct (fc_density c w) as [sp|] eqn:Es; [|discriminate]. cbn [bind] in H3. destruct (infidelity P p sp w (f_ids f1)) as [x'|] eqn:Ei; [|discriminate].
  cbn [bind] in H3. inversion H3; subst. exists p, w, sp. cbn. auto 10.
Qed.
Lemma grad_split n (f f' : fsol) c c' g : sorts P -> inv P n f -> ff_grad rexp la eps P c f = (f', Ok (c', g)) -> inv P n f' /\ exists p w sp d x,
  f_ps f' = Some p /\ match fc_omega c with Some w' => w = w' | None => sample_frequencies P p = Ok w end /\ fc_density c w = Ok sp /\
  coeffs_deriv f' = Ok d /\
  infidelity_derivative P p sp w (map (numbered "Control") (seq 0 (length (c_ctrl (s_conf (f_s f')))))) (f_ids f') d = Ok x /\ transpose102 x = Ok g /\ fc_omega c' = Some w /\ fc_density c' = fc_density c.
Proof.
  intros SO I H. unfold ff_grad in H. apply fbind_ok in H. destruct H as (f1 & p & H1 & H2). apply fbind_ok in H2. destruct H2 as (f2 & w & H2 & H3).
  destruct (need_inv SO I H1) as [I1 Hp]. destruct (omega_split _ _ Hp H2) as [-> Hw]. split. { inversion H3; now subst. }
  destruct (fc_density c w) as [sp|] eqn:Es; [|discriminate]. cbn [bind] in H3. destruct (coeffs_deriv f1) as [d|] eqn:Ed; [|discriminate]. cbn [bind] in H3.
  destruct (infidelity_derivative P p sp w _ (f_ids f1) d) as [x'|] eqn:Ei; [|discriminate].
  cbn [bind] in H3. destruct (transpose102 x') as [g'|] eqn:Eg; [|discriminate]. cbn [bind] in H3. inversion H3; subst. exists p, w, sp, d, x'. cbn. auto 10.
Qed.
Lemma run_inv n hist : sorts P -> forall f, succeeds la rexp eps P f hist -> inv P n f -> inv P n (frun rexp la eps P f hist).
Proof.
  intros SO. induction hist as [|o hist IH]; intros f Hs I; [exact I|]. cbn [succeeds] in Hs. destruct Hs as (H1 & H2 & H3).
  unfold frun. cbn [fold_left]. apply IH; [exact H3|]. clear IH H3. destruct o as [o|y b|c|c]; cbn [fstep ff_call] in *.
  - unfold fbind. pose proof (@call_inv n f o) as K. destruct (solver_call rexp la eps o f) as [f1 r]. cbn [fst] in K.
    assert (inv P n f1) by (apply K; auto; intros z ->; now apply (H2 z)). destruct r; auto.
  - specialize (H1 eq_refl). unfold fbind in *. destruct (create y b f) as [f1 [p|]] eqn:Ec; [|discriminate]. cbn. eapply create_inv; eauto.
  - specialize (H1 eq_refl). unfold fbind in *. destruct (ff_costs rexp la eps P c f) as [f1 [[c' x]|]] eqn:Ec; [|discriminate]. cbn. eapply costs_split; eauto.
  - specialize (H1 eq_refl). unfold fbind in *. destruct (ff_grad rexp la eps P c f) as [f1 [[c' x]|]] eqn:Ec; [|discriminate]. cbn. eapply grad_split; eauto.
Qed.
Lemma reached_inv n s0 c (f : fsol) : sorts P -> reached la rexp eps P s0 c f -> inv P n f.
Proof. intros SO (hist & Hs & ->). apply run_inv; auto. intros p Hp. discriminate Hp. Qed.
End Clients.
