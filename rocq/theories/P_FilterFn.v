(** Proofs for the interface to filter_functions: what the calls of a solver leave alone, the pulse sequence as an invariant. *)
Require Import String List Arith Lia Bool Permutation Sorting.Sorted.
From Verif Require Import LibBase LibRing LibArr LibCplx LibMat M_Matrix S_Linear M_Transfer M_Amplitude M_Solver S_Solver M_FilterFn S_FilterFn.
Import ListNotations.
Open Scope res_scope.
Set Implicit Arguments.

Section Frame.
Variable F : OField.
Variable rexp : F -> F.
Variable la : LinAlg F.
Variable eps : cplx F.
Notation st := (@st F).
Implicit Types s : st.

Definition fixed s s' : Prop := s_conf s' = s_conf s /\ s_drift s' = s_drift s /\ s_time s' = s_time s /\ s_opt s' = s_opt s /\ s_tpars s' = s_tpars s /\ s_amps s' = s_amps s.
Lemma fixed_refl s : fixed s s.
Proof. unfold fixed; auto 10. Qed.
Lemma fixed_trans s s' s'' : fixed s s' -> fixed s' s'' -> fixed s s''.
Proof. unfold fixed. intuition congruence. Qed.
Ltac fx := repeat match goal with |- fixed _ (match ?x with _ => _ end) => destruct x | |- fixed _ (fst (match ?x with _ => _ end)) => destruct x end; cbn [fst]; auto using fixed_refl.
Lemma fixed_set_k s s' k : fixed s s' -> fixed s (set_k s' k).
Proof. auto. Qed.
Lemma fixed_set_n s s' k : fixed s s' -> fixed s (set_n s' k).
Proof. auto. Qed.
Lemma fixed_set_l s s' k : fixed s s' -> fixed s (set_l s' k).
Proof. auto. Qed.
Lemma fixed_set_udiss s s' k : fixed s s' -> fixed s (set_udiss s' k).
Proof. auto. Qed.
Ltac fset := unfold set_dyn, set_prop, set_fwd, set_rev, set_der, nset_dyn, nset_prop, nset_fwd, nset_rev, nset_der in *;
  repeat first [apply fixed_set_k | apply fixed_set_n | apply fixed_set_l | apply fixed_set_udiss]; auto using fixed_refl.
(** a computation that keeps the parameters *)
Definition kept {A} (m : st -> st * res A) : Prop := forall s s' r, m s = (s', r) -> fixed s s'.
Ltac inv := match goal with H : (_, _) = (_, _) |- _ => inversion H; subst; clear H end.
Ltac go := repeat (match goal with
  | H : (let '(_, _) := ?x in _) = (_, _) |- _ => destruct x eqn:?
  | H : match ?x with _ => _ end = (_, _) |- _ => destruct x eqn:?
  | H : (_, _) = (_, _) |- _ => inversion H; subst; clear H
  end); fset; repeat match goal with |- fixed _ (match ?x with _ => _ end) => destruct x; fset end.
Lemma kept_calc_diss l : kept (calc_diss l).
Proof.
  intros s s' r H. unfold calc_diss in H. go.
Qed.
Lemma kept_dyn : kept (@compute_dyn_gen F).
Proof.
  intros s s' r H. unfold compute_dyn_gen in H. destruct (schr_dyn s) as [g e]. destruct e; [go|]. destruct (c_class (s_conf s)); [go|go|].
  destruct (l_diss _) eqn:E; [go|]. destruct (calc_diss _ _) as [s2 r2] eqn:E2. apply kept_calc_diss in E2. assert (fixed s s2) by (eapply fixed_trans; [|exact E2]; fset). go.
Qed.
Lemma kept_directions : kept (@directions F).
Proof. intros s s' r H. unfold directions in H. go. Qed.
Lemma kept_schr_propagation calc : kept (schr_propagation la eps calc).
Proof.
  intros s s' r H. unfold schr_propagation in H. destruct (s_amps s); [|go].
  assert (K : forall s1 r1, (match k_dyn (s_k s) with Some _ => (s, Ok tt) | None => compute_dyn_gen s end) = (s1, r1) -> fixed s s1).
  { intros s1 r1 H1. destruct (k_dyn _); [go|]. now apply kept_dyn in H1. }
  destruct (match k_dyn (s_k s) with Some _ => _ | None => _ end) as [s1 r1]. specialize (K s1 r1 eq_refl).
  destruct r1; [|go]. destruct (calc_flag _ _); [|go].
  destruct (directions _) as [s3 r3] eqn:E3. apply kept_directions in E3. assert (fixed s s3) by (eapply fixed_trans; [|exact E3]; fset). go.
Qed.
Lemma kept_dyn_noise m : kept (dyn_gen_noise m).
Proof. intros s s' r H. unfold dyn_gen_noise in H. go. Qed.
Lemma kept_mc m calc : kept (mc_propagation la eps m calc).
Proof.
  intros s s' r H. unfold mc_propagation in H.
  assert (K : forall s1 r1, (match n_dyn (s_n s) with Some _ => (s, Ok tt) | None => dyn_gen_noise m s end) = (s1, r1) -> fixed s s1).
  { intros s1 r1 H1. destruct (n_dyn _); [go|]. now apply kept_dyn_noise in H1. }
  destruct (match n_dyn (s_n s) with Some _ => _ | None => _ end) as [s1 r1]. specialize (K s1 r1 eq_refl).
  destruct r1; [|go].
  destruct (schr_propagation _ _ _ _) as [s4 r4] eqn:E4. apply kept_schr_propagation in E4.
  assert (fixed s s4). { eapply fixed_trans; [|exact E4]. destruct (calc_flag _ _); fset. }
  clear E4. go.
Qed.
Lemma kept_propagation calc : kept (propagation la eps calc).
Proof. intros s s' r H. unfold propagation in H. destruct (c_class _); eauto using kept_schr_propagation, kept_mc. now apply kept_schr_propagation in H. now apply kept_mc in H. now apply kept_schr_propagation in H. Qed.
Lemma kept_need_prop : kept (need_prop la eps).
Proof.
  intros s s' r H. unfold need_prop in H. destruct (k_prop _); [go|]. destruct (propagation _ _ _ _) as [s1 r1] eqn:E. apply kept_propagation in E. go.
Qed.
Lemma kept_need_nprop : kept (need_nprop la eps).
Proof.
  intros s s' r H. unfold need_nprop in H. destruct (n_prop _); [go|]. destruct (propagation _ _ _ _) as [s1 r1] eqn:E. apply kept_propagation in E. go.
Qed.
Lemma kept_base_forward : kept (base_forward la eps).
Proof. intros s s' r H. unfold base_forward in H. destruct (need_prop _ _ _) as [s1 r1] eqn:E. apply kept_need_prop in E. go. Qed.
Lemma kept_base_reversed : kept (base_reversed la eps).
Proof. intros s s' r H. unfold base_reversed in H. destruct (need_prop _ _ _) as [s1 r1] eqn:E. apply kept_need_prop in E. go. Qed.
Lemma kept_forward : kept (compute_forward la eps).
Proof.
  intros s s' r H. unfold compute_forward in H. destruct (c_class _); try (now apply kept_base_forward in H).
  destruct (base_forward _ _ _) as [s1 r1] eqn:E. apply kept_base_forward in E. destruct r1; [|go].
  destruct (need_nprop _ _ _) as [s2 r2] eqn:E2. apply kept_need_nprop in E2. pose proof (fixed_trans E E2). clear E E2. go.
Qed.
Lemma kept_reversed : kept (compute_reversed la eps).
Proof.
  intros s s' r H. unfold compute_reversed in H. destruct (c_class _); try (now apply kept_base_reversed in H).
  destruct (base_reversed _ _ _) as [s1 r1] eqn:E. apply kept_base_reversed in E. destruct r1; [|go].
  destruct (need_nprop _ _ _) as [s2 r2] eqn:E2. apply kept_need_nprop in E2. pose proof (fixed_trans E E2). clear E E2. go.
Qed.
Lemma kept_schr_derivatives : kept (schr_derivatives la eps).
Proof.
  intros s s' r H. unfold schr_derivatives in H. destruct (c_approx _); [now apply kept_propagation in H| |go].
  assert (K : forall s1 r1, (match k_prop (s_k s) with Some _ => (s, Ok tt) | None => propagation la eps (Some false) s end) = (s1, r1) -> fixed s s1).
  { intros s1 r1 H1. destruct (k_prop _); [go|]. now apply kept_propagation in H1. }
  destruct (match k_prop (s_k s) with Some _ => _ | None => _ end) as [s1 r1]. specialize (K s1 r1 eq_refl). destruct r1; [|go].
  destruct (directions _) as [s3 r3] eqn:E3. apply kept_directions in E3. assert (fixed s s3) by (eapply fixed_trans; [|exact E3]; fset). go.
Qed.
Lemma kept_derivatives : kept (compute_derivatives la eps).
Proof.
  intros s s' r H. unfold compute_derivatives in H. destruct (c_class _); try (now apply kept_schr_derivatives in H).
  destruct (c_approx _); [now apply kept_propagation in H| |go].
  destruct (schr_derivatives _ _ _) as [s1 r1] eqn:E. apply kept_schr_derivatives in E. destruct r1; [|go].
  assert (K : forall s2 r2, (match n_prop (s_n s1) with Some _ => (s1, Ok tt) | None => propagation la eps (Some false) s1 end) = (s2, r2) -> fixed s s2).
  { intros s2 r2 H1. destruct (n_prop _); [go|]. apply kept_propagation in H1. eauto using fixed_trans. }
  destruct (match n_prop (s_n s1) with Some _ => _ | None => _ end) as [s2 r2]. specialize (K s2 r2 eq_refl). destruct r2; [|go].
  destruct (directions _) as [s3 r3] eqn:E3. apply kept_directions in E3. pose proof (fixed_trans K E3). clear K E3 E. go.
Qed.
Lemma kept_cached A (proj : st -> option A) (compute : st -> st * res unit) : kept compute -> kept (cached proj compute).
Proof. intros K s s' r H. unfold cached in H. destruct (proj s); [go|]. destruct (compute s) as [s1 r1] eqn:E. apply K in E. go. Qed.
Lemma read_fixed s o s' r : is_read o = true -> sstep rexp la eps s o = (s', r) -> fixed s s'.
Proof.
  intros R H. destruct o; try discriminate R; cbn [sstep] in H; unfold mapv in H;
  match goal with H : match ?m with _ => _ end = _ |- _ => destruct m as [s1 r1] eqn:E end;
  (assert (K : fixed s s1);
   [eapply kept_cached; [|exact E]; first [apply kept_propagation | apply kept_forward | apply kept_reversed | apply kept_derivatives]|]); go.
Qed.
(** calls that do not drop the pulse sequence keep the parameters *)
Lemma reset_fixed s : s_conf (reset_cached s) = s_conf s /\ s_drift (reset_cached s) = s_drift s.
Proof. unfold reset_cached. destruct (c_class _) as [| |l]; auto. destruct (li_pref l), (li_func l); auto. Qed.
Lemma set_same s y s' r : opt_equal (s_opt s) y = true -> set_pars rexp y s = (s', r) -> fixed s s'.
Proof.
  unfold set_pars, schr_set_pars, base_set_pars. intros H. rewrite H. destruct (c_class _); intros E; rewrite ?H in E; go.
Qed.
Lemma times_failed s tau s' e : solver_set_times tau s = (s', Err e) -> fixed s s'.
Proof. unfold solver_set_times. intros H. go; repeat split. Qed.
End Frame.
