(** Power series sum a_k t^k / k! with geometrically bounded coefficients (library file). *)
Require Import Arith Lia Reals Lra.
Set Implicit Arguments.
Local Open Scope R_scope.

Definition geo (a : nat -> R) : Prop := exists B r, 0 <= B /\ 0 <= r /\ forall k, Rabs (a k) <= B * r ^ k.
Definition eterm (a : nat -> R) (t : R) (k : nat) : R := a k * t ^ k * / INR (fact k).
Definition esum (a : nat -> R) (t : R) (N : nat) : R := sum_f_R0 (eterm a t) N.

Lemma fact_pos k : 0 < / INR (fact k).
Proof. apply Rinv_0_lt_compat. apply INR_fact_lt_0. Qed.

Lemma maj_cv (B x : R) : { l | Un_cv (fun n => sum_f_R0 (fun k => B * x ^ k * / INR (fact k)) n) l }.
Proof.
  destruct (exist_exp x) as [l Hl]. exists (B * l).
  assert (E : forall n, sum_f_R0 (fun k => B * x ^ k * / INR (fact k)) n = B * sum_f_R0 (fun i => / INR (fact i) * x ^ i) n).
  { intros n. rewrite scal_sum. apply sum_eq. intros. ring. }
  intros eps He. destruct (Req_dec B 0) as [->|NB].
  - exists 0%nat. intros n _. rewrite E. unfold R_dist. rewrite !Rmult_0_l, Rminus_0_r, Rabs_R0. auto.
  - assert (P : 0 < Rabs B) by now apply Rabs_pos_lt.
    destruct (Hl (eps / Rabs B)) as [N HN]; [now apply Rdiv_lt_0_compat|]. exists N. intros n Hn. rewrite E. specialize (HN n Hn).
    unfold R_dist in *. rewrite <- Rmult_minus_distr_l, Rabs_mult.
    apply Rmult_lt_reg_l with (/ Rabs B); [now apply Rinv_0_lt_compat|]. rewrite <- Rmult_assoc, Rinv_l by lra.
    rewrite Rmult_1_l. now replace (/ Rabs B * eps) with (eps / Rabs B) by (unfold Rdiv; ring).
Qed.
Lemma eterm_maj a B r t k : 0 <= B -> 0 <= r -> (forall k, Rabs (a k) <= B * r ^ k) ->
  Rabs (eterm a t k) <= B * (r * Rabs t) ^ k * / INR (fact k).
Proof.
  intros HB Hr H. unfold eterm. rewrite !Rabs_mult. rewrite (Rabs_right (/ INR (fact k))) by (left; apply fact_pos).
  apply Rmult_le_compat_r; [left; apply fact_pos|]. rewrite Rpow_mult_distr, <- RPow_abs.
  rewrite <- Rmult_assoc. apply Rmult_le_compat_r; [apply pow_le, Rabs_pos|auto].
Qed.
Lemma es_ex a (H : geo a) t : { l | Un_cv (esum a t) l }.
Proof.
  apply R_complete. destruct H as (B & r & HB & Hr & H). unfold esum.
  apply (cauchy_abs (eterm a t)). apply (cv_cauchy_1 (fun i => Rabs (eterm a t i))).
  apply (Rseries_CV_comp _ (fun k => B * (r * Rabs t) ^ k * / INR (fact k))); [|apply maj_cv].
  intros k. split; [apply Rabs_pos|]. now apply eterm_maj.
Qed.
Definition es a (H : geo a) (t : R) : R := proj1_sig (es_ex H t).
Lemma es_cv a (H : geo a) t : Un_cv (esum a t) (es H t).
Proof. exact (proj2_sig (es_ex H t)). Qed.
Lemma es_unique a (H : geo a) t l : Un_cv (esum a t) l -> es H t = l.
Proof. intros HL. eapply UL_sequence; [apply es_cv|exact HL]. Qed.

Lemma es_ext a b (Ha : geo a) (Hb : geo b) t : (forall k, a k = b k) -> es Ha t = es Hb t.
Proof.
  intros E. apply es_unique. intros eps He. destruct (es_cv Hb t He) as [N HN]. exists N. intros n Hn.
  replace (esum a t n) with (esum b t n); [auto|]. unfold esum. apply sum_eq. intros i _. unfold eterm. now rewrite E.
Qed.
Lemma es_add a b c (Ha : geo a) (Hb : geo b) (Hc : geo c) t : (forall k, c k = a k + b k) -> es Hc t = es Ha t + es Hb t.
Proof.
  intros E. apply es_unique. pose proof (CV_plus _ _ _ _ (es_cv Ha t) (es_cv Hb t)) as P.
  intros eps He. destruct (P eps He) as [N HN]. exists N. intros n Hn. specialize (HN n Hn).
  replace (esum c t n) with (esum a t n + esum b t n); [auto|]. unfold esum. rewrite <- plus_sum. apply sum_eq. intros i _. unfold eterm. rewrite E. ring.
Qed.
Lemma es_scal x a c (Ha : geo a) (Hc : geo c) t : (forall k, c k = x * a k) -> es Hc t = x * es Ha t.
Proof.
  intros E. apply es_unique.
  assert (K : Un_cv (fun _ : nat => x) x) by (intros e He; exists 0%nat; intros; rewrite R_dist_eq; auto).
  pose proof (CV_mult _ _ _ _ K (es_cv Ha t)) as P.
  intros eps He. destruct (P eps He) as [N HN]. exists N. intros n Hn. specialize (HN n Hn).
  replace (esum c t n) with (x * esum a t n); [auto|]. unfold esum. rewrite scal_sum. apply sum_eq. intros i _. unfold eterm. rewrite E. ring.
Qed.
Lemma es_0 a (H : geo a) : es H 0 = a 0%nat.
Proof.
  apply es_unique. intros eps He. exists 0%nat. intros n _. replace (esum a 0 n) with (a 0%nat); [now rewrite R_dist_eq|].
  unfold esum. induction n; cbn [sum_f_R0].
  - unfold eterm. cbn. field.
  - rewrite <- IHn. unfold eterm. cbn [pow]. ring.
Qed.
(** |es a t| <= B exp (r |t|) *)
Lemma es_bound a (H : geo a) B r t : 0 <= B -> 0 <= r -> (forall k, Rabs (a k) <= B * r ^ k) -> Rabs (es H t) <= B * exp (r * Rabs t).
Proof.
  intros HB Hr Hk. apply Rle_cv_lim with (Un := fun n => Rabs (esum a t n)) (Vn := fun n => sum_f_R0 (fun k => B * (r * Rabs t) ^ k * / INR (fact k)) n).
  - intros n. unfold esum. eapply Rle_trans; [apply Rsum_abs|]. apply sum_Rle. intros k _. now apply eterm_maj.
  - apply cv_cvabs. apply es_cv.
  - unfold exp. destruct (exist_exp (r * Rabs t)) as [l Hl]. cbn [proj1_sig].
    intros eps He. assert (E : forall n, sum_f_R0 (fun k => B * (r * Rabs t) ^ k * / INR (fact k)) n = B * sum_f_R0 (fun i => / INR (fact i) * (r * Rabs t) ^ i) n).
    { intros n. rewrite scal_sum. apply sum_eq. intros. ring. }
    assert (K : Un_cv (fun _ : nat => B) B) by (intros e He'; exists 0%nat; intros; rewrite R_dist_eq; auto).
    destruct (CV_mult _ _ _ _ K Hl eps He) as [N HN]. exists N. intros n Hn. rewrite E. apply HN; auto.
Qed.

Lemma esum_deriv a t N : derivable_pt_lim (fun t => esum a t (S N)) t (esum (fun k => a (S k)) t N).
Proof.
  induction N.
  - unfold esum. cbn [sum_f_R0]. unfold eterm. cbn [fact pow].
    assert (P : derivable_pt_lim (fun t : R => a 0%nat + a 1%nat * t)%R t (a 1%nat)).
    { assert (E : 0 + (0 * t + a 1%nat * 1) = a 1%nat) by ring.
      refine (eq_ind _ (fun v => derivable_pt_lim (fun t => a 0%nat + a 1%nat * t) t v) _ _ E). clear E.
      apply (derivable_pt_lim_plus (fun _ => a 0%nat) (fun t => a 1%nat * t)); [apply derivable_pt_lim_const|].
      apply (derivable_pt_lim_mult (fun _ => a 1%nat) (fun t => t)); [apply derivable_pt_lim_const|apply derivable_pt_lim_id]. }
    replace (a 1%nat * 1 * / INR 1) with (a 1%nat) by (cbn; field).
    intros e He. destruct (P e He) as [d Hd]. exists d. intros h H1 H2. specialize (Hd h H1 H2).
    replace (a 0%nat * 1 * / INR 1 + a 1%nat * ((t + h) * 1) * / INR (1 * 1)) with (a 0%nat + a 1%nat * (t + h)) by (cbn; field).
    replace (a 0%nat * 1 * / INR 1 + a 1%nat * (t * 1) * / INR (1 * 1)) with (a 0%nat + a 1%nat * t) by (cbn; field). exact Hd.
  - unfold esum in *. change (sum_f_R0 (eterm (fun k => a (S k)) t) (S N)) with (sum_f_R0 (eterm (fun k => a (S k)) t) N + eterm (fun k => a (S k)) t (S N)).
    apply (derivable_pt_lim_plus (fun t => sum_f_R0 (eterm a t) (S N)) (fun t => eterm a t (S (S N)))); [exact IHN|].
    unfold eterm. replace (a (S (S N)) * t ^ S N * / INR (fact (S N))) with (0 * (t ^ S (S N) * / INR (fact (S (S N)))) + a (S (S N)) * ((INR (S (S N)) * t ^ S N) * / INR (fact (S (S N))) + t ^ S (S N) * 0)).
    + assert (Q : derivable_pt_lim (fun t => t ^ S (S N) * / INR (fact (S (S N)))) t (INR (S (S N)) * t ^ S N * / INR (fact (S (S N))) + t ^ S (S N) * 0)).
      { apply (derivable_pt_lim_mult (fun t => t ^ S (S N)) (fun _ => / INR (fact (S (S N))))); [apply derivable_pt_lim_pow|apply derivable_pt_lim_const]. }
      pose proof (derivable_pt_lim_mult (fun _ => a (S (S N))) _ t _ _ (derivable_pt_lim_const _ _) Q) as Q2. unfold mult_fct in Q2.
      intros e He. destruct (Q2 e He) as [d Hd]. exists d. intros h H1 H2. specialize (Hd h H1 H2). rewrite !Rmult_assoc in *. exact Hd.
    + change (fact (S (S N))) with ((S (S N)) * fact (S N))%nat. rewrite mult_INR. field. split; [apply INR_fact_neq_0|apply not_0_INR; lia].
Qed.

Lemma geo_shift a : geo a -> geo (fun k => a (S k)).
Proof.
  intros (B & r & HB & Hr & H). exists (B * r), r. split; [now apply Rmult_le_pos|split; auto]. intros k. eapply Rle_trans; [apply H|]. cbn [pow]. right. ring.
Qed.
Lemma es_cvu a (H : geo a) (d : posreal) : CVU (fun n t => esum a t n) (es H) 0 d.
Proof.
  destruct H as (B & r & HB & Hr & Hk) eqn:E. rewrite <- E. clear E.
  assert (cv : forall x, { l | Un_cv (fun N => SP (fun k t => eterm a t k) N x) l }) by (intros x; exists (es H x); apply (es_cv H x)).
  assert (X : CVN_r (fun k t => eterm a t k) d).
  { exists (fun k => B * (r * d) ^ k * / INR (fact k)). destruct (maj_cv B (r * d)) as [l Hl]. exists l. split.
    - intros eps He. destruct (Hl eps He) as [N HN]. exists N. intros n Hn. 
      replace (sum_f_R0 (fun k => Rabs (B * (r * d) ^ k * / INR (fact k))) n) with (sum_f_R0 (fun k => B * (r * d) ^ k * / INR (fact k)) n); [auto|].
      apply sum_eq. intros k _. symmetry. apply Rabs_right. apply Rle_ge. apply Rmult_le_pos; [|left; apply fact_pos]. apply Rmult_le_pos; auto. apply pow_le. apply Rmult_le_pos; auto. left. apply cond_pos.
    - intros k y Hy. eapply Rle_trans; [now apply eterm_maj with (B:=B) (r:=r)|]. apply Rmult_le_compat_r; [left; apply fact_pos|]. apply Rmult_le_compat_l; auto.
      unfold Boule in Hy. rewrite Rminus_0_r in Hy. apply pow_incr. split; [apply Rmult_le_pos; auto; apply Rabs_pos|]. apply Rmult_le_compat_l; auto. now left. }
  pose proof (CVN_CVU (fun k t => eterm a t k) cv d X) as C.
  apply CVU_ext_lim with (1 := C). intros x _. unfold SFL. destruct (cv x) as [l Hl]. symmetry. now apply es_unique.
Qed.
(** the derivative has the shifted coefficients *)
Lemma es_deriv a (H : geo a) (H' : geo (fun k => a (S k))) t : derivable_pt_lim (es H) t (es H' t).
Proof.
  assert (P : 0 < Rabs t + 1) by (pose proof (Rabs_pos t); lra).
  apply (@CVU_derivable (fun n t => esum a t (S n)) (fun n t => esum (fun k => a (S k)) t n) (es H) (es H') 0 (mkposreal _ P)).
  - apply es_cvu.
  - intros x _ eps He. destruct (es_cv H x He) as [N HN]. exists N. intros n Hn. apply HN. lia.
  - intros n x _. apply esum_deriv.
  - unfold Boule. cbn. rewrite Rminus_0_r. lra.
Qed.
