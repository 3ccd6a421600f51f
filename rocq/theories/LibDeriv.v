(** Derivatives of complex valued functions of a real variable, on top of the stdlib's
    [derivable_pt_lim] (library file). *)
Require Import List Arith Lia Ring Field Bool Reals Lra.
From Verif Require Import LibBase LibRing LibArr LibCplx LibMat LibNorm.
Import ListNotations.
Set Implicit Arguments.

Notation RC := (cplx RField).
Notation RS := (CStar RField).
Ltac rring := change (kcar RField) with R; ring.

(** f has derivative l at t: real and imaginary part have *)
Definition cderiv (f : R -> RC) (t : R) (l : RC) : Prop :=
  derivable_pt_lim (fun s => cre (f s)) t (cre l) /\ derivable_pt_lim (fun s => cim (f s)) t (cim l).

Lemma derivable_pt_lim_ext f g t l : (forall s, f s = g s) -> derivable_pt_lim f t l -> derivable_pt_lim g t l.
Proof.
  intros E H eps He. destruct (H eps He) as [d Hd]. exists d. intros h Hh1 Hh2. rewrite <- !E. now apply Hd.
Qed.

Lemma cderiv_ext f g t l : (forall s, f s = g s) -> cderiv f t l -> cderiv g t l.
Proof.
  intros E [H1 H2]. split; eapply derivable_pt_lim_ext; [|exact H1| |exact H2]; intros; cbn; now rewrite E.
Qed.
Lemma cderiv_eq f t l l' : l = l' -> cderiv f t l -> cderiv f t l'.
Proof. now intros ->. Qed.

Lemma cderiv_const c t : cderiv (fun _ => c) t c0.
Proof. split; apply derivable_pt_lim_const. Qed.
Lemma cderiv_add f g t l m : cderiv f t l -> cderiv g t m -> cderiv (fun s => cadd (f s) (g s)) t (cadd l m).
Proof. intros [H1 H2] [H3 H4]. split; cbn. exact (derivable_pt_lim_plus _ _ _ _ _ H1 H3). exact (derivable_pt_lim_plus _ _ _ _ _ H2 H4). Qed.
Lemma cderiv_opp f t l : cderiv f t l -> cderiv (fun s => copp (f s)) t (copp l).
Proof. intros [H1 H2]. split; cbn. exact (derivable_pt_lim_opp _ _ _ H1). exact (derivable_pt_lim_opp _ _ _ H2). Qed.
Lemma cderiv_sub f g t l m : cderiv f t l -> cderiv g t m -> cderiv (fun s => csub (f s) (g s)) t (csub l m).
Proof. intros [H1 H2] [H3 H4]. split; cbn. exact (derivable_pt_lim_minus _ _ _ _ _ H1 H3). exact (derivable_pt_lim_minus _ _ _ _ _ H2 H4). Qed.
Lemma cderiv_mul f g t l m : cderiv f t l -> cderiv g t m ->
  cderiv (fun s => cmul (f s) (g s)) t (cadd (cmul l (g t)) (cmul (f t) m)).
Proof.
  intros [H1 H2] [H3 H4]. split; cbn.
  - pose proof (derivable_pt_lim_minus _ _ _ _ _ (derivable_pt_lim_mult _ _ _ _ _ H1 H3) (derivable_pt_lim_mult _ _ _ _ _ H2 H4)) as H.
    cbn in H. eapply derivable_pt_lim_ext in H; [|intros; reflexivity].
    match type of H with derivable_pt_lim _ _ ?a => match goal with |- derivable_pt_lim _ _ ?b => replace b with a end end.
    exact H. unfold cre, cim. rring.
  - pose proof (derivable_pt_lim_plus _ _ _ _ _ (derivable_pt_lim_mult _ _ _ _ _ H1 H4) (derivable_pt_lim_mult _ _ _ _ _ H2 H3)) as H.
    cbn in H.
    match type of H with derivable_pt_lim _ _ ?a => match goal with |- derivable_pt_lim _ _ ?b => replace b with a end end.
    exact H. unfold cre, cim. rring.
Qed.
Lemma cderiv_conj f t l : cderiv f t l -> cderiv (fun s => cconj (f s)) t (cconj l).
Proof. intros [H1 H2]. split; cbn. exact H1. exact (derivable_pt_lim_opp _ _ _ H2). Qed.
Lemma cderiv_scale c f t l : cderiv f t l -> cderiv (fun s => cmul c (f s)) t (cmul c l).
Proof.
  intros H. pose proof (cderiv_mul (cderiv_const c t) H) as H0. cbn beta in H0.
  eapply cderiv_eq; [|exact H0]. destruct c, l, (f t). unfold cmul, cadd, c0; cbn; f_equal; rring.
Qed.
Lemma cderiv_scale_r c f t l : cderiv f t l -> cderiv (fun s => cmul (f s) c) t (cmul l c).
Proof.
  intros H. pose proof (cderiv_mul H (cderiv_const c t)) as H0. cbn beta in H0.
  eapply cderiv_eq; [|exact H0]. destruct c, l, (f t). unfold cmul, cadd, c0; cbn; f_equal; rring.
Qed.
Lemma cderiv_sumn n (f : nat -> R -> RC) t l : (forall k, (k < n)%nat -> cderiv (f k) t (l k)) ->
  cderiv (fun s => sumn (S:=RS) n (fun k => f k s)) t (sumn (S:=RS) n l).
Proof.
  induction n; intros H; cbn [sumn].
  - apply cderiv_const.
  - apply (cderiv_add (f := fun s => sumn (S:=RS) n (fun k => f k s)) (g := f n)).
    + apply IHn. intros; apply H; lia.
    + apply H; lia.
Qed.
Lemma cderiv_unique f t l m : cderiv f t l -> cderiv f t m -> l = m.
Proof.
  intros [H1 H2] [H3 H4]. destruct l, m. cbn in *.
  f_equal; eapply uniqueness_limite; eauto.
Qed.

(** the complex exponential over the reals *)
Definition cexpR (z : RC) : RC := (exp (cre z) * cos (cim z), exp (cre z) * sin (cim z))%R.

Lemma cexpR_0 : cexpR c0 = c1.
Proof. unfold cexpR. cbn. rewrite exp_0, cos_0, sin_0. unfold c1. cbn. f_equal; lra. Qed.
Lemma cexpR_add x y : cexpR (cadd x y) = cmul (cexpR x) (cexpR y).
Proof.
  destruct x, y. unfold cexpR, cmul. cbn. rewrite exp_plus, cos_plus, sin_plus. f_equal; ring.
Qed.
Lemma cexpR_conj x : cexpR (cconj x) = cconj (cexpR x).
Proof. destruct x. unfold cexpR, cconj. cbn. rewrite cos_neg, sin_neg. f_equal; ring. Qed.

Lemma cderiv_exp (w : RC) t : cderiv (fun s => cexpR (cmul (cofk (s : RField)) w)) t (cmul w (cexpR (cmul (cofk (t : RField)) w))).
Proof.
  enough (G : forall a b : R, cderiv (fun s => cexpR (cmul (cofk (s : RField)) ((a, b) : RC))) t
    (cmul ((a, b) : RC) (cexpR (cmul (cofk (t : RField)) ((a, b) : RC))))) by (destruct w; apply G).
  intros a b.
  assert (Ha : derivable_pt_lim (fun s => exp (s * a))%R t (exp (t * a) * a)%R).
  { pose proof (derivable_pt_lim_comp (fun s => s * a)%R exp t a (exp (t * a))) as H. apply H.
    - pose proof (derivable_pt_lim_mult id (fct_cte a) t 1 0 (derivable_pt_lim_id t) (derivable_pt_lim_const a t)) as G.
      unfold id, fct_cte, mult_fct in G. replace (1 * a + t * 0)%R with a in G by ring. exact G.
    - apply derivable_pt_lim_exp. }
  assert (Hl : derivable_pt_lim (fun s => s * b)%R t b).
  { pose proof (derivable_pt_lim_mult id (fct_cte b) t 1 0 (derivable_pt_lim_id t) (derivable_pt_lim_const b t)) as G.
    unfold id, fct_cte, mult_fct in G. replace (1 * b + t * 0)%R with b in G by ring. exact G. }
  assert (Hc : derivable_pt_lim (fun s => cos (s * b))%R t (- sin (t * b) * b)%R).
  { pose proof (derivable_pt_lim_comp (fun s => s * b)%R cos t b (- sin (t * b))) as H. apply H; auto.
    apply derivable_pt_lim_cos. }
  assert (Hs : derivable_pt_lim (fun s => sin (s * b))%R t (cos (t * b) * b)%R).
  { pose proof (derivable_pt_lim_comp (fun s => s * b)%R sin t b (cos (t * b))) as H. apply H; auto.
    apply derivable_pt_lim_sin. }
  assert (R1 : forall s, (s * a - 0 * b = s * a)%R) by (intros; ring).
  assert (R2 : forall s, (s * b + 0 * a = s * b)%R) by (intros; ring).
  split.
  - pose proof (derivable_pt_lim_mult _ _ _ _ _ Ha Hc) as H. unfold mult_fct in H.
    eapply derivable_pt_lim_ext; [|]; cycle 1.
    + match type of H with derivable_pt_lim _ _ ?a => match goal with |- derivable_pt_lim _ _ ?b => replace b with a end end.
      exact H. unfold cexpR. cbn. rewrite R1, R2. ring.
    + intros s. unfold cexpR. cbn. now rewrite R1, R2.
  - pose proof (derivable_pt_lim_mult _ _ _ _ _ Ha Hs) as H. unfold mult_fct in H.
    eapply derivable_pt_lim_ext; [|]; cycle 1.
    + match type of H with derivable_pt_lim _ _ ?a => match goal with |- derivable_pt_lim _ _ ?b => replace b with a end end.
      exact H. unfold cexpR. cbn. rewrite R1, R2. ring.
    + intros s. unfold cexpR. cbn. now rewrite R1, R2.
Qed.
