(** The error function, its inverse, and integrals of normal densities. *)
Require Import Reals Lra Lia.
From Verif Require Import S_Gauss LibGauss.
Local Open Scope R_scope.
Set Implicit Arguments.

Lemma E_odd x : E_ (- x) = - E_ x.
Proof.
  assert (D : forall x, derivable_pt_lim (fun x => - E_ (-1 * x + 0)) x (bell x)).
  { intros y. apply dl_eq with (l := - (bell (-1 * y + 0) * -1)).
    - apply (derivable_pt_lim_opp (fun x => E_ (-1 * x + 0))). apply (derivable_pt_lim_comp (fun x => -1 * x + 0) E_); [apply dl_lin|apply E_deriv].
    - unfold bell. replace ((-1 * y + 0) * (-1 * y + 0)) with (y * y) by ring. ring. }
  pose proof (@deriv_const_eq _ _ _ 0 x E_deriv D) as X. cbv beta in X. replace (-1 * 0 + 0) with 0 in X by ring. replace (-1 * x + 0) with (- x) in X by ring. rewrite E_0 in X. lra.
Qed.
Lemma E_mono x y : x < y -> E_ x < E_ y.
Proof. intros H. destruct (MVT_cor2 E_ bell x y H (fun c _ => E_deriv c)) as (c & X & _). pose proof (bell_pos c). nra. Qed.
Lemma E_pos x : 0 < x -> 0 < E_ x. Proof. intros H. rewrite <- E_0. now apply E_mono. Qed.
Lemma sqrt_pi_pos : 0 < sqrt PI. Proof. apply sqrt_lt_R0, PI_RGT_0. Qed.
Lemma sqrt_pi_sq : sqrt PI * sqrt PI = PI. Proof. apply sqrt_sqrt, Rlt_le, PI_RGT_0. Qed.
Lemma E_le x : E_ x <= sqrt PI / 2.
Proof.
  pose proof (square_sum x) as S. assert (G : 0 <= G_ (x * x)) by (apply G_bound; nra). pose proof sqrt_pi_sq. pose proof sqrt_pi_pos. nra.
Qed.
Lemma E_lt x : E_ x < sqrt PI / 2.
Proof. apply Rlt_le_trans with (E_ (x + 1)); [apply E_mono; lra|apply E_le]. Qed.
Lemma E_gt x : - (sqrt PI / 2) < E_ x.
Proof. pose proof (E_lt (- x)) as H. rewrite E_odd in H. lra. Qed.
Lemma exp_neg_le u : 0 <= u -> exp (- u) <= / (1 + u).
Proof. intros H. rewrite exp_Ropp. apply Rinv_le_contravar; [lra|apply exp_ineq1_le]. Qed.
Lemma pi_3 : 3 < PI. Proof. pose proof PI2_3_2. lra. Qed.

(** ---- erf ---- *)
Definition erf (x : R) : R := 2 / sqrt PI * E_ x.
Definition erf' (x : R) : R := 2 / sqrt PI * exp (- (x * x)).
Lemma fac_pos : 0 < 2 / sqrt PI. Proof. apply Rdiv_lt_0_compat; [lra|apply sqrt_pi_pos]. Qed.
Lemma erf_deriv x : derivable_pt_lim erf x (erf' x).
Proof. apply (derivable_pt_lim_scal E_). apply E_deriv. Qed.
Lemma erf'_cont : continuity erf'.
Proof. apply deriv_cont with (f' := fun x => 2 / sqrt PI * (- 2 * x * bell x)). intros x. apply (derivable_pt_lim_scal bell). apply bell_deriv. Qed.
Lemma erf_cont : continuity erf. Proof. apply deriv_cont with (f' := erf'). apply erf_deriv. Qed.
Lemma erf_0 : erf 0 = 0. Proof. unfold erf. rewrite E_0. ring. Qed.
Lemma erf_odd x : erf (- x) = - erf x. Proof. unfold erf. rewrite E_odd. ring. Qed.
Lemma erf_mono x y : x < y -> erf x < erf y. Proof. intros H. unfold erf. apply Rmult_lt_compat_l; [apply fac_pos|now apply E_mono]. Qed.
Lemma erf_inj x y : erf x = erf y -> x = y.
Proof. intros H. destruct (Rtotal_order x y) as [L|[L|L]]; auto; apply erf_mono in L; lra. Qed.
Lemma erf_mono_iff x y : erf x < erf y -> x < y.
Proof. intros H. destruct (Rtotal_order x y) as [L|[L|L]]; auto; [subst; lra|apply erf_mono in L; lra]. Qed.
Lemma erf_range x : -1 < erf x < 1.
Proof.
  unfold erf. pose proof (E_lt x). pose proof (E_gt x). pose proof sqrt_pi_pos as P.
  assert (X : 2 / sqrt PI * (sqrt PI / 2) = 1) by (field; lra). pose proof fac_pos. split; nra.
Qed.
Lemma erf_sq x : 1 - 4 / PI * exp (- (x * x)) <= erf x * erf x.
Proof.
  unfold erf. pose proof (square_sum x) as S. assert (G : G_ (x * x) <= exp (- (x * x))) by (apply G_bound; nra). pose proof PI_RGT_0. pose proof sqrt_pi_pos.
  replace (2 / sqrt PI * E_ x * (2 / sqrt PI * E_ x)) with (4 / (sqrt PI * sqrt PI) * (E_ x * E_ x)) by (field; lra). rewrite sqrt_pi_sq. replace (E_ x * E_ x) with (PI / 4 - G_ (x * x)) by lra.
  replace (4 / PI * (PI / 4 - G_ (x * x))) with (1 - 4 / PI * G_ (x * x)) by (field; lra). assert (0 < 4 / PI) by (apply Rdiv_lt_0_compat; lra). nra.
Qed.
(** a point where erf exceeds |z| *)
Definition far (z : R) : R := sqrt (2 / (1 - z * z)).
Lemma far_spec z : -1 < z < 1 -> 0 < far z /\ z < erf (far z) /\ - z < erf (far z).
Proof.
  intros H. set (w := 1 - z * z). assert (W : 0 < w) by (unfold w; nra). assert (P2 : 0 < 2 / w) by (apply Rdiv_lt_0_compat; lra).
  assert (F : 0 < far z) by (unfold far; apply sqrt_lt_R0; exact P2). split; auto.
  assert (FS : far z * far z = 2 / w) by (unfold far; fold w; apply sqrt_sqrt; lra). pose proof (erf_sq (far z)) as S. rewrite FS in S.
  pose proof (exp_neg_le (Rlt_le _ _ P2)) as X. assert (Y : / (1 + 2 / w) <= w / 2).
  { replace (/ (1 + 2 / w)) with (w / (w + 2)) by (field; lra). apply Rmult_le_compat_l; [lra|]. apply Rinv_le_contravar; lra. }
  pose proof pi_3. assert (Q : 4 / PI * exp (- (2 / w)) < w).
  { apply Rle_lt_trans with (4 / PI * (w / 2)); [apply Rmult_le_compat_l; [apply Rlt_le, Rdiv_lt_0_compat; lra|lra]|]. apply Rmult_lt_reg_r with PI; [lra|]. replace (4 / PI * (w / 2) * PI) with (2 * w) by (field; lra). nra. }
  assert (Z : z * z < erf (far z) * erf (far z)) by (unfold w in *; lra). assert (0 < erf (far z)) by (rewrite <- erf_0; now apply erf_mono). split; nra.
Qed.
Lemma erf_minus_cont z : continuity (fun x => erf x - z).
Proof. intros x. apply (continuity_pt_minus erf (fun _ => z)); [apply erf_cont|]. apply continuity_pt_const. now intros a b. Qed.
Lemma erf_onto z : -1 < z < 1 -> {x | erf x = z}.
Proof.
  intros H. destruct (far_spec H) as (F & A & B). destruct (IVT (fun x => erf x - z) (- far z) (far z) (erf_minus_cont z)) as [x [_ X]]; [lra|rewrite erf_odd; lra|lra|]. exists x. lra.
Qed.
Definition erfinv (z : R) : R :=
  match Rlt_dec (-1) z with
  | left a => match Rlt_dec z 1 with left b => proj1_sig (erf_onto (conj a b)) | right _ => 0 end
  | right _ => 0 end.
Lemma erf_erfinv z : -1 < z < 1 -> erf (erfinv z) = z.
Proof. intros [A B]. unfold erfinv. destruct (Rlt_dec (-1) z); [|lra]. destruct (Rlt_dec z 1); [|lra]. now destruct (erf_onto _). Qed.
Lemma erfinv_out z : ~ (-1 < z < 1) -> erfinv z = 0.
Proof. intros N. unfold erfinv. destruct (Rlt_dec (-1) z); auto. destruct (Rlt_dec z 1); auto. exfalso. apply N. lra. Qed.
Lemma erf_integral a b v : integral (fun t => 2 / sqrt PI * exp (- (t * t))) a b v <-> v = erf b - erf a.
Proof. apply integral_of; [apply erf'_cont|apply erf_deriv]. Qed.
Lemma is_erfinv_erf g : is_erfinv g <-> forall z, -1 < z < 1 -> erf (g z) = z.
Proof. split; intros H z Hz; specialize (H z Hz); [apply erf_integral in H|apply erf_integral]; rewrite erf_0 in *; lra. Qed.
Lemma erfinv_is : is_erfinv erfinv. Proof. apply is_erfinv_erf. apply erf_erfinv. Qed.
Lemma erfinv_odd z : erfinv (- z) = - erfinv z.
Proof.
  destruct (Rlt_dec (-1) z) as [A|A]; [destruct (Rlt_dec z 1) as [B|B]|].
  - apply erf_inj. rewrite erf_odd, !erf_erfinv by lra. reflexivity.
  - rewrite !erfinv_out by lra. ring.
  - rewrite !erfinv_out by lra. ring.
Qed.
Lemma inv_mono g : is_erfinv g -> forall x y, -1 < x -> x < y -> y < 1 -> g x < g y.
Proof. intros H x y A B C. apply is_erfinv_erf with (z := x) in H as Hx; [|lra]. apply is_erfinv_erf with (z := y) in H as Hy; [|lra]. apply erf_mono_iff. lra. Qed.
Lemma inv_0 g : is_erfinv g -> g 0 = 0.
Proof. intros H. apply erf_inj. rewrite erf_0. apply is_erfinv_erf with (z := 0) in H; lra. Qed.
Lemma inv_pos g : is_erfinv g -> forall x, 0 < x -> x < 1 -> 0 < g x.
Proof. intros H x A B. rewrite <- (inv_0 H). apply inv_mono; auto; lra. Qed.
Lemma erf'_decr x y : 0 <= x -> x < y -> erf' y < erf' x.
Proof. intros H L. unfold erf'. apply Rmult_lt_compat_l; [apply fac_pos|]. apply exp_increasing. nra. Qed.
Lemma erf_concave a b : 0 <= a -> a < b -> erf a + erf b < 2 * erf ((a + b) / 2).
Proof.
  intros H L. set (m := (a + b) / 2). destruct (MVT_cor2 erf erf' a m ltac:(unfold m; lra) (fun c _ => erf_deriv c)) as (c1 & E1 & H1). destruct (MVT_cor2 erf erf' m b ltac:(unfold m; lra) (fun c _ => erf_deriv c)) as (c2 & E2 & H2).
  pose proof (@erf'_decr c1 c2 ltac:(lra) ltac:(lra)) as D. replace (m - a) with ((b - a) / 2) in E1 by (unfold m; lra). replace (b - m) with ((b - a) / 2) in E2 by (unfold m; lra). nra.
Qed.
Lemma inv_convex g : is_erfinv g -> forall x y, 0 <= x -> x < y -> y < 1 -> 2 * g ((x + y) / 2) < g x + g y.
Proof.
  intros H x y A B C. pose proof (proj1 (is_erfinv_erf g) H) as V. assert (Px : 0 <= g x) by (destruct (Req_dec x 0) as [->|N]; [rewrite (inv_0 H); lra|left; apply inv_pos; auto; lra]).
  pose proof (@inv_mono g H x y ltac:(lra) B C) as M. pose proof (@erf_concave (g x) (g y) Px M) as K. rewrite !V in K by lra.
  assert (Q : g ((x + y) / 2) < (g x + g y) / 2); [|lra]. apply erf_mono_iff. rewrite V by lra. lra.
Qed.

(** ---- normal densities ---- *)
Lemma sqrt_2pi : sqrt (2 * PI) = sqrt 2 * sqrt PI. Proof. apply sqrt_mult; [lra|apply Rlt_le, PI_RGT_0]. Qed.
Lemma sqrt2_pos : 0 < sqrt 2. Proof. apply sqrt_lt_R0. lra. Qed.
Lemma sqrt2_sq : sqrt 2 * sqrt 2 = 2. Proof. apply sqrt_sqrt. lra. Qed.
(** the distribution function up to a constant *)
Definition Phi (std m x : R) : R := / 2 * erf (/ (sqrt 2 * std) * x + - m / (sqrt 2 * std)).
Lemma Phi_deriv std m x : 0 < std -> derivable_pt_lim (Phi std m) x (normal_density std m x).
Proof.
  intros H. pose proof sqrt2_pos as P2. pose proof sqrt_pi_pos as PP. unfold Phi. set (a := / (sqrt 2 * std)). set (b := - m / (sqrt 2 * std)).
  apply dl_eq with (l := / 2 * (erf' (a * x + b) * a)).
  - apply (derivable_pt_lim_scal (fun x => erf (a * x + b))). apply (derivable_pt_lim_comp (fun x => a * x + b) erf); [apply dl_lin|apply erf_deriv].
  - unfold erf', normal_density. rewrite sqrt_2pi. replace ((a * x + b) * (a * x + b)) with ((x - m) * (x - m) / (2 * (std * std))).
    + unfold a. field. repeat split; lra.
    + unfold a, b. replace (2 * (std * std)) with (sqrt 2 * sqrt 2 * (std * std)) by (rewrite sqrt2_sq; ring). field. split; lra.
Qed.
Lemma density_cont std m : 0 < std -> continuity (normal_density std m).
Proof.
  intros H. unfold normal_density. intros x. apply (continuity_pt_mult (fun _ => / (std * sqrt (2 * PI))) (fun x => exp (- ((x - m) * (x - m) / (2 * (std * std)))))); [apply continuity_pt_const; now intros ? ?|].
  apply derivable_continuous_pt. eexists. apply dl_exp with (g := fun x => - ((x - m) * (x - m) / (2 * (std * std)))). apply (derivable_pt_lim_opp (fun x => (x - m) * (x - m) / (2 * (std * std)))).
  apply (derivable_pt_lim_mult (fun x => (x - m) * (x - m)) (fun _ => / (2 * (std * std)))); [|apply derivable_pt_lim_const].
  apply (derivable_pt_lim_mult (fun x => x - m) (fun x => x - m)); (apply (derivable_pt_lim_minus (fun x => x) (fun _ => m)); [apply derivable_pt_lim_id|apply derivable_pt_lim_const]).
Qed.
Lemma density_integral std m a b v : 0 < std -> integral (normal_density std m) a b v <-> v = Phi std m b - Phi std m a.
Proof. intros H. apply integral_of; [now apply density_cont|]. intros x. now apply Phi_deriv. Qed.
Lemma erf_tends : tends erf 1.
Proof.
  intros eps He. set (z := Rmax 0 (1 - eps / 2)). assert (Hz : 0 <= z < 1) by (unfold z, Rmax; destruct (Rle_dec 0 (1 - eps / 2)); lra). assert (Hz' : 1 - eps / 2 <= z) by apply Rmax_r.
  destruct (@far_spec z ltac:(lra)) as (_ & A & _). exists (far z). intros x Hx. assert (B : erf (far z) <= erf x) by (destruct (Req_dec (far z) x) as [->|]; [lra|left; apply erf_mono; lra]).
  pose proof (erf_range x). rewrite Rabs_left by lra. lra.
Qed.
Lemma tends_lin f l a b : 0 < a -> tends f l -> tends (fun x => f (a * x + b)) l.
Proof.
  intros Ha H eps He. destruct (H eps He) as [T HT]. exists ((T - b) / a). intros x Hx. apply HT. apply Rmult_le_compat_r with (r := a) in Hx; [|lra]. unfold Rdiv in Hx. rewrite Rmult_assoc, Rinv_l, Rmult_1_r in Hx by lra. lra.
Qed.
Lemma tends_ext f g l : (forall x, f x = g x) -> tends f l -> tends g l.
Proof. intros E H eps He. destruct (H eps He) as [T HT]. exists T. intros x Hx. rewrite <- E. auto. Qed.
Lemma tends_plus f g l l' : tends f l -> tends g l' -> tends (fun x => f x + g x) (l + l').
Proof.
  intros H H' eps He. destruct (H (eps / 2) ltac:(lra)) as [T HT]. destruct (H' (eps / 2) ltac:(lra)) as [T' HT']. exists (Rmax T T'). intros x Hx.
  specialize (HT x (Rle_trans _ _ _ (Rmax_l _ _) Hx)). specialize (HT' x (Rle_trans _ _ _ (Rmax_r _ _) Hx)). replace (f x + g x - (l + l')) with ((f x - l) + (g x - l')) by ring. eapply Rle_lt_trans; [apply Rabs_triang|]. lra.
Qed.
Lemma tends_const c : tends (fun _ => c) c.
Proof. intros eps He. exists 0. intros x _. replace (c - c) with 0 by ring. now rewrite Rabs_R0. Qed.
Lemma tends_scal c f l : tends f l -> tends (fun x => c * f x) (c * l).
Proof.
  intros H. destruct (Req_dec c 0) as [->|N]; [apply tends_ext with (f := fun _ => 0 * l); [intros; ring|apply tends_const]|].
  intros eps He. pose proof (Rabs_pos_lt c N) as P. destruct (H (eps / Rabs c)) as [T HT]; [now apply Rdiv_lt_0_compat|]. exists T. intros x Hx. specialize (HT x Hx). rewrite <- Rmult_minus_distr_l, Rabs_mult.
  apply Rmult_lt_compat_l with (r := Rabs c) in HT; auto. replace (Rabs c * (eps / Rabs c)) with eps in HT by (field; lra). exact HT.
Qed.
Lemma Phi_high std m : 0 < std -> tends (Phi std m) (/ 2).
Proof.
  intros H. rewrite <- (Rmult_1_r (/ 2)). unfold Phi. apply (tends_scal (/ 2) (f := fun x => erf (/ (sqrt 2 * std) * x + - m / (sqrt 2 * std)))). apply tends_lin; [|apply erf_tends]. apply Rinv_0_lt_compat. pose proof sqrt2_pos. nra.
Qed.
Lemma Phi_low std m : 0 < std -> tends (fun x => Phi std m (- x)) (- / 2).
Proof.
  intros H. replace (- / 2) with (- 1 * / 2) by ring. apply tends_ext with (f := fun x => - 1 * Phi std (- m) x).
  - intros x. unfold Phi. pose proof sqrt2_pos. replace (/ (sqrt 2 * std) * - x + - m / (sqrt 2 * std)) with (- (/ (sqrt 2 * std) * x + - - m / (sqrt 2 * std))) by (field; lra). rewrite erf_odd. ring.
  - apply tends_scal. now apply Phi_high.
Qed.
Lemma density_total std m v : 0 < std -> (forall a, integral (normal_density std m) (- a) a (v a)) -> tends v 1.
Proof.
  intros H I. apply tends_ext with (f := fun x => Phi std m x + - 1 * Phi std m (- x)).
  - intros x. specialize (I x). apply density_integral in I; auto. lra.
  - replace 1 with (/ 2 + - 1 * - / 2) by field. apply tends_plus; [now apply Phi_high|]. apply (tends_scal (- 1) (f := fun x => Phi std m (- x))). now apply Phi_low.
Qed.
Lemma density_tail std m v x0 : 0 < std -> (forall a, integral (normal_density std m) (- a) x0 (v a)) -> tends v (Phi std m x0 + / 2).
Proof.
  intros H I. apply tends_ext with (f := fun x => Phi std m x0 + - 1 * Phi std m (- x)).
  - intros x. specialize (I x). apply density_integral in I; auto. lra.
  - replace (/ 2) with (- 1 * - / 2) by field. apply tends_plus; [apply tends_const|]. apply (tends_scal (- 1) (f := fun x => Phi std m (- x))). now apply Phi_low.
Qed.
Lemma tends_unique f l l' : tends f l -> tends f l' -> l = l'.
Proof.
  intros H H'. destruct (Req_dec l l') as [|N]; auto. exfalso. assert (P : 0 < Rabs (l - l') / 2) by (pose proof (Rabs_pos_lt (l - l') ltac:(lra)); lra). destruct (H _ P) as [T HT]. destruct (H' _ P) as [T' HT'].
  specialize (HT (Rmax T T') (Rmax_l _ _)). specialize (HT' (Rmax T T') (Rmax_r _ _)). set (y := f (Rmax T T')) in *. assert (X : Rabs (l - l') <= Rabs (y - l) + Rabs (y - l')).
  { replace (l - l') with (- (y - l) + (y - l')) by ring. eapply Rle_trans; [apply Rabs_triang|]. rewrite Rabs_Ropp. lra. }
  lra.
Qed.
