(** Proofs for C85: the one-dimensional samples and the bell curves. *)
Require Import List Arith Reals Lra Lia.
From Verif Require Import LibBase LibRing LibArr LibCplx M_Noise S_Noise P_Noise S_Gauss LibGauss LibGauss2 P_Gauss M_Bell.
Import ListNotations.
Local Open Scope R_scope.
Set Implicit Arguments.
Local Notation RF := RField.

Lemma r_ltb_lt (x y : R) : klt (F:=RF) x y <-> x < y.
Proof. unfold klt. change (@kleb RF) with r_leb. destruct (r_leb y x) eqn:E; [apply r_leb_le in E; split; [discriminate|lra]|]. split; auto. intros _. destruct (Rlt_dec x y) as [|N]; auto. assert (L : y <= x) by lra. apply r_leb_le in L. congruence. Qed.
Lemma kofnat_INR n : (kofnat (F:=RF) n : R) = INR n.
Proof. induction n; [reflexivity|]. rewrite S_INR, <- IHn. cbn [kofnat]. change (@kadd RF) with Rplus. change (@k1 RF) with 1. ring. Qed.
Lemma sample_R g std m n j : (sample (F:=RF) g (sqrt 2) std m n j : R) = m + std * (sqrt 2 * q_ g n j).
Proof. unfold sample, q_. rewrite !kofnat_INR. reflexivity. Qed.
Lemma gauss_list g std n m l : gauss (F:=RF) g (sqrt 2) std n m = Ok l -> n <> 0%nat /\ length l = n /\ forall j, (j < n)%nat -> nth j l 0 = m + std * (sqrt 2 * q_ g n j).
Proof.
  intros E. destruct (Nat.eq_dec n 0) as [Z|Z]; [subst; discriminate|]. split; auto. rewrite (@gauss_ok RF g (sqrt 2) std n m Z) in E. injection E as <-. split; [now rewrite map_length, seq_length|].
  intros j Hj. rewrite nth_map_seq by auto. apply sample_R.
Qed.
Lemma share n j : (j < n)%nat -> -1 < INR (2 * j + 1) / INR n - 1 < 1.
Proof.
  intros H. assert (P : 0 < INR n) by (apply lt_0_INR; lia). assert (A : 0 < INR (2 * j + 1)) by (apply lt_0_INR; lia). assert (B : INR (2 * j + 1) < 2 * INR n) by (replace 2 with (INR 2) by reflexivity; rewrite <- mult_INR; apply lt_INR; lia).
  assert (0 < INR (2 * j + 1) / INR n) by now apply Rdiv_lt_0_compat. assert (INR (2 * j + 1) / INR n < 2); [|lra]. apply Rmult_lt_reg_r with (INR n); auto. unfold Rdiv. rewrite Rmult_assoc, Rinv_l by lra. lra.
Qed.
Lemma Phi_sample g std m n j : is_erfinv g -> 0 < std -> (j < n)%nat -> Phi std m (m + std * (sqrt 2 * q_ g n j)) = / 2 * (INR (2 * j + 1) / INR n - 1).
Proof.
  intros H S Hj. unfold Phi. pose proof sqrt2_pos. replace (/ (sqrt 2 * std) * (m + std * (sqrt 2 * q_ g n j)) + - m / (sqrt 2 * std)) with (q_ g n j) by (field; lra).
  unfold q_. now rewrite (proj1 (is_erfinv_erf g) H _ (share Hj)).
Qed.
Lemma inr_odd j : INR (2 * j + 1) = 2 * INR j + 1. Proof. rewrite plus_INR, mult_INR. simpl (INR 2). simpl (INR 1). lra. Qed.
Theorem samples_equal_share g std n m l i : is_erfinv g -> 0 < std -> gauss (F:=RF) g (sqrt 2) std n m = Ok l -> (S i < n)%nat -> integral (normal_density std m) (nth i l 0) (nth (S i) l 0) (/ INR n).
Proof.
  intros H S E Hi. apply gauss_list in E. destruct E as (N & _ & E). rewrite !E by lia. apply density_integral; auto. rewrite !Phi_sample by (auto; lia). rewrite !inr_odd, S_INR. assert (0 < INR n) by (apply lt_0_INR; lia). field. lra.
Qed.
Theorem samples_first g std n m l v : is_erfinv g -> 0 < std -> gauss (F:=RF) g (sqrt 2) std n m = Ok l -> (forall a, integral (normal_density std m) (- a) (nth 0 l 0) (v a)) -> tends v (/ (2 * INR n)).
Proof.
  intros H S E I. apply gauss_list in E. destruct E as (N & _ & E). pose proof (@density_tail std m v _ S I) as T. rewrite E, Phi_sample in T by (auto; lia). rewrite inr_odd in T. simpl (INR 0) in T. assert (0 < INR n) by (apply lt_0_INR; lia).
  replace (/ (2 * INR n)) with (/ 2 * ((2 * 0 + 1) / INR n - 1) + / 2) by (field; lra). exact T.
Qed.
Theorem samples_increase g std n m l i j : is_erfinv g -> 0 < std -> gauss (F:=RF) g (sqrt 2) std n m = Ok l -> (i < j < n)%nat -> nth i l 0 < nth j l 0.
Proof.
  intros H S E Hij. apply gauss_list in E. destruct E as (N & _ & E). rewrite !E by lia. pose proof sqrt2_pos. assert (P : 0 < INR n) by (apply lt_0_INR; lia).
  assert (q_ g n i < q_ g n j). { unfold q_. pose proof (@share n i ltac:(lia)). pose proof (@share n j ltac:(lia)). apply (inv_mono H); [lra| |lra]. apply Rplus_lt_compat_r. apply Rmult_lt_compat_r; [now apply Rinv_0_lt_compat|]. apply lt_INR. lia. }
  apply Rplus_lt_compat_l. apply Rmult_lt_compat_l; auto. now apply Rmult_lt_compat_l.
Qed.
Theorem erfinv_exists : exists g : R -> R, is_erfinv g /\ odd (F:=RF) g /\ positive (F:=RF) g /\ midpoint_convex (F:=RF) g.
Proof.
  exists erfinv. split; [apply erfinv_is|]. split; [exact erfinv_odd|]. split.
  - intros x A B. apply r_ltb_lt in A. apply r_ltb_lt in B. apply r_ltb_lt. now apply (inv_pos erfinv_is).
  - intros x y A B C. apply r_leb_le in A. apply r_ltb_lt in B. apply r_ltb_lt in C. apply r_ltb_lt. exact (inv_convex erfinv_is A B C).
Qed.
Theorem erfinv_unique g g' z : is_erfinv g -> is_erfinv g' -> -1 < z < 1 -> g z = g' z.
Proof. intros H H' Z. apply erf_inj. rewrite (proj1 (is_erfinv_erf g) H), (proj1 (is_erfinv_erf g') H') by auto. reflexivity. Qed.

(** ---- the standard deviation of the samples ---- *)
Lemma sum_rs n f : (sumn (S:=KStar RF) n f : R) = rs n f.
Proof. induction n; [reflexivity|]. cbn [sumn rs]. now rewrite IHn. Qed.
Lemma std_square g std n m l s : is_erfinv g -> gauss (F:=RF) g (sqrt 2) std n m = Ok l -> is_std (F:=RF) n (fun j => nth j l 0) s ->
  0 <= s /\ n <> 0%nat /\ INR n * (s * s) = 2 * (std * std) * rs n (fun j => q_ g n j * q_ g n j).
Proof.
  intros H E (S0 & m' & M & V). apply gauss_list in E. destruct E as (N & _ & E). apply r_leb_le in S0. split; auto. split; auto.
  assert (Q : forall j, (j < n)%nat -> q_ g n j = q_ erfinv n j) by (intros j Hj; unfold q_; apply erfinv_unique; auto using erfinv_is, share).
  assert (MM : m' = m).
  { pose proof (@sample_mean RF erfinv (sqrt 2) std m n erfinv_odd) as M2. unfold is_mean in M, M2. rewrite kofnat_INR, !sum_rs in *. assert (X : INR n * m' = INR n * m).
    { change (INR n * m') with (@kmul RF (INR n) m'). rewrite M. change (INR n * m) with (@kmul RF (INR n) m). rewrite M2. apply rs_ext. intros j Hj. rewrite sample_R, E, Q by auto. reflexivity. }
    apply Rmult_eq_reg_l in X; auto. apply not_0_INR. auto. }
  subst m'. change (@kmul RF (kofnat (F:=RF) n) (s * s) = sumn (S:=KStar RF) n (fun i => (nth i l 0 - m) * (nth i l 0 - m))) in V. rewrite sum_rs, kofnat_INR in V. change (@kmul RF) with Rmult in V. rewrite V. rewrite <- rs_scal. apply rs_ext. intros j Hj. rewrite E by auto.
  replace (2 * (std * std)) with (sqrt 2 * sqrt 2 * (std * std)) by (rewrite sqrt2_sq; ring). ring.
Qed.
Theorem std_below g std n m l s : is_erfinv g -> 0 < std -> gauss (F:=RF) g (sqrt 2) std n m = Ok l -> is_std (F:=RF) n (fun j => nth j l 0) s -> s < std.
Proof.
  intros H S E V. destruct (@std_square g std n m l s H E V) as (S0 & N & X). pose proof (@square_below g H n N) as B. assert (P : 0 < INR n) by (apply lt_0_INR; lia). assert (SS : 0 < std * std) by nra. assert (Y : INR n * (s * s) < INR n * (std * std)).
  { rewrite X. apply Rlt_le_trans with (2 * (std * std) * (INR n / 2)); [apply Rmult_lt_compat_l; lra|right; field]. }
  apply Rmult_lt_reg_l in Y; auto. change (kcar RF) with R in s. nra.
Qed.
Theorem std_limit g std eps : is_erfinv g -> 0 < std -> 0 < eps -> exists N, forall n m l s, (N <= n)%nat -> gauss (F:=RF) g (sqrt 2) std n m = Ok l -> is_std (F:=RF) n (fun j => nth j l 0) s -> std - eps < s.
Proof.
  intros H S He. set (d := eps / (2 * std)). assert (D : 0 < d) by (unfold d; apply Rdiv_lt_0_compat; lra). destruct (@square_limit g H d D) as [N HN]. exists N. intros n m l s Hn E V. specialize (HN n Hn).
  pose proof (@std_below g std n m l s H S E V) as B. destruct (@std_square g std n m l s H E V) as (S0 & Nz & X). assert (P : 0 < INR n) by (apply lt_0_INR; lia).
  assert (SS : 0 < std * std) by nra. assert (Y : INR n * (std * std * (1 - d)) <= INR n * (s * s)).
  { rewrite X. apply Rle_trans with (2 * (std * std) * (INR n * (1 - d) / 2)); [right; field|apply Rmult_le_compat_l; lra]. }
  apply Rmult_le_reg_l in Y; auto. change (kcar RF) with R in s. assert (Z : std * std * (1 - d) <= s * std) by nra. assert (W : std * (1 - d) <= s) by nra.
  replace (std * (1 - d)) with (std - eps / 2) in W by (unfold d; field; lra). lra.
Qed.

(** ---- the bell curves ---- *)
Lemma pi_pos : 0 < PI. Proof. apply PI_RGT_0. Qed.
Lemma sqrt_2pi_pos : 0 < sqrt (2 * PI). Proof. apply sqrt_lt_R0. pose proof pi_pos. lra. Qed.
Lemma sqrt_2pi_sq : sqrt (2 * PI) * sqrt (2 * PI) = 2 * PI. Proof. apply sqrt_sqrt. pose proof pi_pos. lra. Qed.
Lemma bell1_density x std : 0 < std -> bell1 x std = / sqrt (2 * PI) * normal_density std 0 x.
Proof.
  intros H. unfold bell1, normal_density. pose proof pi_pos. pose proof sqrt_2pi_pos. replace (- (5 / 10) * (x / std) ^ 2) with (- ((x - 0) * (x - 0) / (2 * (std * std)))) by (field; lra).
  replace (/ sqrt (2 * PI) * (/ (std * sqrt (2 * PI)) * exp (- ((x - 0) * (x - 0) / (2 * (std * std)))))) with (/ (std * (sqrt (2 * PI) * sqrt (2 * PI))) * exp (- ((x - 0) * (x - 0) / (2 * (std * std))))) by (field; lra). rewrite sqrt_2pi_sq. field. split; lra.
Qed.
Lemma bell2_density x sx y sy : 0 < sx -> 0 < sy -> bell2 x sx y sy = normal_density sx 0 x * normal_density sy 0 y.
Proof.
  intros X Y. unfold bell2, normal_density. pose proof pi_pos. pose proof sqrt_2pi_pos.
  replace (- (5 / 10) * ((x / sx) ^ 2 + (y / sy) ^ 2)) with (- ((x - 0) * (x - 0) / (2 * (sx * sx))) + - ((y - 0) * (y - 0) / (2 * (sy * sy)))) by (field; lra). rewrite exp_plus. set (a := exp (- ((x - 0) * (x - 0) / (2 * (sx * sx))))). set (b := exp (- ((y - 0) * (y - 0) / (2 * (sy * sy))))).
  replace (/ (sx * sqrt (2 * PI)) * a * (/ (sy * sqrt (2 * PI)) * b)) with (/ (sx * sy * (sqrt (2 * PI) * sqrt (2 * PI))) * a * b) by (field; lra). rewrite sqrt_2pi_sq. field. repeat split; lra.
Qed.
Theorem bell2_normal x sx y sy v : 0 < sx -> 0 < sy -> bell_curve_2dim x sx y sy = Ok v <-> v = normal_density sx 0 x * normal_density sy 0 y.
Proof. intros X Y. unfold bell_curve_2dim. destruct (Req_EM_T sx 0); [lra|]. destruct (Req_EM_T sy 0); [lra|]. rewrite bell2_density by auto. split; congruence. Qed.
Theorem bell1_normal x sx v : 0 < sx -> bell_curve_1dim x sx = Ok v <-> v = / sqrt (2 * PI) * normal_density sx 0 x.
Proof. intros X. unfold bell_curve_1dim. destruct (Req_EM_T sx 0); [lra|]. rewrite bell1_density by auto. split; congruence. Qed.
Lemma sqrt_2pi_gt : 2 < sqrt (2 * PI).
Proof. pose proof pi_3. pose proof sqrt_2pi_pos. pose proof sqrt_2pi_sq. nra. Qed.
(** the one-dimensional bell curve encloses an area below one half *)
Theorem bell1_mass std f v : 0 < std -> (forall x, bell_curve_1dim x std = Ok (f x)) -> (forall a, integral f (- a) a (v a)) -> tends v (/ sqrt (2 * PI)) /\ / sqrt (2 * PI) < / 2 /\ ~ tends v 1.
Proof.
  intros S F I. assert (Ff : forall x, f x = / sqrt (2 * PI) * normal_density std 0 x) by (intros x; apply bell1_normal; auto). pose proof sqrt_2pi_pos as P. pose proof sqrt_2pi_gt as G2.
  assert (E : forall a, v a = / sqrt (2 * PI) * (Phi std 0 a - Phi std 0 (- a))).
  { intros a. specialize (I a). rewrite Rmult_minus_distr_l. revert I. apply integral_of with (F := fun x => / sqrt (2 * PI) * Phi std 0 x).
    - intros x. assert (C : continuity_pt (mult_real_fct (/ sqrt (2 * PI)) (normal_density std 0)) x) by (apply continuity_pt_scal, density_cont; auto). intros e He. destruct (C e He) as (d & D & Q). exists d. split; auto. intros y Hy. rewrite !Ff. now apply Q.
    - intros x. rewrite Ff. apply (derivable_pt_lim_scal (Phi std 0)). now apply Phi_deriv. }
  assert (T : tends v (/ sqrt (2 * PI))).
  { rewrite <- (Rmult_1_r (/ sqrt (2 * PI))). apply tends_ext with (f := fun a => / sqrt (2 * PI) * (Phi std 0 a - Phi std 0 (- a))); [intros a; now rewrite E|]. apply (tends_scal (/ sqrt (2 * PI)) (f := fun a => Phi std 0 a - Phi std 0 (- a))).
    apply (@density_total std 0 (fun a => Phi std 0 a - Phi std 0 (- a)) S). intros a. now apply density_integral. }
  assert (L : / sqrt (2 * PI) < / 2) by (apply Rinv_lt_contravar; nra). split; auto. split; auto. intros T1. pose proof (tends_unique T T1). lra.
Qed.
