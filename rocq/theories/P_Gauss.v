(** Mean squares of equidistant quantiles of the error function. *)
Require Import Reals Lra Lia ZArith.
From Verif Require Import S_Gauss LibGauss LibGauss2.
Local Open Scope R_scope.
Set Implicit Arguments.

Notation rs := add_up.
Lemma rs_tele B n : rs n (fun j => B (S j) - B j) = B n - B O.
Proof. induction n; simpl; [ring|]. rewrite IHn. ring. Qed.
Lemma rs_le f g n : (forall j, (j < n)%nat -> f j <= g j) -> rs n f <= rs n g.
Proof. induction n; intros H; simpl; [lra|]. apply Rplus_le_compat; [apply IHn; intros; apply H; lia|apply H; lia]. Qed.
Lemma rs_lt f g n : n <> 0%nat -> (forall j, (j < n)%nat -> f j < g j) -> rs n f < rs n g.
Proof. destruct n; [easy|]. intros _ H. simpl. apply Rplus_le_lt_compat; [apply rs_le; intros; left; apply H; lia|apply H; lia]. Qed.
Lemma rs_ext f g n : (forall j, (j < n)%nat -> f j = g j) -> rs n f = rs n g.
Proof. induction n; intros H; simpl; [auto|]. rewrite IHn by (intros; apply H; lia). f_equal. apply H. lia. Qed.
Lemma rs_scal c f n : rs n (fun j => c * f j) = c * rs n f.
Proof. induction n; simpl; [ring|]. rewrite IHn. ring. Qed.

Lemma nat_above B : exists N, B < INR N.
Proof.
  exists (Z.to_nat (up B)). destruct (archimed B) as [A _]. rewrite INR_IZR_INZ. destruct (Z_le_dec 0 (up B)) as [L|L]; [now rewrite Z2Nat.id|].
  assert (up B < 0)%Z by lia. apply IZR_lt in H. eapply Rlt_le_trans; [exact A|]. apply IZR_le. lia.
Qed.
(** the integral of t^2 erf'(t) *)
Definition A_ (u : R) : R := / 2 * (erf u - u * erf' u).
Lemma erf'_deriv u : derivable_pt_lim erf' u (- 2 * u * erf' u).
Proof. apply dl_eq with (l := 2 / sqrt PI * (- 2 * u * bell u)); [|unfold erf', bell; ring]. apply (derivable_pt_lim_scal bell). apply bell_deriv. Qed.
Lemma A_deriv u : derivable_pt_lim A_ u (u * u * erf' u).
Proof.
  apply dl_eq with (l := / 2 * (erf' u - (1 * erf' u + u * (- 2 * u * erf' u)))); [|field].
  apply (derivable_pt_lim_scal (fun u => erf u - u * erf' u)). apply (derivable_pt_lim_minus erf (fun u => u * erf' u)); [apply erf_deriv|].
  apply (derivable_pt_lim_mult (fun u => u) erf'); [apply derivable_pt_lim_id|apply erf'_deriv].
Qed.
Lemma erf'_pos u : 0 < erf' u. Proof. unfold erf'. apply Rmult_lt_0_compat; [apply fac_pos|apply exp_pos]. Qed.
Lemma A_le u : A_ u <= / 2.
Proof.
  destruct (Rle_dec 0 u) as [P|P].
  - unfold A_. pose proof (erf_range u). pose proof (erf'_pos u). nra.
  - apply Rle_trans with (A_ 0).
    + destruct (MVT_cor2 A_ (fun u => u * u * erf' u) u 0 ltac:(lra) (fun c _ => A_deriv c)) as (c & X & _). pose proof (erf'_pos c). assert (0 <= c * c * erf' c) by (apply Rmult_le_pos; [nra|lra]). nra.
    + unfold A_. rewrite erf_0. lra.
Qed.
Lemma A_odd u : A_ (- u) = - A_ u.
Proof. unfold A_, erf'. rewrite erf_odd. replace (- u * - u) with (u * u) by ring. ring. Qed.
Lemma A_ge u : - / 2 <= A_ u. Proof. pose proof (A_le (- u)) as H. rewrite A_odd in H. lra. Qed.

Section Cell.
Variable g : R -> R.
Hypothesis Hg : is_erfinv g.
Let V : forall z, -1 < z < 1 -> erf (g z) = z. Proof. now apply is_erfinv_erf. Qed.
Variable m : R.
(** the slope of the inverse *)
Let c := m / erf' m.
Definition K_ (u : R) : R := A_ u - m * m * erf u - c * (erf u * erf u - 2 * erf m * erf u).
Let h (u : R) : R := u * u - m * m - 2 * c * (erf u - erf m).
Lemma K_deriv u : derivable_pt_lim K_ u (erf' u * h u).
Proof.
  apply dl_eq with (l := u * u * erf' u - m * m * erf' u - c * ((erf' u * erf u + erf u * erf' u) - 2 * erf m * erf' u)); [|unfold h; ring].
  unfold K_. apply (derivable_pt_lim_minus (fun u => A_ u - m * m * erf u) (fun u => c * (erf u * erf u - 2 * erf m * erf u))).
  - apply (derivable_pt_lim_minus A_ (fun u => m * m * erf u)); [apply A_deriv|]. apply (derivable_pt_lim_scal erf). apply erf_deriv.
  - apply (derivable_pt_lim_scal (fun u => erf u * erf u - 2 * erf m * erf u)). apply (derivable_pt_lim_minus (fun u => erf u * erf u) (fun u => 2 * erf m * erf u)).
    + apply (derivable_pt_lim_mult erf erf); apply erf_deriv.
    + apply (derivable_pt_lim_scal erf). apply erf_deriv.
Qed.
Lemma h_deriv u : derivable_pt_lim h u (2 * u - 2 * c * erf' u).
Proof.
  apply dl_eq with (l := (1 * u + u * 1) - 0 - 2 * c * (erf' u - 0)); [|ring]. unfold h.
  apply (derivable_pt_lim_minus (fun u => u * u - m * m) (fun u => 2 * c * (erf u - erf m))).
  - apply (derivable_pt_lim_minus (fun u => u * u) (fun _ => m * m)); [|apply derivable_pt_lim_const]. apply (derivable_pt_lim_mult (fun u => u) (fun u => u)); apply derivable_pt_lim_id.
  - apply (derivable_pt_lim_scal (fun u => erf u - erf m)). apply (derivable_pt_lim_minus erf (fun _ => erf m)); [apply erf_deriv|apply derivable_pt_lim_const].
Qed.
Lemma even' u : erf' (- u) = erf' u. Proof. unfold erf'. now replace (- u * - u) with (u * u) by ring. Qed.
Lemma c_mul : c * erf' m = m. Proof. unfold c. pose proof (erf'_pos m). field. lra. Qed.
(** the slope of h *)
Lemma slope_high u : m < u -> 0 < 2 * u - 2 * c * erf' u.
Proof.
  intros H. pose proof c_mul as C. pose proof (erf'_pos m) as P. pose proof (erf'_pos u) as Q. destruct (Rle_dec 0 m) as [M|M].
  - pose proof (erf'_decr M H) as D. assert (0 <= c) by (unfold c; apply Rmult_le_pos; [lra|left; now apply Rinv_0_lt_compat]). nra.
  - assert (c < 0) by (unfold c; apply Ropp_lt_cancel; rewrite Ropp_0; unfold Rdiv; rewrite Ropp_mult_distr_l; apply Rmult_lt_0_compat; [lra|now apply Rinv_0_lt_compat]).
    destruct (Rle_dec 0 u) as [U|U]; [nra|]. pose proof (@erf'_decr (- u) (- m) ltac:(lra) ltac:(lra)) as D. rewrite !even' in D. nra.
Qed.
Lemma slope_low u : u < m -> 2 * u - 2 * c * erf' u < 0.
Proof.
  intros H. pose proof c_mul as C. pose proof (erf'_pos m) as P. pose proof (erf'_pos u) as Q. destruct (Rle_dec m 0) as [M|M].
  - pose proof (@erf'_decr (- m) (- u) ltac:(lra) ltac:(lra)) as D. rewrite !even' in D. assert (c <= 0) by (unfold c; apply Ropp_le_cancel; rewrite Ropp_0; unfold Rdiv; rewrite Ropp_mult_distr_l; apply Rmult_le_pos; [lra|left; now apply Rinv_0_lt_compat]). nra.
  - assert (0 < c) by (unfold c; apply Rdiv_lt_0_compat; lra). destruct (Rle_dec u 0) as [U|U]; [nra|]. pose proof (@erf'_decr u m ltac:(lra) ltac:(lra)) as D. nra.
Qed.
Lemma h_m : h m = 0. Proof. unfold h. ring. Qed.
Lemma h_pos u : u <> m -> 0 < h u.
Proof.
  intros N. destruct (Rtotal_order u m) as [L|[L|L]]; [|now contradiction|].
  - destruct (MVT_cor2 h (fun u => 2 * u - 2 * c * erf' u) u m L (fun c _ => h_deriv c)) as (d & X & D). rewrite h_m in X. pose proof (@slope_low d ltac:(lra)). nra.
  - destruct (MVT_cor2 h (fun u => 2 * u - 2 * c * erf' u) m u L (fun c _ => h_deriv c)) as (d & X & D). rewrite h_m in X. pose proof (@slope_high d ltac:(lra)). nra.
Qed.
Lemma K_side a b : a < b -> (b <= m \/ m <= a) -> K_ a < K_ b.
Proof.
  intros L S. destruct (MVT_cor2 K_ (fun u => erf' u * h u) a b L (fun c _ => K_deriv c)) as (d & X & D). pose proof (erf'_pos d). pose proof (@h_pos d ltac:(lra)). assert (0 < erf' d * h d) by nra. nra.
Qed.
Lemma K_mono a b : a < b -> K_ a < K_ b.
Proof.
  intros L. destruct (Rle_dec b m); [apply K_side; auto|]. destruct (Rle_dec m a); [apply K_side; auto|]. apply Rlt_trans with (K_ m); apply K_side; lra.
Qed.
(** the same as functions of the share *)
Definition AZ (z : R) : R := if Rle_dec 1 z then / 2 else if Rle_dec z (-1) then - / 2 else A_ (g z).
Let zm := erf m.
Definition KZ (z : R) : R := AZ z - m * m * z - c * (z * z - 2 * zm * z).
Lemma KZ_in z : -1 < z < 1 -> KZ z = K_ (g z).
Proof. intros H. unfold KZ, AZ, K_. destruct (Rle_dec 1 z); [lra|]. destruct (Rle_dec z (-1)); [lra|]. rewrite V by auto. reflexivity. Qed.
Lemma KZ_mono x y : -1 < x -> x < y -> y < 1 -> KZ x < KZ y.
Proof. intros. rewrite !KZ_in by lra. apply K_mono. apply (inv_mono Hg); lra. Qed.
Lemma quad_limit al be L w : w < 1 -> (forall b, w < b -> b < 1 -> al * (b * b) + be * b <= L) -> al + be <= L.
Proof.
  intros W H. destruct (Rle_dec (al + be) L) as [|N]; auto. exfalso. set (d := al + be - L). assert (D : 0 < d) by (unfold d; lra). set (M := 2 * Rabs al + Rabs be + 1).
  assert (M1 : 1 <= M) by (unfold M; pose proof (Rabs_pos al); pose proof (Rabs_pos be); lra).
  set (t := Rmin (Rmin 1 ((1 - w) / 2)) (d / (2 * M))). assert (DM : 0 < d / (2 * M)) by (apply Rdiv_lt_0_compat; lra).
  assert (T0 : 0 < t) by (unfold t; repeat apply Rmin_glb_lt; lra). assert (T1 : t <= 1) by (unfold t; eapply Rle_trans; [apply Rmin_l|apply Rmin_l]). assert (T2 : t <= (1 - w) / 2) by (unfold t; eapply Rle_trans; [apply Rmin_l|apply Rmin_r]).
  assert (T3 : t * M <= d / 2) by (apply Rle_trans with (d / (2 * M) * M); [apply Rmult_le_compat_r; [lra|apply Rmin_r]|right; field; lra]).
  pose proof (H (1 - t) ltac:(lra) ltac:(lra)) as X. assert (Y : t * (al * (2 - t) + be) <= t * M).
  { apply Rmult_le_compat_l; [lra|]. unfold M. pose proof (Rle_abs al). pose proof (Rle_abs be). assert (al * (2 - t) <= Rabs al * (2 - t)) by (apply Rmult_le_compat_r; lra). pose proof (Rabs_pos al). nra. }
  unfold d in *. nra.
Qed.
Lemma KZ_high w : -1 < w < 1 -> KZ w <= KZ 1.
Proof.
  intros W. assert (E1 : KZ 1 = / 2 - m * m - c * (1 - 2 * zm)) by (unfold KZ, AZ; destruct (Rle_dec 1 1); [ring|lra]). rewrite E1.
  assert (X : - c + (2 * c * zm - m * m) * 1 >= KZ w - / 2); [|lra]. apply Rle_ge. rewrite Rmult_1_r. apply Ropp_le_cancel. rewrite Ropp_plus_distr.
  apply (@quad_limit (- - c) (- (2 * c * zm - m * m)) (- (KZ w - / 2)) w); [lra|]. intros b B1 B2.
  pose proof (@KZ_mono w b ltac:(lra) B1 B2) as Q. assert (KB : KZ b <= / 2 - m * m * b - c * (b * b - 2 * zm * b)).
  { unfold KZ, AZ. destruct (Rle_dec 1 b); [lra|]. destruct (Rle_dec b (-1)); [lra|]. pose proof (A_le (g b)). lra. }
  lra.
Qed.
Lemma KZ_low w : -1 < w < 1 -> KZ (-1) <= KZ w.
Proof.
  intros W. assert (E1 : KZ (-1) = - / 2 + m * m - c * (1 + 2 * zm)) by (unfold KZ, AZ; destruct (Rle_dec 1 (-1)); [lra|]; destruct (Rle_dec (-1) (-1)); [ring|lra]). rewrite E1.
  enough (X : - c + (m * m - 2 * c * zm) <= KZ w + / 2) by lra. apply (@quad_limit (- c) (m * m - 2 * c * zm) (KZ w + / 2) (- w)); [lra|]. intros b B1 B2.
  pose proof (@KZ_mono (- b) w ltac:(lra) ltac:(lra) ltac:(lra)) as Q. assert (KB : - / 2 - m * m * - b - c * (- b * - b - 2 * zm * - b) <= KZ (- b)).
  { unfold KZ, AZ. destruct (Rle_dec 1 (- b)); [lra|]. destruct (Rle_dec (- b) (-1)); [lra|]. pose proof (A_ge (g (- b))). lra. }
  lra.
Qed.
Lemma KZ_lt x y : -1 <= x -> x < y -> y <= 1 -> KZ x < KZ y.
Proof.
  intros X L Y. set (a := (2 * x + y) / 3). set (b := (x + 2 * y) / 3). assert (H : -1 < a /\ x < a /\ a < b /\ b < y /\ b < 1) by (unfold a, b; lra).
  apply Rle_lt_trans with (KZ a); [|apply Rlt_le_trans with (KZ b)].
  - destruct (Req_dec x (-1)) as [->|N]; [apply KZ_low; lra|left; apply KZ_mono; lra].
  - apply KZ_mono; lra.
  - destruct (Req_dec y 1) as [->|N]; [apply KZ_high; lra|left; apply KZ_mono; lra].
Qed.
End Cell.

Section Quantiles.
Variable g : R -> R.
Hypothesis Hg : is_erfinv g.
Let V : forall z, -1 < z < 1 -> erf (g z) = z. Proof. now apply is_erfinv_erf. Qed.

Lemma cell_lt za zb : -1 <= za -> za < zb -> zb <= 1 -> let u := g ((za + zb) / 2) in u * u * (zb - za) < AZ g zb - AZ g za.
Proof. intros A B C u. pose proof (@KZ_lt g Hg u za zb A B C) as K. unfold KZ in K. assert (Eu : erf u = (za + zb) / 2) by (apply V; lra). rewrite Eu in K. set (d := u / erf' u) in K. nra. Qed.

Definition q_ (n j : nat) : R := g (INR (2 * j + 1) / INR n - 1).
Definition edge (n j : nat) : R := 2 * INR j / INR n - 1.
Lemma inr_pos n : n <> 0%nat -> 0 < INR n. Proof. intros. apply lt_0_INR. lia. Qed.
Lemma q_edge n j : n <> 0%nat -> q_ n j = g ((edge n j + edge n (S j)) / 2).
Proof. intros H. apply inr_pos in H. unfold q_, edge. f_equal. rewrite (S_INR j), plus_INR, mult_INR. simpl (INR 2). simpl (INR 1). field. lra. Qed.
Lemma edge_width n j : n <> 0%nat -> edge n (S j) - edge n j = 2 / INR n.
Proof. intros H. apply inr_pos in H. unfold edge. rewrite S_INR. field. lra. Qed.
Lemma edge_low n j : n <> 0%nat -> -1 <= edge n j.
Proof. intros H. apply inr_pos in H. unfold edge. assert (0 <= 2 * INR j / INR n); [|lra]. apply Rmult_le_pos; [pose proof (pos_INR j); lra|left; now apply Rinv_0_lt_compat]. Qed.
Lemma edge_high n j : n <> 0%nat -> (j <= n)%nat -> edge n j <= 1.
Proof. intros H L. apply inr_pos in H. apply le_INR in L. unfold edge. assert (2 * INR j / INR n <= 2); [|lra]. apply Rmult_le_reg_r with (INR n); auto. unfold Rdiv. rewrite Rmult_assoc, Rinv_l by lra. lra. Qed.
Lemma edge_0 n : n <> 0%nat -> edge n 0 = -1. Proof. intros H. apply inr_pos in H. unfold edge. simpl. field. lra. Qed.
Lemma edge_n n : n <> 0%nat -> edge n n = 1. Proof. intros H. apply inr_pos in H. unfold edge. field. lra. Qed.
Lemma width_pos n : n <> 0%nat -> 0 < 2 / INR n. Proof. intros H. apply inr_pos in H. apply Rdiv_lt_0_compat; lra. Qed.
(** the mean square of the quantiles stays below one half *)
Lemma square_below n : n <> 0%nat -> rs n (fun j => q_ n j * q_ n j) < INR n / 2.
Proof.
  intros H. pose proof (inr_pos H) as P. pose proof (width_pos H) as W.
  assert (X : rs n (fun j => 2 / INR n * (q_ n j * q_ n j)) < rs n (fun j => AZ g (edge n (S j)) - AZ g (edge n j))).
  { apply rs_lt; auto. intros j Hj. pose proof (edge_width j H) as E. assert (L : edge n j < edge n (S j)) by lra. assert (Hi : edge n (S j) <= 1) by (apply edge_high; auto). pose proof (@cell_lt (edge n j) (edge n (S j)) (edge_low j H) L Hi) as C. cbv zeta in C. rewrite <- q_edge, E in C by auto. lra. }
  rewrite rs_scal, (rs_tele (fun j => AZ g (edge n j))), edge_0, edge_n in X by auto. assert (Y : AZ g 1 - AZ g (-1) = 1).
  { unfold AZ. destruct (Rle_dec 1 1); [|lra]. destruct (Rle_dec 1 (-1)); [lra|]. destruct (Rle_dec (-1) (-1)); lra. }
  rewrite Y in X. apply Rmult_lt_compat_l with (r := INR n) in X; auto. replace (INR n * (2 / INR n * rs n (fun j => q_ n j * q_ n j))) with (2 * rs n (fun j => q_ n j * q_ n j)) in X by (field; lra). lra.
Qed.

(** ---- from below ---- *)
Lemma A_upper a b : 0 <= a -> a <= b -> A_ b - A_ a <= b * b * (erf b - erf a).
Proof.
  intros H L. destruct (Req_dec a b) as [->|N]; [lra|].
  destruct (MVT_cor2 (fun u => b * b * erf u - A_ u) (fun u => b * b * erf' u - u * u * erf' u) a b ltac:(lra)) as (d & X & D).
  { intros u _. apply (derivable_pt_lim_minus (fun u => b * b * erf u) A_); [apply (derivable_pt_lim_scal erf), erf_deriv|apply A_deriv]. }
  pose proof (erf'_pos d). assert (0 <= (b * b - d * d) * erf' d) by (apply Rmult_le_pos; nra). nra.
Qed.
Lemma A_upper_z x y : 0 <= x -> x <= y -> y < 1 -> A_ (g y) - A_ (g x) <= g y * g y * (y - x).
Proof.
  intros X L Y. assert (G0 : 0 <= g x) by (destruct (Req_dec x 0) as [->|N]; [rewrite (inv_0 Hg); lra|left; apply (inv_pos Hg); lra]).
  assert (G1 : g x <= g y) by (destruct (Req_dec x y) as [->|N]; [lra|left; apply (inv_mono Hg); lra]). pose proof (A_upper G0 G1) as K. rewrite !V in K by lra. exact K.
Qed.
Lemma g_odd z : -1 < z < 1 -> g (- z) = - g z.
Proof. intros H. apply erf_inj. rewrite erf_odd, !V by lra. reflexivity. Qed.
(** both ends moved by w / 2 towards the middle *)
Definition shrink (w z : R) : R := Rmax 0 (z - w / 2) + Rmin 0 (z + w / 2).
Lemma shrink_high w z : 0 <= w -> 0 <= z -> shrink w z = Rmax 0 (z - w / 2).
Proof. intros. unfold shrink. rewrite (Rmin_left 0) by lra. ring. Qed.
Lemma shrink_odd w z : shrink w (- z) = - shrink w z.
Proof. unfold shrink, Rmax, Rmin. repeat destruct (Rle_dec _ _); lra. Qed.
Lemma cell_ge_high za zb : 0 <= za -> za < zb -> zb <= 1 -> let u := g ((za + zb) / 2) in A_ (g (shrink (zb - za) zb)) - A_ (g (shrink (zb - za) za)) <= u * u * (zb - za).
Proof.
  intros A B C u. rewrite !shrink_high by lra. rewrite (Rmax_right 0 (zb - _)) by lra. replace (zb - (zb - za) / 2) with ((za + zb) / 2) by field. fold u.
  set (x := Rmax 0 (za - (zb - za) / 2)). assert (X : 0 <= x /\ (za + zb) / 2 - x <= zb - za /\ x <= (za + zb) / 2) by (unfold x, Rmax; destruct (Rle_dec _ _); lra).
  pose proof (@A_upper_z x ((za + zb) / 2) ltac:(lra) ltac:(lra) ltac:(lra)) as K. fold u in K. nra.
Qed.
Lemma cell_ge_low za zb : -1 <= za -> za < zb -> zb <= 0 -> let u := g ((za + zb) / 2) in A_ (g (shrink (zb - za) zb)) - A_ (g (shrink (zb - za) za)) <= u * u * (zb - za).
Proof.
  intros A B C u. pose proof (@cell_ge_high (- zb) (- za) ltac:(lra) ltac:(lra) ltac:(lra)) as K. cbv zeta in K. replace (- za - - zb) with (zb - za) in K by ring.
  replace ((- zb + - za) / 2) with (- ((za + zb) / 2)) in K by field. rewrite !shrink_odd in K.
  assert (S1 : -1 < shrink (zb - za) za < 1) by (unfold shrink, Rmax, Rmin; repeat destruct (Rle_dec _ _); lra). assert (S2 : -1 < shrink (zb - za) zb < 1) by (unfold shrink, Rmax, Rmin; repeat destruct (Rle_dec _ _); lra).
  rewrite !g_odd, !A_odd in K by lra. fold u in K. lra.
Qed.
Lemma cell_ge_mid za zb : -1 <= za -> za < 0 -> zb = - za -> let u := g ((za + zb) / 2) in A_ (g (shrink (zb - za) zb)) - A_ (g (shrink (zb - za) za)) <= u * u * (zb - za).
Proof.
  intros A B E u. assert (S1 : shrink (zb - za) za = 0) by (unfold shrink, Rmax, Rmin; repeat destruct (Rle_dec _ _); lra). assert (S2 : shrink (zb - za) zb = 0) by (unfold shrink, Rmax, Rmin; repeat destruct (Rle_dec _ _); lra).
  rewrite S1, S2. assert (0 <= u * u * (zb - za)) by (apply Rmult_le_pos; nra). lra.
Qed.
Lemma square_above n : n <> 0%nat -> n <> 1%nat -> INR n * A_ (g (1 - / INR n)) <= rs n (fun j => q_ n j * q_ n j).
Proof.
  intros H H1. pose proof (inr_pos H) as P. pose proof (width_pos H) as W. set (w := 2 / INR n) in *. assert (H2 : 2 <= INR n) by (apply (le_INR 2); lia).
  assert (X : rs n (fun j => A_ (g (shrink w (edge n (S j)))) - A_ (g (shrink w (edge n j)))) <= rs n (fun j => w * (q_ n j * q_ n j))).
  { apply rs_le. intros j Hj. pose proof (edge_width j H) as E. fold w in E. rewrite q_edge by auto. rewrite (Rmult_comm w). rewrite <- E.
    pose proof (edge_low j H). pose proof (@edge_high n (S j) H ltac:(lia)).
    assert (T : 0 <= edge n j \/ edge n (S j) <= 0 \/ edge n (S j) = - edge n j).
    { unfold edge. destruct (Nat.lt_trichotomy (2 * j + 1) n) as [L|[L|L]].
      - right; left. assert (L' : (2 * S j <= n)%nat) by lia. apply le_INR in L'. rewrite mult_INR in L'. simpl (INR 2) in L'. assert (2 * INR (S j) / INR n <= 1); [|lra]. apply Rmult_le_reg_r with (INR n); auto. unfold Rdiv. rewrite Rmult_assoc, Rinv_l by lra. lra.
      - right; right. rewrite <- L, (S_INR j), plus_INR, mult_INR. simpl (INR 2). simpl (INR 1). pose proof (pos_INR j). field. lra.
      - left. assert (L' : (n <= 2 * j)%nat) by lia. apply le_INR in L'. rewrite mult_INR in L'. simpl (INR 2) in L'. assert (1 <= 2 * INR j / INR n); [|lra]. apply Rmult_le_reg_r with (INR n); auto. unfold Rdiv. rewrite Rmult_assoc, Rinv_l by lra. lra. }
    destruct T as [T|[T|T]]; [apply cell_ge_high|apply cell_ge_low|apply cell_ge_mid]; lra. }
  rewrite rs_scal, (rs_tele (fun j => A_ (g (shrink w (edge n j))))), edge_0, edge_n in X by auto. assert (W1 : w <= 1) by (unfold w; apply Rmult_le_reg_r with (INR n); auto; unfold Rdiv; rewrite Rmult_assoc, Rinv_l by lra; lra).
  replace (-1) with (- (1)) in X by ring. rewrite shrink_odd in X. rewrite (@shrink_high w 1) in X by lra. rewrite Rmax_right in X by lra. replace (w / 2) with (/ INR n) in X by (unfold w; field; lra).
  assert (R1 : 0 < / INR n <= / 2) by (split; [now apply Rinv_0_lt_compat|apply Rinv_le_contravar; lra]). rewrite g_odd, A_odd in X by lra.
  apply Rmult_le_compat_l with (r := INR n) in X; [|lra]. unfold w in X. replace (INR n * (2 / INR n * rs n (fun j => q_ n j * q_ n j))) with (2 * rs n (fun j => q_ n j * q_ n j)) in X by (field; lra). lra.
Qed.
Lemma square_limit eps : 0 < eps -> exists N, forall n, (N <= n)%nat -> INR n * (1 - eps) / 2 <= rs n (fun j => q_ n j * q_ n j).
Proof.
  intros He. set (U := Rmax 1 (4 / eps)). assert (U1 : 1 <= U) by apply Rmax_l. assert (U2 : 4 / eps <= U) by apply Rmax_r. pose proof (erf_range U) as EU.
  set (B := Rmax (/ (1 - erf U)) (2 / eps)). destruct (nat_above B) as [N HN]. exists (N + 2)%nat. intros n Hn.
  assert (Nn : B < INR n) by (eapply Rlt_le_trans; [apply HN|apply le_INR; lia]). assert (B1 : / (1 - erf U) <= B) by apply Rmax_l. assert (B2 : 2 / eps <= B) by apply Rmax_r.
  assert (H : n <> 0%nat) by lia. pose proof (inr_pos H) as P. assert (H2 : 2 <= INR n) by (apply (le_INR 2); lia).
  assert (I1 : / INR n <= 1 - erf U). { rewrite <- (Rinv_inv (1 - erf U)). apply Rinv_le_contravar; [apply Rinv_0_lt_compat; lra|lra]. }
  assert (I2 : / INR n <= eps / 2). { replace (eps / 2) with (/ (2 / eps)) by (field; lra). apply Rinv_le_contravar; [apply Rdiv_lt_0_compat; lra|lra]. }
  assert (I3 : 0 < / INR n <= / 2) by (split; [now apply Rinv_0_lt_compat|apply Rinv_le_contravar; lra]).
  eapply Rle_trans; [|apply square_above; lia]. unfold Rdiv. rewrite Rmult_assoc. apply Rmult_le_compat_l; [lra|]. set (u := g (1 - / INR n)). assert (Eu : erf u = 1 - / INR n) by (unfold u; apply V; lra).
  assert (Uu : U <= u). { destruct (Rle_dec U u) as [|C]; auto. assert (L : u < U) by lra. apply erf_mono in L. lra. }
  assert (Q : u * erf' u <= eps / 2).
  { unfold erf'. pose proof (@exp_neg_le (u * u) ltac:(nra)) as X. assert (Y : u * / (1 + u * u) <= / u).
    { apply Rmult_le_reg_r with (u * (1 + u * u)); [nra|]. field_simplify; [nra|lra|nra]. }
    assert (Z : / u <= eps / 4). { replace (eps / 4) with (/ (4 / eps)) by (field; lra). apply Rinv_le_contravar; [apply Rdiv_lt_0_compat; lra|lra]. }
    assert (F2 : 2 / sqrt PI <= 2). { pose proof pi_3. assert (1 <= sqrt PI) by (rewrite <- sqrt_1; apply sqrt_le_1; lra). apply Rmult_le_reg_r with (sqrt PI); [lra|]. unfold Rdiv. rewrite Rmult_assoc, Rinv_l by lra. lra. }
    pose proof fac_pos. assert (E0 : 0 < exp (- (u * u))) by apply exp_pos. assert (u * exp (- (u * u)) <= / u) by (eapply Rle_trans; [|exact Y]; apply Rmult_le_compat_l; lra).
    assert (0 < u * exp (- (u * u))) by nra. replace (u * (2 / sqrt PI * exp (- (u * u)))) with (2 / sqrt PI * (u * exp (- (u * u)))) by ring. nra. }
  unfold A_. rewrite Eu. lra.
Qed.
End Quantiles.
