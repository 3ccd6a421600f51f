(** The integral of exp(-x^2): primitives of continuous functions, the error function and its inverse. *)
Require Import Reals Lra Lia.
From Verif Require Import S_Gauss.
Local Open Scope R_scope.
Set Implicit Arguments.

(** ---- primitives ---- *)
Lemma deriv_const_eq (f g : R -> R) (f' : R -> R) a b : (forall x, derivable_pt_lim f x (f' x)) -> (forall x, derivable_pt_lim g x (f' x)) -> f b - f a = g b - g a.
Proof.
  intros Hf Hg. assert (D : forall x, derivable_pt_lim (f - g)%F x (f' x - f' x)) by (intros x; now apply derivable_pt_lim_minus).
  assert (G : forall a b, a < b -> (f b - g b = f a - g a)).
  { intros x y H. destruct (MVT_cor2 (f - g)%F (fun x => f' x - f' x) x y H (fun c _ => D c)) as (c & E & _). unfold minus_fct in E. lra. }
  destruct (Rtotal_order a b) as [H|[H|H]]; [pose proof (G a b H); lra|subst; lra|pose proof (G b a H); lra].
Qed.
Section Prim.
Variables (f : R -> R) (C : continuity f).
Lemma ri_exists a b : Riemann_integrable f a b.
Proof. destruct (Rle_dec a b) as [H|H]; [apply continuity_implies_RiemannInt; auto|]. apply RiemannInt_P1. apply continuity_implies_RiemannInt; auto. lra. Qed.
Definition prim (x : R) : R := RiemannInt (ri_exists 0 x).
Lemma prim_0 : prim 0 = 0.
Proof. apply RiemannInt_P9. Qed.
Lemma prim_diff a b (pr : Riemann_integrable f a b) : RiemannInt pr = prim b - prim a.
Proof. unfold prim. rewrite <- (RiemannInt_P26 (ri_exists 0 a) pr (ri_exists 0 b)). ring. Qed.
Lemma prim_deriv x : derivable_pt_lim prim x (f x).
Proof.
  set (a := x - 1). set (b := x + 1). assert (H : a <= b) by (unfold a, b; lra).
  pose proof (@RiemannInt_P27 f a b x H (fun y _ => C y) ltac:(unfold a, b; lra)) as D.
  intros eps Heps. destruct (D eps Heps) as [d Hd]. assert (P : 0 < Rmin d 1) by (apply Rmin_pos; [apply cond_pos|lra]). exists (mkposreal _ P). intros h Hh Hh'. cbn in Hh'.
  assert (Hd' : Rabs h < d) by (eapply Rlt_le_trans; [exact Hh'|apply Rmin_l]). assert (H1 : Rabs h < 1) by (eapply Rlt_le_trans; [exact Hh'|apply Rmin_r]). specialize (Hd h Hh Hd'). apply Rabs_def2 in H1.
  assert (E : forall y, a <= y <= b -> primitive H (FTC_P1 H (fun y (_ : a <= y <= b) => C y)) y = prim y - prim a).
  { intros y [A B]. unfold primitive. destruct (Rle_dec a y); [|lra]. destruct (Rle_dec y b); [|lra]. apply prim_diff. }
  rewrite !E in Hd by (unfold a, b; lra). now replace (prim (x + h) - prim x) with (prim (x + h) - prim a - (prim x - prim a)) by ring.
Qed.
End Prim.
Lemma deriv_cont (f f' : R -> R) : (forall x, derivable_pt_lim f x (f' x)) -> continuity f.
Proof. intros H x. apply derivable_continuous_pt. exists (f' x). apply H. Qed.
(** integrals by primitives *)
Lemma integral_of (f F : R -> R) a b v : continuity f -> (forall x, derivable_pt_lim F x (f x)) -> integral f a b v <-> v = F b - F a.
Proof.
  intros C D. split.
  - intros [pr <-]. rewrite (prim_diff C). apply deriv_const_eq with (f' := f); auto. apply prim_deriv.
  - intros ->. exists (ri_exists C a b). rewrite (prim_diff C). apply deriv_const_eq with (f' := f); auto. apply prim_deriv.
Qed.
Lemma mvt_bound (f f' : R -> R) a b K : a <= b -> (forall x, a <= x <= b -> derivable_pt_lim f x (f' x)) -> (forall x, a <= x <= b -> Rabs (f' x) <= K) -> Rabs (f b - f a) <= K * (b - a).
Proof.
  intros H D B. destruct (Req_dec a b) as [->|N]; [replace (f b - f b) with 0 by ring; rewrite Rabs_R0; lra|].
  destruct (MVT_cor2 f f' a b ltac:(lra) D) as (c & E & Hc). rewrite E, Rabs_mult, (Rabs_right (b - a)) by lra. apply Rmult_le_compat_r; [lra|]. apply B. lra.
Qed.
Lemma mvt_pos (f f' : R -> R) a b : a <= b -> (forall x, a <= x <= b -> derivable_pt_lim f x (f' x)) -> (forall x, a <= x <= b -> 0 <= f' x) -> f a <= f b.
Proof.
  intros H D B. destruct (Req_dec a b) as [->|N]; [lra|]. destruct (MVT_cor2 f f' a b ltac:(lra) D) as (c & E & Hc). assert (0 <= f' c) by (apply B; lra). nra.
Qed.

(** ---- exp(-x^2) ---- *)
Definition bell (x : R) : R := exp (- (x * x)).
Lemma dl_eq f x l l' : derivable_pt_lim f x l -> l = l' -> derivable_pt_lim f x l'.
Proof. now intros H <-. Qed.
Lemma dl_ext (f g : R -> R) x l : (forall y, f y = g y) -> derivable_pt_lim f x l -> derivable_pt_lim g x l.
Proof. intros E H eps He. destruct (H eps He) as [d Hd]. exists d. intros h H1 H2. rewrite <- !E. auto. Qed.
Lemma dl_exp (g : R -> R) x g' : derivable_pt_lim g x g' -> derivable_pt_lim (fun y => exp (g y)) x (exp (g x) * g').
Proof. intros H. apply (derivable_pt_lim_comp g exp); auto. apply derivable_pt_lim_exp. Qed.
Lemma dl_lin (a b x : R) : derivable_pt_lim (fun y => a * y + b) x a.
Proof.
  apply dl_eq with (l := a * 1 + 0); [|ring]. apply (derivable_pt_lim_plus (fun y => a * y) (fun _ => b)); [apply (derivable_pt_lim_scal (fun y => y)); apply derivable_pt_lim_id|apply derivable_pt_lim_const].
Qed.
Lemma dl_sq (x : R) : derivable_pt_lim (fun y => y * y) x (2 * x).
Proof. apply dl_eq with (l := 1 * x + x * 1); [|ring]. apply (derivable_pt_lim_mult (fun y => y) (fun y => y)); apply derivable_pt_lim_id. Qed.
Lemma bell_deriv x : derivable_pt_lim bell x (- 2 * x * bell x).
Proof. unfold bell. apply dl_eq with (l := exp (- (x * x)) * (- (2 * x))); [|ring]. apply dl_exp with (g := fun y => - (y * y)). apply (derivable_pt_lim_opp (fun y => y * y)). apply dl_sq. Qed.
Lemma bell_cont : continuity bell.
Proof. apply deriv_cont with (f' := fun x => - 2 * x * bell x). apply bell_deriv. Qed.
Lemma bell_pos x : 0 < bell x. Proof. apply exp_pos. Qed.

(** E t is the integral of exp(-x^2) from 0 to t *)
Definition E_ : R -> R := prim bell_cont.
Lemma E_deriv x : derivable_pt_lim E_ x (bell x). Proof. apply prim_deriv. Qed.
Lemma E_0 : E_ 0 = 0. Proof. apply prim_0. Qed.

(** exp(-s (1 + x^2)) / (1 + x^2) and exp(-s (1 + x^2)) *)
Definition q (s x : R) : R := exp (- s * (1 + x * x)) / (1 + x * x).
Definition r (s x : R) : R := exp (- s * (1 + x * x)).
Lemma den x : 1 <= 1 + x * x. Proof. nra. Qed.
Lemma r_deriv s x : derivable_pt_lim (r s) x (r s x * (- s * (2 * x))).
Proof.
  unfold r. apply dl_exp with (g := fun y => - s * (1 + y * y)). apply (derivable_pt_lim_scal (fun y => 1 + y * y)).
  apply dl_eq with (l := 0 + 2 * x); [|ring]. apply (derivable_pt_lim_plus (fun _ => 1) (fun y => y * y)); [apply derivable_pt_lim_const|apply dl_sq].
Qed.
Lemma r_cont s : continuity (r s).
Proof. apply deriv_cont with (f' := fun x => r s x * (- s * (2 * x))). apply r_deriv. Qed.
Lemma q_cont s : continuity (q s).
Proof.
  intros x. apply (continuity_pt_div (r s) (fun y => 1 + y * y)); [apply r_cont| |pose proof (den x); lra].
  apply derivable_continuous_pt. exists (0 + 2 * x). apply (derivable_pt_lim_plus (fun _ => 1) (fun y => y * y)); [apply derivable_pt_lim_const|apply dl_sq].
Qed.
Definition G_ (s : R) : R := prim (@q_cont s) 1.
Definition D_ (s : R) : R := prim (@r_cont s) 1.

Lemma exp_quad y : Rabs y <= 1 / 2 -> Rabs (exp y - 1 - y) <= 2 * (y * y).
Proof.
  intros H. pose proof (exp_ineq1_le y) as L. pose proof (exp_ineq1_le (- y)) as L'. pose proof (exp_pos y) as P.
  assert (H' : - (1 / 2) <= y <= 1 / 2) by (destruct (Rcase_abs y) as [N|N]; [rewrite Rabs_left in H by auto|rewrite Rabs_right in H by auto]; lra).
  assert (U : exp y * (1 - y) <= 1). { apply Rle_trans with (exp y * exp (- y)); [apply Rmult_le_compat_l; lra|]. rewrite <- exp_plus. replace (y + - y) with 0 by ring. rewrite exp_0. lra. }
  apply Rabs_le. split; [nra|]. assert (exp y <= 1 + y + 2 * (y * y)); [|lra].
  apply Rmult_le_reg_r with (1 - y); [lra|]. nra.
Qed.
Lemma G_deriv s : 0 <= s -> derivable_pt_lim G_ s (- D_ s).
Proof.
  intros Hs. assert (B : forall h, Rabs h <= 1 / 4 -> Rabs (G_ (s + h) - G_ s + h * D_ s) <= 4 * (h * h)).
  { intros h Hh. set (K := fun x => prim (@q_cont (s + h)) x - prim (@q_cont s) x + h * prim (@r_cont s) x).
    assert (DK : forall x, derivable_pt_lim K x (q (s + h) x - q s x + h * r s x)).
    { intros x. apply (derivable_pt_lim_plus (fun x => prim (@q_cont (s + h)) x - prim (@q_cont s) x) (fun x => h * prim (@r_cont s) x)); [apply (derivable_pt_lim_minus (prim (@q_cont (s + h))) (prim (@q_cont s))); apply prim_deriv|apply (derivable_pt_lim_scal (prim (@r_cont s))); apply prim_deriv]. }
    assert (K0 : K 0 = 0) by (unfold K; rewrite !prim_0; ring). replace (G_ (s + h) - G_ s + h * D_ s) with (K 1 - K 0) by (rewrite K0; unfold K, G_, D_; ring).
    replace (4 * (h * h)) with (4 * (h * h) * (1 - 0)) by ring. apply mvt_bound with (f' := fun x => q (s + h) x - q s x + h * r s x); [lra|auto|]. intros x Hx.
    unfold q, r. set (a := 1 + x * x). assert (Ha : 1 <= a <= 2) by (unfold a; nra).
    replace (- (s + h) * a) with (- s * a + - h * a) by ring. rewrite exp_plus. set (e := exp (- s * a)).
    assert (He : 0 < e <= 1). { unfold e. split; [apply exp_pos|]. rewrite <- exp_0. destruct (Req_dec (- s * a) 0) as [->|N]; [lra|]. left. apply exp_increasing. nra. }
    assert (Y : Rabs (exp (- h * a) - 1 - - h * a) <= 2 * ((- h * a) * (- h * a))).
    { apply exp_quad. rewrite Rabs_mult, Rabs_Ropp, (Rabs_right a) by lra. pose proof (Rabs_pos h). nra. }
    replace (e * exp (- h * a) / a - e / a + h * e) with (e / a * (exp (- h * a) - 1 - - h * a)) by (field; lra).
    rewrite Rabs_mult, (Rabs_right (e / a)) by (apply Rle_ge, Rlt_le, Rdiv_lt_0_compat; lra).
    eapply Rle_trans; [apply Rmult_le_compat_l; [apply Rlt_le, Rdiv_lt_0_compat; lra|exact Y]|].
    replace (e / a * (2 * (- h * a * (- h * a)))) with (2 * (e * a) * (h * h)) by (field; lra). apply Rmult_le_compat_r; [nra|]. nra. }
  intros eps He. assert (P : 0 < Rmin (1 / 4) (eps / 8)) by (apply Rmin_pos; lra). exists (mkposreal _ P). intros h Hh Hh'. cbn in Hh'.
  assert (H1 : Rabs h <= 1 / 4) by (apply Rlt_le; eapply Rlt_le_trans; [exact Hh'|apply Rmin_l]). assert (H2 : Rabs h < eps / 8) by (eapply Rlt_le_trans; [exact Hh'|apply Rmin_r]).
  specialize (B h H1). replace ((G_ (s + h) - G_ s) / h - - D_ s) with ((G_ (s + h) - G_ s + h * D_ s) / h) by (field; auto).
  unfold Rdiv. rewrite Rabs_mult, Rabs_inv. apply Rmult_lt_reg_r with (Rabs h); [now apply Rabs_pos_lt|]. rewrite Rmult_assoc, Rinv_l by (now apply Rabs_no_R0). rewrite Rmult_1_r.
  eapply Rle_lt_trans; [exact B|]. assert (Q : h * h = Rabs h * Rabs h) by (rewrite <- Rabs_mult; symmetry; apply Rabs_right; nra). rewrite Q. pose proof (Rabs_pos_lt h Hh). nra.
Qed.
Lemma D_E t : 2 * t * D_ (t * t) = 2 * bell t * E_ t.
Proof.
  assert (H : t * D_ (t * t) = bell t * E_ t); [|lra]. unfold D_.
  assert (D1 : forall x, derivable_pt_lim (fun x => t * prim (@r_cont (t * t)) x) x (t * r (t * t) x)) by (intros x; apply (derivable_pt_lim_scal (prim (@r_cont (t * t)))); apply prim_deriv).
  assert (D2 : forall x, derivable_pt_lim (fun x => bell t * E_ (t * x + 0)) x (t * r (t * t) x)).
  { intros x. apply dl_eq with (l := bell t * (bell (t * x + 0) * t)).
    - apply (derivable_pt_lim_scal (fun x => E_ (t * x + 0))). apply (derivable_pt_lim_comp (fun x => t * x + 0) E_); [apply dl_lin|apply E_deriv].
    - unfold bell, r. replace (- (t * t) * (1 + x * x)) with (- (t * t) + - ((t * x + 0) * (t * x + 0))) by ring. rewrite exp_plus. ring. }
  pose proof (@deriv_const_eq _ _ _ 0 1 D1 D2) as X. cbv beta in X. rewrite prim_0 in X. replace (t * 0 + 0) with 0 in X by ring. replace (t * 1 + 0) with t in X by ring. rewrite E_0 in X. lra.
Qed.
Lemma G_0 : G_ 0 = PI / 4.
Proof.
  unfold G_. assert (D1 : forall x, derivable_pt_lim (prim (@q_cont 0)) x (q 0 x)) by (intros; apply prim_deriv).
  assert (D2 : forall x, derivable_pt_lim atan x (q 0 x)).
  { intros x. apply dl_eq with (l := / (1 + x ^ 2)); [apply derivable_pt_lim_atan|]. unfold q. replace (- 0 * (1 + x * x)) with 0 by ring. rewrite exp_0. replace (x ^ 2) with (x * x) by ring. field. pose proof (den x). lra. }
  pose proof (@deriv_const_eq _ _ _ 0 1 D1 D2) as X. rewrite prim_0, atan_0, atan_1 in X. lra.
Qed.
Lemma square_sum t : E_ t * E_ t + G_ (t * t) = PI / 4.
Proof.
  assert (D : forall x, derivable_pt_lim (fun t => E_ t * E_ t + G_ (t * t)) x 0).
  { intros x. apply dl_eq with (l := (bell x * E_ x + E_ x * bell x) + (- D_ (x * x)) * (2 * x)).
    - apply (derivable_pt_lim_plus (fun t => E_ t * E_ t) (fun t => G_ (t * t))).
      + apply (derivable_pt_lim_mult E_ E_); apply E_deriv.
      + apply (derivable_pt_lim_comp (fun t => t * t) G_); [apply dl_sq|]. apply G_deriv. nra.
    - pose proof (D_E x). lra. }
  pose proof (@deriv_const_eq _ (fun _ => PI / 4) _ 0 t D (fun x => derivable_pt_lim_const (PI / 4) x)) as X. cbv beta in X. rewrite E_0 in X. replace (0 * 0) with 0 in X by ring. rewrite G_0 in X. lra.
Qed.
Lemma G_bound s : 0 <= s -> 0 <= G_ s <= exp (- s).
Proof.
  intros Hs. unfold G_. assert (B : forall x, 0 <= x <= 1 -> 0 <= q s x <= exp (- s)).
  { intros x Hx. unfold q. pose proof (den x). pose proof (exp_pos (- s * (1 + x * x))). split; [apply Rlt_le, Rdiv_lt_0_compat; lra|].
    apply Rmult_le_reg_r with (1 + x * x); [lra|]. unfold Rdiv. rewrite Rmult_assoc, Rinv_l by lra. rewrite Rmult_1_r. pose proof (exp_pos (- s)).
    assert (exp (- s * (1 + x * x)) <= exp (- s)); [|nra]. destruct (Req_dec (- s * (1 + x * x)) (- s)) as [->|N]; [lra|]. left. apply exp_increasing. nra. }
  rewrite <- (prim_0 (@q_cont s)). split.
  - apply mvt_pos with (f' := q s); [lra|intros; apply prim_deriv|intros; now apply B].
  - replace (exp (- s)) with (prim (@q_cont s) 0 + exp (- s) * (1 - 0)) by (rewrite prim_0; ring).
    assert (X : Rabs (prim (@q_cont s) 1 - prim (@q_cont s) 0) <= exp (- s) * (1 - 0)).
    { apply mvt_bound with (f' := q s); [lra|intros; apply prim_deriv|]. intros x Hx. rewrite Rabs_right; [now apply B|]. apply Rle_ge. now apply B. }
    pose proof (Rle_abs (prim (@q_cont s) 1 - prim (@q_cont s) 0)). lra.
Qed.
