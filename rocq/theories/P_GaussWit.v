(** Concrete cases for C85. *)
Require Import List Arith Reals Lra Lia ZArith.
From Verif Require Import LibBase LibRing LibArr LibCplx M_Noise S_Noise P_Noise P_NoiseStd S_Gauss LibGauss LibGauss2 P_Gauss M_Bell P_Gauss2 P_Gauss3.
Import ListNotations.
Local Open Scope R_scope.
Set Implicit Arguments.
Local Notation RF := RField.

Lemma two_samples g : is_erfinv g -> 0 < sqrt 2 * g (1 / 2) < 1.
Proof.
  intros H. pose proof (@square_below g H 2 ltac:(lia)) as B. cbn [add_up] in B. unfold q_ in B. change (INR 2) with 2 in B. change (INR (2 * 0 + 1)) with 1 in B. change (INR (2 * 1 + 1)) with (2 + 1) in B.
  replace (1 / 2 - 1) with (- (1 / 2)) in B by field. replace ((2 + 1) / 2 - 1) with (1 / 2) in B by field. rewrite (@g_odd g H) in B by lra. pose proof (@inv_pos g H (1 / 2) ltac:(lra) ltac:(lra)) as P. pose proof sqrt2_pos. pose proof sqrt2_sq. set (x := g (1 / 2)) in *. assert (X : x * x < 1 / 2) by lra. split; [nra|]. assert (Y : sqrt 2 * x * (sqrt 2 * x) < 1) by (replace (sqrt 2 * x * (sqrt 2 * x)) with (sqrt 2 * sqrt 2 * (x * x)) by ring; rewrite sqrt2_sq; lra). nra.
Qed.
Lemma case_samples : exists g l s, is_erfinv g /\ gauss (F:=RF) g (sqrt 2) 3 5 7 = Ok l /\ is_std (F:=RF) 5 (fun j => nth j l 0) s /\ (forall a, exists v, integral (normal_density 3 7) (- a) (nth 0 l 0) v).
Proof.
  exists erfinv. pose proof (@gauss_ok RF erfinv (sqrt 2) 3 5 7 ltac:(lia)) as E. eexists. exists (np_std (F:=RF) sqrt (map (fun j => sample (F:=RF) erfinv (sqrt 2) 3 7 5 j) (seq 0 5))). split; [apply erfinv_is|]. split; [exact E|]. split.
  - set (l := map (fun j => sample (F:=RF) erfinv (sqrt 2) 3 7 5 j) (seq 0 5)). change 5%nat with (length l) at 1. apply (@np_std_ok RF sqrt); [|discriminate]. intros x Hx. apply r_leb_le in Hx. split; [apply r_leb_le; apply sqrt_pos|now apply sqrt_sqrt].
  - intros a. eexists. apply density_integral; [lra|reflexivity].
Qed.
Lemma case_bell : exists f, (forall x, bell_curve_1dim x 2 = Ok (f x)) /\ forall a, exists v, integral f (- a) a v.
Proof.
  exists (fun x => bell1 x 2). split.
  - intros x. unfold bell_curve_1dim. destruct (Req_EM_T 2 0); [lra|reflexivity].
  - intros a. eexists. apply integral_of with (F := fun x => / sqrt (2 * PI) * Phi 2 0 x); [| |reflexivity].
    + intros x. assert (C : continuity_pt (mult_real_fct (/ sqrt (2 * PI)) (normal_density 2 0)) x) by (apply continuity_pt_scal, density_cont; lra). intros e He. destruct (C e He) as (d & D & Q). exists d. split; auto. intros y Hy. rewrite !bell1_density by lra. now apply Q.
    + intros x. rewrite bell1_density by lra. apply (derivable_pt_lim_scal (Phi 2 0)). apply Phi_deriv. lra.
Qed.
