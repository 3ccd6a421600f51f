(** Proofs for C87, part 3: phase control, the noise spectrum and random pulses. *)
Require Import List Arith Lia Bool Reals Lra ZArith.
From Verif Require Import LibBase LibRing LibArr LibCplx LibMat LibDeriv M_Matrix S_Linear S_Deriv M_Transfer M_Amplitude S_Amplitude P_Amplitude S_Gauss M_Rabi S_Rabi.
Import ListNotations.
Local Open Scope res_scope.
Set Implicit Arguments.

(** ---- phase control ---- *)
Section Phase.
Variable lin : R.
Lemma check_shape (m : nat) (x : RA) : wfa [m; 2] x -> Nat.eqb (rank x) 2 && Nat.eqb (dim0 x) m && Nat.eqb (dim1 x) 2 = true.
Proof. intros [E _]. unfold rank, dim0, dim1. rewrite E. cbn. rewrite Nat.eqb_refl. reflexivity. Qed.
Lemma phase_value m x : wfa [m; 2] x -> exists u, amp_call (phase_ctrl_amp_func lin m) x = Ok u /\ wfa [m; 2] u /\
  forall t, t < m -> get2 0%R u t 0 = (lin * get2 0%R x t 0 * cos (get2 0%R x t 1))%R /\ get2 0%R u t 1 = (lin * get2 0%R x t 0 * sin (get2 0%R x t 1))%R.
Proof.
  intros W. eexists. split; [cbn [amp_call phase_ctrl_amp_func]; unfold amp_func_phase_control; rewrite (check_shape W); reflexivity|]. split; [apply wfa_mk2|].
  intros t Ht. rewrite !get2_mk2 by lia. split; reflexivity.
Qed.
Lemma phase_correct m x : wfa [m; 2] x -> correct_derivative m 2 2 (phase_ctrl_amp_func lin m) x.
Proof.
  intros W. split.
  - intros y Wy. destruct (phase_value Wy) as (u & E & Wu & _). exists u. auto.
  - eexists. split; [unfold amp_func_deriv_phase_control; rewrite (check_shape W); reflexivity|]. split; [apply wfa_mk3|]. intros c v (C1 & C2 & C3) t k Ht Hk.
    apply derivable_pt_lim_ext with (fun s => if Nat.eqb k 0 then (lin * ent (c s) t 0 * cos (ent (c s) t 1))%R else (lin * ent (c s) t 0 * sin (ent (c s) t 1))%R).
    { intros s. destruct (phase_value (C2 s)) as (u & E & _ & V). cbn [amp_call phase_ctrl_amp_func] in E. rewrite E. destruct (V t Ht) as [V0 V1]. destruct k as [|[|k]]; [| |lia]; cbn [Nat.eqb]; unfold ent; [rewrite V0|rewrite V1]; reflexivity. }
    cbn [Rsum]. rewrite !get3_mk3 by lia.
    pose proof (C3 t 0%nat Ht ltac:(lia)) as D0. pose proof (C3 t 1%nat Ht ltac:(lia)) as D1.
    assert (X0 : ent (c 0%R) t 0 = get2 0%R x t 0) by (rewrite C1; reflexivity). assert (X1 : ent (c 0%R) t 1 = get2 0%R x t 1) by (rewrite C1; reflexivity).
    destruct k as [|[|k]]; [| |lia]; cbn [Nat.eqb].
    + match goal with |- derivable_pt_lim _ _ ?l => replace l with ((0 * ent (c 0%R) t 0 + lin * v t 0%nat) * cos (ent (c 0%R) t 1) + lin * ent (c 0%R) t 0 * (- sin (ent (c 0%R) t 1) * v t 1%nat))%R end; [|rewrite X0, X1; ring].
      apply (derivable_pt_lim_mult (fun s => lin * ent (c s) t 0)%R (fun s => cos (ent (c s) t 1))).
      * apply (derivable_pt_lim_mult (fun _ => lin) (fun s => ent (c s) t 0)); [apply derivable_pt_lim_const|exact D0].
      * apply (derivable_pt_lim_comp (fun s => ent (c s) t 1) cos); [exact D1|apply derivable_pt_lim_cos].
    + match goal with |- derivable_pt_lim _ _ ?l => replace l with ((0 * ent (c 0%R) t 0 + lin * v t 0%nat) * sin (ent (c 0%R) t 1) + lin * ent (c 0%R) t 0 * (cos (ent (c 0%R) t 1) * v t 1%nat))%R end; [|rewrite X0, X1; ring].
      apply (derivable_pt_lim_mult (fun s => lin * ent (c s) t 0)%R (fun s => sin (ent (c s) t 1))).
      * apply (derivable_pt_lim_mult (fun _ => lin) (fun s => ent (c s) t 0)); [apply derivable_pt_lim_const|exact D0].
      * apply (derivable_pt_lim_comp (fun s => ent (c s) t 1) sin); [exact D1|apply derivable_pt_lim_sin].
Qed.
Lemma lin_correct T P x : correct_derivative T P P (lin_amp_func lin) x.
Proof. split; auto. intros t p _ _. set (z := ent x t p). pose proof (derivable_pt_lim_scal id lin z 1 (derivable_pt_lim_id z)) as D. rewrite Rmult_1_r in D. exact D. Qed.
Lemma phase_gradient m nf (x u g : RA) (f : nat -> RA -> R) : 0 < m -> wfa [m; 2] x -> amp_call (phase_ctrl_amp_func lin m) x = Ok u -> wfa [m; nf; 2] g ->
  (forall k, k < nf -> has_gradient m 2 (f k) u (fun t c => get3 0%R g t k c)) ->
  exists d, amp_chain (phase_ctrl_amp_func lin m) g x = Ok d /\ wfa [m; nf; 2] d /\ forall k, k < nf -> has_gradient m 2 (after_amp (phase_ctrl_amp_func lin m) (f k)) x (fun t p => get3 0%R d t k p).
Proof. intros Hm W HU Wg HG. apply (@amplitude_chain_rule m 2 2 nf _ x u g f); auto. apply phase_correct; auto. Qed.
Lemma lin_gradient T P nf (x u g : RA) (f : nat -> RA -> R) : 0 < T -> 0 < P -> wfa [T; P] x -> amp_call (lin_amp_func lin) x = Ok u -> wfa [T; nf; P] g ->
  (forall k, k < nf -> has_gradient T P (f k) u (fun t c => get3 0%R g t k c)) ->
  exists d, amp_chain (lin_amp_func lin) g x = Ok d /\ wfa [T; nf; P] d /\ forall k, k < nf -> has_gradient T P (after_amp (lin_amp_func lin) (f k)) x (fun t p => get3 0%R d t k p).
Proof. intros HT HP W HU Wg HG. apply (@amplitude_chain_rule T P P nf _ x u g f); auto. apply lin_correct; auto. Qed.
Lemma phase_refuses m (x : RA) : shape x <> [m; 2] -> amp_call (phase_ctrl_amp_func lin m) x = Err AssertionError.
Proof.
  intros N. cbn [amp_call phase_ctrl_amp_func]. unfold amp_func_phase_control. replace (Nat.eqb (rank x) 2 && Nat.eqb (dim0 x) m && Nat.eqb (dim1 x) 2) with false; [reflexivity|]. symmetry.
  unfold rank, dim0, dim1. destruct (shape x) as [|a [|b [|? ?]]]; try reflexivity. cbn [length nth Nat.eqb andb]. destruct (Nat.eqb_spec a m) as [->|]; [|reflexivity]. destruct (Nat.eqb_spec b 2) as [->|]; [congruence|reflexivity].
Qed.
End Phase.

(** ---- the noise spectrum ---- *)
Local Open Scope R_scope.
Lemma by_antiderivative (f F : R -> R) a b : a <= b -> (forall x, a <= x <= b -> continuity_pt f x) -> (forall x, a <= x <= b -> derivable_pt_lim F x (f x)) -> integral f a b (F b - F a).
Proof.
  intros H C D. exists (continuity_implies_RiemannInt H C). rewrite (RiemannInt_P20 H (FTC_P1 H C)).
  assert (A2 : antiderivative f F a b). { split; [|exact H]. intros x Hx. exists (exist _ (f x) (D x Hx)). reflexivity. }
  destruct (antiderivative_Ucte f _ _ a b (@RiemannInt_P29 f a b H C) A2) as [c E].
  rewrite (E b), (E a) by lra. ring.
Qed.
Lemma variance_integral s1 s2 lo hi : 0 < lo -> lo <= hi -> integral (fun f => s1 / f + s2 / (f * f)) lo hi (variance_f s1 s2 lo hi).
Proof.
  intros L H. replace (variance_f s1 s2 lo hi) with ((s1 * ln hi - s2 * (1 / hi)) - (s1 * ln lo - s2 * (1 / lo))); [|unfold variance_f; ring].
  apply (@by_antiderivative (fun f => s1 / f + s2 / (f * f)) (fun f => s1 * ln f - s2 * (1 / f)) lo hi); auto.
  - intros x Hx. assert (x <> 0) by lra. reg; auto.
  - intros x Hx. assert (N : x <> 0) by lra. replace (s1 / x + s2 / (x * x)) with (s1 * / x - s2 * (((0 * x - 1 * 1) / Rsqr x))) by (unfold Rsqr; field; auto).
    apply (derivable_pt_lim_minus (fun f => s1 * ln f) (fun f => s2 * (1 / f))).
    + apply (derivable_pt_lim_scal ln s1). apply derivable_pt_lim_ln. lra.
    + apply (derivable_pt_lim_scal (fun f => 1 / f) s2). apply (@derivable_pt_lim_div (fun _ => 1) id x 0 1); [apply derivable_pt_lim_const|apply derivable_pt_lim_id|exact N].
Qed.
Lemma density_value s1 f fl : 0 < f -> 0 < fl -> toms_spectral_noise_density s1 f fl = s1 / Rmin f fl.
Proof.
  intros Hf Hl. unfold toms_spectral_noise_density. destruct (Rlt_dec fl f) as [H|H].
  - rewrite Rmin_right by lra. field. lra.
  - rewrite Rmin_left by lra. field. lra.
Qed.
Local Close Scope R_scope.

(** ---- random pulses ---- *)
Lemma draw_range {G} (gen : generator G) k : (forall g, 0 <= fst (g_next gen g) < 1)%R -> forall g, length (fst (draw gen k g)) = k /\ Forall (fun x => 0 <= x < 1)%R (fst (draw gen k g)).
Proof.
  intros H. induction k as [|k IH]; intros g; cbn [draw]; [split; [reflexivity|constructor]|]. specialize (H g). destruct (g_next gen g) as [x g1]. specialize (IH g1). destruct (draw gen k g1) as [l g2]. cbn [fst length] in *. destruct IH as [<- F]. split; auto.
Qed.
Lemma pulse_range {G} (gen : generator G) n (b : R) seed g y g' : (forall g, 0 <= fst (g_next gen g) < 1)%R -> (0 < b)%R -> random_xy_init_pulse gen n b seed g = (y, g') ->
  wfa [n; 2] y /\ forall t c, t < n -> c < 2 -> (0 <= get2 0%R y t c < b)%R.
Proof.
  intros H B. unfold random_xy_init_pulse. match goal with |- context [draw gen (n * 2) ?g0] => pose proof (draw_range gen (n * 2) H g0) as [L F]; destruct (draw gen (n * 2) g0) as [l g2] end. cbn [fst] in *.
  intros [= <- _]. split; [apply wfa_mk2|]. intros t c Ht Hc. rewrite get2_mk2 by lia. rewrite Forall_forall in F. assert (X := F (nth (t * 2 + c) l 0%R) ltac:(apply nth_In; rewrite L; lia)). split; [apply Rmult_le_pos; lra|].
  rewrite <- (Rmult_1_l b) at 2. apply Rmult_lt_compat_r; lra.
Qed.
Lemma seed_fixes {G} (gen : generator G) n b z g1 g2 : z <> 0%Z -> random_xy_init_pulse gen n b (Some z) g1 = random_xy_init_pulse gen n b (Some z) g2.
Proof. intros Hz. unfold random_xy_init_pulse. apply Z.eqb_neq in Hz. rewrite Hz. reflexivity. Qed.
(** a generator whose state is the next number *)
Definition coin : generator R := mkgen (fun z => IZR (z mod 2) / 2)%R (fun g => (Rmax 0 (Rmin g (1 / 2)), g))%R.
Lemma coin_range g : (0 <= fst (g_next coin g) < 1)%R.
Proof. cbn [coin g_next fst]. split; [apply Rmax_l|]. apply Rmax_case; [lra|]. apply Rle_lt_trans with (1 / 2)%R; [apply Rmin_r|lra]. Qed.
Lemma seed_zero : exists (G : Type) (gen : generator G) (g1 g2 : G) y1 y2 h1 h2, (forall g, 0 <= fst (g_next gen g) < 1)%R /\
  random_xy_init_pulse gen 1 1 (Some 0%Z) g1 = (y1, h1) /\ random_xy_init_pulse gen 1 1 (Some 0%Z) g2 = (y2, h2) /\ get2 0%R y1 0 0 <> get2 0%R y2 0 0.
Proof.
  exists R, coin, 0%R, (1 / 2)%R. do 4 eexists. split; [apply coin_range|]. split; [reflexivity|]. split; [reflexivity|].
  rewrite !get2_mk2 by lia. cbn. rewrite (Rmin_left 0 (1 / 2)) by lra. rewrite (Rmin_left (1 / 2) (1 / 2)) by lra. rewrite (Rmax_left 0 0) by lra. rewrite (Rmax_right 0 (1 / 2)) by lra. lra.
Qed.
