(** Theorems about the example of Rabi driving, qopt/examples/rabi_driving, property C87 of properties.jsonl.
    Statements only; the proofs and the concrete cases are in the P_Rabi*.v files. *)
Require Import List Arith Lia Bool Reals ZArith.
From Verif Require Import LibBase LibRing LibArr LibCplx LibMat LibDeriv M_Matrix S_Linear S_Deriv S_Exp M_Transfer S_Transfer M_Amplitude S_Amplitude M_Solver S_Solver S_Simulator S_Invariance S_Closed S_Gauss M_Rabi S_Rabi P_Rabi P_Rabi2 P_Rabi3 P_RabiWit.
Import ListNotations.
Open Scope nat_scope.
Set Implicit Arguments.
Notation rid := (fun x : R => x).

(** ---------- C87: the solvers ---------- *)
Theorem c87_rotating_frame : forall (rexp : R -> R) (la : LinAlg RField) (eps : cplx RField) det n dt meth (s0 s : @st RField) (y : RA) (a b : R) u ps fs t f,
  build_rotational_frame_solver det n dt meth = Ok s0 -> with_pulse (F:=RField) rexp la eps s0 y s ->
  (forall t, t < n -> get2 0%R y t 0 = a /\ get2 0%R y t 1 = b) -> evolution rexp la eps s 2 2 u ps fs -> (0 < det * det + (a * a + b * b))%R -> nth_error fs t = Some f ->
  let w := sqrt (det * det + (a * a + b * b)) in
  size2 f.[1,0] = ((a * a + b * b) / (det * det + (a * a + b * b)) * (sin (w * (INR t * dt) / 2) * sin (w * (INR t * dt) / 2)))%R.
Proof. exact rotating. Qed.
Print Assumptions c87_rotating_frame.
Example c87_case_rotating_frame : exists s0 s ps fs f, build_rotational_frame_solver 3 2 (1 / 5) Frechet = Ok s0 /\ with_pulse (F:=RField) rid rla c0 s0 ry s /\
  (forall t, t < 2 -> get2 0%R ry t 0 = 4%R /\ get2 0%R ry t 1 = 0%R) /\ evolution rid rla c0 s 2 2 ry ps fs /\ nth_error fs 2 = Some f /\ size2 f.[1,0] = (16 / 25 * (sin 1 * sin 1))%R.
Proof. exact case_rotating. Qed.
Theorem c87_lab_amplitudes : forall (rexp : R -> R) (la : LinAlg RField) (eps : cplx RField) resonance n dt meth (s0 s : @st RField) (y : RA) (a f p : R),
  build_lab_solver resonance n dt meth = Ok s0 -> with_pulse (F:=RField) rexp la eps s0 y s -> signal_pars y a f p ->
  exists u, amplitudes (F:=RField) s u /\ wfa [n; 1] u /\ forall t, t < n -> get2 0%R u t 0 = (a * sin (f * (INR t * dt) + p))%R.
Proof. exact lab_amplitudes. Qed.
Print Assumptions c87_lab_amplitudes.
Example c87_case_lab_amplitudes : exists s0 s u, build_lab_solver 6 3 (1 / 5) Frechet = Ok s0 /\ with_pulse (F:=RField) rid rla c0 s0 ly2 s /\ signal_pars ly2 4 6 1 /\ amplitudes (F:=RField) s u /\
  get2 0%R u 2 0 = (4 * sin (6 * (2 * (1 / 5)) + 1))%R.
Proof. exact case_amplitudes. Qed.
Theorem c87_lab_free : forall (rexp : R -> R) (la : LinAlg RField) (eps : cplx RField) resonance n dt meth (s0 s : @st RField) (y : RA) (f p : R) u ps fs t U Q,
  build_lab_solver resonance n dt meth = Ok s0 -> with_pulse (F:=RField) rexp la eps s0 y s -> signal_pars y 0 f p -> evolution rexp la eps s 2 2 u ps fs -> turns la (-1) ->
  nth_error fs t = Some U -> transform_prop_to_rot_frame la U (INR t * dt) 0 resonance = Ok Q -> is_identity 2 Q.
Proof. exact lab_free. Qed.
Print Assumptions c87_lab_free.
Example c87_case_lab_free : exists s0 s u ps fs U Q, build_lab_solver 6 3 (1 / 5) Frechet = Ok s0 /\ with_pulse (F:=RField) rid rla c0 s0 ly s /\ signal_pars ly 0 6 1 /\ evolution rid rla c0 s 2 2 u ps fs /\ turns rla (-1) /\
  nth_error fs 2 = Some U /\ transform_prop_to_rot_frame rla U (INR 2 * (1 / 5)) 0 6 = Ok Q /\ is_identity 2 Q.
Proof. exact case_free. Qed.

(** ---------- C87: the frames ---------- *)
Theorem c87_frame : forall (la : LinAlg RField) (P : mat RS) t1 t0 w, turns la (-1) -> is_matrix 2 2 P ->
  exists Q, transform_prop_to_rot_frame la P t1 t0 w = Ok Q /\ in_frame w t1 t0 P Q.
Proof. exact prop_values. Qed.
Print Assumptions c87_frame.
Theorem c87_frame_unitary : forall (la : LinAlg RField) (P : mat RS) t1 t0 w Q, turns la (-1) -> is_unitary 2 P -> transform_prop_to_rot_frame la P t1 t0 w = Ok Q -> is_unitary 2 Q.
Proof. exact prop_unitary. Qed.
Print Assumptions c87_frame_unitary.
Example c87_case_frame : exists Q, transform_prop_to_rot_frame rla flip 1 2 3 = Ok Q /\ turns rla (-1) /\ is_unitary 2 flip /\ is_unitary 2 Q /\ Q.[1,0] = phase (9 / 2).
Proof. exact case_frame. Qed.
Theorem c87_frame_steps : forall (la : LinAlg RField) (P1 P2 P : mat RS) t0 t1 t2 w Q1 Q2 Q, turns la (-1) -> is_matrix 2 2 P1 -> is_matrix 2 2 P2 -> is_product 2 2 2 P2 P1 P ->
  transform_prop_to_rot_frame la P1 t1 t0 w = Ok Q1 -> transform_prop_to_rot_frame la P2 t2 t1 w = Ok Q2 -> transform_prop_to_rot_frame la P t2 t0 w = Ok Q -> is_product 2 2 2 Q2 Q1 Q.
Proof. exact prop_compose. Qed.
Print Assumptions c87_frame_steps.
Example c87_case_frame_steps : exists P Q1 Q2 Q, turns rla (-1) /\ is_matrix 2 2 flip /\ is_product 2 2 2 flip flip P /\ transform_prop_to_rot_frame rla flip 1 0 3 = Ok Q1 /\
  transform_prop_to_rot_frame rla flip 2 1 3 = Ok Q2 /\ transform_prop_to_rot_frame rla P 2 0 3 = Ok Q /\ Q1.[1,0] = phase (3 / 2) /\ Q2.[0,1] = phase (- (9 / 2)).
Proof. exact case_steps. Qed.
(** the states come out in the frame with the opposite frequency: calling it with minus the frequency agrees with the
    propagators; the full statement, with the same frequency, fails *)
Theorem c87_ket_partial : forall (la : LinAlg RField) (P v v1 : mat RS) t1 t0 w Q x y, turns la (-1) -> turns la 1 -> is_matrix 2 2 P -> is_matrix 2 1 v -> is_product 2 2 1 P v v1 ->
  transform_prop_to_rot_frame la P t1 t0 w = Ok Q -> transform_ket_to_rot_frame la v t0 (- w) = Ok x -> transform_ket_to_rot_frame la v1 t1 (- w) = Ok y -> is_product 2 2 1 Q x y.
Proof. exact ket_follows. Qed.
Print Assumptions c87_ket_partial.
Example c87_case_ket : exists Q x y, turns rla (-1) /\ turns rla 1 /\ is_product 2 2 1 (free 1) plus (freed 1) /\ transform_prop_to_rot_frame rla (free 1) 3 2 5 = Ok Q /\ transform_ket_to_rot_frame rla plus 2 (- (5)) = Ok x /\
  transform_ket_to_rot_frame rla (freed 1) 3 (- (5)) = Ok y /\ is_product 2 2 1 Q x y /\ y.[0,0] = phase (- (7)).
Proof. exact case_follows. Qed.
Theorem c87_ket_values_partial : forall (la : LinAlg RField) (v : mat RS) t w, turns la 1 -> is_matrix 2 1 v -> exists v', transform_ket_to_rot_frame la v t w = Ok v' /\ ket_in_frame (- w) t v v'.
Proof. exact ket_values. Qed.
Print Assumptions c87_ket_values_partial.
Theorem c87_ket_refuted : exists (la : LinAlg RField) (t : R) (P v v1 : mat RS) Q x, turns la (-1) /\ turns la 1 /\ is_matrix 2 2 P /\ is_matrix 2 1 v /\ is_product 2 2 1 P v v1 /\
  transform_prop_to_rot_frame la P t 0 1 = Ok Q /\ is_identity 2 Q /\ transform_ket_to_rot_frame la v1 t 1 = Ok x /\ overlap v x = c0 /\ overlap v v <> c0.
Proof. exact ket_wrong. Qed.
Print Assumptions c87_ket_refuted.

(** ---------- C87: gates and control ---------- *)
Theorem c87_x_half : forall la : LinAlg RField, diagonalises la (pauli_x RField) ->
  exists E, x_half la = Ok E /\ entries E ((/ sqrt 2, 0)%R : RC) ((0, / sqrt 2)%R : RC) ((0, / sqrt 2)%R : RC) ((/ sqrt 2, 0)%R : RC).
Proof. exact x_half_value. Qed.
Print Assumptions c87_x_half.
Theorem c87_y_half : forall la : LinAlg RField, diagonalises la (pauli_y RField) ->
  exists E, y_half la = Ok E /\ entries E ((/ sqrt 2, 0)%R : RC) ((/ sqrt 2, 0)%R : RC) ((- / sqrt 2, 0)%R : RC) ((/ sqrt 2, 0)%R : RC).
Proof. exact y_half_value. Qed.
Print Assumptions c87_y_half.
Example c87_case_gates : diagonalises (gla vx) (pauli_x RField) /\ diagonalises (gla vy) (pauli_y RField).
Proof. exact case_gates. Qed.
Theorem c87_phase_control : forall (lin : R) m (x : RA), wfa [m; 2] x -> exists u, amp_call (phase_ctrl_amp_func lin m) x = Ok u /\ wfa [m; 2] u /\
  forall t, t < m -> get2 0%R u t 0 = (lin * get2 0%R x t 0 * cos (get2 0%R x t 1))%R /\ get2 0%R u t 1 = (lin * get2 0%R x t 0 * sin (get2 0%R x t 1))%R.
Proof. exact phase_value. Qed.
Print Assumptions c87_phase_control.
Example c87_case_phase : wfa [1; 2] py /\ exists u, amp_call (phase_ctrl_amp_func 2 1) py = Ok u /\ get2 0%R u 0 0 = 6%R.
Proof. exact case_phase. Qed.
Theorem c87_phase_gradient : forall (lin : R) m nf (x u g : RA) (f : nat -> RA -> R), 0 < m -> wfa [m; 2] x -> amp_call (phase_ctrl_amp_func lin m) x = Ok u -> wfa [m; nf; 2] g ->
  (forall k, k < nf -> has_gradient m 2 (f k) u (fun t c => get3 0%R g t k c)) ->
  exists d, amp_chain (phase_ctrl_amp_func lin m) g x = Ok d /\ wfa [m; nf; 2] d /\ forall k, k < nf -> has_gradient m 2 (after_amp (phase_ctrl_amp_func lin m) (f k)) x (fun t p => get3 0%R d t k p).
Proof. exact phase_gradient. Qed.
Print Assumptions c87_phase_gradient.
Example c87_case_phase_gradient : exists u d, wfa [1; 2] py /\ amp_call (phase_ctrl_amp_func 2 1) py = Ok u /\ wfa [1; 1; 2] pg /\ (forall k, k < 1 -> has_gradient 1 2 pf u (fun t c => get3 0%R pg t k c)) /\
  amp_chain (phase_ctrl_amp_func 2 1) pg py = Ok d /\ get3 0%R d 0 0 0 = 2%R /\ get3 0%R d 0 0 1 = 12%R.
Proof. exact case_phase_gradient. Qed.
Theorem c87_linear_gradient : forall (lin : R) T P nf (x u g : RA) (f : nat -> RA -> R), 0 < T -> 0 < P -> wfa [T; P] x -> amp_call (lin_amp_func lin) x = Ok u -> wfa [T; nf; P] g ->
  (forall k, k < nf -> has_gradient T P (f k) u (fun t c => get3 0%R g t k c)) ->
  exists d, amp_chain (lin_amp_func lin) g x = Ok d /\ wfa [T; nf; P] d /\ forall k, k < nf -> has_gradient T P (after_amp (lin_amp_func lin) (f k)) x (fun t p => get3 0%R d t k p).
Proof. exact lin_gradient. Qed.
Print Assumptions c87_linear_gradient.
Example c87_case_linear_gradient : exists u d, wfa [1; 2] py /\ amp_call (lin_amp_func 3) py = Ok u /\ wfa [1; 1; 2] pg /\ (forall k, k < 1 -> has_gradient 1 2 pf u (fun t c => get3 0%R pg t k c)) /\
  amp_chain (lin_amp_func 3) pg py = Ok d /\ get3 0%R d 0 0 0 = 3%R /\ get3 0%R d 0 0 1 = 6%R.
Proof. exact case_lin_gradient. Qed.
Theorem c87_phase_shape : forall (lin : R) m (x : RA), shape x <> [m; 2] -> amp_call (phase_ctrl_amp_func lin m) x = Err AssertionError.
Proof. exact phase_refuses. Qed.
Print Assumptions c87_phase_shape.
Example c87_case_shape : exists x : RA, shape x <> [1; 2] /\ amp_call (phase_ctrl_amp_func 2 1) x = Err AssertionError.
Proof. exact case_refuses. Qed.

(** ---------- C87: noise and random pulses ---------- *)
Theorem c87_variance : forall s1 s2 lo hi : R, (0 < lo)%R -> (lo <= hi)%R -> integral (fun f => s1 / f + s2 / (f * f))%R lo hi (variance_f s1 s2 lo hi).
Proof. exact variance_integral. Qed.
Print Assumptions c87_variance.
Example c87_case_variance : integral (fun f => 3 / f + 4 / (f * f))%R 1 2 (3 * ln 2 + 2).
Proof. exact case_variance. Qed.
Theorem c87_density : forall s1 f floor : R, (0 < f)%R -> (0 < floor)%R -> toms_spectral_noise_density s1 f floor = (s1 / Rmin f floor)%R.
Proof. exact density_value. Qed.
Print Assumptions c87_density.
Example c87_case_density : toms_spectral_noise_density 6 2 5 = 3%R /\ toms_spectral_noise_density 6 9 2 = 3%R.
Proof. exact case_density. Qed.
Theorem c87_pulse_range : forall (G : Type) (gen : generator G) n (b : R) seed g y g', (forall g, 0 <= fst (g_next gen g) < 1)%R -> (0 < b)%R -> random_xy_init_pulse gen n b seed g = (y, g') ->
  wfa [n; 2] y /\ forall t c, t < n -> c < 2 -> (0 <= get2 0%R y t c < b)%R.
Proof. exact @pulse_range. Qed.
Print Assumptions c87_pulse_range.
Example c87_case_pulse : (forall g, 0 <= fst (g_next coin g) < 1)%R /\ exists y g', random_xy_init_pulse coin 1 3 (Some 1%Z) 0%R = (y, g') /\ get2 0%R y 0 1 = (3 / 2)%R.
Proof. split; [exact coin_range|exact case_pulse]. Qed.
(** the seed 0 is left out *)
Theorem c87_seed_partial : forall (G : Type) (gen : generator G) n b z g1 g2, z <> 0%Z -> random_xy_init_pulse gen n b (Some z) g1 = random_xy_init_pulse gen n b (Some z) g2.
Proof. exact @seed_fixes. Qed.
Print Assumptions c87_seed_partial.
Theorem c87_seed_refuted : exists (G : Type) (gen : generator G) (g1 g2 : G) y1 y2 h1 h2, (forall g, 0 <= fst (g_next gen g) < 1)%R /\
  random_xy_init_pulse gen 1 1 (Some 0%Z) g1 = (y1, h1) /\ random_xy_init_pulse gen 1 1 (Some 0%Z) g2 = (y2, h2) /\ get2 0%R y1 0 0 <> get2 0%R y2 0 0.
Proof. exact seed_zero. Qed.
Print Assumptions c87_seed_refuted.
