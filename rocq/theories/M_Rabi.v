(** Model of qopt/examples/rabi_driving: the solvers in the lab frame and in the rotating frame, the changes of frame, the phase
    control, the gates, the noise spectrum and the random pulses.

    Simplifications: real numbers instead of floats; the constants of the modules (lin_freq_rel, n_time_samples * oversampling,
    S_01, ...) are parameters, so the model covers setup.py and rabi_xy_setup.py; the solvers and cost functions which these two
    modules build from the classes of the package are not repeated. *)
Require Import List Arith Bool Reals ZArith.
From Verif Require Import LibBase LibRing LibArr LibCplx LibMat LibDeriv M_Matrix S_Deriv M_Transfer M_Amplitude M_Solver.
Import ListNotations.
Local Open Scope res_scope.
Set Implicit Arguments.

Notation rop := (op RField) (only parsing).
(** a real number times an operator (matrix.py l.755-765) *)
Definition times (a : R) (A : rop) : rop := mscale (S:=RS) (cofk (a : RField)) A.

(** ---- lab_frame_setup.py ---- *)
(** periodic_signal l.50-71.  opt_pars[i] is a number for an array of rank one and the row i, broadcast against
    np.arange(n_time_steps), for an array of rank two.  Arrays of higher rank give a signal that is refused by
    set_optimization_parameters (solver_algorithms.py l.390-393) with the ValueError returned here. *)
Definition periodic_signal (n : nat) (dt : R) (x : RA) : res RA :=
  check negb (Nat.eqb (rank x) 0) else IndexError ;;
  check Nat.leb 3 (dim0 x) else IndexError ;;
  match shape x with
  | [_] => Ok (mk2 n 1 (fun t _ => (get1 0 x 0%nat * sin (get1 0 x 1%nat * INR t * dt + get1 0 x 2%nat))%R))
  | [_; c] =>
      l <- lab c n ;;
      Ok (mk2 l 1 (fun t _ => (get2 0 x 0%nat (bi c t) * sin (get2 0 x 1%nat (bi c t) * INR (bi n t) * dt + get2 0 x 2%nat (bi c t)))%R))
  | _ => Err ValueError
  end.
(** build_lab_solver l.14-90; the defaults of the constructor: solver_algorithms.py l.838-858 *)
Definition build_lab_solver (resonance : R) (n : nat) (dt : R) (meth : emethod) : res (@st RField) :=
  build_solver (F:=RField) CSchroedinger [times (resonance * / 2) (pauli_z RField)] [times (/ 2) (pauli_x RField)] (repeat dt n) None None meth true true GNone
    (mk_identity (F:=RField) 1) (ACustom (F:=RField) (periodic_signal n dt) (fun _ => Err NotImplementedError)) None.
(** build_rotational_frame_solver l.93-135 *)
Definition build_rotational_frame_solver (detuning : R) (n : nat) (dt : R) (meth : emethod) : res (@st RField) :=
  build_solver (F:=RField) CSchroedinger [times (detuning * / 2) (pauli_z RField)] [times (/ 2) (pauli_x RField); times (/ 2) (pauli_y RField)] (repeat dt n) None None
    meth true true GNone (mk_identity (F:=RField) 2) (AIdentity (F:=RField)) None.
(** transform_prop_to_rot_frame l.138-172 *)
Definition transform_prop_to_rot_frame (la : LinAlg RField) (propagator : rop) (time_end time_start resonance : R) : res rop :=
  u_end <- op_exp la (times (- / 2) (pauli_z RField)) (cmul (cmul ci (cofk (time_end : RField))) (cofk (resonance : RField))) Spectral false ;;
  u_start <- op_exp la (times (- / 2) (pauli_z RField)) (cmul (cmul ci (cofk (time_start : RField))) (cofk (resonance : RField))) Spectral false ;;
  p <- op_mul (op_dag u_end) (ODense propagator) ;;
  op_mul p (ODense u_start).
(** transform_ket_to_rot_frame l.175-201 *)
Definition transform_ket_to_rot_frame (la : LinAlg RField) (vector : rop) (time resonance : R) : res rop :=
  u <- op_exp la (times (/ 2) (pauli_z RField)) (cmul (cmul ci (cofk (time : RField))) (cofk (resonance : RField))) Spectral false ;;
  op_mul (op_dag u) (ODense vector).

(** ---- setup.py, rabi_xy_setup.py ---- *)
(** x_half, y_half: setup.py l.60-61, rabi_xy_setup.py l.48-49 *)
Definition x_half (la : LinAlg RField) : res rop := op_exp la (pauli_x RField) (cmul (cofk (PI : RField)) ((0, / 4)%R : RC)) Spectral false.
Definition y_half (la : LinAlg RField) : res rop := op_exp la (pauli_y RField) (cmul (cofk (PI : RField)) ((0, / 4)%R : RC)) Spectral false.
(** lin_amp_func: setup.py l.83-85, rabi_xy_setup.py l.74-84 *)
Definition lin_amp_func (lin : R) : amp RField := AUnary (F:=RField) (fun x : R => (lin * x)%R) (fun _ : R => lin).
(** amp_func_phase_control, setup.py l.90-95; [m] is n_time_samples * oversampling *)
Definition amp_func_phase_control (lin : R) (m : nat) (x : RA) : res RA :=
  check Nat.eqb (rank x) 2 && Nat.eqb (dim0 x) m && Nat.eqb (dim1 x) 2 else AssertionError ;;
  Ok (mk2 m 2 (fun t c => if Nat.eqb c 0 then (lin * get2 0 x t 0%nat * cos (get2 0 x t 1%nat))%R else (lin * get2 0 x t 0%nat * sin (get2 0 x t 1%nat))%R)).
(** amp_func_deriv_phase_control, setup.py l.98-105 *)
Definition amp_func_deriv_phase_control (lin : R) (m : nat) (x : RA) : res RA :=
  check Nat.eqb (rank x) 2 && Nat.eqb (dim0 x) m && Nat.eqb (dim1 x) 2 else AssertionError ;;
  Ok (mk3 m 2 2 (fun t p c =>
    match p, c with
    | 0, 0 => (lin * cos (get2 0 x t 1%nat))%R
    | 0, _ => (lin * sin (get2 0 x t 1%nat))%R
    | _, 0 => (lin * (-1) * get2 0 x t 0%nat * sin (get2 0 x t 1%nat))%R
    | _, _ => (lin * get2 0 x t 0%nat * cos (get2 0 x t 1%nat))%R
    end)).
(** phase_ctrl_amp_func, setup.py l.108-111 *)
Definition phase_ctrl_amp_func (lin : R) (m : nat) : amp RField := ACustom (F:=RField) (amp_func_phase_control lin m) (amp_func_deriv_phase_control lin m).
(** variance_f: setup.py l.124-125, rabi_xy_setup.py l.98-99 *)
Definition variance_f (s1 s2 f_min f_max : R) : R := (s1 * (ln f_max - ln f_min) - s2 * (1 / f_max - 1 / f_min))%R.
(** toms_spectral_noise_density at one frequency: setup.py l.129-136, rabi_xy_setup.py l.103-110.  Only for f other than 0, where
    numpy returns inf. *)
Definition toms_spectral_noise_density (s1 f white_floor : R) : R :=
  let is_white := (if Rlt_dec white_floor f then 1 else 0)%R in (s1 / f * (1 - is_white) + (s1 / white_floor) * is_white)%R.
(** numpy's global random generator with the state space G: np.random.seed and the next number of np.random.rand *)
Record generator (G : Type) := mkgen { g_seed : Z -> G; g_next : G -> R * G }.
Fixpoint draw {G : Type} (gen : generator G) (k : nat) (g : G) : list R * G :=
  match k with O => ([], g) | S k' => let '(x, g1) := g_next gen g in let '(l, g2) := draw gen k' g1 in (x :: l, g2) end.
(** random_xy_init_pulse: setup.py l.333-336, rabi_xy_setup.py l.216-219.  [if seed] is false for None and for 0. *)
Definition random_xy_init_pulse {G : Type} (gen : generator G) (n : nat) (amp_bound : R) (seed : option Z) (g : G) : RA * G :=
  let g' := match seed with Some z => if Z.eqb z 0 then g else g_seed gen z | None => g end in
  let '(l, g2) := draw gen (n * 2) g' in (mk2 n 2 (fun t c => (nth (t * 2 + c) l 0 * amp_bound)%R), g2).
