(** Theorems about the sensitivity of the simulated evolution in qopt/solver_algorithms.py to its parameters, property C84 of
    properties.jsonl. Statements only; the proofs and the concrete cases are in the P_Sensitive*.v files. *)
Require Import List Arith Lia Bool Reals.
From Verif Require Import LibBase LibRing LibArr LibCplx LibMat LibDeriv M_Matrix S_Linear S_Deriv S_Exp M_Transfer S_Transfer M_Amplitude S_Amplitude M_Solver S_Solver M_Cost S_Cost S_Lindblad P_GradWit S_Invariance P_InvarianceWit S_Sensitive P_Sensitive2 P_Sensitive3 P_Sensitive4 P_SensitiveWit P_SensitiveWit2.
Import ListNotations.
Open Scope nat_scope.
Set Implicit Arguments.
Notation col f x := (fun i => mg (f : mat RS) i x).
Notation arr2 n h := (mk2 n n (h : nat -> nat -> RC) : op RField).

(** ---------- C84: SchroedingerSolver, SchroedingerSMonteCarlo ---------- *)
Theorem c84_states : forall (rexp rexp' : R -> R) (la la' : LinAlg RField) (eps eps' : cplx RField) (s s' : @st RField) n k u u' ps ps' fs fs' t K f f' x,
  evolution rexp la eps s n k u ps fs -> evolution rexp' la' eps' s' n k u' ps' fs' ->
  hermitian_system n s -> hermitian_system n s' -> (forall r, r < t -> limited n (K r) (fun i j => csub (action s u r i j) (action s' u' r i j))) ->
  nth_error fs t = Some f -> nth_error fs' t = Some f' -> x < k ->
  (gap n f f' x <= gap n (c_init (s_conf s)) (c_init (s_conf s')) x + total K t * size n (fun i => mg (c_init (s_conf s') : mat RS) i x))%R.
Proof. exact states. Qed.
Print Assumptions c84_states.
(** the two evolutions of c84_case_amplitudes, with the bounds K used there *)
Example c84_case_states : forall (rexp : R -> R) r, r < 2 -> limited 2 (Rabs (nth r (s_time (s_ref rexp 1)) 0) * weighted_change one_ (ipulse [1; 3]%R) (ipulse [1; 3 + 1 / 100]%R) 1 r)%R
  (fun i j => csub (action (s_ref rexp 1) (ipulse [1; 3]%R) r i j) (action (s_off rexp 1) (ipulse [1; 3 + 1 / 100]%R) r i j)).
Proof. exact (fun rexp r => @off_limited rexp 1 r (or_introl eq_refl)). Qed.
Theorem c84_amplitudes : forall (rexp rexp' : R -> R) (la la' : LinAlg RField) (eps eps' : cplx RField) (s s' : @st RField) n k u u' ps ps' fs fs' (h : nat -> R) t f f' x,
  evolution rexp la eps s n k u ps fs -> evolution rexp' la' eps' s' n k u' ps' fs' ->
  hermitian_system n s -> s_time s = s_time s' -> c_ctrl (s_conf s) = c_ctrl (s_conf s') -> s_drift s = s_drift s' -> c_init (s_conf s) = c_init (s_conf s') ->
  (forall c, c < length (c_ctrl (s_conf s)) -> limited n (h c) (fun i j => mg (Ct s c : mat RS) i j)) -> nth_error fs t = Some f -> nth_error fs' t = Some f' -> x < k ->
  (gap n f f' x <= total (fun r => Rabs (nth r (s_time s) 0) * weighted_change h u u' (length (c_ctrl (s_conf s))) r) t * size n (col (c_init (s_conf s)) x))%R.
Proof. exact amplitude_change. Qed.
Print Assumptions c84_amplitudes.
Example c84_case_amplitudes : forall (rexp : R -> R), exists ps fs ps' fs' f f', evolution rexp wla c0 (s_ref rexp 1) 2 1 (ipulse [1; 3]%R) ps fs /\ evolution rexp wla c0 (s_off rexp 1) 2 1 (ipulse [1; 3 + 1 / 100]%R) ps' fs' /\ nth_error fs 2 = Some f /\ nth_error fs' 2 = Some f' /\
  (gap 2 f f' 0 <= 1 / 50)%R.
Proof. exact case_amplitudes. Qed.
Theorem c84_durations : forall (rexp rexp' : R -> R) (la la' : LinAlg RField) (eps eps' : cplx RField) (s s' : @st RField) n k u u' ps ps' fs fs' (e : nat -> R) t f f' x,
  evolution rexp la eps s n k u ps fs -> evolution rexp' la' eps' s' n k u' ps' fs' ->
  hermitian_system n s -> hermitian_system n s' -> c_ctrl (s_conf s) = c_ctrl (s_conf s') -> c_init (s_conf s) = c_init (s_conf s') ->
  (forall r, r < t -> Dr s r = Dr s' r /\ same_row (length (c_ctrl (s_conf s))) u r u' r /\ limited n (e r) (hamiltonian (F:=RField) (Dr s r) (c_ctrl (s_conf s)) (fun c => get2 (k0 : RField) u r c))) ->
  nth_error fs t = Some f -> nth_error fs' t = Some f' -> x < k ->
  (gap n f f' x <= total (fun r => Rabs (nth r (s_time s) 0 - nth r (s_time s') 0) * e r) t * size n (col (c_init (s_conf s)) x))%R.
Proof. exact duration_change. Qed.
Print Assumptions c84_durations.
Example c84_case_durations : forall (rexp : R -> R), exists ps fs ps' fs' f f', evolution rexp wla c0 (s_two rexp 1 1 2 1 3) 2 1 (ipulse [1; 3]%R) ps fs /\ evolution rexp wla c0 (s_two rexp 1 1 (2 + 1 / 100) 1 3) 2 1 (ipulse [1; 3]%R) ps' fs' /\ nth_error fs 2 = Some f /\ nth_error fs' 2 = Some f' /\
  (gap 2 f f' 0 <= 1 / 25)%R.
Proof. exact case_durations. Qed.
Theorem c84_speed : forall (rexp : R -> R) (la : LinAlg RField) (eps : cplx RField) (s : @st RField) n k u ps fs (e : nat -> R) t f x,
  evolution rexp la eps s n k u ps fs -> hermitian_system n s ->
  (forall r, r < t -> limited n (e r) (hamiltonian (F:=RField) (Dr s r) (c_ctrl (s_conf s)) (fun c => get2 (k0 : RField) u r c))) ->
  nth_error fs t = Some f -> x < k ->
  (gap n f (c_init (s_conf s)) x <= total (fun r => Rabs (nth r (s_time s) 0) * e r) t * size n (col (c_init (s_conf s)) x))%R.
Proof. exact speed. Qed.
Print Assumptions c84_speed.
Example c84_case_speed : forall (rexp : R -> R), exists ps fs f, evolution rexp wla c0 (s_two rexp 1 (1 / 100) (1 / 100) 1 3) 2 1 (ipulse [1; 3]%R) ps fs /\ nth_error fs 2 = Some f /\ (gap 2 f (mk2 2 1 hone) 0 <= 3 / 50)%R.
Proof. exact case_speed. Qed.
Theorem c84_state_fidelity : forall (rexp rexp' : R -> R) (la la' : LinAlg RField) (eps eps' : cplx RField) (s s' : @st RField) n u u' ps ps' fs fs' t K f f' (la0 : LinAlg RField) (bra phi : op RField) b,
  evolution rexp la eps s n 1 u ps fs -> evolution rexp' la' eps' s' n 1 u' ps' fs' ->
  hermitian_system n s -> hermitian_system n s' -> (forall r, r < t -> limited n (K r) (fun i j => csub (action s u r i j) (action s' u' r i j))) ->
  nth_error fs t = Some f -> nth_error fs' t = Some f' -> is_state (F:=RField) n (c_init (s_conf s)) -> is_state (F:=RField) n (c_init (s_conf s')) -> is_state (F:=RField) n phi -> is_bra_of (F:=RField) n bra phi ->
  exists p p', state_fidelity la0 bra f None b = Ok p /\ state_fidelity la0 bra f' None b = Ok p' /\ (Rabs (p - p') <= 2 * (gap n (c_init (s_conf s)) (c_init (s_conf s')) 0 + total K t))%R.
Proof. exact state_change. Qed.
Print Assumptions c84_state_fidelity.
Example c84_case_state_fidelity : forall (rexp : R -> R) (la0 : LinAlg RField) b, exists ps fs ps' fs' f f' p p', evolution rexp wla c0 (s_ref rexp 1) 2 1 (ipulse [1; 3]%R) ps fs /\ evolution rexp wla c0 (s_off rexp 1) 2 1 (ipulse [1; 3 + 1 / 100]%R) ps' fs' /\ nth_error fs 2 = Some f /\ nth_error fs' 2 = Some f' /\
  state_fidelity la0 first_bra f None b = Ok p /\ state_fidelity la0 first_bra f' None b = Ok p' /\ (Rabs (p - p') <= 1 / 25)%R.
Proof. exact case_state. Qed.
Theorem c84_entanglement_fidelity : forall (rexp rexp' : R -> R) (la la' : LinAlg RField) (eps eps' : cplx RField) (s s' : @st RField) n u u' ps ps' fs fs' t K f f' (la0 : LinAlg RField) (V : op RField) b,
  n <> 0 -> evolution rexp la eps s n n u ps fs -> evolution rexp' la' eps' s' n n u' ps' fs' ->
  hermitian_system n s -> hermitian_system n s' -> (forall r, r < t -> limited n (K r) (fun i j => csub (action s u r i j) (action s' u' r i j))) ->
  nth_error fs t = Some f -> nth_error fs' t = Some f' -> is_unitary (S:=RS) n (c_init (s_conf s)) -> c_init (s_conf s) = c_init (s_conf s') -> is_unitary (S:=RS) n V ->
  exists p p', entanglement_fidelity la0 V f None b = Ok p /\ entanglement_fidelity la0 V f' None b = Ok p' /\ (Rabs (p - p') <= 2 * total K t)%R.
Proof. exact operation_change. Qed.
Print Assumptions c84_entanglement_fidelity.
Example c84_case_entanglement_fidelity : forall (rexp : R -> R) (la0 : LinAlg RField) b, exists ps fs ps' fs' f f' p p', evolution rexp wla c0 (s_ref rexp 2) 2 2 (ipulse [1; 3]%R) ps fs /\ evolution rexp wla c0 (s_off rexp 2) 2 2 (ipulse [1; 3 + 1 / 100]%R) ps' fs' /\ nth_error fs 2 = Some f /\ nth_error fs' 2 = Some f' /\
  entanglement_fidelity la0 (arr2 2 hx) f None b = Ok p /\ entanglement_fidelity la0 (arr2 2 hx) f' None b = Ok p' /\ (Rabs (p - p') <= 1 / 25)%R.
Proof. exact case_operation. Qed.
Theorem c84_noise : forall (rexp : R -> R) (la : LinAlg RField) (eps : cplx RField) (s : @st RField) n k u ps fs m pss fss (h : nat -> R) j gs t f g x,
  evolution rexp la eps s n k u ps fs -> hermitian_system n s -> sampled n s m -> mc_ampf m = NNone ->
  Forall (is_hermitian (S:=RS) n : op RField -> Prop) (mc_ops m) -> exact_noise_steps la n s (mc_ops m) ->
  returns (F:=RField) rexp la eps s SNProp (VDer pss) -> returns (F:=RField) rexp la eps s SNFwd (VNOps fss) ->
  (forall o, o < length (mc_ops m) -> limited n (h o) (fun a b => mg (nth o (mc_ops m) (Arr [] []) : mat RS) a b)) ->
  nth_error fss j = Some gs -> nth_error gs t = Some g -> nth_error fs t = Some f -> x < k ->
  (gap n g f x <= total (fun r => Rabs (nth r (s_time s) 0) * weighted_noise h (mc_samples m) (length (mc_ops m)) j r) t * size n (col (c_init (s_conf s)) x))%R.
Proof. exact noise_change. Qed.
Print Assumptions c84_noise.
Example c84_case_noise : forall (rexp : R -> R), exists ps fs pss fss gs f g, evolution rexp wla c0 (vset rexp) 2 2 (ipulse [1; 3]%R) ps fs /\ hermitian_system 2 (vset rexp) /\ sampled (F:=RField) 2 (vset rexp) vmc /\ exact_noise_steps wla 2 (vset rexp) (mc_ops vmc) /\
  returns (F:=RField) rexp wla c0 (vset rexp) SNProp (VDer pss) /\ returns (F:=RField) rexp wla c0 (vset rexp) SNFwd (VNOps fss) /\ nth_error fss 1 = Some gs /\ nth_error gs 2 = Some g /\ nth_error fs 2 = Some f /\
  (gap 2 g f 0 <= 3 / 50)%R.
Proof. exact case_noise. Qed.
Theorem c84_frobenius : forall n (M : nat -> nat -> RC),
  limited n (sqrt (sumn (S:=KStar RField) n (fun i => sumn (S:=KStar RField) n (fun j => cnorm2 (M i j))))) M.
Proof. exact frobenius. Qed.
Print Assumptions c84_frobenius.
