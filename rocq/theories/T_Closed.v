(** Theorems about evolutions known in closed form, for the solvers in qopt/solver_algorithms.py, property C86 of properties.jsonl.
    Statements only; the proofs and the concrete cases are in the P_Closed*.v files. *)
Require Import List Arith Lia Bool Reals.
From Verif Require Import LibBase LibRing LibArr LibCplx LibMat LibDeriv M_Matrix S_Linear S_Deriv S_Exp M_Transfer S_Transfer M_Amplitude S_Amplitude M_Solver S_Solver S_Lindblad S_Channel P_GradWit P_ChannelWit S_Invariance P_InvarianceWit S_OpenSym P_OpenSymWit S_Closed P_Closed P_Closed2 P_ClosedWit.
Import ListNotations.
Open Scope nat_scope.
Set Implicit Arguments.
Notation arr2 n h := (mk2 n n (h : nat -> nat -> RC) : mat RS).
Notation rid := (fun x : R => x).
Notation Sg := (sumn (S:=RS)).

(** ---------- C86: SchroedingerSolver ---------- *)
Theorem c86_superposition : forall (rexp : R -> R) (la : LinAlg RField) (eps : cplx RField) (s : @st RField) n k u ps fs m (c : nat -> RC) (v : nat -> nat -> RC) (e : nat -> nat -> R) x,
  evolution rexp la eps s n k u ps fs -> x < k ->
  (forall r q, r < length (s_time s) -> q < m -> eigenvector n (energy_op s u r) (v q) (e q r)) ->
  (forall i, i < n -> (c_init (s_conf s)).[i,x] = Sg m (fun q => cmul (c q) (v q i))) ->
  forall t f i, nth_error fs t = Some f -> i < n -> f.[i,x] = Sg m (fun q => cmul (c q) (cmul (phase (total (fun r => e q r * span s r)%R t)) (v q i))).
Proof. exact spectral. Qed.
Print Assumptions c86_superposition.
Example c86_case_superposition : exists ps fs f, evolution rid wla c0 s_levels 2 2 (ipulse [1; 3]%R) ps fs /\
  (forall r q, r < length (s_time s_levels) -> q < 2 -> eigenvector 2 (energy_op s_levels (ipulse [1; 3]%R) r) (basis q) (level q r)) /\
  (forall i, i < 2 -> (c_init (s_conf s_levels)).[i,0] = Sg 2 (fun q => cmul c1 (basis q i))) /\
  nth_error fs 2 = Some f /\ f.[0,0] = phase 14 /\ f.[1,0] = phase (- 14).
Proof. exact case_spectral. Qed.
Theorem c86_rotation : forall (rexp : R -> R) (la : LinAlg RField) (eps : cplx RField) (s : @st RField) n k u ps fs (C : nat -> nat -> RC) (a : nat -> R) x,
  evolution rexp la eps s n k u ps fs -> x < k -> involution n C ->
  (forall r i j, r < length (s_time s) -> i < n -> j < n -> energy_op s u r i j = cmul (cofk (a r : RField)) (C i j)) ->
  forall t f i, nth_error fs t = Some f -> i < n -> let theta := total (fun r => a r * span s r)%R t in
    f.[i,x] = cadd (cmul (cofk (cos theta : RField)) (c_init (s_conf s)).[i,x]) (cmul (cmul (copp ci) (cofk (sin theta : RField))) (Sg n (fun j => cmul (C i j) (c_init (s_conf s)).[j,x]))).
Proof. exact rotation. Qed.
Print Assumptions c86_rotation.
Example c86_case_rotation : exists ps fs f, evolution rid wla c0 s_rotate 2 2 (ipulse [1; 3]%R) ps fs /\ involution 2 hx /\
  (forall r i j, r < length (s_time s_rotate) -> i < 2 -> j < 2 -> energy_op s_rotate (ipulse [1; 3]%R) r i j = cmul (cofk (area r : RField)) (hx i j)) /\
  nth_error fs 2 = Some f /\ f.[0,0] = ((cos 7, 0)%R : RC) /\ f.[1,0] = ((0, - sin 7)%R : RC).
Proof. exact case_rotation. Qed.
Theorem c86_rabi : forall (rexp : R -> R) (la : LinAlg RField) (eps : cplx RField) (s : @st RField) k u ps fs x (d : R) (g : RC),
  evolution rexp la eps s 2 k u ps fs -> x < k -> (0 < d * d + size2 g)%R ->
  (forall r, r < length (s_time s) -> energy_op s u r 0 0 = cofk (d : RField) /\ energy_op s u r 0 1 = g /\ energy_op s u r 1 0 = cconj g /\ energy_op s u r 1 1 = copp (cofk (d : RField))) ->
  (c_init (s_conf s)).[0,x] = c1 -> (c_init (s_conf s)).[1,x] = c0 ->
  forall t f, nth_error fs t = Some f -> let w := sqrt (d * d + size2 g) in
    size2 f.[1,x] = (size2 g / (d * d + size2 g) * (sin (w * total (span s) t) * sin (w * total (span s) t)))%R.
Proof. exact rabi. Qed.
Print Assumptions c86_rabi.
Example c86_case_rabi : exists ps fs f, evolution rid wla c0 s_rabi 2 2 (ipulse [3; 3]%R) ps fs /\
  (forall r, r < length (s_time s_rabi) -> energy_op s_rabi (ipulse [3; 3]%R) r 0 0 = cofk (1%R : RField) /\ energy_op s_rabi (ipulse [3; 3]%R) r 0 1 = ((3, 0)%R : RC) /\
    energy_op s_rabi (ipulse [3; 3]%R) r 1 0 = cconj ((3, 0)%R : RC) /\ energy_op s_rabi (ipulse [3; 3]%R) r 1 1 = copp (cofk (1%R : RField))) /\
  (c_init (s_conf s_rabi)).[0,0] = c1 /\ (c_init (s_conf s_rabi)).[1,0] = c0 /\
  nth_error fs 2 = Some f /\ size2 f.[1,0] = (9 / 10 * (sin (sqrt 10 * 3) * sin (sqrt 10 * 3)))%R.
Proof. exact case_rabi. Qed.

(** ---------- C86: LindbladSolver ---------- *)
Theorem c86_modes : forall (rexp : R -> R) (la : LinAlg RField) (eps : cplx RField) (s : @st RField) n k Ls u w ps fs m (c : nat -> RC) (M : nat -> nat -> nat -> RC) (z : nat -> nat -> RC) x,
  open_evolution rexp la eps s n k Ls u w ps fs -> x < k ->
  (forall r q i j, r < length (s_time s) -> q < m -> i < n -> j < n -> motion n s Ls u w r (M q) i j = cmul (z q r) (M q i j)) ->
  (forall i j, i < n -> j < n -> column n (c_init (s_conf s)) x i j = Sg m (fun q => cmul (c q) (M q i j))) ->
  forall t f i j, nth_error fs t = Some f -> i < n -> j < n ->
    column n f x i j = Sg m (fun q => cmul (c q) (cmul (cexpR (ctotal (fun r => cmul (cofk (span s r : RField)) (z q r)) t)) (M q i j))).
Proof. exact open_spectral. Qed.
Print Assumptions c86_modes.
Example c86_case_modes : exists ps fs f, open_evolution rid lla c0 s_relax 2 1 [arr2 2 low] (ipulse [1; 3]%R) (rate [1; 2]%R) ps fs /\
  (forall r q i j, r < length (s_time s_relax) -> q < 4 -> i < 2 -> j < 2 -> motion 2 s_relax [arr2 2 low] (ipulse [1; 3]%R) (rate [1; 2]%R) r (mode q) i j = cmul (decay q r) (mode q i j)) /\
  (forall i j, i < 2 -> j < 2 -> column 2 (c_init (s_conf s_relax)) 0 i j = Sg 4 (fun q => cmul (share q) (mode q i j))) /\ nth_error fs 2 = Some f.
Proof. exact case_modes. Qed.
Theorem c86_diagonal : forall (rexp : R -> R) (la : LinAlg RField) (eps : cplx RField) (s : @st RField) n k Ls u w ps fs x,
  open_evolution rexp la eps s n k Ls u w ps fs -> x < k ->
  (forall r i j, r < length (s_time s) -> i < n -> j < n -> i <> j -> energy_op s u r i j = c0) -> (forall q, q < length Ls -> is_diagonal n (Lk Ls q)) ->
  forall t f i j, nth_error fs t = Some f -> i < n -> j < n ->
    column n f x i j = cmul (cexpR (ctotal (fun r => cmul (cofk (span s r : RField)) (dephasing (energy_op s u r) Ls (w r) i j)) t)) (column n (c_init (s_conf s)) x i j).
Proof. exact diagonal_open. Qed.
Print Assumptions c86_diagonal.
Theorem c86_coherence : forall (rexp : R -> R) (la : LinAlg RField) (eps : cplx RField) (s : @st RField) n k Ls u w ps fs x,
  open_evolution rexp la eps s n k Ls u w ps fs -> x < k ->
  (forall r i j, r < length (s_time s) -> i < n -> j < n -> i <> j -> energy_op s u r i j = c0) -> (forall q, q < length Ls -> is_diagonal n (Lk Ls q)) ->
  (forall r i, r < length (s_time s) -> i < n -> cim (energy_op s u r i i) = 0%R) ->
  forall t f i j, nth_error fs t = Some f -> i < n -> j < n ->
    size2 (column n f x i j) = (exp (- total (fun r => span s r * total (fun q => w r q * size2 (csub (Lk Ls q).[i,i] (Lk Ls q).[j,j])) (length Ls)) t) * size2 (column n (c_init (s_conf s)) x i j))%R.
Proof. exact coherence. Qed.
Print Assumptions c86_coherence.
Example c86_case_coherence : exists ps fs f, open_evolution rid lla c0 s_dephase 2 1 [arr2 2 hz] (ipulse [1; 3]%R) (rate [1; 2]%R) ps fs /\
  (forall r i j, r < length (s_time s_dephase) -> i < 2 -> j < 2 -> i <> j -> energy_op s_dephase (ipulse [1; 3]%R) r i j = c0) /\ (forall q, q < 1 -> is_diagonal 2 (Lk [arr2 2 hz] q)) /\
  (forall r i, r < length (s_time s_dephase) -> i < 2 -> cim (energy_op s_dephase (ipulse [1; 3]%R) r i i) = 0%R) /\
  nth_error fs 2 = Some f /\ size2 (column 2 f 0 0 1) = exp (- (20)).
Proof. exact case_diagonal. Qed.
Theorem c86_relaxation : forall (rexp : R -> R) (la : LinAlg RField) (eps : cplx RField) (s : @st RField) k L u w ps fs x (e0 e1 : nat -> R),
  open_evolution rexp la eps s 2 k [L] u w ps fs -> x < k -> lowers L ->
  (forall r, r < length (s_time s) -> energy_op s u r 0 0 = cofk (e0 r : RField) /\ energy_op s u r 1 1 = cofk (e1 r : RField) /\ energy_op s u r 0 1 = c0 /\ energy_op s u r 1 0 = c0) ->
  forall t f, nth_error fs t = Some f ->
    let rho := column 2 (c_init (s_conf s)) x in let g := total (fun r => w r 0%nat * span s r)%R t in let p := total (fun r => (e0 r - e1 r) * span s r)%R t in
    column 2 f x 1 1 = cmul (cofk (exp (- g) : RField)) (rho 1 1) /\ column 2 f x 0 0 = cadd (rho 0 0) (cmul (cofk (1 - exp (- g) : RField)%R) (rho 1 1)) /\
    column 2 f x 0 1 = cmul (cmul (cofk (exp (- / 2 * g) : RField)%R) (phase p)) (rho 0 1) /\ column 2 f x 1 0 = cmul (cmul (cofk (exp (- / 2 * g) : RField)%R) (phase (- p))) (rho 1 0).
Proof. exact relaxation. Qed.
Print Assumptions c86_relaxation.
Example c86_case_relaxation : exists ps fs f, open_evolution rid lla c0 s_relax 2 1 [arr2 2 low] (ipulse [1; 3]%R) (rate [1; 2]%R) ps fs /\ lowers (arr2 2 low) /\
  (forall r, r < length (s_time s_relax) -> energy_op s_relax (ipulse [1; 3]%R) r 0 0 = cofk (level 0 r : RField) /\ energy_op s_relax (ipulse [1; 3]%R) r 1 1 = cofk (level 1 r : RField) /\
    energy_op s_relax (ipulse [1; 3]%R) r 0 1 = c0 /\ energy_op s_relax (ipulse [1; 3]%R) r 1 0 = c0) /\
  nth_error fs 2 = Some f /\ column 2 f 0 1 1 = cofk (exp (- (5)) : RField) /\ column 2 f 0 0 0 = cofk (2 - exp (- (5)) : RField)%R /\ column 2 f 0 0 1 = cmul (cofk (exp (- / 2 * 5) : RField)%R) (phase 28).
Proof. exact case_relaxation. Qed.
