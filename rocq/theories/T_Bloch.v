(** Theorems about plot_bloch_vector_evolution in qopt/plotting.py, property C81 of properties.jsonl.  Statements only; the
    proofs and the concrete cases are in P_Bloch.v and P_Bloch2.v. *)
Require Import List Arith Lia Bool Reals.
From Verif Require Import LibBase LibRing LibArr LibCplx LibMat LibDeriv M_Matrix S_Linear S_Deriv S_Exp M_Transfer S_Transfer M_Amplitude S_Amplitude M_Solver S_Solver M_Simulator S_Simulator S_Gradient P_GradWit S_Invariance P_InvarianceWit M_Bloch S_Bloch P_Bloch P_Bloch2.
Import ListNotations.
Open Scope nat_scope.
Set Implicit Arguments.
Notation herm n := (is_hermitian (S:=RS) n : op RField -> Prop).

(** ---------- C81 ---------- *)
Theorem c81_points : forall (F : OField) (other : op F -> res (point F)) (props : list (op F)) psi,
  props <> [] -> Forall isometry props -> qubit psi ->
  exists pts, bloch_points other props psi = Ok pts /\ length pts = length props /\
  forall t U, nth_error props t = Some U -> exists p phi, nth_error pts t = Some p /\ is_product (S:=CStar F) 2 2 1 U psi phi /\ on_sphere p /\ describes p phi.
Proof. exact bloch_evolution. Qed.
Print Assumptions c81_points.
Theorem c81_angle : forall (F : OField) (other : op F -> res (point F)) (props : list (op F)) phi psi ps qs,
  props <> [] -> Forall isometry props -> qubit phi -> qubit psi ->
  bloch_points other props phi = Ok ps -> bloch_points other props psi = Ok qs ->
  forall t p q, nth_error ps t = Some p -> nth_error qs t = Some q -> dot p q = ksub (kmul (kadd k1 k1) (cnorm2 (braket phi psi))) k1.
Proof. exact bloch_angle. Qed.
Print Assumptions c81_angle.
Theorem c81_phase : forall (F : OField) (other : op F -> res (point F)) (props : list (op F)) psi c,
  props <> [] -> Forall isometry props -> qubit psi -> cmul c (cconj c) = c1 ->
  bloch_points other props (mscale (S:=CStar F) c psi) = bloch_points other props psi.
Proof. exact bloch_phase. Qed.
Print Assumptions c81_phase.
Theorem c81_errors : forall (F : OField) (other : op F -> res (point F)) (props : list (op F)) psi,
  (props = [] -> bloch_points other props psi = Err IndexError) /\
  (forall p0 l m n, props = p0 :: l -> is_matrix (S:=CStar F) m n p0 -> m <> 2 -> bloch_points other props psi = Err ValueError) /\
  (forall p0 l, props = p0 :: l -> is_matrix (S:=CStar F) 2 1 p0 -> is_matrix (S:=CStar F) 2 1 psi -> bloch_points other props psi = Err ValueError).
Proof. exact bloch_errors. Qed.
Print Assumptions c81_errors.
(** the initial state, a bit flip and a rotation of (3, 4i)/5, with the points *)
Example c81_case : (bprops <> [] /\ Forall (isometry (F:=QcField)) bprops /\ qubit (F:=QcField) bpsi) /\ qubit (F:=QcField) bzero /\
  match bloch_points (F:=QcField) (fun _ => Err TypeError) bprops bpsi with
  | Ok pts => (Nat.eqb (length pts) 3 && forallb (fun pq => peqb (fst pq) (snd pq)) (combine pts bpts))%bool | Err _ => false end = true.
Proof. split; [exact bprops_ok|]. split; [exact bzero_qubit|exact bpts_ok]. Qed.
Example c81_case_errors : is_matrix (S:=CStar QcField) 2 1 bpsi /\ bloch_points (F:=QcField) (fun _ => Err TypeError) [bpsi; bpsi] bpsi = Err ValueError.
Proof. exact case_bloch_errors. Qed.
Theorem c81_solver : forall (rexp : R -> R) (la : LinAlg RField) (eps : cplx RField) (other : op RField -> res (point RField)) (s : @st RField) u ps fs psi,
  evolution rexp la eps s 2 2 u ps fs -> length (s_drift s) = length (s_time s) ->
  Forall (herm 2) (s_drift s) -> Forall (herm 2) (c_ctrl (s_conf s)) -> is_identity (S:=RS) 2 (c_init (s_conf s)) -> qubit (F:=RField) psi ->
  exists pts, bloch_points other fs psi = Ok pts /\ length pts = S (length (s_time s)) /\
    (exists p, nth_error pts 0 = Some p /\ describes (F:=RField) p psi) /\
    forall t f, nth_error fs t = Some f -> exists p phi, nth_error pts t = Some p /\ is_product (S:=RS) 2 2 1 f psi phi /\ on_sphere (F:=RField) p /\ describes (F:=RField) p phi.
Proof. exact bloch_solver. Qed.
Print Assumptions c81_solver.
Example c81_case_solver : forall rexp : R -> R, (exists ps fs, evolution rexp wla c0 (s_base rexp) 2 2 upulse ps fs) /\ length (s_drift (s_base rexp)) = length (s_time (s_base rexp)) /\
  Forall (herm 2) (s_drift (s_base rexp)) /\ Forall (herm 2) (c_ctrl (s_conf (s_base rexp))) /\
  is_identity (S:=RS) 2 (c_init (s_conf (s_base rexp))) /\ qubit (F:=RField) (Arr [2; 1] [(3 / 5, 0); (0, 4 / 5)]%R).
Proof. exact case_bloch_solver. Qed.
