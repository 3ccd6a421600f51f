(** A concrete case for the gradient by the pulse of StateInfidelitySubspace: two two level systems of which the second one is
    removed, two time steps, a drift, one control, the amplitude is the square of the parameter, exact expm. *)
Require Import List Arith Lia Bool Reals Lra.
From Verif Require Import LibBase LibRing LibArr LibCplx LibMat LibNorm LibDeriv M_Matrix S_Linear S_Deriv S_Exp P_Linear P_Matrix P_Frechet P_Mexp P_Mexp2 P_Total M_OpHeap M_Transfer S_Transfer M_Amplitude S_Amplitude P_Transfer P_Amplitude M_Solver S_Solver M_Cost S_Cost S_CostGrad M_Simulator M_CostProg S_Simulator S_Gradient P_Loops P_Cost P_Grad P_GradTotal P_GradTotal2 P_GradSim P_GradWit S_PTrace S_CostSub.
Import ListNotations.
Local Open Scope res_scope.
Set Implicit Arguments.

Section Wit.
Notation op := (op RField).
Notation st := (@st RField).

(** the drift is a phase on the last level, the control couples each two levels *)
Definition vdrift : op := mk2 4 4 (fun i j => if Nat.eqb i j then (if Nat.eqb i 3 then c1 else c0) else c0).
Definition vctrl : op := mk2 4 4 (fun i j => if Nat.eqb i j then c0 else c1).
Definition vbuild (init : option op) : res st :=
  build_solver (F:=RField) CSchroedinger [vdrift] [vctrl] wtau init None Frechet false false GNone (mk_over (F:=RField) 1 None 2) wamp None.
Definition vsolver (init : option op) : st :=
  match vbuild init with
  | Ok s => s
  | Err _ => mkst (mkconf CSchroedinger [] (Arr [] []) Frechet false false GNone AIdentity) [] (mk_identity (F:=RField) 0) [] None None None false false (k_none (F:=RField)) (n_none (F:=RField)) (mkl None None) None
  end.
Lemma vbuild_ok i : vbuild i = Ok (vsolver i).
Proof. unfold vsolver. destruct (vbuild i) eqn:E; auto. exfalso. discriminate. Qed.
Lemma vsolver_built i : constructed_on wd wtau (vsolver i).
Proof.
  split; [exact I|]. exists CSchroedinger, [vdrift], [vctrl], i, None, Frechet, false, false, GNone, (mk_over (F:=RField) 1 None 2), wamp, None.
  split; [reflexivity|]. exact (vbuild_ok i).
Qed.
Lemma vsolver_good i : good wla c0 (s_conf (vsolver i)).
Proof.
  constructor.
  - exact I.
  - intros A D E X t. change (c_meth (s_conf (vsolver i))) with Frechet. unfold op_dexp, op_exp. destruct (Nat.eqb (nr A) (nc A)); cbn [andb negb]; [|discriminate].
    destruct (Nat.eqb (nr D) (nr A) && Nat.eqb (nc D) (nc A)); cbn [negb]; [|discriminate]. intros H. apply (f_equal (fun r => match r with Ok p => Ok (fst p) | Err e => Err e end)) in H. exact H.
  - discriminate.
  - discriminate.
Qed.
Lemma vsolver_square i : square_hamiltonians 4 (vsolver i).
Proof.
  assert (H1 : is_matrix (S:=RS) 4 4 vdrift) by apply is_matrix_wfm, wfm_mk2. assert (H2 : is_matrix (S:=RS) 4 4 vctrl) by apply is_matrix_wfm, wfm_mk2.
  split; repeat constructor; assumption.
Qed.
Lemma vsolver_optimised (init : op) k : is_matrix (S:=RS) 4 k init -> optimised wla c0 wd wtau (vsolver (Some init)) 4 k.
Proof.
  intros H. destruct (@frechet_exact wla c0 4 (vsolver (Some init)) (wla_exact 4) eq_refl (vsolver_square _)) as [E _].
  constructor; auto using vsolver_built, vsolver_good, vsolver_square; try exact I; try reflexivity.
Qed.
Lemma vsolver_answers i : answering wla c0 4 (vsolver i).
Proof. apply (@frechet_exact wla c0 4 (vsolver i) (wla_exact 4) eq_refl (vsolver_square _)). Qed.
Lemma vsolver_amps rexp i y : right_amplitudes rexp wd (vsolver i) y.
Proof.
  intros x _. change (c_amp (s_conf (vsolver i))) with wamp. cbn [correct_derivative wamp]. split; [reflexivity|]. intros t p _ _.
  set (z := ent x t p). replace (2 * z)%R with (1 * z + z * 1)%R by ring. apply (derivable_pt_lim_mult (fun x => x) (fun x => x)); apply derivable_pt_lim_id.
Qed.
Lemma vy_evaluable rexp i : evaluable rexp wla c0 4 (vsolver i) wy.
Proof. split; [reflexivity|]. split; [apply vsolver_answers|]. split; [reflexivity|]. split; [discriminate|]. eexists. reflexivity. Qed.
Definition vket : op := mk2 4 1 (fun i _ => if Nat.eqb i 0 then c1 else c0).
Definition vtarget : op := mk2 2 1 (fun i _ => if Nat.eqb i 1 then c1 else c0).
Lemma vket_matrix : is_matrix (S:=RS) 4 1 vket. Proof. apply is_matrix_wfm, wfm_mk2. Qed.
Lemma vtarget_matrix : is_matrix (S:=RS) 2 1 vtarget. Proof. apply is_matrix_wfm, wfm_mk2. Qed.
Lemma vpart : proper_part [2; 2] [1].
Proof. repeat split; try (cbn; lia); try discriminate. repeat constructor; cbn; tauto. Qed.
End Wit.
