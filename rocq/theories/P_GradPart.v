(** The gradient of StateInfidelitySubspace by the pulse (C66, C78). *)
Require Import List Arith Lia Bool Reals Lra.
From Verif Require Import LibBase LibRing LibArr LibCplx LibMat LibNorm LibDeriv M_Matrix S_Linear S_Deriv S_Exp P_Linear P_Matrix M_OpHeap M_Transfer S_Transfer M_Amplitude S_Amplitude M_Solver S_Solver M_Cost S_Cost S_CostGrad M_Simulator M_CostProg S_Simulator S_Gradient P_Loops P_Cost P_Cost2 P_CostGrad P_CostGrad2 P_GradCurve P_Grad P_GradTotal
  S_PTrace S_CostSub M_CostSub P_CostSub P_CostSub2.
Import ListNotations.
Local Open Scope res_scope.
Set Implicit Arguments.
Notation iter := (fun l : list nat => l).

Section Part.
Variable rexp : R -> R.
Variable la : LinAlg RField.
Variable eps : cplx RField.
Notation op := (op RField).
Notation st := (@st RField).
Notation returns := (returns (F:=RField) rexp la eps).
Notation ev := (ev rexp la eps).
Variables (tol : RField) (t : op) (dims removed : list nat).
Notation cost := (fun r => state_infidelity_part iter tol r t dims removed).

Lemma ev_part f fs : returns f SFwd (VOps fs) ->
  ev f (prog_state_part iter tol t dims removed) = (v <- state_infidelity_part iter tol (only_fwd fs) t dims removed ;; Ok (scalar RField v)).
Proof. unfold S_Solver.returns. intros H. cbn [P_GradTotal.ev prog_state_part]. rewrite H. reflexivity. Qed.
Lemma ev_part_grad f fs rs ds ders : returns f SFwd (VOps fs) -> returns f SRev (VOps rs) -> returns f SDer (VDer ds) -> cells ds = Ok ders ->
  ev f (prog_state_part_grad iter t dims removed) = state_infidelity_part_grad iter (mkreads fs rs ders [] [] [] 0 0 0) t dims removed.
Proof. unfold S_Solver.returns. intros H1 H2 H3 H4. cbn [P_GradTotal.ev prog_state_part_grad]. rewrite H1. cbn [bind]. rewrite H2. cbn [bind]. rewrite H3. cbn [bind]. rewrite H4. reflexivity. Qed.
Lemma part_reads f g : evaluates (F:=RField) rexp la eps f (prog_state_part_grad iter t dims removed) g ->
  exists fs rs ds ders, returns f SFwd (VOps fs) /\ returns f SRev (VOps rs) /\ returns f SDer (VDer ds) /\ cells ds = Ok ders /\
    state_infidelity_part_grad iter (mkreads fs rs ders [] [] [] 0 0 0) t dims removed = Ok g.
Proof.
  intros (v1 & R1 & v2 & R2 & v3 & R3 & E). cbn [evaluates] in E. destruct v1; try discriminate. destruct v3; try discriminate. destruct v2; try discriminate.
  destruct (cells l0) as [ders|] eqn:Ec; [|discriminate]. cbn [bind] in E. eauto 10.
Qed.

Variables (d : desc RField) (tau : list R) (s0 : st) (n k : nat) (c : @cfun RField) (y : RA).
Hypothesis O : optimised la eps d tau s0 n k.
Hypothesis HA : right_amplitudes rexp d s0 y.
Hypothesis Wy : wfa [length tau; ctrls d] y.
Hypothesis HPP : proper_part dims removed.
Hypothesis En : n = whole dims.
Hypothesis Ek : k = 1.
Hypothesis Ht : is_matrix (own dims removed) 1 t.
Hypothesis Hn : 1 < own dims removed.
Hypothesis Ec : cf_costs c = prog_state_part iter tol t dims removed.
Hypothesis Eg : cf_grad c = prog_state_part_grad iter t dims removed.

Lemma pulse_part (h : RA) (phi : RA -> R) : gradient_at (F:=RField) rexp la eps s0 c y h -> costs_number rexp la eps d tau s0 c phi -> is_pulse_gradient d tau phi y h.
Proof.
  intros Hg Hc. eapply by_gradient with (q := cost_at cost) (mkg := fun r => state_infidelity_part_grad iter r t dims removed); eauto.
  - intros f g. rewrite Eg. apply part_reads.
  - intros r HL. rewrite Ek, En in HL |- *. now apply part_infidelity_gradient.
  - intros y' f' _ _. rewrite Ec. intros (v & R1 & R2). destruct v; try discriminate. cbn [evaluates] in R2. apply scalar_ok in R2. exists l. split; auto. intros U HU r Hr. etransitivity; [|exact R2].
    unfold state_infidelity_part. cbn [only_fwd r_fwd]. now rewrite (idx_last_ok Hr), (idx_last_ok HU).
Qed.
Lemma total_part : evaluable rexp la eps n s0 y ->
  exists phi h, costs_number rexp la eps d tau s0 c phi /\ gradient_at (F:=RField) rexp la eps s0 c y h /\ is_pulse_gradient d tau phi y h.
Proof.
  intros EV. destruct EV as (Hcl & AN & LD & HT & x & Hx). destruct (@both rexp la eps d tau s0 n k c y x O Hcl AN LD HT HA Wy Hx cost (fun r => state_infidelity_part_grad iter r t dims removed)) as (phi & h & P1 & P2).
  - intros f fs. rewrite Ec. apply ev_part.
  - intros f fs rs ds ders. rewrite Eg. apply ev_part_grad.
  - intros r U HU HM. unfold state_infidelity_part. rewrite (idx_last_ok HU). cbn [bind]. rewrite Ek, En in HM. destruct (@as_bra_ket (own dims removed) t Ht) as [HB _]; try lia.
    rewrite (@ket_value RField dims removed (place dims removed) HPP (place_ok HPP) tol _ U HB HM). cbn [bind]. eauto.
  - intros r HL. rewrite Ek, En in HL. destruct (@part_infidelity_gradient dims removed HPP tol _ _ r t Ht Hn HL) as (g & E & W & _). eauto.
  - exists phi, h. split; auto. split; auto. eapply pulse_part; eauto.
Qed.
End Part.
