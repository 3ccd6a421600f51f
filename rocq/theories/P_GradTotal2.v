(** The five gradients by the pulse: they are returned and they are the derivatives of the returned costs (C66). *)
Require Import List Arith Lia Bool Reals Lra.
From Verif Require Import LibBase LibRing LibArr LibCplx LibMat LibNorm LibDeriv M_Matrix S_Linear S_Deriv S_Exp P_Linear P_Matrix P_Frechet P_Mexp P_Total M_OpHeap M_Transfer S_Transfer M_Amplitude S_Amplitude P_Transfer P_Amplitude M_Solver S_Solver M_Cost S_Cost S_CostGrad M_Simulator M_CostProg S_Simulator S_Gradient P_Loops P_Cost P_Cost2 P_CostGrad P_CostGrad2 P_GradCurve P_Grad P_GradTotal.
Import ListNotations.
Local Open Scope res_scope.
Set Implicit Arguments.

Section Total2.
Add Field Cfield_gt2 : (c_field RField).
Variable rexp : R -> R.
Variable la : LinAlg RField.
Variable eps : cplx RField.
Notation op := (op RField).
Notation st := (@st RField).
Notation returns := (returns (F:=RField) rexp la eps).
Notation ev := (ev rexp la eps).

Lemma ev_operation V cs b f fs : returns f SFwd (VOps fs) ->
  ev f (prog_operation_infidelity la V false cs b) = (v <- operation_infidelity la (only_fwd fs) V false cs b ;; Ok (scalar RField v)).
Proof. unfold S_Solver.returns. intros H. cbn [P_GradTotal.ev prog_operation_infidelity]. rewrite H. reflexivity. Qed.
Lemma ev_state t cs b f fs : returns f SFwd (VOps fs) ->
  ev f (prog_state_infidelity la t cs b) = (v <- state_infidelity la (only_fwd fs) t cs b ;; Ok (scalar RField v)).
Proof. unfold S_Solver.returns. intros H. cbn [P_GradTotal.ev prog_state_infidelity]. rewrite H. reflexivity. Qed.
Lemma ev_leakage cs f fs : returns f SFwd (VOps fs) ->
  ev f (prog_leakage la cs) = (v <- leakage la (only_fwd fs) cs ;; Ok (scalar RField v)).
Proof. unfold S_Solver.returns. intros H. cbn [P_GradTotal.ev prog_leakage]. rewrite H. reflexivity. Qed.
Lemma ev_operation_grad V cs b f fs rs ds ders : returns f SFwd (VOps fs) -> returns f SRev (VOps rs) -> returns f SDer (VDer ds) -> cells ds = Ok ders ->
  ev f (prog_operation_infidelity_grad la V false cs b) = operation_infidelity_grad la (mkreads fs rs ders [] [] [] 0 0 0) V false cs b.
Proof. unfold S_Solver.returns. intros H1 H2 H3 H4. cbn [P_GradTotal.ev prog_operation_infidelity_grad]. rewrite H1. cbn [bind]. rewrite H2. cbn [bind]. rewrite H3. cbn [bind]. rewrite H4. reflexivity. Qed.
Lemma ev_state_grad t cs b f fs rs ds ders : returns f SFwd (VOps fs) -> returns f SRev (VOps rs) -> returns f SDer (VDer ds) -> cells ds = Ok ders ->
  ev f (prog_state_infidelity_grad la t cs b) = state_infidelity_grad la (mkreads fs rs ders [] [] [] 0 0 0) t cs b.
Proof. unfold S_Solver.returns. intros H1 H2 H3 H4. cbn [P_GradTotal.ev prog_state_infidelity_grad]. rewrite H1. cbn [bind]. rewrite H2. cbn [bind]. rewrite H3. cbn [bind]. rewrite H4. reflexivity. Qed.
Lemma ev_leakage_grad cs f fs rs ds ders : returns f SFwd (VOps fs) -> returns f SRev (VOps rs) -> returns f SDer (VDer ds) -> cells ds = Ok ders ->
  ev f (prog_leakage_grad la cs) = leakage_grad la (mkreads fs rs ders [] [] [] 0 0 0) cs.
Proof. unfold S_Solver.returns. intros H1 H2 H3 H4. cbn [P_GradTotal.ev prog_leakage_grad]. rewrite H3. cbn [bind]. rewrite H1. cbn [bind]. rewrite H2. cbn [bind]. rewrite H4. reflexivity. Qed.

Section One.
Variables (d : desc RField) (tau : list R) (s0 : st) (n k : nat) (c : @cfun RField) (y : RA).
Hypothesis O : optimised la eps d tau s0 n k.
Hypothesis EV : evaluable rexp la eps n s0 y.
Hypothesis HA : right_amplitudes rexp d s0 y.
Hypothesis Wy : wfa [length tau; ctrls d] y.
Notation goal := (exists phi h, costs_number rexp la eps d tau s0 c phi /\ gradient_at (F:=RField) rexp la eps s0 c y h /\ is_pulse_gradient d tau phi y h).

Lemma total_operation V b : n = k -> is_matrix n n V ->
  cf_costs c = prog_operation_infidelity la V false None b -> cf_grad c = prog_operation_infidelity_grad la V false None b -> goal.
Proof.
  intros En HV Ec Eg. destruct EV as (Hcl & AN & LD & HT & x & Hx). destruct (@both rexp la eps d tau s0 n k c y x O Hcl AN LD HT HA Wy Hx (fun r => operation_infidelity la r V false None b) (fun r => operation_infidelity_grad la r V false None b)) as (phi & h & P1 & P2).
  - intros f fs. rewrite Ec. apply ev_operation.
  - intros f fs rs ds ders. rewrite Eg. apply ev_operation_grad.
  - intros r U HU HM. unfold operation_infidelity. rewrite (idx_last_ok HU). cbn [bind]. rewrite <- En in HM. rewrite (ent_fid_val la b HV HM). cbn [bind]. eauto.
  - intros r HL. rewrite <- En in HL. destruct (@infidelity_gradient la n _ _ r V b b HV HL) as (g & E & W & _). eauto.
  - exists phi, h. split; auto. split; auto. eapply pulse_operation; eauto.
Qed.
Lemma total_operation_sub V cs : n = k -> is_matrix (length cs) (length cs) V -> cs <> [] -> (forall i, In i cs -> i < n) ->
  cf_costs c = prog_operation_infidelity la V false (Some cs) false -> cf_grad c = prog_operation_infidelity_grad la V false (Some cs) false -> goal.
Proof.
  intros En HV Hne Hcs Ec Eg. destruct EV as (Hcl & AN & LD & HT & x & Hx). destruct (@both rexp la eps d tau s0 n k c y x O Hcl AN LD HT HA Wy Hx (fun r => operation_infidelity la r V false (Some cs) false) (fun r => operation_infidelity_grad la r V false (Some cs) false)) as (phi & h & P1 & P2).
  - intros f fs. rewrite Ec. apply ev_operation.
  - intros f fs rs ds ders. rewrite Eg. apply ev_operation_grad.
  - intros r U HU HM. unfold operation_infidelity. rewrite (idx_last_ok HU). cbn [bind]. rewrite <- En in HM. destruct (@block_of RField la n U cs HM Hcs) as (B & HB & _).
    rewrite (@ent_fid_sub RField la n V U cs false B HV HM Hcs HB), (ent_fid_val la false HV (proj1 HB)). cbn [bind]. eauto.
  - intros r HL. rewrite <- En in HL. destruct (@infidelity_gradient_sub la n _ _ r V cs false HV Hne Hcs HL) as (g & E & W & _). eauto.
  - exists phi, h. split; auto. split; auto. eapply pulse_operation_sub; eauto.
Qed.
Lemma total_state phi0 b : k = 1 -> is_matrix n 1 phi0 -> 1 < n ->
  cf_costs c = prog_state_infidelity la phi0 None b -> cf_grad c = prog_state_infidelity_grad la phi0 None b -> goal.
Proof.
  intros Ek HV Hn Ec Eg. destruct EV as (Hcl & AN & LD & HT & x & Hx). destruct (@both rexp la eps d tau s0 n k c y x O Hcl AN LD HT HA Wy Hx (fun r => state_infidelity la r phi0 None b) (fun r => state_infidelity_grad la r phi0 None b)) as (phi & h & P1 & P2).
  - intros f fs. rewrite Ec. apply ev_state.
  - intros f fs rs ds ders. rewrite Eg. apply ev_state_grad.
  - intros r U HU HM. unfold state_infidelity. rewrite (idx_last_ok HU). cbn [bind]. rewrite Ek in HM. destruct (@as_bra_ket n phi0 HV) as [HB _]; try lia.
    rewrite (@state_fid_val RField la n _ U b HB HM). cbn [bind]. eauto.
  - intros r HL. rewrite Ek in HL. destruct (@state_infidelity_gradient la n _ _ r phi0 b b HV Hn HL) as (g & E & W & _). eauto.
  - exists phi, h. split; auto. split; auto. eapply pulse_state; eauto.
Qed.
Lemma total_state_sub phi0 cs b : k = 1 -> is_matrix (length cs) 1 phi0 -> 1 < length cs -> n <> 1 -> (forall i, In i cs -> i < n) ->
  cf_costs c = prog_state_infidelity la phi0 (Some cs) b -> cf_grad c = prog_state_infidelity_grad la phi0 (Some cs) b -> goal.
Proof.
  intros Ek HV Hl Hn Hcs Ec Eg. destruct EV as (Hcl & AN & LD & HT & x & Hx). destruct (@both rexp la eps d tau s0 n k c y x O Hcl AN LD HT HA Wy Hx (fun r => state_infidelity la r phi0 (Some cs) b) (fun r => state_infidelity_grad la r phi0 (Some cs) b)) as (phi & h & P1 & P2).
  - intros f fs. rewrite Ec. apply ev_state.
  - intros f fs rs ds ders. rewrite Eg. apply ev_state_grad.
  - intros r U HU HM. unfold state_infidelity. rewrite (idx_last_ok HU). cbn [bind]. rewrite Ek in HM. destruct (@as_bra_ket (length cs) phi0 HV) as [HB _]; try lia.
    rewrite (@state_fid_sub RField la n _ U cs b HB HM Hn Hcs). cbn [bind]. eauto.
  - intros r HL. rewrite Ek in HL. destruct (@state_infidelity_gradient_sub la n _ _ r phi0 cs b HV Hl Hn Hcs HL) as (g & E & W & _). eauto.
  - exists phi, h. split; auto. split; auto. eapply pulse_state_sub; eauto.
Qed.
Lemma total_leakage cs : n = k -> cs <> [] -> levels n cs -> Forall (is_hermitian (S:=RS) n : op -> Prop) (s_drift s0) -> Forall (is_hermitian (S:=RS) n : op -> Prop) (c_ctrl (s_conf s0)) ->
  is_unitary (S:=RS) n (c_init (s_conf s0)) -> cf_costs c = prog_leakage la cs -> cf_grad c = prog_leakage_grad la cs -> goal.
Proof.
  intros En Hne Hcs Hd Hcc Hi Ec Eg. destruct EV as (Hcl & AN & LD & HT & x & Hx). destruct (@both rexp la eps d tau s0 n k c y x O Hcl AN LD HT HA Wy Hx (fun r => leakage la r cs) (fun r => leakage_grad la r cs)) as (phi & h & P1 & P2).
  - intros f fs. rewrite Ec. apply ev_leakage.
  - intros f fs rs ds ders. rewrite Eg. apply ev_leakage_grad.
  - intros r U HU HM. unfold leakage. rewrite (idx_last_ok HU). cbn [bind]. rewrite <- En in HM. destruct (@block_of RField la n U cs HM (proj2 Hcs)) as (B & [HB _] & ->). cbn [bind].
    apply is_matrix_wfm in HB. rewrite (op_dag_mdag HB). cbn [op_imul]. unfold np_matmul_out. rewrite (@mm_ok RField (length cs) (length cs) (length cs)) by wf_solve. cbn [bind].
    rewrite (@wfm_nc RS (length cs) (length cs) (mmul (S:=RS) (mdag (S:=RS) B) B)), (@wfm_nc RS (length cs) (length cs) (mdag (S:=RS) B)) by wf_solve. rewrite Nat.eqb_refl. cbn [bind]. eauto.
  - intros r HL. rewrite <- En in HL. destruct (@leakage_gradient la n _ _ r cs Hne Hcs HL) as (g & E & W & _). eauto.
  - exists phi, h. split; auto. split; auto. eapply pulse_leakage; eauto.
Qed.
End One.

(** method "Frechet" with the promises of scipy *)
Lemma scaled_derivative n (t : R) (G D X : op) : is_matrix n n G -> is_matrix n n D ->
  is_exp_derivative n c1 (mscale (S:=RS) (cofk (t : RField)) G) (mscale (S:=RS) (cofk (t : RField)) D) X -> is_exp_derivative n (cofk (t : RField)) G D X.
Proof.
  intros HG HD [W H]. split; auto. intros Z E HZ HE i j Hi Hj. apply (H Z E); auto. intros s. destruct (HZ s) as [WZ EZ]. split; auto. intros a b Ha Hb. rewrite EZ by auto.
  apply is_matrix_wfm in HG. apply is_matrix_wfm in HD. rewrite !(@mg_mscale RS n n) by auto. simpl. cring.
Qed.
Lemma frechet_exact n (s0 : st) : scipy_exact la n -> c_meth (s_conf s0) = Frechet -> square_hamiltonians n s0 ->
  exact_exponentials la eps n s0 /\ answering la eps n s0.
Proof.
  intros [SE SD] Hm HS.
  assert (DD : forall c D, is_direction (F:=RField) n (nth c (c_ctrl (s_conf s0)) dop) D -> is_matrix n n D) by (intros c D [W _]; exact W).
  assert (SC : forall (t : R) (A : op), is_matrix n n A -> is_matrix n n (mscale (S:=RS) (cofk (t : RField)) A)).
  { intros t A HA'. apply is_matrix_wfm. apply is_matrix_wfm in HA'. now apply wfm_mscale. }
  assert (SQ : forall A : op, is_matrix n n A -> nr A = n /\ nc A = n). { intros A HA'. apply is_matrix_wfm in HA'. split; [apply (wfm_nr HA')|apply (wfm_nc HA')]. }
  split; intros t tau' u G Ht [WG _]; rewrite Hm; destruct (SQ G WG) as [R1 R2]; (split; [|intros c D]).
  - intros E. unfold op_exp. rewrite R1, R2, Nat.eqb_refl. cbn [negb]. intros H. injection H as <-. apply SE. now apply SC.
  - intros E X _ HD. pose proof (DD _ _ HD) as WD. destruct (SQ D WD) as [R3 R4]. unfold op_dexp. rewrite R1, R2, R3, R4, !Nat.eqb_refl. cbn [negb andb]. intros H. injection H as H.
    apply scaled_derivative; auto. replace X with (snd (la_expm_frechet la (mscale (S:=RS) (cofk (tau' : RField)) G) (mscale (S:=RS) (cofk (tau' : RField)) D))); [apply SD; now apply SC|].
    match type of H with ?a = ?b => change (snd a = snd b) end. now rewrite H.
  - unfold op_exp. rewrite R1, R2, Nat.eqb_refl. cbn [negb]. eauto.
  - intros _ HD. pose proof (DD _ _ HD) as WD. destruct (SQ D WD) as [R3 R4]. unfold op_dexp. rewrite R1, R2, R3, R4, !Nat.eqb_refl. cbn [negb andb]. eauto.
Qed.
End Total2.
