(** Concrete cases of the theorems about set_times (C26) and about the derivatives (C28). *)
Require Import List Arith Lia ZArith QArith Qcanon Bool Ring Field Reals.
From Verif Require Import LibBase LibRing LibArr LibCplx LibNorm LibMat LibEx LibDeriv M_Matrix S_Linear S_Exp P_Linear P_Spectral P_Mexp M_OpHeap M_Transfer S_Transfer M_Amplitude P_TransferWit M_Solver S_Solver S_SolverTimes S_Lindblad P_Solver9 P_SolverMC P_SolverRest P_SolverWit P_SolverCases.
Import ListNotations.
Open Scope nat_scope.
Open Scope res_scope.
Set Implicit Arguments.

Ltac vmr := vm_compute; reflexivity.
(** other step lengths for the same pulse *)
Definition tau23 : list (kcar Qf) := [qq 2 1; qq 3 1].
Definition thist : list (@sop Qf) := [SSet ya; SPropag; SFwd].
Lemma thist_ok : Forall allowed_times thist.
Proof. apply (@Forall_impl _ allowed); [intros o H; now left|apply allowedb_ok; reflexivity]. Qed.
Lemma case_times : Forall allowed_times thist /\ Forall allowed [SPropag : @sop Qf] /\ all_ok qexp qla c0 ssch (thist ++ STimes tau23 :: [SPropag]) /\
  last_set thist = Some ya /\ all_ok qexp qla c0 ssch [STimes tau23; SSet ya] /\
  s_amps (qrun ssch [STimes tau23; SSet ya]) = s_amps (qrun ssch thist) /\ s_tpars (qrun ssch [STimes tau23; SSet ya]) = s_tpars (qrun ssch thist) /\
  returns qexp qla c0 (qrun ssch [STimes tau23; SSet ya]) SPropag (VProp (vprop (rd (qrun ssch [STimes tau23; SSet ya]) SPropag))) /\
  ventry (rd (qrun ssch [STimes tau23; SSet ya]) SPropag) 0 0 0 <> ventry (rd (qrun ssch thist) SPropag) 0 0 0.
Proof.
  split; [apply thist_ok|]. split; [apply allowedb_ok; reflexivity|]. split; [apply all_okb_ok; vmr|]. split; [reflexivity|]. split; [apply all_okb_ok; vmr|].
  split; [reflexivity|]. split; [reflexivity|]. split; [apply ok_prop; vmr|].
  intros H. apply (f_equal (fun z => ceqb z (ventry (rd (qrun ssch thist) SPropag) 0 0 0))) in H. vm_compute in H. discriminate.
Qed.
Lemma case_times_then : Forall allowed_times thist /\ Forall allowed [SPropag : @sop Qf] /\ all_ok qexp qla c0 ssch (thist ++ STimes tau23 :: SSet yb :: [SPropag]) /\
  last_set thist <> Some yb /\
  returns qexp qla c0 (qrun ssch [STimes tau23; SSet yb]) SPropag (VProp (vprop (rd (qrun ssch [STimes tau23; SSet yb]) SPropag))) /\
  length (vprop (rd (qrun ssch [STimes tau23; SSet yb]) SPropag)) = 2.
Proof.
  split; [apply thist_ok|]. split; [apply allowedb_ok; reflexivity|]. split; [apply all_okb_ok; vmr|]. 
  split. { intros H. apply (f_equal (fun o => match o with Some a => aeqb a yb | None => true end)) in H. vm_compute in H. discriminate. }
  split; [apply ok_prop; vmr|vmr].
Qed.

(** the 'grape' approximation *)
Definition gr1 := qrun sgrape2 [SSet ya].
Lemma gr1_used : used qexp qla c0 (DId 1) sgrape2 gr1.
Proof. apply qused; [apply sget_constructed; reflexivity| |vmr|vmr]. apply qgood; try reflexivity; try discriminate; exact I. Qed.
Lemma case_grape : square_hamiltonians 2 gr1 /\ c_approx (s_conf gr1) = GGrape /\ returns qexp qla c0 gr1 SPropag (VProp (vprop (rd gr1 SPropag))) /\
  all_square 2 (vprop (rd gr1 SPropag)) /\ returns qexp qla c0 gr1 SDer (VDer (vder (rd gr1 SDer))) /\ length (s_time gr1) = 2.
Proof. split; [split; apply square_all; vmr|]. split; [vmr|]. split; [apply ok_prop; vmr|]. split; [apply squareb_ok; vmr|]. split; [apply ok_der; vmr|vmr]. Qed.
(** derivatives of the noisy propagators *)
Definition vnder (r : res (@sval Qf)) : list (list (list (option qop))) := match r with Ok (VNDer l) => l | _ => [] end.
Lemma ok_nder (r : res (@sval Qf)) : (match r with Ok (VNDer _) => true | _ => false end) = true -> r = Ok (VNDer (vnder r)).
Proof. destruct r as [[]|]; intros; try discriminate; reflexivity. Qed.
Lemma case_noise_derivatives : returns qexp qla c0 (mc1 PSeq) SNDer (VNDer (vnder (rd (mc1 PSeq) SNDer))) /\ c_approx (s_conf (mc1 PSeq)) = GNone /\ length (vnder (rd (mc1 PSeq) SNDer)) = 2.
Proof. split; [apply ok_nder; vmr|]. split; vmr. Qed.
Definition smcg : @st Qf := sget (sfresh (CMonteCarlo (mkmc [hz] 2 smp NNone PSeq)) [hd] [hz] (ones 2) Frechet false GGrape 1 AIdentity None).
Definition mcg := qrun smcg [SSet ya].
Lemma case_noise_grape : used qexp qla c0 (DId 1) smcg mcg /\ c_class (s_conf mcg) = CMonteCarlo (mkmc [hz] 2 smp NNone PSeq) /\ square_hamiltonians 2 mcg /\ c_approx (s_conf mcg) = GGrape /\
  returns qexp qla c0 mcg SNProp (VDer (vder (rd mcg SNProp))) /\ (forall ps, In ps (vder (rd mcg SNProp)) -> all_square 2 ps) /\
  returns qexp qla c0 mcg SNDer (VNDer (vnder (rd mcg SNDer))) /\ length (vnder (rd mcg SNDer)) = 2.
Proof.
  split; [apply qused; [apply sget_constructed; reflexivity|apply qgood; try reflexivity; try discriminate; exact I|vmr|vmr]|]. split; [reflexivity|].
  split; [split; apply square_all; vmr|]. split; [vmr|]. split; [apply ok_der; vmr|].
  split. { assert (H : forallb (forallb (squareb 2)) (vder (rd mcg SNProp)) = true) by vmr. rewrite forallb_forall in H. intros ps Hp. apply squareb_ok. now apply H. }
  split; [apply ok_nder; vmr|vmr].
Qed.

(** a control that commutes with the generator *)
Section Commuting.
Add Field Cfield_cs2 : (c_field RField).
Definition rz (z : RC) : mat RS := mk2 2 2 (fun i j => if Nat.eqb i j then (if Nat.eqb i 0 then z else copp z) else c0).
Lemma rz_wf z : wfm (S:=RS) 2 2 (rz z). Proof. apply wfm_mk2. Qed.
Lemma case_commuting : exists P E W X, is_matrix (S:=RS) 2 2 (rz ci) /\ is_matrix (S:=RS) 2 2 (rz c1) /\ is_product (S:=RS) 2 2 2 (rz ci) (rz c1) P /\ is_product (S:=RS) 2 2 2 (rz c1) (rz ci) P /\
  is_perturbed 2 c1 (rz ci) (rz c1) 0 (rz ci) /\ is_exponential 2 (rz ci) E /\ is_product (S:=RS) 2 2 2 (rz c1) E W /\ is_matrix (S:=RS) 2 2 X /\
  (forall i j, i < 2 -> j < 2 -> mg (S:=RS) X i j = cmul c1 (mg (S:=RS) W i j)).
Proof.
  pose proof (wfm_mexp (rz_wf ci) 1) as WE.
  exists (mmul (S:=RS) (rz ci) (rz c1)), (mexp (rz_wf ci) 1), (mmul (S:=RS) (rz c1) (mexp (rz_wf ci) 1)), (mmul (S:=RS) (rz c1) (mexp (rz_wf ci) 1)).
  split; [apply is_matrix_wfm, rz_wf|]. split; [apply is_matrix_wfm, rz_wf|]. split; [apply is_product_mmul; apply rz_wf|].
  split. { replace (mmul (S:=RS) (rz ci) (rz c1)) with (mmul (S:=RS) (rz c1) (rz ci)); [apply is_product_mmul; apply rz_wf|].
    apply (@mat_ext RS 2 2); [apply (@wfm_mmul RS 2 2 2); apply rz_wf|apply (@wfm_mmul RS 2 2 2); apply rz_wf|]. intros i j Hi Hj.
    rewrite !(@mg_mmul RS 2 2 2) by (auto; apply rz_wf). apply sumn_ext. intros k Hk. unfold rz. rewrite !mg_mk2 by auto. cbn [smul RS CStar].
    destruct (Nat.eqb_spec i k), (Nat.eqb_spec k j); try (subst; cring); destruct (Nat.eqb i 0), (Nat.eqb k 0); cring. }
  split. { split; [apply is_matrix_wfm, rz_wf|]. intros i j Hi Hj. change (cofk (0%R : RField)) with (c0 : RC). cring. }
  split; [apply mexp_exponential|]. split; [apply is_product_mmul; auto; apply rz_wf|]. split; [apply is_matrix_wfm; apply (@wfm_mmul RS 2 2 2); auto; apply rz_wf|].
  intros i j Hi Hj. cring.
Qed.
End Commuting.
