(** Method "Frechet" for C75 and an instance: the solver of P_GradWit.v with noise along sigma_x and sigma_z, two traces and four time steps. *)
Require Import List Arith Lia Bool Reals Lra.
From Verif Require Import LibBase LibRing LibArr LibCplx LibMat LibNorm LibDeriv M_Matrix S_Linear S_Deriv S_Exp P_Linear P_Matrix P_Frechet P_Mexp P_Mexp2 P_Total M_OpHeap M_Transfer S_Transfer M_Amplitude S_Amplitude P_Transfer P_Amplitude M_Solver S_Solver M_Cost S_Cost S_CostGrad M_Simulator M_CostProg S_Simulator S_Gradient P_Loops P_Cost P_Grad P_GradTotal P_GradTotal2 P_GradSim P_GradWit P_GradNoise P_GradNoise2 P_GradNoise3.
Import ListNotations.
Local Open Scope res_scope.
Set Implicit Arguments.

Section NoiseWit.
Add Field Cfield_gnw : (c_field RField).
Notation op := (op RField).
Notation st := (@st RField).

Lemma frechet_noisy (la : LinAlg RField) eps n (s0 : st) ops : scipy_exact la n -> c_meth (s_conf s0) = Frechet -> exact_noisy la eps n s0 ops.
Proof.
  intros [SE SD] Hm.
  assert (SC : forall (t : R) (A : op), is_matrix n n A -> is_matrix n n (mscale (S:=RS) (cofk (t : RField)) A)).
  { intros t A HA'. apply is_matrix_wfm. apply is_matrix_wfm in HA'. now apply wfm_mscale. }
  assert (SQ : forall A : op, is_matrix n n A -> nr A = n /\ nc A = n). { intros A HA'. apply is_matrix_wfm in HA'. split; [apply (wfm_nr HA')|apply (wfm_nc HA')]. }
  intros t tau' u v G Ht [WG _]. rewrite Hm. destruct (SQ G WG) as [R1 R2]. split.
  - unfold op_exp. rewrite R1, R2, Nat.eqb_refl. cbn [negb]. eexists. split; [reflexivity|]. apply SE. now apply SC.
  - intros c D _ [WD _]. destruct (SQ D WD) as [R3 R4]. unfold op_dexp. rewrite R1, R2, R3, R4, !Nat.eqb_refl. cbn [negb andb].
    destruct (la_expm_frechet la (mscale (S:=RS) (cofk (tau' : RField)) G) (mscale (S:=RS) (cofk (tau' : RField)) D)) as [E X] eqn:EX.
    exists E, X. split; [now rewrite <- EX|]. apply scaled_derivative; auto. replace X with (snd (la_expm_frechet la (mscale (S:=RS) (cofk (tau' : RField)) G) (mscale (S:=RS) (cofk (tau' : RField)) D))) by now rewrite EX.
    apply SD; now apply SC.
Qed.

Definition nmc : @mcconf RField := mkmc (F:=RField) [wsx; wsz] 2 (mk3 2 2 4 (fun o k t => INR (o + 3 * k + t))) NNone PSeq.
Definition nbuild : res st :=
  build_solver (F:=RField) (CMonteCarlo nmc) [wsz] [wsx] wtau None None Frechet false false GNone (mk_over (F:=RField) 1 None 2) wamp None.
Definition nsolver : st :=
  match nbuild with
  | Ok s => s
  | Err _ => wsolver None
  end.
Lemma nbuild_ok : nbuild = Ok nsolver.
Proof. unfold nsolver. destruct nbuild eqn:E; auto. exfalso. discriminate. Qed.
Lemma nsolver_class : c_class (s_conf nsolver) = CMonteCarlo nmc.
Proof. reflexivity. Qed.
Lemma nsolver_good : good wla c0 (s_conf nsolver).
Proof.
  constructor.
  - exact I.
  - intros A D E X t. change (c_meth (s_conf nsolver)) with Frechet. unfold op_dexp, op_exp. destruct (Nat.eqb (nr A) (nc A)); cbn [andb negb]; [|discriminate].
    destruct (Nat.eqb (nr D) (nr A) && Nat.eqb (nc D) (nc A)); cbn [negb]; [|discriminate]. intros H. apply (f_equal (fun r => match r with Ok p => Ok (fst p) | Err e => Err e end)) in H. exact H.
  - discriminate.
  - discriminate.
Qed.
Lemma nsolver_square : square_hamiltonians 2 nsolver.
Proof. split; repeat constructor; try apply wsx_matrix; exact (proj1 wsz_herm). Qed.
Lemma nsolver_built : constructed_on wd wtau nsolver.
Proof.
  split; [exact I|]. exists (CMonteCarlo nmc), [wsz], [wsx], None, None, Frechet, false, false, GNone, (mk_over (F:=RField) 1 None 2), wamp, None.
  split; [reflexivity|]. exact nbuild_ok.
Qed.
Lemma nsolver_optimised : optimised wla c0 wd wtau nsolver 2 2.
Proof.
  destruct (@frechet_exact wla c0 2 nsolver (wla_exact 2) eq_refl nsolver_square) as [E _].
  constructor; auto using nsolver_built, nsolver_good, nsolver_square; try exact I; try reflexivity. exact wid_matrix.
Qed.
Lemma nsolver_noisy : noisy wla c0 2 nsolver nmc.
Proof.
  split; [split; [reflexivity|]; split|].
  - constructor; [exact wsx_matrix|]. constructor; [exact (proj1 wsz_herm)|constructor].
  - apply wfa_mk3.
  - split; [reflexivity|]. split; [discriminate|]. split; [apply frechet_noisy; [apply wla_exact|reflexivity]|]. split; [reflexivity|discriminate].
Qed.
Lemma nsolver_amps rexp y : right_amplitudes rexp wd nsolver y.
Proof.
  intros x _. change (c_amp (s_conf nsolver)) with wamp. cbn [correct_derivative wamp]. split; [reflexivity|]. intros t p _ _.
  set (z := ent x t p). replace (2 * z)%R with (1 * z + z * 1)%R by ring. apply (derivable_pt_lim_mult (fun x => x) (fun x => x)); apply derivable_pt_lim_id.
Qed.
Lemma nsolver_call rexp : exists x, snd (call (F:=RField) rexp (s_tf nsolver) wy) = Ok x.
Proof. eexists. reflexivity. Qed.
(** noise on the parameters, which are the control amplitudes *)
Definition cmc : @mcconf RField := mkmc (F:=RField) [wsx] 2 (mk3 1 2 4 (fun o k t => INR (o + 3 * k + t))) NControl PSeq.
Definition csolver : st :=
  match build_solver (F:=RField) (CMonteCarlo cmc) [wsz] [wsx] wtau None None Frechet false false GNone (mk_over (F:=RField) 1 None 2) AIdentity None with
  | Ok s => s
  | Err _ => wsolver None
  end.
Lemma csolver_built : constructed_on wd wtau csolver.
Proof.
  split; [exact I|]. exists (CMonteCarlo cmc), [wsz], [wsx], None, None, Frechet, false, false, GNone, (mk_over (F:=RField) 1 None 2), AIdentity, None.
  split; [reflexivity|]. unfold csolver. destruct (build_solver _ _ _ _ _ _ _ _ _ _ _ _ _) eqn:E; auto. exfalso. discriminate.
Qed.
Lemma csolver_good : good wla c0 (s_conf csolver).
Proof.
  constructor.
  - exact I.
  - intros A D E X t. change (c_meth (s_conf csolver)) with Frechet. unfold op_dexp, op_exp. destruct (Nat.eqb (nr A) (nc A)); cbn [andb negb]; [|discriminate].
    destruct (Nat.eqb (nr D) (nr A) && Nat.eqb (nc D) (nc A)); cbn [negb]; [|discriminate]. intros H. apply (f_equal (fun r => match r with Ok p => Ok (fst p) | Err e => Err e end)) in H. exact H.
  - discriminate.
  - discriminate.
Qed.
Lemma csolver_square : square_hamiltonians 2 csolver.
Proof. split; repeat constructor; try apply wsx_matrix; exact (proj1 wsz_herm). Qed.
Lemma csolver_optimised : optimised wla c0 wd wtau csolver 2 2.
Proof.
  destruct (@frechet_exact wla c0 2 csolver (wla_exact 2) eq_refl csolver_square) as [E _].
  constructor; auto using csolver_built, csolver_good, csolver_square; try exact I; try reflexivity. exact wid_matrix.
Qed.
Lemma csolver_noisy : noisy wla c0 2 csolver cmc.
Proof.
  split; [split; [reflexivity|]; split|].
  - constructor; [exact wsx_matrix|constructor].
  - apply wfa_mk3.
  - split; [reflexivity|]. split; [discriminate|]. split; [apply frechet_noisy; [apply wla_exact|reflexivity]|]. split; [reflexivity|discriminate].
Qed.
Lemma csolver_amps rexp y : right_amplitudes rexp wd csolver y.
Proof. intros x _. reflexivity. Qed.
Lemma csolver_call rexp : exists x, snd (call (F:=RField) rexp (s_tf csolver) wy) = Ok x.
Proof. eexists. reflexivity. Qed.

Lemma noise_gradient (rexp : R -> R) (la : LinAlg RField) (eps : cplx RField) d tau (s0 : st) n (m : @mcconf RField) (c : @cfun RField) (y : RA) (target : option op) cs dd unit neglect :
  optimised la eps d tau s0 n n -> noisy la eps n s0 m -> pulse_free s0 m -> right_amplitudes rexp d s0 y -> wfa [length tau; ctrls d] y ->
  (exists x, snd (call (F:=RField) rexp (s_tf s0) y) = Ok x) ->
  subspace n cs dd -> cs = None \/ unit = false -> (forall V, target = Some V -> neglect = false -> is_matrix dd dd V) ->
  cf_costs c = prog_noise_infidelity la (mc_traces m) target cs unit neglect ->
  cf_grad c = prog_noise_infidelity_grad la (mc_traces m) (length (s_time s0)) (length (c_ctrl (s_conf s0))) target cs unit neglect ->
  exists phi h, costs_number rexp la eps d tau s0 c phi /\ gradient_at (F:=RField) rexp la eps s0 c y h /\ is_pulse_gradient d tau phi y h.
Proof. intros O N Hf HA Wy [x Hx] Hcs Hu Ht Ec Eg. refine (noise_pulse_gradient O N (pulse_free_noise N Hf) Hcs Hu Ht c HA Wy Hx Ec Eg _). reflexivity. Qed.

Definition ncost target cs neglect : @cfun RField :=
  mkcf 0 [0] (prog_noise_infidelity wla 2 target cs false neglect) (prog_noise_infidelity_grad wla 2 4 1 target cs false neglect).
Definition nsim : @sim RField := mksim [0] [ncost (Some wsx) None false; ncost None (Some [1]) true; ncost None None false] None false.
Definition nworld : @world RField := [nsolver].
Lemma nsim_set_up : set_up (F:=RField) wla c0 nsim nworld.
Proof.
  split; [|split; [|split]].
  - intros s0 [<-|[]]. exists wd. split; [|apply nsolver_good]. destruct (built_fresh (fun x => x) nsolver_built nsolver_good) as (_ & H & _). exact H.
  - intros i [<-|[]]. cbn. lia.
  - discriminate.
  - intros c [<-|[<-|[<-|[]]]]; (split; [now left|]); (split; cbn; repeat split; auto; intros; repeat match goal with v : @sval _ |- _ => destruct v end; cbn; auto);
      repeat (split; auto; intros); repeat match goal with v : @sval _ |- _ => destruct v; cbn; auto end; repeat (split; auto; intros); repeat match goal with v : @sval _ |- _ => destruct v; cbn; auto end.
Qed.
Lemma nsim_accepted rexp y' : wfa [2; 1] y' -> accepted (F:=RField) rexp wla c0 nsim nworld y'.
Proof.
  intros W i s0 [<-|[]] E. injection E as <-. destruct (nsolver_call rexp) as [x Ex].
  eapply pulse_total with (n := 2) (k := 2) (y := wy); eauto using wy_wf, nsolver_optimised, nsolver_amps; discriminate.
Qed.
Lemma nsim_differentiable rexp : Forall (fun c => differentiable rexp wla c0 nworld 2 1 c wy) (sm_cfs nsim).
Proof.
  assert (D : forall target cs dd neglect, subspace 2 cs dd -> (forall V, target = Some V -> neglect = false -> is_matrix dd dd V) ->
    differentiable rexp wla c0 nworld 2 1 (ncost target cs neglect) wy).
  { intros target cs dd neglect Hcs Ht. exists nsolver, wd, wtau.
    destruct (@noise_gradient rexp wla c0 wd wtau nsolver 2 nmc (ncost target cs neglect) wy target cs dd false neglect nsolver_optimised nsolver_noisy (or_introl eq_refl) (@nsolver_amps rexp wy) wy_wf
      (nsolver_call rexp) Hcs (or_intror eq_refl) Ht eq_refl eq_refl) as (phi & h & H). exists phi, h. repeat split; auto; apply H. }
  constructor; [|constructor; [|constructor; [|constructor]]].
  - apply (D _ None 2); [reflexivity|]. intros V E _. injection E as <-. exact wsx_matrix.
  - apply (D _ (Some [1]) 1); [split; [reflexivity|]; split; [discriminate|]; intros i [<-|[]]; lia|]. discriminate.
  - apply (D _ None 2); [reflexivity|]. discriminate.
Qed.
End NoiseWit.
