(** C75, noise on the parameters of a nonlinear amplitude function: the returned gradient misses the change of the noise amplitudes. *)
Require Import List Arith Lia Bool Reals Lra.
From Verif Require Import LibBase LibRing LibArr LibCplx LibMat LibNorm LibDeriv M_Matrix S_Linear S_Deriv S_Exp P_Linear P_Matrix P_Frechet P_Mexp P_Mexp2 P_Total M_OpHeap M_Transfer S_Transfer M_Amplitude S_Amplitude P_Transfer P_Amplitude M_Solver S_Solver M_Cost S_Cost S_CostGrad M_Simulator M_CostProg S_Simulator S_Gradient P_Loops P_Cost P_Grad P_GradTotal P_GradTotal2 P_GradSim P_GradWit P_GradNoise P_GradNoise2 P_GradNoise3 P_GradNoiseWit.
Import ListNotations.
Local Open Scope res_scope.
Set Implicit Arguments.

Section Ref.
Add Field Cfield_gnr : (c_field RField).
Notation op := (op RField).
Notation st := (@st RField).

(** exp(-i a sigma_z) *)
Definition zgen (a : R) : op := mk2 2 2 (fun i j => if Nat.eqb i j then (if Nat.eqb i 0 then ((0, - a)%R : RC) else ((0, a)%R : RC)) else c0).
Definition zexp (a : R) : op := mk2 2 2 (fun i j => if Nat.eqb i j then (if Nat.eqb i 0 then cexpR ((0, - a)%R : RC) else cexpR ((0, a)%R : RC)) else c0).
Lemma zexp_exponential a : is_exponential 2 (zgen a) (zexp a).
Proof.
  exists (fun s => mk2 2 2 (fun i j => if Nat.eqb i j then (if Nat.eqb i 0 then cexpR (cmul (cofk (s : RField)) ((0, - a)%R : RC)) else cexpR (cmul (cofk (s : RField)) ((0, a)%R : RC))) else c0)).
  split; [intros s; apply is_matrix_wfm, wfm_mk2|]. split; [|split].
  - split; [apply is_matrix_wfm, wfm_mk2|]. intros i j Hi Hj. rewrite mg_mk2 by auto. change (cofk (0%R : RField)) with (c0 : RC).
    replace (cmul c0 ((0, - a)%R : RC)) with (c0 : RC) by cring. replace (cmul c0 ((0, a)%R : RC)) with (c0 : RC) by cring. rewrite cexpR_0. destruct i as [|[|]], j as [|[|]]; try lia; reflexivity.
  - intros t i j Hi Hj. apply (@cderiv_ext (fun s => if Nat.eqb i j then (if Nat.eqb i 0 then cexpR (cmul (cofk (s : RField)) ((0, - a)%R : RC)) else cexpR (cmul (cofk (s : RField)) ((0, a)%R : RC))) else c0)).
    { intros s. now rewrite mg_mk2 by auto. }
    unfold sumn, zgen. rewrite !mg_mk2 by auto. destruct i as [|[|]], j as [|[|]]; try lia; cbn [Nat.eqb].
    + eapply cderiv_eq; [|apply cderiv_exp]. tocplx. cring.
    + eapply cderiv_eq; [|apply cderiv_const]. tocplx. cring.
    + eapply cderiv_eq; [|apply cderiv_const]. tocplx. cring.
    + eapply cderiv_eq; [|apply cderiv_exp]. tocplx. cring.
  - unfold zexp. apply mk2_ext. intros i j Hi Hj. change (cofk (1%R : RField)) with (c1 : RC). replace (cmul c1 ((0, - a)%R : RC)) with ((0, - a)%R : RC) by cring. replace (cmul c1 ((0, a)%R : RC)) with ((0, a)%R : RC) by cring. reflexivity.
Qed.
Lemma exponential_same n (X E E' : op) : is_matrix n n X -> is_exponential n X E -> is_exponential n X E' -> E = E'.
Proof. intros W H H'. apply is_matrix_wfm in W. now rewrite (exponential_mexp W H), (exponential_mexp W H'). Qed.
Lemma zexp_fidel a : fidel 2 None (mid (S:=RS) 2) (zexp a) = (cos a * cos a)%R.
Proof.
  unfold fidel, fid, mat_overlap, blk, zexp, cnorm2, sumn. rewrite !mg_mk2 by auto. unfold mid. rewrite !mg_mk2 by auto. unfold cexpR. cbn. rewrite exp_0, cos_neg, sin_neg. field.
Qed.

(** one time step, control sigma_z, the square as the amplitude function, noise 1/2 on the parameter *)
Definition rmc : @mcconf RField := mkmc (F:=RField) [wsz] 1 (mk3 1 1 1 (fun _ _ _ => (/ 2)%R)) NControl PSeq.
Definition rtau : list R := [1]%R.
Definition rzero : op := mk2 2 2 (fun _ _ => c0).
Definition rsolver : st :=
  match build_solver (F:=RField) (CMonteCarlo rmc) [rzero] [wsz] rtau None None Frechet false false GNone (mk_identity (F:=RField) 1) wamp None with
  | Ok s => s
  | Err _ => wsolver None
  end.
Lemma rsolver_built : constructed_on (DId 1) rtau rsolver.
Proof.
  split; [exact I|]. exists (CMonteCarlo rmc), [rzero], [wsz], None, None, Frechet, false, false, GNone, (mk_identity (F:=RField) 1), wamp, None.
  split; [reflexivity|]. unfold rsolver. destruct (build_solver _ _ _ _ _ _ _ _ _ _ _ _ _) eqn:E; auto. exfalso. discriminate.
Qed.
Lemma rsolver_good : good wla c0 (s_conf rsolver).
Proof.
  constructor.
  - exact I.
  - intros A D E X t. change (c_meth (s_conf rsolver)) with Frechet. unfold op_dexp, op_exp. destruct (Nat.eqb (nr A) (nc A)); cbn [andb negb]; [|discriminate].
    destruct (Nat.eqb (nr D) (nr A) && Nat.eqb (nc D) (nc A)); cbn [negb]; [|discriminate]. intros H. apply (f_equal (fun r => match r with Ok p => Ok (fst p) | Err e => Err e end)) in H. exact H.
  - discriminate.
  - discriminate.
Qed.
Lemma rsolver_square : square_hamiltonians 2 rsolver.
Proof. split; repeat constructor; try exact (proj1 wsz_herm); apply is_matrix_wfm, wfm_mk2. Qed.
Lemma rsolver_optimised : optimised wla c0 (DId 1) rtau rsolver 2 2.
Proof.
  destruct (@frechet_exact wla c0 2 rsolver (wla_exact 2) eq_refl rsolver_square) as [E _].
  constructor; auto using rsolver_built, rsolver_good, rsolver_square; try exact I; try reflexivity. exact wid_matrix.
Qed.
Lemma rsolver_noisy : noisy wla c0 2 rsolver rmc.
Proof.
  split; [split; [reflexivity|]; split|].
  - constructor; [exact (proj1 wsz_herm)|constructor].
  - apply wfa_mk3.
  - split; [reflexivity|]. split; [discriminate|]. split; [apply frechet_noisy; [apply wla_exact|reflexivity]|]. split; [reflexivity|discriminate].
Qed.
Lemma rsolver_amps rexp y : right_amplitudes rexp (DId 1) rsolver y.
Proof.
  intros x _. change (c_amp (s_conf rsolver)) with wamp. cbn [correct_derivative wamp]. split; [reflexivity|]. intros t p _ _.
  set (z := ent x t p). replace (2 * z)%R with (1 * z + z * 1)%R by ring. apply (derivable_pt_lim_mult (fun x => x) (fun x => x)); apply derivable_pt_lim_id.
Qed.
Definition ry (v : R) : RA := Arr [1; 1] [v].
Lemma rsolver_call rexp v : snd (call (F:=RField) rexp (s_tf rsolver) (ry v)) = Ok (ry v).
Proof. reflexivity. Qed.
Definition rnz (x u : RA) (t k c : nat) : R := ((get2 0 x 0 0 + / 2) * (get2 0 x 0 0 + / 2) - get2 0 u 0 0)%R.
Lemma rsolver_noise : noise_is rsolver rmc rnz.
Proof.
  intros b x u C1 C5 C4 RK D0 D1 E. change (length (s_time rsolver)) with 1 in D0. change (length (c_ctrl (s_conf rsolver))) with 1 in D1. change (length (s_time rsolver)) with 1.
  unfold noise_array. change (mc_ampf rmc) with (@NControl RField). cbv iota. rewrite C1, C4, C5. change (c_amp (s_conf rsolver)) with wamp in *.
  destruct x as [sx dx], u as [su du]. cbn [amp_call wamp] in E. unfold vectorize in E. destruct dx as [|x0 dx]; [discriminate|]. cbn [data length Nat.eqb negb bind shape] in E. injection E as E1 E2.
  unfold rank in RK. unfold dim0, dim1 in D0, D1. cbn [shape] in *. destruct su as [|a [|b' [|]]]; try discriminate. cbn in D0, D1. subst a b' sx.
  reflexivity.
Qed.
Definition rcost : @cfun RField := mkcf 0 [0] (prog_noise_infidelity wla 1 (Some (mid (S:=RS) 2)) None false false) (prog_noise_infidelity_grad wla 1 1 1 (Some (mid (S:=RS) 2)) None false false).
Lemma ry_wf v : wfa [length rtau; ctrls (DId 1 : desc RField)] (ry v).
Proof. split; reflexivity. Qed.
Lemma rcostv v : costv wla rsolver 2 rmc 2 None (Some (mid (S:=RS) 2)) false (rnz (ry v) (ry (v * v))) (ry (v * v)) = (1 - cos ((v + / 2) * (v + / 2)) * cos ((v + / 2) * (v + / 2)))%R.
Proof.
  set (z := rnz (ry v) (ry (v * v))). unfold costv. change (mc_traces rmc) with 1. rewrite average_R. cbn [Rsum]. change (tgt wla rsolver 2 2 None (Some (mid (S:=RS) 2)) false (ry (v * v))) with (mid (S:=RS) 2).
  assert (EX : exact_on wla c0 2 rsolver (drn rsolver 2 rmc z 0)) by exact (exact_noise rsolver_noisy z 0).
  destruct (@Eg_exp wla c0 2 rsolver (drn rsolver 2 rmc z 0) (ry (v * v)) 0 EX Nat.lt_0_1) as [_ HE].
  assert (EQ : fin wla rsolver 2 (drn rsolver 2 rmc z 0) (ry (v * v)) = zexp ((v + / 2) * (v + / 2))).
  { unfold fin. change (length (s_time rsolver)) with 1. cbn [Fw]. change (c_init (s_conf rsolver)) with (mid (S:=RS) 2).
    assert (W : wfm (S:=RS) 2 2 (Eg wla 2 rsolver (drn rsolver 2 rmc z 0) (ry (v * v)) 0)) by exact (Eg_wf (ry (v * v)) EX Nat.lt_0_1).
    rewrite (@mmul_1_r RS 2 2 _ W). eapply exponential_same; [|exact HE|]; [apply is_matrix_wfm, wfm_mscale, wfm_gen1|].
    match goal with |- is_exponential 2 ?X _ => replace X with (zgen ((v + / 2) * (v + / 2))); [apply zexp_exponential|] end.
    apply (@mat_ext RS 2 2); [apply wfm_mk2|apply wfm_mscale, wfm_gen1|]. intros i j Hi Hj. rewrite (@mg_mscale RS 2 2) by (auto; apply wfm_gen1). unfold zgen, gen1, drn, shifted. rewrite !mg_mk2 by auto.
    change (s_drift rsolver) with [rzero]. change (c_ctrl (s_conf rsolver)) with [wsz]. change (mc_ops rmc) with [wsz]. cbn [length sumn nth]. unfold rzero, wsz. rewrite !mg_mk2 by auto.
    replace (stp rsolver 0) with 1%R by (change (stp rsolver 0) with (1 / (0 + 1))%R; field). unfold z, rnz, ent, ry. destruct i as [|[|]], j as [|[|]]; try lia; cbn; unfold cmul, cadd, copp, ci, cofk, c0, c1; cbn; f_equal; field. }
  rewrite EQ, zexp_fidel. cbn. field.
Qed.
Lemma sin_half : sin (/ 2) <> 0%R.
Proof. apply Rgt_not_eq. apply sin_gt_0; [lra|]. pose proof PI2_3_2. unfold PI2 in *. lra. Qed.
Lemma control_noise_square rexp : exists phi h,
  costs_number rexp wla c0 (DId 1) rtau rsolver rcost phi /\ gradient_at (F:=RField) rexp wla c0 rsolver rcost (ry 0) h /\ ~ is_pulse_gradient (DId 1) rtau phi (ry 0) h.
Proof.
  destruct (@noise_pulse_returned rexp wla c0 (DId 1) rtau rsolver 2 rmc rsolver_optimised rsolver_noisy rnz rsolver_noise 2 None (Some (mid (S:=RS) 2)) false false eq_refl (or_introl eq_refl)
     ltac:(intros V E _; injection E as <-; exact wid_matrix) rcost (ry 0) (ry 0) (@rsolver_amps rexp (ry 0)) (ry_wf 0) (rsolver_call rexp 0) eq_refl eq_refl) as (u & g & g' & a & h & CN & GA & E2 & Wg & Wg' & Eg' & Ea & Eh & _).
  eexists. exists h. split; [exact CN|]. split; [exact GA|]. intros [Wh HG].
  assert (H0 : get3 0%R h 0 0 0 = 0%R).
  { change (c_amp (s_conf rsolver)) with wamp in Ea. change (length (s_time rsolver)) with 1 in Wg'. change (length (c_ctrl (s_conf rsolver))) with 1 in Wg'. destruct g' as [sg dg]. destruct Wg' as [S1 S2]. cbn [shape data] in S1, S2. subst sg.
    cbn in Ea. injection Ea as <-. cbn in Eh. injection Eh as <-. cbn. ring. }
  specialize (HG ry (fun _ _ => 1%R)). change (length rtau) with 1 in HG. change (ctrls (DId 1 : desc RField)) with 1 in HG.
  assert (CU : curve_at 1 1 (ry 0) ry (fun _ _ => 1%R)).
  { split; [reflexivity|]. split; [intros s; split; reflexivity|]. intros t p Ht Hp. destruct t, p; try lia. apply derivable_pt_lim_id. }
  specialize (HG CU). cbn [Rsum] in HG. rewrite H0 in HG.
  assert (HD : derivable_pt_lim (fun s => (1 - cos ((s + / 2) * (s + / 2)) * cos ((s + / 2) * (s + / 2)))%R) 0 (sin (/ 2))).
  { assert (Q : derivable_pt_lim (fun s => ((s + / 2) * (s + / 2))%R) 0 1%R).
    { replace 1%R with ((1 + 0) * (0 + / 2) + (0 + / 2) * (1 + 0))%R by field. apply (derivable_pt_lim_mult (fun s => (s + / 2)%R) (fun s => (s + / 2)%R)); apply (derivable_pt_lim_plus (fun s => s) (fun _ => (/ 2)%R)); [apply derivable_pt_lim_id|apply derivable_pt_lim_const|apply derivable_pt_lim_id|apply derivable_pt_lim_const]. }
    set (q := ((0 + / 2) * (0 + / 2))%R). assert (Q2 : derivable_pt_lim (fun s => cos ((s + / 2) * (s + / 2))%R) 0 (- sin q * 1)%R).
    { apply (derivable_pt_lim_comp (fun s => ((s + / 2) * (s + / 2))%R) cos); [exact Q|]. apply derivable_pt_lim_cos. }
    replace (sin (/ 2)) with (0 - ((- sin q * 1) * cos q + cos q * (- sin q * 1)))%R.
    - apply (derivable_pt_lim_minus (fun _ => 1%R)); [apply derivable_pt_lim_const|]. apply (derivable_pt_lim_mult (fun s => cos ((s + / 2) * (s + / 2))%R) (fun s => cos ((s + / 2) * (s + / 2))%R)); exact Q2.
    - replace (/ 2)%R with (2 * q)%R by (unfold q; field). rewrite sin_2a. ring. }
  replace (0 + (0 + 0 * 1))%R with 0%R in HG by ring. apply sin_half. eapply uniqueness_limite; [exact HD|]. eapply derivable_pt_lim_ext; [|exact HG]. intros s. unfold phi. rewrite rsolver_call. change (amp_call (c_amp (s_conf rsolver)) (ry s)) with (Ok (ry (s * s))).
  cbv iota. apply rcostv.
Qed.
Lemma control_noise_witness rexp : exists (la : LinAlg RField) (eps : cplx RField) d tau (s0 : st) n (m : @mcconf RField) (c : @cfun RField) (y : RA) (target : option op) cs dd unit neglect,
  (optimised la eps d tau s0 n n /\ noisy la eps n s0 m /\ mc_ampf m = NControl /\ right_amplitudes rexp d s0 y /\ wfa [length tau; ctrls d] y /\
   (exists x, snd (call (F:=RField) rexp (s_tf s0) y) = Ok x) /\
   subspace n cs dd /\ (cs = None \/ unit = false) /\ (forall V, target = Some V -> neglect = false -> is_matrix dd dd V) /\
   cf_costs c = prog_noise_infidelity la (mc_traces m) target cs unit neglect /\
   cf_grad c = prog_noise_infidelity_grad la (mc_traces m) (length (s_time s0)) (length (c_ctrl (s_conf s0))) target cs unit neglect) /\
  exists phi h, costs_number rexp la eps d tau s0 c phi /\ gradient_at (F:=RField) rexp la eps s0 c y h /\ ~ is_pulse_gradient d tau phi y h.
Proof.
  exists wla, c0, (DId 1), rtau, rsolver, 2, rmc, rcost, (ry 0), (Some (mid (S:=RS) 2)), None, 2, false, false.
  split; [|apply control_noise_square]. split; [exact rsolver_optimised|]. split; [exact rsolver_noisy|]. split; [reflexivity|]. split; [apply rsolver_amps|]. split; [apply ry_wf|].
  split; [eexists; apply rsolver_call|]. split; [reflexivity|]. split; [now left|]. split; [intros V E _; injection E as <-; exact wid_matrix|]. split; reflexivity.
Qed.
End Ref.
