(** A concrete noise trace for C84: a qubit with noise along sigma_x in two time steps, two traces. *)
Require Import List Arith Lia Bool Reals Lra.
From Verif Require Import LibBase LibRing LibArr LibCplx LibMat LibNorm LibDeriv M_Matrix S_Linear S_Deriv S_Exp P_Linear P_Matrix P_Frechet P_Mexp P_Mexp2 P_Total M_OpHeap M_Transfer S_Transfer M_Amplitude S_Amplitude P_Transfer P_Amplitude M_Solver S_Solver M_Cost S_Cost S_CostGrad M_Simulator M_CostProg S_Simulator S_Gradient P_Loops P_Cost P_Grad P_GradTotal P_GradTotal2 P_GradSim P_GradWit S_Lindblad S_Invariance P_Invariance P_Invariance2 P_InvarianceWit P_GradNoise P_GradNoise2 P_GradNoise3 P_GradNoiseWit S_Sensitive P_Sensitive P_Sensitive2 P_Sensitive3 P_Sensitive4 P_SensitiveWit.
Import ListNotations.
Local Open Scope res_scope.
Set Implicit Arguments.

Section Wit.
Add Field Cfield_senw2 : (c_field RField).
Notation op := (op RField).
Notation st := (@st RField).
Notation arr2 n h := (mk2 n n (h : nat -> nat -> RC) : op).
Variable rexp : R -> R.
Notation evolution := (evolution rexp wla c0).

(** the samples of trace j are (j + 1) / 100 in both steps *)
Definition vmc : @mcconf RField := mkmc (F:=RField) [arr2 2 hx] 2 (mk3 1 2 2 (fun _ k _ => (INR (k + 1) / 100)%R)) NNone PSeq.
Definition vbuild : res st :=
  build_solver (F:=RField) (CMonteCarlo vmc) [arr2 2 hz; arr2 2 hx] [arr2 2 hx] [1; 2]%R (Some (arr2 2 hone)) None Frechet false false GNone (mk_identity (F:=RField) 1) AIdentity None.
Definition vsolver : st := match vbuild with Ok s => s | Err _ => isolver [] [] [] (Arr [] []) end.
Lemma vbuild_ok : vbuild = Ok vsolver. Proof. reflexivity. Qed.
Definition vset : st := fst (sstep (F:=RField) rexp wla c0 vsolver (SSet (F:=RField) (ipulse [1; 3]%R))).
Lemma vset_pulse : with_pulse (F:=RField) rexp wla c0 vsolver (ipulse [1; 3]%R) vset.
Proof. unfold with_pulse. assert (H : snd (sstep (F:=RField) rexp wla c0 vsolver (SSet (F:=RField) (ipulse [1; 3]%R))) = Ok VUnit) by reflexivity. unfold vset. destruct (sstep _ _ _ _ _). cbn [fst snd] in *. now rewrite H. Qed.
Lemma vset_ok : snd (sstep (F:=RField) rexp wla c0 vsolver (SSet (F:=RField) (ipulse [1; 3]%R))) = Ok VUnit. Proof. reflexivity. Qed.
Lemma vset_conf : s_conf vset = s_conf vsolver. Proof. reflexivity. Qed.
Lemma vset_drift : s_drift vset = s_drift vsolver. Proof. reflexivity. Qed.
Lemma vset_time : s_time vset = s_time vsolver. Proof. reflexivity. Qed.
Lemma vset_props : exists ps, returns (F:=RField) rexp wla c0 vset SPropag (VProp ps). Proof. eexists. reflexivity. Qed.
Lemma vset_nprops : exists ps, returns (F:=RField) rexp wla c0 vset SNProp (VDer ps). Proof. eexists. reflexivity. Qed.
Lemma vset_amps : amplitudes (F:=RField) vset (ipulse [1; 3]%R). Proof. split; reflexivity. Qed.
Lemma vtime : s_time vsolver = [1; 2]%R.
Proof. transitivity (map (fun x : R => kdivn (F:=RField) x 1) [1; 2]%R : list R); [reflexivity|cbn [map]; rewrite !kdivn_1; reflexivity]. Qed.
Lemma vconf : s_conf vsolver = mkconf (CMonteCarlo vmc) [arr2 2 hx] (arr2 2 hone) Frechet false false GNone AIdentity. Proof. reflexivity. Qed.
Lemma vdrift : s_drift vsolver = [arr2 2 hz; arr2 2 hx]. Proof. reflexivity. Qed.
Lemma used_once (d : desc RField) (s0 : st) y : constructed (F:=RField) d s0 -> good wla c0 (s_conf s0) -> snd (sstep (F:=RField) rexp wla c0 s0 (SSet (F:=RField) y)) = Ok VUnit ->
  used (F:=RField) rexp wla c0 d s0 (fst (sstep (F:=RField) rexp wla c0 s0 (SSet (F:=RField) y))).
Proof.
  intros HC G Y. split; [exact HC|]. split; [exact G|]. exists [SSet (F:=RField) y]. split; [constructor; [right; now exists y|constructor]|]. split; [|reflexivity].
  split; [now exists VUnit|exact I].
Qed.
Lemma vsquare : square_hamiltonians (F:=RField) 2 vsolver.
Proof. split; rewrite ?vdrift, ?vconf; cbn [c_ctrl]; repeat constructor; apply is_matrix_wfm, wfm_mk2. Qed.
Lemma vgood : good wla c0 (s_conf vsolver).
Proof.
  rewrite vconf. constructor.
  - exact I.
  - intros A D E X t. cbn [c_meth]. unfold op_dexp, op_exp. destruct (Nat.eqb (nr A) (nc A)); cbn [andb negb]; [|discriminate].
    destruct (Nat.eqb (nr D) (nr A) && Nat.eqb (nc D) (nc A)); cbn [negb]; [|discriminate]. intros H. apply (f_equal (fun r => match r with Ok p => Ok (fst p) | Err e => Err e end)) in H. exact H.
  - discriminate.
  - discriminate.
Qed.
Lemma vbuilt : constructed_on (DId (F:=RField) 1) [1; 2]%R vsolver.
Proof.
  split; [exact I|]. exists (CMonteCarlo vmc), [arr2 2 hz; arr2 2 hx], [arr2 2 hx], (Some (arr2 2 hone)), None, Frechet, false, false, GNone, (mk_identity (F:=RField) 1), AIdentity, None.
  split; [reflexivity|exact vbuild_ok].
Qed.
Lemma voptimised : optimised wla c0 (DId (F:=RField) 1) [1; 2]%R vsolver 2 2.
Proof.
  destruct (@frechet_exact wla c0 2 vsolver (wla_exact 2) eq_refl vsquare) as [E _].
  constructor; auto using vbuilt, vgood, vsquare; try exact I; try (rewrite vconf; reflexivity); try (cbn; lia). rewrite vconf. apply is_matrix_wfm, wfm_mk2.
Qed.
Lemma vsampled (s : st) : s_conf s = s_conf vsolver -> s_time s = s_time vsolver -> sampled (F:=RField) 2 s vmc.
Proof. intros E1 E2. split; [now rewrite E1, vconf|]. split; [constructor; [apply is_matrix_wfm, wfm_mk2|constructor]|]. rewrite E2, vtime. apply wfa_mk3. Qed.
Lemma vnoisy : noisy wla c0 2 vsolver vmc.
Proof.
  split; [now apply vsampled|]. split; [reflexivity|]. split; [discriminate|]. split; [apply frechet_noisy; [apply wla_exact|now rewrite vconf]|]. rewrite vdrift, vtime. split; [reflexivity|discriminate].
Qed.
Lemma case_noise : exists ps fs pss fss gs f g, evolution vset 2 2 (ipulse [1; 3]%R) ps fs /\ hermitian_system 2 vset /\ sampled (F:=RField) 2 vset vmc /\ exact_noise_steps wla 2 vset (mc_ops vmc) /\
  returns (F:=RField) rexp wla c0 vset SNProp (VDer pss) /\ returns (F:=RField) rexp wla c0 vset SNFwd (VNOps fss) /\ nth_error fss 1 = Some gs /\ nth_error gs 2 = Some g /\ nth_error fs 2 = Some f /\
  (gap 2 g f 0 <= 3 / 50)%R.
Proof.
  destruct vset_props as [ps Hp]. destruct vset_nprops as [pss Hn].
  destruct (@mc_reads rexp wla c0 (DId (F:=RField) 1) [1; 2]%R vsolver 2 2 vmc voptimised vnoisy _ (@pulse_free_noise wla c0 vsolver 2 vmc vnoisy (or_introl eq_refl)) vset (ipulse [1; 3]%R) vset_pulse) as (x & u & es & ders & ess & derss & _ & _ & TR & LE & _ & TRS & HF & _ & _ & HN & _).
  set (fs := fwd_list vsolver es) in *. set (fss := map (fwd_list vsolver) ess) in *.
  destruct (@frechet_exact wla c0 2 vsolver (wla_exact 2) ltac:(now rewrite vconf) vsquare) as [EX AN].
  assert (E : evolution vset 2 2 (ipulse [1; 3]%R) ps fs).
  { constructor; auto.
    - exists (DId (F:=RField) 1), vsolver. apply used_once; [|exact vgood|exact vset_ok].
      split; [exact I|]; destruct vbuilt as (_ & a1 & a2 & a3 & a4 & a5 & a6 & a7 & a8 & a9 & a10 & a11 & a12 & B1 & B2); exists a1, a2, a3, [1; 2]%R, a4, a5, a6, a7, a8, a9, a10, a11, a12; auto.
    - rewrite vset_conf, vconf. exact I.
    - destruct vsquare. split; [now rewrite vset_drift|now rewrite vset_conf].
    - apply vset_amps.
    - rewrite vset_conf, vconf. apply is_matrix_wfm, wfm_mk2.
    - intros t tau' v GG X Ht HG HE. rewrite vset_time in Ht. rewrite vset_conf, vset_drift in HG. rewrite vset_conf in HE. exact (proj1 (EX t tau' v GG Ht HG) X HE). }
  assert (HS : hermitian_system 2 vset).
  { constructor; rewrite ?vset_drift, ?vset_conf, ?vset_time, ?vdrift, ?vconf, ?vtime; auto; cbn [c_ctrl].
    - exact (Forall_cons _ wsz_herm (Forall_cons _ wsx_herm (Forall_nil _))).
    - exact (Forall_cons _ wsx_herm (Forall_nil _)). }
  assert (SM : sampled (F:=RField) 2 vset vmc) by (apply vsampled; [apply vset_conf|apply vset_time]).
  assert (XN : exact_noise_steps wla 2 vset (mc_ops vmc)).
  { destruct vnoisy as (_ & _ & _ & XX & _). intros t tau' a b G X Ht HG HE. rewrite vset_time in Ht. rewrite vset_conf, vset_drift in HG. rewrite vset_conf in HE. destruct (XX t tau' a b G Ht HG) as [(X' & Y1 & Y2) _]. rewrite Y1 in HE. now injection HE as ->. }
  assert (HO : Forall (is_hermitian (S:=RS) 2 : op -> Prop) (mc_ops vmc)) by exact (Forall_cons _ wsx_herm (Forall_nil _)).
  destruct (nth_error fss 1) as [gs|] eqn:Hgs; [|apply nth_error_None in Hgs; unfold fss in Hgs; rewrite map_length, LE in Hgs; cbn in Hgs; lia].
  destruct (@noise_path rexp wla c0 vset 2 2 _ ps fs vmc pss fss 1 gs 2 E HS SM eq_refl HO XN Hn HN Hgs ltac:(rewrite vset_time, vtime; auto)) as (Lg & _).
  destruct (nth_error gs 2) as [g|] eqn:Hg; [|apply nth_error_None in Hg; rewrite Lg, vset_time, vtime in Hg; cbn in Hg; lia].
  destruct (nth_some (t := 2) E) as [f Hf]; [rewrite vset_time, vtime; auto|].
  exists ps, fs, pss, fss, gs, f, g. do 9 (split; auto).
  pose proof (@noise_change rexp wla c0 vset 2 2 _ ps fs vmc pss fss one_ 1 gs 2 f g 0 E HS SM eq_refl HO XN Hn HN) as G.
  specialize (G ltac:(intros o Ho; destruct o; [exact hx_limited|cbn in Ho; lia]) Hgs Hg Hf ltac:(lia)). rewrite vset_time, vtime, vset_conf, vconf in G. cbn [c_init] in G. rewrite (unitary_size hone_unitary) in G by lia.
  unfold weighted_noise, one_ in G. cbn [mc_ops mc_samples vmc length total nth] in G. rewrite !get3_mk3 in G by lia. cbn [Nat.add INR] in G. rewrite (Rabs_right 1), (Rabs_right 2), (Rabs_right ((1 + 1) / 100)) in G by lra. lra.
Qed.
End Wit.
