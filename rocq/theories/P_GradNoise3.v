(** Noise: the costs of OperationNoiseInfidelity as a function of the pulse and the gradient it returns (C75). *)
Require Import List Arith Lia Bool Reals Lra.
From Verif Require Import LibBase LibRing LibArr LibCplx LibMat LibNorm LibDeriv M_Matrix S_Linear S_Deriv S_Exp P_Linear P_Matrix P_Frechet P_Mexp P_Total M_OpHeap M_Transfer S_Transfer M_Amplitude S_Amplitude P_Transfer P_Transfer3 P_Transfer4 P_Transfer6 P_Amplitude M_Solver S_Solver M_Cost S_Cost S_CostGrad M_Simulator M_CostProg S_Simulator S_Gradient P_Loops P_Solver P_Solver2 P_Solver3 P_Solver4 P_Solver5 P_Solver6 P_Solver7 P_Solver8 P_Solver9 P_Cost P_Cost2 P_CostGrad P_CostGrad2 P_GradCurve P_Grad P_GradTotal P_GradTotal2 P_GradNoise P_GradNoise2.
Import ListNotations.
Local Open Scope res_scope.
Set Implicit Arguments.

(** averages over the reals *)
Lemma average_R K (f : nat -> R) : average (F:=RField) K f = (Rsum K f * / (kofnat (F:=RField) K))%R.
Proof. unfold average. rewrite Rsum_sumn. reflexivity. Qed.
Lemma average_deriv K (f : nat -> R -> R) a (l : nat -> R) : (forall i, i < K -> derivable_pt_lim (f i) a (l i)) ->
  derivable_pt_lim (fun s => average (F:=RField) K (fun i => f i s)) a (average (F:=RField) K l).
Proof.
  intros H. rewrite average_R. eapply derivable_pt_lim_ext; [intros s; symmetry; apply average_R|].
  replace (Rsum K l * / kofnat (F:=RField) K)%R with ((Rsum K l) * / kofnat (F:=RField) K + Rsum K (fun i => f i a) * 0)%R by ring.
  apply (derivable_pt_lim_mult (fun s => Rsum K (fun i => f i s)) (fun _ => / kofnat (F:=RField) K)%R); [now apply Rsum_deriv|apply derivable_pt_lim_const].
Qed.
Lemma average_pairing K T C (a : nat -> nat -> nat -> R) (v : nat -> nat -> R) :
  Rsum T (fun t => Rsum C (fun c => (average (F:=RField) K (fun i => (- a i t c)%R) * v t c)%R)) =
  average (F:=RField) K (fun i => (- Rsum T (fun t => Rsum C (fun c => (a i t c * v t c)%R)))%R).
Proof.
  rewrite average_R. set (w := (/ kofnat (F:=RField) K)%R).
  transitivity (Rsum T (fun t => Rsum C (fun c => (Rsum K (fun i => (- a i t c)%R) * w * v t c)%R))).
  { apply Rsum_ext. intros t _. apply Rsum_ext. intros c _. now rewrite average_R. }
  clearbody w. induction K as [|K IH]; cbn [Rsum].
  - rewrite Rsum_0; [ring|]. intros t _. rewrite Rsum_0; [ring|]. intros c _. ring.
  - rewrite Rmult_plus_distr_r, <- IH. rewrite Ropp_mult_distr_l_reverse, <- Ropp_mult_distr_r_reverse. rewrite <- Rsum_mul_r, <- Rsum_plus. apply Rsum_ext. intros t _. rewrite <- Rsum_mul_r, <- Rsum_plus. apply Rsum_ext. intros c _. ring.
Qed.

Section Noise3.
Add Field Cfield_gn3 : (c_field RField).
Variable rexp : R -> R.
Variable la : LinAlg RField.
Variable eps : cplx RField.
Notation op := (op RField).
Notation st := (@st RField).
Notation wfs n := (Forall (wfm (S:=RS) n n : op -> Prop)).
Notation returns := (returns (F:=RField) rexp la eps).
Notation with_pulse := (with_pulse (F:=RField) rexp la eps).
Notation optimised := (optimised la eps).
Notation ev := (ev rexp la eps).
Variables (d : desc RField) (tau : list R) (s0 : st) (n : nat) (m : @mcconf RField).
Hypothesis O : optimised d tau s0 n n.
Hypothesis N : noisy la eps n s0 m.
Variable nz : RA -> RA -> nat -> nat -> nat -> R.
Hypothesis HN : noise_is s0 m nz.
Variables (dd : nat) (cs : option (list nat)) (target : option op) (unit neglect : bool).
Hypothesis Hcs : subspace n cs dd.
Hypothesis Hunit : cs = None \/ unit = false.
Hypothesis Htarget : forall V, target = Some V -> neglect = false -> is_matrix dd dd V.
Notation T := (length (s_time s0)).
Notation C := (length (c_ctrl (s_conf s0))).
Notation K := (mc_traces m).
Notation init := (c_init (s_conf s0)).
Notation fwd_list := (fwd_list s0).
Notation rev_list := (rev_list n).

(** the final propagator *)
Definition fin (dr : nat -> op) (u : RA) : op := Fw (fun t => Eg la n s0 dr u t) init T.
Lemma trace_last dr u es ders : trace la n s0 dr u es ders -> is_last (fwd_list es) (fin dr u).
Proof.
  intros (L & W & E & _). unfold fwd_list, P_GradNoise2.fwd_list. assert (EF : fin dr u = nth T (init :: prods es init) dop).
  { unfold fin. rewrite <- L. rewrite prods_Fw by lia. apply Fw_ext. intros i Hi. symmetry. apply nth_error_nth. apply E. lia. }
  rewrite EF. destruct (@exists_last _ (init :: prods es init)) as (l' & z & El); [discriminate|]. exists l'. rewrite El. f_equal. f_equal.
  assert (LL : length l' = T). { destruct (lists_lengths es n init) as [LL _]. rewrite El, app_length in LL. cbn in LL. lia. }
  rewrite <- LL. now rewrite nth_middle.
Qed.
Lemma init_wf : wfm (S:=RS) n n init.
Proof. apply is_matrix_wfm. apply (o_init O). Qed.
Lemma fin_matrix dr u : exact_on la eps n s0 dr -> is_matrix n n (fin dr u).
Proof. intros H. apply is_matrix_wfm. unfold fin. apply wfm_Fw; [|apply init_wf]. intros t Ht. eapply Eg_wf; eauto. Qed.
Lemma trace_lists dr u es ders : trace la n s0 dr u es ders -> propagator_lists n n T C (fwd_list es) ders (rev_list es).
Proof.
  intros (L & W & _ & L1 & F1 & _). rewrite <- L, <- L1 in *. apply value_propagator_lists; auto; [apply init_wf|]. intros ->. cbn in L1. pose proof (g_ctrl (o_good O)) as X. destruct (c_ctrl (s_conf s0)); [congruence|discriminate].
Qed.
Lemma trace_final dr es ders (U : R -> RA) vu : trace la n s0 dr (U 0%R) es ders -> exact_on la eps n s0 dr -> curve_at T C (U 0%R) U vu ->
  final_propagator n n T C (fwd_list es) ders (rev_list es) vu (fun s => fin dr (U s)) 0%R.
Proof.
  intros (L & W & E & L1 & F1 & KD) EX CU. destruct (o_square O) as [_ Hcc]. apply wfs_matrix in Hcc.
  apply (@curve_final n n T C dr (c_ctrl (s_conf s0)) (stp s0) U vu (fun t s => Eg la n s0 dr (U s) t) es ders init); auto using init_wf.
  intros t s Ht. now apply (Eg_exp (U s) EX Ht).
Qed.

(** the target the noise is compared with *)
Definition tgt (u : RA) : op := match target, neglect with Some V, false => V | _, _ => blk dd cs (fin (dr0 s0) u) end.
Definition costv (w : nat -> nat -> nat -> R) (u : RA) : R := average (F:=RField) K (fun i => (1 - fidel dd cs (tgt u) (fin (drn s0 n m w i) u))%R).

Lemma finals_of w fs rs ds dss rss u ess derss K0 T0 C0 : K0 = K -> length ess = K -> (forall i, i < K -> trace la n s0 (drn s0 n m w i) u (nth i ess []) (nth i derss [])) ->
  finals (mkreads fs rs ds (map fwd_list ess) rss dss K0 T0 C0) (fun i => fin (drn s0 n m w i) u).
Proof.
  intros -> L TR i Hi. cbn [r_traces r_nfwd] in *. exists (fwd_list (nth i ess [])). split; [|eapply trace_last; eauto]. rewrite nth_error_map, (nth_error_nth' ess []) by lia. reflexivity.
Qed.
Lemma neg_dec : (exists V, target = Some V /\ neglect = false) \/ (neglected target neglect = true /\ (target = None \/ neglect = true) /\ forall u, tgt u = blk dd cs (fin (dr0 s0) u)).
Proof. unfold neglected, tgt. destruct target as [V|], neglect; eauto 6. Qed.

Lemma costs_value f y : with_pulse s0 y f -> exists x u, snd (call (F:=RField) rexp (s_tf s0) y) = Ok x /\ amp_call (c_amp (s_conf s0)) x = Ok u /\
  ev f (prog_noise_infidelity la K target cs unit neglect) = Ok (scalar RField (costv (nz x u) u)).
Proof.
  intros H. destruct (mc_reads O N HN H) as (x & u & es & ders & ess & derss & E1 & E2 & TR & L1 & L2 & TN & R1 & R2 & R3 & R4 & R5 & R6). exists x, u. split; auto. split; auto. set (w := nz x u) in *.
  pose proof (fun i => @fin_matrix (drn s0 n m w i) u (exact_noise N w i)) as FM. pose proof (@fin_matrix (dr0 s0) u (exact_drift N)) as FM0.
  unfold prog_noise_infidelity, with_forward. destruct neg_dec as [(V & Et & En)|(Eb & Hb & Et)].
  - unfold costv, tgt. rewrite Et, En. cbn [neglected]. cbn [P_GradTotal.ev]. rewrite R4. cbn [bind P_GradTotal.ev].
    rewrite (@noise_mean RField la _ V cs unit (fun i => fin (drn s0 n m w i) u) (fun i => fidel dd cs V (fin (drn s0 n m w i) u))).
    + reflexivity.
    + now apply (@finals_of w [] [] [] [] [] u ess derss).
    + intros i Hi. exact (@fid_blk la n dd cs V _ unit Hcs (Htarget Et En) (FM i) Hunit).
  - rewrite Eb. cbn [P_GradTotal.ev]. rewrite R1. cbn [bind P_GradTotal.ev]. rewrite R4. cbn [bind P_GradTotal.ev]. unfold costv. rewrite Et.
    rewrite (@noise_mean_neglect RField la _ target cs unit neglect (fun i => fin (drn s0 n m w i) u) (fun i => fidel dd cs (blk dd cs (fin (dr0 s0) u)) (fin (drn s0 n m w i) u)) (fin (dr0 s0) u) (blk dd cs (fin (dr0 s0) u))); auto.
    + now apply (@finals_of w _ [] [] [] [] u ess derss).
    + eapply trace_last; eauto.
    + exact (@trunc_blk la n dd cs _ unit Hcs FM0 Hunit).
    + intros i Hi. exact (@fid_blk la n dd cs _ _ unit Hcs (@blk_wf n dd cs _ Hcs FM0) (FM i) Hunit).
Qed.

Lemma grad_wfa r a : noise_infidelity_grad la r target cs unit neglect = Ok a -> wfa [r_steps r; r_ctrls r] a.
Proof.
  unfold noise_infidelity_grad. intros H. repeat match type of H with bind ?z _ = _ => destruct z; [|discriminate]; cbn [bind] in H end. injection H as <-. apply wfa_mk2.
Qed.
(** the gradient by the amplitudes *)
Lemma grad_value f y : with_pulse s0 y f -> exists x u g, snd (call (F:=RField) rexp (s_tf s0) y) = Ok x /\ amp_call (c_amp (s_conf s0)) x = Ok u /\
  ev f (prog_noise_infidelity_grad la K T C target cs unit neglect) = Ok g /\ wfa [T; C] g /\
  forall U vu, U 0%R = u -> curve_at T C (U 0%R) U vu -> derivable_pt_lim (fun s => costv (nz x u) (U s)) 0 (Rsum T (fun t => Rsum C (fun c => (get2 0%R g t c * vu t c)%R))).
Proof.
  intros H. destruct (mc_reads O N HN H) as (x & u & es & ders & ess & derss & E1 & E2 & TR & L1 & L2 & TN & R1 & R2 & (ds & R3 & R3') & R4 & R5 & (dss & R6 & R6')). exists x, u. set (w := nz x u) in *.
  pose proof (fun i => @fin_matrix (drn s0 n m w i) u (exact_noise N w i)) as FM. pose proof (@fin_matrix (dr0 s0) u (exact_drift N)) as FM0.
  unfold prog_noise_infidelity_grad, with_forward.
  assert (NTH : forall i, i < K -> nth_error (map fwd_list ess) i = Some (fwd_list (nth i ess [])) /\ nth_error derss i = Some (nth i derss []) /\ nth_error (map rev_list ess) i = Some (rev_list (nth i ess []))).
  { intros i Hi. rewrite !nth_error_map, (nth_error_nth' ess []), (nth_error_nth' derss []) by lia. auto. }
  destruct neg_dec as [(V & Et & En)|(Eb & Hb & Et)].
  - assert (HV : is_matrix dd dd V) by auto.
    set (gi := fun i => match derivative_entanglement_fidelity la V (fwd_list (nth i ess [])) (nth i derss []) (rev_list (nth i ess [])) cs false with Ok z => z | Err _ => Arr [] [] end).
    assert (HG : forall i, i < K -> derivative_entanglement_fidelity la V (fwd_list (nth i ess [])) (nth i derss []) (rev_list (nth i ess [])) cs false = Ok (gi i) /\
      is_gradient n n T C (fwd_list (nth i ess [])) (nth i derss []) (rev_list (nth i ess [])) (fun U v => is_matrix n n U /\ v = fidel dd cs V U) (gi i)).
    { intros i Hi. destruct (@grad_blk la n dd T C cs V _ _ _ Hcs HV (trace_lists (TN i Hi))) as (z & Z1 & Z2). unfold gi. rewrite Z1. auto. }
    set (r := mkreads [] [] [] (map fwd_list ess) (map rev_list ess) derss K T C).
    destruct (@noise_grad RField la r V cs unit gi) as (a & A1 & A2 & A3).
    { intros i Hi. cbn [r r_traces r_nfwd r_nder r_nrev] in *. destruct (NTH i Hi) as (N1 & N2 & N3). destruct (HG i Hi) as [G1 _]. eauto 8. }
    { intros i Hi. destruct (HG i Hi) as [_ [W _]]. exact W. }
    exists a. split; auto. split; auto. split; [|split].
    + rewrite Et, En. cbn [neglected P_GradTotal.ev]. rewrite R4. cbn [bind P_GradTotal.ev]. rewrite R6. cbn [bind P_GradTotal.ev]. rewrite R5. cbn [bind P_GradTotal.ev]. rewrite R6'. cbn [bind]. exact A1.
    + apply (@grad_wfa r a). rewrite Et, En. exact A1.
    + intros U vu HU CU.
      set (z := fun i => Rsum T (fun t => Rsum C (fun c => (get2 0%R (gi i) t c * vu t c)%R))).
      replace (Rsum T (fun t => Rsum C (fun c => (get2 0%R a t c * vu t c)%R))) with (average (F:=RField) K (fun i => (0 - z i)%R)).
      * unfold costv, tgt. rewrite Et, En. apply (@average_deriv K (fun i s => (1 - fidel dd cs V (fin (drn s0 n m w i) (U s)))%R) 0 (fun i => (0 - z i)%R)). intros i Hi.
        apply (derivable_pt_lim_minus (fun _ => 1%R)); [apply derivable_pt_lim_const|]. destruct (HG i Hi) as [_ [_ G]]. unfold z.
        pose proof (TN i Hi) as TNi. rewrite <- HU in TNi. apply (G vu (fun s => fin (drn s0 n m w i) (U s)) 0%R); [eapply trace_final; eauto; apply (exact_noise N)|].
        intros h. split; [apply fin_matrix; apply (exact_noise N)|reflexivity].
      * transitivity (average (F:=RField) K (fun i => (- z i)%R)); [rewrite !average_R; f_equal; apply Rsum_ext; intros; ring|]. unfold z. rewrite <- average_pairing. apply Rsum_ext. intros t Ht. apply Rsum_ext. intros c Hc.
        f_equal. symmetry. apply (A3 t c Ht Hc).
  - set (V := blk dd cs (fin (dr0 s0) u)). assert (HV : is_matrix dd dd V) by exact (@blk_wf n dd cs _ Hcs FM0).
    set (W := fun i => blk dd cs (fin (drn s0 n m w i) u)). assert (HW : forall i, is_matrix dd dd (W i)) by (intros i; exact (@blk_wf n dd cs _ Hcs (FM i))).
    set (gi := fun i => match derivative_entanglement_fidelity la V (fwd_list (nth i ess [])) (nth i derss []) (rev_list (nth i ess [])) cs false with Ok z => z | Err _ => Arr [] [] end).
    assert (HG : forall i, i < K -> derivative_entanglement_fidelity la V (fwd_list (nth i ess [])) (nth i derss []) (rev_list (nth i ess [])) cs false = Ok (gi i) /\
      is_gradient n n T C (fwd_list (nth i ess [])) (nth i derss []) (rev_list (nth i ess [])) (fun U v => is_matrix n n U /\ v = fidel dd cs V U) (gi i)).
    { intros i Hi. destruct (@grad_blk la n dd T C cs V _ _ _ Hcs HV (trace_lists (TN i Hi))) as (z & Z1 & Z2). unfold gi. rewrite Z1. auto. }
    set (hi := fun i => match derivative_entanglement_fidelity la (W i) (fwd_list es) ders (rev_list es) cs false with Ok z => z | Err _ => Arr [] [] end).
    assert (HH : forall i, derivative_entanglement_fidelity la (W i) (fwd_list es) ders (rev_list es) cs false = Ok (hi i) /\
      is_gradient n n T C (fwd_list es) ders (rev_list es) (fun U v => is_matrix n n U /\ v = fidel dd cs (W i) U) (hi i)).
    { intros i. destruct (@grad_blk la n dd T C cs (W i) _ _ _ Hcs (HW i) (trace_lists TR)) as (z & Z1 & Z2). unfold hi. rewrite Z1. auto. }
    set (r := mkreads (fwd_list es) (rev_list es) ders (map fwd_list ess) (map rev_list ess) derss K T C).
    destruct (@noise_grad_neglect RField la r target cs unit neglect gi hi (fun i => fin (drn s0 n m w i) u) (fin (dr0 s0) u) V) as (a & A1 & A2 & A3); auto.
    { eapply trace_last; eauto. }
    { exact (@trunc_blk la n dd cs _ unit Hcs FM0 Hunit). }
    { now apply (@finals_of w _ _ _ _ _ u ess derss). }
    { intros i Hi. cbn [r r_traces r_nfwd r_nder r_nrev] in *. destruct (NTH i Hi) as (N1 & N2 & N3). destruct (HG i Hi) as [G1 _]. eauto 8. }
    { intros i Hi. exists (W i). split; [exact (@trunc_blk la n dd cs _ unit Hcs (FM i) Hunit)|]. apply HH. }
    { intros i Hi. split; [destruct (HG i Hi) as [_ [Q _]]|destruct (HH i) as [_ [Q _]]]; exact Q. }
    exists a. split; auto. split; auto. split; [|split].
    + rewrite Eb. cbn [P_GradTotal.ev]. rewrite R1. cbn [bind P_GradTotal.ev]. rewrite R4. cbn [bind P_GradTotal.ev]. rewrite R6. cbn [bind P_GradTotal.ev]. rewrite R5. cbn [bind P_GradTotal.ev].
      rewrite R3. cbn [bind P_GradTotal.ev]. rewrite R2. cbn [bind P_GradTotal.ev]. rewrite R3'. cbn [bind]. rewrite R6'. cbn [bind]. exact A1.
    + exact (@grad_wfa r a A1).
    + intros U vu HU CU.
      set (z := fun i => Rsum T (fun t => Rsum C (fun c => ((get2 0%R (gi i) t c + get2 0%R (hi i) t c) * vu t c)%R))).
      replace (Rsum T (fun t => Rsum C (fun c => (get2 0%R a t c * vu t c)%R))) with (average (F:=RField) K (fun i => (0 - z i)%R)).
      * apply (@derivable_pt_lim_ext (fun s => average (F:=RField) K (fun i => (1 - fidel dd cs (blk dd cs (fin (dr0 s0) (U s))) (fin (drn s0 n m w i) (U s)))%R))); [intros s; unfold costv; now rewrite Et|].
        apply (@average_deriv K (fun i s => (1 - fidel dd cs (blk dd cs (fin (dr0 s0) (U s))) (fin (drn s0 n m w i) (U s)))%R) 0 (fun i => (0 - z i)%R)). intros i Hi.
        apply (derivable_pt_lim_minus (fun _ => 1%R)); [apply derivable_pt_lim_const|]. unfold z. pose proof (TN i Hi) as TNi. pose proof TR as TR'. rewrite <- HU in TNi, TR'.
        eapply (@both_move n dd T C cs (fwd_list es) ders (rev_list es) (fwd_list (nth i ess [])) (nth i derss []) (rev_list (nth i ess [])) vu (fun s => fin (dr0 s0) (U s)) (fun s => fin (drn s0 n m w i) (U s))); auto.
        -- eapply trace_final; eauto. apply (exact_drift N).
        -- eapply trace_final; eauto. apply (exact_noise N).
        -- rewrite HU. apply HG; auto.
        -- rewrite HU. apply HH.
      * transitivity (average (F:=RField) K (fun i => (- z i)%R)); [rewrite !average_R; f_equal; apply Rsum_ext; intros; ring|]. unfold z. rewrite <- (average_pairing K T C (fun i t c => (get2 0%R (gi i) t c + get2 0%R (hi i) t c)%R)). apply Rsum_ext. intros t Ht. apply Rsum_ext. intros c Hc.
        f_equal. symmetry. apply (A3 t c Ht Hc).
Qed.

(** costs and gradient by the pulse *)
Section Pulse.
Variables (c : @cfun RField) (y x : RA).
Hypothesis HA : right_amplitudes rexp d s0 y.
Hypothesis Wy : wfa [length tau; ctrls d] y.
Hypothesis Hx : snd (call (F:=RField) rexp (s_tf s0) y) = Ok x.
Hypothesis Ec : cf_costs c = prog_noise_infidelity la K target cs unit neglect.
Hypothesis Eg : cf_grad c = prog_noise_infidelity_grad la K T C target cs unit neglect.

Definition phi (y' : RA) : R := match snd (call (F:=RField) rexp (s_tf s0) y') with Ok z => match amp_call (c_amp (s_conf s0)) z with Ok u => costv (nz z u) u | Err _ => 0%R end | Err _ => 0%R end.

(** costs and gradient are returned; the gradient is that of the costs with the noise of this pulse *)
Lemma noise_pulse_returned : exists u g g' a h, costs_number rexp la eps d tau s0 c phi /\ gradient_at (F:=RField) rexp la eps s0 c y h /\
  amp_call (c_amp (s_conf s0)) x = Ok u /\ wfa [T; C] g /\ wfa [T; 1; C] g' /\ (forall t c, t < T -> c < C -> get3 0%R g' t 0 c = get2 0%R g t c) /\
  amp_chain (c_amp (s_conf s0)) g' x = Ok a /\ snd (grad (F:=RField) rexp (s_tf s0) a) = Ok h /\
  forall U vu, U 0%R = u -> curve_at T C (U 0%R) U vu -> derivable_pt_lim (fun s => costv (nz x u) (U s)) 0 (Rsum T (fun t => Rsum C (fun c => (get2 0%R g t c * vu t c)%R))).
Proof.
  assert (HT : s_time s0 <> []) by apply N. assert (LD : length (s_drift s0) = T) by apply N.
  assert (PT : forall y', wfa [length tau; ctrls d] y' -> exists f, with_pulse s0 y' f) by (intros y' W'; exact (pulse_total O LD HT HA Wy Hx W')).
  destruct (PT y Wy) as [f Hf]. destruct (grad_value Hf) as (x1 & u & g & E1 & E2 & E3 & Wg & GD). assert (x1 = x) by congruence. subst x1.
  set (g' := Arr [T; 1; C] (data g) : RA). assert (Wg' : wfa [T; 1; C] g'). { destruct Wg as [_ Wd]. split; auto. cbn [data g']. rewrite Wd. cbn. lia. }
  assert (Eg' : forall t c, t < T -> c < C -> get3 0%R g' t 0 c = get2 0%R g t c).
  { intros t c' Ht Hcc. destruct Wg as [S1 S2]. unfold get3, get2, getn. change (shape (g' : RA)) with [T; 1; C]. change (data (g' : RA)) with (data g). change (shape (g : RA) = [T; C]) in S1. rewrite S1. f_equal. cbn. lia. }
  assert (CT : exists a h, amp_chain (c_amp (s_conf s0)) g' x = Ok a /\ snd (grad (F:=RField) rexp (s_tf s0) a) = Ok h) by exact (chain_total O LD HT HA Wy Hx Wg').
  destruct CT as (a & h & Ea & Eh). exists u, g, g', a, h.
  split; [|split; [|split; [|split; [|split; [|split]]]]]; auto.
  - intros y' W'. destruct (PT y' W') as [f' Hf']. exists f'. split; auto. apply evaluates_ev. rewrite Ec. destruct (costs_value Hf') as (x' & u' & Q1 & Q2 & Q3). rewrite Q3. unfold phi. now rewrite Q1, Q2.
  - exists f, g, g', x, a. split; auto. split; [apply evaluates_ev; now rewrite Eg|]. split; auto. right. exists T, C. destruct Wg as [Ws _]. auto.
Qed.

Lemma noise_pulse_gradient : (forall z u z' u', nz z u = nz z' u') ->
  exists phi h, costs_number rexp la eps d tau s0 c phi /\ gradient_at (F:=RField) rexp la eps s0 c y h /\ is_pulse_gradient d tau phi y h.
Proof.
  intros Free. destruct noise_pulse_returned as (u & g & g' & a & h & CN & GA & E2 & Wg & Wg' & Eg' & Ea & Eh & GD). exists phi, h. split; auto. split; auto.
  assert (HT : s_time s0 <> []) by apply N. assert (LD : length (s_drift s0) = T) by apply N.
  assert (PT : forall y', wfa [length tau; ctrls d] y' -> exists f, with_pulse s0 y' f) by (intros y' W'; exact (pulse_total O LD HT HA Wy Hx W')).
  assert (TP : 0 < T) by (destruct (s_time s0); [congruence|cbn; lia]).
  destruct (built_fresh rexp (o_built O) (o_good O)) as (Fr & Hcon & Enx). pose proof (f_custom Fr) as N1. pose proof (f_ready Fr) as N2.
  assert (MAIN : forall Y v, curve_at (length tau) (ctrls d) y Y v ->
      wfa [length tau; 1; ctrls d] h /\ derivable_pt_lim (fun s => phi (Y s)) 0 (Rsum (length tau) (fun t => Rsum (ctrls d) (fun p => (get3 0%R h t 0 p * v t p)%R)))).
    { intros Y v HY. pose proof HY as (Y0 & WY & _).
      set (X := fun s => match snd (call (F:=RField) rexp (s_tf s0) (Y s)) with Ok z => z | Err _ => x end).
      set (U := fun s => match amp_call (c_amp (s_conf s0)) (X s) with Ok z => z | Err _ => u end).
      assert (PTS : forall s, snd (call (F:=RField) rexp (s_tf s0) (Y s)) = Ok (X s) /\ amp_call (c_amp (s_conf s0)) (X s) = Ok (U s)).
      { intros s. destruct (PT (Y s) (WY s)) as [f' Hf']. destruct (costs_value Hf') as (x' & u' & Q1 & Q2 & _). assert (EX : X s = x') by (unfold X; now rewrite Q1). assert (EU : U s = u') by (unfold U; rewrite EX; now rewrite Q2). rewrite EX, EU. auto. }
      assert (X0 : X 0%R = x). { destruct (PTS 0%R) as (A & _). rewrite Y0 in A. congruence. }
      assert (U0 : U 0%R = u). { destruct (PTS 0%R) as (_ & A). rewrite X0 in A. congruence. }
      rewrite <- Y0 in HY. destruct (@transfer_curve rexp d tau (s_tf s0) Y v X N1 (o_matched O) (o_sym O) N2 HY) as (vx & CX & KX); [intros s; apply PTS|].
      rewrite Enx in CX, KX. assert (CD : correct_derivative T (ctrls d) C (c_amp (s_conf s0)) (X 0%R)) by (rewrite X0; now apply HA).
      destruct (@amp_curve T (ctrls d) C (c_amp (s_conf s0)) X U vx TP (o_ctrls O) CD CX) as (vu & CU & KU); [intros s; apply PTS|].
      rewrite X0 in KU. destruct (KU g' a 1 Wg' Ea) as [Wa SU]. destruct (KX a h 1 Wa Eh) as [Wh SX]. split; auto.
      assert (EQ : Rsum T (fun t => Rsum C (fun c => (get3 0%R g' t 0 c * vu t c)%R)) = Rsum T (fun t => Rsum C (fun c => (get2 0%R g t c * vu t c)%R))).
      { apply Rsum_ext. intros t Ht. apply Rsum_ext. intros c' Hcc. now rewrite Eg'. }
      match goal with |- derivable_pt_lim _ _ ?l => replace l with (Rsum T (fun t => Rsum C (fun c => (get2 0%R g t c * vu t c)%R))) by (symmetry; etransitivity; [symmetry; exact (SX 0 Nat.lt_0_1)|]; etransitivity; [symmetry; exact (SU 0 Nat.lt_0_1)|]; exact EQ) end.
      apply (@derivable_pt_lim_ext (fun s => costv (nz x u) (U s))); [|now apply GD]. intros s. unfold phi. destruct (PTS s) as [P1 P2]. rewrite P1, P2. now rewrite (Free x u (X s) (U s)). }
    split; [|intros Y v HY; now apply MAIN].
    destruct (MAIN (fun _ => y) (fun _ _ => 0%R)) as [Wh _]; [|exact Wh]. split; auto. split; auto. intros t p _ _. apply derivable_pt_lim_const.
Qed.
End Pulse.
End Noise3.
