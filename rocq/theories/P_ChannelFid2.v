(** Averages of channels, the super operator of a unitary, and the ranges of the costs built from them. *)
Require Import List Arith Lia Ring Field Bool Reals Lra.
From Verif Require Import LibBase LibRing LibArr LibCplx LibMat LibNorm LibSum LibDeriv M_Matrix S_Linear S_Exp P_Linear P_Frechet
  M_OpHeap M_Transfer S_Transfer M_Amplitude M_Solver S_Solver M_Cost S_Cost P_Matrix P_Cost P_Cost2 P_CostGrad S_Lindblad S_Channel P_Lindblad P_Channel P_Channel2 P_Channel3 P_ChannelFid S_ChannelCost.
Import ListNotations.
Set Implicit Arguments.

Section Avg.
Add Field Cfield_cf2 : (c_field RField).
Notation S := RS.
Notation op := (mat RS).
Notation app := (apply_super (F:=RField)).

(** ---- the super operator of a unitary is a channel ---- *)
Lemma super_acts n (U : op) rho i j : wfm (S:=RS) n n U -> i < n -> j < n -> app n (op_to_super (F:=RField) U) rho i j = sandwich n (mg U) rho i j.
Proof.
  intros WU Hi Hj. destruct (@super_is RField n U (proj2 (is_matrix_wfm n n U) WU)) as [_ HS]. unfold apply_super, sandwich. apply Sg_ext. intros b Hb. rewrite csumn_mul_r. apply Sg_ext. intros a Ha.
  rewrite HS by auto. cring.
Qed.
Lemma super_cp n (U : op) : wfm (S:=RS) n n U -> completely_positive n (op_to_super (F:=RField) U).
Proof.
  intros WU k rho HP. eapply positive_ext; [|exact (@positive_sandwich n k (mg U) rho HP)]. intros a x b y Ha Hx Hb Hy. unfold extend. now rewrite super_acts.
Qed.
Lemma super_tp n (U : op) : is_unitary (S:=RS) n U -> trace_preserving n (op_to_super (F:=RField) U).
Proof.
  intros HU rho. pose proof (proj1 (is_matrix_wfm _ _ _) (proj1 HU)) as WU.
  transitivity (Sg n (fun i => Sg n (fun b => Sg n (fun a => cmul (rho a b) (cmul (cconj (mg U i b)) (mg U i a)))))).
  - apply Sg_ext. intros i Hi. rewrite super_acts by auto. unfold sandwich. apply Sg_ext. intros b Hb. rewrite csumn_mul_r. apply Sg_ext. intros a Ha. cring.
  - rewrite (@Sg_swap RField). apply Sg_ext. intros b Hb. rewrite (@Sg_swap RField).
    transitivity (Sg n (fun a => cmul (kd (S:=S) b a) (rho a b))); [|apply (@Sg_kd_l RField n b (fun a => rho a b) Hb)].
    apply Sg_ext. intros a Ha. rewrite <- csumn_mul_l. destruct HU as (_ & H & _). specialize (H b a Hb Ha).
    transitivity (cmul (rho a b) (delta (S:=S) b a)); [f_equal; exact H|]. unfold delta, kd. destruct (Nat.eqb b a); tocplx; cring.
Qed.
Lemma unitary_channel n (U : op) : is_unitary (S:=RS) n U -> channel n (op_to_super (F:=RField) U).
Proof.
  intros HU. pose proof (proj1 (is_matrix_wfm _ _ _) (proj1 HU)) as WU. split; [apply is_matrix_wfm; now apply super_wf|]. split; [now apply super_cp|now apply super_tp].
Qed.
(** ---- averages ---- *)
Definition weighted n (c : R) (M : op) : Prop := wfm (S:=RS) (n * n) (n * n) M /\ completely_positive n M /\
  forall rho, Sg n (fun i => app n M rho i i) = cmul (cofk (c : RField)) (Sg n (fun i => rho i i)).
Lemma weighted_channel n M : weighted n 1 M <-> channel n M.
Proof.
  unfold weighted, channel, trace_preserving. rewrite is_matrix_wfm. change (cofk (1%R : RField)) with (c1 : RC). split; intros (A & B & C); repeat split; try apply A; auto; try (apply B; auto); intros rho; rewrite C; cring.
Qed.
Lemma weighted_add n c c' A B : weighted n c A -> weighted n c' B -> weighted n (c + c') (madd (S:=RS) A B).
Proof.
  intros (WA & PA & TA) (WB & PB & TB). split; [now apply wfm_madd|]. split.
  - intros k rho HP. eapply positive_ext; [|exact (positive_add (PA k rho HP) (PB k rho HP))]. intros a x b y Ha Hx Hb Hy. unfold extend. symmetry. now rewrite (@app_madd RField n A B).
  - intros rho. transitivity (cadd (Sg n (fun i => app n A rho i i)) (Sg n (fun i => app n B rho i i))).
    + rewrite csumn_add. apply Sg_ext. intros i Hi. now apply (@app_madd RField n A B).
    + rewrite TA, TB. change (c + c')%R with (kadd (c : RField) (c' : RField)). rewrite cofk_add. cring.
Qed.
Lemma weighted_scale n r c A : (0 <= r)%R -> weighted n c A -> weighted n (r * c) (mscale (S:=RS) (cofk (r : RField)) A).
Proof.
  intros Hr (WA & PA & TA). split; [now apply wfm_mscale|]. split.
  - intros k rho HP. eapply positive_ext; [|exact (@positive_scale n k r _ Hr (PA k rho HP))]. intros a x b y Ha Hx Hb Hy. unfold extend. symmetry. now rewrite (@app_mscale RField n (cofk (r : RField)) A).
  - intros rho. transitivity (cmul (cofk (r : RField)) (Sg n (fun i => app n A rho i i))).
    + rewrite csumn_mul_l. apply Sg_ext. intros i Hi. now apply (@app_mscale RField n (cofk (r : RField)) A).
    + rewrite TA. change (r * c)%R with (kmul (r : RField) (c : RField)). rewrite cofk_mul. cring.
Qed.
Lemma weighted_zero n : weighted n 0 (mzero (S:=RS) (n * n) (n * n)).
Proof.
  assert (Z : forall rho i j, i < n -> j < n -> app n (mzero (S:=RS) (n * n) (n * n)) rho i j = c0).
  { intros rho i j Hi Hj. unfold apply_super. apply (@Sg_0 RField). intros b Hb. apply (@Sg_0 RField). intros a Ha. rewrite mg_mzero by nia. tocplx. cring. }
  split; [apply wfm_mzero|]. split.
  - intros k rho HP. eapply positive_ext; [|exact (positive_0 n k)]. intros a x b y Ha Hx Hb Hy. unfold extend. now rewrite Z.
  - intros rho. change (cofk (0%R : RField)) with (c0 : RC). rewrite (@Sg_0 RField n _ (fun i Hi => Z rho i i Hi Hi)). cring.
Qed.
Lemma fold_weighted n (g : op -> op) (l : list (list op)) : Forall (fun fs => exists U, is_last fs U /\ channel n (g U)) l -> forall c A, weighted n c A ->
  exists B, foldM (fun A fs => bind (idx_last fs) (fun U => op_iadd (F:=RField) A (ODense (g U)))) l A = Ok B /\ weighted n (c + INR (length l)) B.
Proof.
  induction 1 as [|fs l (U & HL & CU) HF IH]; intros c A HA.
  - exists A. split; [reflexivity|]. cbn [length INR]. now rewrite Rplus_0_r.
  - cbn [foldM]. rewrite (idx_last_ok HL). cbn [bind]. pose proof (proj2 (@weighted_channel n (g U)) CU) as WU. rewrite (@iadd_same RField (n * n) (n * n) A (g U)) by (apply HA || apply WU). 
    destruct (IH (c + 1)%R (madd (S:=RS) A (g U)) (weighted_add HA WU)) as (B & E & HB). exists B. split; [exact E|]. cbn [length]. rewrite S_INR. replace (c + (INR (length l) + 1))%R with (c + 1 + INR (length l))%R by lra. exact HB.
Qed.
Lemma avg_channel n (g : op -> op) (l : list (list op)) : l <> [] -> Forall (fun fs => exists U, is_last fs U /\ channel n (g U)) l ->
  exists B, foldM (fun A fs => bind (idx_last fs) (fun U => op_iadd (F:=RField) A (ODense (g U)))) l (mzero (S:=RS) (n * n) (n * n)) = Ok B /\
    channel n (mscale (S:=RS) (cofk (kdiv k1 (kofnat (F:=RField) (length l)))) B).
Proof.
  intros Hl H. destruct (fold_weighted g H (weighted_zero n)) as (B & E & W). exists B. split; [exact E|]. apply weighted_channel.
  assert (P : (0 < INR (length l))%R) by (apply lt_0_INR; destruct l; cbn; [congruence|lia]).
  pose proof (@weighted_scale n (@kdiv RField k1 (kofnat (F:=RField) (length l))) (0 + INR (length l)) B) as Q. rewrite kofnat_INR in *.
  match type of Q with ?A -> _ => assert (A0 : A) end. { rewrite kdiv_R. apply Rmult_le_pos; [cbn; lra|]. left. now apply Rinv_0_lt_compat. }
  specialize (Q A0 W). match type of Q with weighted _ ?c _ => replace c with 1%R in Q end; [exact Q|]. rewrite kdiv_R. cbn. field. lra.
Qed.
Definition first_square n (l : list (list op)) : Prop := exists f fs l', l = (f :: fs) :: l' /\ is_matrix (S:=RS) n n f.
Lemma average_super_channel n (l : list (list op)) : first_square n l -> Forall (fun fs => exists U, is_last fs U /\ is_unitary (S:=RS) n U) l ->
  exists P, average_super (F:=RField) l = Ok P /\ channel n P.
Proof.
  intros (f & fs & l' & -> & Wf) H. unfold average_super, idx. cbn [nth_error bind]. rewrite is_matrix_wfm in Wf. rewrite (wfm_nr Wf).
  destruct (@avg_channel n (op_to_super (F:=RField)) ((f :: fs) :: l')) as (B & E & C); [discriminate| |].
  - eapply Forall_impl; [|exact H]. intros x (U & A1 & A2). exists U. split; auto. now apply unitary_channel.
  - eexists. split; [|exact C]. exact (f_equal (fun z => bind z (fun s => op_imul (F:=RField) s (OScal (cofk (kdiv k1 (kofnat (F:=RField) (length ((f :: fs) :: l')))))))) E).
Qed.
Lemma average_op_channel n (l : list (list op)) : first_square (n * n) l -> Forall (fun fs => exists U, is_last fs U /\ channel n U) l ->
  exists P, average_op (F:=RField) l = Ok P /\ channel n P.
Proof.
  intros (f & fs & l' & -> & Wf) H. unfold average_op, idx. cbn [nth_error bind]. rewrite is_matrix_wfm in Wf. rewrite (wfm_nr Wf).
  destruct (@avg_channel n (fun U => U) ((f :: fs) :: l')) as (B & E & C); [discriminate|exact H|].
  eexists. split; [|exact C]. exact (f_equal (fun z => bind z (fun s => op_imul (F:=RField) s (OScal (cofk (kdiv k1 (kofnat (F:=RField) (length ((f :: fs) :: l')))))))) E).
Qed.
Lemma traces_last (P : op -> Prop) l : traces_of P l -> Forall (fun fs => exists U, is_last fs U /\ P U) l.
Proof.
  intros [_ H]. apply Forall_forall. intros fs Hf. destruct (H fs Hf) as [N F]. destruct (exists_last N) as (fs' & U & ->). exists U. split; [now exists fs'|].
  rewrite Forall_forall in F. apply F. apply in_or_app. right. now left.
Qed.
Lemma traces_first n (P : op -> Prop) l : (forall A, P A -> is_matrix (S:=RS) n n A) -> traces_of P l -> first_square n l.
Proof.
  intros HP [N H]. destruct l as [|fs l]; [congruence|]. destruct (H fs) as [N' F]; [now left|]. destruct fs as [|f fs]; [congruence|]. exists f, fs, l. split; [reflexivity|]. apply HP. now inversion F.
Qed.
Lemma avg_unitary n l : traces_of (is_unitary (S:=RS) n) l -> exists P, average_super (F:=RField) l = Ok P /\ channel n P.
Proof. intros H. apply average_super_channel; [exact (@traces_first n _ l (fun A HA => proj1 HA) H)|exact (traces_last H)]. Qed.
Lemma avg_channels n l : traces_of (channel n) l -> exists P, average_op (F:=RField) l = Ok P /\ channel n P.
Proof. intros H. apply average_op_channel; [exact (@traces_first (n * n) _ l (fun A HA => proj1 HA) H)|exact (traces_last H)]. Qed.
(** ---- the costs ---- *)
Lemma mc_infidelity_range n r V : 0 < n -> traces_of (is_unitary (S:=RS) n) (r_nfwd r) -> is_unitary (S:=RS) n V ->
  exists x : R, liouville_infidelity (F:=RField) r V None = Ok x /\ (0 <= x <= 1)%R.
Proof.
  intros Hn H1 HV. destruct (avg_unitary H1) as (P & E & C). unfold liouville_infidelity. rewrite E. cbn [bind]. destruct (super_range Hn HV C) as (f & -> & R). eexists. split; [reflexivity|]. change (0 <= 1 - f <= 1)%R. lra.
Qed.
Lemma mc_infidelity_range_sub n r V cs : cs <> [] -> levels n cs -> traces_of (is_unitary (S:=RS) n) (r_nfwd r) -> is_unitary (S:=RS) (length cs) V ->
  exists x : R, liouville_infidelity (F:=RField) r V (Some cs) = Ok x /\ (0 <= x <= 1)%R.
Proof.
  intros Hn Hc H1 HV. destruct (avg_unitary H1) as (P & E & C). unfold liouville_infidelity. rewrite E. cbn [bind]. destruct (super_range_sub Hn Hc HV C) as (f & -> & R). eexists. split; [reflexivity|]. change (0 <= 1 - f <= 1)%R. lra.
Qed.
Lemma leak_range n r cs iu mc : cs <> [] -> levels n cs -> leak_input n r iu mc -> exists x : R, leakage_liouville (F:=RField) r n cs iu mc = Ok x /\ (0 <= x <= 1)%R.
Proof.
  intros Hne Hcs H. assert (G : exists Q, channel n Q /\ match iu, mc with
   | true, true => average_super (r_nfwd r)
   | true, false => bind (idx_last (r_fwd r)) (fun l => Ok (op_to_super (F:=RField) l))
   | false, true => average_op (r_nfwd r)
   | false, false => idx_last (r_fwd r) end = Ok Q).
  { destruct iu, mc; cbn in H.
    - destruct (avg_unitary H) as (P & E & C). eauto.
    - destruct H as (U & A & B). exists (op_to_super (F:=RField) U). split; [now apply unitary_channel|]. now rewrite (idx_last_ok A).
    - destruct (avg_channels H) as (P & E & C). eauto.
    - destruct H as (U & A & B). exists U. split; [exact B|]. now rewrite (idx_last_ok A). }
  destruct G as (Q & C & E). exists (liou (F:=RField) n cs Q). split; [|now apply liou_range]. apply (@liouville_val RField); auto. apply is_matrix_wfm, C.
Qed.
(** ---- with the LindbladSolver ---- *)
Lemma used_last d rexp la eps (s0 s : @st RField) n l u w fs : used (F:=RField) rexp la eps d s0 s -> physical n l s u w -> exponentiates la (n * n) s ->
  channel n (c_init (s_conf s)) -> (exists ps, returns (F:=RField) rexp la eps s SPropag (VProp ps)) -> returns (F:=RField) rexp la eps s SFwd (VOps fs) ->
  exists E, is_last fs E /\ channel n E.
Proof.
  intros U P X C R Q. destruct (used_forward_channels U P X C R Q) as [L F]. assert (N : fs <> []) by (intros ->; discriminate). destruct (exists_last N) as (fs' & E & Ef). exists E. split; [now exists fs'|].
  rewrite Forall_forall in F. apply F. rewrite Ef. apply in_or_app. right. now left.
Qed.
Lemma used_costs d rexp la eps (s0 s : @st RField) n l u w fs r V cs b : used (F:=RField) rexp la eps d s0 s -> physical n l s u w -> exponentiates la (n * n) s ->
  channel n (c_init (s_conf s)) -> (exists ps, returns (F:=RField) rexp la eps s SPropag (VProp ps)) -> returns (F:=RField) rexp la eps s SFwd (VOps fs) -> r_fwd r = fs ->
  0 < n -> is_unitary (S:=RS) n V -> cs <> [] -> levels n cs ->
  (exists x : R, operation_infidelity (F:=RField) la r V true None b = Ok x /\ (0 <= x <= 1)%R) /\
  (exists x : R, leakage_liouville (F:=RField) r n cs false false = Ok x /\ (0 <= x <= 1)%R).
Proof.
  intros U P X C R Q <- Hn HV Hne Hcs. destruct (used_last U P X C R Q) as (E & HL & CE). split.
  - exact (@infidelity_range n r V E Hn HL CE HV la b).
  - apply leak_range; auto. now exists E.
Qed.
End Avg.
