(** The values of the 'grape' approximation and of the derivatives of the noisy propagators. *)
Require Import List Arith Lia Bool Ring Field.
From Verif Require Import LibBase LibRing LibArr LibCplx LibNorm LibMat M_Matrix S_Linear P_Linear P_Matrix M_OpHeap M_Transfer S_Transfer M_Amplitude P_Transfer P_Transfer3 M_Solver S_Solver P_Loops P_Solver P_Solver2 P_Solver3 P_Solver4 P_Solver5 P_Solver6 P_Solver7 P_Solver8 P_Solver9 P_SolverMC.
Import ListNotations.
Open Scope res_scope.
Set Implicit Arguments.

Section Grape.
Variable F : OField.
Variable rexp : F -> F.
Variable la : LinAlg F.
Variable eps : cplx F.
Notation S := (CStar F).
Notation C := (cplx F).
Notation op := (op F).
Notation arrF := (arr (kcar F)).
Notation st := (@st F).
Notation dop := (Arr [] [] : op).
Notation wfs n := (Forall (wfm (S:=S) n n : op -> Prop)).
Notation used := (used rexp la eps).
Notation returns := (returns rexp la eps).
Add Field Kfield_pgr : (k_field F).
Add Field Cfield_pgr : (c_field F).

Lemma dirs_schr U (s : st) dirs : schroedinger (s_conf s) -> pdirs (bare U s) = Ok dirs -> dirs = repeat (map (neg_i (F:=F)) (c_ctrl (s_conf s))) (length (s_time s)).
Proof.
  intros Hs A. unfold pdirs, directions in A. cbn [s_conf bare] in A.
  unfold schroedinger in Hs. destruct (c_class (s_conf s)); try tauto; cbn in A; now inversion A.
Qed.
Lemma dirs_at n (s : st) t c dr D : wfs n (c_ctrl (s_conf s)) -> c < length (c_ctrl (s_conf s)) ->
  idx (repeat (map (neg_i (F:=F)) (c_ctrl (s_conf s))) (length (s_time s))) t = Ok dr -> idx dr c = Ok D ->
  is_direction n (nth c (c_ctrl (s_conf s)) dop) D.
Proof.
  intros Hc Hcc E2 E3. destruct (idx_inv _ _ E2) as [I1 I2]. rewrite repeat_length in I1. specialize (I2 []). rewrite nth_repeat_lt in I2 by auto. subst dr.
  destruct (idx_inv _ _ E3) as [J1 J2]. specialize (J2 (neg_i dop)). rewrite map_nth in J2. subst D.
  assert (WH : wfm (S:=S) n n (nth c (c_ctrl (s_conf s)) dop)) by now apply wfs_nth.
  split; [apply is_matrix_wfm; now apply wfm_mscale|]. intros i j Hi Hj. unfold neg_i. now rewrite (@mg_mscale S n n) by auto.
Qed.

(** X = tau D P *)
Definition grape_entry n (D P : op) (tau : F) (X : op) : Prop :=
  is_matrix n n X /\ forall i j, i < n -> j < n -> X.[i,j] = cmul (cofk tau) (sumn (S:=S) n (fun k => cmul D.[i,k] P.[k,j])).

Lemma grape_rows_at n U (s : st) dirs es rows t c : wfs n (c_ctrl (s_conf s)) -> schroedinger (s_conf s) -> pdirs (bare U s) = Ok dirs ->
  (forall P, In P es -> is_matrix n n P) -> grape_rows (bare U s) dirs es = Ok rows -> length rows = length (s_time s) /\ (t < length (s_time s) -> length (nth t rows []) = length (c_ctrl (s_conf s)) /\
  (c < length (c_ctrl (s_conf s)) -> exists P D tau, nth_error es t = Some P /\ nth_error (s_time s) t = Some tau /\ is_direction n (nth c (c_ctrl (s_conf s)) dop) D /\
    grape_entry n D P tau (nth c (nth t rows []) dop))).
Proof.
  intros Wc Hs Hd He H. apply dirs_schr in Hd; auto. subst dirs. unfold grape_rows in H. destruct (mapM_seq _ _ _ [] H) as [L1 R1]. cbn [Nat.add] in R1.
  change (numt (bare U s)) with (length (s_time s)) in *. change (numc (bare U s)) with (length (c_ctrl (s_conf s))) in *. split; auto.
  intros Ht. specialize (R1 t Ht). destruct (mapM_seq _ _ _ dop R1) as [L2 R2]. split; auto. intros Hc. specialize (R2 c Hc). cbn [Nat.add] in R2. unfold grape_at in R2.
  change (s_time (bare U s)) with (s_time s) in R2. destruct (idx (s_time s) t) as [tau|] eqn:E1; [|discriminate]. cbn [bind] in R2.
  destruct (idx (repeat _ _) t) as [dr|] eqn:E2; [|discriminate R2]. cbn [bind] in R2. destruct (idx dr c) as [D|] eqn:E3; [|discriminate]. cbn [bind] in R2.
  match type of R2 with bind ?a _ = _ => destruct a as [p|] eqn:E4 end; [|discriminate R2]. cbn [bind] in R2. unfold idx in E4. rewrite nth_error_map in E4.
  match type of E4 with context [option_map _ ?a] => destruct a as [P|] eqn:E5 end; [|discriminate E4]. cbn in E4. inversion E4; subst p. clear E4.
  pose proof (@dirs_at n s t c dr D Wc Hc E2 E3) as HD. exists P, D, tau. split; auto. split. { unfold idx in E1. destruct (nth_error (s_time s) t); congruence. } split; auto.
  assert (WP : is_matrix n n P) by (apply He; eapply nth_error_In; eauto). apply is_matrix_wfm in WP. pose proof (proj1 HD) as WD. apply is_matrix_wfm in WD.
  assert (WS : wfm (S:=S) n n (mscale (S:=S) (cofk tau) D)) by now apply wfm_mscale.
  rewrite (@op_mul_wf F n n n _ _ WS WP) in R2. inversion R2 as [R3]. unfold grape_entry. match goal with |- is_matrix _ _ ?X /\ _ => replace X with (mmul (S:=S) (mscale (S:=S) (cofk tau) D) P) by exact R3 end.
  split; [apply is_matrix_wfm; now apply (@wfm_mmul S n n n)|].
  intros i j Hi Hj. rewrite (@mmul_scale_l S n n n) by auto. rewrite (@mg_mscale S n n) by (auto; now apply (@wfm_mmul S n n n)).
  rewrite (@mg_mmul S n n n) by auto. reflexivity.
Qed.

Lemma used_grape d (s0 s : st) n ps ds : used d s0 s -> schroedinger (s_conf s) -> square_hamiltonians n s ->
  c_approx (s_conf s) = GGrape -> returns s SPropag (VProp ps) -> all_square n ps -> returns s SDer (VDer ds) ->
  length ds = length (s_time s) /\
  forall t c, t < length (s_time s) -> c < length (c_ctrl (s_conf s)) -> exists row P X D tau,
    nth_error ds t = Some row /\ length row = length (c_ctrl (s_conf s)) /\ nth_error row c = Some (Some X) /\
    nth_error ps t = Some (Some P) /\ nth_error (s_time s) t = Some tau /\ is_direction n (nth c (c_ctrl (s_conf s)) dop) D /\
    is_matrix n n X /\ forall i j, i < n -> j < n -> X.[i,j] = cmul (cofk tau) (sumn (S:=S) n (fun k => cmul D.[i,k] P.[k,j])).
Proof.
  intros HU Hs [Hd Hc] Ha Hp Hsq Hr.
  pose proof (@used_value F rexp la eps d s0 s SDer _ HU eq_refl Hr) as V. cbn [rval] in V. unfold der_val in V. cbn [s_conf bare] in V. rewrite Ha in V.
  pose proof (@used_value F rexp la eps d s0 s SPropag _ HU eq_refl Hp) as V'. cbn [rval] in V'. destruct V' as (g' & es' & B1 & B2 & ->).
  destruct V as (g & es & dirs & rows & A1 & A2 & A3 & A4 & ->). rewrite A1 in B1. inversion B1; subst g'. rewrite A2 in B2. inversion B2; subst es'. clear B1 B2.
  apply wfs_matrix in Hc. assert (He : forall P, In P es -> is_matrix n n P). { intros P HP. apply Hsq. now apply in_map. }
  split. { rewrite map_length. destruct (@grape_rows_at n _ s dirs es rows 0 0 Hc Hs A3 He A4) as [L _]. exact L. }
  intros t c Ht Hcc. destruct (@grape_rows_at n _ s dirs es rows t c Hc Hs A3 He A4) as [L R]. destruct (R Ht) as [L2 R2]. destruct (R2 Hcc) as (P & D & tau & E1 & E2 & E3 & E4).
  exists (map Some (nth t rows [])), P, (nth c (nth t rows []) dop), D, tau.
  split. { rewrite nth_error_map, (nth_error_nth' rows []) by lia. reflexivity. }
  split. { now rewrite map_length. }
  split. { rewrite nth_error_map, (nth_error_nth' _ dop) by lia. reflexivity. }
  split. { rewrite nth_error_map. exact (f_equal (option_map Some) E1). }
  split; [exact E2|]. split; [exact E3|]. exact E4.
Qed.

(** ---- noise ---- *)
Lemma mc_schroedinger (c : @sconf F) m : c_class c = CMonteCarlo m -> schroedinger c.
Proof. unfold schroedinger. now intros ->. Qed.

Lemma used_noise_derivatives d (s0 s : st) n m u ds : used d s0 s -> sampled n s m -> mc_ampf m = NNone -> square_hamiltonians n s -> amplitudes s u ->
  c_approx (s_conf s) = GNone -> returns s SNDer (VNDer ds) ->
  length ds = mc_traces m /\
  forall k c t, k < mc_traces m -> c < length (c_ctrl (s_conf s)) -> t < length (s_time s) -> exists per row E X G D tau,
    nth_error ds k = Some per /\ length per = length (c_ctrl (s_conf s)) /\ nth_error per c = Some row /\ length row = length (s_time s) /\
    nth_error row t = Some (Some X) /\ nth_error (s_time s) t = Some tau /\
    is_noisy_generator n (nth t (s_drift s) dop) (c_ctrl (s_conf s)) (fun c => get2 k0 u t c) (mc_ops m) (fun o => get3 k0 (mc_samples m) o k t) G /\
    is_direction n (nth c (c_ctrl (s_conf s)) dop) D /\
    op_dexp la G D (cofk tau) (c_meth (s_conf s)) (c_skew (s_conf s)) eps = Ok (E, X).
Proof.
  intros HU (Hcl & Ho & Hw) Hn [Hd Hc] [Hu Du] Ha Hp. destruct (dim_wfa3 Hw) as (D0 & D1 & D2 & _). set (U := s_udiss s0).
  pose proof (@used_value F rexp la eps d s0 s SNDer _ HU eq_refl Hp) as V. cbn [rval] in V. unfold mc_is in V. rewrite Hcl in V. unfold nder_val in V. cbn [s_conf bare] in V. rewrite Ha in V.
  destruct V as (ng & dirs & rows & A1 & A2 & A3 & ->). fold U in A1, A2, A3.
  assert (Hna : noise_array m (bare U s) = Ok (mk3 (length (s_time s)) (mc_traces m) (length (mc_ops m)) (fun t k o => get3 k0 (mc_samples m) o k t))).
  { unfold noise_array. rewrite Hn, D0, D1, D2. reflexivity. }
  apply wfs_matrix in Hd. apply wfs_matrix in Hc. apply wfs_matrix in Ho.
  destruct (@noise_gens F n m (bare U s) ng u _ Hd Hc Ho Hu Hna A1) as (Ln & Eg).
  apply dirs_schr in A2; [|eapply mc_schroedinger; eauto]. subst dirs.
  unfold P_Solver2.pnrows in A3. destruct (mapM_seq _ _ _ [] A3) as [L0 R0]. cbn [Nat.add] in R0.
  split. { now rewrite !map_length. }
  intros k c t Hk Hcc Ht. specialize (R0 k Hk). destruct (Eg k Hk) as [Lk Ek]. destruct (idx ng k) as [g|] eqn:E0; [|discriminate]. cbn [bind] in R0. destruct (idx_inv _ _ E0) as [_ G0]. specialize (G0 []).
  unfold prows in R0. destruct (mapM_seq _ _ _ [] R0) as [L1 R1]. cbn [Nat.add] in R1. change (numt (bare U s)) with (length (s_time s)) in *. change (numc (bare U s)) with (length (c_ctrl (s_conf s))) in *.
  specialize (R1 t Ht). destruct (mapM_seq _ _ _ (dop, dop) R1) as [L2 R2]. specialize (R2 c Hcc). cbn [Nat.add] in R2. unfold dexp_at in R2.
  destruct (idx g t) as [G|] eqn:E1; [|discriminate]. cbn [bind] in R2. destruct (idx (repeat _ _) t) as [dr|] eqn:E2; [|discriminate R2]. cbn [bind] in R2.
  destruct (idx dr c) as [D|] eqn:E3; [|discriminate]. cbn [bind] in R2. change (s_time (bare U s)) with (s_time s) in R2. destruct (idx (s_time s) t) as [tau|] eqn:E4; [|discriminate]. cbn [bind] in R2.
  destruct (idx_inv _ _ E1) as [G1 G2]. specialize (G2 dop).
  eexists _, _, (fst (nth c (nth t (nth k rows []) []) (dop, dop))), (snd (nth c (nth t (nth k rows []) []) (dop, dop))), G, D, tau.
  split. { rewrite nth_error_map, nth_error_map, (nth_error_nth' rows []) by lia. reflexivity. }
  split. { unfold columns. now rewrite map_length, seq_length. }
  split. { apply (@nth_columns _ _ _ _ c t); auto. rewrite map_length. lia. }
  split. { now rewrite !map_length. }
  split. { rewrite nth_error_map, nth_error_map, (nth_error_nth' _ []) by lia. cbn [option_map]. f_equal.
    rewrite (@nth_indep _ (map Some _) c None (Some (dop, dop))) by (rewrite map_length; lia). rewrite map_nth. reflexivity. }
  split. { unfold idx in E4. destruct (nth_error (s_time s) t); congruence. }
  split. { specialize (Ek t). cbn [s_drift bare] in Lk, Ek. rewrite G0 in Lk. specialize (Ek ltac:(lia) ltac:(lia)). rewrite d0_mk3, d1_mk3, d2_mk3 in Ek.
    destruct (Nat.ltb_spec t (length (s_time s))); [|lia]. destruct (Nat.ltb_spec k (mc_traces m)); [|lia]. cbn [andb] in Ek. destruct (Ek eq_refl) as [W H1].
    unfold cell in W, H1. rewrite G0, G2 in W, H1. split; auto.
    intros i j Hi Hj. rewrite H1 by auto. apply f_equal. apply f_equal. apply sumn_ext. intros o Hoo. now rewrite get3_mk3 by auto. }
  split. { eapply dirs_at; eauto. }
  etransitivity; [exact R2|]. f_equal. now destruct (nth c (nth t (nth k rows []) []) (dop, dop)).
Qed.

Lemma used_noise_grape d (s0 s : st) n m pss ds : used d s0 s -> c_class (s_conf s) = CMonteCarlo m -> square_hamiltonians n s ->
  c_approx (s_conf s) = GGrape -> returns s SNProp (VDer pss) -> (forall ps, In ps pss -> all_square n ps) -> returns s SNDer (VNDer ds) ->
  length ds = mc_traces m /\
  forall k c t, k < mc_traces m -> c < length (c_ctrl (s_conf s)) -> t < length (s_time s) -> exists per row ps P X D tau,
    nth_error ds k = Some per /\ length per = length (c_ctrl (s_conf s)) /\ nth_error per c = Some row /\ length row = length (s_time s) /\
    nth_error row t = Some (Some X) /\ nth_error pss k = Some ps /\ nth_error ps t = Some (Some P) /\ nth_error (s_time s) t = Some tau /\
    is_direction n (nth c (c_ctrl (s_conf s)) dop) D /\
    is_matrix n n X /\ forall i j, i < n -> j < n -> X.[i,j] = cmul (cofk tau) (sumn (S:=S) n (fun k => cmul D.[i,k] P.[k,j])).
Proof.
  intros HU Hcl [Hd Hc] Ha Hp Hsq Hr. set (U := s_udiss s0).
  pose proof (@used_value F rexp la eps d s0 s SNDer _ HU eq_refl Hr) as V. cbn [rval] in V. unfold mc_is in V. rewrite Hcl in V. unfold nder_val in V. cbn [s_conf bare] in V. rewrite Ha in V.
  pose proof (@used_value F rexp la eps d s0 s SNProp _ HU eq_refl Hp) as V'. cbn [rval] in V'. unfold mc_is in V'. rewrite Hcl in V'.
  destruct V' as (ng' & ess' & B1 & B2 & ->). destruct V as (ng & ess & dirs & rows & A1 & A2 & A3 & A4 & ->).
  rewrite A1 in B1. inversion B1; subst ng'. rewrite A2 in B2. inversion B2; subst ess'. clear B1 B2. fold U in A1, A2, A3, A4.
  apply wfs_matrix in Hc. pose proof (@pnexps_length F la m _ _ _ A2) as Le.
  assert (Lr : length rows = length ess /\ forall k, k < length ess -> grape_rows (bare U s) dirs (nth k ess []) = Ok (nth k rows [])).
  { clear - A4. revert rows A4. induction ess as [|es ess IH]; cbn [mapM]; intros rows H.
    - inversion H; subst. split; auto. intros k Hk. cbn in Hk. lia.
    - destruct (grape_rows _ dirs es) as [r|] eqn:E; [|discriminate]. destruct (mapM _ ess) as [rs|] eqn:E'; [|discriminate]. inversion H; subst rows.
      destruct (IH rs eq_refl) as [L R]. split; [cbn; lia|]. intros [|k] Hk; cbn [nth]; auto. apply R. cbn in Hk. lia. }
  destruct Lr as [Lr Rr]. split. { rewrite !map_length. lia. }
  intros k c t Hk Hcc Ht. specialize (Rr k ltac:(lia)).
  assert (He : forall P, In P (nth k ess []) -> is_matrix n n P).
  { intros P HP. apply (Hsq (map Some (nth k ess []))); [|now apply in_map]. apply in_map. apply nth_In. lia. }
  destruct (@grape_rows_at n U s dirs _ _ t c Hc (mc_schroedinger _ Hcl) A3 He Rr) as [L R]. destruct (R Ht) as [L2 R2]. destruct (R2 Hcc) as (P & D & tau & E1 & E2 & E3 & E4).
  eexists _, _, (map Some (nth k ess [])), P, (nth c (nth t (nth k rows []) []) dop), D, tau.
  split. { rewrite nth_error_map, nth_error_map, (nth_error_nth' rows []) by lia. reflexivity. }
  split. { unfold grape_transpose. now rewrite map_length, seq_length. }
  split. { unfold grape_transpose. rewrite nth_error_map, (nth_error_nth' (seq 0 _) 0) by now rewrite seq_length. rewrite seq_nth by auto. reflexivity. }
  split. { now rewrite !map_length. }
  split. { rewrite nth_error_map, nth_error_map, (nth_error_nth' _ []) by lia. cbn [option_map]. f_equal.
    rewrite (@nth_indep _ (map Some _) (0 + c) None (Some dop)) by (rewrite map_length; cbn; lia). rewrite map_nth. reflexivity. }
  split. { rewrite nth_error_map, (nth_error_nth' ess []) by lia. reflexivity. }
  split. { rewrite nth_error_map. exact (f_equal (option_map Some) E1). }
  split; [exact E2|]. split; [exact E3|]. exact E4.
Qed.
End Grape.
