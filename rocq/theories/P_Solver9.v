(** What the solvers compute: generators, unitarity, derivatives, noise traces. *)
Require Import List Arith Lia Bool Ring Field.
From Verif Require Import LibBase LibRing LibArr LibCplx LibNorm LibMat M_Matrix S_Linear P_Linear P_Matrix P_Spectral M_OpHeap M_Transfer S_Transfer M_Amplitude P_Transfer P_Transfer3 M_Solver S_Solver P_Loops P_Solver P_Solver2 P_Solver3 P_Solver4 P_Solver5 P_Solver6 P_Solver7 P_Solver8.
Import ListNotations.
Open Scope res_scope.
Set Implicit Arguments.

Section Reads.
Variable F : OField.
Variable rexp : F -> F.
Variable la : LinAlg F.
Variable eps : cplx F.
Notation S := (CStar F).
Notation C := (cplx F).
Notation op := (op F).
Notation arrF := (arr (kcar F)).
Notation st := (@st F).
Notation dop := (Arr [] [] : op).
Notation wfs n := (Forall (wfm (S:=S) n n : op -> Prop)).
Notation used := (used rexp la eps).
Notation returns := (returns rexp la eps).
Add Field Kfield_ps9 : (k_field F).
Add Field Cfield_ps9 : (c_field F).

(** ---- the amplitudes ---- *)
Lemma used_amps d (s0 : st) hist y : constructed d s0 -> good la eps (s_conf s0) -> Forall allowed hist -> all_ok rexp la eps s0 hist -> last_set hist = Some y ->
  exists x u, snd (call rexp (s_tf s0) y) = Ok x /\ amp_call (c_amp (s_conf s0)) x = Ok u /\
    amplitudes (srun rexp la eps s0 hist) u /\ dim1 u = length (c_ctrl (s_conf s0)) /\ s_tpars (srun rexp la eps s0 hist) = Some x /\
    same_problem (srun rexp la eps s0 hist) s0.
Proof.
  intros Hc G A H Hl. destruct (@constructed_fresh F rexp la eps d s0 Hc G) as [tau Fr].
  destruct (@history F rexp la eps (s_udiss s0) d tau s0 hist Fr A s0 (fresh_reach Fr) H) as [R O]. rewrite (f_opt Fr) in O. unfold last_set in Hl. rewrite Hl in O.
  pose proof (r_core R) as K. rewrite O in K. destruct K as (f & E & B). cbn [M_Solver.sstep] in E. destruct (set_pars rexp y s0) as [q r] eqn:Eq.
  assert (H0 : opt_equal (s_opt s0) y = false) by now rewrite (f_opt Fr).
  pose proof (@set_pars_new F rexp (s_udiss s0) s0 y q r H0 Eq) as K. unfold amps_of in K. destruct (snd (call rexp (s_tf s0) y)) as [x|] eqn:E1; cbn [bind] in K; [|subst r; discriminate].
  destruct (amp_call (c_amp (s_conf s0)) x) as [u|] eqn:E2; cbn [bind] in K; [|subst r; discriminate].
  destruct (Nat.eqb (rank u) 2); cbn [bind] in K; [|subst r; discriminate]. destruct (Nat.eqb_spec (dim0 u) (length (s_time s0))) as [D0|]; cbn [bind] in K; [|subst r; discriminate].
  destruct (Nat.eqb_spec (dim1 u) (length (c_ctrl (s_conf s0)))) as [D1|]; cbn [bind] in K; [|subst r; discriminate].
  destruct K as (-> & _ & K & _). cbn in E. inversion E; subst q. rewrite K in B. exists x, u.
  pose proof (f_equal (@s_conf F) B) as B1. pose proof (f_equal (@s_drift F) B) as B2. pose proof (f_equal (@s_time F) B) as B3. pose proof (f_equal (@s_amps F) B) as B4. pose proof (f_equal (@s_tpars F) B) as B5.
  cbn [bare core s_conf s_drift s_time s_amps s_tpars] in B1, B2, B3, B4, B5.
  split; auto. split; auto. split. { split; [exact B4|congruence]. } split; auto. split; auto. unfold same_problem. now rewrite B1, B2, B3.
Qed.

(** ---- closed forms ---- *)
Lemma pexps_nth (b : st) (g es : list op) t : pexps la b g = Ok es -> t < length (s_time b) ->
  length es = length (s_time b) /\ t < length g /\ exists tau, nth_error (s_time b) t = Some tau /\ op_exp la (nth t g dop) (cofk tau) (c_meth (s_conf b)) (c_skew (s_conf b)) = Ok (nth t es dop).
Proof.
  intros H Ht. unfold pexps in H. destruct (mapM_seq _ _ _ dop H) as [L E]. fold (numt b) in Ht. specialize (E t Ht). cbn [Nat.add] in E.
  split; auto. unfold exp_at in E. destruct (idx g t) as [G|] eqn:E1; [|discriminate]. cbn [bind] in E. destruct (idx_inv _ _ E1) as [K1 K2]. split; auto.
  destruct (idx (s_time b) t) as [tau|] eqn:E2; [|discriminate]. cbn [bind] in E. exists tau. rewrite (K2 dop). split; auto.
  unfold idx in E2. destruct (nth_error (s_time b) t); congruence.
Qed.

Lemma pexps_propagates (b : st) (g es : list op) (gen : nat -> op -> Prop) : pexps la b g = Ok es -> (forall t, t < length (s_time b) -> t < length g -> gen t (nth t g dop)) ->
  propagates la b gen (map Some es).
Proof.
  intros H Hg. unfold propagates. rewrite map_length. split.
  - apply mapM_length in H. now rewrite H, seq_length.
  - intros t Ht. destruct (@pexps_nth b g es t H Ht) as (L & Lg & tau & E1 & E2). exists (nth t es dop), (nth t g dop), tau.
    split; [rewrite nth_error_map, (nth_error_nth' es dop) by lia; reflexivity|]. auto.
Qed.

Definition ham (s : st) u t (G : op) : Prop := is_generator (F:=F) (nr G) (nth t (s_drift s) dop) (c_ctrl (s_conf s)) (fun c => get2 k0 u t c) G.

Lemma pgens_schr (b : st) g : schroedinger (s_conf b) -> pgens b = Ok g -> schr_dyn b = (g, None).
Proof.
  unfold schroedinger, pgens. intros Hs. destruct (schr_dyn b) as [g' [e|]]; [discriminate|]. destruct (c_class (s_conf b)); try tauto; intros H; inversion H; auto.
Qed.
Lemma used_propagators d (s0 s : st) n u ps : used d s0 s -> schroedinger (s_conf s) -> square_hamiltonians n s -> amplitudes s u ->
  returns s SPropag (VProp ps) ->
  propagates la s (fun t G => is_generator n (nth t (s_drift s) dop) (c_ctrl (s_conf s)) (fun c => get2 k0 u t c) G) ps.
Proof.
  intros HU Hs [Hd Hc] [Hu Du] Hp. destruct (@used_value F rexp la eps d s0 s SPropag _ HU eq_refl Hp) as (g & es & A1 & A2 & ->).
  apply pgens_schr in A1; [|exact Hs]. apply wfs_matrix in Hd. apply wfs_matrix in Hc.
  destruct (@schr_dyn_gen F n (bare (s_udiss s0) s) u g Hd Hc Hu A1) as (L & W & E).
  apply (@pexps_propagates (bare (s_udiss s0) s) g es _ A2). intros t Ht Hg. apply E; auto. cbn [s_time bare] in Ht. lia.
Qed.

(** ---- unitarity ---- *)
Lemma propagates_unitary (s : st) n (gen : nat -> op -> Prop) ps :
  (forall t G, t < length (s_time s) -> gen t G -> is_skew_hermitian (S:=S) n G) ->
  (forall (A E : op) (tau : F), is_skew_hermitian (S:=S) n A -> op_exp la A (cofk tau) (c_meth (s_conf s)) (c_skew (s_conf s)) = Ok E -> is_unitary (S:=S) n E) ->
  propagates la s gen ps -> forall P, In (Some P) ps -> is_unitary (S:=S) n P.
Proof.
  intros Hg HE [L H] P HP. destruct (In_nth_error _ _ HP) as [t Ht].
  assert (t < length (s_time s)). { rewrite <- L. apply nth_error_Some. congruence. }
  destruct (H t H0) as (P' & G & tau & E1 & E2 & E3 & E4). rewrite Ht in E1. inversion E1; subst P'. eapply HE; [|exact E4]. eapply Hg; eauto.
Qed.
Lemma used_all_unitary d (s0 s : st) n u ps fs rs : used d s0 s -> schroedinger (s_conf s) ->
  Forall (is_hermitian (S:=S) n : op -> Prop) (s_drift s) -> Forall (is_hermitian (S:=S) n : op -> Prop) (c_ctrl (s_conf s)) -> amplitudes s u ->
  length (s_drift s) = length (s_time s) -> is_unitary (S:=S) n (c_init (s_conf s)) ->
  (forall (A E : op) (tau : F), is_skew_hermitian (S:=S) n A -> op_exp la A (cofk tau) (c_meth (s_conf s)) (c_skew (s_conf s)) = Ok E -> is_unitary (S:=S) n E) ->
  returns s SPropag (VProp ps) -> returns s SFwd (VOps fs) -> returns s SRev (VOps rs) ->
  (forall P, In (Some P) ps -> is_unitary (S:=S) n P) /\ (forall f, In f fs -> is_unitary (S:=S) n f) /\ (forall r, In r rs -> is_unitary (S:=S) n r).
Proof.
  intros HU Hs Hd Hc Hu Dd Hi HE Hp Hf Hr.
  assert (Hsq : square_hamiltonians n s). { split; (eapply Forall_impl; [|eassumption]); intros A HA; apply HA. }
  assert (Up : forall P, In (Some P) ps -> is_unitary (S:=S) n P).
  { eapply propagates_unitary; [|exact HE|exact (@used_propagators d s0 s n u ps HU Hs Hsq Hu Hp)]. intros t G Ht HG. cbv beta in HG.
    apply (@generator_skew F n (nth t (s_drift s) dop) (c_ctrl (s_conf s)) (fun c => get2 k0 u t c) G); auto.
    rewrite Forall_forall in Hd. apply Hd. apply nth_In. lia. }
  split; auto. split.
  - exact (@used_unitary F rexp la eps d s0 s ps fs n HU Hp Hf Up Hi).
  - exact (@used_rev_unitary F rexp la eps d s0 s ps rs n HU Hp Hr Up).
Qed.
(** the spectral method fulfils the contract *)
Lemma mscale_skew n (A : op) (tau : F) : is_skew_hermitian (S:=S) n A -> is_skew_hermitian (S:=S) n (mscale (S:=S) (cofk tau) A).
Proof.
  intros [W H]. pose proof W as W'. apply is_matrix_wfm in W'. split; [apply is_matrix_wfm; now apply wfm_mscale|]. intros i j Hi Hj.
  rewrite !(@mg_mscale S n n) by auto. rewrite (H i j) by auto. tocplx. rewrite cconj_mul, cconj_cofk. cring.
Qed.
Lemma spectral_contract n skew : exp_laws (la_cexp la) -> (forall A : op, is_skew_hermitian (S:=S) n A -> eig_ok la skew n A) ->
  forall (A E : op) (tau : F), is_skew_hermitian (S:=S) n A -> op_exp la A (cofk tau) Spectral skew = Ok E -> is_unitary (S:=S) n E.
Proof.
  intros Hx He A E tau HA H. destruct (@spectral_unitary F la skew n A (cofk tau) Hx (He A HA) (mscale_skew tau HA)) as (E' & H1 & H2). rewrite H in H1. now inversion H1; subst.
Qed.

(** ---- derivatives ---- *)
Lemma nth_columns {A B} m (rows : list (list (option (A * B)))) c t : c < m -> t < length rows ->
  nth_error (columns m rows) c = Some (map (fun row => option_map snd (nth c row None)) rows).
Proof. intros Hc Ht. unfold columns. rewrite nth_error_map, (nth_error_nth' (seq 0 m) 0) by now rewrite seq_length. rewrite seq_nth by auto. reflexivity. Qed.

Lemma used_derivatives d (s0 s : st) n u ds : used d s0 s -> schroedinger (s_conf s) -> square_hamiltonians n s -> amplitudes s u ->
  c_approx (s_conf s) = GNone -> returns s SDer (VDer ds) ->
  length ds = length (c_ctrl (s_conf s)) /\
  forall c t, c < length (c_ctrl (s_conf s)) -> t < length (s_time s) -> exists row E X G D tau,
    nth_error ds c = Some row /\ length row = length (s_time s) /\ nth_error row t = Some (Some X) /\ nth_error (s_time s) t = Some tau /\
    is_generator n (nth t (s_drift s) dop) (c_ctrl (s_conf s)) (fun c => get2 k0 u t c) G /\ is_direction n (nth c (c_ctrl (s_conf s)) dop) D /\
    op_dexp la G D (cofk tau) (c_meth (s_conf s)) (c_skew (s_conf s)) eps = Ok (E, X).
Proof.
  intros HU Hs [Hd Hc] [Hu Du] Ha Hp. pose proof (@used_value F rexp la eps d s0 s SDer _ HU eq_refl Hp) as V. cbn [rval] in V. unfold der_val in V. cbn [s_conf bare] in V. rewrite Ha in V.
  destruct V as (g & dirs & rows & A1 & A2 & A3 & ->).
  apply pgens_schr in A1; [|exact Hs]. apply wfs_matrix in Hd. apply wfs_matrix in Hc.
  destruct (@schr_dyn_gen F n (bare (s_udiss s0) s) u g Hd Hc Hu A1) as (L & W & E).
  unfold columns at 1. rewrite map_length, seq_length. split; [reflexivity|]. intros c t Hcc Ht.
  unfold prows in A3. destruct (mapM_seq _ _ _ [] A3) as [L1 R1]. cbn [Nat.add] in R1. change (numt (bare (s_udiss s0) s)) with (length (s_time s)) in *. change (numc (bare (s_udiss s0) s)) with (length (c_ctrl (s_conf s))) in *.
  specialize (R1 t Ht). destruct (mapM_seq _ _ _ (dop, dop) R1) as [L2 R2]. specialize (R2 c Hcc). cbn [Nat.add] in R2. unfold dexp_at in R2.
  destruct (idx g t) as [G|] eqn:E1; [|discriminate]. cbn [bind] in R2. destruct (idx dirs t) as [dr|] eqn:E2; [|discriminate]. cbn [bind] in R2.
  destruct (idx dr c) as [D|] eqn:E3; [|discriminate]. cbn [bind] in R2. change (s_time (bare (s_udiss s0) s)) with (s_time s) in R2. destruct (idx (s_time s) t) as [tau|] eqn:E4; [|discriminate]. cbn [bind] in R2.
  destruct (idx_inv _ _ E1) as [G1 G2]. specialize (G2 dop).
  eexists _, (fst (nth c (nth t rows []) (dop, dop))), (snd (nth c (nth t rows []) (dop, dop))), G, D, tau.
  split. { apply (@nth_columns _ _ _ _ c t); auto. rewrite map_length. lia. }
  split. { now rewrite !map_length. }
  split. { rewrite nth_error_map, nth_error_map, (nth_error_nth' rows []) by lia. cbn [option_map]. f_equal.
    rewrite (@nth_indep _ (map Some (nth t rows [])) c None (Some (dop, dop))) by (rewrite map_length; lia). rewrite map_nth. reflexivity. }
  split. { unfold idx in E4. destruct (nth_error (s_time s) t); congruence. }
  split. { rewrite <- G2. apply E; auto; lia. }
  split. 2: { etransitivity; [exact R2|]. f_equal. now destruct (nth c (nth t rows []) (dop, dop)). }
  unfold pdirs, directions in A2. cbn [s_conf bare] in A2. assert (A2' : dirs = repeat (map (neg_i (F:=F)) (c_ctrl (s_conf s))) (length (s_time s))).
  { unfold schroedinger in Hs. destruct (c_class (s_conf s)); try tauto; cbn in A2; now inversion A2. }
  subst dirs. destruct (idx_inv _ _ E2) as [I1 I2]. specialize (I2 []). rewrite nth_repeat_lt in I2 by auto. subst dr.
  destruct (idx_inv _ _ E3) as [J1 J2]. specialize (J2 (neg_i dop)). rewrite map_nth in J2. subst D.
  assert (WH : wfm (S:=S) n n (nth c (c_ctrl (s_conf s)) dop)) by now apply wfs_nth.
  split; [apply is_matrix_wfm; now apply wfm_mscale|]. intros i j Hi Hj. unfold neg_i. now rewrite (@mg_mscale S n n) by auto.
Qed.
(** changing one amplitude moves the generator along the direction *)
Lemma generator_moves n (h : op) (hs : list op) (u : nat -> F) c (e : F) (G D G' : op) : c < length hs ->
  is_generator n h hs u G -> is_direction n (nth c hs dop) D -> is_generator n h hs (fun c' => if Nat.eqb c' c then kadd (u c') e else u c') G' ->
  forall i j, i < n -> j < n -> G'.[i,j] = cadd G.[i,j] (cmul (cofk e) D.[i,j]).
Proof.
  intros Hc [_ HG] [_ HD] [_ HG'] i j Hi Hj. rewrite HG, HD, HG' by auto.
  assert (E : sumn (S:=S) (length hs) (fun c0 => cmul (cofk (if Nat.eqb c0 c then kadd (u c0) e else u c0)) (nth c0 hs dop).[i,j]) =
    cadd (sumn (S:=S) (length hs) (fun c0 => cmul (cofk (u c0)) (nth c0 hs dop).[i,j])) (cmul (cofk e) (nth c hs dop).[i,j])).
  { transitivity (sumn (S:=S) (length hs) (fun c0 => sadd (s:=S) (cmul (cofk (u c0)) (nth c0 hs dop).[i,j]) (if Nat.eqb c0 c then cmul (cofk e) (nth c0 hs dop).[i,j] else s0 (s:=S)))).
    - apply sumn_ext. intros c' _. destruct (Nat.eqb c' c).
      + assert (X : cofk (kadd (u c') e) = cadd (cofk (u c')) (cofk e)) by (unfold cofk, cadd; cbn; apply (f_equal2 pair); ring). rewrite X. cring.
      + cring.
    - rewrite sumn_add. tocplx. f_equal. etransitivity; [apply (@sumn_single S (length hs) c)|]; auto.
      + intros k Hk Hn. destruct (Nat.eqb_spec k c); [congruence|reflexivity].
      + now rewrite Nat.eqb_refl. }
  rewrite E. cring.
Qed.
(** Monte Carlo: the products of every trace *)
Lemma used_noise_forward d (s0 s : st) m pss fss n k : used d s0 s -> c_class (s_conf s) = CMonteCarlo m -> returns s SNProp (VDer pss) -> returns s SNFwd (VNOps fss) ->
  (forall ps, In ps pss -> all_square n ps) -> is_matrix n k (c_init (s_conf s)) ->
  length pss = mc_traces m /\ length fss = mc_traces m /\
  forall j ps fs, nth_error pss j = Some ps -> nth_error fss j = Some fs -> cumulative n k (c_init (s_conf s)) ps fs.
Proof.
  intros HU Hc Hp Hf Hn Hi. pose proof (@used_value F rexp la eps d s0 s SNProp _ HU eq_refl Hp) as V1. pose proof (@used_value F rexp la eps d s0 s SNFwd _ HU eq_refl Hf) as V2.
  cbn [rval] in V1, V2. unfold mc_is in V1, V2. rewrite Hc in V1, V2. destruct V1 as (ng & ess & A1 & A2 & ->). destruct V2 as (ng' & ess' & B1 & B2 & B3).
  assert (ng' = ng) by congruence. subst ng'. assert (ess' = ess) by congruence. subst ess'. apply is_matrix_wfm in Hi.
  pose proof (@pnexps_length F la m _ _ _ A2) as L. rewrite map_length. split; auto. split; [apply mapM_length in B3; now rewrite B3|].
  intros j ps fs H1 H2. rewrite nth_error_map in H1. destruct (nth_error ess j) as [es|] eqn:Ej; [|discriminate]. cbn in H1. inversion H1; subst ps. clear H1.
  assert (Hj : j < length ess) by (apply nth_error_Some; congruence).
  assert (W : wfs n es). { apply all_square_map. apply Hn. apply in_map. now apply nth_error_In with j. }
  pose proof (@mapM_nth _ _ _ _ _ ([] : list op) ([] : list op) B3 j Hj) as E. rewrite (nth_error_nth _ _ _ Ej), (nth_error_nth _ _ _ H2) in E.
  unfold fwd_of in E. cbn [s_conf bare] in E. change [c_init (s_conf s)] with ([] ++ [c_init (s_conf s)]) in E.
  rewrite (@fwd_foldM F n k) in E by auto. inversion E; subst. now apply prods_cumulative.
Qed.
Lemma used_noise_reversed d (s0 s : st) m pss fss rss n k : used d s0 s -> c_class (s_conf s) = CMonteCarlo m ->
  returns s SNProp (VDer pss) -> returns s SNFwd (VNOps fss) -> returns s SNRev (VNOps rss) ->
  (forall ps, In ps pss -> all_square n ps) -> is_matrix n k (c_init (s_conf s)) -> (exists ps, returns s SPropag (VProp ps) /\ all_square n ps) ->
  forall j ps fs rs, nth_error pss j = Some ps -> nth_error fss j = Some fs -> nth_error rss j = Some rs ->
    length rs = Datatypes.S (length ps) /\ (exists r0, nth_error rs 0 = Some r0 /\ is_identity n r0) /\
    forall t, t <= length ps -> exists R f l, nth_error (rev rs) t = Some R /\ nth_error fs t = Some f /\ nth_error fs (length ps) = Some l /\ is_product n n k R f l.
Proof.
  intros HU Hc Hp Hf Hr Hn Hi (ps0 & Hp0 & Hn0). pose proof (@used_value F rexp la eps d s0 s SNProp _ HU eq_refl Hp) as V1. pose proof (@used_value F rexp la eps d s0 s SNFwd _ HU eq_refl Hf) as V2.
  pose proof (@used_value F rexp la eps d s0 s SNRev _ HU eq_refl Hr) as V3. destruct (@used_value F rexp la eps d s0 s SPropag _ HU eq_refl Hp0) as (g & es0 & D1 & D2 & ->).
  cbn [rval] in V1, V2, V3. unfold mc_is in V1, V2, V3. rewrite Hc in V1, V2, V3. destruct V1 as (ng & ess & A1 & A2 & ->). destruct V2 as (ng' & ess' & B1 & B2 & B3).
  destruct V3 as (ng2 & ess2 & g' & es' & ident & C1 & C2 & C3 & C4 & C5 & C6).
  assert (ng' = ng) by congruence. subst ng'. assert (ess' = ess) by congruence. subst ess'. assert (ng2 = ng) by congruence. subst ng2. assert (ess2 = ess) by congruence. subst ess2.
  assert (g' = g) by congruence. subst g'. assert (es' = es0) by congruence. subst es'. apply is_matrix_wfm in Hi. apply all_square_map in Hn0.
  intros j ps fs rs H1 H2 H3. rewrite nth_error_map in H1. destruct (nth_error ess j) as [es|] eqn:Ej; [|discriminate]. cbn in H1. inversion H1; subst ps. clear H1.
  assert (Hj : j < length ess) by (apply nth_error_Some; congruence).
  assert (W : wfs n es). { apply all_square_map. apply Hn. apply in_map. now apply nth_error_In with j. }
  pose proof (@mapM_nth _ _ _ _ _ ([] : list op) ([] : list op) B3 j Hj) as E. rewrite (nth_error_nth _ _ _ Ej), (nth_error_nth _ _ _ H2) in E.
  unfold fwd_of in E. cbn [s_conf bare] in E. change [c_init (s_conf s)] with ([] ++ [c_init (s_conf s)]) in E.
  rewrite (@fwd_foldM F n k) in E by auto. inversion E; subst fs. clear E.
  destruct (idx es0 0) as [P|] eqn:EP; [|discriminate]. cbn [bind] in C5. destruct (idx_inv _ _ EP) as [P1 P2].
  assert (WP : wfm (S:=S) n n P). { rewrite <- (P2 dop). now apply wf_nth. }
  assert (EI : ident = mid (S:=S) n). { unfold op_identity_like in C5. rewrite (wfm_nr WP), (wfm_nc WP), Nat.eqb_refl in C5. now inversion C5. } subst ident.
  pose proof (@mapM_nth _ _ _ _ _ ([] : list op) ([] : list op) C6 j Hj) as E. cbv beta in E. rewrite (nth_error_nth _ _ _ Ej), (nth_error_nth _ _ _ H3) in E. rewrite <- map_rev in E.
  change [mid (S:=S) n] with ([] ++ [mid (S:=S) n]) in E. rewrite (@rev_foldM F n) in E; [|now apply Forall_rev|apply wfm_mid]. inversion E; subst rs. clear E.
  rewrite !map_length. cbn [app]. split; [cbn; now rewrite rprods_length, rev_length|]. split; [exists (mid (S:=S) n); split; [reflexivity|now apply is_identity_mid]|].
  intros t Ht. set (r := mid (S:=S) n :: rprods (rev es) (mid (S:=S) n)). set (f := c_init (s_conf s) :: prods es (c_init (s_conf s))).
  assert (Lr : length (rev r) = Datatypes.S (length es)) by (rewrite rev_length; unfold r; cbn [length]; apply f_equal; etransitivity; [apply rprods_length|apply rev_length]).
  assert (Lf : length f = Datatypes.S (length es)) by (unfold f; cbn [length]; apply f_equal; apply prods_length).
  exists (nth t (rev r) dop), (nth t f dop), (nth (length es) f dop).
  split; [apply nth_error_nth'; lia|]. split; [apply nth_error_nth'; lia|]. split; [apply nth_error_nth'; lia|].
  pose proof (@telescope F n k es (c_init (s_conf s)) t W Hi Ht) as T. fold r f in T.  rewrite <- T. apply is_product_mmul.
  - rewrite rev_nth by (rewrite rev_length in Lr; lia). apply rprods_wf; [now apply Forall_rev|apply wfm_mid|]. rewrite rev_length in *. lia.
  - now apply prods_wf.
Qed.
End Reads.
