(** The evaluation of a cost function and of its gradient goes through (C66). *)
Require Import List Arith Lia Bool Reals Lra.
From Verif Require Import LibBase LibRing LibArr LibCplx LibMat LibNorm LibDeriv M_Matrix S_Linear S_Deriv S_Exp P_Linear P_Matrix P_Frechet P_Mexp P_Total M_OpHeap M_Transfer S_Transfer M_Amplitude S_Amplitude P_Transfer P_Transfer3 P_Transfer4 P_Transfer6 P_Amplitude M_Solver S_Solver M_Cost S_Cost S_CostGrad M_Simulator M_CostProg S_Simulator S_Gradient P_Loops P_Solver P_Solver2 P_Solver3 P_Solver4 P_Solver5 P_Solver6 P_Solver7 P_Solver8 P_Solver9 P_Cost P_Cost2 P_CostGrad P_CostGrad2 P_GradCurve P_Grad.
Import ListNotations.
Local Open Scope res_scope.
Set Implicit Arguments.

Lemma mapM_ok {A B} (f : A -> res B) l : (forall x, In x l -> exists v, f x = Ok v) -> exists vs, mapM f l = Ok vs.
Proof.
  induction l as [|a l IH]; intros H; cbn; [eauto|]. destruct (H a (or_introl eq_refl)) as [v ->]. cbn. destruct IH as [vs ->]; [intros x Hx; apply H; now right|]. cbn. eauto.
Qed.

Section Total.
Add Field Cfield_gt : (c_field RField).
Variable rexp : R -> R.
Variable la : LinAlg RField.
Variable eps : cplx RField.
Notation op := (op RField).
Notation st := (@st RField).
Notation wfs n := (Forall (wfm (S:=RS) n n : op -> Prop)).
Notation returns := (returns (F:=RField) rexp la eps).
Notation with_pulse := (with_pulse (F:=RField) rexp la eps).
Notation optimised := (optimised la eps).

Lemma call_wfa d ys t y x : no_custom d -> matched d -> sym_convs d -> ready (F:=RField) rexp d ys t -> wfa [length ys; ctrls d] y -> snd (call (F:=RField) rexp t y) = Ok x ->
  wfa [b_nx (tbase t); ctrls d] x.
Proof.
  intros H1 H2 H3 H4 W E. destruct (@transfer_curve rexp d ys t (fun _ => y) (fun _ _ => 0%R) (fun _ => x) H1 H2 H3 H4) as (vx & (_ & X & _) & _); auto; [|exact (X 0%R)].
  split; auto. split; auto. intros. apply derivable_pt_lim_const.
Qed.
(** the pulse is accepted *)
Lemma set_total d tau s0 n k y x u : optimised d tau s0 n k -> snd (call (F:=RField) rexp (s_tf s0) y) = Ok x -> amp_call (c_amp (s_conf s0)) x = Ok u ->
  wfa [length (s_time s0); length (c_ctrl (s_conf s0))] u -> exists f, with_pulse s0 y f.
Proof.
  intros O E1 E2 W. destruct (built_fresh rexp (o_built O) (o_good O)) as (Fr & _ & _).
  assert (E0 : opt_equal (s_opt s0) y = false) by now rewrite (f_opt Fr).
  unfold S_Simulator.with_pulse. cbn [M_Solver.sstep]. destruct (set_pars (F:=RField) rexp y s0) as [s1 r1] eqn:E3.
  pose proof (@set_pars_new RField rexp (s_udiss s0) s0 y s1 r1 E0 E3) as H. unfold amps_of in H. rewrite E1 in H. cbn [bind] in H. rewrite E2 in H. cbn [bind] in H.
  destruct (@dims2 (kcar RField) _ _ u W) as (R1 & R2 & R3). rewrite R1, R2, R3, !Nat.eqb_refl in H. cbn [bind] in H. destruct H as (-> & _). exists s1. reflexivity.
Qed.

Lemma ctrl_fold_total (u : RA) (hs : list op) a (gens : list op) : a + length hs <= dim1 u ->
  exists g, foldE (add_ctrl_step (F:=RField) (Some u)) (combine (seq a (length hs)) hs) gens = (g, None).
Proof.
  revert a gens. induction hs as [|h hs IH]; intros a gens H; cbn [length seq combine foldE]; [eauto|]. cbn [length] in H. unfold add_ctrl_step at 1. cbn [fst snd].
  assert (Hl : Nat.ltb a (dim1 (u : arr (kcar RField))) = true) by (apply Nat.ltb_lt; change (a < dim1 u); lia). rewrite Hl. cbn [bind]. apply IH. lia.
Qed.

(** every property can be read *)
Lemma reads_total d tau s0 n k f y : optimised d tau s0 n k -> c_class (s_conf s0) = CSchroedinger -> answering la eps n s0 ->
  length (s_drift s0) = length (s_time s0) -> s_time s0 <> [] -> with_pulse s0 y f ->
  (exists fs, returns f SFwd (VOps fs)) /\ (exists rs, returns f SRev (VOps rs)) /\ exists ds ders, returns f SDer (VDer ds) /\ cells ds = Ok ders.
Proof.
  intros O Hcl AN LD HT H. destruct (built_fresh rexp (o_built O) (o_good O)) as (Fr & _ & _).
  assert (E0 : opt_equal (s_opt s0) y = false) by now rewrite (f_opt Fr).
  destruct (@set_fresh_like RField rexp la eps (s_udiss s0) s0 y f VUnit (g_derivs (o_good O)) (fresh_Inv Fr) E0 H) as (x & u & E & _ & _ & B & NC & IN).
  unfold amps_of in E. destruct (snd (call (F:=RField) rexp (s_tf s0) y)) as [x1|] eqn:E1; [|discriminate]. cbn [bind] in E.
  destruct (amp_call (c_amp (s_conf s0)) x1) as [u1|] eqn:E2; [|discriminate]. cbn [bind] in E.
  destruct (Nat.eqb (rank u1) 2); [|discriminate]. cbn [bind] in E. destruct (Nat.eqb_spec (dim0 u1) (length (s_time s0))) as [D0|]; [|discriminate]. cbn [bind] in E.
  destruct (Nat.eqb_spec (dim1 u1) (length (c_ctrl (s_conf s0)))) as [D1|]; [|discriminate]. cbn [bind] in E. inversion E; subst x1 u1. clear E.
  set (U := s_udiss s0) in *. set (b := bare U f) in *. assert (Cf : s_conf f = s_conf s0) by exact (f_equal (@s_conf RField) B).
  assert (C1 : s_conf b = s_conf s0) by now rewrite B. assert (C2 : s_drift b = s_drift s0) by now rewrite B. assert (C3 : s_time b = s_time s0) by now rewrite B.
  assert (C4 : s_amps b = Some u) by now rewrite B.
  destruct (o_square O) as [Hd Hcc]. apply wfs_matrix in Hd. apply wfs_matrix in Hcc.
  assert (G1 : exists g, schr_dyn b = (g, None)). { unfold schr_dyn. rewrite C4, C1. apply (@ctrl_fold_total u). cbn [Nat.add]. apply Nat.eq_le_incl. symmetry. exact D1. }
  destruct G1 as [g G1]. destruct (@schr_dyn_gen RField n b u g) as (L & W & EG); auto; try (rewrite ?C1, ?C2; auto; fail). rewrite C1, C2 in EG. rewrite C2, LD in L.
  assert (PG : pgens b = Ok g). { unfold pgens. rewrite G1, C1, Hcl. reflexivity. }
  assert (EXP : forall t, t < length (s_time s0) -> exists tt', nth_error (s_time s0) t = Some tt' /\ is_generator (F:=RField) n (nth t (s_drift s0) dop) (c_ctrl (s_conf s0)) (fun c => get2 (k0 : RField) u t c) (nth t g dop)).
  { intros t Ht. destruct (nth_error (s_time s0) t) as [tt'|] eqn:En; [|apply nth_error_None in En; lia]. exists tt'. split; auto. apply EG; [lia|]. rewrite D0. exact Ht. }
  assert (PE : exists es, pexps la b g = Ok es).
  { unfold pexps. apply mapM_ok. intros t Ht. apply in_seq in Ht. unfold numt in Ht. rewrite C3 in Ht. destruct (EXP t ltac:(lia)) as (tt' & X1 & X2).
    unfold exp_at. rewrite (@idx_ok _ g t dop) by lia. cbn [bind]. rewrite C3. unfold idx. rewrite X1. cbn [bind]. rewrite C1. apply (proj1 (AN t tt' _ _ X1 X2)). }
  destruct PE as [es PE].
  assert (PD : pdirs b = Ok (repeat (map (neg_i (F:=RField)) (c_ctrl (s_conf s0))) (length (s_time s0)))).
  { unfold pdirs, directions. rewrite C1, Hcl, C3. reflexivity. }
  assert (PR : exists rows, prows la eps b g (repeat (map (neg_i (F:=RField)) (c_ctrl (s_conf s0))) (length (s_time s0))) = Ok rows).
  { unfold prows. apply mapM_ok. intros t Ht. apply in_seq in Ht. unfold numt in Ht. rewrite C3 in Ht. destruct (EXP t ltac:(lia)) as (tt' & X1 & X2).
    apply mapM_ok. intros c Hc. apply in_seq in Hc. unfold numc in Hc. rewrite C1 in Hc. unfold dexp_at. rewrite (@idx_ok _ g t dop) by lia. cbn [bind].
    rewrite (@idx_ok _ (repeat _ _) t []) by (rewrite repeat_length; lia). cbn [bind]. rewrite (nth_indep _ [] (map (neg_i (F:=RField)) (c_ctrl (s_conf s0)))) by (rewrite repeat_length; lia). rewrite nth_repeat.
    rewrite (@idx_ok _ (map _ _) c (neg_i dop)) by (rewrite map_length; lia). cbn [bind]. rewrite map_nth. rewrite C3. unfold idx. rewrite X1. cbn [bind]. rewrite C1.
    apply (proj2 (AN t tt' _ _ X1 X2) c); [lia|]. assert (WH : wfm (S:=RS) n n (nth c (c_ctrl (s_conf s0)) dop)). { rewrite Forall_forall in Hcc. apply Hcc, nth_In. lia. }
    split; [apply is_matrix_wfm; now apply wfm_mscale|]. intros i j Hi Hj. unfold neg_i. now rewrite (@mg_mscale RS n n) by auto. }
  destruct PR as [rows PR].
  assert (PP : pp la eps (flag0 f) b = Ok tt).
  { unfold pp. rewrite C1, Hcl. unfold pprop. rewrite C4, PG. cbn [bind]. destruct (flag0 f); [rewrite PD; cbn [bind]; rewrite PR|rewrite PE]; reflexivity. }
  assert (PT : pp la eps true b = Ok tt).
  { unfold pp. rewrite C1, Hcl. unfold pprop. rewrite C4, PG. cbn [bind]. rewrite PD. cbn [bind]. rewrite PR. reflexivity. }
  assert (LE : length es = length (s_time s0)). { pose proof PE as X. unfold pexps in X. apply mapM_length in X. rewrite X, seq_length. unfold numt. now rewrite C3. }
  assert (WE : wfs n es).
  { apply Forall_forall. intros P HP. destruct (In_nth_error _ _ HP) as [t Ht]. assert (Lt : t < length es) by (apply nth_error_Some; intros Hn; pose proof (eq_trans (eq_sym Ht) Hn); discriminate).
    destruct (@pexps_nth RField la b g es t PE) as (_ & Lg & tt' & T1 & T2); [rewrite C3; lia|]. rewrite C3 in T1. rewrite C1 in T2.
    destruct (EXP t ltac:(lia)) as (t2 & X1 & X2). destruct (proj1 (@o_exact _ _ _ _ _ _ _ O t _ _ _ T1 X2) _ T2) as (Y & Y1 & _ & _ & Y2).
    rewrite (nth_error_nth _ _ dop Ht) in Y2. rewrite <- Y2. apply is_matrix_wfm. apply Y1. }
  pose proof (o_init O) as Hi. apply is_matrix_wfm in Hi.
  assert (FV : fwd_val la b (c_init (s_conf s0) :: prods es (c_init (s_conf s0)))).
  { exists g, es. split; auto. split; auto. unfold fwd_of. rewrite C1. change [c_init (s_conf s0)] with ([] ++ [c_init (s_conf s0)]). now rewrite (@fwd_foldM RField n k) by auto. }
  assert (RV : exists l, rev_val la b l).
  { destruct es as [|P es]; [destruct (s_time s0); [congruence|discriminate]|]. eexists. exists g, (P :: es). split; auto. split; auto. unfold rev_of. cbn [map first_dim idx nth_error bind].
    assert (WP : wfm (S:=RS) n n P) by now inversion WE. 
    change (Some P :: map Some es) with (map Some (P :: es)). rewrite <- map_rev.
    rewrite (wfm_nr WP). change [mid (S:=RS) n] with ([] ++ [mid (S:=RS) n]). rewrite (@rev_foldM RField n); [reflexivity|now apply Forall_rev|apply wfm_mid]. }
  assert (DV : der_val la eps b (columns (numc b) (map (map Some) rows))).
  { unfold der_val. rewrite C1, (o_approx O). exists g, (repeat (map (neg_i (F:=RField)) (c_ctrl (s_conf s0))) (length (s_time s0))), rows. auto. }
  assert (Gf : good la eps (s_conf f)) by (rewrite Cf; apply (o_good O)).
  assert (READ : forall o, is_read o = true -> rneed la eps U f o -> (exists v, rval la eps U f o v) -> exists v, returns f o v /\ rval la eps U f o v).
  { intros o Ho N V. unfold S_Solver.returns. destruct (sstep (F:=RField) rexp la eps f o) as [s' r] eqn:Es.
    destruct (@read_step RField rexp la eps U f o s' r Ho Gf IN Es) as (_ & A1 & A2 & _). destruct (A2 N V) as [v Ev]. exists v. cbn [snd]. split; auto. now apply A1. }
  assert (MC : forall Q, mc_val Q (s_conf f)) by (intros Q; unfold mc_val; rewrite Cf, Hcl; exact I).
  destruct RV as [rl RV].
  split; [|split].
  - destruct (READ SFwd eq_refl) as (v & V1 & V2); [split; [exact PP|split; [eexists; exact FV|apply MC]]|exists (VOps (c_init (s_conf s0) :: prods es (c_init (s_conf s0)))); exact FV|].
    destruct v; cbn [rval] in V2; try tauto. eauto.
  - destruct (READ SRev eq_refl) as (v & V1 & V2); [split; [exact PP|split; [eexists; exact RV|apply MC]]|exists (VOps rl); exact RV|].
    destruct v; cbn [rval] in V2; try tauto. eauto.
  - destruct (READ SDer eq_refl) as (v & V1 & V2).
    + split; [rewrite Cf, (o_approx O); discriminate|]. split; [unfold can_der; rewrite Cf, (o_approx O); exact PT|]. split; [eexists; exact DV|apply MC].
    + exists (VDer (columns (numc b) (map (map Some) rows))). exact DV.
    + destruct v; cbn [rval] in V2; try tauto. exists l. assert (El : l = columns (numc b) (map (map Some) rows)) by exact (@der_val_fun RField la eps b _ _ V2 DV).
      subst l. assert (X : exists ders, cells (columns (numc b) (map (map Some) rows)) = Ok ders); [|destruct X as [ders X]; exists ders; auto].
      unfold cells, columns. rewrite mapM_map. apply mapM_ok. intros c Hc. apply in_seq in Hc. rewrite mapM_map. rewrite mapM_map. apply mapM_ok. intros row Hrow.
      assert (Lr : length row = numc b).
      { unfold prows in PR. destruct (In_nth _ _ [] Hrow) as (j & Hj & Ej). destruct (@mapM_seq _ _ 0 (numt b) rows [] PR) as [Lq Hq]. rewrite <- Ej. specialize (Hq j ltac:(lia)).
        apply mapM_length in Hq. rewrite seq_length in Hq. exact Hq. }
      rewrite (nth_indep _ None (Some (dop, dop))) by (rewrite map_length; lia). rewrite map_nth. cbn. eauto.
Qed.

(** the evaluation as a function *)
Fixpoint ev (f : st) (p : @prog RField) : res RA :=
  match p with
  | PRet r => r
  | PRead o k => v <- snd (sstep (F:=RField) rexp la eps f o) ;; ev f (k v)
  | PAmps k => ev f (k (s_amps f))
  end.
Lemma evaluates_ev f p a : evaluates (F:=RField) rexp la eps f p a <-> ev f p = Ok a.
Proof.
  revert a. induction p as [r|o k IH|k IH]; intros a; cbn [evaluates ev]; [tauto| |apply IH]. unfold S_Solver.returns. split.
  - intros (v & -> & H). cbn [bind]. now apply IH.
  - destruct (snd (sstep (F:=RField) rexp la eps f o)) as [v|]; cbn [bind]; [|discriminate]. intros H. exists v. split; auto. now apply IH.
Qed.

Section One.
Variables (d : desc RField) (tau : list R) (s0 : st) (n k : nat) (c : @cfun RField) (y x : RA).
Hypothesis O : optimised d tau s0 n k.
Hypothesis Hcl : c_class (s_conf s0) = CSchroedinger.
Hypothesis AN : answering la eps n s0.
Hypothesis LD : length (s_drift s0) = length (s_time s0).
Hypothesis HT : s_time s0 <> [].
Hypothesis HA : right_amplitudes rexp d s0 y.
Hypothesis Wy : wfa [length tau; ctrls d] y.
Hypothesis Hx : snd (call (F:=RField) rexp (s_tf s0) y) = Ok x.
Notation T := (length (s_time s0)).
Notation C := (length (c_ctrl (s_conf s0))).

Lemma T_pos : 0 < T.
Proof. destruct (s_time s0); [congruence|cbn; lia]. Qed.
Lemma pulse_total y' : wfa [length tau; ctrls d] y' -> exists f, with_pulse s0 y' f.
Proof.
  intros W. destruct (built_fresh rexp (o_built O) (o_good O)) as (Fr & _ & Enx). pose proof (f_custom Fr) as N1. pose proof (f_ready Fr) as N2.
  destruct (@call_total RField rexp d tau (s_tf s0) y x N1 (o_matched O) N2 Wy Hx) as [CT _]. destruct (CT y' W) as [x' Ex'].
  assert (Wx : wfa [T; ctrls d] x'). { rewrite <- Enx. eapply call_wfa; eauto; apply O. }
  pose proof (HA Hx) as CD. assert (exists u, amp_call (c_amp (s_conf s0)) x' = Ok u /\ wfa [T; C] u) as (u & E1 & E2).
  { unfold correct_derivative in CD. destruct (c_amp (s_conf s0)) as [|v dv|v dv]; cbn [amp_call].
    - exists x'. rewrite <- CD. auto.
    - destruct CD as [CD _]. rewrite <- CD. apply (@vectorize_defined RField v x' T (ctrls d) Wx); [apply T_pos|apply (o_ctrls O)].
    - destruct CD as [CD _]. auto. }
  eapply set_total; eauto.
Qed.
Lemma chain_total g' : wfa [T; 1; C] g' -> exists a h, amp_chain (c_amp (s_conf s0)) g' x = Ok a /\ snd (grad (F:=RField) rexp (s_tf s0) a) = Ok h.
Proof.
  intros W. destruct (built_fresh rexp (o_built O) (o_good O)) as (Fr & _ & Enx). pose proof (f_custom Fr) as N1. pose proof (f_ready Fr) as N2.
  destruct (@call_total RField rexp d tau (s_tf s0) y x N1 (o_matched O) N2 Wy Hx) as [_ GT].
  assert (Wx : wfa [T; ctrls d] x). { rewrite <- Enx. eapply call_wfa; eauto; apply O. }
  destruct (pulse_total Wy) as [f Hf]. destruct (pulse_at O Hf) as (x1 & u & E1 & E2 & _). assert (x1 = x) by congruence. subst x1.
  destruct (@amplitude_chain_rule T (ctrls d) C 1 (c_amp (s_conf s0)) x u g' (fun q => lin T C (fun t c => get3 0%R g' t q c)) T_pos (o_ctrls O) Wx (HA Hx) E2 W) as (a & Ea & Wa & _).
  { intros q _. apply lin_gradient. }
  rewrite <- Enx in Wa. destruct (GT a 1 Wa) as [h Eh]. eauto.
Qed.

Lemma both (mkc : reads RField -> res R) (mkg : reads RField -> res RA) :
  (forall f fs, returns f SFwd (VOps fs) -> ev f (cf_costs c) = (v <- mkc (only_fwd fs) ;; Ok (scalar RField v))) ->
  (forall f fs rs ds ders, returns f SFwd (VOps fs) -> returns f SRev (VOps rs) -> returns f SDer (VDer ds) -> cells ds = Ok ders ->
     ev f (cf_grad c) = mkg (mkreads fs rs ders [] [] [] 0 0 0)) ->
  (forall r U, is_last (r_fwd r) U -> is_matrix n k U -> exists v, mkc r = Ok v) ->
  (forall r, propagator_lists n k T C (r_fwd r) (r_der r) (r_rev r) -> exists g, mkg r = Ok g /\ wfa [T; C] g) ->
  exists phi h, (forall y', wfa [length tau; ctrls d] y' -> costs_at (F:=RField) rexp la eps s0 c y' (scalar RField (phi y'))) /\
    gradient_at (F:=RField) rexp la eps s0 c y h.
Proof.
  intros H1 H2 H3 H4.
  exists (fun y' => match ev (fst (sstep (F:=RField) rexp la eps s0 (SSet y'))) (cf_costs c) with Ok a => nth 0 (data a) 0%R | Err _ => 0%R end).
  assert (CO : forall y', wfa [length tau; ctrls d] y' -> exists f v, with_pulse s0 y' f /\ ev f (cf_costs c) = Ok (scalar RField v)).
  { intros y' W. destruct (pulse_total W) as [f Hf]. destruct (reads_total O Hcl AN LD HT Hf) as ((fs & Rf) & _ & _).
    destruct (fwd_at O Hf Rf) as (x1 & u & es & _ & _ & _ & L & We & Efs & _).
    pose proof (o_init O) as Hi. apply is_matrix_wfm in Hi.
    assert (ML : exists U, is_last fs U /\ is_matrix n k U).
    { destruct (@exists_last _ fs) as (l' & z & El); [rewrite Efs; discriminate|]. exists z. split; [exists l'; exact El|]. apply is_matrix_wfm.
      assert (Hz : nth (length l') fs dop = z) by (rewrite El; apply nth_middle). rewrite <- Hz. rewrite Efs.
      destruct (lists_lengths es n (c_init (s_conf s0))) as [LL _]. assert (Ll : length l' = length es). { rewrite Efs in El. rewrite El, app_length in LL. cbn in LL. lia. }
      rewrite Ll. apply prods_wf; auto. }
    destruct ML as (U & M1 & M2). destruct (H3 (only_fwd fs) U M1 M2) as [v Ev]. exists f, v. split; auto. rewrite (H1 f fs Rf), Ev. reflexivity. }
  destruct (pulse_total Wy) as [f Hf]. destruct (reads_total O Hcl AN LD HT Hf) as ((fs & Rf) & (rs & Rr) & ds & ders & Rd & Ec).
  destruct (lists_at O Hf Rf Rr Rd Ec) as [HL _]. destruct (H4 (mkreads fs rs ders [] [] [] 0 0 0) HL) as (g & Eg & Wg).
  set (g' := Arr [T; 1; C] (data g) : RA). assert (Wg' : wfa [T; 1; C] g'). { destruct Wg as [_ Wd]. split; auto. cbn [data g']. rewrite Wd. cbn. lia. }
  destruct (chain_total Wg') as (a & h & Ea & Eh). exists h. split.
  - intros y' W. destruct (CO y' W) as (f' & v & P1 & P2). exists f'. split; auto. apply evaluates_ev. unfold S_Simulator.with_pulse in P1. rewrite P1. cbn [fst]. rewrite P2. reflexivity.
  - exists f, g, g', x, a. split; auto. split; [apply evaluates_ev; rewrite (H2 f fs rs ds ders); auto|]. split.
    + right. exists T, C. destruct Wg as [Ws _]. auto.
    + auto.
Qed.
End One.
End Total.
