(** Noise: everything a cost function reads from a Monte Carlo solver after a pulse, as values (C75). *)
Require Import List Arith Lia Bool Reals Lra.
From Verif Require Import LibBase LibRing LibArr LibCplx LibMat LibNorm LibDeriv M_Matrix S_Linear S_Deriv S_Exp P_Linear P_Matrix P_Frechet P_Mexp P_Total M_OpHeap M_Transfer S_Transfer M_Amplitude S_Amplitude P_Transfer P_Transfer3 P_Transfer4 P_Transfer6 P_Amplitude M_Solver S_Solver M_Cost S_Cost S_CostGrad M_Simulator M_CostProg S_Simulator S_Gradient P_Loops P_Solver P_Solver2 P_Solver3 P_Solver4 P_Solver5 P_Solver6 P_Solver7 P_Solver8 P_Solver9 P_SolverMC P_SolverGrape P_Cost P_Cost2 P_CostGrad P_CostGrad2 P_GradCurve P_Grad P_GradTotal P_GradNoise.
Import ListNotations.
Local Open Scope res_scope.
Set Implicit Arguments.

Section Noise2.
Add Field Cfield_gn2 : (c_field RField).
Variable rexp : R -> R.
Variable la : LinAlg RField.
Variable eps : cplx RField.
Notation op := (op RField).
Notation st := (@st RField).
Notation wfs n := (Forall (wfm (S:=RS) n n : op -> Prop)).
Notation returns := (returns (F:=RField) rexp la eps).
Notation with_pulse := (with_pulse (F:=RField) rexp la eps).
Notation optimised := (optimised la eps).

(** the propagator of time step t with the drift dr t *)
Definition Eg n (s0 : st) (dr : nat -> op) (u : RA) t : op :=
  match op_exp la (gen1 n (dr t) (c_ctrl (s_conf s0)) (fun c => ent u t c)) (cofk (stp s0 t : RField)) (c_meth (s_conf s0)) (c_skew (s_conf s0)) with Ok e => e | Err _ => dop end.
Definition exact_on n (s0 : st) (dr : nat -> op) : Prop :=
  forall t u, t < length (s_time s0) -> let G := gen1 n (dr t) (c_ctrl (s_conf s0)) u in
    (exists E, op_exp la G (cofk (stp s0 t : RField)) (c_meth (s_conf s0)) (c_skew (s_conf s0)) = Ok E /\ is_exponential n (mscale (S:=RS) (cofk (stp s0 t : RField)) G) E) /\
    (forall c D, c < length (c_ctrl (s_conf s0)) -> is_direction (F:=RField) n (nth c (c_ctrl (s_conf s0)) dop) D ->
       exists E X, op_dexp la G D (cofk (stp s0 t : RField)) (c_meth (s_conf s0)) (c_skew (s_conf s0)) eps = Ok (E, X) /\ is_exp_derivative n (cofk (stp s0 t : RField)) G D X).
Definition trace n (s0 : st) (dr : nat -> op) (u : RA) (es : list op) (ders : list (list op)) : Prop :=
  length es = length (s_time s0) /\ wfs n es /\ (forall t, t < length (s_time s0) -> nth_error es t = Some (Eg n s0 dr u t)) /\
  length ders = length (c_ctrl (s_conf s0)) /\ Forall (fun row : list op => length row = length (s_time s0) /\ Forall (is_matrix n n) row) ders /\
  forall c t, c < length (c_ctrl (s_conf s0)) -> t < length (s_time s0) -> exists D, is_direction (F:=RField) n (nth c (c_ctrl (s_conf s0)) dop) D /\
    is_exp_derivative n (cofk (stp s0 t : RField)) (gen1 n (dr t) (c_ctrl (s_conf s0)) (fun c => ent u t c)) D (nth t (nth c ders []) dop).

Lemma Eg_exp n s0 dr u t : exact_on n s0 dr -> t < length (s_time s0) ->
  op_exp la (gen1 n (dr t) (c_ctrl (s_conf s0)) (fun c => ent u t c)) (cofk (stp s0 t : RField)) (c_meth (s_conf s0)) (c_skew (s_conf s0)) = Ok (Eg n s0 dr u t) /\
  is_exponential n (mscale (S:=RS) (cofk (stp s0 t : RField)) (gen1 n (dr t) (c_ctrl (s_conf s0)) (fun c => ent u t c))) (Eg n s0 dr u t).
Proof. intros H Ht. destruct (H t (fun c => ent u t c) Ht) as ((E & E1 & E2) & _). unfold Eg. rewrite E1. auto. Qed.
Lemma Eg_wf n s0 dr u t : exact_on n s0 dr -> t < length (s_time s0) -> wfm (S:=RS) n n (Eg n s0 dr u t).
Proof. intros H Ht. destruct (Eg_exp u H Ht) as [_ (Y & Y1 & _ & _ & Y2)]. rewrite <- Y2. apply is_matrix_wfm. apply Y1. Qed.

Notation dirs0 s0 := (repeat (map (neg_i (F:=RField)) (c_ctrl (s_conf s0))) (length (s_time s0))).
Lemma trace_total n (s0 b : st) (dr : nat -> op) (u : RA) (g : list op) : s_conf b = s_conf s0 -> s_time b = s_time s0 -> wfs n (c_ctrl (s_conf s0)) ->
  exact_on n s0 dr -> length g = length (s_time s0) ->
  (forall t, t < length (s_time s0) -> nth t g dop = gen1 n (dr t) (c_ctrl (s_conf s0)) (fun c => ent u t c)) ->
  exists es rows ders, pexps la b g = Ok es /\ prows la eps b g (dirs0 s0) = Ok rows /\ cells (columns (numc b) (map (map Some) rows)) = Ok ders /\ trace n s0 dr u es ders.
Proof.
  intros C1 C3 Wc EX L HG. set (T := length (s_time s0)) in *. set (C := length (c_ctrl (s_conf s0))) in *.
  assert (NT : numt b = T) by (unfold numt; now rewrite C3). assert (NC : numc b = C) by (unfold numc; now rewrite C1).
  assert (IT : forall t, t < T -> idx (s_time b) t = Ok (stp s0 t)). { intros t Ht. rewrite C3. unfold stp. now apply idx_ok. }
  assert (PE : pexps la b g = Ok (map (Eg n s0 dr u) (seq 0 T))).
  { unfold pexps. rewrite NT. apply P_Cost2.mapM_total; [exact dop|]. intros t Ht. unfold exp_at. rewrite (@idx_ok _ g t dop) by lia. cbn [bind]. rewrite IT by auto. cbn [bind]. rewrite C1, HG by auto. now apply Eg_exp. }
  assert (DIR : forall c, c < C -> is_direction (F:=RField) n (nth c (c_ctrl (s_conf s0)) dop) (neg_i (nth c (c_ctrl (s_conf s0)) dop))).
  { intros c Hc. assert (WH : wfm (S:=RS) n n (nth c (c_ctrl (s_conf s0)) dop)). { rewrite Forall_forall in Wc. apply Wc, nth_In. exact Hc. }
    split; [apply is_matrix_wfm; now apply wfm_mscale|]. intros i j Hi Hj. unfold neg_i. now rewrite (@mg_mscale RS n n) by auto. }
  set (X := fun t c => match op_dexp la (gen1 n (dr t) (c_ctrl (s_conf s0)) (fun c => ent u t c)) (neg_i (nth c (c_ctrl (s_conf s0)) dop)) (cofk (stp s0 t : RField)) (c_meth (s_conf s0)) (c_skew (s_conf s0)) eps with Ok p => p | Err _ => (dop, dop) end).
  assert (EXX : forall t c, t < T -> c < C -> op_dexp la (gen1 n (dr t) (c_ctrl (s_conf s0)) (fun c => ent u t c)) (neg_i (nth c (c_ctrl (s_conf s0)) dop)) (cofk (stp s0 t : RField)) (c_meth (s_conf s0)) (c_skew (s_conf s0)) eps = Ok (X t c) /\
     is_exp_derivative n (cofk (stp s0 t : RField)) (gen1 n (dr t) (c_ctrl (s_conf s0)) (fun c => ent u t c)) (neg_i (nth c (c_ctrl (s_conf s0)) dop)) (snd (X t c))).
  { intros t c Ht Hc. destruct (EX t (fun c => ent u t c) Ht) as (_ & H). destruct (H c _ Hc (DIR c Hc)) as (E' & X' & H1 & H2). unfold X. rewrite H1. auto. }
  set (rows := map (fun t => map (X t) (seq 0 C)) (seq 0 T)).
  assert (PR : prows la eps b g (dirs0 s0) = Ok rows).
  { unfold prows. rewrite NT. apply P_Cost2.mapM_total; [exact []|]. intros t Ht. rewrite NC. apply P_Cost2.mapM_total; [exact (dop, dop)|]. intros c Hc. unfold dexp_at. rewrite (@idx_ok _ g t dop) by lia. cbn [bind].
    rewrite (@idx_ok _ (repeat _ _) t []) by (rewrite repeat_length; fold T; lia). cbn [bind]. rewrite (nth_indep _ [] (map (neg_i (F:=RField)) (c_ctrl (s_conf s0)))) by (rewrite repeat_length; fold T; lia). rewrite nth_repeat.
    rewrite (@idx_ok _ (map _ _) c (neg_i dop)) by (rewrite map_length; fold C; lia). cbn [bind]. rewrite map_nth. rewrite IT by auto. cbn [bind]. rewrite C1, HG by auto. now apply EXX. }
  set (ders := map (fun c => map (fun t => snd (X t c)) (seq 0 T)) (seq 0 C)).
  assert (CE : cells (columns (numc b) (map (map Some) rows)) = Ok ders).
  { unfold cells, columns. rewrite mapM_map, NC. apply P_Cost2.mapM_total; [exact []|]. intros c Hc. rewrite mapM_map. rewrite mapM_map. unfold rows. rewrite mapM_map. apply P_Cost2.mapM_total; [exact dop|]. intros t Ht.
    rewrite map_map. rewrite (@nth_map_seq _ _ (fun x => Some (X t x))) by auto. reflexivity. }
  exists (map (Eg n s0 dr u) (seq 0 T)), rows, ders. split; auto. split; auto. split; auto. unfold trace. fold T C. split; [now rewrite map_length, seq_length|]. split.
  { apply Forall_forall. intros P HP. apply in_map_iff in HP. destruct HP as (t & <- & Ht). apply in_seq in Ht. apply Eg_wf; auto. fold T. lia. }
  split. { intros t Ht. rewrite nth_error_map, (nth_error_nth' (seq 0 T) 0) by (now rewrite seq_length). rewrite seq_nth by auto. reflexivity. }
  split; [unfold ders; now rewrite map_length, seq_length|]. split.
  { apply Forall_forall. intros row Hr. apply in_map_iff in Hr. destruct Hr as (c & <- & Hc). apply in_seq in Hc. split; [now rewrite map_length, seq_length|]. apply Forall_forall. intros P HP. apply in_map_iff in HP.
    destruct HP as (t & <- & Ht). apply in_seq in Ht. destruct (EXX t c ltac:(lia) ltac:(lia)) as [_ [W _]]. exact W. }
  intros c t Hc Ht. exists (neg_i (nth c (c_ctrl (s_conf s0)) dop)). split; [auto|]. unfold ders. rewrite (@nth_map_seq _ _ (fun c => map (fun t => snd (X t c)) (seq 0 T))) by auto.
  rewrite (@nth_map_seq _ _ (fun t => snd (X t c))) by auto. now apply EXX.
Qed.

(** adding the noise goes through *)
Lemma noise_fold_total n arr0 (ops : list op) l (g : list (list op)) T : wfs n ops -> @allwf RField n g -> (forall k, k < length g -> length (nth k g []) = T) ->
  (forall t k o, In (t, k, o) l -> t < T /\ k < length g /\ o < length ops) -> exists g', foldM (add_noise (F:=RField) arr0 ops) l g = Ok g'.
Proof.
  intros Wo. revert g. induction l as [|[[t k] o] l IH]; intros g Wg Lg Hl; cbn [foldM]; [eauto|].
  destruct (Hl t k o (or_introl eq_refl)) as (Ht & Hk & Ho). unfold add_noise at 1. rewrite (@idx_ok _ g k []) by auto. cbn [bind]. pose proof (Lg k Hk) as Lk. rewrite (@idx_ok _ (nth k g []) t dop) by lia. cbn [bind].
  rewrite (@idx_ok _ ops o dop) by auto. cbn [bind].
  assert (WA : wfm (S:=RS) n n (nth t (nth k g []) dop)) by (apply (Wg k t); lia).
  assert (Wh : wfm (S:=RS) n n (ctrl_term (F:=RField) (get3 (k0 : RField) arr0 t k o) (nth o ops dop))). { apply wfm_ctrl_term. rewrite Forall_forall in Wo. apply Wo. now apply nth_In. }
  cbn [op_iadd]. rewrite (bcast_ok_same WA Wh), (bcast_same WA Wh). cbn [bind]. apply IH.
  - intros k' t' Hk' Ht'. unfold cell. rewrite lset_length in Hk'. rewrite nth_lset in * by auto. destruct (Nat.eqb_spec k k') as [<-|N]; [|apply (Wg k' t'); auto].
    rewrite lset_length in Ht'. rewrite nth_lset by lia. destruct (Nat.eqb_spec t t') as [<-|N']; [now apply wfm_madd|apply (Wg k t'); auto].
  - intros k' Hk'. rewrite lset_length in Hk'. rewrite nth_lset by auto. destruct (Nat.eqb_spec k k') as [<-|N]; [rewrite lset_length|]; auto.
  - intros t' k' o' Hi. rewrite lset_length. apply Hl. now right.
Qed.

(** noise on the amplitudes themselves *)
Lemma control_noise_steady (u : arr RField) T K n (f : nat -> nat -> nat -> RField) : rank u = 2 -> dim0 u = T -> dim1 u = n ->
  control_noise (F:=RField) AIdentity (mk3 T K n f) (Some u) (Some u) = Ok (mk3 T K n f).
Proof.
  intros R0 D0 D1. unfold control_noise. rewrite d0_mk3, d1_mk3, d2_mk3, D1.
  set (dk := fun k => mk2 T n (fun i j => ksub (kadd (get2 (k0 : RField) u i j) (f i k j)) (get2 (k0 : RField) u i j))).
  rewrite (@P_Cost2.mapM_total _ _ K dk (Arr [] [])).
  - cbn [bind]. f_equal. apply mk3_ext. intros t k c Ht Hk Hc. cbv zeta. rewrite (@nth_map_seq _ _ dk) by auto. unfold dk. rewrite d0_mk2, d1_mk2. rewrite !bi_lt by auto. rewrite get2_mk2 by auto.
    match goal with |- ?a = ?b => change (@eq R a b) end. cbn. ring.
  - intros k Hk. cbn [amp_call]. unfold add_bcast at 1. change (rank (mk2 T n (fun t o => get3 (k0 : RField) (mk3 T K n f) t k o))) with 2. rewrite R0, d0_mk2, d1_mk2, D0, D1. cbn [Nat.eqb andb]. rewrite !lab_same. cbn [bind].
    unfold add_bcast. rewrite d0_mk2, d1_mk2, R0, D0, D1. match goal with |- context [rank (mk2 ?a ?b ?g)] => change (rank (mk2 a b g)) with 2 end. cbn [Nat.eqb andb]. rewrite !lab_same. cbn [bind]. rewrite d0_mk2, d1_mk2, !Nat.eqb_refl. cbn [orb andb bind].
    f_equal. unfold dk. apply mk2_ext. intros i j Hi Hj. rewrite !bi_lt by auto. rewrite !get2_mk2 by auto. rewrite !bi_lt by auto. rewrite !get2_mk2 by auto. rewrite !get3_mk3 by auto. reflexivity.
Qed.

(** ---- the setting of C75 ---- *)
Section One.
Variables (d : desc RField) (tau : list R) (s0 : st) (n k : nat) (m : @mcconf RField).
Hypothesis O : optimised d tau s0 n k.
Hypothesis N : noisy la eps n s0 m.
(** the noise amplitudes by time step, trace and operator, from the transferred parameters and the control amplitudes *)
Variable nz : RA -> RA -> nat -> nat -> nat -> R.
Definition noise_is : Prop := forall (b : st) (x u : RA), s_conf b = s_conf s0 -> s_tpars b = Some x -> s_amps b = Some u ->
  rank u = 2 -> dim0 u = length (s_time s0) -> dim1 u = length (c_ctrl (s_conf s0)) -> amp_call (c_amp (s_conf s0)) x = Ok u ->
  noise_array m b = Ok (mk3 (length (s_time s0)) (mc_traces m) (length (mc_ops m)) (nz x u)).
Hypothesis HN : noise_is.
Notation T := (length (s_time s0)).
Notation C := (length (c_ctrl (s_conf s0))).
Notation K := (mc_traces m).
Notation init := (c_init (s_conf s0)).

Definition dr0 t : op := nth t (s_drift s0) dop.
Definition drn (z : nat -> nat -> nat -> R) i t : op := shifted n (nth t (s_drift s0) dop) (mc_ops m) (fun o => z t i o).
Lemma exact_drift : exact_on n s0 dr0.
Proof.
  destruct N as (_ & _ & _ & EX & _). intros t u Ht. cbv zeta. apply (EX t (stp s0 t) u (fun _ => 0%R)).
  - apply nth_error_nth'. exact Ht.
  - destruct (gen1_is n (dr0 t) (c_ctrl (s_conf s0)) u) as [W H]. split; auto. intros i j Hi Hj. rewrite H by auto.
    assert (Z : sumn (S:=RS) (length (mc_ops m)) (fun o => cmul (cofk (0%R : RField)) (mg (nth o (mc_ops m) dop) i j)) = (c0 : RC)).
    { rewrite sumn_0; [reflexivity|]. intros o Ho. change (cofk (0%R : RField)) with (c0 : RC). tocplx. cring. }
    match goal with |- _ = cmul _ (cadd _ ?z) => replace z with (c0 : RC) by (symmetry; exact Z) end. unfold dr0. tocplx. cring.
Qed.
Lemma exact_noise z i : exact_on n s0 (drn z i).
Proof.
  destruct N as (_ & _ & _ & EX & _). intros t u Ht. cbv zeta. apply (EX t (stp s0 t) u (fun o => z t i o)).
  - apply nth_error_nth'. exact Ht.
  - apply noisy_shifted. apply gen1_is.
Qed.

Definition fwd_list (es : list op) := init :: prods es init.
Definition rev_list (es : list op) : list op := mid (S:=RS) n :: rprods (rev es) (mid (S:=RS) n).

Lemma mapM_const {A B} (f : A -> res B) (h : A -> B) l : (forall x, In x l -> f x = Ok (h x)) -> mapM f l = Ok (map h l).
Proof. induction l as [|a l IH]; intros H; cbn; auto. rewrite (H a (or_introl eq_refl)). cbn. rewrite IH; auto. intros x Hx. apply H. now right. Qed.

Lemma mc_reads f y : with_pulse s0 y f ->
  exists x u es ders ess derss, snd (call (F:=RField) rexp (s_tf s0) y) = Ok x /\ amp_call (c_amp (s_conf s0)) x = Ok u /\
    trace n s0 dr0 u es ders /\ length ess = K /\ length derss = K /\ (forall i, i < K -> trace n s0 (drn (nz x u) i) u (nth i ess []) (nth i derss [])) /\
    returns f SFwd (VOps (fwd_list es)) /\ returns f SRev (VOps (rev_list es)) /\ (exists ds, returns f SDer (VDer ds) /\ cells ds = Ok ders) /\
    returns f SNFwd (VNOps (map fwd_list ess)) /\ returns f SNRev (VNOps (map rev_list ess)) /\ (exists dss, returns f SNDer (VNDer dss) /\ mapM (@cells RField) dss = Ok derss).
Proof.
  intros H. destruct N as ((Hcl & Ho & Hw) & Hp & HK & EX & LD & HT). destruct (built_fresh rexp (o_built O) (o_good O)) as (Fr & _ & _).
  assert (E0 : opt_equal (s_opt s0) y = false) by now rewrite (f_opt Fr).
  destruct (@set_fresh_like RField rexp la eps (s_udiss s0) s0 y f VUnit (g_derivs (o_good O)) (fresh_Inv Fr) E0 H) as (x & u & E & _ & _ & B & NC & IN).
  unfold amps_of in E. destruct (snd (call (F:=RField) rexp (s_tf s0) y)) as [x1|] eqn:E1; [|discriminate]. cbn [bind] in E.
  destruct (amp_call (c_amp (s_conf s0)) x1) as [u1|] eqn:E2; [|discriminate]. cbn [bind] in E.
  destruct (Nat.eqb_spec (rank u1) 2) as [RK|]; [|discriminate]. cbn [bind] in E. destruct (Nat.eqb_spec (dim0 u1) T) as [D0|]; [|discriminate]. cbn [bind] in E.
  destruct (Nat.eqb_spec (dim1 u1) C) as [D1|]; [|discriminate]. cbn [bind] in E. inversion E; subst x1 u1. clear E.
  set (U := s_udiss s0) in *. set (b := bare U f) in *. assert (Cf : s_conf f = s_conf s0) by exact (f_equal (@s_conf RField) B).
  assert (C1 : s_conf b = s_conf s0) by now rewrite B. assert (C2 : s_drift b = s_drift s0) by now rewrite B. assert (C3 : s_time b = s_time s0) by now rewrite B.
  assert (C4 : s_amps b = Some u) by now rewrite B. assert (C5 : s_tpars b = Some x) by now rewrite B.
  destruct (o_square O) as [Hd Hcc]. apply wfs_matrix in Hd. apply wfs_matrix in Hcc. apply wfs_matrix in Ho. destruct (dim_wfa3 Hw) as (S0 & S1 & S2 & _).
  assert (G1 : exists g, schr_dyn b = (g, None)). { unfold schr_dyn. rewrite C4, C1. apply (@ctrl_fold_total u). cbn [Nat.add]. apply Nat.eq_le_incl. symmetry. exact D1. }
  destruct G1 as [g G1]. destruct (@schr_dyn_gen RField n b u g) as (L & W & EG); auto; try (rewrite ?C1, ?C2; auto; fail). rewrite C1, C2 in EG. rewrite C2, LD in L.
  assert (PG : pgens b = Ok g). { unfold pgens. rewrite G1, C1, Hcl. reflexivity. }
  assert (PD : pdirs b = Ok (dirs0 s0)). { unfold pdirs, directions. rewrite C1, Hcl, C3. reflexivity. }
  assert (HG : forall t, t < T -> nth t g dop = gen1 n (dr0 t) (c_ctrl (s_conf s0)) (fun c => ent u t c)).
  { intros t Ht. apply gen1_unique. apply EG; [lia|]. rewrite D0. exact Ht. }
  destruct (@trace_total n s0 b dr0 u g C1 C3 Hcc exact_drift L HG) as (es & rows & ders & PE & PR & CE & TR).
  (* noise *)
  set (arr0 := mk3 T K (length (mc_ops m)) (nz x u)).
  assert (NA : noise_array m b = Ok arr0) by now apply HN.
  assert (PN : exists ng, pngens m b = Ok ng).
  { unfold pngens. rewrite G1, NA. cbn [bind]. change (dim0 arr0) with T. change (dim1 arr0) with K. change (dim2 arr0) with (length (mc_ops m)). rewrite Nat.min_id.
    apply (@noise_fold_total n arr0 (mc_ops m) _ (repeat g K) T); auto.
    - intros k' t' Hk' Ht'. unfold cell. rewrite repeat_length in Hk'. rewrite nth_repeat_lt in * by auto. rewrite Forall_forall in W. apply W, nth_In; auto.
    - intros k' Hk'. rewrite repeat_length in Hk'. rewrite nth_repeat_lt by auto. exact L.
    - intros t o o' Hi. unfold noise_triples in Hi. apply in_flat_map in Hi. destruct Hi as (t1 & I1 & Hi). apply in_flat_map in Hi. destruct Hi as (k1 & I2 & Hi). apply in_map_iff in Hi. destruct Hi as (o1 & Q & I3).
      injection Q as -> -> ->. apply in_seq in I1, I2, I3. rewrite repeat_length. lia. }
  destruct PN as [ng PN]. destruct (@noise_gens RField n m b ng u arr0) as (Ln & Eg'); auto; try (rewrite ?C1, ?C2; auto; fail). rewrite C1, C2 in Eg'. rewrite LD in Eg'.
  assert (HGN : forall i, i < K -> length (nth i ng []) = T /\ forall t, t < T -> nth t (nth i ng []) dop = gen1 n (drn (nz x u) i t) (c_ctrl (s_conf s0)) (fun c => ent u t c)).
  { intros i Hi. destruct (Eg' i Hi) as [L1 E3]. split; auto. intros t Ht. specialize (E3 t Ht ltac:(rewrite D0; exact Ht)). change (dim0 arr0) with T in E3. change (dim1 arr0) with K in E3. change (dim2 arr0) with (length (mc_ops m)) in E3.
    rewrite (proj2 (Nat.ltb_lt t T) Ht), (proj2 (Nat.ltb_lt i K) Hi) in E3. cbn [andb] in E3. specialize (E3 eq_refl). apply noisy_shifted in E3. apply gen1_unique in E3. etransitivity; [exact E3|].
    unfold drn, arr0. f_equal. unfold shifted. apply mk2_ext. intros a c0' _ _. f_equal. apply sumn_ext. intros o Ho'. rewrite get3_mk3 by auto. reflexivity. }
  assert (TRN : forall i, exists es rows ders, i < K -> pexps la b (nth i ng []) = Ok es /\ prows la eps b (nth i ng []) (dirs0 s0) = Ok rows /\ cells (columns (numc b) (map (map Some) rows)) = Ok ders /\ trace n s0 (drn (nz x u) i) u es ders).
  { intros i. destruct (le_lt_dec K i) as [Hi|Hi]; [exists [], [], []; lia|]. destruct (HGN i Hi) as [L1 HG1].
    destruct (@trace_total n s0 b (drn (nz x u) i) u (nth i ng []) C1 C3 Hcc (exact_noise (nz x u) i) L1 HG1) as (es' & rows' & ders' & Q). exists es', rows', ders'. intros _. exact Q. }
  assert (CH : exists fes frows fders, forall i, i < K -> pexps la b (nth i ng []) = Ok (fes i) /\ prows la eps b (nth i ng []) (dirs0 s0) = Ok (frows i) /\ cells (columns (numc b) (map (map Some) (frows i))) = Ok (fders i) /\ trace n s0 (drn (nz x u) i) u (fes i) (fders i)).
  { exists (fun i => match pexps la b (nth i ng []) with Ok e => e | Err _ => [] end), (fun i => match prows la eps b (nth i ng []) (dirs0 s0) with Ok e => e | Err _ => [] end),
      (fun i => match prows la eps b (nth i ng []) (dirs0 s0) with Ok e => match cells (columns (numc b) (map (map Some) e)) with Ok z => z | Err _ => [] end | Err _ => [] end).
    intros i Hi. destruct (TRN i) as (e1 & e2 & e3 & Q). destruct (Q Hi) as (Q1 & Q2 & Q3 & Q4). rewrite Q1, Q2, Q3. auto. }
  destruct CH as (fes & frows & fders & CH). set (ess := map fes (seq 0 K)). set (rowss := map frows (seq 0 K)). set (derss := map fders (seq 0 K)).
  assert (PNE : pnexps la m b ng = Ok ess).
  { unfold pnexps, ess. apply P_Cost2.mapM_total; [exact []|]. intros i Hi. rewrite (@idx_ok _ ng i []) by lia. cbn [bind]. now apply CH. }
  assert (PNR : P_Solver2.pnrows la eps m b ng (dirs0 s0) = Ok rowss).
  { unfold P_Solver2.pnrows, rowss. apply P_Cost2.mapM_total; [exact []|]. intros i Hi. rewrite (@idx_ok _ ng i []) by lia. cbn [bind]. now apply CH. }
  assert (PPR : forall fl, pprop la eps fl b = Ok tt).
  { intros fl. unfold pprop. rewrite C4, PG. cbn [bind]. destruct fl; [rewrite PD; cbn [bind]; rewrite PR|rewrite PE]; reflexivity. }
  assert (PP : forall fl, pp la eps fl b = Ok tt).
  { intros fl. unfold pp. rewrite C1, Hcl. unfold pmc. rewrite PN. cbn [bind]. rewrite PPR. cbn [bind]. rewrite Hp. destruct fl; [rewrite PD; cbn [bind]; rewrite PNR|rewrite PNE]; reflexivity. }
  pose proof (o_init O) as Hi. apply is_matrix_wfm in Hi.
  assert (FO : forall es0, wfs n es0 -> fwd_of (c_init (s_conf b)) es0 = Ok (fwd_list es0)).
  { intros es0 We. unfold fwd_of, fwd_list. rewrite C1. change [init] with ([] ++ [init]). now rewrite (@fwd_foldM RField n k) by auto. }
  assert (RO : forall es0, wfs n es0 -> foldM (last_times (F:=RField)) (rev (map Some es0)) [mid (S:=RS) n] = Ok (rev_list es0)).
  { intros es0 We. unfold rev_list. rewrite <- map_rev. change [mid (S:=RS) n] with ([] ++ [mid (S:=RS) n]). rewrite (@rev_foldM RField n); [reflexivity|now apply Forall_rev|apply wfm_mid]. }
  assert (WE : wfs n es) by apply TR. assert (LE : length es = T) by apply TR.
  assert (WEN : forall e, In e ess -> wfs n e). { intros e He. apply in_map_iff in He. destruct He as (i & <- & I1). apply in_seq in I1. destruct (CH i ltac:(lia)) as (_ & _ & _ & Q). apply Q. }
  assert (FV : fwd_val la b (fwd_list es)) by (exists g, es; auto).
  assert (NE : exists P es', es = P :: es'). { destruct es as [|P es']; [|eauto]. exfalso. destruct (s_time s0); [congruence|discriminate]. }
  assert (RV : rev_val la b (rev_list es)).
  { exists g, es. split; auto. split; auto. destruct NE as (P & es' & EQ). unfold rev_of. rewrite <- (RO es WE). rewrite EQ at 1. cbn [map first_dim idx nth_error bind]. rewrite EQ in WE.
    assert (WP : wfm (S:=RS) n n P) by now inversion WE. rewrite (wfm_nr WP). rewrite EQ. reflexivity. }
  assert (DV : der_val la eps b (columns (numc b) (map (map Some) rows))).
  { unfold der_val. rewrite C1, (o_approx O). exists g, (dirs0 s0), rows. auto. }
  assert (NFV : nfwd_val la m b (map fwd_list ess)).
  { exists ng, ess. split; auto. split; auto. apply mapM_const. intros e He. apply FO. auto. }
  assert (NRV : nrev_val la m b (map rev_list ess)).
  { exists ng, ess, g, es, (mid (S:=RS) n). split; auto. split; auto. split; auto. split; auto. split.
    - destruct NE as (P & es' & EQ). rewrite EQ in WE |- *. assert (WP : wfm (S:=RS) n n P) by now inversion WE. cbn [idx nth_error bind]. unfold op_identity_like. rewrite (wfm_nr WP), (wfm_nc WP), Nat.eqb_refl. reflexivity.
    - apply mapM_const. intros e He. apply RO. auto. }
  assert (NDV : nder_val la eps m b (map (columns (numc b)) (map (map (map Some)) rowss))).
  { unfold nder_val. rewrite C1, (o_approx O). exists ng, (dirs0 s0), rowss. auto. }
  assert (Gf : good la eps (s_conf f)) by (rewrite Cf; apply (o_good O)).
  assert (READ : forall o v, is_read o = true -> rneed la eps U f o -> rval la eps U f o v -> returns f o v).
  { intros o v Hr Nd V. unfold S_Solver.returns. destruct (sstep (F:=RField) rexp la eps f o) as [s' r] eqn:Es.
    destruct (@read_step RField rexp la eps U f o s' r Hr Gf IN Es) as (_ & A1 & A2 & _). destruct (A2 Nd (ex_intro _ v V)) as [v' Ev]. cbn [snd]. rewrite Ev. f_equal. eapply rval_fun; [now apply A1|exact V]. }
  assert (MCI : forall Q : @mcconf RField -> Prop, Q m -> mc_is Q (s_conf f)) by (intros Q q; unfold mc_is; rewrite Cf, Hcl; exact q).
  assert (MCV : forall Q : @mcconf RField -> Prop, Q m -> mc_val Q (s_conf f)) by (intros Q q; unfold mc_val; rewrite Cf, Hcl; exact q).
  assert (NF : rneed la eps U f SFwd) by (split; [apply PP|split; [eexists; exact FV|apply MCV; eexists; exact NFV]]).
  assert (NR : rneed la eps U f SRev) by (split; [apply PP|split; [eexists; exact RV|apply MCV; eexists; exact NRV]]).
  assert (ND : rneed la eps U f SDer).
  { split; [rewrite Cf, (o_approx O); discriminate|]. split; [unfold can_der; rewrite Cf, (o_approx O); apply PP|]. split; [eexists; exact DV|apply MCV; eexists; exact NDV]. }
  exists x, u, es, ders, ess, derss. split; auto. split; auto. split; auto. split; [unfold ess; now rewrite map_length, seq_length|]. split; [unfold derss; now rewrite map_length, seq_length|].
  split. { intros i Hi'. unfold ess, derss. rewrite !nth_map_seq by auto. now apply CH. }
  split; [apply READ; auto|]. split; [apply READ; auto|]. split; [eexists; split; [apply READ; [reflexivity|exact ND|exact DV]|exact CE]|].
  split; [apply READ; auto; apply MCI; exact NFV|]. split; [apply READ; auto; apply MCI; exact NRV|].
  eexists. split; [apply READ; [reflexivity|exact ND|apply MCI; exact NDV]|]. unfold rowss, derss. rewrite !map_map. rewrite mapM_map. apply P_Cost2.mapM_total; [exact []|]. intros i Hi'. now apply CH.
Qed.
End One.

(** noise that does not depend on the pulse *)
Lemma pulse_free_noise (s0 : st) n (m : @mcconf RField) : noisy la eps n s0 m -> pulse_free s0 m -> noise_is s0 m (fun _ _ t i o => get3 0%R (mc_samples m) o i t).
Proof.
  intros ((Hcl & Ho & Hw) & _) Hn b x u C1 C5 C4 RK D0 D1 E2. destruct (dim_wfa3 Hw) as (S0 & S1 & S2 & _).
  unfold noise_array. rewrite S0, S1, S2. destruct Hn as [Hn|(Hn & Ha & Lo)]; rewrite Hn; [reflexivity|]. rewrite Ha in E2. cbn [amp_call] in E2. injection E2 as E2. rewrite C5, C4, C1, Ha, E2.
  apply control_noise_steady; auto. now rewrite Lo.
Qed.
End Noise2.
