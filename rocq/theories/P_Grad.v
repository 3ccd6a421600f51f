(** The gradient by the pulse: transfer function, amplitude function, propagators and fidelity together (C66). *)
Require Import List Arith Lia Bool Reals Lra.
From Verif Require Import LibBase LibRing LibArr LibCplx LibMat LibNorm LibDeriv M_Matrix S_Linear S_Deriv S_Exp P_Linear P_Matrix P_Frechet P_Mexp P_Total M_OpHeap M_Transfer S_Transfer M_Amplitude S_Amplitude P_Transfer P_Transfer3 P_Transfer4 P_Transfer6 P_Amplitude M_Solver S_Solver M_Cost S_Cost S_CostGrad M_Simulator M_CostProg S_Simulator S_Gradient P_Loops P_Solver P_Solver2 P_Solver3 P_Solver4 P_Solver5 P_Solver6 P_Solver7 P_Solver8 P_Solver9 P_Cost P_Cost2 P_CostGrad P_CostGrad2 P_GradCurve.
Import ListNotations.
Local Open Scope res_scope.
Set Implicit Arguments.

Section Grad.
Add Field Cfield_gr : (c_field RField).
Variable rexp : R -> R.
Variable la : LinAlg RField.
Variable eps : cplx RField.
Notation op := (op RField).
Notation st := (@st RField).
Notation wfs n := (Forall (wfm (S:=RS) n n : op -> Prop)).
Notation returns := (returns (F:=RField) rexp la eps).
Notation with_pulse := (with_pulse (F:=RField) rexp la eps).
Notation optimised := (optimised la eps).

Lemma built_fresh d tau (s0 : st) : constructed_on d tau s0 -> good la eps (s_conf s0) ->
  Fresh (F:=RField) rexp la eps (s_udiss s0) d tau s0 /\ constructed d s0 /\ b_nx (tbase (s_tf s0)) = length (s_time s0).
Proof.
  intros (Hc & cls & drift & ctrl & init & amps & meth & skew & calc & approx & t & a & udiss & Hb & H) G.
  pose proof (@build_fresh RField rexp la eps cls drift ctrl tau init amps meth skew calc approx d t a udiss s0 Hb Hc H G) as Fr.
  split; [rewrite (f_u Fr); exact Fr|]. split. { split; auto. exists cls, drift, ctrl, tau, init, amps, meth, skew, calc, approx, t, a, udiss. auto. }
  unfold build_solver in H. destruct (idx ctrl 0) as [h0|]; [|discriminate]. cbn [bind] in H.
  destruct (set_times t tau) as [t' r] eqn:Et. destruct r as [[]|]; [|discriminate]. cbn [bind] in H.
  destruct (@tree_grid RField rexp d t [] tau t' Hc Hb Et) as (_ & xs & E1 & E2 & _). rewrite E1 in H.
  destruct (_ || _); [|discriminate]. destruct (forallb _ ctrl); [|discriminate]. destruct (forallb _ _); [|discriminate].
  inversion H; subst s0. cbn. exact E2.
Qed.
Lemma pulse_used_solver d (s0 f : st) y : constructed d s0 -> good la eps (s_conf s0) -> with_pulse s0 y f -> used (F:=RField) rexp la eps d s0 f.
Proof.
  intros Hc G H. split; auto. split; auto. exists [SSet y]. unfold S_Simulator.with_pulse in H. split. { constructor; auto. right. eauto. }
  cbn [all_ok srun]. rewrite H. cbn [fst snd srun]. split; [split; eauto; exact I|]. unfold srun. cbn [fold_left]. now rewrite H.
Qed.

(** the generator of time step t *)
Definition gen n (s0 : st) (u : RA) t : op :=
  mk2 n n (fun i j => cmul (copp ci) (cadd (nth t (s_drift s0) dop).[i,j]
    (sumn (S:=RS) (length (c_ctrl (s_conf s0))) (fun c => cmul (cofk (ent u t c : RField)) (nth c (c_ctrl (s_conf s0)) dop).[i,j])))).
Lemma wfm_gen n s0 u t : wfm (S:=RS) n n (gen n s0 u t).
Proof. apply wfm_mk2. Qed.
Lemma gen_is n s0 u t : is_generator (F:=RField) n (nth t (s_drift s0) dop) (c_ctrl (s_conf s0)) (fun c => get2 (k0 : RField) u t c) (gen n s0 u t).
Proof. split; [apply is_matrix_wfm, wfm_gen|]. intros i j Hi Hj. unfold gen. rewrite mg_mk2 by auto. reflexivity. Qed.
Lemma gen_unique n s0 u t G : is_generator (F:=RField) n (nth t (s_drift s0) dop) (c_ctrl (s_conf s0)) (fun c => get2 (k0 : RField) u t c) G -> G = gen n s0 u t.
Proof.
  intros [W H]. destruct (gen_is n s0 u t) as [W' H']. apply (@mat_ext RS n n); [now apply is_matrix_wfm|apply wfm_gen|]. intros i j Hi Hj. rewrite H, H' by auto. reflexivity.
Qed.
Definition stp (s0 : st) t : R := nth t (s_time s0) 0%R.
Definition Eop n (s0 : st) u t : op := match op_exp la (gen n s0 u t) (cofk (stp s0 t : RField)) (c_meth (s_conf s0)) (c_skew (s_conf s0)) with Ok e => e | Err _ => dop end.

Lemma pulse_at d tau s0 n k f y : optimised d tau s0 n k -> with_pulse s0 y f ->
  exists x u, snd (call (F:=RField) rexp (s_tf s0) y) = Ok x /\ amp_call (c_amp (s_conf s0)) x = Ok u /\ amplitudes f u /\
    s_conf f = s_conf s0 /\ s_drift f = s_drift s0 /\ s_time f = s_time s0.
Proof.
  intros O H. destruct (built_fresh (o_built O) (o_good O)) as (Fr & _ & _).
  assert (E0 : opt_equal (s_opt s0) y = false) by now rewrite (f_opt Fr).
  destruct (@set_fresh_like RField rexp la eps (s_udiss s0) s0 y f VUnit (g_derivs (o_good O)) (fresh_Inv Fr) E0 H) as (x & u & E & _ & _ & B & _ & _).
  unfold amps_of in E. destruct (snd (call (F:=RField) rexp (s_tf s0) y)) as [x1|] eqn:E1; [|discriminate]. cbn [bind] in E.
  destruct (amp_call (c_amp (s_conf s0)) x1) as [u1|] eqn:E2; [|discriminate]. cbn [bind] in E.
  destruct (Nat.eqb (rank u1) 2); [|discriminate]. cbn [bind] in E. destruct (Nat.eqb_spec (dim0 u1) (length (s_time s0))) as [D0|]; [|discriminate]. cbn [bind] in E.
  destruct (Nat.eqb (dim1 u1) _); [|discriminate]. cbn [bind] in E. inversion E; subst x1 u1. exists x, u.
  pose proof (f_equal (@s_conf RField) B) as B1. pose proof (f_equal (@s_drift RField) B) as B2. pose proof (f_equal (@s_time RField) B) as B3. pose proof (f_equal (@s_amps RField) B) as B4.
  cbn [bare core s_conf s_drift s_time s_amps] in B1, B2, B3, B4. repeat split; auto. congruence.
Qed.

(** the propagators the solver returns for the pulse *)
Lemma fwd_at d tau s0 n k f y fs : optimised d tau s0 n k -> with_pulse s0 y f -> returns f SFwd (VOps fs) ->
  exists x u es, snd (call (F:=RField) rexp (s_tf s0) y) = Ok x /\ amp_call (c_amp (s_conf s0)) x = Ok u /\ amplitudes f u /\
    length es = length (s_time s0) /\ wfs n es /\ fs = c_init (s_conf s0) :: prods es (c_init (s_conf s0)) /\
    (forall t, t < length (s_time s0) -> nth_error es t = Some (Eop n s0 u t) /\ is_exponential n (mscale (S:=RS) (cofk (stp s0 t : RField)) (gen n s0 u t)) (Eop n s0 u t)) /\
    (forall rs, returns f SRev (VOps rs) -> es <> [] /\ rs = mid (S:=RS) n :: rprods (rev es) (mid (S:=RS) n)).
Proof.
  intros O H Hf. destruct (pulse_at O H) as (x & u & E1 & E2 & HA & C1 & C2 & C3). destruct (built_fresh (o_built O) (o_good O)) as (Fr & Hc & _).
  pose proof (pulse_used_solver Hc (o_good O) H) as HU. destruct (@used_value RField rexp la eps d s0 f SFwd _ HU eq_refl Hf) as (g & es & A1 & A2 & A3).
  pose proof A1 as A1'. apply pgens_schr in A1; [|cbn [s_conf bare]; rewrite C1; apply (o_schr O)].
  destruct (o_square O) as [Hd Hcc]. apply wfs_matrix in Hd. apply wfs_matrix in Hcc. destruct HA as [HA DA].
  destruct (@schr_dyn_gen RField n (bare (s_udiss s0) f) u g) as (L & W & E); auto; try (cbn [s_drift s_conf bare]; rewrite ?C1, ?C2; auto; fail).
  cbn [s_drift s_conf s_time bare] in L, E. rewrite C1, C2 in E. rewrite C2 in L.
  assert (LE : length es = length (s_time s0)). { pose proof A2 as A2'. unfold pexps in A2'. apply mapM_length in A2'. rewrite A2', seq_length. unfold numt. cbn [s_time bare]. now rewrite C3. }
  assert (K : forall t, t < length (s_time s0) -> nth_error es t = Some (Eop n s0 u t) /\ is_exponential n (mscale (S:=RS) (cofk (stp s0 t : RField)) (gen n s0 u t)) (Eop n s0 u t)).
  { intros t Ht. destruct (@pexps_nth RField la (bare (s_udiss s0) f) g es t A2) as (_ & Lg & tt' & T1 & T2); [cbn [s_time bare]; now rewrite C3|].
    cbn [s_time s_conf bare] in T1, T2. rewrite C3 in T1. rewrite C1 in T2.
    assert (G1 : is_generator (F:=RField) n (nth t (s_drift s0) dop) (c_ctrl (s_conf s0)) (fun c => get2 (k0 : RField) u t c) (nth t g dop)) by (apply E; auto; rewrite DA, C3; auto).
    apply gen_unique in G1. rewrite G1 in T2. assert (Es : stp s0 t = tt') by (unfold stp; now apply nth_error_nth). subst tt'.
    assert (EE : Eop n s0 u t = nth t es dop) by (unfold Eop; now rewrite T2).
    split. { rewrite EE. apply nth_error_nth'. lia. }
    rewrite EE. apply (proj1 (@o_exact _ _ _ _ _ _ _ O t _ _ _ T1 (gen_is n s0 u t))). exact T2. }
  assert (WE : wfs n es). { apply Forall_forall. intros P HP. destruct (In_nth_error _ _ HP) as [t Ht]. assert (t < length es) by (apply nth_error_Some; congruence).
    destruct (K t ltac:(lia)) as [K1 (Y & K2 & _ & _ & K3)]. assert (P = Eop n s0 u t) by congruence. subst P. rewrite <- K3. apply is_matrix_wfm. apply K2. }
  exists x, u, es. split; auto. split; auto. split; [split; auto|]. split; auto. split; auto. split.
  { pose proof (o_init O) as Hi. apply is_matrix_wfm in Hi. unfold fwd_of in A3. cbn [s_conf bare] in A3. rewrite C1 in A3. change [c_init (s_conf s0)] with ([] ++ [c_init (s_conf s0)]) in A3.
    rewrite (@fwd_foldM RField n k) in A3 by auto. now inversion A3. }
  split; auto. intros rs Hr. destruct (@used_value RField rexp la eps d s0 f SRev _ HU eq_refl Hr) as (g2 & es2 & B1 & B2 & B3).
  assert (g2 = g) by congruence. subst g2. assert (es2 = es) by congruence. subst es2. split; [intros ->; discriminate|]. now apply (rev_of_val WE).
Qed.

(** the derivatives *)
Lemma mapM_cells (ds : list (list (option op))) ders : cells ds = Ok ders -> length ders = length ds /\
  forall c row, nth_error ds c = Some row -> exists r, nth_error ders c = Some r /\ length r = length row /\ forall t X, nth_error row t = Some (Some X) -> nth_error r t = Some X.
Proof.
  intros H. unfold cells in H. split; [now apply mapM_length in H|]. intros c row Hc. assert (Lc : c < length ds) by (apply nth_error_Some; congruence).
  pose proof (@mapM_nth _ _ _ _ _ ([] : list (option op)) ([] : list op) H c Lc) as E. rewrite (nth_error_nth _ _ _ Hc) in E.
  exists (nth c ders []). pose proof (mapM_length _ _ H) as L. split; [apply nth_error_nth'; lia|]. pose proof (mapM_length _ _ E) as L2. split; auto. intros t X Ht.
  assert (Lt : t < length row) by (apply nth_error_Some; congruence). pose proof (@mapM_nth _ _ _ _ _ None dop E t Lt) as E'. rewrite (nth_error_nth _ _ _ Ht) in E'.
  rewrite (nth_error_nth' _ dop) by lia. congruence.
Qed.
Lemma der_at d tau s0 n k f y u ds ders : optimised d tau s0 n k -> with_pulse s0 y f -> amplitudes f u -> returns f SDer (VDer ds) -> cells ds = Ok ders ->
  length ders = length (c_ctrl (s_conf s0)) /\ Forall (fun row : list op => length row = length (s_time s0) /\ Forall (is_matrix n n) row) ders /\
  forall c t, c < length (c_ctrl (s_conf s0)) -> t < length (s_time s0) -> exists D, is_direction (F:=RField) n (nth c (c_ctrl (s_conf s0)) dop) D /\
    is_exp_derivative n (cofk (stp s0 t : RField)) (gen n s0 u t) D (nth t (nth c ders []) dop).
Proof.
  intros O H HA Hd Hce. destruct (pulse_at O H) as (_ & _ & _ & _ & _ & C1 & C2 & C3). destruct (built_fresh (o_built O) (o_good O)) as (_ & Hc & _).
  pose proof (pulse_used_solver Hc (o_good O) H) as HU. pose proof (o_square O) as Hsq. unfold square_hamiltonians in Hsq. rewrite <- C1, <- C2 in Hsq.
  destruct (@used_derivatives RField rexp la eps d s0 f n u ds HU) as (L & E); auto; try (rewrite C1; apply O).
  rewrite C1, ?C2, ?C3 in *. destruct (mapM_cells _ Hce) as (L' & M).
  assert (K : forall c t, c < length (c_ctrl (s_conf s0)) -> t < length (s_time s0) -> exists r D X, nth_error ders c = Some r /\ length r = length (s_time s0) /\ nth_error r t = Some X /\
    is_direction (F:=RField) n (nth c (c_ctrl (s_conf s0)) dop) D /\ is_exp_derivative n (cofk (stp s0 t : RField)) (gen n s0 u t) D X).
  { intros c t Hcc Ht. destruct (E c t Hcc Ht) as (row & E' & X & G & D & tt' & R1 & R2 & R3 & R4 & R5 & R6 & R7). destruct (M c row R1) as (r & M1 & M2 & M3).
    exists r, D, X. split; auto. split; [congruence|]. split; [now apply M3|]. split; auto. assert (Es : stp s0 t = tt') by (unfold stp; now apply nth_error_nth). subst tt'.
    rewrite <- (@gen_unique n s0 u t G R5). apply (proj2 (@o_exact _ _ _ _ _ _ _ O t _ _ _ R4 R5) c D E' X); auto. }
  split; [lia|]. split.
  - apply Forall_forall. intros row Hrow. destruct (In_nth_error _ _ Hrow) as [c Hc']. assert (Lc : c < length ders) by (apply nth_error_Some; congruence). rewrite L', L in Lc.
    destruct (nth_error ds c) as [row'|] eqn:Er; [|apply nth_error_None in Er; lia]. destruct (M c row' Er) as (r & M1 & M2 & _). assert (r = row) by congruence. subst r.
    assert (Lr : length row = length (s_time s0)).
    { destruct (length (s_time s0)) eqn:ET; [|destruct (K c 0 Lc ltac:(lia)) as (r & _ & _ & K1 & K2 & _); congruence].
      pose proof (@used_value RField rexp la eps d s0 f SDer _ HU eq_refl Hd) as V. cbn [rval] in V. unfold der_val in V. cbn [s_conf bare] in V. rewrite C1, (o_approx O) in V.
      destruct V as (g & dirs & rows & A1 & A2 & A3 & ->). unfold prows in A3. apply mapM_length in A3. rewrite seq_length in A3. unfold numt in A3. cbn [s_time bare] in A3. rewrite C3, ET in A3.
      destruct rows; [|discriminate]. unfold columns in Er. rewrite nth_error_map in Er. match type of Er with option_map _ ?o = _ => destruct o end; [|discriminate]. cbn in Er. injection Er as Er. rewrite <- Er in M2. exact M2. }
    split; auto. apply Forall_forall. intros X HX. destruct (In_nth_error _ _ HX) as [t Ht]. assert (Lt : t < length row) by (apply nth_error_Some; intros Hn; pose proof (eq_trans (eq_sym Ht) Hn); discriminate).
    destruct (K c t Lc ltac:(lia)) as (r & D & X' & K1 & _ & K2 & _ & K3). assert (r = row) by congruence. subst r. assert (EX : Some X' = Some X) by exact (eq_trans (eq_sym K2) Ht). injection EX as ->. apply K3.
  - intros c t Hcc Ht. destruct (K c t Hcc Ht) as (r & D & X & K1 & K2 & K3 & K4 & K5). exists D. split; auto. rewrite (nth_error_nth _ _ _ K1), (nth_error_nth _ _ _ K3). exact K5.
Qed.

Lemma lists_at d tau s0 n k f y fs rs ds ders : optimised d tau s0 n k -> with_pulse s0 y f ->
  returns f SFwd (VOps fs) -> returns f SRev (VOps rs) -> returns f SDer (VDer ds) -> cells ds = Ok ders ->
  propagator_lists n k (length (s_time s0)) (length (c_ctrl (s_conf s0))) fs ders rs /\ 0 < length (s_time s0).
Proof.
  intros O H Hf Hr Hd Hc. destruct (fwd_at O H Hf) as (x & u & es & E1 & E2 & HA & L & W & -> & K & KR). destruct (KR rs Hr) as [Hne ->].
  destruct (der_at O H HA Hd Hc) as (L1 & F1 & _). rewrite <- L, <- L1 in *. pose proof (o_init O) as Hi. apply is_matrix_wfm in Hi.
  split; [|destruct es; [congruence|cbn; lia]]. apply value_propagator_lists; auto. intros ->. cbn in L1. pose proof (g_ctrl (o_good O)) as X. destruct (c_ctrl (s_conf s0)); [congruence|discriminate].
Qed.

Lemma cofk_deriv f a l : derivable_pt_lim f a l -> cderiv (fun s => cofk (f s : RField)) a (cofk (l : RField)).
Proof. intros H. split; cbn; auto. apply derivable_pt_lim_const. Qed.
(** a quantity of the final propagator with gradient g by the amplitudes *)
Lemma pulse_gradient d tau s0 n k f y fs rs ds ders (q : rop -> R -> Prop) (phi : RA -> R) g g' x a h :
  optimised d tau s0 n k -> right_amplitudes rexp d s0 y -> wfa [length tau; ctrls d] y -> with_pulse s0 y f ->
  returns f SFwd (VOps fs) -> returns f SRev (VOps rs) -> returns f SDer (VDer ds) -> cells ds = Ok ders ->
  (forall y', wfa [length tau; ctrls d] y' -> exists f' fs', with_pulse s0 y' f' /\ returns f' SFwd (VOps fs') /\ forall U, is_last fs' U -> q U (phi y')) ->
  is_gradient n k (length (s_time s0)) (length (c_ctrl (s_conf s0))) fs ders rs q g ->
  ((length (shape g) <> 2 /\ g' = g) \/ exists m n, shape g = [m; n] /\ shape g' = [m; 1; n] /\ data g' = data g) ->
  snd (call (F:=RField) rexp (s_tf s0) y) = Ok x -> amp_chain (c_amp (s_conf s0)) g' x = Ok a -> snd (grad (F:=RField) rexp (s_tf s0) a) = Ok h ->
  wfa [length tau; 1; ctrls d] h /\ has_gradient (length tau) (ctrls d) phi y (fun t p => get3 0%R h t 0 p).
Proof.
  intros O RA_ok Wy H Hf Hr Hd Hc Hphi [Wg HG] Hg' Ex Ea Eh.
  destruct (built_fresh (o_built O) (o_good O)) as (Fr & Hcon & Enx). destruct (lists_at O H Hf Hr Hd Hc) as [_ HT].
  destruct (fwd_at O H Hf) as (x1 & u & es & E1 & E2 & HA & L & W & Efs & K & KR). assert (x1 = x) by congruence. subst x1.
  destruct (KR rs Hr) as [_ Ers]. destruct (der_at O H HA Hd Hc) as (L1 & F1 & KD).
  set (T := length (s_time s0)) in *. set (C := length (c_ctrl (s_conf s0))) in *. set (P := ctrls d) in *.
  assert (Wg' : wfa [T; 1; C] g' /\ forall t c, t < T -> c < C -> get3 0%R g' t 0 c = get2 0%R g t c).
  { destruct Wg as [S1 S2]. destruct Hg' as [[B _]|(m' & n' & S3 & S4 & S5)]; [exfalso; apply B; now rewrite S1|].
    assert (m' = T /\ n' = C) as [-> ->] by (rewrite S1 in S3; inversion S3; auto). split.
    - split; auto. rewrite S5, S2. cbn. lia.
    - intros t c Ht Hcc. unfold get3, get2, getn. change (shape (g : RA) = [T; C]) in S1. change (shape (g' : RA) = [T; 1; C]) in S4. change (data (g' : RA) = data (g : RA)) in S5. rewrite S1, S4, S5. f_equal. cbn. lia. }
  destruct Wg' as [Wg' Eg'].
  pose proof (f_custom Fr) as N1. pose proof (f_ready Fr) as N2.
  (* the pulses of the curve *)
  assert (MAIN : forall Y v, curve_at (length tau) P y Y v ->
    wfa [length tau; 1; P] h /\ derivable_pt_lim (fun s => phi (Y s)) 0 (Rsum (length tau) (fun t => Rsum P (fun p => (get3 0%R h t 0 p * v t p)%R)))).
  { intros Y v HY. pose proof HY as (Y0 & WY & _).
    set (X := fun s => match snd (call (F:=RField) rexp (s_tf s0) (Y s)) with Ok z => z | Err _ => x end).
    set (U := fun s => match amp_call (c_amp (s_conf s0)) (X s) with Ok z => z | Err _ => u end).
    assert (PT : forall s, snd (call (F:=RField) rexp (s_tf s0) (Y s)) = Ok (X s) /\ amp_call (c_amp (s_conf s0)) (X s) = Ok (U s) /\
      (forall t, t < T -> is_exponential n (mscale (S:=RS) (cofk (stp s0 t : RField)) (gen n s0 (U s) t)) (Eop n s0 (U s) t)) /\
      q (Fw (fun t => Eop n s0 (U s) t) (c_init (s_conf s0)) T) (phi (Y s))).
    { intros s. destruct (Hphi (Y s) (WY s)) as (f' & fs' & P1 & P2 & P3). destruct (fwd_at O P1 P2) as (x' & u' & es' & Q1 & Q2 & _ & Q3 & Q4 & Q5 & Q6 & _).
      assert (EX : X s = x') by (unfold X; now rewrite Q1). assert (EU : U s = u') by (unfold U; rewrite EX; now rewrite Q2). rewrite EX, EU. split; auto. split; auto. split; [intros t Ht; now apply Q6|].
      apply P3. rewrite Q5. assert (EF : Fw (fun t => Eop n s0 u' t) (c_init (s_conf s0)) T = nth T (c_init (s_conf s0) :: prods es' (c_init (s_conf s0))) dop).
      { unfold T. rewrite <- Q3. rewrite prods_Fw by lia. apply Fw_ext. intros i Hi. symmetry. apply nth_error_nth. apply Q6. lia. }
      rewrite EF. unfold is_last. destruct (@exists_last _ (c_init (s_conf s0) :: prods es' (c_init (s_conf s0)))) as (l' & z & El); [discriminate|]. exists l'. rewrite El. f_equal. f_equal.
      assert (LL : length l' = T). { apply (f_equal (@length op)) in El. destruct (lists_lengths es' n (c_init (s_conf s0))) as [LL _]. rewrite El in LL || idtac. rewrite app_length in LL. cbn in LL. unfold T. lia. }
      rewrite <- LL. now rewrite nth_middle. }
    assert (X0 : X 0%R = x). { destruct (PT 0%R) as (A & _). rewrite Y0 in A. congruence. }
    assert (U0 : U 0%R = u). { destruct (PT 0%R) as (_ & A & _). rewrite X0 in A. congruence. }
    rewrite <- Y0 in HY. destruct (@transfer_curve rexp d tau (s_tf s0) Y v X N1 (o_matched O) (o_sym O) N2 HY) as (vx & CX & KX); [intros s; apply PT|].
    rewrite Enx in CX, KX. fold T in CX, KX. assert (CD : correct_derivative T P C (c_amp (s_conf s0)) (X 0%R)) by (rewrite X0; now apply RA_ok).
    destruct (@amp_curve T P C (c_amp (s_conf s0)) X U vx HT (o_ctrls O) CD CX) as (vu & CU & KU); [intros s; apply PT|].
    rewrite X0 in KU. destruct (KU g' a 1 Wg' Ea) as [Wa SU]. destruct (KX a h 1 Wa Eh) as [Wh SX]. split; auto.
    assert (FP : final_propagator n k T C fs ders rs vu (fun s => Fw (fun t => Eop n s0 (U s) t) (c_init (s_conf s0)) T) 0%R).
    { rewrite Efs, Ers. rewrite <- L1. replace T with (length es) by exact L. pose proof (o_init O) as Hi. apply is_matrix_wfm in Hi.
      apply (@lists_final es ders n k (c_init (s_conf s0)) (fun t s => Eop n s0 (U s) t)); auto.
      - rewrite L. exact F1.
      - intros t Ht. rewrite U0. apply K. fold T. lia.
      - intros t s Ht. destruct (PT s) as (_ & _ & Q & _). destruct (Q t ltac:(lia)) as (Z & Z1 & _ & _ & <-). apply is_matrix_wfm. apply Z1.
      - intros t i j Ht Hi' Hj. assert (Ht' : t < T) by lia. pose proof CU as (_ & _ & CV).
        set (D := fun c => mscale (S:=RS) (copp ci) (nth c (c_ctrl (s_conf s0)) dop) : op).
        assert (WH : forall c, c < C -> wfm (S:=RS) n n (nth c (c_ctrl (s_conf s0)) dop)). { intros c Hcc. apply is_matrix_wfm. destruct (o_square O) as [_ Q]. rewrite Forall_forall in Q. apply Q, nth_In. exact Hcc. }
        assert (WD : forall c, c < C -> wfm (S:=RS) n n (D c)) by (intros c Hcc; apply wfm_mscale; auto).
        assert (SD : mderiv n (fun s => Eop n s0 (U s) t) 0 (dsum n C (fun c => vu t c) (fun c => nth t (nth c ders []) dop))).
        { apply (@step_deriv n (cofk (stp s0 t : RField)) C (fun c => vu t c) (fun s => gen n s0 (U s) t) (fun s => Eop n s0 (U s) t) D (fun c => nth t (nth c ders []) dop)); auto.
          - intros; apply wfm_gen.
          - intros a0 b0 Ha Hb. apply (@cderiv_ext (fun s => cadd (cmul (copp ci) (mg (nth t (s_drift s0) dop) a0 b0)) (sumn (S:=RS) C (fun c => cmul (cofk (ent (U s) t c : RField)) (mg (D c) a0 b0))))).
            + intros s. unfold gen. rewrite mg_mk2 by auto.
              assert (EQ : sumn (S:=RS) C (fun c => cmul (cofk (ent (U s) t c : RField)) (mg (D c) a0 b0)) = cmul (copp ci) (sumn (S:=RS) C (fun c => cmul (cofk (ent (U s) t c : RField)) (mg (nth c (c_ctrl (s_conf s0)) dop) a0 b0)))).
              { etransitivity; [|apply (@sumn_mul_l RS)]. apply sumn_ext. intros c Hcc. unfold D. rewrite (@mg_mscale RS n n) by auto. simpl. cring. }
              rewrite EQ. fold C. simpl. cring.
            + eapply cderiv_eq; [|apply cderiv_add; [apply cderiv_const|apply cderiv_sumn; intros c Hcc; apply cderiv_scale_r; apply cofk_deriv; apply (CV t c Ht' Hcc)]].
              cring.
          - intros s. destruct (PT s) as (_ & _ & Q & _). auto.
          - intros c Hcc. rewrite U0. destruct (KD c t Hcc Ht') as (D' & [D1 D2] & D3). replace (D c) with D'; auto.
            apply (@mat_ext RS n n); [now apply is_matrix_wfm|auto|]. intros a0 b0 Ha Hb. rewrite D2 by auto. unfold D. now rewrite (@mg_mscale RS n n) by auto. }
        eapply cderiv_eq; [|apply SD; auto]. rewrite L1. fold C. apply mg_dsum; auto. intros c Hcc. destruct (KD c t Hcc Ht') as (_ & _ & [D3 _]). now apply is_matrix_wfm. }
    specialize (HG vu _ 0%R (fun s => phi (Y s)) FP). 
    assert (EQ : Rsum T (fun t => Rsum C (fun c => (get3 0%R g' t 0 c * vu t c)%R)) = Rsum T (fun t => Rsum C (fun c => (get2 0%R g t c * vu t c)%R))).
    { apply Rsum_ext. intros t Ht. apply Rsum_ext. intros c Hcc. now rewrite Eg'. }
    match goal with |- derivable_pt_lim _ _ ?l => replace l with (Rsum T (fun t => Rsum C (fun c => (get2 0%R g t c * vu t c)%R))) by (symmetry; etransitivity; [symmetry; exact (SX 0 Nat.lt_0_1)|]; etransitivity; [symmetry; exact (SU 0 Nat.lt_0_1)|]; exact EQ) end.
    apply HG. intros s. apply PT. }
  split; [|intros Y v HY; now apply MAIN].
  destruct (MAIN (fun _ => y) (fun _ _ => 0%R)) as [Wh _]; [|exact Wh]. split; auto. split; auto. intros t p _ _. apply derivable_pt_lim_const.
Qed.

(** ---- the cost functions ---- *)
Lemma uses_last_op r r' (U : op) V cs b : is_last (r_fwd r) U -> is_last (r_fwd r') U -> operation_infidelity la r V false cs b = operation_infidelity la r' V false cs b.
Proof. intros H H'. unfold operation_infidelity. now rewrite (idx_last_ok H), (idx_last_ok H'). Qed.
Lemma uses_last_state r r' (U : op) t cs b : is_last (r_fwd r) U -> is_last (r_fwd r') U -> state_infidelity la r t cs b = state_infidelity la r' t cs b.
Proof. intros H H'. unfold state_infidelity. now rewrite (idx_last_ok H), (idx_last_ok H'). Qed.
Lemma uses_last_leak r r' (U : op) cs : is_last (r_fwd r) U -> is_last (r_fwd r') U -> leakage la r cs = leakage la r' cs.
Proof. intros H H'. unfold leakage. now rewrite (idx_last_ok H), (idx_last_ok H'). Qed.
Lemma scalar_ok (r : res R) v : (x <- r ;; Ok (scalar RField x)) = Ok (scalar RField v) -> r = Ok v.
Proof. destruct r; cbn; [|discriminate]. intros [= ->]. reflexivity. Qed.

Section One.
Variables (d : desc RField) (tau : list R) (s0 : st) (n k : nat) (c : @cfun RField) (y h : RA) (phi : RA -> R).
Hypothesis O : optimised d tau s0 n k.
Hypothesis HA : right_amplitudes rexp d s0 y.
Hypothesis Wy : wfa [length tau; ctrls d] y.
Hypothesis Hg : gradient_at (F:=RField) rexp la eps s0 c y h.
Hypothesis Hc : forall y', wfa [length tau; ctrls d] y' -> costs_at (F:=RField) rexp la eps s0 c y' (scalar RField (phi y')).
Notation goal := (wfa [length tau; 1; ctrls d] h /\ has_gradient (length tau) (ctrls d) phi y (fun t p => get3 0%R h t 0 p)).
Notation T := (length (s_time s0)).
Notation C := (length (c_ctrl (s_conf s0))).

Lemma by_gradient (q : rop -> R -> Prop) (mkg : reads RField -> res RA) :
  (forall f g, evaluates (F:=RField) rexp la eps f (cf_grad c) g -> exists fs rs ds ders, returns f SFwd (VOps fs) /\ returns f SRev (VOps rs) /\ returns f SDer (VDer ds) /\
     cells ds = Ok ders /\ mkg (mkreads fs rs ders [] [] [] 0 0 0) = Ok g) ->
  (forall r, propagator_lists n k T C (r_fwd r) (r_der r) (r_rev r) -> exists g, mkg r = Ok g /\ is_gradient n k T C (r_fwd r) (r_der r) (r_rev r) q g) ->
  (forall y' f', wfa [length tau; ctrls d] y' -> with_pulse s0 y' f' -> evaluates (F:=RField) rexp la eps f' (cf_costs c) (scalar RField (phi y')) ->
     exists fs', returns f' SFwd (VOps fs') /\ forall U, is_last fs' U -> q U (phi y')) -> goal.
Proof.
  intros H1 H2 H3. destruct Hg as (f & g & g' & x & a & P1 & P2 & P3 & P4 & P5 & P6). destruct (H1 f g P2) as (fs & rs & ds & ders & Q1 & Q2 & Q3 & Q4 & Q5).
  destruct (lists_at O P1 Q1 Q2 Q3 Q4) as [HL _]. destruct (H2 (mkreads fs rs ders [] [] [] 0 0 0) HL) as (g2 & E & HG). cbn [r_fwd r_der r_rev] in HG. assert (g2 = g) by congruence. subst g2.
  eapply pulse_gradient; eauto. intros y' Wy'. destruct (Hc Wy') as (f' & R1 & R2). destruct (H3 y' f' Wy' R1 R2) as (fs' & R3 & R4). eauto.
Qed.

Lemma operation_reads V cs b f g : evaluates (F:=RField) rexp la eps f (prog_operation_infidelity_grad la V false cs b) g ->
  exists fs rs ds ders, returns f SFwd (VOps fs) /\ returns f SRev (VOps rs) /\ returns f SDer (VDer ds) /\ cells ds = Ok ders /\
    operation_infidelity_grad la (mkreads fs rs ders [] [] [] 0 0 0) V false cs b = Ok g.
Proof.
  intros (v1 & R1 & v2 & R2 & v3 & R3 & E). cbn [evaluates] in E. destruct v1; try discriminate. destruct v3; try discriminate. destruct v2; try discriminate.
  destruct (cells l0) as [ders|] eqn:Ec; [|discriminate]. cbn [bind] in E. eauto 10.
Qed.
Lemma state_reads t cs b f g : evaluates (F:=RField) rexp la eps f (prog_state_infidelity_grad la t cs b) g ->
  exists fs rs ds ders, returns f SFwd (VOps fs) /\ returns f SRev (VOps rs) /\ returns f SDer (VDer ds) /\ cells ds = Ok ders /\
    state_infidelity_grad la (mkreads fs rs ders [] [] [] 0 0 0) t cs b = Ok g.
Proof.
  intros (v1 & R1 & v2 & R2 & v3 & R3 & E). cbn [evaluates] in E. destruct v1; try discriminate. destruct v3; try discriminate. destruct v2; try discriminate.
  destruct (cells l0) as [ders|] eqn:Ec; [|discriminate]. cbn [bind] in E. eauto 10.
Qed.
Lemma leakage_reads cs f g : evaluates (F:=RField) rexp la eps f (prog_leakage_grad la cs) g ->
  exists fs rs ds ders, returns f SFwd (VOps fs) /\ returns f SRev (VOps rs) /\ returns f SDer (VDer ds) /\ cells ds = Ok ders /\
    leakage_grad la (mkreads fs rs ders [] [] [] 0 0 0) cs = Ok g.
Proof.
  intros (v1 & R1 & v2 & R2 & v3 & R3 & E). cbn [evaluates] in E. destruct v2; try discriminate. destruct v1; try discriminate. destruct v3; try discriminate.
  destruct (cells l0) as [ders|] eqn:Ec; [|discriminate]. cbn [bind] in E. eauto 10.
Qed.

Lemma pulse_operation V b : n = k -> is_matrix n n V ->
  cf_costs c = prog_operation_infidelity la V false None b -> cf_grad c = prog_operation_infidelity_grad la V false None b -> goal.
Proof.
  intros En HV Ec Eg. apply by_gradient with (q := cost_at (fun r => operation_infidelity la r V false None b)) (mkg := fun r => operation_infidelity_grad la r V false None b).
  - intros f g. rewrite Eg. apply operation_reads.
  - intros r HL. rewrite <- En in HL |- *. now apply infidelity_gradient.
  - intros y' f' _ _. rewrite Ec. intros (v & R1 & R2). destruct v; try discriminate. cbn [evaluates] in R2. apply scalar_ok in R2. exists l. split; auto. intros U HU r Hr. etransitivity; [|exact R2]. now apply uses_last_op with U.
Qed.
Lemma pulse_operation_sub V cs : n = k -> is_matrix (length cs) (length cs) V -> cs <> [] -> (forall i, In i cs -> i < n) ->
  cf_costs c = prog_operation_infidelity la V false (Some cs) false -> cf_grad c = prog_operation_infidelity_grad la V false (Some cs) false -> goal.
Proof.
  intros En HV Hne Hcs Ec Eg. apply by_gradient with (q := cost_at (fun r => operation_infidelity la r V false (Some cs) false)) (mkg := fun r => operation_infidelity_grad la r V false (Some cs) false).
  - intros f g. rewrite Eg. apply operation_reads.
  - intros r HL. rewrite <- En in HL |- *. now apply infidelity_gradient_sub.
  - intros y' f' _ _. rewrite Ec. intros (v & R1 & R2). destruct v; try discriminate. cbn [evaluates] in R2. apply scalar_ok in R2. exists l. split; auto. intros U HU r Hr. etransitivity; [|exact R2]. now apply uses_last_op with U.
Qed.
Lemma pulse_state phi0 b : k = 1 -> is_matrix n 1 phi0 -> 1 < n ->
  cf_costs c = prog_state_infidelity la phi0 None b -> cf_grad c = prog_state_infidelity_grad la phi0 None b -> goal.
Proof.
  intros Ek HV Hn Ec Eg. apply by_gradient with (q := cost_at (fun r => state_infidelity la r phi0 None b)) (mkg := fun r => state_infidelity_grad la r phi0 None b).
  - intros f g. rewrite Eg. apply state_reads.
  - intros r HL. rewrite Ek in HL |- *. now apply state_infidelity_gradient.
  - intros y' f' _ _. rewrite Ec. intros (v & R1 & R2). destruct v; try discriminate. cbn [evaluates] in R2. apply scalar_ok in R2. exists l. split; auto. intros U HU r Hr. etransitivity; [|exact R2]. now apply uses_last_state with U.
Qed.
Lemma pulse_state_sub phi0 cs b : k = 1 -> is_matrix (length cs) 1 phi0 -> 1 < length cs -> n <> 1 -> (forall i, In i cs -> i < n) ->
  cf_costs c = prog_state_infidelity la phi0 (Some cs) b -> cf_grad c = prog_state_infidelity_grad la phi0 (Some cs) b -> goal.
Proof.
  intros Ek HV Hl Hn Hcs Ec Eg. apply by_gradient with (q := cost_at (fun r => state_infidelity la r phi0 (Some cs) b)) (mkg := fun r => state_infidelity_grad la r phi0 (Some cs) b).
  - intros f g. rewrite Eg. apply state_reads.
  - intros r HL. rewrite Ek in HL |- *. now apply state_infidelity_gradient_sub.
  - intros y' f' _ _. rewrite Ec. intros (v & R1 & R2). destruct v; try discriminate. cbn [evaluates] in R2. apply scalar_ok in R2. exists l. split; auto. intros U HU r Hr. etransitivity; [|exact R2]. now apply uses_last_state with U.
Qed.

(** unitarity *)
Lemma exponential_unitary (A E : op) (x : R) : is_skew_hermitian (S:=RS) n A -> is_exponential n (mscale (S:=RS) (cofk (x : RField)) A) E -> munitary (S:=RS) n E.
Proof.
  intros HA' HE. pose proof (@mscale_skew RField n A x HA') as [W HS]. apply is_matrix_wfm in W. rewrite (exponential_mexp W HE). set (B := mscale (S:=RS) (cofk (x : RField)) A) in *. clearbody B.
  assert (WM := wfm_mexp W 1). assert (WN := wfm_mexp W (Ropp 1)).
  assert (U1 : mmul (S:=RS) (mdag (S:=RS) (mexp W 1)) (mexp W 1) = mid (S:=RS) n).
  { apply (@solves_unitary n B (mexp W) 1 W); [|apply mexp_solves]. apply (@mat_ext RS n n); [wf_solve|wf_solve|]. intros i j Hi Hj. rewrite (@mg_mdag RS n n), (@mg_mscale RS n n) by auto.
    rewrite (HS j i) by auto. tocplx. rewrite ?cconj_opp, ?cconj_conj. cring. }
  pose proof (mexp_inv' W 1) as U2. assert (EN : mdag (S:=RS) (mexp W 1) = mexp W (Ropp 1)).
  { transitivity (mmul (S:=RS) (mdag (S:=RS) (mexp W 1)) (mmul (S:=RS) (mexp W 1) (mexp W (Ropp 1)))).
    - rewrite U2. symmetry. apply (@mmul_1_r RS n n). wf_solve.
    - rewrite (@mmul_assoc RS n n n n) by wf_solve. rewrite U1. now apply (@mmul_1_l RS n n). }
  split; auto. split; auto. now rewrite EN.
Qed.
Lemma pulse_leakage cs : n = k -> cs <> [] -> levels n cs -> length (s_drift s0) = T -> Forall (is_hermitian (S:=RS) n : op -> Prop) (s_drift s0) -> Forall (is_hermitian (S:=RS) n : op -> Prop) (c_ctrl (s_conf s0)) ->
  is_unitary (S:=RS) n (c_init (s_conf s0)) -> cf_costs c = prog_leakage la cs -> cf_grad c = prog_leakage_grad la cs -> goal.
Proof.
  intros En Hne Hcs Ld Hd Hcc Hi Ec Eg. apply by_gradient with (q := fun U v => is_unitary n U /\ forall r', is_last (r_fwd r') U -> leakage la r' cs = Ok v) (mkg := fun r => leakage_grad la r cs).
  - intros f g. rewrite Eg. apply leakage_reads.
  - intros r HL. rewrite <- En in HL |- *. now apply leakage_gradient.
  - intros y' f' Wy' P. rewrite Ec. intros (v & R1 & R2). destruct v; try discriminate. cbn [evaluates] in R2. apply scalar_ok in R2. exists l. split; auto. intros U HU. split.
    + destruct (fwd_at O P R1) as (x & u & es & _ & _ & _ & L & W & -> & K & _). destruct HU as [l' El]. destruct (lists_lengths es n (c_init (s_conf s0))) as [LL _].
      assert (Lt : length l' = length es) by (rewrite El, app_length in LL; cbn in LL; lia).
      assert (EU : U = nth (length es) (c_init (s_conf s0) :: prods es (c_init (s_conf s0))) dop) by (rewrite El, <- Lt; symmetry; apply nth_middle).
      rewrite EU. apply is_unitary_m. apply prods_unitary; [|now apply is_unitary_m|lia]. apply Forall_forall. intros E HE. destruct (In_nth_error _ _ HE) as [t Ht].
      assert (Ht' : t < length es) by (apply nth_error_Some; intros Hn; pose proof (eq_trans (eq_sym Ht) Hn); discriminate). rewrite L in Ht'. destruct (K t Ht') as [K1 K2].
      assert (EE : Some E = Some (Eop n s0 u t)) by exact (eq_trans (eq_sym Ht) K1). injection EE as ->. eapply exponential_unitary; [|exact K2].
      eapply generator_skew; [|exact Hcc|apply gen_is]. rewrite Forall_forall in Hd. apply Hd, nth_In. rewrite Ld. exact Ht'.
    + intros r Hr. etransitivity; [|exact R2]. now apply uses_last_leak with U.
Qed.
End One.
End Grad.
