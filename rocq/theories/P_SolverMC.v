(** The noise traces of the Monte Carlo solvers. *)
Require Import List Arith Lia Bool Ring Field.
From Verif Require Import LibBase LibRing LibArr LibCplx LibNorm LibMat M_Matrix S_Linear P_Linear P_Matrix M_OpHeap M_Transfer S_Transfer M_Amplitude P_Transfer P_Transfer3 M_Solver S_Solver P_Loops P_Solver P_Solver2 P_Solver3 P_Solver4 P_Solver5 P_Solver6 P_Solver7 P_Solver8 P_Solver9.
Import ListNotations.
Open Scope res_scope.
Set Implicit Arguments.

Section MC.
Variable F : OField.
Variable rexp : F -> F.
Variable la : LinAlg F.
Variable eps : cplx F.
Notation S := (CStar F).
Notation C := (cplx F).
Notation op := (op F).
Notation arrF := (arr (kcar F)).
Notation st := (@st F).
Notation dop := (Arr [] [] : op).
Notation used := (used rexp la eps).
Notation returns := (returns rexp la eps).
Add Field Kfield_pmc : (k_field F).
Add Field Cfield_pmc : (c_field F).

Lemma nth_error_ext {A} (l l' : list A) : (forall i, nth_error l i = nth_error l' i) -> l = l'.
Proof.
  revert l'. induction l as [|a l IH]; intros [|b l'] H; auto; try (specialize (H 0); discriminate).
  pose proof (H 0) as H0. cbn in H0. inversion H0; subst. f_equal. apply IH. intros i. exact (H (Datatypes.S i)).
Qed.
Lemma d0_mk3 a b c (f : nat -> nat -> nat -> F) : dim0 (mk3 a b c f) = a. Proof. reflexivity. Qed.
Lemma d1_mk3 a b c (f : nat -> nat -> nat -> F) : dim1 (mk3 a b c f) = b. Proof. reflexivity. Qed.
Lemma d2_mk3 a b c (f : nat -> nat -> nat -> F) : dim2 (mk3 a b c f) = c. Proof. reflexivity. Qed.
Lemma d0_mk2 a b (f : nat -> nat -> F) : dim0 (mk2 a b f) = a. Proof. reflexivity. Qed.
Lemma d1_mk2 a b (f : nat -> nat -> F) : dim1 (mk2 a b f) = b. Proof. reflexivity. Qed.
Lemma pnexps_nth m (b : st) ng ess k : pnexps la m b ng = Ok ess -> k < mc_traces m -> pexps la b (nth k ng []) = Ok (nth k ess []).
Proof.
  intros H Hk. unfold pnexps in H. destruct (mapM_seq _ _ _ ([] : list op) H) as [L E]. specialize (E k Hk). cbn [Nat.add] in E.
  destruct (idx ng k) as [g|] eqn:E1; [|discriminate]. cbn [bind] in E. destruct (idx_inv _ _ E1) as [_ K]. now rewrite (K []).
Qed.

Lemma used_traces d (s0 s : st) n m u arr0 pss : used d s0 s -> c_class (s_conf s) = CMonteCarlo m -> square_hamiltonians n s ->
  Forall (is_matrix (S:=S) n n) (mc_ops m) -> amplitudes s u -> noise_array m s = Ok arr0 -> returns s SNProp (VDer pss) ->
  length pss = mc_traces m /\ forall k ps, nth_error pss k = Some ps ->
    propagates la s (fun t G =>
      if (Nat.ltb t (dim0 arr0) && Nat.ltb k (dim1 arr0))%bool then
        dim2 arr0 = length (mc_ops m) -> is_noisy_generator n (nth t (s_drift s) dop) (c_ctrl (s_conf s)) (fun c => get2 k0 u t c) (mc_ops m) (fun o => get3 k0 arr0 t k o) G
      else is_generator n (nth t (s_drift s) dop) (c_ctrl (s_conf s)) (fun c => get2 k0 u t c) G) ps.
Proof.
  intros HU Hc [Hd Hct] Ho [Hu Du] Ha Hp. pose proof (@used_value F rexp la eps d s0 s SNProp _ HU eq_refl Hp) as V. cbn [rval] in V. unfold mc_is in V. rewrite Hc in V.
  destruct V as (ng & ess & A1 & A2 & ->). apply wfs_matrix in Hd. apply wfs_matrix in Hct. apply wfs_matrix in Ho.
  pose proof (@pnexps_length F la m _ _ _ A2) as L. rewrite map_length. split; auto. intros k ps Hk.
  rewrite nth_error_map in Hk. destruct (nth_error ess k) as [es|] eqn:Ek; [|discriminate]. cbn in Hk. inversion Hk; subst ps. clear Hk.
  assert (Hk : k < mc_traces m). { rewrite <- L. apply nth_error_Some. congruence. }
  assert (Ha' : noise_array m (bare (s_udiss s0) s) = Ok arr0) by exact Ha.
  destruct (@noise_gens F n m (bare (s_udiss s0) s) ng u arr0 Hd Hct Ho Hu Ha' A1) as (Ln & E). destruct (E k Hk) as (Lk & E').
  pose proof (@pnexps_nth m _ ng ess k A2 Hk) as P. rewrite (nth_error_nth _ _ _ Ek) in P.
  apply (@pexps_propagates F la (bare (s_udiss s0) s) (nth k ng []) es _ P). intros t Ht Hg. apply (E' t); [now rewrite <- Lk|].
  cbn [s_time bare] in Ht. lia.
Qed.

Lemma propagates_imp (s : st) (gen gen' : nat -> op -> Prop) ps : (forall t G, t < length (s_time s) -> gen t G -> gen' t G) -> propagates la s gen ps -> propagates la s gen' ps.
Proof.
  intros H [L P]. split; auto. intros t Ht. destruct (P t Ht) as (Q & G & tau & E1 & E2 & E3 & E4). exists Q, G, tau. auto.
Qed.

(** trace k takes sample k of every noise operator *)
Lemma used_samples d (s0 s : st) n m u pss : used d s0 s -> sampled n s m -> mc_ampf m = NNone -> square_hamiltonians n s -> amplitudes s u ->
  returns s SNProp (VDer pss) ->
  length pss = mc_traces m /\ forall k ps, nth_error pss k = Some ps ->
    propagates la s (fun t G => is_noisy_generator n (nth t (s_drift s) dop) (c_ctrl (s_conf s)) (fun c => get2 k0 u t c) (mc_ops m) (fun o => get3 k0 (mc_samples m) o k t) G) ps.
Proof.
  intros HU (Hc & Ho & Hw) Hn Hsq Hu Hp. destruct (dim_wfa3 Hw) as (D0 & D1 & D2 & _).
  assert (Ha : noise_array m s = Ok (mk3 (length (s_time s)) (mc_traces m) (length (mc_ops m)) (fun t k o => get3 k0 (mc_samples m) o k t))).
  { unfold noise_array. rewrite Hn, D0, D1, D2. reflexivity. }
  destruct (@used_traces d s0 s n m u _ pss HU Hc Hsq Ho Hu Ha Hp) as [L E]. split; auto. intros k ps Hk. specialize (E k ps Hk).
  assert (Hk' : k < mc_traces m). { rewrite <- L. apply nth_error_Some. congruence. }
  eapply propagates_imp; [|exact E]. cbv beta. intros t G Ht HG. rewrite d0_mk3, d1_mk3, d2_mk3 in HG.
  destruct (Nat.ltb_spec t (length (s_time s))); [|lia]. destruct (Nat.ltb_spec k (mc_traces m)); [|lia]. cbn [andb] in HG. destruct (HG eq_refl) as [W H1]. split; auto.
  intros i j Hi Hj. rewrite H1 by auto. apply f_equal. apply f_equal. apply sumn_ext. intros o Hoo. now rewrite get3_mk3 by auto.
Qed.

Lemma generator_unique n (h : op) (hs : list op) u (G G' : op) : is_generator (F:=F) n h hs u G -> is_generator n h hs u G' -> G = G'.
Proof.
  intros [W E] [W' E']. apply is_matrix_wfm in W. apply is_matrix_wfm in W'. apply (@mat_ext S n n); auto. intros i j Hi Hj. now rewrite E, E'.
Qed.
Lemma propagates_unique (s s' : st) n (h : nat -> op) (hs : list op) (u : nat -> nat -> F) ps ps' : same_problem s s' ->
  propagates la s (fun t G => is_generator n (h t) hs (u t) G) ps -> propagates la s' (fun t G => is_generator n (h t) hs (u t) G) ps' -> ps = ps'.
Proof.
  intros (_ & _ & Et & Em & Es) [L E] [L' E']. rewrite <- Et, <- Em, <- Es in *. apply nth_error_ext. intros t.
  destruct (Nat.ltb_spec t (length (s_time s))) as [Ht|Ht].
  - destruct (E t Ht) as (P & G & tau & A1 & A2 & A3 & A4). destruct (E' t Ht) as (P' & G' & tau' & B1 & B2 & B3 & B4).
    assert (G' = G) by (eapply generator_unique; eauto). assert (tau' = tau) by congruence. subst. rewrite A4 in B4. inversion B4; subst. congruence.
  - rewrite (proj2 (nth_error_None ps t)), (proj2 (nth_error_None ps' t)) by lia. reflexivity.
Qed.

Lemma csumn_zero n (f : nat -> C) : (forall i, i < n -> f i = c0) -> sumn (S:=S) n f = c0.
Proof. intros H. apply (@sumn_0 S). exact H. Qed.

Lemma noise_free n (h : op) (hs ns : list op) u v (G : op) : (forall o, o < length ns -> v o = k0) -> is_noisy_generator (F:=F) n h hs u ns v G -> is_generator n h hs u G.
Proof.
  intros Hv [W E]. split; auto. intros i j Hi Hj. rewrite E by auto. apply f_equal.
  rewrite (@csumn_zero (length ns)). cring. intros o Ho. rewrite (Hv o Ho). unfold cofk, cmul, c0; cbn. apply (f_equal2 pair); ring.
Qed.
(** zero noise *)
Lemma used_zero_noise d d' (s0 s s0' s' : st) n m u pss ps : used d s0 s -> used d' s0' s' -> schroedinger (s_conf s') -> same_problem s s' ->
  sampled n s m -> mc_ampf m = NNone -> square_hamiltonians n s -> amplitudes s u -> amplitudes s' u ->
  (forall o k t, o < length (mc_ops m) -> k < mc_traces m -> t < length (s_time s) -> get3 k0 (mc_samples m) o k t = k0) ->
  returns s SNProp (VDer pss) -> returns s' SPropag (VProp ps) -> pss = repeat ps (mc_traces m).
Proof.
  intros HU HU' Hs Sp Hm Hn Hsq Hu Hu' Hz Hp Hp'. destruct (@used_samples d s0 s n m u pss HU Hm Hn Hsq Hu Hp) as [L E].
  assert (Hsq' : square_hamiltonians n s'). { destruct Sp as (S1 & S2 & _). unfold square_hamiltonians. now rewrite <- S1, <- S2. }
  pose proof (@used_propagators F rexp la eps d' s0' s' n u ps HU' Hs Hsq' Hu' Hp') as E'.
  apply nth_error_ext. intros k. destruct (Nat.ltb_spec k (mc_traces m)) as [Hk|Hk].
  - rewrite (nth_error_nth' _ ([] : list (option op))), (nth_error_nth' (repeat ps (mc_traces m)) []) by (rewrite ?repeat_length; lia). f_equal.
    rewrite nth_repeat_lt by auto. assert (X : nth_error pss k = Some (nth k pss [])) by (apply nth_error_nth'; lia).
    specialize (E k _ X). apply (@propagates_unique s s' n (fun t => nth t (s_drift s) dop) (c_ctrl (s_conf s)) (fun t c => get2 k0 u t c)); auto.
    + eapply propagates_imp; [|exact E]. intros t G Ht HG. cbv beta in *. eapply noise_free; [|exact HG]. cbv beta. auto with arith.
    + destruct Sp as (S1 & S2 & _). rewrite S1, S2. exact E'.
  - rewrite (proj2 (nth_error_None pss k)), (proj2 (nth_error_None (repeat ps (mc_traces m)) k)) by (rewrite ?repeat_length; lia). reflexivity.
Qed.

(** ---- noise on the optimisation parameters ---- *)
Lemma add_bcast_same a b (x y : arrF) f : wfa [a; b] x -> wfa [a; b] y -> add_bcast x y f = Ok (mk2 a b (fun i j => f (get2 k0 x i j) (get2 k0 y i j))).
Proof.
  intros Wx Wy. destruct (dim_wfa2 Wx) as (X0 & X1 & _). destruct (dim_wfa2 Wy) as (Y0 & Y1 & _). unfold add_bcast.
  assert (R1 : rank x = 2) by (unfold rank; destruct Wx as [-> _]; reflexivity). assert (R2 : rank y = 2) by (unfold rank; destruct Wy as [-> _]; reflexivity).
  rewrite R1, R2, X0, X1, Y0, Y1. cbn [Nat.eqb andb bind]. rewrite !lab_same. cbn [bind]. f_equal. apply mk2_ext. intros i j Hi Hj. now rewrite !bi_lt by auto.
Qed.

Lemma control_noise_ok (a : amp F) (smp x u : arrF) T K n uks : wfa [n; K; T] smp -> wfa [T; n] x -> wfa [T; n] u ->
  length uks = K -> (forall k xk, k < K -> perturbed x smp T n k xk -> amp_call a xk = Ok (nth k uks (Arr [] [])) /\ wfa [T; n] (nth k uks (Arr [] []))) ->
  control_noise a (mk3 T K n (fun t k o => get3 k0 smp o k t)) (Some x) (Some u) = Ok (mk3 T K n (fun t k c => ksub (get2 k0 (nth k uks (Arr [] [])) t c) (get2 k0 u t c))).
Proof.
  intros Ws Wx Wu Lk Hk. unfold control_noise. rewrite d0_mk3, d1_mk3, d2_mk3. destruct (dim_wfa2 Wu) as (U0 & U1 & _). rewrite U1.
  set (dk := fun k => mk2 T n (fun i j => ksub (get2 k0 (nth k uks (Arr [] [])) i j) (get2 k0 u i j))).
  rewrite (@mapM_seq_of _ _ 0 K (map dk (seq 0 K)) (Arr [] [])).
  - cbn [bind]. f_equal. apply mk3_ext. intros t k c Ht Hk' Hc. cbv zeta. rewrite (@nth_indep _ (map dk (seq 0 K)) k (Arr [] []) (dk 0)) by (rewrite map_length, seq_length; lia).
    rewrite map_nth, seq_nth by auto. cbn [Nat.add]. unfold dk. rewrite d0_mk2, d1_mk2. rewrite !bi_lt by auto. now rewrite get2_mk2.
  - now rewrite map_length, seq_length.
  - intros k Hk'. cbn [Nat.add].
    set (sk := mk2 T n (fun t o => get3 k0 (mk3 T K n (fun t k o => get3 k0 smp o k t)) t k o)).
    rewrite (@add_bcast_same T n x sk) by (auto; apply wfa_mk2). cbn [bind].
    set (xk := mk2 T n (fun i j => kadd (get2 k0 x i j) (get2 k0 sk i j))).
    assert (P : perturbed x smp T n k xk).
    { split; [apply wfa_mk2|]. intros t c Ht Hc. unfold xk, sk. now rewrite !get2_mk2, get3_mk3 by auto. }
    destruct (Hk k xk Hk' P) as [E W]. rewrite E. cbn [bind]. rewrite (@add_bcast_same T n) by auto. cbn [bind]. rewrite d0_mk2, d1_mk2.
    rewrite !Nat.eqb_refl. cbn [orb andb]. f_equal. rewrite (@nth_indep _ (map dk (seq 0 K)) k (Arr [] []) (dk 0)) by (rewrite map_length, seq_length; lia).
    rewrite map_nth, seq_nth by auto. reflexivity.
Qed.

(** trace k has the generators of the amplitudes belonging to the perturbed parameters *)
Lemma noisy_amplitudes n (h : op) (hs : list op) (u v w : nat -> F) (G : op) : (forall c, c < length hs -> w c = kadd (u c) (v c)) ->
  is_noisy_generator (F:=F) n h hs u hs v G -> is_generator n h hs w G.
Proof.
  intros Hw [W E]. split; auto. intros i j Hi Hj. rewrite E by auto. apply f_equal.
  assert (X : sumn (S:=S) (length hs) (fun c => cmul (cofk (w c)) (nth c hs dop).[i,j]) =
    cadd (sumn (S:=S) (length hs) (fun c => cmul (cofk (u c)) (nth c hs dop).[i,j])) (sumn (S:=S) (length hs) (fun c => cmul (cofk (v c)) (nth c hs dop).[i,j]))).
  { etransitivity; [|apply (@sumn_add S)]. apply sumn_ext. intros c Hc. rewrite (Hw c Hc). tocplx.
    assert (Y : cofk (kadd (u c) (v c)) = cadd (cofk (u c)) (cofk (v c))) by (unfold cofk, cadd; cbn; apply (f_equal2 pair); ring). rewrite Y. cring. }
  rewrite X. cring.
Qed.
Lemma used_control_noise d d' (s0 s s0' s' : st) n m u x k xk uk pss ps psk : used d s0 s -> used d' s0' s' -> schroedinger (s_conf s') -> same_problem s s' ->
  sampled n s m -> mc_ampf m = NControl -> mc_ops m = c_ctrl (s_conf s) -> square_hamiltonians n s -> 
  wfa [length (s_time s); length (mc_ops m)] x -> s_tpars s = Some x -> s_amps s = Some u -> wfa [length (s_time s); length (mc_ops m)] u ->
  (forall j xj, j < mc_traces m -> perturbed x (mc_samples m) (length (s_time s)) (length (mc_ops m)) j xj -> exists uj, amp_call (c_amp (s_conf s)) xj = Ok uj /\ wfa [length (s_time s); length (mc_ops m)] uj) ->
  k < mc_traces m -> perturbed x (mc_samples m) (length (s_time s)) (length (mc_ops m)) k xk -> amp_call (c_amp (s_conf s)) xk = Ok uk -> amplitudes s' uk ->
  returns s SNProp (VDer pss) -> nth_error pss k = Some psk -> returns s' SPropag (VProp ps) -> psk = ps.
Proof.
  intros HU HU' Hs Sp (Hc & Ho & Hw) Hn Hops Hsq Wx Hx Hu Wu Hj Hk Hxk Huk Hu' Hp Hpk Hp'.
  set (T := length (s_time s)) in *. set (N := length (mc_ops m)) in *.
  destruct (dim_wfa3 Hw) as (D0 & D1 & D2 & _).
  set (smp := mc_samples m) in *. set (K := mc_traces m) in *.
  set (xs := fun j => mk2 T N (fun t c => kadd (get2 k0 x t c) (get3 k0 smp c j t))).
  assert (PX : forall j, perturbed x smp T N j (xs j)). { intros j. split; [apply wfa_mk2|]. intros t c Ht Hcc. unfold xs. now rewrite get2_mk2. }
  assert (UX : forall j xj, perturbed x smp T N j xj -> xj = xs j).
  { intros j xj [W1 W2]. destruct (PX j) as [W3 W4]. apply (@arr2_ext F k0 T N); auto. intros t c Ht Hcc. rewrite W2, W4; auto. }
  set (uks := map (fun j => match amp_call (c_amp (s_conf s)) (xs j) with Ok v => v | Err _ => Arr [] [] end) (seq 0 K)).
  assert (NU : forall j, j < K -> nth j uks (Arr [] []) = match amp_call (c_amp (s_conf s)) (xs j) with Ok v => v | Err _ => Arr [] [] end).
  { intros j Hjj. unfold uks. rewrite nth_map_seq by auto. reflexivity. }
  assert (Ha : noise_array m s = Ok (mk3 T K N (fun t j c => ksub (get2 k0 (nth j uks (Arr [] [])) t c) (get2 k0 u t c)))).
  { unfold noise_array. rewrite Hn. fold smp. rewrite D0, D1, D2, Hx, Hu. apply control_noise_ok; auto.
    - unfold uks. now rewrite map_length, seq_length.
    - intros j xj Hjj HP. rewrite (UX _ _ HP). rewrite NU by auto. destruct (Hj j (xs j) Hjj (PX j)) as (uj & E1 & E2). rewrite E1. auto. }
  assert (Hu2 : amplitudes s u). { split; auto. now destruct (dim_wfa2 Wu). }
  destruct (@used_traces d s0 s n m u _ pss HU Hc Hsq Ho Hu2 Ha Hp) as [L E]. specialize (E k psk Hpk).
  assert (Hsq' : square_hamiltonians n s'). { destruct Sp as (S1 & S2 & _). unfold square_hamiltonians. now rewrite <- S1, <- S2. }
  pose proof (@used_propagators F rexp la eps d' s0' s' n uk ps HU' Hs Hsq' Hu' Hp') as E'.
  apply (@propagates_unique s s' n (fun t => nth t (s_drift s) dop) (c_ctrl (s_conf s)) (fun t c => get2 k0 uk t c)); auto.
  - eapply propagates_imp; [|exact E]. cbv beta. intros t G Ht HG. rewrite d0_mk3, d1_mk3, d2_mk3 in HG.
    destruct (Nat.ltb_spec t T); [|lia]. destruct (Nat.ltb_spec k K); [|lia]. cbn [andb] in HG. specialize (HG eq_refl). rewrite Hops in HG.
    eapply noisy_amplitudes; [|exact HG]. intros c Hcc. cbv beta. rewrite <- Hops in Hcc. rewrite get3_mk3 by auto. rewrite NU by auto. rewrite <- (UX _ _ Hxk), Huk. ring.
  - destruct Sp as (S1 & S2 & _). rewrite S1, S2. exact E'.
Qed.
End MC.
