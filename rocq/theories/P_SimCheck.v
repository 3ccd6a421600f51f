(** The numeric gradient of the simulator tends to its jacobian (C69). *)
Require Import List Arith Lia Bool Reals Lra.
From Verif Require Import LibBase LibRing LibArr LibCplx LibMat LibDeriv M_Matrix S_Deriv M_OpHeap M_Transfer S_Transfer M_Amplitude S_Amplitude M_Solver S_Solver M_Cost M_Simulator S_Simulator S_Gradient
  P_Amplitude P_Simulator P_Simulator2 P_GradSim M_SimCheck S_SimCheck.
Import ListNotations.
Set Implicit Arguments.

Section Check.
Variable rexp : R -> R.
Variable la : LinAlg RField.
Variable eps : cplx RField.
Notation sim := (@sim RField).
Notation world := (@world RField).
Notation arrR := (arr (kcar RField)).

(** ---- the costs at all pulses and the jacobian at one ---- *)
Lemma gradient_and_costs (m : sim) (w0 : world) (y : RA) T P :
  set_up (F:=RField) la eps m w0 -> sm_numeric m = false -> wfa [T; P] y ->
  (forall y' : RA, wfa [T; P] y' -> accepted (F:=RField) rexp la eps m w0 y') ->
  Forall (fun c => differentiable rexp la eps w0 T P c y) (sm_cfs m) ->
  exists (f : nat -> RA -> R) J, computes (F:=RField) rexp la eps m w0 T P (length (sm_cfs m)) f /\ wfa [T; length (sm_cfs m); P] J /\
   (forall k, k < length (sm_cfs m) -> has_gradient T P (f k) y (fun t q => get3 0%R J t k q)) /\
   forall p w dl, simulated (F:=RField) rexp la eps m w0 w -> pulse_used (F:=RField) m p y -> exists w', wrapped_jac (F:=RField) rexp la eps m p dl w = (w', Ok J).
Proof.
  intros SU NU Wy AC DI. destruct (differentiable_all DI) as (phis & hs & L & A & B & C & D).
  assert (LJ : forall p w dl, simulated (F:=RField) rexp la eps m w0 w -> pulse_used (F:=RField) m p y -> exists w' J, wrapped_jac (F:=RField) rexp la eps m p dl w = (w', Ok J) /\ wfa [T; length (sm_cfs m); P] J /\
    forall k t q, k < length (sm_cfs m) -> t < T -> q < P -> get3 0%R J t k q = get3 0%R (nth k hs y) t 0 q).
  { intros p w dl SI PU. destruct (@sim_jac_layout RField rexp la eps m w0 w p y hs (repeat 1 (length (sm_cfs m))) T P dl SU SI NU PU (AC y Wy) B C) as (w' & J & E & WJ & HJ & _).
    exists w', J. split; auto. rewrite list_sum_ones in WJ. split; auto. intros k t q Hk Ht Hq.
    assert (Lh : length hs = length (sm_cfs m)) by (clear - B; induction B; cbn; congruence).
    assert (X := HJ k (nth k hs y) 1 t 0 q). rewrite offset_ones, Nat.add_0_r in X by lia. apply X; auto; [apply nth_error_nth'; lia|rewrite nth_error_repeat; auto]. }
  set (J := mk3 T (length (sm_cfs m)) P (fun t k q => get3 0%R (nth k hs y) t 0 q) : RA).
  exists (fun k => nth k phis (fun _ => 0%R)), J. split; [|split; [|split]].
  - intros y' W. split; [now apply AC|]. exists (map (fun phi => scalar RField (phi y')) phis). split; [exact (A y' W)|].
    rewrite <- L. rewrite map_map. clear. transitivity (map (fun phi : RA -> R => phi y') phis).
    + induction phis; cbn; auto. f_equal. exact IHphis.
    + apply (nth_ext _ _ 0%R 0%R); [now rewrite !map_length, seq_length|]. intros k Hk. rewrite map_length in Hk. rewrite nth_map_seq by auto.
      exact (map_nth (fun phi : RA -> R => phi y') phis (fun _ => 0%R) k).
  - apply wfa_mk3.
  - intros k Hk. assert (Lh : length hs = length (sm_cfs m)) by (clear - B; induction B; cbn; congruence).
    assert (HG : has_gradient T P (nth k phis (fun _ => 0%R)) y (fun t q => get3 0%R (nth k hs y) t 0 q)).
    { assert (Lp : k < length phis) by lia. clear - D Lp. revert k Lp. induction D as [|phi h' phis hs H _ IH]; intros [|k] Lp; cbn in *; try lia; auto. apply IH. lia. }
    intros c v Hc. specialize (HG c v Hc). cbv beta in HG |- *.
    match type of HG with derivable_pt_lim _ _ ?a => match goal with |- derivable_pt_lim _ _ ?b => replace b with a; [exact HG|] end end.
    apply Rsum_ext. intros t Ht. apply Rsum_ext. intros q Hq. unfold J. now rewrite get3_mk3.
  - intros p w dl SI PU. destruct (LJ p w dl SI PU) as (w' & J' & E & WJ & HJ). exists w'. replace J with J'; auto.
    apply (@arr3_ext R 0%R T (length (sm_cfs m)) P); auto; [apply wfa_mk3|]. intros t k q Ht Hk Hq. unfold J. rewrite get3_mk3 by auto. now apply HJ.
Qed.

(** ---- calls of the numeric gradient leave solvers the simulator can go on with ---- *)
Lemma numeric_keeps (m : sim) (w0 w w' : world) p dl sym G : simulated (F:=RField) rexp la eps m w0 w ->
  numeric_gradient (F:=RField) rexp la eps m p dl sym w = (w', Ok G) -> simulated (F:=RField) rexp la eps m w0 w'.
Proof.
  intros SI. unfold numeric_gradient. unfold wbind at 1. unfold wret at 1. destruct (the_pulse m p) as [y|] eqn:Ep; [|discriminate].
  unfold wbind at 1. destruct (wrapped_cost _ _ _ m (Some y) w) as [w1 [central|]] eqn:E1; [|discriminate].
  assert (S1 : simulated (F:=RField) rexp la eps m w0 w1) by (eapply sim_cost; eauto).
  destruct (negb _); [discriminate|]. unfold wbind at 1.
  match goal with |- context [wmap ?g (seq 0 (dim0 y))] => set (body := g) end.
  destruct (wmap body (seq 0 (dim0 y)) w1) as [w2 [cols|]] eqn:E2; [|discriminate]. intros E. assert (w2 = w') as <- by (cbv [wret] in E; congruence). clear E.
  refine (@wmap_keeps RField _ _ body (simulated (F:=RField) rexp la eps m w0) (seq 0 (dim0 y)) _ w1 w2 cols S1 E2).
  intros t r v v' _ Sv. unfold body. intros E3.
  refine (@wmap_keeps RField _ _ _ (simulated (F:=RField) rexp la eps m w0) (seq 0 (dim1 y)) _ v v' r Sv E3).
  intros c b u u' _ Su. unfold wbind at 1. destruct (wrapped_cost _ _ _ m (Some (shifted y t c dl)) u) as [u1 [fw|]] eqn:E4; [|discriminate].
  assert (Su1 : simulated (F:=RField) rexp la eps m w0 u1) by (eapply sim_cost; eauto). destruct sym.
  - unfold wbind at 1. destruct (wrapped_cost _ _ _ m (Some (shifted y t c (kopp dl))) u1) as [u2 [bk|]] eqn:E5; [|discriminate].
    intros E. assert (u2 = u') as <- by (cbv [wret] in E; congruence). eapply sim_cost; eauto.
  - intros E. assert (u1 = u') as <- by (cbv [wret] in E; congruence). exact Su1.
Qed.

(** ---- difference quotients ---- *)
Lemma bump_moved T P (y : RA) t q s : moved (F:=RField) T P y t q s (bump T P y t q s).
Proof. split; [apply wfa_mk2|]. intros i j Hi Hj. unfold bump. change (@get2 (kcar RField) k0) with (@get2 R 0%R). rewrite get2_mk2 by auto. reflexivity. Qed.
Lemma bump_0 T P (y : RA) t q : wfa [T; P] y -> bump T P y t q 0%R = y.
Proof.
  intros W. apply (@arr2_ext R 0%R T P); [apply wfa_mk2|exact W|]. intros i j Hi Hj. unfold bump. rewrite get2_mk2 by auto.
  destruct (Nat.eqb i t && Nat.eqb j q)%bool; unfold ent; lra.
Qed.
Lemma quotients_close T P (f : RA -> R) (y : RA) t q g e : wfa [T; P] y -> is_partial T P f y t q g -> (0 < e)%R ->
  exists d0, (0 < d0)%R /\ forall dl, dl <> 0%R -> (Rabs dl < d0)%R ->
    (Rabs ((f (bump T P y t q dl) - f y) / dl - g) < e)%R /\
    (Rabs ((f (bump T P y t q dl) - f (bump T P y t q (- dl))) / (2 * dl) - g) < e)%R.
Proof.
  intros W D He. destruct (D e He) as [d0 Hd]. exists (pos d0). split; [apply cond_pos|]. intros dl N L.
  assert (A := Hd dl N L). assert (B := Hd (- dl)%R (Ropp_neq_0_compat _ N)). rewrite Rabs_Ropp in B. specialize (B L).
  rewrite Rplus_0_l in A, B. rewrite (bump_0 t q W) in A, B. split; [exact A|].
  set (a := f (bump T P y t q dl)) in *. set (b := f (bump T P y t q (- dl)%R)) in *. set (c := f y) in *.
  replace ((a - b) / (2 * dl) - g)%R with (((a - c) / dl - g) / 2 + ((b - c) / (- dl) - g) / 2)%R by (field; auto).
  apply Rabs_def2 in A. apply Rabs_def2 in B. apply Rabs_def1; lra.
Qed.
Lemma finite_min n (Q : nat -> R -> Prop) : (forall i, i < n -> exists d0, (0 < d0)%R /\ forall d, (0 < d <= d0)%R -> Q i d) ->
  exists d0, (0 < d0)%R /\ forall i d, i < n -> (0 < d <= d0)%R -> Q i d.
Proof.
  induction n; intros H; [exists 1%R; split; [lra|intros; lia]|].
  destruct IHn as (a & A & HA); [auto|]. destruct (H n) as (b & B & HB); auto. exists (Rmin a b). split; [now apply Rmin_pos|].
  intros i d Hi [D1 D2]. pose proof (Rmin_l a b). pose proof (Rmin_r a b). destruct (Nat.eq_dec i n) as [->|Ni]; [apply HB; lra|apply HA; [lia|lra]].
Qed.

(** ---- the numeric gradient tends to the jacobian ---- *)
Theorem numeric_converges (m : sim) (w0 : world) (y : RA) T P :
  set_up (F:=RField) la eps m w0 -> sm_numeric m = false -> wfa [T; P] y ->
  (forall y' : RA, wfa [T; P] y' -> accepted (F:=RField) rexp la eps m w0 y') ->
  Forall (fun c => differentiable rexp la eps w0 T P c y) (sm_cfs m) ->
  exists J, wfa [T; length (sm_cfs m); P] J /\
   (forall p w dl, simulated (F:=RField) rexp la eps m w0 w -> pulse_used (F:=RField) m p y -> exists w', wrapped_jac (F:=RField) rexp la eps m p dl w = (w', Ok J)) /\
   forall e, (0 < e)%R -> exists d0, (0 < d0)%R /\ forall p w delta symmetric, simulated (F:=RField) rexp la eps m w0 w -> pulse_used (F:=RField) m p y ->
     delta <> 0%R -> (Rabs delta < d0)%R ->
     exists w' G, numeric_gradient (F:=RField) rexp la eps m p delta symmetric w = (w', Ok G) /\ wfa [T; length (sm_cfs m); P] G /\
      entries_close T (length (sm_cfs m)) P e G J.
Proof.
  intros SU NU Wy AC DI. destruct (gradient_and_costs SU NU Wy AC DI) as (f & J & HC & WJ & HG & HJ). set (n := length (sm_cfs m)) in *.
  exists J. split; auto. split; auto. intros e He.
  assert (X : exists d0, (0 < d0)%R /\ forall t d, t < T -> (0 < d <= d0)%R -> forall k q, k < n -> q < P -> forall dl, dl <> 0%R -> (Rabs dl < d)%R ->
    (Rabs ((f k (bump T P y t q dl) - f k y) / dl - get3 0%R J t k q) < e)%R /\
    (Rabs ((f k (bump T P y t q dl) - f k (bump T P y t q (- dl))) / (2 * dl) - get3 0%R J t k q) < e)%R).
  { apply finite_min with (Q := fun t d => forall k q, k < n -> q < P -> forall dl, dl <> 0%R -> (Rabs dl < d)%R -> _ /\ _). intros t Ht.
    destruct (@finite_min n (fun k d => forall q, q < P -> forall dl, dl <> 0%R -> (Rabs dl < d)%R ->
      (Rabs ((f k (bump T P y t q dl) - f k y) / dl - get3 0%R J t k q) < e)%R /\ (Rabs ((f k (bump T P y t q dl) - f k (bump T P y t q (- dl))) / (2 * dl) - get3 0%R J t k q) < e)%R)) as (a & A & HA).
    2:{ exists a. split; auto. intros. eapply HA; eauto. }
    intros k Hk. destruct (@finite_min P (fun q d => forall dl, dl <> 0%R -> (Rabs dl < d)%R ->
      (Rabs ((f k (bump T P y t q dl) - f k y) / dl - get3 0%R J t k q) < e)%R /\ (Rabs ((f k (bump T P y t q dl) - f k (bump T P y t q (- dl))) / (2 * dl) - get3 0%R J t k q) < e)%R)) as (a & A & HA).
    2:{ exists a. split; auto. intros. eapply HA; eauto. }
    intros q Hq. destruct (@quotients_close T P (f k) y t q (get3 0%R J t k q) e Wy) as (b & B & HB); auto.
    { exact (@has_gradient_partial T P (f k) y _ t q Wy Ht Hq (HG k Hk)). }
    exists b. split; auto. intros d [D1 D2] dl N L. apply HB; auto. lra. }
  destruct X as (d0 & D0 & HX). exists d0. split; auto. intros p w delta sym SI PU N L.
  destruct (@numeric_entries RField rexp la eps m w0 w p y T P n f delta sym SU SI PU Wy HC) as (w' & G & E & WG & EG).
  exists w', G. split; auto. split; auto. intros t k q Ht Hk Hq.
  assert (X := EG t k q _ _ Ht Hk Hq (bump_moved T P y t q delta) (bump_moved T P y t q (- delta)%R)).
  destruct (HX t d0 Ht (conj D0 (Rle_refl _)) k q Hk Hq delta N L) as [H1 H2].
  change (get3 0%R G t k q) with (get3 (k0 : RField) G t k q). rewrite X. destruct sym.
  - refine (eq_ind _ (fun z => (Rabs (z - get3 0%R J t k q) < e)%R) H2 _ _). cbn. unfold Rminus, Rdiv. f_equal. f_equal. f_equal. lra.
  - exact H1.
Qed.

(** ---- norms ---- *)
Lemma Rsum_app n m f : Rsum (n + m) f = (Rsum n f + Rsum m (fun i => f (n + i)%nat))%R.
Proof. induction m; cbn [Rsum]; [rewrite Nat.add_0_r; lra|]. rewrite <- plus_n_Sm. cbn [Rsum]. rewrite IHm. lra. Qed.
Lemma Rsum_flat m n f : Rsum (m * n) f = Rsum m (fun i => Rsum n (fun j => f (i * n + j)%nat)).
Proof. induction m; cbn [Rsum]; auto. rewrite <- IHm. replace (S m * n)%nat with (m * n + n)%nat by lia. apply Rsum_app. Qed.
Lemma Rsum_S_l n f : Rsum (S n) f = (f 0%nat + Rsum n (fun i => f (S i)))%R.
Proof. induction n; cbn [Rsum] in *; [lra|]. rewrite IHn. lra. Qed.
Lemma fold_squares (l : list R) a : fold_left (fun s x => (s + x * x)%R) l a = (a + Rsum (length l) (fun i => nth i l 0 * nth i l 0))%R.
Proof.
  revert a. induction l as [|x l IH]; intros a; [cbn; lra|]. cbn [fold_left]. rewrite IH. cbn [length]. rewrite Rsum_S_l. cbn [nth]. lra.
Qed.
Lemma norm_frobenius T n P (a : RA) : wfa [T; n; P] a -> @np_norm RField sqrt a = frobenius T n P (get3 0%R a).
Proof.
  intros W. unfold np_norm, frobenius. f_equal. refine (eq_trans (fold_squares (data a) 0%R) _). rewrite (proj2 W), Rplus_0_l.
  cbn [prodn]. rewrite Nat.mul_1_r. rewrite Rsum_flat. apply Rsum_ext. intros t Ht. rewrite Rsum_flat. apply Rsum_ext. intros k Hk. apply Rsum_ext. intros q Hq.
  unfold get3, getn. rewrite (proj1 W). cbn [ravel prodn]. replace (t * (n * P) + (k * P + q))%nat with (t * (n * (P * 1)) + (k * (P * 1) + (q * 1 + 0)))%nat by lia. reflexivity.
Qed.
Lemma minus_entries T n P (a b : RA) : wfa [T; n; P] a -> wfa [T; n; P] b -> exists d, @np_minus RField a b = Ok d /\ wfa [T; n; P] d /\
  forall t k q, t < T -> k < n -> q < P -> get3 0%R d t k q = (get3 0%R a t k q - get3 0%R b t k q)%R.
Proof.
  intros Wa Wb. unfold np_minus. change (@shape (kcar RField)) with (@shape R). rewrite (proj1 Wa), (proj1 Wb). destruct (list_eq_dec Nat.eq_dec [T; n; P] [T; n; P]) as [_|N]; [|congruence].
  eexists. split; [reflexivity|].
  assert (LM : forall l l' : list R, length l = length l' -> forall i, i < length l -> nth i (map (fun p => (fst p - snd p)%R) (combine l l')) 0%R = (nth i l 0 - nth i l' 0)%R).
  { induction l as [|x l IH]; intros [|x' l'] E i Hi; cbn in *; try lia. destruct i; auto. apply IH; lia. }
  assert (E : length (data a) = length (data b)) by (rewrite (proj2 Wa), (proj2 Wb); auto).
  split.
  - split; [reflexivity|]. cbn [data]. rewrite map_length, combine_length. refine (eq_trans (f_equal (Nat.min (length (data a))) (eq_sym E)) _). rewrite Nat.min_id. apply Wa.
  - intros t k q Ht Hk Hq. unfold get3, getn. cbn [shape data]. rewrite (proj1 Wa), (proj1 Wb).
    refine (LM (data a) (data b) E (ravel [T; n; P] [t; k; q]) _). rewrite (proj2 Wa). apply ravel_lt. now apply vidx3.
Qed.
Lemma Rsum_bound n f b : (forall i, i < n -> (f i <= b)%R) -> (Rsum n f <= INR n * b)%R.
Proof. induction n; intros H; [cbn; lra|]. rewrite S_INR. cbn [Rsum]. assert (X := H n (Nat.lt_succ_diag_r n)). assert (Y : (Rsum n f <= INR n * b)%R) by auto. lra. Qed.
Lemma Rsum_nonneg n f : (forall i, i < n -> (0 <= f i)%R) -> (0 <= Rsum n f)%R.
Proof. induction n; intros H; cbn [Rsum]; [lra|]. assert (X := H n (Nat.lt_succ_diag_r n)). assert (Y : (0 <= Rsum n f)%R) by auto. lra. Qed.
Lemma Rsum_term n f i : (forall i, i < n -> (0 <= f i)%R) -> i < n -> (f i <= Rsum n f)%R.
Proof.
  intros H. induction n; intros Hi; [lia|]. cbn [Rsum]. destruct (Nat.eq_dec i n) as [->|N].
  - assert (0 <= Rsum n f)%R by (apply Rsum_nonneg; auto). lra.
  - assert (X := H n (Nat.lt_succ_diag_r n)). assert (Y : (f i <= Rsum n f)%R) by (apply IHn; auto; lia). lra.
Qed.
Lemma frobenius_nonneg T n P g : (0 <= frobenius T n P g)%R.
Proof. apply sqrt_pos. Qed.
Lemma frobenius_pos T n P g t k q : t < T -> k < n -> q < P -> g t k q <> 0%R -> (0 < frobenius T n P g)%R.
Proof.
  intros Ht Hk Hq N. apply sqrt_lt_R0. assert (SQ : forall x : R, (0 <= x * x)%R) by (intros; nra).
  eapply Rlt_le_trans with (g t k q * g t k q)%R; [nra|].
  eapply Rle_trans; [|apply Rsum_term with (i := t); auto; intros; apply Rsum_nonneg; intros; apply Rsum_nonneg; auto].
  eapply Rle_trans; [|apply Rsum_term with (i := k); auto; intros; apply Rsum_nonneg; auto].
  apply Rsum_term with (f := fun q => (g t k q * g t k q)%R); auto.
Qed.
Lemma frobenius_small T n P g e : (0 < e)%R -> (forall t k q, t < T -> k < n -> q < P -> (Rabs (g t k q) < e / (1 + INR (T * n * P)))%R) -> (frobenius T n P g < e)%R.
Proof.
  intros He H. set (N := INR (T * n * P)) in *. assert (HN : (0 <= N)%R) by apply pos_INR. set (b := (e / (1 + N))%R) in *.
  assert (Hb : (0 < b)%R) by (apply Rdiv_lt_0_compat; lra). assert (Eb : (e = (1 + N) * b)%R) by (unfold b; field; lra).
  unfold frobenius. rewrite <- (sqrt_square e) by lra. apply sqrt_lt_1_alt. split.
  - apply Rsum_nonneg. intros. apply Rsum_nonneg. intros. apply Rsum_nonneg. intros. nra.
  - apply Rle_lt_trans with (N * (b * b))%R; [|rewrite Eb; nra].
    replace (N * (b * b))%R with (INR T * (INR n * (INR P * (b * b))))%R by (unfold N; rewrite !mult_INR; ring).
    apply Rsum_bound. intros t Ht. apply Rsum_bound. intros k Hk. apply Rsum_bound. intros q Hq. specialize (H t k q Ht Hk Hq). apply Rabs_def2 in H. nra.
Qed.
Lemma frobenius_ext T n P g h : (forall t k q, t < T -> k < n -> q < P -> g t k q = h t k q) -> frobenius T n P g = frobenius T n P h.
Proof. intros H. unfold frobenius. f_equal. apply Rsum_ext. intros. apply Rsum_ext. intros. apply Rsum_ext. intros. now rewrite H. Qed.

(** ---- compare_numeric_to_analytic_gradient ---- *)
Theorem compare_converges (m : sim) (w0 : world) (y : RA) T P : let n := length (sm_cfs m) in
  set_up (F:=RField) la eps m w0 -> sm_numeric m = false -> wfa [T; P] y ->
  (forall y' : RA, wfa [T; P] y' -> accepted (F:=RField) rexp la eps m w0 y') ->
  Forall (fun c => differentiable rexp la eps w0 T P c y) (sm_cfs m) ->
  exists J, wfa [T; n; P] J /\
   (forall p w dl, simulated (F:=RField) rexp la eps m w0 w -> pulse_used (F:=RField) m p y -> exists w', wrapped_jac (F:=RField) rexp la eps m p dl w = (w', Ok J)) /\
   forall e, (0 < e)%R -> exists d0, (0 < d0)%R /\ forall p w delta symmetric dl, simulated (F:=RField) rexp la eps m w0 w -> pulse_used (F:=RField) m p y ->
     delta <> 0%R -> (Rabs delta < d0)%R ->
     exists w1 w2 (G : RA) a r, numeric_gradient (F:=RField) rexp la eps m p delta symmetric w = (w1, Ok G) /\
      @compare_gradients RField rexp la eps sqrt m p delta symmetric dl w = (w2, Ok (a, r)) /\ simulated (F:=RField) rexp la eps m w0 w2 /\
      a = frobenius T n P (fun t k q => get3 0%R G t k q - get3 0%R J t k q)%R /\ (a < e)%R /\
      ((exists t k q, t < T /\ k < n /\ q < P /\ get3 0%R J t k q <> 0%R) ->
        r = (a / ((frobenius T n P (get3 0%R G) + frobenius T n P (get3 0%R J)) / 2))%R /\ (0 <= r < e)%R).
Proof.
  intros n SU NU Wy AC DI. destruct (numeric_converges SU NU Wy AC DI) as (J & WJ & HJ & HN). fold n in WJ, HN.
  exists J. split; auto. split; auto. intros e He.
  set (N := INR (T * n * P)). assert (PN : (0 <= N)%R) by apply pos_INR. set (fJ := frobenius T n P (get3 0%R J)). assert (PJ : (0 <= fJ)%R) by apply frobenius_nonneg.
  set (e2 := if Rlt_dec 0 fJ then Rmin e (e * fJ / 2) else e).
  assert (E2 : (0 < e2)%R). { unfold e2. destruct (Rlt_dec 0 fJ) as [H|H]; auto. apply Rmin_pos; auto. assert (0 < e * fJ)%R by (now apply Rmult_lt_0_compat). lra. }
  destruct (HN (e2 / (1 + N))%R) as (d0 & D0 & HD); [apply Rdiv_lt_0_compat; lra|]. exists d0. split; auto. intros p w delta sym dl SI PU Nd Ld.
  destruct (HD p w delta sym SI PU Nd Ld) as (w1 & G & EG & WG & CG). assert (S1 := @numeric_keeps m w0 w w1 p delta sym G SI EG).
  destruct (HJ p w1 dl S1 PU) as (w2 & EJ). destruct (@minus_entries T n P G J WG WJ) as (d & Ed & Wd & Hd).
  assert (Fd : @np_norm RField sqrt d = frobenius T n P (fun t k q => get3 0%R G t k q - get3 0%R J t k q)%R) by (rewrite (norm_frobenius Wd); now apply frobenius_ext).
  set (a := @np_norm RField sqrt d : R). assert (La : (a < e2)%R) by (unfold a; rewrite Fd; apply frobenius_small; auto).
  assert (Pa : (0 <= a)%R) by (unfold a; rewrite Fd; apply frobenius_nonneg).
  exists w1, w2, G, a, (2 * a / (frobenius T n P (get3 0%R G) + fJ))%R. split; auto. split; [|split; [eapply sim_jac; eauto|split; [exact Fd|split]]].
  - unfold compare_gradients. unfold wbind at 1. rewrite EG. unfold wbind at 1. rewrite EJ. unfold wret. rewrite Ed. cbn [bind].
    f_equal. f_equal. f_equal. rewrite (norm_frobenius WG), (norm_frobenius WJ). fold fJ. fold a. cbn. unfold Rdiv. f_equal. f_equal. lra.
  - eapply Rlt_le_trans; [exact La|]. unfold e2. destruct (Rlt_dec 0 fJ); [apply Rmin_l|lra].
  - intros (t & k & q & Ht & Hk & Hq & NZ). assert (QJ : (0 < fJ)%R) by (eapply frobenius_pos; eauto).
    assert (PG : (0 <= frobenius T n P (get3 0%R G))%R) by apply frobenius_nonneg. set (fG := frobenius T n P (get3 0%R G)) in *.
    split; [match goal with |- ?x = ?y => change (@eq R x y) end; field; lra|]. split; [apply Rmult_le_pos; [lra|]; left; apply Rinv_0_lt_compat; lra|].
    assert (L2 : (a < e * fJ / 2)%R). { eapply Rlt_le_trans; [exact La|]. unfold e2. destruct (Rlt_dec 0 fJ); [apply Rmin_r|lra]. }
    apply Rmult_lt_reg_r with (fG + fJ)%R; [lra|]. unfold Rdiv. rewrite Rmult_assoc, Rinv_l, Rmult_1_r by lra. nra.
Qed.
End Check.
