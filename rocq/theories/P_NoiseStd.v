(** Proofs about the correction of the standard deviations (C58). *)
Require Import List Arith Bool Lia Field.
From Verif Require Import LibBase LibRing LibArr LibCplx LibNorm LibSum M_Noise S_Noise P_Noise.
Import ListNotations.
Open Scope k_scope.
Set Implicit Arguments.

Lemma setn_length A (l : list A) i x : length (setn l i x) = length l.
Proof.
  unfold setn. rewrite app_length, firstn_length. pose proof (skipn_length i l) as H. destruct (skipn i l) eqn:E; simpl in *; lia.
Qed.
Lemma setn_nth A (l : list A) i j x d : nth j (setn l i x) d = if Nat.eqb j i && Nat.ltb i (length l) then x else nth j l d.
Proof.
  revert i j. induction l as [|y l IH]; intros i j; [destruct i, j; simpl; rewrite ?andb_false_r; reflexivity|].
  destruct i, j; simpl; auto. specialize (IH i j). unfold setn in IH. rewrite IH. reflexivity.
Qed.
Lemma setn_nth_error A (l : list A) i j x : nth_error (setn l i x) j = if Nat.eqb j i && Nat.ltb i (length l) then Some x else nth_error l j.
Proof.
  revert i j. induction l as [|y l IH]; intros i j; [destruct i, j; simpl; rewrite ?andb_false_r; reflexivity|].
  destruct i, j; simpl; auto. specialize (IH i j). unfold setn in IH. rewrite IH. reflexivity.
Qed.

Section Proofs.
Variable F : OField.
Variables erfinv sqrt : F -> F.
Variable sqrt2 : F.
Variable rnd : nat -> F.
Variable root : nat -> cplx F.
Add Field Kfield_ns : (k_field F).
Local Notation Sum n f := (sumn (S:=KStar F) n f).
Local Notation gauss := (gauss erfinv sqrt2).
Local Notation sample := (sample erfinv sqrt2).
Local Notation noise_samples := (noise_samples erfinv sqrt sqrt2 rnd root).
Local Notation n_traces := (n_traces erfinv sqrt sqrt2 rnd root).
Local Notation correct := (correct erfinv sqrt sqrt2 rnd root).
Local Notation new_quasi_static := (new_quasi_static erfinv sqrt sqrt2 rnd root).

Lemma kpos_mul (x y : F) : 0 < x -> 0 < y -> 0 < x * y.
Proof.
  intros X Y. apply kle_lt_eq. { apply (@kmul_nonneg F); now apply klt_le. } intros E. symmetry in E. apply kmul_eq0 in E. destruct E as [E|E]; [apply (klt_neq X)|apply (klt_neq Y)]; auto.
Qed.
Lemma kpos_add (x y : F) : 0 < x -> 0 < y -> 0 < x + y.
Proof. intros. apply klt_add_pos; auto. now apply klt_le. Qed.
Lemma kpos_div (x y : F) : 0 < x -> 0 < y -> 0 < x / y.
Proof.
  intros X Y. apply kle_lt_eq. { apply kdiv_nonneg; [now apply klt_le|now apply klt_le|]. intros E. now apply (klt_neq Y). }
  intros E. apply (klt_neq X). transitivity (x / y * y). { rewrite <- E. ring. } field. intros E2. now apply (klt_neq Y).
Qed.
Lemma tiny_pos : 0 < (tiny : F).
Proof.
  assert (T : 0 < (ten : F)) by (unfold ten; repeat (apply kpos_add || apply kpos_mul); apply klt_01).
  unfold tiny. apply kpos_div; [apply klt_01|]. generalize 20%nat. intros k. induction k; simpl; [apply klt_01|]. now apply kpos_mul.
Qed.

(** the standard deviation of n samples for standard deviation 1 *)
Definition unit_std (n : nat) : F := np_std sqrt (map (fun j => sample 1 0 n j) (seq 0 n)).
Lemma sample_scale std n j : sample std 0 n j = std * sample 1 0 n j.
Proof. unfold S_Noise.sample. ring. Qed.
Lemma samples_std std n : is_sqrt sqrt -> n <> 0%nat -> 0 <= std -> is_std n (fun j => sample std 0 n j) (std * unit_std n).
Proof.
  intros Q Hn S. apply std_ext with (x := fun j => std * sample 1 0 n j). { intros. now rewrite <- sample_scale. }
  apply std_scale; auto. unfold unit_std. set (l := map (fun j => sample 1 0 n j) (seq 0 n)). assert (L : length l = n) by (unfold l; now rewrite map_length, seq_length).
  rewrite <- L at 1. apply std_ext with (x := fun i => nth i l 0). { intros i Hi. unfold l. rewrite L in Hi. now rewrite nth_map_seq. }
  apply np_std_ok; auto. intros E. rewrite E in L. simpl in L. lia.
Qed.
Lemma gauss_std std n l : is_sqrt sqrt -> 0 <= std -> gauss std n 0 = Ok l -> np_std sqrt l = std * unit_std n.
Proof.
  intros Q S E. destruct (Nat.eq_dec n 0) as [Z|Z]; [subst; discriminate|]. rewrite gauss_ok in E by auto. inversion E; subst l. clear E.
  eapply (std_unique Z); [|apply samples_std; auto]. set (l := map (fun j => sample std 0 n j) (seq 0 n)). assert (L : length l = n) by (unfold l; now rewrite map_length, seq_length).
  rewrite <- L at 1. apply std_ext with (x := fun i => nth i l 0). { intros i Hi. unfold l. rewrite L in Hi. now rewrite nth_map_seq. }
  apply np_std_ok; auto. intros E. rewrite E in L. simpl in L. lia.
Qed.

Lemma set_std_list (w : world F) a i v b : the_list (set_std w a i v) b = if Nat.eqb b a && Nat.ltb a (length (w_lists w)) then setn (the_list w a) i v else the_list w b.
Proof. unfold the_list, set_std. cbn [w_lists]. now rewrite setn_nth. Qed.
Lemma list_in_range (w : world F) a i : (i < length (the_list w a))%nat -> (a < length (w_lists w))%nat.
Proof. unfold the_list. intros H. destruct (Nat.lt_ge_cases a (length (w_lists w))); auto. rewrite nth_overflow in H by auto. simpl in H. lia. Qed.

(** the loop over the standard deviations *)
Lemma correct_ok a n (g : gen F) : is_sqrt sqrt -> g_kind g = QuasiStatic a MDeterministic -> g_ntr g = Some (S n) ->
  forall k b w w' g', (b + k = length (the_list w a))%nat -> (forall i, (i < length (the_list w a))%nat -> 0 < nth i (the_list w a) 0) ->
  correct a (seq b k) g w = ((w', g'), Ok tt) ->
  g' = g /\ w_arrays w' = w_arrays w /\ w_used w' = w_used w /\ length (w_lists w') = length (w_lists w) /\ (forall c, c <> a -> the_list w' c = the_list w c) /\ length (the_list w' a) = length (the_list w a) /\
  (k <> 0%nat -> 0 < unit_std (S n * length (the_list w a))) /\
  forall i, nth i (the_list w' a) 0 = if Nat.leb b i && Nat.ltb i (b + k) then nth i (the_list w a) 0 / unit_std (S n * length (the_list w a)) else nth i (the_list w a) 0.
Proof.
  intros Q K N. induction k as [|k IH]; intros b w w' g' L P E.
  - simpl in E. inversion E; subst. repeat split; auto; try lia. intros i. replace (Nat.leb b i && Nat.ltb i (b + 0)) with false; auto.
    symmetry. apply andb_false_iff. destruct (Nat.leb_spec b i); auto. right. apply Nat.ltb_ge. lia.
  - cbn [seq M_Noise.correct] in E. unfold M_Noise.n_traces in E. rewrite N, K in E. cbn [truthy] in E. set (l := the_list w a) in *. set (m := (S n * length l)%nat) in *.
    assert (Pb : 0 < nth b l 0) by (apply P; lia).
    destruct (gauss (nth b l 0) m 0) as [s|e] eqn:G; [|discriminate]. rewrite (@gauss_std (nth b l 0) m s Q (@klt_le F 0 (nth b l 0) Pb) G) in E.
    destruct (kltb (nth b l 0 * unit_std m) tiny) eqn:T; [discriminate|].
    assert (U : 0 < unit_std m).
    { destruct (kle_dec (unit_std m) 0) as [U|U]; auto. exfalso. unfold kltb in T. apply negb_false_iff in T. apply (proj1 (klt_nle F _ _) tiny_pos).
      apply kle_tr with (y := nth b l 0 * unit_std m); auto. apply (@kle_of_sub F). replace (0 - nth b l 0 * unit_std m) with (nth b l 0 * - unit_std m) by ring.
      apply (@kmul_nonneg F); [now apply klt_le|]. now apply kopp_nonneg. }
    assert (U0 : unit_std m <> 0) by (intros X; now apply (klt_neq U)). assert (Pb0 : nth b l 0 <> 0) by (intros X; now apply (klt_neq Pb)).
    replace (nth b l 0 * (nth b l 0 / (nth b l 0 * unit_std m))) with (nth b l 0 / unit_std m) in E by (field; auto).
    set (w1 := set_std w a b (nth b l 0 / unit_std m)) in *.
    assert (A : (a < length (w_lists w))%nat) by (apply (@list_in_range w a b); fold l; lia).
    assert (L1 : the_list w1 a = setn l b (nth b l 0 / unit_std m)). { unfold w1. rewrite set_std_list, Nat.eqb_refl. destruct (Nat.ltb_spec a (length (w_lists w))); [reflexivity|lia]. }
    assert (L1n : length (the_list w1 a) = length l) by (now rewrite L1, setn_length).
    assert (L1x : forall i, nth i (the_list w1 a) 0 = if Nat.eqb i b then nth b l 0 / unit_std m else nth i l 0).
    { intros i. rewrite L1, setn_nth. destruct (Nat.ltb_spec b (length l)); [|lia]. now rewrite andb_true_r. }
    assert (C : g' = g /\ w_arrays w' = w_arrays w1 /\ w_used w' = w_used w1 /\ length (w_lists w') = length (w_lists w1) /\ (forall c, c <> a -> the_list w' c = the_list w1 c) /\ length (the_list w' a) = length (the_list w1 a) /\
      (k <> 0%nat -> 0 < unit_std (S n * length (the_list w1 a))) /\
      forall i, nth i (the_list w' a) 0 = if Nat.leb (S b) i && Nat.ltb i (S b + k) then nth i (the_list w1 a) 0 / unit_std (S n * length (the_list w1 a)) else nth i (the_list w1 a) 0).
    { apply IH; auto. lia. intros i Hi. rewrite L1x. destruct (Nat.eqb i b); [now apply kpos_div|]. apply P. lia. }
    destruct C as (C1 & C2 & C3 & C4 & C5 & C6 & C7 & C8). repeat split; auto.
    + rewrite C4. unfold w1, set_std. cbn [w_lists]. apply setn_length.
    + intros c Hc. rewrite C5 by auto. unfold w1. rewrite set_std_list. destruct (Nat.eqb_spec c a); [congruence|reflexivity].
    + lia.
    + intros i. rewrite C8, L1n, !L1x. fold m. destruct (Nat.leb_spec (S b) i) as [B|B].
      * destruct (Nat.leb_spec b i); [|lia]. replace (b + S k)%nat with (S b + k)%nat by lia. cbn [andb]. destruct (Nat.eqb_spec i b); [lia|]. reflexivity.
      * cbn [andb]. destruct (Nat.eqb_spec i b) as [X|X].
        -- subst i. rewrite Nat.leb_refl. destruct (Nat.ltb_spec b (b + S k)); [reflexivity|lia].
        -- destruct (Nat.leb_spec b i); [lia|]. reflexivity.
Qed.

(** construction with correction: the list of the caller *)
Theorem corrected_list stds nsamp n samples redraw w w' g : is_sqrt sqrt -> (forall i, (i < length (the_list w stds))%nat -> 0 < nth i (the_list w stds) 0) ->
  new_quasi_static stds nsamp (Some (S n)) samples redraw true MDeterministic w = (w', Ok g) ->
  g = mkgen samples nsamp (Some (S n)) (Some (length (the_list w stds))) redraw (QuasiStatic stds MDeterministic) /\
  length (the_list w' stds) = length (the_list w stds) /\ (the_list w stds <> [] -> 0 < unit_std (S n * length (the_list w stds))) /\
  forall i, (i < length (the_list w stds))%nat -> nth i (the_list w' stds) 0 = nth i (the_list w stds) 0 / unit_std (S n * length (the_list w stds)).
Proof.
  intros Q P E. unfold M_Noise.new_quasi_static in E. set (l := the_list w stds) in *. set (g0 := mkgen samples nsamp (Some (S n)) (Some (length l)) redraw (QuasiStatic stds MDeterministic)) in *.
  unfold M_Noise.n_traces in E. cbn [g_ntr g0 truthy g_kind] in E. fold l in E. destruct (Nat.eqb (S n * length l) 1); [discriminate|].
  destruct (correct stds (seq 0 (length l)) g0 w) as [[w1 g1] [[]|e]] eqn:C; [|discriminate]. inversion E; subst w1 g1. clear E.
  destruct (@correct_ok stds n g0 Q eq_refl eq_refl (length l) 0%nat w w' g eq_refl P C) as (C1 & _ & _ & _ & _ & C6 & C7 & C8).
  split; auto. split; auto. split.
  - intros NE. apply C7. destruct l; simpl; [congruence|lia].
  - intros i Hi. rewrite C8. simpl. destruct (Nat.ltb_spec i (length l)); [reflexivity|lia].
Qed.

(** the standard deviation of what an operator gets *)
Theorem corrected_std stds t n samples redraw w w1 w2 g g' a : is_sqrt sqrt -> (forall i, (i < length (the_list w stds))%nat -> 0 < nth i (the_list w stds) 0) ->
  new_quasi_static stds (Some t) (Some (S n)) samples redraw true MDeterministic w = (w1, Ok g) -> drawn g ->
  noise_samples g w1 = ((w2, g'), Ok a) ->
  exists s u u', is_std (S n) (fun j => sample 1 0 (S n) j) u /\ is_std (S n * length (the_list w stds)) (fun j => sample 1 0 (S n * length (the_list w stds)) j) u' /\
   quasi_static (get3 0 (the_array w2 a)) (length (the_list w stds)) (S n) (S n * length (the_list w stds)) t s /\
   forall i, (i < length (the_list w stds))%nat -> exists d, is_std (S n) (s i) d /\ 0 < u' /\ d * u' = nth i (the_list w stds) 0 * u.
Proof.
  intros Q P E D R. set (l := the_list w stds) in *. destruct (@corrected_list _ _ _ _ _ _ _ _ Q P E) as (G & L & U & X). fold l in G, L, U, X. assert (K : g_kind g = QuasiStatic stds MDeterministic) by (rewrite G; reflexivity).
  destruct (@deterministic_traces F erfinv sqrt sqrt2 rnd root stds _ _ _ _ _ K D R) as (n' & t' & N & T & _ & QS & _). rewrite G in N, T. cbn [g_ntr g_nsamp] in N, T. inversion N; inversion T; subst n' t'. rewrite L in QS.
  assert (S1 : forall m, m <> 0%nat -> is_std m (fun j => sample 1 0 m j) (unit_std m)).
  { intros m Hm. apply std_ext with (x := fun j => sample 1 0 m j); auto. replace (unit_std m) with (1 * unit_std m) by ring. apply samples_std; auto. apply k01. }
  destruct (Nat.eq_dec (length l) 0) as [Z|Z].
  - exists (fun i j => sample (nth i (the_list w1 stds) 0) 0 (S n) j), (unit_std (S n)), 0. split; [apply S1; lia|]. split; [|split; [exact QS|intros; lia]].
    rewrite Z, Nat.mul_0_r. split; [apply kle_refl|]. exists 0. split; [red|]; simpl; ring.
  - exists (fun i j => sample (nth i (the_list w1 stds) 0) 0 (S n) j), (unit_std (S n)), (unit_std (S n * length l)). split; [apply S1; lia|]. split; [apply S1; lia|]. split; [exact QS|].
    intros i Hi. exists (nth i (the_list w1 stds) 0 * unit_std (S n)). assert (U' : 0 < unit_std (S n * length l)) by (apply U; intros Y; rewrite Y in Z; simpl in Z; lia).
    rewrite X by auto. assert (U0 : unit_std (S n * length l) <> 0) by (intros Y; now apply (klt_neq U')). split; [|split; auto].
    + apply samples_std; auto. apply klt_le. apply kpos_div; auto.
    + field. auto.
Qed.
Theorem corrected_one stds t n samples redraw w w1 w2 g g' a std : is_sqrt sqrt -> the_list w stds = [std] -> 0 < std ->
  new_quasi_static stds (Some t) (Some (S n)) samples redraw true MDeterministic w = (w1, Ok g) -> drawn g ->
  noise_samples g w1 = ((w2, g'), Ok a) ->
  exists s, quasi_static (get3 0 (the_array w2 a)) 1 (S n) (S n) t s /\ is_std (S n) (s 0%nat) std.
Proof.
  intros Q L P E D R. assert (P' : forall i, (i < length (the_list w stds))%nat -> 0 < nth i (the_list w stds) 0) by (rewrite L; intros [|i] Hi; simpl in *; [auto|lia]).
  destruct (@corrected_std _ _ _ _ _ _ _ _ _ _ _ Q P' E D R) as (s & u & u' & U & U' & QS & X). rewrite L in *. cbn [length] in *. rewrite Nat.mul_1_r in *. exists s. split; auto.
  destruct (X 0%nat ltac:(lia)) as (d & S1 & U1 & E1). cbn [nth] in E1. assert (EU : u = u') by (apply (@std_unique F (S n) (fun j => sample 1 0 (S n) j)); [lia|exact U|exact U']). subst u'. assert (U0 : u <> 0) by (intros Y; now apply (klt_neq U1)).
  replace std with d; auto. transitivity (d * u / u); [field; auto|]. rewrite E1. field; auto.
Qed.

(** ---- several operators: the standard deviation is estimated for another number of samples ---- *)
(** with one trace per operator there is no noise at all *)
Lemma sample_single std : odd erfinv -> sample std 0 1 0 = 0.
Proof.
  intros O. unfold S_Noise.sample. assert (E : erfinv (kofnat (2 * 0 + 1) / kofnat 1 - 1) = 0).
  { replace (kofnat (2 * 0 + 1) / kofnat 1 - 1) with (0 : F) by (cbn [kofnat Nat.mul Nat.add]; field; try apply k1_neq_0).
    assert (X : erfinv 0 = - erfinv 0) by (rewrite <- O; f_equal; ring). assert (Y : (1 + 1) * erfinv 0 = 0) by (rewrite X at 1; replace ((1 + 1) * - erfinv 0) with (- erfinv 0 + - erfinv 0) by ring; rewrite <- X at 2; ring).
    apply kmul_eq0 in Y. destruct Y as [Y|Y]; auto. exfalso. now apply (two_neq0 F). }
  rewrite E. ring.
Qed.
Lemma unit_std_2 : is_sqrt sqrt -> odd erfinv -> 0 < sqrt2 -> positive erfinv -> unit_std 2 = sqrt2 * erfinv (1 / (1 + 1)).
Proof.
  intros Q O S P. assert (T0 := two_neq0 F). assert (P2 : 0 < (1 + 1 : F)) by (apply kpos_add; apply klt_01).
  assert (H : is_std 2 (fun j => sample 1 0 2 j) (1 * unit_std 2)) by (apply samples_std; auto; apply k01).
  replace (unit_std 2) with (1 * unit_std 2) by ring. apply (@std_unique F 2 (fun j => sample 1 0 2 j)); [lia|exact H|].
  assert (E1 : kofnat (2 * 1 + 1) / kofnat 2 - 1 = 1 / (1 + 1 : F)). { cbn [kofnat Nat.mul Nat.add]. field; auto. }
  assert (E0 : kofnat (2 * 0 + 1) / kofnat 2 - 1 = - (1 / (1 + 1 : F))). { cbn [kofnat Nat.mul Nat.add]. field; auto. }
  set (c := 1 / (1 + 1 : F)) in *. split.
  - apply (@kmul_nonneg F); apply klt_le; auto. apply P; unfold c; [apply kpos_div; auto; apply klt_01|]. apply kle_lt_eq.
    + apply kle_div_1; auto; try (now apply klt_le). apply kle_add_l. apply k01.
    + intros X. apply (@k1_neq_0 F). transitivity ((1 / (1 + 1)) * (1 + 1) - (1 : F)); [rewrite X; ring|]. field; auto.
  - exists 0. split; [apply sample_mean; auto|]. cbn [sumn]. unfold S_Noise.sample. rewrite E0, E1, O. simpl. ring.
Qed.
Theorem single_trace_zero a t s1 s2 redraw w : is_sqrt sqrt -> odd erfinv -> 0 < sqrt2 -> positive erfinv -> the_list w a = [s1; s2] -> t <> 0%nat ->
  0 < s1 -> 0 < s2 -> tiny <= s1 * (sqrt2 * erfinv (1 / (1 + 1))) -> tiny <= s2 * (sqrt2 * erfinv (1 / (1 + 1))) ->
  exists w1 g, new_quasi_static a (Some t) (Some 1%nat) None redraw true MDeterministic w = (w1, Ok g) /\
   forall w2 g' b, noise_samples g w1 = ((w2, g'), Ok b) -> wfa [2; 2; t]%nat (the_array w2 b) /\
    forall i j k, (i < 2)%nat -> (j < 2)%nat -> (k < t)%nat -> get3 0 (the_array w2 b) i j k = 0.
Proof.
  intros Q O S P L T P1 P2 T1 T2.
  assert (U2 := unit_std_2 Q O S P). assert (A : (a < length (w_lists w))%nat) by (apply (@list_in_range w a 0%nat); rewrite L; simpl; lia).
  assert (AB : Nat.eqb a a && Nat.ltb a (length (w_lists w)) = true) by (rewrite Nat.eqb_refl; simpl; now apply Nat.ltb_lt).
  assert (H : exists w1 g, new_quasi_static a (Some t) (Some 1%nat) None redraw true MDeterministic w = (w1, Ok g)).
  { unfold M_Noise.new_quasi_static. rewrite L. set (g := mkgen _ _ _ _ _ _). unfold M_Noise.n_traces. cbn [g g_ntr g_kind truthy]. rewrite L. cbn [length Nat.mul Nat.add Nat.eqb].
    cbn [seq M_Noise.correct]. unfold M_Noise.n_traces at 1. cbn [g g_ntr g_kind truthy]. rewrite L. cbn [length Nat.mul Nat.add nth].
    rewrite gauss_ok by lia. rewrite (@gauss_std s1 2 _ Q (@klt_le F 0 s1 P1) (@gauss_ok F erfinv sqrt2 s1 2 0 ltac:(lia))). rewrite U2.
    unfold kltb. rewrite T1. cbn [negb]. match goal with |- context [set_std w a 0 ?x] => set (v := x) end.
    assert (L1 : the_list (set_std w a 0 v) a = [v; s2]) by (rewrite set_std_list, AB, L; reflexivity).
    unfold M_Noise.n_traces at 1. cbn [g g_ntr g_kind truthy]. rewrite L1. cbn [length Nat.mul Nat.add nth].
    rewrite gauss_ok by lia. rewrite (@gauss_std s2 2 _ Q (@klt_le F 0 s2 P2) (@gauss_ok F erfinv sqrt2 s2 2 0 ltac:(lia))). rewrite U2, T2. cbn [negb]. eauto. }
  destruct H as (w1 & g & E). exists w1, g. split; auto. intros w2 g' b R.
  assert (PP : forall i, (i < length (the_list w a))%nat -> 0 < nth i (the_list w a) 0) by (rewrite L; intros [|[|i]] Hi; simpl in *; [auto|auto|lia]).
  destruct (@corrected_list _ _ _ _ _ _ _ _ Q PP E) as (G & LL & _ & _). assert (K : g_kind g = QuasiStatic a MDeterministic) by (rewrite G; reflexivity). assert (D : drawn g) by (left; rewrite G; reflexivity).
  destruct (@deterministic_traces F erfinv sqrt sqrt2 rnd root a _ _ _ _ _ K D R) as (n' & t' & N & T' & W & QS & _). rewrite G in N, T'. cbn [g_ntr g_nsamp] in N, T'. inversion N; inversion T'; subst n' t'. rewrite LL, L in *. cbn [length] in *. rewrite Nat.mul_1_l in *.
  split; auto. intros i j k Hi Hj Hk. destruct QS as (_ & _ & QS). destruct (QS i Hi) as (p & B1 & B2 & B3 & B4). destruct (Nat.eq_dec (p 0%nat) j) as [X|X].
  - subst j. rewrite B3 by lia. now apply sample_single.
  - apply B4; auto. intros m Hm. replace m with 0%nat by lia. auto.
Qed.

(** two operators, two traces each: the noise is too small *)
Theorem two_operators_small a t samples redraw w w1 w2 g g' b s1 s2 : is_sqrt sqrt -> odd erfinv -> 0 < sqrt2 -> positive erfinv -> midpoint_convex erfinv ->
  the_list w a = [s1; s2] -> 0 < s1 -> 0 < s2 ->
  new_quasi_static a (Some t) (Some 2%nat) samples redraw true MDeterministic w = (w1, Ok g) -> drawn g ->
  noise_samples g w1 = ((w2, g'), Ok b) ->
  exists s d1 d2, quasi_static (get3 0 (the_array w2 b)) 2 2 4 t s /\ is_std 2 (s 0%nat) d1 /\ is_std 2 (s 1%nat) d2 /\ d1 < s1 /\ d2 < s2.
Proof.
  intros Q O S P C L P1 P2 E D R.
  assert (PP : forall i, (i < length (the_list w a))%nat -> 0 < nth i (the_list w a) 0) by (rewrite L; intros [|[|i]] Hi; simpl in *; [auto|auto|lia]).
  destruct (@corrected_std _ _ _ _ _ _ _ _ _ _ _ Q PP E D R) as (s & u & u' & U & U' & QS & X). rewrite L in *. cbn [length Nat.mul Nat.add] in *.
  destruct (X 0%nat ltac:(lia)) as (d1 & D1 & UP & E1). destruct (X 1%nat ltac:(lia)) as (d2 & D2 & _ & E2). cbn [nth] in E1, E2. exists s, d1, d2. split; auto. split; auto. split; auto.
  (* u < u' *)
  assert (LT : u < u').
  { set (x := 1 / (1 + 1) : F). set (q := x / (1 + 1)). assert (T0 := two_neq0 F). assert (TP : 0 < (1 + 1 : F)) by (apply kpos_add; apply klt_01).
    assert (X0 : 0 < x) by (apply kpos_div; auto; apply klt_01). assert (Q0 : 0 < q) by (now apply kpos_div).
    assert (LT1 : forall y z : F, 0 < z -> y + z = 1 -> y < 1). { intros y z Z YZ. apply klt_le_nle. intros B. apply (proj1 (klt_nle F _ _) Z). apply (@kle_of_sub F). replace (0 - z) with (y - 1) by (rewrite <- YZ; ring). now apply ksub_nonneg. }
    assert (XX : x + x = 1) by (unfold x; field; auto). assert (QQ : q + q = x) by (unfold q; field; auto).
    assert (CV := C q (x + q) (@klt_le F 0 q Q0)).
    assert (CV1 : q < x + q). { apply klt_le_nle. intros B. apply (proj1 (klt_nle F _ _) X0). apply (@kle_of_sub F). replace (0 - x) with (q - (x + q)) by ring. now apply ksub_nonneg. }
    assert (CV2 : x + q < 1) by (apply LT1 with (z := q); auto; rewrite <- XX, <- QQ; ring).
    specialize (CV CV1 CV2). replace ((q + (x + q)) / (1 + 1)) with x in CV by (rewrite <- QQ; field; auto).
    set (c := erfinv x) in *. set (e := erfinv q) in *. set (f := erfinv (x + q)) in *.
    assert (C0 : 0 < c) by (apply P; auto; apply LT1 with (z := x); auto).
    assert (U2 : u * u = sqrt2 * c * (sqrt2 * c)).
    { assert (Y : unit_std 2 = u). { replace (unit_std 2) with (1 * unit_std 2) by ring. apply (@std_unique F 2 (fun j => sample 1 0 2 j)); [lia| |exact U]. apply samples_std; auto. apply k01. }
      rewrite <- Y, unit_std_2 by auto. reflexivity. }
    assert (U4 : u' * u' = sqrt2 * sqrt2 * (e * e + f * f) / (1 + 1)).
    { destruct U' as (_ & m & M & SD). assert (M0 : m = 0) by (apply (@mean_unique F 4 (fun j => sample 1 0 4 j)); [lia|exact M|now apply sample_mean]). subst m.
      cbn [sumn] in SD. unfold S_Noise.sample in SD.
      assert (K4 : (kofnat 4 : F) = (1 + 1) * (1 + 1)) by (cbn [kofnat]; ring).
      assert (Z0 : kofnat (2 * 0 + 1) / kofnat 4 - 1 = - (x + q)). { rewrite K4. cbn [kofnat Nat.mul Nat.add]. unfold q, x. field. repeat split; try exact T0; intros Y; apply kmul_eq0 in Y; destruct Y; now apply T0. }
      assert (Z1 : kofnat (2 * 1 + 1) / kofnat 4 - 1 = - q). { rewrite K4. cbn [kofnat Nat.mul Nat.add]. unfold q, x. field. repeat split; try exact T0; intros Y; apply kmul_eq0 in Y; destruct Y; now apply T0. }
      assert (Z2 : kofnat (2 * 2 + 1) / kofnat 4 - 1 = q). { rewrite K4. cbn [kofnat Nat.mul Nat.add]. unfold q, x. field. repeat split; try exact T0; intros Y; apply kmul_eq0 in Y; destruct Y; now apply T0. }
      assert (Z3 : kofnat (2 * 3 + 1) / kofnat 4 - 1 = x + q). { rewrite K4. cbn [kofnat Nat.mul Nat.add]. unfold q, x. field. repeat split; try exact T0; intros Y; apply kmul_eq0 in Y; destruct Y; now apply T0. }
      rewrite Z0, Z1, Z2, Z3, !O in SD. fold e f in SD. rewrite K4 in SD. simpl in SD. assert (T4 : (1 + 1) * (1 + 1) <> (0 : F)) by (intros Y; apply kmul_eq0 in Y; destruct Y; now apply T0).
      transitivity ((1 + 1) * (1 + 1) * (u' * u') / ((1 + 1) * (1 + 1))); [field; exact T4|]. rewrite SD. field. repeat split; first [exact T0|exact T4]. }
    apply klt_le_nle. intros B. (* u' <= u *)
    assert (UN : 0 <= u') by (now apply klt_le).
    assert (BB : u' * u' <= u * u). { apply kle_tr with (y := u' * u); [now apply kle_mul_l|]. replace (u' * u) with (u * u') by ring. apply kle_mul_l; auto. apply kle_tr with (y := u'); auto. }
    rewrite U2, U4 in BB. 
    assert (B2 : sqrt2 * sqrt2 * (e * e + f * f) <= sqrt2 * sqrt2 * ((1 + 1) * (c * c))).
    { apply (@kle_of_sub F). apply ksub_nonneg in BB. replace (sqrt2 * sqrt2 * ((1 + 1) * (c * c)) - sqrt2 * sqrt2 * (e * e + f * f)) with ((1 + 1) * (sqrt2 * c * (sqrt2 * c) - sqrt2 * sqrt2 * (e * e + f * f) / (1 + 1))) by (field; auto). apply (@kmul_nonneg F); auto. now apply klt_le. }
    assert (B3 : e * e + f * f <= (1 + 1) * (c * c)) by (apply kle_cancel with (c := sqrt2 * sqrt2); auto; now apply kpos_mul).
    assert (B4 : (e + f) * (e + f) <= (1 + 1) * c * ((1 + 1) * c)).
    { apply (@kle_of_sub F). replace ((1 + 1) * c * ((1 + 1) * c) - (e + f) * (e + f)) with ((1 + 1) * ((1 + 1) * (c * c) - (e * e + f * f)) + (e - f) * (e - f)) by ring.
      apply (@kadd_nonneg F); [|apply (@ksqr_nonneg F)]. apply (@kmul_nonneg F); [now apply klt_le|]. now apply ksub_nonneg. }
    apply (proj1 (klt_nle F _ _) CV). apply ksqr_le; auto. apply klt_le. now apply kpos_mul. }
  assert (FIN : forall d s0, 0 < s0 -> d * u' = s0 * u -> d < s0).
  { intros d s0 Z Ed. apply klt_le_nle. intros B. apply (proj1 (klt_nle F _ _) LT). apply kle_cancel with (c := s0); auto. rewrite <- Ed. replace (s0 * u') with (u' * s0) by ring. replace (d * u') with (u' * d) by ring. apply kle_mul_l; auto. now apply klt_le. }
  split; [apply FIN|apply FIN]; auto.
Qed.

(** ---- the construction succeeds ---- *)
Lemma unit_pos n : is_sqrt sqrt -> odd erfinv -> 0 < sqrt2 -> positive erfinv -> (2 <= n)%nat -> 0 < unit_std n.
Proof.
  intros Q O S P Hn. assert (Hn0 : n <> 0%nat) by lia. destruct (@samples_std 1 n Q Hn0 (k01 F)) as (U & m & M & E).
  replace (1 * unit_std n) with (unit_std n) in * by ring. apply kle_lt_eq; auto. intros Z. rewrite <- Z in E.
  assert (M0 : m = 0). { apply (@mean_unique F n (fun j => sample 1 0 n j)); auto. now apply sample_mean. } subst m.
  assert (X : (sample 1 0 n (n - 1) - 0) * (sample 1 0 n (n - 1) - 0) = 0).
  { apply (@ksumn_eq0 F n (fun i => (sample 1 0 n i - 0) * (sample 1 0 n i - 0))); [intros; apply (@ksqr_nonneg F)| |lia]. rewrite <- E. simpl. ring. }
  apply ksqr_eq0 in X. unfold S_Noise.sample in X. replace (2 * (n - 1) + 1)%nat with (n + (n - 1))%nat in X by lia. rewrite kofnat_add in X.
  assert (N0 := @kofnat_neq0 F n Hn0). replace ((kofnat n + kofnat (n - 1)) / kofnat n - 1) with (kofnat (n - 1) / kofnat n : F) in X by (field; auto).
  assert (Y : 0 < erfinv (kofnat (n - 1) / kofnat n)).
  { apply P. - apply kpos_div; apply kofnat_pos; lia.
    - apply kle_lt_eq.
      + apply kle_div_1; auto; [apply kofnat_nonneg|]. apply (@kle_of_sub F). rewrite kofnat_sub by lia. replace (kofnat n - (kofnat n - kofnat 1)) with (kofnat 1 : F) by ring. apply kofnat_nonneg.
      + intros W. apply (@k1_neq_0 F). rewrite <- (kofnat_1 F). transitivity (kofnat n * (1 - kofnat (n - 1) / kofnat n) : F); [rewrite kofnat_sub by lia; field; auto|rewrite W; ring]. }
  assert (Y2 : 0 < sqrt2 * erfinv (kofnat (n - 1) / kofnat n)) by (now apply kpos_mul). apply (klt_neq Y2). rewrite <- X. ring.
Qed.
Lemma correct_returns a n (g : gen F) u : is_sqrt sqrt -> g_kind g = QuasiStatic a MDeterministic -> g_ntr g = Some (S n) ->
  forall k b w, (b + k = length (the_list w a))%nat -> unit_std (S n * length (the_list w a)) = u -> (forall i, (b <= i < length (the_list w a))%nat -> 0 <= nth i (the_list w a) 0 /\ tiny <= nth i (the_list w a) 0 * u) ->
  exists w' , correct a (seq b k) g w = ((w', g), Ok tt).
Proof.
  intros Q K N. induction k as [|k IH]; intros b w L U P; [simpl; eauto|].
  cbn [seq M_Noise.correct]. unfold M_Noise.n_traces. rewrite N, K. cbn [truthy]. set (l := the_list w a) in *. set (m := (S n * length l)%nat) in *.
  assert (Pb : 0 <= nth b l 0 /\ tiny <= nth b l 0 * u) by (apply P; lia). destruct Pb as [Pb Tb]. assert (M0 : m <> 0%nat) by (unfold m; lia).
  pose proof (@gauss_ok F erfinv sqrt2 (nth b l 0) m 0 M0) as G. rewrite G. rewrite (@gauss_std (nth b l 0) m _ Q Pb G), U. unfold kltb. rewrite Tb. cbn [negb].
  match goal with |- context [set_std w a b ?x] => set (v := x) end.
  assert (A : (a < length (w_lists w))%nat) by (apply (@list_in_range w a b); fold l; lia).
  assert (L1 : the_list (set_std w a b v) a = setn l b v). { rewrite set_std_list, Nat.eqb_refl. destruct (Nat.ltb_spec a (length (w_lists w))); [reflexivity|lia]. }
  apply IH; rewrite L1, setn_length; auto; [lia|]. intros i Hi. rewrite setn_nth. destruct (Nat.eqb_spec i b); [lia|]. apply P. lia.
Qed.
Theorem corrected_returns stds nsamp n samples redraw w : is_sqrt sqrt -> odd erfinv -> 0 < sqrt2 -> positive erfinv -> (2 <= S n * length (the_list w stds))%nat ->
  exists u, is_std (S n * length (the_list w stds)) (fun j => sample 1 0 (S n * length (the_list w stds)) j) u /\ 0 < u /\
   ((forall i, (i < length (the_list w stds))%nat -> 0 <= nth i (the_list w stds) 0 /\ tiny <= nth i (the_list w stds) 0 * u) ->
    exists w' g, new_quasi_static stds nsamp (Some (S n)) samples redraw true MDeterministic w = (w', Ok g)).
Proof.
  intros Q O S P H. set (N := (Datatypes.S n * length (the_list w stds))%nat) in *. exists (unit_std N). split.
  { pose proof (@samples_std 1 N Q ltac:(lia) (k01 F)) as X. replace (1 * unit_std N) with (unit_std N) in X by ring. exact X. }
  split; [now apply unit_pos|]. intros B. unfold M_Noise.new_quasi_static. set (g := mkgen _ _ _ _ _ _). unfold M_Noise.n_traces. cbn [g g_ntr g_kind truthy]. fold N. destruct (Nat.eqb_spec N 1); [lia|].
  destruct (@correct_returns stds n g (unit_std N) Q eq_refl eq_refl (length (the_list w stds)) 0%nat w eq_refl eq_refl) as (w' & E); [intros i Hi; apply B; lia|].
  rewrite E. eauto.
Qed.
End Proofs.
