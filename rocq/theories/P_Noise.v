(** Proofs about the Gaussian samples and the quasi-static noise (C57, C58). *)
Require Import List Arith Bool Lia Field.
From Verif Require Import LibBase LibRing LibArr LibCplx LibNorm LibSum M_Noise S_Noise.
Import ListNotations.
Open Scope k_scope.
Set Implicit Arguments.

Section Proofs.
Variable F : OField.
Variables erfinv sqrt : F -> F.
Variable sqrt2 : F.
Variable rnd : nat -> F.
Variable root : nat -> cplx F.
Add Field Kfield_no : (k_field F).
Local Notation Sum n f := (sumn (S:=KStar F) n f).
Local Notation gauss := (gauss erfinv sqrt2).
Local Notation sample := (sample erfinv sqrt2).
Local Notation sample_noise := (sample_noise erfinv sqrt sqrt2 rnd root).
Local Notation noise_samples := (noise_samples erfinv sqrt sqrt2 rnd root).
Local Notation n_traces := (n_traces erfinv sqrt sqrt2 rnd root).
Local Notation new_quasi_static := (new_quasi_static erfinv sqrt sqrt2 rnd root).

Lemma kofnat_2 : kofnat 2 = (1 + 1 : F).
Proof. cbn [kofnat]. ring. Qed.
Lemma two_neq0 : (1 + 1 : F) <> 0.
Proof. rewrite <- kofnat_2. apply kofnat_neq0. lia. Qed.
Lemma total_sum (l : list F) : total l = Sum (length l) (fun i => nth i l 0).
Proof.
  unfold total. assert (H : forall a, fold_left kadd l a = a + lsum (S:=KStar F) l).
  { induction l; intros b; simpl; [ring|]. rewrite IHl. simpl. ring. }
  rewrite H, (lsum_nth (KStar F)). simpl. ring.
Qed.

Lemma gauss_ok std n m : n <> 0%nat -> gauss std n m = Ok (map (fun j => sample std m n j) (seq 0 n)).
Proof.
  intros Hn. unfold M_Noise.gauss. destruct (Nat.eqb_spec n 0) as [E|E]; [lia|]. f_equal. apply map_ext_in. intros j Hj. unfold inverse_cumulative, S_Noise.sample.
  replace ((1 + 1) * (kofnat j * (1 / kofnat n) + 0 + 1 / kofnat (2 * n)) - 1) with (kofnat (2 * j + 1) / kofnat n - (1 : F)); [ring|].
  rewrite kofnat_add, !kofnat_mul, kofnat_2, kofnat_1. field. split; [|apply two_neq0]. now apply kofnat_neq0.
Qed.
Lemma gauss_0 std m : gauss std 0 m = Err PyException.
Proof. reflexivity. Qed.

Lemma kofnat_sub n m : (m <= n)%nat -> (kofnat (n - m) : F) = kofnat n - kofnat m.
Proof. intros H. assert (E : (kofnat n : F) = kofnat (n - m) + kofnat m) by (rewrite <- kofnat_add; f_equal; lia). rewrite E. ring. Qed.
Lemma sample_sym std m n j : odd erfinv -> (j < n)%nat -> sample std m n j + sample std m n (n - 1 - j) = (1 + 1) * m.
Proof.
  intros O Hj. unfold S_Noise.sample. replace (kofnat (2 * (n - 1 - j) + 1) / kofnat n - 1) with (- (kofnat (2 * j + 1) / kofnat n - (1 : F))).
  - rewrite O. ring.
  - assert (Hn : (kofnat n : F) <> 0) by (apply kofnat_neq0; lia). rewrite !kofnat_add, !kofnat_mul, kofnat_2, !kofnat_1. rewrite !kofnat_sub by lia. rewrite kofnat_1. field; auto.
Qed.
Lemma sample_mean std m n : odd erfinv -> is_mean n (fun j => sample std m n j) m.
Proof.
  intros O. unfold is_mean. set (g := fun j => sample std m n j). assert (E : Sum n g + Sum n g = (1 + 1) * (kofnat n * m)).
  { rewrite (sumn_rev n g) at 2. rewrite <- sumn_add. rewrite (sumn_ext (S:=KStar F) (n:=n) _ (fun _ => (1 + 1) * m)). 2:{ intros i Hi. apply sample_sym; auto. }
    rewrite (ksumn_const F). ring. }
  transitivity ((Sum n g + Sum n g) / (1 + 1)).
  - rewrite E. field. apply two_neq0.
  - field. apply two_neq0.
Qed.
Theorem gauss_symmetric std n m l : odd erfinv -> gauss std n m = Ok l ->
  length l = n /\ (forall j, (j < n)%nat -> nth j l 0 - m = m - nth (n - 1 - j) l 0) /\ is_mean n (fun j => nth j l 0) m.
Proof.
  intros O E. destruct (Nat.eq_dec n 0) as [Z|Z]; [subst; discriminate|]. rewrite gauss_ok in E by auto. inversion E; subst l.
  assert (N : forall j, (j < n)%nat -> nth j (map (fun j => sample std m n j) (seq 0 n)) 0 = sample std m n j) by (intros; now apply nth_map_seq).
  split; [now rewrite map_length, seq_length|]. split.
  - intros j Hj. rewrite !N by lia. pose proof (sample_sym std m O Hj) as H. replace (sample std m n j) with ((1 + 1) * m - sample std m n (n - 1 - j)) by (rewrite <- H; ring). ring.
  - red. rewrite (sumn_ext (S:=KStar F) (n:=n) _ (fun j => sample std m n j)) by (intros; now apply N). apply sample_mean; auto.
Qed.

(** ---- standard deviation ---- *)
Lemma mean_unique n x (m m' : F) : n <> 0%nat -> is_mean n x m -> is_mean n x m' -> m = m'.
Proof. unfold is_mean. intros Hn H H'. assert (kofnat n <> (0 : F)) by (now apply kofnat_neq0). transitivity (kofnat n * m / kofnat n); [field; auto|]. rewrite H, <- H'. field; auto. Qed.
Lemma std_unique n x (s s' : F) : n <> 0%nat -> is_std n x s -> is_std n x s' -> s = s'.
Proof.
  intros Hn (P & m & M & E) (P' & m' & M' & E'). rewrite (mean_unique Hn M' M) in E'. assert (N : kofnat n <> (0 : F)) by (now apply kofnat_neq0).
  assert (Q : s * s = s' * s'). { transitivity (kofnat n * (s * s) / kofnat n); [field; auto|]. rewrite E, <- E'. field; auto. }
  apply kle_antisym; apply ksqr_le; auto; rewrite Q; apply kle_refl.
Qed.
Lemma np_mean_ok (l : list F) : l <> [] -> is_mean (length l) (fun i => nth i l 0) (np_mean l).
Proof. intros H. red. unfold np_mean. rewrite total_sum. field. apply kofnat_neq0. destruct l; simpl; [congruence|lia]. Qed.
Lemma np_std_ok (l : list F) : is_sqrt sqrt -> l <> [] -> is_std (length l) (fun i => nth i l 0) (np_std sqrt l).
Proof.
  intros Q H. unfold np_std. set (m := np_mean l). set (l2 := map (fun x => (x - m) * (x - m)) l).
  assert (L2 : length l2 = length l) by apply map_length. assert (H2 : l2 <> []) by (intros E; apply H; destruct l; auto; discriminate).
  pose proof (np_mean_ok H2) as M2. red in M2. rewrite L2 in M2.
  assert (E2 : Sum (length l) (fun i => nth i l2 0) = Sum (length l) (fun i => (nth i l 0 - m) * (nth i l 0 - m))).
  { apply sumn_ext. intros i Hi. unfold l2. rewrite (nth_indep _ 0 ((fun x => (x - m) * (x - m)) 0)) by (now rewrite map_length). now rewrite (map_nth (fun x => (x - m) * (x - m))). }
  rewrite E2 in M2. assert (P : kle 0 (np_mean l2)).
  { unfold np_mean. apply kdiv_nonneg; [|apply kofnat_nonneg|apply kofnat_neq0; destruct l2; simpl; [congruence|lia]]. rewrite total_sum, L2, E2. apply (@ksumn_nonneg F). intros. apply (@ksqr_nonneg F). }
  destruct (Q _ P) as [P' E']. split; auto. exists m. split; [now apply np_mean_ok|]. now rewrite E'.
Qed.
Lemma std_scale n x (s c : F) : kle 0 c -> is_std n x s -> is_std n (fun i => c * x i) (c * s).
Proof.
  intros C (P & m & M & E). split; [now apply (@kmul_nonneg F)|]. exists (c * m). unfold is_mean in *. split.
  - rewrite <- (ksumn_mul_l F n c x), <- M. ring.
  - replace (kofnat n * (c * s * (c * s))) with (c * c * (kofnat n * (s * s))) by ring. rewrite E. rewrite (ksumn_mul_l F n (c * c)). apply sumn_ext. intros i Hi. simpl. ring.
Qed.
Lemma std_ext n x y (s : F) : (forall i, (i < n)%nat -> x i = y i) -> is_std n x s -> is_std n y s.
Proof.
  intros H (P & m & M & E). split; auto. exists m. unfold is_mean in *. split.
  - rewrite M. now apply sumn_ext.
  - rewrite E. apply sumn_ext. intros i Hi. now rewrite H.
Qed.
(** ---- the quasi-static traces ---- *)
Definition inrow (i n t : nat) : bool := Nat.leb (i * n) t && Nat.ltb t (i * n + n).
Lemma row_fill (s : list F) i n k (f : nat -> nat -> F) a t : (k <= n)%nat ->
  fold_left (fun f j => put f i (i * n + j) (nth j s 0)) (seq 0 k) f a t =
  if Nat.eqb a i && (Nat.leb (i * n) t && Nat.ltb t (i * n + k)) then nth (t - i * n) s 0 else f a t.
Proof.
  induction k; intros Hk.
  - simpl. replace (Nat.leb (i * n) t && Nat.ltb t (i * n + 0)) with false; [now rewrite andb_false_r|].
    symmetry. apply andb_false_iff. destruct (Nat.leb_spec (i * n) t); auto. right. apply Nat.ltb_ge. lia.
  - rewrite seq_S, fold_left_app. simpl. unfold put at 1. rewrite IHk by lia. destruct (Nat.eqb_spec a i) as [E|E]; simpl; auto.
    destruct (Nat.eqb_spec t (i * n + k)) as [T|T].
    + subst t. replace (i * n + k - i * n)%nat with k by lia. destruct (Nat.leb_spec (i * n) (i * n + k)); [|lia]. destruct (Nat.ltb_spec (i * n + k) (i * n + S k)); [|lia]. reflexivity.
    + destruct (Nat.leb_spec (i * n) t); simpl; auto. destruct (Nat.ltb_spec t (i * n + k)), (Nat.ltb_spec t (i * n + S k)); auto; lia.
Qed.
Lemma fill_from n (l : list F) : n <> 0%nat -> forall b f0, exists f,
  foldM (fun f p => bind (gauss (snd p) n 0) (fun s => Ok (fold_left (fun f j => put f (fst p) (fst p * n + j) (nth j s 0)) (seq 0 n) f)))
        (combine (seq b (length l)) l) f0 = Ok f
  /\ forall a t, f a t = if Nat.leb b a && Nat.ltb a (b + length l) && inrow a n t then sample (nth (a - b) l 0) 0 n (t - a * n) else f0 a t.
Proof.
  intros Hn. induction l as [|x l IH]; intros b f0.
  - exists f0. split; auto. intros a t. replace (Nat.leb b a && Nat.ltb a (b + length (@nil F))) with false; auto.
    symmetry. apply andb_false_iff. simpl. destruct (Nat.leb_spec b a); auto. right. apply Nat.ltb_ge. lia.
  - simpl length. cbn [seq combine foldM fst snd]. rewrite gauss_ok by auto. cbn [bind].
    set (s := map (fun j => sample x 0 n j) (seq 0 n)). set (f1 := fold_left (fun f j => put f b (b * n + j) (nth j s 0)) (seq 0 n) f0).
    destruct (IH (S b) f1) as (f & E & H). exists f. split; auto. intros a t. rewrite H. clear H E IH.
    destruct (Nat.leb_spec (S b) a) as [A|A].
    + destruct (Nat.leb_spec b a); [|lia]. cbn [andb]. replace (b + S (length l))%nat with (S b + length l)%nat by lia.
      destruct (Nat.ltb a (S b + length l)); cbn [andb].
      * destruct (inrow a n t); [|]. { replace (a - b)%nat with (S (a - S b)) by lia. reflexivity. }
        unfold f1. rewrite row_fill by lia. destruct (Nat.eqb_spec a b); [lia|reflexivity].
      * unfold f1. rewrite row_fill by lia. destruct (Nat.eqb_spec a b); [lia|reflexivity].
    + cbn [andb]. unfold f1. rewrite row_fill by lia. destruct (Nat.eqb_spec a b) as [E|E].
      * subst a. rewrite Nat.leb_refl. destruct (Nat.ltb_spec b (b + S (length l))); [|lia]. cbn [andb]. rewrite Nat.sub_diag. cbn [nth]. unfold inrow.
        destruct (Nat.leb_spec (b * n) t); cbn [andb]; auto. destruct (Nat.ltb_spec t (b * n + n)); auto. unfold s. rewrite nth_map_seq by lia. reflexivity.
      * destruct (Nat.leb_spec b a); [lia|]. reflexivity.
Qed.
Lemma fill_ok n (l : list F) : n <> 0%nat -> exists f, fill erfinv sqrt2 l n = Ok f /\
  forall a t, (a < length l)%nat -> f a t = if inrow a n t then sample (nth a l 0) 0 n (t - a * n) else 0.
Proof.
  intros Hn. destruct (@fill_from n l Hn 0 (fun _ _ => 0)) as (f & E & H). exists f. split; [exact E|]. intros a t Ha. rewrite H. simpl. destruct (Nat.ltb_spec a (length l)); [|lia]. simpl. now rewrite Nat.sub_0_r.
Qed.
Lemma inrow_iff i n t : inrow i n t = true <-> (i * n <= t < i * n + n)%nat.
Proof. unfold inrow. rewrite andb_true_iff, Nat.leb_le, Nat.ltb_lt. tauto. Qed.
Lemma rows_quasi_static n (l : list F) times x : (forall i j k, (i < length l)%nat -> (j < n * length l)%nat -> (k < times)%nat ->
    x i j k = if inrow i n j then sample (nth i l 0) 0 n (j - i * n) else 0) ->
  quasi_static x (length l) n (n * length l) times (fun i j => sample (nth i l 0) 0 n j).
Proof.
  intros H. split; [|split].
  - intros. rewrite !H by auto. reflexivity.
  - intros i i' j k Hi Hi' Hj Hk N NZ. rewrite H in * by auto. destruct (inrow i n j) eqn:R; [|congruence]. destruct (inrow i' n j) eqn:R'; auto.
    apply inrow_iff in R, R'. exfalso. apply N. nia.
  - intros i Hi. exists (fun m => (i * n + m)%nat). split; [|split; [|split]].
    + intros m Hm. nia.
    + intros. lia.
    + intros m k Hm Hk. rewrite H by (auto; nia). replace (inrow i n (i * n + m)) with true by (symmetry; apply inrow_iff; lia). f_equal. lia.
    + intros j k Hj Hk A. rewrite H by auto. destruct (inrow i n j) eqn:R; auto. apply inrow_iff in R. exfalso. apply (A (j - i * n)%nat); lia.
Qed.

Definition drawn (g : gen F) : Prop := g_samples g = None \/ g_redraw g = true.
Lemma read_drawn (g : gen F) w : drawn g -> noise_samples g w = match sample_noise g w with (s, Err e) => (s, Err e)
   | ((w, g), Ok _) => match g_samples g with Some a => ((w, g), Ok a) | None => ((w, g), Err PyException) end end.
Proof. unfold M_Noise.noise_samples. intros [E|E]; rewrite E; [destruct (g_redraw g); auto|]. destruct (g_samples g); auto. Qed.
Lemma the_array_new (w : world F) a : the_array (fst (new_array w a)) (snd (new_array w a)) = a.
Proof. unfold the_array, new_array. simpl. rewrite app_nth2 by lia. now rewrite Nat.sub_diag. Qed.
Lemma truthy_some o n : truthy o = Some n -> o = Some n /\ n <> 0%nat.
Proof. destruct o as [[|m]|]; simpl; intros H; inversion H; subst; auto. Qed.

Theorem deterministic_traces s (g g' : gen F) w w' a : g_kind g = QuasiStatic s MDeterministic -> drawn g -> noise_samples g w = ((w', g'), Ok a) ->
  exists n t, g_ntr g = Some n /\ g_nsamp g = Some t /\ wfa [length (the_list w s); n * length (the_list w s); t]%nat (the_array w' a) /\
   quasi_static (get3 0 (the_array w' a)) (length (the_list w s)) n (n * length (the_list w s)) t (fun i j => sample (nth i (the_list w s) 0) 0 n j)
   /\ (n <> 0%nat -> n_traces g' w' = ((w', g'), Ok (n * length (the_list w s))%nat)).
Proof.
  intros K D. rewrite (read_drawn w D). unfold M_Noise.sample_noise. rewrite K. cbn [sample_quasi_static]. set (l := the_list w s).
  destruct (g_ntr g) as [n|] eqn:EN; [|discriminate]. destruct (truthy (g_nsamp g)) as [t|] eqn:ET; [|discriminate]. apply truthy_some in ET. destruct ET as [ET Tn].
  assert (G : forall f, fill erfinv sqrt2 l n = Ok f -> forall w' g' a, (let '(w0, a) := new_array w (mk3 (length l) (n * length l) t (fun i j _ => f i j)) in ((w0, set_samples g a), Ok tt)) = ((w', g'), Ok tt) ->
     g_samples g' = Some a -> (length l = 0%nat \/ n <> 0%nat) -> wfa [length l; n * length l; t]%nat (the_array w' a) /\ quasi_static (get3 0 (the_array w' a)) (length l) n (n * length l) t (fun i j => sample (nth i l 0) 0 n j)
     /\ (n <> 0%nat -> n_traces g' w' = ((w', g'), Ok (n * length l)%nat))).
  { intros f E w1 g1 a1. unfold new_array. intros X S NZ. inversion X; subst w1 g1. simpl in S. inversion S; subst a1. clear X S.
    unfold the_array. simpl w_arrays. rewrite app_nth2 by lia. rewrite Nat.sub_diag. cbn [nth]. split; [apply wfa_mk3|]. split.
    - apply rows_quasi_static. intros i j k Hi Hj Hk. rewrite get3_mk3 by auto. destruct NZ as [NZ|NZ]; [lia|]. destruct (fill_ok l NZ) as (f2 & E2 & H2). rewrite E in E2. inversion E2; subst f2. now apply H2.
    - intros N0. unfold M_Noise.n_traces. simpl. rewrite EN. destruct n as [|n]; [lia|]. simpl. rewrite K. reflexivity. }
  destruct (fill erfinv sqrt2 l n) as [f|e] eqn:E.
  - intros H. exists n, t. split; auto. split; auto. unfold new_array in H. cbn [g_samples set_samples] in H. assert (X := H). inversion X; subst. clear X.
    eapply (G f); eauto. destruct (Nat.eq_dec (length l) 0) as [L|L]; auto. right. intros N0. subst n. destruct l as [|x l]; [simpl in L; lia|]. unfold fill in E. simpl in E. discriminate.
  - unfold new_array. discriminate.
Qed.
Theorem deterministic_returns s (g : gen F) w n t : g_kind g = QuasiStatic s MDeterministic -> g_ntr g = Some (S n) -> g_nsamp g = Some (S t) ->
  exists w' g' a, noise_samples g w = ((w', g'), Ok a).
Proof.
  intros K N T. destruct (g_samples g) as [a|] eqn:ES; [destruct (g_redraw g) eqn:ER|].
  2:{ exists w, g, a. unfold M_Noise.noise_samples. now rewrite ES, ER. }
  all: rewrite read_drawn by (red; auto); unfold M_Noise.sample_noise; rewrite K; cbn [sample_quasi_static]; rewrite N, T; cbn [truthy];
    destruct (@fill_ok (S n) (the_list w s) ltac:(lia)) as (f & E & _); rewrite E; unfold new_array; cbn [g_samples set_samples]; eauto.
Qed.
Theorem monte_carlo_traces s (g g' : gen F) w w' a : g_kind g = QuasiStatic s MMonteCarlo -> drawn g -> g_nsamp g <> None -> g_nsamp g <> Some 0%nat -> noise_samples g w = ((w', g'), Ok a) ->
  exists n t, g_ntr g = Some n /\ g_nsamp g = Some t /\ wfa [length (the_list w s); n; t] (the_array w' a) /\ w_used w' = (w_used w + length (the_list w s) * n)%nat /\
   (forall i j k, (i < length (the_list w s))%nat -> (j < n)%nat -> (k < t)%nat -> get3 0 (the_array w' a) i j k = nth i (the_list w s) 0 * rnd (w_used w + (i * n + j)))
   /\ n_traces g' w' = ((w', g'), Ok n).
Proof.
  intros K D T1 T2. rewrite (read_drawn w D). unfold M_Noise.sample_noise. rewrite K. cbn [sample_quasi_static]. set (l := the_list w s).
  destruct (truthy (g_ntr g)) as [n|] eqn:EN; [|discriminate]. assert (EN' := EN). apply truthy_some in EN. destruct EN as [EN Nn].
  unfold new_array. cbn [set_samples g_nsamp g_redraw]. destruct (g_nsamp g) as [[|t]|] eqn:ET; try congruence. cbn [truthy g_samples set_samples].
  intros H. inversion H; subst. clear H. exists n, (S t). split; auto. split; auto. unfold the_array. cbn [w_arrays w_used w_lists]. rewrite app_nth2 by lia. rewrite Nat.sub_diag. cbn [nth].
  split; [apply wfa_mk3|]. split; auto. split.
  - intros i j k Hi Hj Hk. rewrite get3_mk3 by auto. f_equal. f_equal. lia.
  - unfold M_Noise.n_traces. cbn [set_samples g_ntr g_kind]. rewrite EN', K. reflexivity.
Qed.
End Proofs.
