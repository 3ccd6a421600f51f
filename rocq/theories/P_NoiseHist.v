(** Proofs about histories of noise generators (C59, C60) and the shape of coloured noise (C61). *)
Require Import List Arith Bool Lia Field.
From Verif Require Import LibBase LibRing LibArr LibCplx LibNorm LibSum M_Noise S_Noise P_Noise P_NoiseStd.
Import ListNotations.
Open Scope k_scope.
Set Implicit Arguments.

Section Proofs.
Variable F : OField.
Variables erfinv sqrt : F -> F.
Variable sqrt2 : F.
Variable rnd : nat -> F.
Variable root : nat -> cplx F.
Add Field Kfield_nh : (k_field F).
Local Notation sample := (sample erfinv sqrt2).
Local Notation sample_noise := (sample_noise erfinv sqrt sqrt2 rnd root).
Local Notation noise_samples := (noise_samples erfinv sqrt sqrt2 rnd root).
Local Notation n_traces := (n_traces erfinv sqrt sqrt2 rnd root).
Local Notation new_quasi_static := (new_quasi_static erfinv sqrt sqrt2 rnd root).
Local Notation step := (step erfinv sqrt sqrt2 rnd root).
Local Notation run := (run erfinv sqrt sqrt2 rnd root).

(** ---- what a read does to the world and to the generator ---- *)
Definition grows (w w' : world F) : Prop := w_lists w' = w_lists w /\ exists l, w_arrays w' = w_arrays w ++ l.
Lemma grows_refl w : grows w w.
Proof. split; auto. exists []. now rewrite app_nil_r. Qed.
Lemma grows_trans w1 w2 w3 : grows w1 w2 -> grows w2 w3 -> grows w1 w3.
Proof. intros [A [l B]] [A' [l' B']]. split; [congruence|]. exists (l ++ l'). now rewrite B', B, app_assoc. Qed.
Lemma grows_new w a : grows w (fst (new_array w a)).
Proof. split; auto. exists [a]. reflexivity. Qed.
Lemma grows_used w n : grows w (mkw (w_lists w) (w_arrays w) n).
Proof. split; auto. exists []. simpl. now rewrite app_nil_r. Qed.
Definition same_setup (g g' : gen F) : Prop := g_nsamp g' = g_nsamp g /\ g_ntr g' = g_ntr g /\ g_nops g' = g_nops g /\ g_redraw g' = g_redraw g /\ g_kind g' = g_kind g.
Lemma setup_refl g : same_setup g g.
Proof. repeat split. Qed.
Lemma setup_set g a : same_setup g (set_samples g a).
Proof. repeat split. Qed.
Local Hint Resolve grows_refl grows_new grows_used setup_refl setup_set : core.

(** a drawn array is a new object *)
Definition fresh (w w' : world F) (g' : gen F) : Prop := exists a, g_samples g' = Some a /\ (length (w_arrays w) <= a < length (w_arrays w'))%nat.
Lemma sample_noise_grows g w w' g' r : sample_noise g w = ((w', g'), r) -> grows w w' /\ same_setup g g' /\ (r = Ok tt -> fresh w w' g').
Proof.
  unfold M_Noise.sample_noise. destruct (g_kind g) as [s m|sd dt ratio] eqn:K.
  - destruct m; cbn [sample_quasi_static].
    + destruct (g_ntr g) as [n|]; [|intros E; inversion E; subst; split; [|split]; auto; discriminate]. destruct (truthy (g_nsamp g)) as [t|]; [|intros E; inversion E; subst; split; [|split]; auto; discriminate].
      destruct (fill erfinv sqrt2 (the_list w s) n) as [f|e]; unfold new_array; intros E; inversion E; subst; clear E.
      * split; [apply (grows_new w)|]. split; [apply setup_set|]. intros _. exists (length (w_arrays w)). simpl. rewrite app_length. simpl. split; auto; lia.
      * split; [apply (grows_new w)|]. split; [apply setup_set|]. discriminate.
    + destruct (truthy (g_ntr g)) as [n|]; [|intros E; inversion E; subst; split; [|split]; auto; discriminate]. unfold new_array. cbn [set_samples g_nsamp g_redraw w_lists w_arrays w_used].
      destruct (truthy (g_nsamp g)) as [t|]; [|destruct (g_redraw g)]; intros E; inversion E; subst; clear E; (split; [split; [reflexivity|]; eexists; cbn [w_arrays]; rewrite <- ?app_assoc; reflexivity|]; split; [repeat split|]; try discriminate);
        intros _; eexists; (split; [reflexivity|]); cbn [w_arrays]; rewrite ?app_length; simpl; lia.
    + intros E; inversion E; subst; split; [|split]; auto; discriminate.
  - unfold sample_coloured. destruct (g_nops g) as [l|]; [|intros E; inversion E; subst; split; [|split]; auto; discriminate].
    destruct (g_ntr g) as [n|]; [|intros E; inversion E; subst; split; [|split]; auto; discriminate].
    destruct (g_nsamp g) as [t|] eqn:ET; [|intros E; inversion E; subst; split; [|split]; auto; discriminate].
    destruct (Nat.eqb t 0 || Nat.eqb l 0 || Nat.eqb n 0); [intros E; inversion E; subst; split; [|split]; auto; discriminate|].
    destruct (fast_colored_noise sqrt rnd root sd dt (t * ratio) l n false (w_used w)) as [p [a|e]]; unfold new_array; intros E; inversion E; subst; clear E.
    + split; [split; [reflexivity|eexists; reflexivity]|]. split; [repeat split; auto|]. intros _. exists (length (w_arrays w)). simpl. rewrite app_length. simpl. split; auto; lia.
    + split; [apply grows_used|]. split; auto. discriminate.
Qed.
Lemma read_grows g w w' g' r : noise_samples g w = ((w', g'), r) -> grows w w' /\ same_setup g g' /\ (drawn g -> forall a, r = Ok a -> g_samples g' = Some a /\ (length (w_arrays w) <= a < length (w_arrays w'))%nat).
Proof.
  destruct (g_samples g) as [a|] eqn:S; [destruct (g_redraw g) eqn:R|].
  2:{ unfold M_Noise.noise_samples. rewrite S, R. intros E; inversion E; subst. split; auto. split; auto. intros [D|D]; congruence. }
  all: rewrite read_drawn by (red; auto); destruct (sample_noise g w) as [[w1 g1] [[]|e]] eqn:E1; destruct (sample_noise_grows _ _ E1) as (A & B & C).
  1,3: destruct (C eq_refl) as (b & Eb & Lb); rewrite Eb; intros E; inversion E; subst; split; auto; split; auto; intros _ c Ec; inversion Ec; subst; auto.
  all: intros E; inversion E; subst; split; auto; split; auto; discriminate.
Qed.
(** a cached array is returned as it is *)
Lemma read_cached g w a : g_samples g = Some a -> g_redraw g = false -> noise_samples g w = ((w, g), Ok a).
Proof. intros S R. unfold M_Noise.noise_samples. now rewrite S, R. Qed.
Lemma n_traces_grows g w w' g' r : n_traces g w = ((w', g'), r) -> grows w w' /\ same_setup g g' /\ (g_redraw g = false -> forall a, g_samples g = Some a -> g_samples g' = Some a).
Proof.
  unfold M_Noise.n_traces. destruct (truthy (g_ntr g)) as [n|].
  - destruct (g_kind g) as [s []|sd dt ratio]; intros E; inversion E; subst; split; auto.
  - destruct (noise_samples g w) as [[w1 g1] [b|e]] eqn:E1; destruct (read_grows _ _ E1) as (A & B & _); intros E; inversion E; subst; split; auto; split; auto;
      intros R c S; rewrite (read_cached _ w S R) in E1; inversion E1; subst; auto.
Qed.

(** ---- lists (C59) ---- *)
Definition corrects (e : event F) : bool := match e with NewQuasiStatic _ _ _ _ _ true MDeterministic => true | _ => false end.
(** lists and arrays that exist stay as they are *)
Definition keeps (w w' : world F) : Prop := (exists l, w_lists w' = w_lists w ++ l) /\ exists l, w_arrays w' = w_arrays w ++ l.
Lemma keeps_refl w : keeps w w.
Proof. split; exists []; now rewrite app_nil_r. Qed.
Lemma keeps_trans w1 w2 w3 : keeps w1 w2 -> keeps w2 w3 -> keeps w1 w3.
Proof. intros [[k A] [l B]] [[k' A'] [l' B']]. split; [exists (k ++ k')|exists (l ++ l')]; [now rewrite A', A, app_assoc|now rewrite B', B, app_assoc]. Qed.
Lemma grows_keeps w w' : grows w w' -> keeps w w'.
Proof. intros [A B]. split; auto. exists []. now rewrite A, app_nil_r. Qed.
Lemma arrays_correct a is : forall g w w' g' r, correct erfinv sqrt sqrt2 rnd root a is g w = ((w', g'), r) -> exists l, w_arrays w' = w_arrays w ++ l.
Proof.
  induction is as [|i is IH]; intros g w w' g' r; cbn [correct].
  - intros E; inversion E; subst. exists []. now rewrite app_nil_r.
  - destruct (n_traces g w) as [[w1 g1] [n|e]] eqn:E1; destruct (n_traces_grows _ _ E1) as ([_ [l1 A]] & _).
    + destruct (gauss erfinv sqrt2 (nth i (the_list w1 a) 0) n 0) as [s|e]; [destruct (kltb (np_std sqrt s) tiny)|]; try (intros E; inversion E; subst; eauto; fail).
      intros E. apply IH in E. destruct E as [l E]. exists (l1 ++ l). rewrite E. cbn [set_std w_arrays]. now rewrite A, app_assoc.
    + intros E; inversion E; subst; eauto.
Qed.
Lemma step_arrays s e : exists l, w_arrays (fst (step s e)) = w_arrays (fst s) ++ l.
Proof.
  assert (Z : forall w : world F, exists l, w_arrays w = w_arrays w ++ l) by (intros; exists []; now rewrite app_nil_r).
  destruct e; cbn [M_Noise.step]; try (exists []; simpl; now rewrite app_nil_r).
  - exists [a]. reflexivity.
  - unfold made. cbn [fst]. unfold M_Noise.new_quasi_static. destruct correction; [|apply Z]. set (g := mkgen _ _ _ _ _ _). destruct (n_traces g (fst s)) as [[w1 g1] [n|e]] eqn:E1; destruct (n_traces_grows _ _ E1) as ([_ [l A]] & _); [|exists l; exact A].
    destruct (Nat.eqb n 1); [exists l; exact A|]. destruct m; try (exists l; exact A). destruct (correct _ _ _ _ _ _ _ _ _) as [[w2 g2] [[]|e]] eqn:E2; destruct (arrays_correct _ _ _ _ E2) as [l2 B]; exists (l ++ l2); cbn [fst]; rewrite B, A; now rewrite app_assoc.
  - unfold made, new_coloured. cbn [fst]. destruct (Nat.ltb ratio 1); [apply Z|]. destruct dt; apply Z.
  - unfold on. destruct (nth_error (snd s) i) as [g|]; [|apply Z]. destruct (noise_samples g (fst s)) as [[w1 g1] r] eqn:E1. destruct (read_grows _ _ E1) as ([_ B] & _). exact B.
  - unfold on. destruct (nth_error (snd s) i) as [g|]; [|apply Z]. destruct (n_traces g (fst s)) as [[w1 g1] r] eqn:E1. destruct (n_traces_grows _ _ E1) as ([_ B] & _). exact B.
  - unfold on. destruct (nth_error (snd s) i) as [g|]; apply Z.
Qed.
Lemma step_lists s e : corrects e = false -> exists l, w_lists (fst (step s e)) = w_lists (fst s) ++ l.
Proof.
  assert (Z : forall w : world F, exists l, w_lists w = w_lists w ++ l) by (intros; exists []; now rewrite app_nil_r).
  intros C. destruct e; cbn [M_Noise.step]; try (exists []; simpl; now rewrite app_nil_r).
  - exists [l]. reflexivity.
  - unfold made. cbn [fst]. unfold M_Noise.new_quasi_static. destruct correction; [|apply Z]. set (g := mkgen _ _ _ _ _ _). destruct (n_traces g (fst s)) as [[w1 g1] [n|e]] eqn:E1; destruct (n_traces_grows _ _ E1) as ([A _] & _); [|cbn [fst]; rewrite A; apply Z].
    destruct (Nat.eqb n 1); [cbn [fst]; rewrite A; apply Z|]. destruct m; [discriminate| |]; cbn [fst]; rewrite A; apply Z.
  - unfold made, new_coloured. cbn [fst]. destruct (Nat.ltb ratio 1); [apply Z|]. destruct dt; apply Z.
  - unfold on. destruct (nth_error (snd s) i) as [g|]; [|apply Z]. destruct (noise_samples g (fst s)) as [[w1 g1] r] eqn:E1. destruct (read_grows _ _ E1) as ([A _] & _). cbn [fst]. rewrite A. apply Z.
  - unfold on. destruct (nth_error (snd s) i) as [g|]; [|apply Z]. destruct (n_traces g (fst s)) as [[w1 g1] r] eqn:E1. destruct (n_traces_grows _ _ E1) as ([A _] & _). cbn [fst]. rewrite A. apply Z.
  - unfold on. destruct (nth_error (snd s) i) as [g|]; apply Z.
Qed.
Lemma run_arrays es : forall s, exists l, w_arrays (fst (run es s)) = w_arrays (fst s) ++ l.
Proof.
  induction es as [|e es IH]; intros s. { exists []. simpl. now rewrite app_nil_r. }
  change (run (e :: es) s) with (run es (step s e)).
  destruct (IH (step s e)) as [l A]. destruct (step_arrays s e) as [k B]. exists (k ++ l). now rewrite A, B, app_assoc.
Qed.
Lemma run_lists es : forall s, Forall (fun e => corrects e = false) es -> exists l, w_lists (fst (run es s)) = w_lists (fst s) ++ l.
Proof.
  induction es as [|e es IH]; intros s H. { exists []. simpl. now rewrite app_nil_r. }
  change (run (e :: es) s) with (run es (step s e)).
  inversion H; subst. destruct (IH (step s e)) as [l A]; auto. destruct (@step_lists s e) as [k B]; auto. exists (k ++ l). now rewrite A, B, app_assoc.
Qed.
Theorem lists_unchanged es s a l : Forall (fun e => corrects e = false) es -> nth_error (w_lists (fst s)) a = Some l -> nth_error (w_lists (fst (run es s))) a = Some l.
Proof.
  intros H E. destruct (run_lists s H) as [k A]. rewrite A, nth_error_app1; auto. apply nth_error_Some. congruence.
Qed.
Lemma the_list_unchanged es s a l : Forall (fun e => corrects e = false) es -> nth_error (w_lists (fst s)) a = Some l -> the_list (fst (run es s)) a = l.
Proof. intros H E. unfold the_list. apply nth_error_nth. eapply lists_unchanged; eauto. Qed.
Lemma deterministic_array s (g g' : gen F) w w' a : g_kind g = QuasiStatic s MDeterministic -> drawn g -> noise_samples g w = ((w', g'), Ok a) ->
  exists n t f, g_ntr g = Some n /\ g_nsamp g = Some t /\ fill erfinv sqrt2 (the_list w s) n = Ok f /\ the_array w' a = mk3 (length (the_list w s)) (n * length (the_list w s)) t (fun i j _ => f i j).
Proof.
  intros K D. rewrite (read_drawn erfinv sqrt sqrt2 rnd root w D). unfold M_Noise.sample_noise. rewrite K. cbn [sample_quasi_static]. set (l := the_list w s).
  destruct (g_ntr g) as [n|] eqn:EN; [|discriminate]. destruct (truthy (g_nsamp g)) as [t|] eqn:ET; [|discriminate]. apply truthy_some in ET. destruct ET as [ET Tn].
  destruct (fill erfinv sqrt2 l n) as [f|e] eqn:E; unfold new_array; [|discriminate]. cbn [g_samples set_samples]. intros H. inversion H; subst. exists n, t, f. repeat split; auto.
  unfold the_array. cbn [w_arrays]. rewrite app_nth2 by lia. now rewrite Nat.sub_diag.
Qed.
(** two generators with the same settings on the same list give the same noise, whatever happens in between *)
Theorem same_noise es s a l g1 g2 w1 w2 g1' g2' b1 b2 : Forall (fun e => corrects e = false) es -> nth_error (w_lists (fst s)) a = Some l ->
  g_kind g1 = QuasiStatic a MDeterministic -> g_kind g2 = QuasiStatic a MDeterministic -> g_ntr g1 = g_ntr g2 -> g_nsamp g1 = g_nsamp g2 -> drawn g1 -> drawn g2 ->
  noise_samples g1 (fst s) = ((w1, g1'), Ok b1) -> noise_samples g2 (fst (run es s)) = ((w2, g2'), Ok b2) ->
  the_array w1 b1 = the_array w2 b2.
Proof.
  intros H E K1 K2 EN ET D1 D2 R1 R2. assert (L2 := @the_list_unchanged es s a l H E). assert (L1 : the_list (fst s) a = l) by (unfold the_list; now apply nth_error_nth).
  destruct (@deterministic_array _ _ _ _ _ _ K1 D1 R1) as (n & t & f & N & T & Fi & A). destruct (@deterministic_array _ _ _ _ _ _ K2 D2 R2) as (n' & t' & f' & N' & T' & Fi' & A').
  rewrite EN, N' in N. rewrite ET, T' in T. inversion N; inversion T; subst n' t'. rewrite L1 in *. rewrite L2 in *. rewrite Fi in Fi'. inversion Fi'; subst f'. now rewrite A, A'.
Qed.
(** with correction the list of the caller is overwritten *)
Theorem list_overwritten a t s0 samples redraw w : is_sqrt sqrt -> odd erfinv -> 0 < sqrt2 -> positive erfinv -> the_list w a = [s0] -> 0 < s0 ->
  tiny <= s0 * (sqrt2 * erfinv (1 / (1 + 1))) -> sqrt2 * erfinv (1 / (1 + 1)) <> 1 ->
  exists w1 g, new_quasi_static a (Some t) (Some 2%nat) samples redraw true MDeterministic w = (w1, Ok g) /\ the_list w1 a = [s0 / (sqrt2 * erfinv (1 / (1 + 1)))] /\ the_list w1 a <> the_list w a.
Proof.
  intros Q O S P L P1 T1 NE. assert (U2 := unit_std_2 Q O S P). assert (A : (a < length (w_lists w))%nat) by (apply (@list_in_range F w a 0%nat); rewrite L; simpl; lia).
  assert (AB : Nat.eqb a a && Nat.ltb a (length (w_lists w)) = true) by (rewrite Nat.eqb_refl; simpl; now apply Nat.ltb_lt).
  set (c := sqrt2 * erfinv (1 / (1 + 1))) in *. assert (C0 : c <> 0). { intros Z. rewrite Z in T1. apply (proj1 (klt_nle F _ _) (tiny_pos F)). replace (0 : F) with (s0 * 0) by ring. exact T1. }
  assert (S0 : s0 <> 0) by (intros X; now apply (klt_neq P1)).
  exists (set_std w a 0 (s0 / c)), (mkgen samples (Some t) (Some 2%nat) (Some 1%nat) redraw (QuasiStatic a MDeterministic)).
  assert (L1 : the_list (set_std w a 0 (s0 / c)) a = [s0 / c]) by (rewrite set_std_list, AB, L; reflexivity).
  split; [|split; [exact L1|]].
  - unfold M_Noise.new_quasi_static. rewrite L. set (g := mkgen _ _ _ _ _ _). unfold M_Noise.n_traces. cbn [g g_ntr g_kind truthy]. rewrite L. cbn [length Nat.mul Nat.add Nat.eqb].
    cbn [seq correct]. unfold M_Noise.n_traces at 1. cbn [g g_ntr g_kind truthy]. rewrite L. cbn [length Nat.mul Nat.add nth].
    rewrite gauss_ok by lia. rewrite (@gauss_std F erfinv sqrt sqrt2 s0 2 _ Q (@klt_le F 0 s0 P1) (@gauss_ok F erfinv sqrt2 s0 2 0 ltac:(lia))). rewrite U2.
    unfold kltb. rewrite T1. cbn [negb]. replace (s0 * (s0 / (s0 * c))) with (s0 / c) by (field; auto). reflexivity.
  - rewrite L1, L. intros X. inversion X as [Y]. apply NE. transitivity (s0 / (s0 / c)); [field; auto|]. rewrite Y. field. auto.
Qed.
(** a second generator on the list corrects once more: its noise has another standard deviation *)
Theorem second_generator a t s0 w w1 w2 w3 g1 g2 g3 b : is_sqrt sqrt -> odd erfinv -> 0 < sqrt2 -> positive erfinv -> the_list w a = [s0] -> 0 < s0 -> sqrt2 * erfinv (1 / (1 + 1)) <> 1 ->
  new_quasi_static a (Some t) (Some 2%nat) None true true MDeterministic w = (w1, Ok g1) -> new_quasi_static a (Some t) (Some 2%nat) None true true MDeterministic w1 = (w2, Ok g2) ->
  noise_samples g2 w2 = ((w3, g3), Ok b) ->
  exists s d, quasi_static (get3 0 (the_array w3 b)) 1 2 2 t s /\ is_std 2 (s 0%nat) d /\ d <> s0.
Proof.
  intros Q O S P L P1 NE N1 N2 R. assert (U2 := unit_std_2 Q O S P). set (c := sqrt2 * erfinv (1 / (1 + 1))) in *. assert (S0 : s0 <> 0) by (intros X; now apply (klt_neq P1)).
  assert (PP : forall i, (i < length (the_list w a))%nat -> 0 < nth i (the_list w a) 0) by (rewrite L; intros [|i] Hi; simpl in *; [auto|lia]).
  destruct (@corrected_list F erfinv sqrt sqrt2 rnd root _ _ _ _ _ _ _ _ Q PP N1) as (G & LL & U & X). rewrite L in *. cbn [length Nat.mul Nat.add] in *. specialize (X 0%nat ltac:(lia)). cbn [nth] in X. rewrite U2 in *. specialize (U ltac:(discriminate)).
  assert (C0 : c <> 0) by (intros Y; now apply (klt_neq U)).
  assert (L1 : the_list w1 a = [s0 / c]) by (destruct (the_list w1 a) as [|x [|y l]]; simpl in LL; try lia; simpl in X; now subst).
  assert (D : drawn g2). { assert (PP1 : forall i, (i < length (the_list w1 a))%nat -> 0 < nth i (the_list w1 a) 0) by (rewrite L1; intros [|i] Hi; simpl in *; [now apply kpos_div|lia]).
    destruct (@corrected_list F erfinv sqrt sqrt2 rnd root _ _ _ _ _ _ _ _ Q PP1 N2) as (G2 & _). left. rewrite G2. reflexivity. }
  destruct (@corrected_one F erfinv sqrt sqrt2 rnd root _ _ _ _ _ _ _ _ _ _ _ _ Q L1 (kpos_div P1 U) N2 D R) as (s & QS & SD). exists s, (s0 / c). split; auto. split; auto.
  intros Y. apply NE. transitivity (s0 / (s0 / c)); [field; auto|]. rewrite Y. field. auto.
Qed.

(** ---- caching (C60) ---- *)
Definition no_redraw (i : nat) (e : event F) : Prop := match e with SetRedraw j true => j <> i | _ => True end.
Definition cached (s : state F) (i a : nat) : Prop := exists g, nth_error (snd s) i = Some g /\ g_samples g = Some a /\ g_redraw g = false.
Lemma on_other A (f : gen F -> world F -> (world F * gen F) * res A) i j (s : state F) : i <> j -> nth_error (snd (on f j s)) i = nth_error (snd s) i.
Proof.
  intros N. unfold on. destruct (nth_error (snd s) j) as [g|]; auto. destruct (f g (fst s)) as [[w1 g1] r]. cbn [snd]. rewrite setn_nth_error. destruct (Nat.eqb_spec i j); [congruence|]. reflexivity.
Qed.
Lemma on_same A (f : gen F -> world F -> (world F * gen F) * res A) i (s : state F) g w1 g1 r : nth_error (snd s) i = Some g -> f g (fst s) = ((w1, g1), r) -> on f i s = (w1, setn (snd s) i g1) /\ nth_error (setn (snd s) i g1) i = Some g1.
Proof.
  intros E Ef. unfold on. rewrite E, Ef. split; auto. rewrite setn_nth_error, Nat.eqb_refl. destruct (Nat.ltb_spec i (length (snd s))) as [H|H]; auto. apply nth_error_None in H. congruence.
Qed.
Lemma made_nth x gs i (g : gen F) : nth_error gs i = Some g -> nth_error (snd (made x gs)) i = Some g.
Proof. intros E. unfold made. cbn [snd]. destruct (snd x); auto. rewrite nth_error_app1; auto. apply nth_error_Some. congruence. Qed.
Lemma step_cached s e i a : no_redraw i e -> cached s i a -> cached (step s e) i a.
Proof.
  intros N (g & E & S & R). destruct e; cbn [M_Noise.step]; try (exists g; repeat split; auto; fail).
  - exists g. repeat split; auto. now apply made_nth.
  - exists g. repeat split; auto. now apply made_nth.
  - destruct (Nat.eq_dec i i0) as [I|I]; [subst i0|exists g; rewrite on_other; auto].
    destruct (@on_same _ noise_samples i s g _ _ _ E (read_cached _ (fst s) S R)) as [A B]. rewrite A. exists g. auto.
  - destruct (Nat.eq_dec i i0) as [I|I]; [subst i0|exists g; rewrite on_other; auto].
    destruct (n_traces g (fst s)) as [[w1 g1] r] eqn:E1. destruct (n_traces_grows _ _ E1) as (_ & (_ & _ & _ & R1 & _) & C). destruct (@on_same _ n_traces i s g _ _ _ E E1) as [A B]. rewrite A. exists g1. cbn [snd]. split; auto. split; auto. now rewrite R1.
  - destruct (Nat.eq_dec i i0) as [I|I]; [subst i0|exists g; rewrite on_other; auto].
    destruct b; [simpl in N; congruence|]. set (f := fun (g : gen F) (w : world F) => ((w, mkgen (g_samples g) (g_nsamp g) (g_ntr g) (g_nops g) false (g_kind g)), Ok tt)).
    destruct (@on_same _ f i s g _ _ _ E eq_refl) as [A B]. rewrite A. eexists. cbn [snd]. split; [exact B|]. split; auto.
Qed.
Lemma run_cached es : forall s i a, Forall (no_redraw i) es -> cached s i a -> cached (run es s) i a.
Proof. induction es as [|e es IH]; intros s i b H C; auto. change (run (e :: es) s) with (run es (step s e)). inversion H; subst. apply IH; auto. now apply step_cached. Qed.
(** reading twice without redrawing: the same array, with the same content *)
Theorem cached_reads es s i g w1 g1 a : nth_error (snd s) i = Some g -> g_redraw g = false -> noise_samples g (fst s) = ((w1, g1), Ok a) -> Forall (no_redraw i) es ->
  exists g2, nth_error (snd (run (Read i :: es) s)) i = Some g2 /\
   noise_samples g2 (fst (run (Read i :: es) s)) = ((fst (run (Read i :: es) s), g2), Ok a) /\
   ((a < length (w_arrays w1))%nat -> the_array (fst (run (Read i :: es) s)) a = the_array w1 a).
Proof.
  intros E R Rd H. destruct (@on_same _ noise_samples i s g _ _ _ E Rd) as [A B]. destruct (read_grows _ _ Rd) as (_ & (_ & _ & _ & R1 & _) & Fr).
  assert (S1 : g_samples g1 = Some a). { destruct (g_samples g) as [b|] eqn:S. - rewrite (read_cached _ (fst s) S R) in Rd. inversion Rd; subst. auto. - apply (Fr (or_introl S) a eq_refl). }
  assert (C : cached (step s (Read i)) i a). { cbn [M_Noise.step]. rewrite A. exists g1. cbn [snd]. split; auto. split; auto. now rewrite R1. }
  destruct (@run_cached es _ i a H C) as (g2 & E2 & S2 & R2). exists g2. cbn [M_Noise.run fold_left]. change (fold_left step es (step s (Read i))) with (run es (step s (Read i))). split; auto. split; [now apply read_cached|].
  intros LA. destruct (run_arrays es (step s (Read i))) as [l EA]. unfold the_array. rewrite EA. assert (EW : fst (step s (Read i)) = w1) by (cbn [M_Noise.step]; rewrite A; reflexivity). rewrite EW. now rewrite app_nth1.
Qed.
(** reading with redrawing: an array that did not exist before *)
Theorem redrawn_reads s i g w1 g1 a : nth_error (snd s) i = Some g -> g_redraw g = true -> noise_samples g (fst s) = ((w1, g1), Ok a) ->
  (length (w_arrays (fst s)) <= a < length (w_arrays w1))%nat /\ forall es, exists l, w_arrays (fst (run (Read i :: es) s)) = w_arrays w1 ++ l.
Proof.
  intros E R Rd. destruct (read_grows _ _ Rd) as (_ & _ & Fr). split; [apply Fr; auto; now right|]. intros es. destruct (@on_same _ noise_samples i s g _ _ _ E Rd) as [A _].
  cbn [M_Noise.run fold_left]. change (fold_left step es (step s (Read i))) with (run es (step s (Read i))). destruct (run_arrays es (step s (Read i))) as [l EA]. exists l. rewrite EA. cbn [M_Noise.step]. now rewrite A.
Qed.

(** ---- coloured noise (C61) ---- *)
Theorem coloured_shape sd dt ratio g g' w w' a : g_kind g = Coloured sd dt ratio -> (1 <= ratio)%nat -> drawn g -> noise_samples g w = ((w', g'), Ok a) ->
  exists l n t, g_nops g = Some l /\ g_ntr g = Some n /\ g_nsamp g = Some t /\ wfa [l; n; t] (the_array w' a) /\ w_used w' = (w_used w + l * n * (t * ratio))%nat /\
   forall i j k, (i < l)%nat -> (j < n)%nat -> (k < t)%nat -> get3 0 (the_array w' a) i j k = colour sqrt root sd dt (t * ratio) (fun k => rnd (w_used w + (i * n + j) * (t * ratio) + k)) k.
Proof.
  assert (D0 : forall m1 m2 m3 (f : nat -> nat -> nat -> F), dim0 (mk3 m1 m2 m3 f) = m1) by reflexivity.
  assert (D1 : forall m1 m2 m3 (f : nat -> nat -> nat -> F), dim1 (mk3 m1 m2 m3 f) = m2) by reflexivity.
  assert (D2 : forall m1 m2 m3 (f : nat -> nat -> nat -> F), dim2 (mk3 m1 m2 m3 f) = m3) by reflexivity.
  intros K R D. rewrite (read_drawn erfinv sqrt sqrt2 rnd root w D). unfold M_Noise.sample_noise. rewrite K. unfold sample_coloured.
  destruct (g_nops g) as [l|]; [|discriminate]. destruct (g_ntr g) as [n|]; [|discriminate]. destruct (g_nsamp g) as [t|] eqn:ET; [|discriminate].
  destruct (Nat.eqb t 0 || Nat.eqb l 0 || Nat.eqb n 0) eqn:Z; [discriminate|]. apply orb_false_iff in Z. destruct Z as [Z Z3]. apply orb_false_iff in Z. destruct Z as [Z1 Z2]. apply Nat.eqb_neq in Z1, Z2, Z3.
  unfold fast_colored_noise. destruct (keqb dt 0); [discriminate|]. destruct (Nat.eqb_spec (t * ratio) 0) as [Y|Y]; [discriminate|]. unfold new_array. cbn [g_samples set_samples w_arrays w_lists w_used].
  intros H. inversion H; subst. exists l, n, t. split; auto. split; auto. split; auto. unfold the_array. cbn [w_arrays w_used]. rewrite app_nth2 by lia. rewrite Nat.sub_diag. cbn [nth].
  assert (M : Nat.min (t * ratio) t = t) by nia. rewrite D0, D1, D2, M. split; [apply wfa_mk3|]. split; auto.
  intros i j k Hi Hj Hk. rewrite get3_mk3 by auto. rewrite get3_mk3 by (auto; nia). reflexivity.
Qed.
Theorem coloured_returns sd dt ratio g w l n t : g_kind g = Coloured sd dt ratio -> (1 <= ratio)%nat -> dt <> 0 -> g_nops g = Some (S l) -> g_ntr g = Some (S n) -> g_nsamp g = Some (S t) ->
  exists w' g' a, noise_samples g w = ((w', g'), Ok a).
Proof.
  intros K R D L N T. destruct (g_samples g) as [a|] eqn:ES; [destruct (g_redraw g) eqn:ER|].
  2:{ exists w, g, a. now apply read_cached. }
  all: rewrite read_drawn by (red; auto); unfold M_Noise.sample_noise; rewrite K; unfold sample_coloured; rewrite L, N, T; cbn [Nat.eqb orb]; unfold fast_colored_noise;
    (destruct (keqb dt 0) eqn:Z; [apply keqb_eq in Z; congruence|]); (destruct (Nat.eqb_spec (S t * ratio) 0) as [Y|Y]; [nia|]); unfold new_array; cbn [g_samples set_samples]; eauto.
Qed.
(** every generator of a history has a ratio of at least one *)
Definition ratio_ok (g : gen F) : Prop := match g_kind g with Coloured _ _ ratio => (1 <= ratio)%nat | _ => True end.
Lemma on_kinds A (f : gen F -> world F -> (world F * gen F) * res A) i (s : state F) : (forall g w w' g' r, f g w = ((w', g'), r) -> g_kind g' = g_kind g) -> Forall ratio_ok (snd s) -> Forall ratio_ok (snd (on f i s)).
Proof.
  intros K H. unfold on. destruct (nth_error (snd s) i) as [g|] eqn:E; auto. destruct (f g (fst s)) as [[w1 g1] r] eqn:E1. cbn [snd]. apply Forall_forall. intros x Hx. apply In_nth_error in Hx. destruct Hx as [j Hj].
  rewrite setn_nth_error in Hj. rewrite Forall_forall in H. destruct (Nat.eqb j i && Nat.ltb i (length (snd s))); [|apply H; eapply nth_error_In; eauto]. inversion Hj; subst. unfold ratio_ok. rewrite (K _ _ _ _ _ E1). apply (H g). eapply nth_error_In; eauto.
Qed.
Lemma correct_setup a is : forall g w w' g' r, correct erfinv sqrt sqrt2 rnd root a is g w = ((w', g'), r) -> same_setup g g'.
Proof.
  induction is as [|i is IH]; intros g w w' g' r; cbn [correct].
  - intros E; inversion E; subst. apply setup_refl.
  - destruct (n_traces g w) as [[w1 g1] [n|e]] eqn:E1; destruct (n_traces_grows _ _ E1) as (_ & B & _).
    + destruct (gauss erfinv sqrt2 (nth i (the_list w1 a) 0) n 0) as [s|e]; [destruct (kltb (np_std sqrt s) tiny)|]; try (intros E; inversion E; subst; auto; fail).
      intros E. apply IH in E. unfold same_setup in *. intuition congruence.
    + intros E; inversion E; subst; auto.
Qed.
Lemma new_kind a nsamp ntr samples redraw c m w w' g : new_quasi_static a nsamp ntr samples redraw c m w = (w', Ok g) -> g_kind g = QuasiStatic a m.
Proof.
  unfold M_Noise.new_quasi_static. set (g0 := mkgen _ _ _ _ _ _). destruct c; [|intros E; inversion E; reflexivity]. destruct (n_traces g0 w) as [[w1 g1] [n|e]] eqn:E1; destruct (n_traces_grows _ _ E1) as (_ & (_ & _ & _ & _ & B) & _); [|discriminate].
  destruct (Nat.eqb n 1); [discriminate|]. destruct m; try (intros E; inversion E; subst; rewrite B; reflexivity).
  destruct (correct _ _ _ _ _ _ _ _ _) as [[w2 g2] [[]|e]] eqn:E2; [|discriminate]. apply correct_setup in E2. destruct E2 as (_ & _ & _ & _ & E2). intros E; inversion E; subst. now rewrite E2, B.
Qed.
Theorem ratios es : forall s, Forall ratio_ok (snd s) -> Forall ratio_ok (snd (run es s)).
Proof.
  induction es as [|e es IH]; intros s H; auto. change (run (e :: es) s) with (run es (step s e)). apply IH. destruct e; cbn [M_Noise.step]; auto.
  - unfold made. cbn [snd]. destruct (new_quasi_static _ _ _ _ _ _ _ _) as [w1 [g|e]] eqn:E; auto. cbn [snd]. apply Forall_app. split; auto. constructor; auto. red. now rewrite (new_kind _ _ _ _ _ _ _ _ E).
  - unfold made, new_coloured. cbn [snd]. destruct (Nat.ltb_spec ratio 1); auto. destruct dt; auto. cbn [snd]. apply Forall_app. split; auto.
  - apply on_kinds; auto. intros g w w' g' r E. destruct (read_grows _ _ E) as (_ & (_ & _ & _ & _ & B) & _). auto.
  - apply on_kinds; auto. intros g w w' g' r E. destruct (n_traces_grows _ _ E) as (_ & (_ & _ & _ & _ & B) & _). auto.
  - apply on_kinds; auto. intros g w w' g' r E. inversion E; subst. reflexivity.
Qed.
End Proofs.
Arguments ratio_ok {F}.
Theorem pow2_up_ok n : n <> 0%nat -> next_pow2 n (pow2_up n).
Proof.
  intros H. unfold pow2_up. destruct (Nat.eqb_spec n 0); [lia|]. split; [eauto|]. split; [destruct (Nat.eq_dec n 1) as [E|E]; [subst; simpl; lia|apply Nat.log2_up_spec; lia]|].
  intros k Hk. apply Nat.pow_le_mono_r; [lia|]. apply Nat.log2_up_le_pow2; lia.
Qed.

(** fast_colored_noise with rounding *)
Theorem rounded_shape (F : OField) (sqrt : F -> F) rnd root sd dt n m1 m2 p q a : fast_colored_noise sqrt rnd root sd dt n m1 m2 true p = (q, Ok a) ->
  exists m, next_pow2 n m /\ wfa [m1; m2; m] a /\ q = (p + m1 * m2 * m)%nat.
Proof.
  unfold fast_colored_noise. destruct (keqb dt 0); [discriminate|]. destruct (Nat.eqb_spec (pow2_up n) 0) as [Z|Z]; [discriminate|]. intros E. inversion E; subst. exists (pow2_up n). split.
  - apply pow2_up_ok. intros Y. subst. now apply Z.
  - split; auto. apply wfa_mk3.
Qed.
Theorem rounded_returns (F : OField) (sqrt : F -> F) rnd root sd dt n m1 m2 r p : dt <> k0 -> n <> 0%nat -> exists q a, fast_colored_noise sqrt rnd root sd dt n m1 m2 r p = (q, Ok a).
Proof.
  intros D N. unfold fast_colored_noise. destruct (keqb dt 0) eqn:Z; [apply keqb_eq in Z; congruence|].
  destruct (Nat.eqb_spec (if r then pow2_up n else n) 0) as [Y|Y]; [|eauto]. exfalso. destruct r; [|auto]. destruct (pow2_up_ok N) as (_ & L & _). lia.
Qed.
