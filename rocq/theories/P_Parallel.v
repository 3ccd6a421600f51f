(** Proofs about parallel.py (C53). *)
Require Import List Arith Lia Bool String Permutation.
From Verif Require Import LibBase M_OpHeap P_OpHeap M_Pool P_Pool M_Data S_Data P_Data.
Import ListNotations.
Open Scope list_scope.
Open Scope nat_scope.
Set Implicit Arguments.
Local Notation concat := List.concat.
Local Notation length := List.length.

Section Parallel.
Variables V O P U : Type.
Variable objeq : V -> V -> bool.
Variable run : U -> O * P -> (O * P) * res (rdata V).
Notation rdata := (rdata V).

(** ---- copies ---- *)
Lemma copies_ok opt (o : O) (pulses : list U) : forall oh, nth_error oh opt = Some o ->
  copies opt pulses oh = (oh ++ repeat o (length pulses), seq (length oh) (length pulses)).
Proof.
  induction pulses as [|u us IH]; intros oh E; cbn [copies length repeat seq]. { now rewrite app_nil_r. }
  unfold deepcopy. rewrite E. rewrite IH by (rewrite nth_error_app1; auto; apply nth_error_Some; congruence).
  rewrite <- app_assoc, app_length. cbn [app length]. now rewrite Nat.add_1_r.
Qed.

(** ---- one worker, one chunk ---- *)
Lemma work_ok (o : O) tasks : forall H (p p' : P) rs, (forall a u, In (a, u) tasks -> nth_error H a = Some o) -> NoDup (map fst tasks) ->
  work run H p tasks = (p', Ok rs) -> Forall2 (fun t r => run_from run o (snd t) r) tasks rs.
Proof.
  induction tasks as [|[a u] ts IH]; intros H p p' rs HO ND E; cbn in E. { inversion E. constructor. }
  rewrite (HO a u (or_introl eq_refl)) in E. destruct (run u (o, p)) as [[o1 p1] [r|e]] eqn:ER; [|discriminate].
  destruct (work run (lset H a o1) p1 ts) as [p2 [rs2|e]] eqn:EW; [|discriminate]. inversion E; subst. cbn in ND. inversion_clear ND as [|? ? N1 N2].
  constructor. { unfold run_from. cbn [snd]. eauto. } eapply IH; eauto. intros b v Hin. rewrite lset_nth_error_ne. { apply (HO b v). now right. }
  intros ->. apply N1. apply in_map_iff. exists (b, v). auto.
Qed.
Lemma work_total (o : O) tasks : forall H (p : P), (forall a u, In (a, u) tasks -> nth_error H a = Some o) -> NoDup (map fst tasks) ->
  (forall u p, In u (map snd tasks) -> exists s r, run u (o, p) = (s, Ok r)) -> exists p' rs, work run H p tasks = (p', Ok rs).
Proof.
  induction tasks as [|[a u] ts IH]; intros H p HO ND S; cbn. { eauto. }
  rewrite (HO a u (or_introl eq_refl)). destruct (S u p (or_introl eq_refl)) as ([o1 p1] & r & ->). cbn in ND. inversion_clear ND as [|? ? N1 N2].
  destruct (IH (lset H a o1) p1) as (p2 & rs & ->); eauto.
  - intros b v Hin. rewrite lset_nth_error_ne. { apply (HO b v). now right. } intros ->. apply N1. apply in_map_iff. exists (b, v). auto.
  - intros v q Hv. apply S. now right.
Qed.

(** ---- the pool ---- *)
Section Starmap.
Variables (H : list O) (o : O) (chs : list (list (nat * U))).
Hypothesis CHO : forall c a u, In (a, u) (nth c chs []) -> nth_error H a = Some o.
Hypothesis CHN : forall c, NoDup (map fst (nth c chs [])).
Lemma complete_spec sched : forall s, NoDup (map fst sched) -> (forall c, In c (map fst sched) -> c < length (ps_results s)) ->
  ps_error (fold_left (complete run H chs) sched s) = None ->
  length (ps_results (fold_left (complete run H chs) sched s)) = length (ps_results s) /\
  forall c, (In c (map fst sched) -> exists rs, nth_error (ps_results (fold_left (complete run H chs) sched s)) c = Some (Some rs) /\ Forall2 (fun t r => run_from run o (snd t) r) (nth c chs []) rs) /\
   (~ In c (map fst sched) -> nth_error (ps_results (fold_left (complete run H chs) sched s)) c = nth_error (ps_results s) c).
Proof.
  assert (ERR : forall sched s e, ps_error s = Some e -> ps_error (fold_left (complete run H chs) sched s) = Some e).
  { induction sched0 as [|[c w] sc IH]; intros s e E; cbn; auto. apply IH. unfold complete. destruct (work run H (ps_workers s w) (nth c chs [])) as [p' r]. rewrite E. reflexivity. }
  induction sched as [|[c w] sc IH]; intros s ND LT E; cbn [fold_left map fst] in *. { split; auto. intros c. split; [intros []|auto]. }
  inversion_clear ND as [|? ? N1 N2]. unfold complete at 2 in E.
  destruct (work run H (ps_workers s w) (nth c chs [])) as [p' r] eqn:EW.
  destruct (ps_error s) as [e|] eqn:Es. { rewrite (ERR _ _ e) in E by reflexivity. discriminate. }
  destruct r as [rs|e]. 2:{ rewrite (ERR _ _ e) in E by reflexivity. discriminate. }
  assert (EC : complete run H chs s (c, w) = mkps (fun v => if Nat.eqb v w then p' else ps_workers s v) (lset (ps_results s) c (Some rs)) None).
  { unfold complete. now rewrite EW, Es. }
  rewrite EC in *. edestruct IH as [L X]; [exact N2| |exact E|]. { intros c' Hc'. cbn. rewrite lset_length. apply LT. now right. }
  cbn [ps_results] in L, X. rewrite lset_length in L. split; auto. intros c'. destruct (X c') as [X1 X2]. split.
  - intros [<-|Hin]; auto. exists rs. rewrite X2 by auto. rewrite lset_nth_error_eq by (apply LT; now left). split; auto. eapply work_ok; eauto.
  - intros N. cbn in N. rewrite X2 by tauto. apply lset_nth_error_ne. tauto.
Qed.
Lemma complete_total sched : forall s, (forall c u p, In c (map fst sched) -> In u (map snd (nth c chs [])) -> exists s' r, run u (o, p) = (s', Ok r)) ->
  ps_error s = None -> ps_error (fold_left (complete run H chs) sched s) = None.
Proof.
  induction sched as [|[c w] sc IH]; intros s S E; cbn [fold_left]; auto. apply IH. { intros. eapply S; eauto. now right. }
  unfold complete. destruct (@work_total o (nth c chs []) H (ps_workers s w)) as (p' & rs & ->); auto. { intros a u. apply CHO. } { intros u p. apply S. now left. }
  now rewrite E.
Qed.
End Starmap.
Lemma Forall2_concat {A B} (R : A -> B -> Prop) ll mm : Forall2 (Forall2 R) ll mm -> Forall2 R (concat ll) (concat mm).
Proof. induction 1; cbn; [constructor|]. now apply Forall2_app. Qed.
Lemma Forall2_nth {A B} (R : A -> B -> Prop) l m da db : length l = length m -> (forall i, i < length l -> R (nth i l da) (nth i m db)) -> Forall2 R l m.
Proof.
  revert m. induction l as [|x l IH]; intros [|y m] L X; try discriminate; constructor. { apply (X 0). cbn. lia. } apply IH; auto. intros i Hi. apply (X (Datatypes.S i)). cbn. lia.
Qed.
Lemma Forall2_nth_inv {A B} (R : A -> B -> Prop) l m : Forall2 R l m -> forall i x, nth_error l i = Some x -> exists y, nth_error m i = Some y /\ R x y.
Proof. induction 1; intros [|i] z E; cbn in *; try discriminate; [inversion E; subst; eauto|eauto]. Qed.
Lemma starmap_ok H o p0 chunk sched tasks rs : 0 < chunk -> Permutation (map fst sched) (seq 0 (length (chunks chunk tasks))) ->
  (forall a u, In (a, u) tasks -> nth_error H a = Some o) -> NoDup (map fst tasks) ->
  starmap run H p0 chunk sched tasks = Ok rs -> Forall2 (fun t r => run_from run o (snd t) r) tasks rs.
Proof.
  intros Hc HP HO ND E. unfold starmap in E. set (chs := chunks chunk tasks) in *. set (s := fold_left (complete run H chs) sched (mkps (fun _ => p0) (repeat None (length chs)) None)) in *.
  destruct (ps_error s) as [e|] eqn:Es; [discriminate|]. inversion E. clear E.
  assert (CC : concat chs = tasks) by (apply concat_chunks; auto).
  assert (CHO : forall c a u, In (a, u) (nth c chs []) -> nth_error H a = Some o).
  { intros c a u Hin. apply (HO a u). rewrite <- CC. destruct (Nat.lt_ge_cases c (length chs)) as [L|L]. { apply in_concat. exists (nth c chs []). split; auto. now apply nth_In. } rewrite nth_overflow in Hin by auto. destruct Hin. }
  assert (CHN : forall c, NoDup (map fst (nth c chs []))).
  { intros c. destruct (Nat.lt_ge_cases c (length chs)) as [L|L]. 2:{ rewrite nth_overflow by auto. constructor. }
    rewrite <- CC in ND. rewrite concat_map in ND. apply (NoDup_concat_nth _ ND c). apply map_nth_error. now apply nth_error_nth'. }
  destruct (@complete_spec H o chs CHO CHN sched (mkps (fun _ => p0) (repeat None (length chs)) None)) as [L X].
  { apply (Permutation_NoDup (Permutation_sym HP)). apply seq_NoDup. }
  { intros c Hin. cbn. rewrite repeat_length. apply (Permutation_in c HP) in Hin. apply in_seq in Hin. lia. }
  { exact Es. }
  fold s in L, X. cbn in L. rewrite repeat_length in L. rewrite <- CC at 1. apply Forall2_concat. apply Forall2_nth with (da := []) (db := []).
  { rewrite map_length. congruence. }
  intros c Hl. destruct (X c) as [X1 _]. destruct X1 as (r & E1 & E2). { apply (Permutation_in c (Permutation_sym HP)). apply in_seq. lia. }
  rewrite (nth_error_nth _ _ _ (map_nth_error (fun r : option (list rdata) => match r with Some ys => ys | None => [] end) c _ E1)). exact E2.
Qed.
Lemma starmap_total H o p0 chunk sched tasks : 0 < chunk -> (forall a u, In (a, u) tasks -> nth_error H a = Some o) -> NoDup (map fst tasks) ->
  (forall u p, In u (map snd tasks) -> exists s r, run u (o, p) = (s, Ok r)) -> exists rs, starmap run H p0 chunk sched tasks = Ok rs.
Proof.
  intros Hc HO ND S. unfold starmap. set (chs := chunks chunk tasks).
  assert (CC : concat chs = tasks) by (apply concat_chunks; auto).
  assert (SUB : forall c x, In x (nth c chs []) -> In x tasks).
  { intros c x Hin. rewrite <- CC. destruct (Nat.lt_ge_cases c (length chs)) as [L|L]. { apply in_concat. exists (nth c chs []). split; auto. now apply nth_In. } rewrite nth_overflow in Hin by auto. destruct Hin. }
  rewrite (@complete_total H o chs); [eauto| | | |reflexivity].
  - intros c a u Hin. apply (HO a u). eauto.
  - intros c. destruct (Nat.lt_ge_cases c (length chs)) as [L|L]. 2:{ rewrite nth_overflow by auto. constructor. }
    rewrite <- CC in ND. rewrite concat_map in ND. apply (NoDup_concat_nth _ ND c). apply map_nth_error. now apply nth_error_nth'.
  - intros c u p _ Hu. apply S. apply in_map_iff in Hu. destruct Hu as ([a v] & <- & Hv). apply in_map_iff. exists (a, v). eauto.
Qed.

(** ---- results arrive and are appended ---- *)
Definition received (h : lheap V) (r : rdata) (q : ores V) : Prop :=
  r_final_cost q = r_final_cost (q_res r) /\ r_init q = r_init (q_res r) /\ r_final q = r_final (q_res r) /\ r_stat q = r_stat (q_res r) /\ r_stats q = r_stats (q_res r) /\
  r_indices q = r_indices (q_res r) /\
  match q_sum r with None => r_summary q = r_summary (q_res r)
    | Some (c, p) => exists a b, r_summary q = VSummary (VRef a) (VRef b) /\ nth_error h a = Some c /\ nth_error h b = Some p end.
Lemma received_later h h' r q : received h r q -> (forall a, a < length h -> nth_error h' a = nth_error h a) -> received h' r q.
Proof.
  intros (E1 & E2 & E3 & E4 & E5 & E6 & E7) FR. do 6 (split; auto). destruct (q_sum r) as [[c p]|]; auto. destruct E7 as (a & b & A & B & C). exists a, b.
  split; auto. rewrite !FR; auto; apply nth_error_Some; congruence.
Qed.
Lemma receive_all_ok rs : forall h h' qs, receive_all rs h = (h', qs) -> Forall2 (received h') rs qs /\ (exists x, h' = h ++ x).
Proof.
  induction rs as [|r rs IH]; intros h h' qs E; cbn in E. { inversion E. split; [constructor|exists []; now rewrite app_nil_r]. }
  destruct (receive r h) as [h1 q] eqn:E1. destruct (receive_all rs h1) as [h2 qs2] eqn:E2. inversion E; subst. destruct (IH _ _ _ E2) as [A [x Ex]].
  assert (R1 : received h1 r q /\ exists y, h1 = h ++ y).
  { unfold receive in E1. destruct (q_sum r) as [[c p]|] eqn:Q; inversion E1; subst.
    - split; [|eauto]. unfold received. rewrite Q. cbn. do 6 (split; auto). exists (length h), (Datatypes.S (length h)). split; auto. split.
      + rewrite nth_error_app2, Nat.sub_diag by auto. reflexivity.
      + rewrite nth_error_app2 by lia. replace (Datatypes.S (length h) - length h) with 1 by lia. reflexivity.
    - split; [|exists []; now rewrite app_nil_r]. unfold received. rewrite Q. auto 10. }
  destruct R1 as [R1 [y Ey]]. split.
  - constructor; auto. eapply received_later; eauto. intros a L. rewrite Ex. now apply nth_error_app1.
  - exists (y ++ x). rewrite Ex, Ey. now rewrite app_assoc.
Qed.
Lemma append_all_ok ix rs : forall h S as_ d log, cinv h S as_ d log -> NoDup as_ -> incl as_ S -> (forall a, In a S -> a < length h) ->
  Forall (fun q => r_indices q = VStrs ix) log -> Forall (fun q => result_ok q /\ r_indices q = VStrs ix) rs ->
  exists h' d', append_all objeq d rs h = (h', Ok d') /\ cinv h' S as_ d' (log ++ rs) /\ (forall a, a < length h -> ~ In a as_ -> nth_error h' a = nth_error h a).
Proof.
  induction rs as [|r rs IH]; intros h S as_ d log CI ND INC LT IL IR; cbn [append_all]. { exists h, d. rewrite app_nil_r. auto. }
  inversion_clear IR as [|? ? [RO RI] IR']. destruct (@append_acc V objeq h S as_ d log r) as (h1 & d1 & E & C & L & FR); auto.
  { destruct log as [|q log]; cbn; auto. inversion_clear IL as [|? ? Q _]. congruence. }
  rewrite E. destruct (IH h1 S as_ d1 (log ++ [r]) C ND INC) as (h2 & d2 & E2 & C2 & FR2); auto.
  { intros a A. apply LT in A. lia. } { apply Forall_app. split; auto. }
  exists h2, d2. rewrite <- app_assoc in C2. split; auto. split; auto. intros a La N. rewrite FR2 by (auto; lia). auto.
Qed.

(** ---- the number of chunks ---- *)
Lemma chunks_fuel_length {A B} n c : forall (l : list A) (m : list B), length l = length m -> length (chunks_fuel n c l) = length (chunks_fuel n c m).
Proof.
  induction n as [|n IH]; intros l m L; destruct l, m; try discriminate; auto. cbn [chunks_fuel length]. f_equal. apply IH. rewrite !skipn_length. now rewrite L.
Qed.
Lemma chunks_length {A B} c (l : list A) (m : list B) : length l = length m -> length (chunks c l) = length (chunks c m).
Proof. intros L. unfold chunks. rewrite L. now apply chunks_fuel_length. Qed.

(** C53 *)
Lemma tasks_copies (oh : list O) o (pulses : list U) a u : In (a, u) (combine (seq (length oh) (length pulses)) pulses) -> nth_error (oh ++ repeat o (length pulses)) a = Some o.
Proof.
  intros Hin. apply in_combine_l in Hin. apply in_seq in Hin. rewrite nth_error_app2 by lia. rewrite (nth_error_nth' _ o) by (rewrite repeat_length; lia). f_equal. apply nth_repeat.
Qed.
Lemma map_fst_combine {A B} (l : list A) (m : list B) : length l = length m -> map fst (combine l m) = l.
Proof. revert m. induction l; intros [|y m] L; try discriminate; cbn; auto. f_equal. apply IHl. now inversion L. Qed.
Lemma map_snd_combine {A B} (l : list A) (m : list B) : length l = length m -> map snd (combine l m) = m.
Proof. revert m. induction l; intros [|y m] L; try discriminate; cbn; auto. f_equal. apply IHl. now inversion L. Qed.
Lemma Forall2_combine {A B C} (R : B -> C -> Prop) (l : list A) (m : list B) (n : list C) : length l = length m -> Forall2 (fun t r => R (snd t) r) (combine l m) n -> Forall2 R m n.
Proof. revert m n. induction l; intros [|y m] n L H; try discriminate; inversion H; subst; constructor; auto. Qed.

Theorem parallel_unchanged opt pulses p0 chunk sched oh h oh' x : run_optimization_parallel objeq run opt pulses p0 chunk sched oh h = (oh', x) ->
  forall a o, nth_error oh a = Some o -> nth_error oh' a = Some o.
Proof.
  intros E a o Ha. unfold run_optimization_parallel in E. destruct (copies opt pulses oh) as [oh1 opts] eqn:EC.
  assert (X : exists y, oh1 = oh ++ y).
  { clear - EC. revert oh oh1 opts EC. induction pulses as [|u us IH]; intros oh oh1 opts E; cbn in E. { inversion E. exists []. now rewrite app_nil_r. }
    destruct (deepcopy opt oh) as [oh2 b] eqn:ED. destruct (copies opt us oh2) as [oh3 l] eqn:E2. inversion E; subst. destruct (IH _ _ _ E2) as [y ->].
    unfold deepcopy in ED. destruct (nth_error oh opt); inversion ED; subst; [|eauto]. rewrite <- app_assoc. eauto. }
  destruct X as [y ->]. assert (oh' = oh ++ y).
  { destruct (starmap run (oh ++ y) p0 chunk sched (combine opts pulses)); [|now inversion E]. destruct (receive_all a0 h). destruct (new_container [] l) as [h2 [d|e]]; now inversion E. }
  subst. rewrite nth_error_app1; auto. apply nth_error_Some. congruence.
Qed.
Lemma nth_of_map {A} (h : lheap V) v a (f : A -> val V) l i x : v = VRef a -> nth_error h a = Some (map f l) -> nth_error l i = Some x -> nth_of h v i (f x).
Proof. intros -> E N. exists (map f l). split. { exists a. auto. } now apply map_nth_error. Qed.
Lemma results_good o ix (pulses : list U) rs h1 qs : has_indices run o ix -> Forall2 (run_from run o) pulses rs -> Forall2 (received h1) rs qs -> Forall (fun q => result_ok q /\ r_indices q = VStrs ix) qs.
Proof.
  intros HI F RA. revert qs RA. induction F as [|u r us rs (p & o' & p' & Hr) F IH]; intros qs RA; inversion RA as [|? q ? qs2 Q RA2]; subst; constructor; auto.
  destruct (HI _ _ _ _ _ Hr) as [I1 I2]. destruct Q as (_ & _ & _ & _ & _ & Q6 & Q7). rewrite I1 in Q6. split; auto. split; eauto.
  destruct (q_sum r) as [[c pp]|]; [|left; rewrite Q7; auto]. destruct Q7 as (a & b & -> & _). eauto.
Qed.
Theorem parallel_results opt o oh pulses p0 chunk sched h oh' h' d ix : nth_error oh opt = Some o -> has_indices run o ix -> 0 < chunk ->
  Permutation (map fst sched) (seq 0 (length (chunks chunk pulses))) ->
  run_optimization_parallel objeq run opt pulses p0 chunk sched oh h = (oh', (h', Ok d)) ->
  dc_len h' d = Ok (length pulses) /\ forall i u, nth_error pulses i = Some u -> exists r, run_from run o u r /\ entry_is h' d i r.
Proof.
  intros Ho HI Hc HP E. unfold run_optimization_parallel in E. rewrite (copies_ok opt pulses oh Ho) in E.
  assert (LS : length (seq (length oh) (length pulses)) = length pulses) by apply seq_length.
  destruct (starmap run _ p0 chunk sched (combine (seq (length oh) (length pulses)) pulses)) as [rs|e] eqn:ES; [|discriminate].
  assert (F : Forall2 (run_from run o) pulses rs).
  { apply Forall2_combine with (l := seq (length oh) (length pulses)); auto. eapply starmap_ok; [exact Hc| | | |exact ES].
    - rewrite (chunks_length chunk (combine (seq (length oh) (length pulses)) pulses) pulses); auto. rewrite combine_length. lia.
    - intros a u. apply tasks_copies.
    - rewrite map_fst_combine by auto. apply seq_NoDup. }
  destruct (receive_all rs h) as [h1 qs] eqn:ER. destruct (receive_all_ok _ _ ER) as [RA [x Ex]].
  destruct (new_container_inv h1) as (d0 & EN & CI). rewrite EN in E. set (h2 := h1 ++ [[]; []; []; []; []; []; []]) in *.
  destruct (@append_all_ok ix qs h2 (seq (length h1) 7) (seq (length h1) 7) d0 [] (CI _)) as (h3 & d3 & E3 & C3 & FR); auto.
  { apply seq_NoDup. } { intros a A. exact A. } { intros a A. apply in_seq in A. unfold h2. rewrite app_length. cbn. lia. }
  { eapply results_good; eauto. }
  assert (EQ : (oh ++ repeat o (length pulses), append_all objeq d0 qs h2) = (oh', (h', Ok d))) by exact E. rewrite E3 in EQ. inversion EQ; subst h3 d3. clear EQ E.
  assert (LQ : length qs = length pulses). { rewrite <- (Forall2_len RA). symmetry. eapply Forall2_len; eauto. }
  cbn [app] in C3. split. { rewrite <- LQ. apply (cinv_holds C3). }
  intros i u Hi. destruct (Forall2_nth_inv F i Hi) as (r & Hr & RF). exists r. split; auto. destruct (Forall2_nth_inv RA i Hr) as (q & Hq & RC).
  destruct C3 as (a1 & a2 & a3 & a4 & a5 & a6 & a7 & cs & ps & EA & E1 & E2 & E3' & E4 & E5 & E6 & E7 & H1 & H2 & H3 & H4 & H5 & H6 & H7 & H8 & H9 & _).
  destruct (Forall2_nth_inv H8 i Hq) as (c & Hc' & CE). destruct (Forall2_nth_inv H9 i Hq) as (p & Hp & PE).
  assert (OLD : forall a l, nth_error h1 a = Some l -> nth_error h' a = Some l).
  { intros a l A. assert (a < length h1) by (apply nth_error_Some; congruence). rewrite FR. - unfold h2. now rewrite nth_error_app1.
    - unfold h2. rewrite app_length. lia. - intros X. apply in_seq in X. lia. }
  destruct RC as (R1 & R2 & R3 & R4 & R5 & R6 & R7). unfold entry_is. rewrite <- R1, <- R2, <- R3, <- R4, <- R5.
  do 5 (split; [eapply nth_of_map; eauto|]).
  destruct RF as (pp & o2 & p2 & RF). destruct (HI _ _ _ _ _ RF) as [_ I2].
  assert (CS : exists c l, nth_error cs i = Some c /\ list_is h' c l /\ l = match q_sum r with Some (x, _) => x | None => [] end).
  { exists c. destruct (q_sum r) as [[c0 p1]|].
    - destruct R7 as (a & b & S & A & B). exists c0. split; auto. split; auto. unfold centry in CE. rewrite S in CE. subst c. exists a. auto.
    - exists []. split; auto. split; auto. unfold centry in CE. rewrite R7, I2 in CE by auto. destruct CE as (a & A & B & _). exists a. auto. }
  assert (PS : exists c l, nth_error ps i = Some c /\ list_is h' c l /\ l = match q_sum r with Some (_, x) => x | None => [] end).
  { exists p. destruct (q_sum r) as [[c0 p1]|].
    - destruct R7 as (a & b & S & A & B). exists p1. split; auto. split; auto. unfold pentry in PE. rewrite S in PE. subst p. exists b. auto.
    - exists []. split; auto. split; auto. unfold pentry in PE. rewrite R7, I2 in PE by auto. destruct PE as (a & A & B & _). exists a. auto. }
  split.
  - destruct CS as (v & l & A & B & ->). exists v. split; auto. exists cs. split; auto. exists a4. auto.
  - destruct PS as (v & l & A & B & ->). exists v. split; auto. exists ps. split; auto. exists a5. auto.
Qed.
(** if the process state does not matter, every schedule gives the same entries *)
Theorem parallel_schedule opt o oh pulses p0 chunk sched h oh' h' d ix q : nth_error oh opt = Some o -> has_indices run o ix -> 0 < chunk ->
  Permutation (map fst sched) (seq 0 (length (chunks chunk pulses))) -> (forall u p p', snd (run u (o, p)) = snd (run u (o, p'))) ->
  run_optimization_parallel objeq run opt pulses p0 chunk sched oh h = (oh', (h', Ok d)) ->
  forall i u, nth_error pulses i = Some u -> exists r, snd (run u (o, q)) = Ok r /\ entry_is h' d i r.
Proof.
  intros Ho HI Hc HP DT E i u Hi. destruct (@parallel_results opt o oh pulses p0 chunk sched h oh' h' d ix Ho HI Hc HP E) as [_ X]. destruct (X i u Hi) as (r & (p & o' & p' & Hr) & EN).
  exists r. split; auto. rewrite (DT u q p), Hr. reflexivity.
Qed.
Theorem parallel_total opt o oh pulses p0 chunk sched h ix : nth_error oh opt = Some o -> has_indices run o ix -> 0 < chunk ->
  Permutation (map fst sched) (seq 0 (length (chunks chunk pulses))) -> (forall u p, In u pulses -> exists s r, run u (o, p) = (s, Ok r)) ->
  exists oh' h' d, run_optimization_parallel objeq run opt pulses p0 chunk sched oh h = (oh', (h', Ok d)).
Proof.
  intros Ho HI Hc HP S. unfold run_optimization_parallel. rewrite (copies_ok opt pulses oh Ho).
  assert (LS : length (seq (length oh) (length pulses)) = length pulses) by apply seq_length.
  assert (TC : forall a u, In (a, u) (combine (seq (length oh) (length pulses)) pulses) -> nth_error (oh ++ repeat o (length pulses)) a = Some o) by (intros a u; apply tasks_copies).
  assert (TN : NoDup (map fst (combine (seq (length oh) (length pulses)) pulses))) by (rewrite map_fst_combine by auto; apply seq_NoDup).
  destruct (@starmap_total (oh ++ repeat o (length pulses)) o p0 chunk sched (combine (seq (length oh) (length pulses)) pulses)) as (rs & ES); auto.
  { rewrite map_snd_combine by auto. auto. }
  rewrite ES.
  assert (F : Forall2 (run_from run o) pulses rs).
  { apply Forall2_combine with (l := seq (length oh) (length pulses)); auto. eapply starmap_ok; [exact Hc| | | |exact ES]; auto.
    rewrite (chunks_length chunk (combine (seq (length oh) (length pulses)) pulses) pulses); auto. rewrite combine_length. lia. }
  destruct (receive_all rs h) as [h1 qs] eqn:ER. destruct (receive_all_ok _ _ ER) as [RA [x Ex]].
  destruct (new_container_inv h1) as (d0 & EN & CI). rewrite EN. set (h2 := h1 ++ [[]; []; []; []; []; []; []]) in *.
  destruct (@append_all_ok ix qs h2 (seq (length h1) 7) (seq (length h1) 7) d0 [] (CI _)) as (h3 & d3 & E3 & C3 & FR); auto.
  { apply seq_NoDup. } { intros a A. exact A. } { intros a A. apply in_seq in A. unfold h2. rewrite app_length. cbn. lia. }
  { eapply results_good; eauto. }
  exists (oh ++ repeat o (length pulses)), h3, d3. f_equal. exact E3.
Qed.
End Parallel.
