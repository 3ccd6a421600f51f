(** Proofs about data containers: logs of appended results, serialisation, run selection. *)
Require Import List Arith Lia Bool String.
From Verif Require Import LibBase LibRing M_OpHeap P_OpHeap M_Data S_Data.
Import ListNotations.
Open Scope list_scope.
Open Scope nat_scope.
Set Implicit Arguments.
Local Notation concat := List.concat.
Local Notation length := List.length.

Section Log.
Variable V : Type.
Variable objeq : V -> V -> bool.
Notation val := (val V).
Notation lheap := (lheap V).
Notation dcont := (dcont V).
Notation ores := (ores V).

(** ---- appending to several lists ---- *)
Definition addall (l : list (nat * val)) (h : lheap) : lheap := fold_left (fun h p => lset h (fst p) (items h (fst p) ++ [snd p])) l h.
Lemma addall_length l : forall h, length (addall l h) = length h.
Proof. induction l as [|p l IH]; intros h; cbn; auto. unfold addall in IH. rewrite IH. apply lset_length. Qed.
Lemma addall_frame l : forall h a, ~ In a (map fst l) -> nth_error (addall l h) a = nth_error h a.
Proof.
  induction l as [|p l IH]; intros h a H; cbn in *; auto. unfold addall in IH. rewrite IH by tauto. apply lset_nth_error_ne. tauto.
Qed.
Lemma items_nth (h : lheap) a l : nth_error h a = Some l -> items h a = l.
Proof. intros H. unfold items. now apply nth_error_nth. Qed.
Lemma addall_at l : forall h a v x, NoDup (map fst l) -> In (a, v) l -> nth_error h a = Some x -> nth_error (addall l h) a = Some (x ++ [v]).
Proof.
  induction l as [|[b w] l IH]; intros h a v x ND Hin E; [destruct Hin|]. cbn in ND. inversion_clear ND as [|? ? N1 N2]. cbn.
  assert (L : a < length h) by (apply nth_error_Some; congruence).
  destruct Hin as [Heq|Hin].
  - inversion Heq; subst b w. fold (addall l (lset h a (items h a ++ [v]))). rewrite addall_frame by auto. rewrite lset_nth_error_eq by auto.
    now rewrite (items_nth _ _ E).
  - assert (a <> b). { intros ->. apply N1. apply in_map_iff. exists (b, v). auto. }
    fold (addall l (lset h b (items h b ++ [w]))). apply IH; auto. rewrite lset_nth_error_ne; auto.
Qed.
Lemma fold_appends (d : dcont) l : forall h,
  fold_left (fun (acc : lheap * res dcont) (p : val * val) =>
    match snd acc with Err _ => acc | Ok d => match py_append (fst p) (snd p) (fst acc) with (h', Ok _) => (h', Ok d) | (h', Err e) => (h', Err e) end end)
    (map (fun p => (VRef (fst p), snd p)) l) (h, Ok d) = (addall l h, Ok d).
Proof. induction l as [|p l IH]; intros h; cbn; auto. Qed.

Lemma strs_eqb_ok l : forall m, strs_eqb l m = true <-> l = m.
Proof.
  induction l as [|x l IH]; intros [|y m]; cbn; split; intros H; try discriminate; auto.
  - apply andb_true_iff in H. destruct H as [A B]. apply String.eqb_eq in A. apply IH in B. congruence.
  - inversion H; subst. rewrite String.eqb_refl. cbn. now apply IH.
Qed.

(** ---- one container ---- *)
Definition centry (h : lheap) (S : list nat) (r : ores) (v : val) : Prop := match r_summary r with VSummary c _ => v = c | _ => exists a, v = VRef a /\ nth_error h a = Some [] /\ ~ In a S end.
Definition pentry (h : lheap) (S : list nat) (r : ores) (v : val) : Prop := match r_summary r with VSummary _ p => v = p | _ => exists a, v = VRef a /\ nth_error h a = Some [] /\ ~ In a S end.
Definition cinv (h : lheap) (S : list nat) (as_ : list nat) (d : dcont) (log : list ores) : Prop :=
  exists a1 a2 a3 a4 a5 a6 a7 cs ps, as_ = [a1; a2; a3; a4; a5; a6; a7] /\
   d_final_costs d = VRef a1 /\ d_init d = VRef a2 /\ d_final d = VRef a3 /\ d_costs d = VRef a4 /\ d_pars d = VRef a5 /\ d_status d = VRef a6 /\ d_stats d = VRef a7 /\
   nth_error h a1 = Some (map (@r_final_cost V) log) /\ nth_error h a2 = Some (map (@r_init V) log) /\ nth_error h a3 = Some (map (@r_final V) log) /\
   nth_error h a4 = Some cs /\ nth_error h a5 = Some ps /\ nth_error h a6 = Some (map (@r_stat V) log) /\ nth_error h a7 = Some (map (@r_stats V) log) /\
   Forall2 (centry h S) log cs /\ Forall2 (pentry h S) log ps /\ match log with [] => True | r :: _ => d_indices d = r_indices r end /\ Forall (fun r => exists l, r_indices r = VStrs l) log.

Lemma Forall2_len {A B} (R : A -> B -> Prop) l m : Forall2 R l m -> length l = length m.
Proof. induction 1; cbn; auto. Qed.
Lemma Forall2_impl {A B} (R Q : A -> B -> Prop) l m : (forall x y, R x y -> Q x y) -> Forall2 R l m -> Forall2 Q l m.
Proof. intros H. induction 1; constructor; auto. Qed.
Lemma cinv_holds h S as_ d log : cinv h S as_ d log -> holds h d log.
Proof.
  intros (a1 & a2 & a3 & a4 & a5 & a6 & a7 & cs & ps & -> & E1 & E2 & E3 & E4 & E5 & E6 & E7 & H1 & H2 & H3 & H4 & H5 & H6 & H7 & H8 & H9 & H10 & _).
  unfold holds, list_is. split. { unfold dc_len. rewrite E4. cbn. rewrite (items_nth _ _ H4). f_equal. symmetry. eapply Forall2_len; eauto. }
  do 5 (split; [eexists; split; eauto|]). split; [|split].
  - exists cs. split; [eauto|]. eapply Forall2_impl; [|exact H8]. intros r v. unfold centry, costs_entry, list_is. destruct (r_summary r); auto; intros (b0 & A & B & _); eauto.
  - exists ps. split; [eauto|]. eapply Forall2_impl; [|exact H9]. intros r v. unfold pentry, pars_entry, list_is. destruct (r_summary r); auto; intros (b0 & A & B & _); eauto.
  - exact H10.
Qed.
(** changes elsewhere; T: the changed lists *)
Lemma cinv_frame h S as_ d log h' S' T : cinv h S as_ d log -> (forall a, a < length h -> ~ In a T -> nth_error h' a = nth_error h a) ->
  (forall a, In a as_ -> ~ In a T) -> (forall a, In a T -> In a S) -> (forall a, In a S' -> In a S \/ length h <= a) -> cinv h' S' as_ d log.
Proof.
  intros (a1 & a2 & a3 & a4 & a5 & a6 & a7 & cs & ps & -> & E1 & E2 & E3 & E4 & E5 & E6 & E7 & H1 & H2 & H3 & H4 & H5 & H6 & H7 & H8 & H9 & H10 & H11) FR D TS SS.
  exists a1, a2, a3, a4, a5, a6, a7, cs, ps.
  assert (X : forall a x, nth_error h a = Some x -> ~ In a T -> nth_error h' a = Some x). { intros a x E N. rewrite FR; auto. apply nth_error_Some. congruence. }
  assert (E : forall a, (exists x, nth_error h a = Some x) /\ ~ In a S -> nth_error h' a = nth_error h a /\ ~ In a S').
  { intros a [[x Ex] N]. split. { rewrite Ex. apply X; auto. } intros Hin. destruct (SS _ Hin) as [|L]; auto. apply nth_error_None in L. congruence. }
  repeat (split; [solve [auto using in_eq, in_cons | apply X; auto; apply D; cbn; tauto]|]).
  split; [|split].
  - eapply Forall2_impl; [|exact H8]. intros r v. unfold centry. destruct (r_summary r); auto; intros (b0 & A & B & C); destruct (E b0) as [E' N']; eauto; exists b0; rewrite E'; auto.
  - eapply Forall2_impl; [|exact H9]. intros r v. unfold pentry. destruct (r_summary r); auto; intros (b0 & A & B & C); destruct (E b0) as [E' N']; eauto; exists b0; rewrite E'; auto.
  - auto.
Qed.
Definition with_ix (d : dcont) ix := mkdc (d_storage d) (d_file d) ix (d_final_costs d) (d_init d) (d_final d) (d_costs d) (d_pars d) (d_status d) (d_stats d) (d_time d).
Lemma Forall2_snoc {A B} (R : A -> B -> Prop) l m x y : Forall2 R l m -> R x y -> Forall2 R (l ++ [x]) (m ++ [y]).
Proof. induction 1; cbn; intros; constructor; auto. Qed.

Lemma dc_append_acc h S as_ d log r c p : cinv h S as_ d log -> NoDup as_ -> incl as_ S -> (exists l, r_indices r = VStrs l) -> accepts log r ->
  centry h S r c -> pentry h S r p ->
  exists h' d', dc_append objeq d (r_final_cost r) (r_indices r) (r_init r) (r_final r) c p (r_stat r) (r_stats r) h = (h', Ok d') /\
   cinv h' S as_ d' (log ++ [r]) /\ length h' = length h /\ (forall a, ~ In a as_ -> nth_error h' a = nth_error h a).
Proof.
  intros CI ND INC IX AC CE PE. pose proof CI as CI0.
  destruct CI as (a1 & a2 & a3 & a4 & a5 & a6 & a7 & cs & ps & -> & E1 & E2 & E3 & E4 & E5 & E6 & E7 & H1 & H2 & H3 & H4 & H5 & H6 & H7 & H8 & H9 & H10 & H11).
  set (l := [(a1, r_final_cost r); (a2, r_init r); (a3, r_final r); (a4, c); (a5, p); (a6, r_stat r); (a7, r_stats r)]).
  assert (KEY : exists d', dc_append objeq d (r_final_cost r) (r_indices r) (r_init r) (r_final r) c p (r_stat r) (r_stats r) h = (addall l h, Ok d') /\
     (d' = with_ix d (r_indices r) /\ log = [] \/ d' = d /\ log <> [])).
  { unfold dc_append, dc_len. rewrite E4. cbn [py_len]. rewrite (items_nth _ _ H4). pose proof (Forall2_len H8) as L. destruct log as [|q log].
    - destruct cs; [|discriminate]. cbn [length Nat.eqb]. exists (with_ix d (r_indices r)). split; [|auto].
      pose proof (fold_appends (with_ix d (r_indices r)) l h) as FA. unfold l at 1 in FA. cbn [map fst snd] in FA. rewrite <- FA. unfold with_ix.
      cbn [d_final_costs d_init d_final d_costs d_pars d_status d_stats]. rewrite E1, E2, E3, ?E4, E5, E6, E7. reflexivity.
    - destruct cs; [discriminate|]. cbn [length Nat.eqb]. cbn in AC, H10. exists d. split; [|right; split; congruence].
      rewrite H10, AC. assert (Y : py_eqb objeq h (r_indices r) (r_indices r) = true). { destruct IX as [ll ->]. cbn. now apply strs_eqb_ok. }
      rewrite Y. pose proof (fold_appends d l h) as FA. unfold l at 1 in FA. cbn [map fst snd] in FA. rewrite <- FA. rewrite E1, E2, E3, ?E4, E5, E6, E7. reflexivity. }
  destruct KEY as (d' & EQ & KD). exists (addall l h), d'. split; auto.
  assert (ML : map fst l = [a1; a2; a3; a4; a5; a6; a7]) by reflexivity.
  assert (FRM : forall a, ~ In a [a1; a2; a3; a4; a5; a6; a7] -> nth_error (addall l h) a = nth_error h a). { intros a N. apply addall_frame. now rewrite ML. }
  assert (AT : forall a v x, In (a, v) l -> nth_error h a = Some x -> nth_error (addall l h) a = Some (x ++ [v])). { intros. apply addall_at; auto. }
  assert (EN : forall a, nth_error h a = Some [] -> ~ In a S -> nth_error (addall l h) a = Some [] /\ ~ In a S). { intros a A B. split; auto. rewrite FRM; auto. }
  split; [|split; [apply addall_length|auto]].
  exists a1, a2, a3, a4, a5, a6, a7, (cs ++ [c]), (ps ++ [p]).
  assert (DD : d_final_costs d' = d_final_costs d /\ d_init d' = d_init d /\ d_final d' = d_final d /\ d_costs d' = d_costs d /\ d_pars d' = d_pars d /\ d_status d' = d_status d /\ d_stats d' = d_stats d).
  { destruct KD as [[-> _]|[-> _]]; cbn; auto 10. }
  destruct DD as (-> & -> & -> & -> & -> & -> & ->). rewrite !map_app. cbn [map].
  assert (CM : forall q v, centry h S q v -> centry (addall l h) S q v). { intros q v. unfold centry. destruct (r_summary q); auto; intros (b0 & A & B & C); destruct (EN b0 B C); eauto. }
  assert (PM : forall q v, pentry h S q v -> pentry (addall l h) S q v). { intros q v. unfold pentry. destruct (r_summary q); auto; intros (b0 & A & B & C); destruct (EN b0 B C); eauto. }
  split; [reflexivity|]. do 7 (split; [assumption|]). do 7 (split; [apply AT; [unfold l; cbn; tauto|assumption]|]).
  split. { apply Forall2_snoc; auto. eapply Forall2_impl; [|exact H8]. auto. }
  split. { apply Forall2_snoc; auto. eapply Forall2_impl; [|exact H9]. auto. }
  split. { destruct KD as [[-> ->]|[-> N]]; cbn; auto. destruct log; [congruence|auto]. }
  apply Forall_app. split; auto.
Qed.
Lemma dc_append_rej h S as_ d log r c p : cinv h S as_ d log -> (exists l, r_indices r = VStrs l) -> ~ accepts log r ->
  dc_append objeq d (r_final_cost r) (r_indices r) (r_init r) (r_final r) c p (r_stat r) (r_stats r) h = (h, Err AssertionError).
Proof.
  intros (a1 & a2 & a3 & a4 & a5 & a6 & a7 & cs & ps & -> & E1 & E2 & E3 & E4 & E5 & E6 & E7 & H1 & H2 & H3 & H4 & H5 & H6 & H7 & H8 & H9 & H10 & H11) [l IX] N.
  destruct log as [|q log]; [exfalso; apply N; exact I|]. cbn in N, H10. inversion_clear H11 as [|? ? [m Q] _].
  unfold dc_append, dc_len. rewrite E4. cbn [py_len]. rewrite (items_nth _ _ H4). pose proof (Forall2_len H8) as L. destruct cs; [discriminate|]. cbn [length Nat.eqb].
  rewrite H10, Q, IX. cbn. destruct (strs_eqb m l) eqn:E; auto. apply strs_eqb_ok in E. congruence.
Qed.

(** append_optim_result; the lists made for a missing summary are not among S *)
Lemma nth_error_app_old {A} (l m : list A) a : a < length l -> nth_error (l ++ m) a = nth_error l a.
Proof. apply nth_error_app1. Qed.
Lemma append_acc h S as_ d log r : cinv h S as_ d log -> NoDup as_ -> incl as_ S -> (forall a, In a S -> a < length h) -> result_ok r -> accepts log r ->
  exists h' d', append_optim_result objeq d r h = (h', Ok d') /\ cinv h' S as_ d' (log ++ [r]) /\ length h <= length h' /\
   (forall a, a < length h -> ~ In a as_ -> nth_error h' a = nth_error h a).
Proof.
  intros CI ND INC LT [IX SM] AC. unfold append_optim_result.
  destruct SM as [E|(c & p & E)]; rewrite E.
  - assert (CI' : cinv (h ++ [[]; []]) S as_ d log).
    { eapply cinv_frame with (T := []); eauto; try solve [intros a []]. intros a L _. now apply nth_error_app1. }
    destruct (@dc_append_acc _ _ _ _ _ r (VRef (length h)) (VRef (Datatypes.S (length h))) CI' ND INC IX AC) as (h' & d' & A & B & C & D).
    + unfold centry. rewrite E. exists (length h). split; auto. split. { rewrite nth_error_app2, Nat.sub_diag by auto. reflexivity. } intros X. apply LT in X. lia.
    + unfold pentry. rewrite E. exists (Datatypes.S (length h)). split; auto. split. { rewrite nth_error_app2 by lia. replace (Datatypes.S (length h) - length h) with 1 by lia. reflexivity. } intros X. apply LT in X. lia.
    + exists h', d'. split; auto. split; auto. split. { rewrite C, app_length. cbn. lia. } intros a L N. rewrite D by auto. now apply nth_error_app1.
  - destruct (@dc_append_acc _ _ _ _ _ r c p CI ND INC IX AC) as (h' & d' & A & B & C & D); [unfold centry; now rewrite E|unfold pentry; now rewrite E|].
    exists h', d'. split; auto. split; auto. split; [lia|auto].
Qed.
Lemma append_rej h S as_ d log r : cinv h S as_ d log -> result_ok r -> ~ accepts log r ->
  exists x, append_optim_result objeq d r h = (h ++ x, Err AssertionError).
Proof.
  intros CI [IX SM] N. unfold append_optim_result. destruct SM as [E|(c & p & E)]; rewrite E.
  - exists [[]; []]. eapply dc_append_rej with (S := S); eauto. eapply cinv_frame with (T := []); eauto; try solve [intros a []]. intros a L _. now apply nth_error_app1.
  - exists []. rewrite app_nil_r. eapply dc_append_rej; eauto.
Qed.
Lemma new_container_inv h : exists d, new_container [] h = (h ++ [[]; []; []; []; []; []; []], Ok d) /\
  forall S, cinv (h ++ [[]; []; []; []; []; []; []]) S (seq (length h) 7) d [].
Proof.
  unfold new_container. cbn [bind_args forallb]. unfold arg. cbn [nth map dc_params kget fst snd or_new bind_args forallb].
  eexists. split.
  - cbn. rewrite <- !app_assoc. cbn. reflexivity.
  - intros S. cbn [seq]. unfold cinv. rewrite !app_length. cbn [length].
    exists (length h), (Datatypes.S (length h)), (length h + 2), (length h + 3), (length h + 4), (length h + 5), (length h + 6), [], [].
    cbn [d_final_costs d_init d_final d_costs d_pars d_status d_stats map].
    split. { repeat f_equal; lia. }
    do 7 (split; [f_equal; lia|]).
    assert (Z : forall k, k < 7 -> nth_error (h ++ [[]; []; []; []; []; []; [] : list val]) (length h + k) = Some []).
    { intros k Hk. rewrite nth_error_app2 by lia. replace (length h + k - length h) with k by lia. do 7 (destruct k as [|k]; [reflexivity|]). lia. }
    pose proof (Z 0 ltac:(lia)) as Z0. rewrite Nat.add_0_r in Z0. pose proof (Z 1 ltac:(lia)) as Z1. replace (length h + 1) with (Datatypes.S (length h)) in Z1 by lia.
    do 7 (split; [solve [auto | apply Z; lia]|]). repeat split; auto; constructor.
Qed.

(** ---- all histories ---- *)
Definition dinv (s : dstate V) (ls : list (list ores)) : Prop :=
  exists ass, length ass = length (snd s) /\ length ls = length (snd s) /\ NoDup (concat ass) /\ (forall a, In a (concat ass) -> a < length (fst s)) /\
   forall i d log as_, nth_error (snd s) i = Some d -> nth_error ls i = Some log -> nth_error ass i = Some as_ -> cinv (fst s) (concat ass) as_ d log.

Lemma in_concat_nth {A} (ll : list (list A)) i l x : nth_error ll i = Some l -> In x l -> In x (concat ll).
Proof. intros E H. apply in_concat. exists l. split; auto. eapply nth_error_In; eauto. Qed.
Lemma NoDup_app_iff {A} (l m : list A) : NoDup (l ++ m) <-> NoDup l /\ NoDup m /\ forall x, In x l -> ~ In x m.
Proof.
  induction l as [|y l IH]; cbn; split.
  - intros H. split; [constructor|]. split; auto.
  - tauto.
  - intros H. inversion_clear H as [|? ? N1 N2]. apply IH in N2. destruct N2 as (A1 & A2 & A3). split.
    + constructor; auto. intros X. apply N1, in_or_app. auto.
    + split; auto. intros x [->|X]; auto. intros Y. apply N1, in_or_app. auto.
  - intros (A1 & A2 & A3). inversion_clear A1 as [|? ? N1 N2]. constructor.
    + intros X. apply in_app_or in X. destruct X as [X|X]; auto. apply (A3 y); auto.
    + apply IH. repeat split; auto.
Qed.
Lemma NoDup_concat_nth {A} (ll : list (list A)) : NoDup (concat ll) -> forall i l, nth_error ll i = Some l -> NoDup l.
Proof.
  induction ll as [|m ll IH]; intros ND i l E; [destruct i; discriminate|]. cbn in ND. apply NoDup_app_iff in ND. destruct ND as (ND1 & ND2 & _).
  destruct i; cbn in E; [inversion E; subst; auto|eauto].
Qed.
Lemma NoDup_concat_disj {A} (ll : list (list A)) : NoDup (concat ll) -> forall i j l m x, i <> j -> nth_error ll i = Some l -> nth_error ll j = Some m -> In x l -> ~ In x m.
Proof.
  assert (D : forall (l m : list A), NoDup (l ++ m) -> forall x, In x l -> ~ In x m) by (intros l m H; now apply NoDup_app_iff in H).
  induction ll as [|k ll IH]; intros ND i j l m x NE Ei Ej Hl Hm; [destruct i; discriminate|]. cbn in ND. assert (ND2 : NoDup (concat ll)) by (now apply NoDup_app_iff in ND).
  destruct i, j; cbn in Ei, Ej; try lia.
  - inversion Ei; subst. eapply D; eauto. eapply in_concat_nth; eauto.
  - inversion Ej; subst. eapply D; eauto. eapply in_concat_nth; eauto.
  - eapply IH with (i := i) (j := j); eauto.
Qed.

Lemma dinv_new s ls : dinv s ls -> dinv (dstep objeq s (ENew V)) (ls ++ [[]]).
Proof.
  intros (ass & L1 & L2 & ND & LT & CI). destruct s as [h ds]. cbn [fst snd] in *. cbn [dstep fst snd].
  destruct (new_container_inv h) as (d & E & N). rewrite E. exists (ass ++ [seq (length h) 7]). cbn [fst snd].
  rewrite concat_app. cbn [concat]. rewrite app_nil_r. rewrite !app_length. cbn [length].
  split; [lia|]. split; [lia|]. split.
  { apply NoDup_app_iff. split; [auto|]. split; [apply seq_NoDup|]. intros a A B. apply LT in A. apply in_seq in B. lia. }
  split. { intros a A. apply in_app_or in A. destruct A as [A|A]; [apply LT in A|apply in_seq in A]; lia. }
  intros i d' log as_ E1 E2 E3.
  destruct (Nat.lt_ge_cases i (length ds)) as [Hi|Hi].
  - rewrite nth_error_app1 in E1, E2, E3 by lia. eapply cinv_frame with (T := []) (S := concat ass); eauto; try solve [intros a []].
    + intros a L _. now apply nth_error_app1.
    + intros a A. apply in_app_or in A. destruct A as [A|A]; auto. apply in_seq in A. lia.
  - rewrite nth_error_app2 in E1, E2, E3 by lia.
    assert (i = length ds). { assert (i - length ds < 1); [|lia]. change 1 with (length [d]). apply nth_error_Some. congruence. }
    subst i. replace (length ds - length ls) with 0 in E2 by lia. replace (length ds - length ass) with 0 in E3 by lia. rewrite Nat.sub_diag in E1.
    cbn in E1, E2, E3. inversion E1; inversion E2; inversion E3; subst. apply N.
Qed.
Lemma dinv_accept s ls i r log d : dinv s ls -> nth_error (snd s) i = Some d -> nth_error ls i = Some log -> result_ok r -> accepts log r ->
  dinv (dstep objeq s (EAppend i r)) (lset ls i (log ++ [r])).
Proof.
  intros (ass & L1 & L2 & ND & LT & CI) Ed El RO AC. destruct s as [h ds]. cbn [fst snd] in *. cbn [dstep fst snd]. rewrite Ed.
  destruct (nth_error ass i) as [as_|] eqn:Ea. 2:{ apply nth_error_None in Ea. assert (i < length ds) by (apply nth_error_Some; congruence). lia. }
  destruct (@append_acc h (concat ass) as_ d log r) as (h' & d' & E & C & Lh & FR); auto.
  { eapply CI; eauto. } { eapply NoDup_concat_nth; eauto. } { intros a A. eapply in_concat_nth; eauto. }
  rewrite E. exists ass. cbn [fst snd]. rewrite !lset_length. split; auto. split; auto. split; auto. split. { intros a A. apply LT in A. lia. }
  intros j dj lj asj E1 E2 E3. destruct (Nat.eq_dec i j) as [<-|NE].
  - rewrite lset_nth_error_eq in E1 by (apply nth_error_Some; congruence). rewrite lset_nth_error_eq in E2 by (apply nth_error_Some; congruence). rewrite Ea in E3. inversion E1; inversion E2; inversion E3; subst. exact C.
  - rewrite lset_nth_error_ne in E1 by auto. rewrite lset_nth_error_ne in E2 by auto. apply cinv_frame with (T := as_) (S := concat ass) (h := h); [eapply CI; eauto|exact FR| | |auto].
    + intros a A B. apply (@NoDup_concat_disj _ ass ND j i asj as_ a); auto.
    + intros a A. exact (in_concat_nth ass i a Ea A).
Qed.
Lemma dinv_reject s ls i r log d : dinv s ls -> nth_error (snd s) i = Some d -> nth_error ls i = Some log -> result_ok r -> ~ accepts log r ->
  dinv (dstep objeq s (EAppend i r)) ls /\ exists x, append_optim_result objeq d r (fst s) = (fst s ++ x, Err AssertionError).
Proof.
  intros (ass & L1 & L2 & ND & LT & CI) Ed El RO AC. destruct s as [h ds]. cbn [fst snd] in *. cbn [dstep fst snd]. rewrite Ed.
  destruct (nth_error ass i) as [as_|] eqn:Ea. 2:{ apply nth_error_None in Ea. assert (i < length ds) by (apply nth_error_Some; congruence). lia. }
  destruct (@append_rej h (concat ass) as_ d log r) as (x & E); auto. { eapply CI; eauto. }
  split; [|eauto]. rewrite E. exists ass. cbn [fst snd]. split; auto. split; auto. split; auto. split. { intros a A. apply LT in A. rewrite app_length. lia. }
  intros j dj lj asj E1 E2 E3. eapply cinv_frame with (T := []) (S := concat ass); eauto; try solve [intros a []]. intros a L _. now apply nth_error_app1.
Qed.
Lemma drun_snoc evs e : drun objeq (evs ++ [e]) = dstep objeq (drun objeq evs) e.
Proof. unfold drun. now rewrite fold_left_app. Qed.
Lemma logs_dinv evs ls : logs evs ls -> Forall event_ok evs -> dinv (drun objeq evs) ls.
Proof.
  induction 1 as [|evs ls H IH|evs ls i r log H IH E A|evs ls i r log H IH E A|evs ls i r H IH E]; intros FO.
  - exists []. cbn. repeat split; auto. constructor. intros a []. intros [|i] d log as_ X; discriminate.
  - apply Forall_app in FO. rewrite drun_snoc. apply dinv_new. now apply IH.
  - apply Forall_app in FO. destruct FO as [F1 F2]. inversion_clear F2 as [|? ? RO _]. specialize (IH F1). rewrite drun_snoc.
    destruct (nth_error (snd (drun objeq evs)) i) as [d|] eqn:Ed. { eapply dinv_accept; eauto. }
    exfalso. apply nth_error_None in Ed. destruct IH as (ass & _ & L2 & _). assert (i < length ls) by (apply nth_error_Some; congruence). lia.
  - apply Forall_app in FO. destruct FO as [F1 F2]. inversion_clear F2 as [|? ? RO _]. specialize (IH F1). rewrite drun_snoc.
    destruct (nth_error (snd (drun objeq evs)) i) as [d|] eqn:Ed. { eapply dinv_reject; eauto. }
    exfalso. apply nth_error_None in Ed. destruct IH as (ass & _ & L2 & _). assert (i < length ls) by (apply nth_error_Some; congruence). lia.
  - apply Forall_app in FO. destruct FO as [F1 F2]. specialize (IH F1). rewrite drun_snoc. cbn [dstep].
    destruct (nth_error (snd (drun objeq evs)) i) as [d|] eqn:Ed; auto.
    exfalso. apply nth_error_None in E. destruct IH as (ass & _ & L2 & _). assert (i < length (snd (drun objeq evs))) by (apply nth_error_Some; congruence). lia.
Qed.
Lemma accepts_dec log (r : ores) : result_ok r -> Forall (fun q => exists l, r_indices q = VStrs l) log -> {accepts log r} + {~ accepts log r}.
Proof.
  intros [IX _] F. destruct log as [|q log]; [left; exact I|]. cbn.
  destruct (r_indices q) eqn:A; try (right; destruct IX as [x ->]; discriminate). destruct (r_indices r) eqn:B; try (right; discriminate).
  destruct (list_eq_dec string_dec l l0); [left|right]; congruence.
Qed.
(** the log of a history exists *)
Lemma logs_exist (evs : list (dev V)) : Forall event_ok evs -> exists ls, logs evs ls /\ Forall (Forall (fun r => exists l, r_indices r = VStrs l)) ls.
Proof.
  induction evs as [|e evs IH] using rev_ind; intros FO. { exists []. split; constructor. }
  apply Forall_app in FO. destruct FO as [F1 F2]. inversion_clear F2 as [|? ? RO _]. destruct (IH F1) as (ls & L & X). destruct e as [|i r].
  - exists (ls ++ [[]]). split; [now constructor|]. apply Forall_app. split; auto.
  - destruct (nth_error ls i) as [log|] eqn:E. 2:{ exists ls. split; auto. now apply logs_nobody. }
    assert (XL : Forall (fun r => exists l, r_indices r = VStrs l) log). { eapply Forall_forall in X; eauto. eapply nth_error_In; eauto. }
    destruct (accepts_dec RO XL) as [A|A].
    + exists (lset ls i (log ++ [r])). split; [eapply logs_append; eauto|]. cbn in RO. assert (RI := proj1 RO). clear - X XL RI. revert i. induction ls as [|m ls IH]; intros i; cbn; [constructor|].
      inversion_clear X. destruct i; constructor; auto. apply Forall_app. split; auto.
    + exists ls. split; auto. eapply logs_reject; eauto.
Qed.

(** C54 *)
Theorem container_log evs : Forall event_ok evs ->
  exists ls, logs evs ls /\ length (snd (drun objeq evs)) = length ls /\
   forall i d log, nth_error (snd (drun objeq evs)) i = Some d -> nth_error ls i = Some log -> holds (fst (drun objeq evs)) d log.
Proof.
  intros FO. destruct (logs_exist FO) as (ls & L & _). exists ls. split; auto. destruct (logs_dinv L FO) as (ass & L1 & L2 & ND & LT & CI). split; auto.
  intros i d log Ed El. destruct (nth_error ass i) as [as_|] eqn:Ea. { eapply cinv_holds. eapply CI; eauto. }
  apply nth_error_None in Ea. assert (i < length (snd (drun objeq evs))) by (apply nth_error_Some; congruence). lia.
Qed.
Theorem container_rejects evs ls i d log r : Forall event_ok evs -> logs evs ls -> nth_error (snd (drun objeq evs)) i = Some d -> nth_error ls i = Some log ->
  result_ok r -> ~ accepts log r ->
  exists h', append_optim_result objeq d r (fst (drun objeq evs)) = (h', Err AssertionError) /\
   forall a l, nth_error (fst (drun objeq evs)) a = Some l -> nth_error h' a = Some l.
Proof.
  intros FO L Ed El RO AC. destruct (dinv_reject i (logs_dinv L FO) Ed El RO AC) as (_ & x & E). eexists. split; [exact E|].
  intros a l A. rewrite nth_error_app1; auto. apply nth_error_Some. congruence.
Qed.
Theorem container_accepts evs ls i d log r : Forall event_ok evs -> logs evs ls -> nth_error (snd (drun objeq evs)) i = Some d -> nth_error ls i = Some log ->
  result_ok r -> accepts log r -> exists h' d', append_optim_result objeq d r (fst (drun objeq evs)) = (h', Ok d') /\ holds h' d' (log ++ [r]).
Proof.
  intros FO L Ed El RO AC. destruct (logs_dinv L FO) as (ass & L1 & L2 & ND & LT & CI).
  destruct (nth_error ass i) as [as_|] eqn:Ea. 2:{ apply nth_error_None in Ea. assert (i < length (snd (drun objeq evs))) by (apply nth_error_Some; congruence). lia. }
  destruct (@append_acc (fst (drun objeq evs)) (concat ass) as_ d log r) as (h' & d' & E & C & _); auto.
  { eapply CI; eauto. } { eapply NoDup_concat_nth; eauto. } { intros a A. eapply in_concat_nth; eauto. }
  exists h', d'. split; auto. eapply cinv_holds; eauto.
Qed.
End Log.
