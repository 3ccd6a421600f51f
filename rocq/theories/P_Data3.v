(** Proofs about data containers: cost indices held in list objects, dictionaries with unknown names. *)
Require Import List Arith Lia Bool String Ascii.
From Verif Require Import LibBase LibRing M_OpHeap P_OpHeap M_Data S_Data P_Data P_DataWit.
Import ListNotations.
Open Scope list_scope.
Open Scope nat_scope.
Set Implicit Arguments.
Local Notation length := List.length.

Section Data3.
Variable V : Type.
Variable objeq : V -> V -> bool.
Notation val := (val V).
Notation lheap := (lheap V).
Notation dcont := (dcont V).
Notation ores := (ores V).

Lemma list_eqb_strs l : forall m, list_eqb objeq (map VStr l) (map VStr m) = true <-> l = m.
Proof.
  induction l as [|x l IH]; intros [|y m]; cbn; split; intros H; try discriminate; auto.
  - apply andb_true_iff in H. destruct H as [A B]. apply String.eqb_eq in A. apply IH in B. congruence.
  - inversion H; subst. rewrite String.eqb_refl. cbn. now apply IH.
Qed.
Lemma py_eqb_lists (h : lheap) v w l m : list_is h v (map VStr l) -> list_is h w (map VStr m) -> py_eqb objeq h v w = true <-> l = m.
Proof.
  intros (a & -> & A) (b & -> & B). cbn. rewrite (items_nth _ _ A), (items_nth _ _ B). split; intros H.
  - apply orb_true_iff in H. destruct H as [H|H]; [|now apply list_eqb_strs].
    apply Nat.eqb_eq in H. subst b. rewrite A in B. apply list_eqb_strs. injection B as ->. now apply list_eqb_strs.
  - apply orb_true_iff. right. now apply list_eqb_strs.
Qed.
Lemma fold_no_assertion (l : list (val * val)) : forall (acc : lheap * res dcont), snd acc <> Err AssertionError ->
  snd (fold_left (fun (acc : lheap * res dcont) (p : val * val) =>
    match snd acc with Err _ => acc | Ok d => match py_append (fst p) (snd p) (fst acc) with (h', Ok _) => (h', Ok d) | (h', Err e) => (h', Err e) end end) l acc)
  <> Err AssertionError.
Proof.
  induction l as [|p l IH]; intros acc H; cbn; auto. apply IH. destruct (snd acc) eqn:E; [|congruence].
  destruct (fst p); cbn; discriminate.
Qed.
Lemma list_is_app (h h' : lheap) v l : list_is h v l -> list_is (h ++ h') v l.
Proof. intros (a & -> & A). exists a. split; auto. rewrite nth_error_app1; auto. apply nth_error_Some. congruence. Qed.
Lemma dc_len_app (h h' : lheap) (d : dcont) n : dc_len h d = Ok (S n) -> dc_len (h ++ h') d = Ok (S n).
Proof.
  unfold dc_len. destruct (d_costs d) as [| | | |a| |] eqn:E; cbn; auto. intros H. injection H as H.
  unfold items in *. destruct (Nat.lt_ge_cases a (length h)) as [L|L].
  - rewrite app_nth1 by auto. now rewrite H.
  - rewrite nth_overflow in H by auto. discriminate.
Qed.
Lemma dc_append_lists (d : dcont) (h : lheap) n l m fc ix ip fp co pa st os :
  dc_len h d = Ok (S n) -> list_is h (d_indices d) (map VStr l) -> list_is h ix (map VStr m) ->
  (snd (dc_append objeq d fc ix ip fp co pa st os h) = Err AssertionError <-> l <> m) /\
  (l <> m -> fst (dc_append objeq d fc ix ip fp co pa st os h) = h).
Proof.
  intros L A B. unfold dc_append. rewrite L. cbn [Nat.eqb]. pose proof (@py_eqb_lists h (d_indices d) ix l m A B) as E.
  destruct (py_eqb objeq h (d_indices d) ix).
  - assert (Q : l = m) by now apply E. split; [|contradiction]. split; [|contradiction]. intros H. exfalso. revert H. apply fold_no_assertion. cbn. discriminate.
  - split; [|reflexivity]. split; [|reflexivity]. intros _ H. apply E in H. discriminate.
Qed.
Theorem list_indices (d : dcont) (r : ores) (h : lheap) n l m :
  dc_len h d = Ok (S n) -> list_is h (d_indices d) (map VStr l) -> list_is h (r_indices r) (map VStr m) ->
  (r_summary r = VNone \/ exists c p, r_summary r = VSummary c p) ->
  (snd (append_optim_result objeq d r h) = Err AssertionError <-> l <> m) /\
  (l <> m -> forall a x, nth_error h a = Some x -> nth_error (fst (append_optim_result objeq d r h)) a = Some x).
Proof.
  intros L A B [E|(c & p & E)]; unfold append_optim_result; rewrite E.
  - destruct (@dc_append_lists d (h ++ [[]; []]) n l m (r_final_cost r) (r_indices r) (r_init r) (r_final r) (VRef (length h)) (VRef (S (length h))) (r_stat r) (r_stats r)) as [P Q];
      [now apply dc_len_app|now apply list_is_app|now apply list_is_app|].
    split; auto. intros N a x X. rewrite (Q N). rewrite nth_error_app1; auto. apply nth_error_Some. congruence.
  - destruct (@dc_append_lists d h n l m (r_final_cost r) (r_indices r) (r_init r) (r_final r) c p (r_stat r) (r_stats r) L A B) as [P Q].
    split; auto. intros N a x X. now rewrite (Q N).
Qed.

(** ---- dictionaries ---- *)
Lemma names_forallb (params kw : kwargs V) : forallb (fun p => existsb (fun q => String.eqb (fst q) (fst p)) params) kw = true <-> incl (map fst kw) (map fst params).
Proof.
  rewrite forallb_forall. split; intros H.
  - intros n N. apply in_map_iff in N. destruct N as (p & <- & P). specialize (H p P). apply existsb_exists in H. destruct H as (q & Q & E).
    apply String.eqb_eq in E. rewrite <- E. now apply in_map.
  - intros p P. apply existsb_exists. assert (N : In (fst p) (map fst params)) by (apply H; now apply in_map).
    apply in_map_iff in N. destruct N as (q & E & Q). exists q. split; auto. now apply String.eqb_eq.
Qed.
Lemma bind_args_iff (params kw : kwargs V) : (incl (map fst kw) (map fst params) /\ exists l, bind_args params kw = Ok l) \/
  (~ incl (map fst kw) (map fst params) /\ bind_args params kw = Err TypeError).
Proof.
  unfold bind_args. pose proof (names_forallb params kw) as E. destruct (forallb _ kw).
  - left. split; [now apply E|eauto].
  - right. split; auto. intros H. apply E in H. discriminate.
Qed.
Theorem container_unknown (k : kwargs V) (h : lheap) :
  (incl (map fst k) container_names -> exists h' d, dc_from_dict k h = (h', Ok d)) /\
  (~ incl (map fst k) container_names -> dc_from_dict k h = (h, Err TypeError)).
Proof.
  unfold dc_from_dict, new_container.
  destruct (bind_args_iff (dc_params V) k) as [[I (l & ->)]|[I ->]]; split; intros H; try contradiction; auto.
  - repeat (destruct (or_new _ _)). eauto.
Qed.
Theorem result_unknown (k : kwargs V) :
  (incl (map fst k) result_names -> exists r, result_from_dict k = Ok r) /\ (~ incl (map fst k) result_names -> result_from_dict k = Err TypeError).
Proof.
  unfold result_from_dict, new_result.
  destruct (bind_args_iff (res_params V) k) as [[I (l & ->)]|[I ->]]; split; intros H; try contradiction; cbn; eauto.
Qed.

(** ---- files ---- *)
Lemma ends_slash_iff s : ends_slash s = true <-> exists t, s = (t ++ "/")%string.
Proof.
  induction s as [|c s IH]; cbn; split; intros H; try discriminate.
  - destruct H as [[|x t] H]; discriminate.
  - destruct s as [|c' s'].
    + apply Ascii.eqb_eq in H. subst c. exists ""%string. reflexivity.
    + apply IH in H. destruct H as (t & ->). exists (String c t). reflexivity.
  - destruct H as (t & E). destruct t as [|x t]; cbn in E.
    + injection E as -> ->. reflexivity.
    + injection E as -> ->. destruct t as [|y t]; cbn; [reflexivity|]. apply IH. exists (String y t). reflexivity.
Qed.
Theorem pickle_file (d : dcont) s f : d_storage d = VStr s ->
  (forall g, pickle_name d (VStr g) = Ok g) /\
  (d_file d = VNone -> pickle_name d VNone = Ok s) /\
  (d_file d = VStr f ->
    ((exists g, f = ("/" ++ g)%string) -> pickle_name d VNone = Ok f) /\
    ((forall g, f <> ("/" ++ g)%string) -> s = ""%string \/ (exists t, s = (t ++ "/")%string) -> pickle_name d VNone = Ok (s ++ f)%string) /\
    ((forall g, f <> ("/" ++ g)%string) -> s <> ""%string -> (forall t, s <> (t ++ "/")%string) -> pickle_name d VNone = Ok (s ++ "/" ++ f)%string)).
Proof.
  intros E. unfold pickle_name. rewrite E. split; [reflexivity|]. split; [now intros ->|]. intros ->.
  assert (A : forall t, (s = ""%string \/ exists u, s = (u ++ "/")%string) -> (if (String.eqb s "" || ends_slash s)%bool then (s ++ f)%string else t) = (s ++ f)%string).
  { intros t [->|H]; [reflexivity|]. apply ends_slash_iff in H. rewrite H, orb_true_r. reflexivity. }
  assert (N : forall (x y : string), s <> ""%string -> (forall t, s <> (t ++ "/")%string) -> (if (String.eqb s "" || ends_slash s)%bool then x else y) = y).
  { intros x y H1 H2. destruct (String.eqb_spec s ""); [contradiction|]. destruct (ends_slash s) eqn:Q; [|reflexivity].
    apply ends_slash_iff in Q. destruct Q as (t & Q). now apply H2 in Q. }
  destruct f as [|c f]; unfold path_join.
  - split; [intros [g H]; discriminate|]. split.
    + intros _ H. rewrite <- (A ""%string H). destruct (_ || _)%bool eqn:Q; [|].
      * f_equal. clear. induction s as [|x s IH]; cbn; congruence.
      * exfalso. destruct H as [->|H]; [discriminate|]. apply ends_slash_iff in H. rewrite H, orb_true_r in Q. discriminate.
    + intros _ H1 H2. f_equal. now apply N.
  - destruct (Ascii.eqb c slash) eqn:Q.
    + apply Ascii.eqb_eq in Q. subst c. split; [reflexivity|]. split; intros H; exfalso; exact (H f eq_refl).
    + split; [intros (g & H); injection H as -> ->; discriminate|]. split.
      * intros _ H. f_equal. now apply A.
      * intros _ H1 H2. f_equal. now apply N.
Qed.
Theorem pickle_errors (may_write : string -> bool) (d : dcont) filename s (h : lheap) (fs : files V) :
  (pickle_name d filename = Ok s -> may_write s = false -> to_pickle may_write d filename h fs = (fs, Err PyException)) /\
  (~ In s (map fst fs) -> from_pickle s fs h = (h, Err PyException)).
Proof.
  split.
  - intros E W. unfold to_pickle. now rewrite E, W.
  - intros N. unfold from_pickle. assert (G : fget fs s = None); [|now rewrite G].
    induction fs as [|[m x] fs IH]; cbn in *; auto. destruct (String.eqb_spec m s); [tauto|]. apply IH. tauto.
Qed.
End Data3.

(** ---- cases ---- *)
Definition dlist : dcont nat := mkdc VNone VNone (VRef 7) (VRef 0) (VRef 1) (VRef 2) (VRef 3) (VRef 4) (VRef 5) (VRef 6) (VBool true).
Definition hlist : lheap nat := [[ob 10]; [ob 12]; [ob 11]; [ob 1]; [ob 2]; [ob 13]; [VNone]; [VStr "a"; VStr "b"]; [VStr "a"; VStr "b"]; [VStr "a"; VStr "c"]]%string.
Definition rlist (a : nat) : ores nat := mkres (ob 20) (VRef a) (ob 21) VNone (ob 22) VNone VNone (ob 23) VNone VNone VNone.
Lemma list_indices_case : dc_len hlist dlist = Ok 1 /\ list_is hlist (d_indices dlist) (map VStr ["a"; "b"]%string) /\
  list_is hlist (r_indices (rlist 8)) (map VStr ["a"; "b"]%string) /\ list_is hlist (r_indices (rlist 9)) (map VStr ["a"; "c"]%string) /\
  (exists h' d', append_optim_result Nat.eqb dlist (rlist 8) hlist = (h', Ok d') /\ dc_len h' d' = Ok 2).
Proof.
  split; [reflexivity|]. split; [exists 7; split; reflexivity|]. split; [exists 8; split; reflexivity|]. split; [exists 9; split; reflexivity|].
  eexists _, _. split; reflexivity.
Qed.
Lemma unknown_case : ~ incl (map fst [("final_cost", ob 1)]%string) container_names /\ incl (map fst [("final_cost", ob 1); ("num_iter", ob 3)]%string) result_names.
Proof. split; [|intros n; cbn; tauto]. intros H. specialize (H "final_cost"%string (or_introl eq_refl)). cbn in H. intuition discriminate. Qed.
Lemma file_case : (forall g, "x.pkl"%string <> ("/" ++ g)%string) /\ "/data"%string <> ""%string /\ (forall t, "/data"%string <> (t ++ "/")%string) /\ d_storage dmade = VStr "/data"%string.
Proof.
  split; [intros g H; discriminate|]. split; [discriminate|]. split; [|reflexivity]. intros t H.
  assert (E : ends_slash "/data" = true) by (apply ends_slash_iff; eauto). discriminate.
Qed.
