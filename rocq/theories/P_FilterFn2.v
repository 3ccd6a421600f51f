(** Proofs for the interface to filter_functions: the Hamiltonians of a pulse sequence. *)
Require Import String List Arith Lia Bool Permutation Sorting.Sorted Ring_theory.
From Verif Require Import LibBase LibRing LibArr LibCplx LibMat M_Matrix S_Linear P_Linear M_Transfer M_Amplitude M_Solver S_Solver P_Solver2 M_FilterFn S_FilterFn P_FilterFn.
Import ListNotations.
Open Scope res_scope.
Set Implicit Arguments.

Lemma lsum_perm (S : StarRing) (l l' : list S) : Permutation l l' -> lsum l = lsum l'.
Proof.
  induction 1; auto; cbn [lsum fold_right] in *.
  - unfold lsum in *. cbn [fold_right]. now rewrite IHPermutation.
  - unfold lsum. cbn [fold_right]. rewrite !(Radd_assoc (s_ring S)). f_equal. apply (Radd_comm (s_ring S)).
  - congruence.
Qed.
Lemma ok_inj {A} (a b : A) : Ok a = Ok b -> a = b.
Proof. congruence. Qed.
Lemma map_inj_eq {A B} (f : A -> B) l l' : (forall x y, f x = f y -> x = y) -> map f l = map f l' -> l = l'.
Proof. intros I. revert l'. induction l as [|x l IH]; intros [|y l'] H; simpl in H; auto; try discriminate. inversion H. f_equal; auto. Qed.

Section Ham.
Variable F : OField.
Notation arrF := (arr (kcar F)).
Notation op := (op F).
Notation S := (CStar F).
Notation term := (term F).
Notation dop := (Arr [] [] : op).
Definition triple := (op * string * list F)%type.
Definition mkt (x : triple) : term := Term (fst (fst x)) (snd x) (snd (fst x)).
Lemma mkt_inj x y : mkt x = mkt y -> x = y.
Proof. destruct x as [[a b] c], y as [[a' b'] c']. unfold mkt. simpl. intros H. inversion H. reflexivity. Qed.
Definition col (u : arrF) (c : nat) : list F := map (fun t => get2 k0 u t c) (seq 0 (dim0 u)).
Definition ctrl_triples (hs : list op) (u : arrF) : list triple := map (fun c => (nth c hs dop, numbered "Control" c, col u c)) (seq 0 (length hs)).
Lemma control_terms_triples hs u : length hs = dim1 u -> control_terms hs u = map mkt (ctrl_triples hs u).
Proof.
  intros H. unfold control_terms, ctrl_triples. rewrite map_map.
  set (g := fun c => (c, (nth c hs dop, col u c))).
  assert (K : combine (seq 0 (length hs)) (combine hs (columns_of u)) = map g (seq 0 (length hs))).
  { apply nth_ext with (d := (0, (dop, []))) (d' := (0, (dop, []))).
    - rewrite !combine_length, map_length, seq_length. unfold columns_of. rewrite map_length, seq_length. lia.
    - rewrite !combine_length, seq_length. unfold columns_of at 1. rewrite map_length, seq_length. intros i Hi.
      rewrite combine_nth by (rewrite combine_length, seq_length; unfold columns_of; rewrite map_length, seq_length; lia).
      rewrite combine_nth by (unfold columns_of; rewrite map_length, seq_length; lia).
      rewrite (nth_indep _ (0, (dop, [])) (g 0)) by (rewrite map_length, seq_length; lia).
      rewrite (map_nth g). rewrite seq_nth by lia. unfold g. cbn [Nat.add]. f_equal. f_equal.
      unfold columns_of. rewrite (nth_indep _ [] (col u 0)) by (rewrite map_length, seq_length; lia).
      change (map (fun c => map (fun t => get2 k0 u t c) (seq 0 (dim0 u))) (seq 0 (dim1 u))) with (map (col u) (seq 0 (dim1 u))).
      rewrite (map_nth (col u)). now rewrite seq_nth by lia. }
  rewrite K, map_map. reflexivity.
Qed.
Lemma some_order_triples tr os ids cs : lists_some_order (map mkt tr) os ids cs -> exists tr', Permutation tr tr' /\ os = map (fun x : triple => fst (fst x)) tr' /\
  ids = map (fun x : triple => snd (fst x)) tr' /\ cs = map snd tr'.
Proof.
  intros (l' & P & tr2 & -> & -> & -> & ->). apply Permutation_map_inv in P. destruct P as (tr3 & H & P).
  apply (@map_inj_eq _ _ mkt _ _ mkt_inj) in H. subst. exists tr2. split; [now apply Permutation_sym|auto].
Qed.
Lemma combine_maps {A X Y} (f : A -> X) (g : A -> Y) l : combine (map f l) (map g l) = map (fun a => (f a, g a)) l.
Proof. induction l; simpl; f_equal; auto. Qed.
Lemma control_hams_spec hs u tr c n : Permutation (ctrl_triples hs u) tr ->
  Forall (is_matrix (S:=S) n n) hs -> control_hams (map (fun x : triple => fst (fst x)) tr) (map snd tr) = Ok c ->
  length c = dim0 u /\ forall t, t < dim0 u -> is_matrix (S:=S) n n (nth t c dop) /\ forall i j, i < n -> j < n ->
    (nth t c dop).[i,j] = sumn (S:=S) (length hs) (fun k => cmul (cofk (get2 k0 u t k)) (nth k hs dop).[i,j]).
Proof.
  intros P SQ H. unfold control_hams in H.
  destruct tr as [|x tr0]; [discriminate H|]. rewrite !map_length, Nat.eqb_refl in H. set (tr := x :: tr0) in *.
  change (idx (map (fun x : triple => fst (fst x)) tr) 0) with (Ok (fst (fst x))) in H. change (idx (map (@snd _ (list F)) tr) 0) with (Ok (snd x)) in H. cbn [bind] in H.
  assert (Hx : In x (ctrl_triples hs u)). { apply Permutation_sym in P. eapply Permutation_in; [exact P|]. now left. }
  unfold ctrl_triples in Hx. apply in_map_iff in Hx. destruct Hx as (k0' & <- & Hk). apply in_seq in Hk. cbn [fst snd] in H.
  assert (Hm : is_matrix (S:=S) n n (nth k0' hs dop)). { rewrite Forall_forall in SQ. apply SQ. apply nth_In. lia. }
  destruct Hm as [Sh _]. assert (Enr : nr (nth k0' hs dop) = n /\ nc (nth k0' hs dop) = n). { unfold nr, nc, dim0, dim1. rewrite Sh. auto. }
  destruct Enr as [Er Ec]. cbn [bind] in H. rewrite Er, Ec in H.
  assert (Hl : length (col u k0') = dim0 u). { unfold col. now rewrite map_length, seq_length. }
  rewrite Hl in H. apply ok_inj in H. subst c. rewrite map_length, seq_length. split; auto. intros t Ht.
  set (f := fun l => mk2 n n _). rewrite (nth_indep _ dop (f 0)) by (rewrite map_length, seq_length; lia). rewrite (map_nth f), seq_nth by lia. cbn [Nat.add].
  unfold f. split. { apply is_matrix_wfm, wfm_mk2. }
  intros i j Hi Hj. rewrite mg_mk2 by auto.
  match goal with |- context [combine ?a ?b] => replace (combine a b) with (map (fun x : triple => (fst (fst x), snd x)) tr) by (rewrite <- combine_maps; reflexivity) end.
  rewrite map_map. cbn [fst snd].
  rewrite (@lsum_perm S _ (map (fun x : triple => cmul (cofk (nth t (snd x) k0)) (mg (fst (fst x)) i j)) (ctrl_triples hs u))).
  2: { apply Permutation_map. now apply Permutation_sym. }
  unfold ctrl_triples. rewrite map_map. cbn [fst snd]. rewrite lsum_map_seq. apply sumn_ext. intros k Hk2. cbn [Nat.add].
  do 2 f_equal. unfold col. rewrite (nth_indep _ k0 (get2 k0 u 0 k)) by (rewrite map_length, seq_length; lia).
  rewrite (map_nth (fun t => get2 k0 u t k)). now rewrite seq_nth by lia.
Qed.
Lemma hams_spec hs u tr (drift : list op) c hh n : Permutation (ctrl_triples hs u) tr -> Forall (is_matrix (S:=S) n n) hs -> Forall (is_matrix (S:=S) n n) drift ->
  length drift = dim0 u -> control_hams (map (fun x : triple => fst (fst x)) tr) (map snd tr) = Ok c -> total_hams drift c = Ok hh ->
  length hh = dim0 u /\ forall t, t < dim0 u -> is_hamiltonian n (nth t drift dop) hs (fun c => get2 k0 u t c) (nth t hh dop).
Proof.
  intros P SQ SD L H1 H2. destruct (@control_hams_spec hs u tr c n P SQ H1) as [Lc Hc]. unfold total_hams in H2.
  destruct drift as [|d0 dr]; [discriminate|]. set (drift := d0 :: dr) in *. unfold lab in H2. rewrite L, Lc, Nat.eqb_refl in H2. cbn [bind] in H2.
  apply ok_inj in H2. subst hh. rewrite map_length, seq_length. split; auto. intros t Ht.
  assert (B : bi (dim0 u) t = t). { unfold bi. destruct (Nat.eqb_spec (dim0 u) 1); lia. }
  match goal with |- is_hamiltonian _ _ _ _ (nth _ (map ?f ?l) _) => rewrite (nth_indep (map f l) dop (f 0)) by (rewrite map_length, seq_length; lia); rewrite (map_nth f), seq_nth by lia; cbn [Nat.add] end.
  rewrite B. destruct (Hc t Ht) as [M1 E1].
  assert (M0 : is_matrix (S:=S) n n (nth t drift dop)). { rewrite Forall_forall in SD. apply SD, nth_In. lia. }
  apply is_matrix_wfm in M0, M1. split. { apply is_matrix_wfm. unfold madd. rewrite (wfm_nr M0), (wfm_nc M0). apply wfm_mk2. }
  intros i j Hi Hj. rewrite (mg_madd _ M0) by auto. now rewrite E1.
Qed.
End Ham.
