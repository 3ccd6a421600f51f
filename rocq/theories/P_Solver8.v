(** The generators of the Schroedinger solvers, with and without noise. *)
Require Import List Arith Lia Bool Ring Field.
From Verif Require Import LibBase LibRing LibArr LibCplx LibNorm LibMat M_Matrix S_Linear P_Linear P_Matrix M_OpHeap M_Transfer S_Transfer M_Amplitude M_Solver S_Solver P_Transfer P_Loops P_Solver P_Solver2.
Import ListNotations.
Open Scope res_scope.
Set Implicit Arguments.

Section Gens.
Variable F : OField.
Notation S := (CStar F).
Notation C := (cplx F).
Notation op := (op F).
Notation arrF := (arr (kcar F)).
Notation st := (@st F).
Add Field Kfield_ps8 : (k_field F).
Add Field Cfield_ps8 : (c_field F).
Notation dop := (Arr [] [] : op).
Notation wfs n := (Forall (wfm (S:=S) n n : op -> Prop)).

Lemma wfs_matrix n (l : list op) : Forall (is_matrix (S:=S) n n) l <-> wfs n l.
Proof. split; intros H; (eapply Forall_impl; [|exact H]); intros A HA; now apply is_matrix_wfm. Qed.
Lemma wfs_nth n (l : list op) i : wfs n l -> i < length l -> wfm (S:=S) n n (nth i l dop).
Proof. intros H Hi. rewrite Forall_forall in H. apply H. now apply nth_In. Qed.

Lemma add_ctrl_length gens (u : arrF) c t h : length (add_ctrl gens u c t h) = length gens.
Proof. revert t. induction gens; intros t; cbn [add_ctrl length]; auto. Qed.
Lemma add_ctrl_nth gens (u : arrF) c t h i : i < length gens ->
  nth i (add_ctrl gens u c t h) dop = if Nat.ltb (t + i) (dim0 u) then madd (S:=S) (nth i gens dop) (ctrl_term (get2 k0 u (t + i) c) h) else nth i gens dop.
Proof.
  revert t i. induction gens as [|g gens IH]; intros t i Hi; [cbn in Hi; lia|]. cbn [add_ctrl]. destruct i.
  - rewrite Nat.add_0_r. reflexivity.
  - cbn [nth length] in *. rewrite IH by lia. now replace (Datatypes.S t + i) with (t + Datatypes.S i) by lia.
Qed.
Lemma wfm_ctrl_term n a (h : op) : wfm (S:=S) n n h -> wfm (S:=S) n n (ctrl_term a h).
Proof. intros H. now apply wfm_mscale. Qed.
Lemma mg_ctrl_term n a (h : op) i j : wfm (S:=S) n n h -> i < n -> j < n -> mg (ctrl_term a h) i j = cmul (copp ci) (cmul (cofk a) (mg h i j)).
Proof. intros H Hi Hj. unfold ctrl_term. rewrite (@mg_mscale S n n) by auto. cring. Qed.

Definition termc (u : arrF) t c (h : op) i j : C := cmul (copp ci) (cmul (cofk (get2 k0 u t c)) (mg h i j)).

Lemma ctrl_fold n (u : arrF) hs c0' gens g : wfs n hs -> wfs n gens ->
  foldE (add_ctrl_step (F:=F) (Some u)) (combine (seq c0' (length hs)) hs) gens = (g, None) ->
  length g = length gens /\ wfs n g /\ forall t i j, t < length gens -> t < dim0 u -> i < n -> j < n ->
    mg (nth t g dop) i j = cadd (mg (nth t gens dop) i j) (sumn (S:=S) (length hs) (fun c => termc u t (c0' + c) (nth c hs dop) i j)).
Proof.
  intros Hh. revert c0' gens. induction Hh as [|h hs Wh Hh IH]; intros c0' gens Hg H; cbn [length seq combine foldE] in H.
  - inversion H; subst. split; auto. split; auto. intros. cbn [sumn length]. cring.
  - unfold add_ctrl_step in H at 1. cbn [fst snd] in H. destruct (Nat.ltb c0' (dim1 u)); cbn [bind] in H; [|discriminate].
    assert (W' : wfs n (add_ctrl gens u c0' 0 h)).
    { apply Forall_forall. intros A HA. destruct (In_nth _ _ dop HA) as (i & Hi & <-). rewrite add_ctrl_length in Hi. rewrite add_ctrl_nth by auto.
      destruct (Nat.ltb _ _); [apply wfm_madd|]; now apply wfs_nth. }
    destruct (IH (Datatypes.S c0') (add_ctrl gens u c0' 0 h) W' H) as (L & W & E). rewrite add_ctrl_length in L, E.
    split; auto. split; auto. intros t i j Ht Hu Hi Hj. rewrite E by auto. rewrite add_ctrl_nth by auto. cbn [Nat.add].
    destruct (Nat.ltb_spec t (dim0 u)); [|lia]. rewrite (@mg_madd S n n) by (auto; now apply wfs_nth). rewrite mg_ctrl_term with (n := n) by auto.
    cbn [length]. rewrite sumn_S_l. cbn [nth]. rewrite Nat.add_0_r. unfold termc at 2.
    rewrite (@sumn_ext S _ (fun c => termc u t (Datatypes.S c0' + c) (nth c hs dop) i j) (fun c => termc u t (c0' + Datatypes.S c) (nth c hs dop) i j)) by (intros; f_equal; lia).
    cring.
Qed.

Lemma schr_dyn_gen n (b : st) u g : wfs n (s_drift b) -> wfs n (c_ctrl (s_conf b)) -> s_amps b = Some u -> schr_dyn b = (g, None) ->
  length g = length (s_drift b) /\ wfs n g /\ forall t, t < length g -> t < dim0 u ->
    is_generator n (nth t (s_drift b) dop) (c_ctrl (s_conf b)) (fun c => get2 k0 u t c) (nth t g dop).
Proof.
  intros Hd Hc Hu H. unfold schr_dyn in H. rewrite Hu in H.
  assert (Wd : wfs n (map (neg_i (F:=F)) (s_drift b))). { apply Forall_map. eapply Forall_impl; [|exact Hd]. intros A WA. now apply wfm_mscale. }
  destruct (ctrl_fold (n:=n) _ _ Hc Wd H) as (L & W & E). rewrite map_length in L, E. split; auto. split; auto.
  intros t Ht Hu'. split; [apply is_matrix_wfm; now apply wfs_nth|]. intros i j Hi Hj. rewrite E by (auto; lia).
  rewrite (@nth_indep _ (map (neg_i (F:=F)) (s_drift b)) t dop (neg_i dop)) by (rewrite map_length; lia). rewrite map_nth.
  unfold neg_i at 1. rewrite (@mg_mscale S n n) by (auto; apply wfs_nth; auto; lia). unfold termc. cbn [Nat.add].
  pose proof (@sumn_mul_l S (length (c_ctrl (s_conf b))) (copp ci) (fun c => cmul (cofk (get2 k0 u t c)) (nth c (c_ctrl (s_conf b)) dop).[i,j])) as E1.
  tocplx. etransitivity; [apply f_equal; exact E1|]. cring.
Qed.

Lemma cconj_opp (x : C) : cconj (copp x) = copp (cconj x).
Proof. destruct x; unfold cconj, copp; cbn; apply (f_equal2 pair); ring. Qed.
Lemma cconj_cofk (a : F) : cconj (cofk a) = cofk a.
Proof. unfold cconj, cofk; cbn; apply (f_equal2 pair); ring. Qed.
Lemma cconj_ci : cconj ci = copp (ci : C).
Proof. unfold cconj, ci, copp; cbn; apply (f_equal2 pair); ring. Qed.
(** a generator built from Hermitian parts is skew Hermitian *)
Lemma generator_skew n (h : op) (hs : list op) u G : is_hermitian (S:=S) n h -> Forall (is_hermitian (S:=S) n : op -> Prop) hs -> is_generator n h hs u G -> is_skew_hermitian (S:=S) n G.
Proof.
  intros [Wh Hh] Hs [WG HG]. split; auto. intros i j Hi Hj. rewrite HG by auto. rewrite (HG i j Hi Hj). rewrite (Hh i j) by auto.
  change (@sconj S) with (@cconj F). change (@sopp S) with (@copp F). rewrite cconj_mul, cconj_add.
  assert (E : cconj (sumn (S:=S) (length hs) (fun c => cmul (cofk (u c)) (nth c hs dop).[i,j])) = sumn (S:=S) (length hs) (fun c => cmul (cofk (u c)) (nth c hs dop).[j,i])).
  { etransitivity; [apply csumn_conj|]. apply sumn_ext. intros c Hc. cbv beta. rewrite cconj_mul, cconj_cofk. f_equal.
    rewrite Forall_forall in Hs. destruct (Hs (nth c hs dop)) as [_ Hx]; [now apply nth_In|]. now rewrite (Hx i j). }
  rewrite E, cconj_opp, cconj_ci. cring.
Qed.

(** ---- noise ---- *)
Section Noise.
Variables (arr0 : arrF) (ops : list op).
Fixpoint sel (t k : nat) (l : list (nat * nat * nat)) : list nat :=
  match l with
  | [] => []
  | (t', k', o) :: l' => if Nat.eqb t' t && Nat.eqb k' k then o :: sel t k l' else sel t k l'
  end.
Lemma sel_app t k l1 l2 : sel t k (l1 ++ l2) = sel t k l1 ++ sel t k l2.
Proof. induction l1 as [|[[t' k'] o] l1 IH]; cbn; auto. destruct (_ && _); cbn; now rewrite IH. Qed.
Lemma sel_row t k t' k' os : sel t k (map (fun o => (t', k', o)) os) = if Nat.eqb t' t && Nat.eqb k' k then os else [].
Proof. induction os as [|o os IH]; cbn; [destruct (_ && _); auto|]. rewrite IH. destruct (_ && _); auto. Qed.
Lemma sel_flat {A} t k (f : A -> list (nat * nat * nat)) l : sel t k (flat_map f l) = flat_map (fun x => sel t k (f x)) l.
Proof. induction l; cbn; auto. now rewrite sel_app, IHl. Qed.
Lemma flat_one {A} (f : nat -> list A) s n i : (forall j, j <> i -> f j = []) -> flat_map f (seq s n) = if (Nat.leb s i && Nat.ltb i (s + n))%bool then f i else [].
Proof.
  intros H. revert s. induction n; intros s; cbn [seq flat_map].
  - rewrite Nat.add_0_r. destruct (Nat.leb_spec s i), (Nat.ltb_spec i s); auto; lia.
  - rewrite IHn. destruct (Nat.eq_dec s i) as [->|N].
    + destruct (Nat.leb_spec (Datatypes.S i) i), (Nat.leb_spec i i), (Nat.ltb_spec i (i + Datatypes.S n)); try lia. cbn. apply app_nil_r.
    + rewrite (H s N). cbn [app]. destruct (Nat.leb_spec (Datatypes.S s) i), (Nat.leb_spec s i), (Nat.ltb_spec i (Datatypes.S s + n)), (Nat.ltb_spec i (s + Datatypes.S n)); auto; lia.
Qed.
Lemma sel_triples t k T K O : sel t k (noise_triples T K O) = if (Nat.ltb t T && Nat.ltb k K)%bool then seq 0 O else [].
Proof.
  unfold noise_triples. rewrite sel_flat. rewrite (@flat_one _ _ 0 T t).
  - cbn [Nat.leb andb Nat.add]. destruct (Nat.ltb t T); cbn [andb]; auto. rewrite sel_flat, (@flat_one _ _ 0 K k).
    + cbn [Nat.leb andb Nat.add]. destruct (Nat.ltb k K); auto. rewrite sel_row, !Nat.eqb_refl. reflexivity.
    + intros j Hj. rewrite sel_row. destruct (Nat.eqb_spec j k); [lia|]. now rewrite andb_false_r.
  - intros j Hj. rewrite sel_flat. induction (seq 0 K); cbn; auto. rewrite IHl, sel_row. destruct (Nat.eqb_spec j t); [lia|]. reflexivity.
Qed.

Definition addn t k (A : op) o : op := madd (S:=S) A (ctrl_term (get3 k0 arr0 t k o) (nth o ops dop)).
Definition cell (g : list (list op)) k t : op := nth t (nth k g []) dop.
Definition allwf n (g : list (list op)) : Prop := forall k t, k < length g -> t < length (nth k g []) -> wfm (S:=S) n n (cell g k t).

Lemma addn_wf n t k A o : wfm (S:=S) n n A -> wfm (S:=S) n n (addn t k A o).
Proof. intros W. now apply wfm_madd. Qed.
Lemma fold_addn_wf n t k os A : wfm (S:=S) n n A -> wfm (S:=S) n n (fold_left (addn t k) os A).
Proof. revert A. induction os; intros A W; cbn; auto. apply IHos. now apply addn_wf. Qed.

Lemma noise_fold n l g g' : wfs n ops -> allwf n g -> foldM (add_noise arr0 ops) l g = Ok g' ->
  length g' = length g /\ (forall k, length (nth k g' []) = length (nth k g [])) /\
  forall k t, k < length g -> t < length (nth k g []) -> cell g' k t = fold_left (addn t k) (sel t k l) (cell g k t).
Proof.
  intros Ho. revert g. induction l as [|[[t k] o] l IH]; intros g W H; cbn [foldM] in H.
  - inversion H; subst. repeat split; auto.
  - unfold add_noise in H at 1. destruct (idx g k) as [row|] eqn:E1; [|discriminate]. cbn [bind] in H.
    destruct (idx row t) as [A|] eqn:E2; [|discriminate]. cbn [bind] in H. destruct (idx ops o) as [h|] eqn:E3; [|discriminate]. cbn [bind] in H.
    destruct (idx_inv _ _ E1) as [K1 K2]. destruct (idx_inv _ _ E2) as [T1 T2]. destruct (idx_inv _ _ E3) as [O1 O2].
    specialize (K2 []). specialize (T2 dop). specialize (O2 dop).
    assert (WA : wfm (S:=S) n n A). { rewrite <- T2, <- K2. apply W; auto. now rewrite K2. }
    assert (Wh : wfm (S:=S) n n (ctrl_term (get3 k0 arr0 t k o) h)). { apply wfm_ctrl_term. rewrite <- O2. now apply wfs_nth. }
    cbn [op_iadd] in H. rewrite (bcast_ok_same WA Wh), (bcast_same WA Wh) in H. cbn [bind] in H.
    set (A' := madd (S:=S) A (ctrl_term (get3 k0 arr0 t k o) h)) in H. set (g1 := lset g k (lset row t A')) in H.
    assert (L1 : length g1 = length g) by apply lset_length.
    assert (L2 : forall k', length (nth k' g1 []) = length (nth k' g [])).
    { intros k'. unfold g1. rewrite nth_lset by auto. destruct (Nat.eqb_spec k k'); auto. subst k'. now rewrite lset_length, K2. }
    assert (CE : forall k' t', cell g1 k' t' = if Nat.eqb t t' && Nat.eqb k k' then A' else cell g k' t').
    { intros k' t'. unfold cell, g1. rewrite nth_lset by auto. destruct (Nat.eqb_spec k k').
      - subst k'. rewrite nth_lset by auto. rewrite andb_true_r. destruct (Nat.eqb t t'); auto. now rewrite K2.
      - now rewrite andb_false_r. }
    assert (W1 : allwf n g1).
    { intros k' t' Hk' Ht'. rewrite CE. destruct (Nat.eqb t t' && Nat.eqb k k'); [now apply wfm_madd|]. apply W; [lia|]. now rewrite <- L2. }
    destruct (IH g1 W1 H) as (M1 & M2 & M3). split; [lia|]. split; [intros; rewrite M2; auto|].
    intros k' t' Hk' Ht'. rewrite M3 by (rewrite ?L1, ?L2; auto). rewrite CE. cbn [sel].
    destruct (Nat.eqb_spec t t'), (Nat.eqb_spec k k'); cbn [andb]; auto. subst t' k'. cbn [fold_left]. f_equal. unfold addn, A'. rewrite O2. unfold cell. now rewrite K2, T2.
Qed.

Lemma addn_entries n t k O A i j : wfs n ops -> O <= length ops -> wfm (S:=S) n n A -> i < n -> j < n ->
  mg (fold_left (addn t k) (seq 0 O) A) i j =
  cadd (mg A i j) (cmul (copp ci) (sumn (S:=S) O (fun o => cmul (cofk (get3 k0 arr0 t k o)) (mg (nth o ops dop) i j)))).
Proof.
  intros Ho HO WA Hi Hj. induction O as [|O IH].
  - cbn. cring.
  - rewrite seq_S, fold_left_app. cbn [fold_left Nat.add]. unfold addn at 1. 
    rewrite (@mg_madd S n n) by (auto; now apply fold_addn_wf). rewrite IH by lia. rewrite mg_ctrl_term with (n := n) by (auto; apply wfs_nth; auto; lia).
    cbn [sumn]. cring.
Qed.
End Noise.

(** generators of the noise traces *)
Lemma noise_gens n m (b : st) ng u arr0 : wfs n (s_drift b) -> wfs n (c_ctrl (s_conf b)) -> wfs n (mc_ops m) -> s_amps b = Some u ->
  noise_array m b = Ok arr0 -> pngens m b = Ok ng ->
  length ng = mc_traces m /\ forall k, k < mc_traces m -> length (nth k ng []) = length (s_drift b) /\
    forall t, t < length (s_drift b) -> t < dim0 u ->
      if (Nat.ltb t (dim0 arr0) && Nat.ltb k (dim1 arr0))%bool then
        dim2 arr0 = length (mc_ops m) -> is_noisy_generator n (nth t (s_drift b) dop) (c_ctrl (s_conf b)) (fun c => get2 k0 u t c) (mc_ops m) (fun o => get3 k0 arr0 t k o) (cell ng k t)
      else is_generator n (nth t (s_drift b) dop) (c_ctrl (s_conf b)) (fun c => get2 k0 u t c) (cell ng k t).
Proof.
  intros Hd Hc Ho Hu Ha H. unfold pngens in H. destruct (schr_dyn b) as [g [e|]] eqn:Hg; [discriminate|]. rewrite Ha in H. cbn [bind] in H.
  destruct (schr_dyn_gen (n:=n) b Hd Hc Hu Hg) as (L & W & G).
  assert (R : forall k, k < mc_traces m -> nth k (repeat g (mc_traces m)) [] = g). { intros k Hk. apply nth_repeat_lt. auto. }
  assert (WR : allwf n (repeat g (mc_traces m))).
  { intros k t Hk Ht. rewrite repeat_length in Hk. unfold cell. rewrite R in * by auto. now apply wfs_nth. }
  destruct (@noise_fold arr0 (mc_ops m) n _ _ _ Ho WR H) as (M1 & M2 & M3). rewrite repeat_length in *. split; auto.
  intros k Hk. split; [rewrite M2, R; auto|]. intros t Ht Hu'. rewrite M3 by (auto; rewrite R; auto; lia). rewrite sel_triples.
  unfold cell. rewrite R by auto. specialize (G t ltac:(lia) Hu').
  destruct (_ && _); [|exact G]. intros HO. destruct G as [G1 G2].
  assert (W1 : wfm (S:=S) n n (nth t g dop)) by (apply wfs_nth; auto; lia).
  split; [apply is_matrix_wfm; now apply fold_addn_wf|]. intros i j Hi Hj. rewrite HO, Nat.min_id.
  rewrite (@addn_entries arr0 (mc_ops m) n t k) by auto. rewrite G2 by auto. cring.
Qed.
End Gens.
