(** Proofs for the interface to filter_functions: pulse sequences that were built, the invariant of the clients, what the package
    is asked for. *)
Require Import String List Arith Lia Bool Permutation Sorting.Sorted.
From Verif Require Import LibBase LibRing LibArr LibCplx LibMat M_Matrix S_Linear P_Linear M_Transfer M_Amplitude M_Solver S_Solver M_FilterFn S_FilterFn P_FilterFn P_FilterFn2.
Import ListNotations.
Open Scope res_scope.
Set Implicit Arguments.

Section Build.
Variable F : OField.
Variable rexp : F -> F.
Variable la : LinAlg F.
Variable eps : cplx F.
Variable B E : Type.
Notation arrF := (arr (kcar F)).
Notation op := (op F).
Notation S := (CStar F).
Notation st := (@st F).
Notation pkg := (pkg F B E).
Notation pseq := (pseq F B E).
Notation fsol := (fsol F B E).
Notation term := (term F).
Notation dop := (Arr [] [] : op).
Add Ring CringFF : (c_ring F).
Variable P : pkg.

Lemma fbind_ok A C (m : fm F B E A) (k : A -> fm F B E C) f f' c : fbind m k f = (f', Ok c) -> exists f1 a, m f = (f1, Ok a) /\ k a f1 = (f', Ok c).
Proof. unfold fbind. destruct (m f) as [f1 [a|e]]; [|discriminate]. eauto. Qed.

Lemma noise_keeps (f f' : fsol) r : create_ff_h_n f = (f', r) -> f_s f' = f_s f /\ f_conf f' = f_conf f /\ f_ps f' = f_ps f.
Proof.
  unfold create_ff_h_n, base_ff_h_n, mc_ff_h_n. intros H.
  assert (K : forall r0 : res (list term), match r0 with Err e => (f, Err e) | Ok l => let '(ids, r) := collect [] l in (set_ids f ids, _ <- r ;; Ok l) end = (f', r) ->
     f_s f' = f_s f /\ f_conf f' = f_conf f /\ f_ps f' = f_ps f).
  { intros r0 K. destruct r0; [|inversion K; subst; auto]. destruct (collect _ _). inversion K; subst; auto. }
  destruct (c_class _); try exact (K _ H). inversion H; subst; auto.
Qed.

(** the operators and coefficients of the controls in some order *)
Definition ordered_controls (s : st) (u : arrF) (p : pseq) : Prop :=
  exists tr, Permutation (ctrl_triples (c_ctrl (s_conf s)) u) tr /\ p_copers p = map (fun x : triple F => fst (fst x)) tr /\
    p_cids p = map (fun x : triple F => snd (fst x)) tr /\ p_ccoeffs p = map snd tr.
Definition same_terms (p p' : pseq) : Prop :=
  p_copers p' = p_copers p /\ p_cids p' = p_cids p /\ p_ccoeffs p' = p_ccoeffs p /\ p_nopers p' = p_nopers p /\ p_nids p' = p_nids p /\
  p_ncoeffs p' = p_ncoeffs p /\ p_dt p' = p_dt p /\ p_basis p' = p_basis p.

Lemma diagonalized n (f f' : fsol) p u : shaped n (f_s f) -> s_amps (f_s f) = Some u -> f_ps f = Some p -> ordered_controls (f_s f) u p -> p_dt p = s_time (f_s f) ->
  diagonalize_ps P f = (f', Ok tt) -> f_s f' = f_s f /\ f_conf f' = f_conf f /\ f_ids f' = f_ids f /\
    exists p', f_ps f' = Some p' /\ same_terms p p' /\ describes P n (f_s f) p'.
Proof.
  intros ([SD SC] & _ & Ld & Su) Hu Hp (tr & Ptr & E1 & E2 & E3) Hdt H. unfold diagonalize_ps in H. rewrite Hp in H.
  destruct (control_hams (p_copers p) (p_ccoeffs p)) as [c|] eqn:Ec; [|discriminate]. cbn [bind] in H.
  destruct (total_hams (s_drift (f_s f)) c) as [hh|] eqn:Eh; [|discriminate]. cbn [bind] in H.
  destruct (diagonalize P hh (p_dt p)) as [[e us]|] eqn:Ed; [|discriminate].
  destruct (idx (rev us) 0) as [U|] eqn:EU; [|discriminate]. inversion H; subst f'; clear H. cbn [f_s f_conf f_ids set_ps f_ps].
  do 3 (split; auto). eexists. split; [reflexivity|]. split; [unfold same_terms; cbn; auto 10|].
  destruct (Su u Hu) as [Du Dc]. rewrite E1, E3 in Ec.
  destruct (@hams_spec F _ u tr (s_drift (f_s f)) c hh n Ptr SC SD (eq_trans Ld (eq_sym Du)) Ec Eh) as [Lh Hh]. rewrite Du in *.
  split; [exact Hdt|]. exists u, hh, e, us, U. rewrite Hdt in Ed. repeat (split; auto).
  unfold idx in EU. destruct (rev us) as [|U' r] eqn:Er; [discriminate|]. cbn in EU. inversion EU; subst U'. exists (rev r). rewrite <- (rev_involutive us), Er. reflexivity.
Qed.
Lemma new_controls (s : st) u p (hn : list term) b : lines_up P -> length (c_ctrl (s_conf s)) = dim1 u -> new_pulse P (control_terms (c_ctrl (s_conf s)) u) hn (s_time s) b = Ok p ->
  ordered_controls s u p /\ p_dt p = s_time s /\ p_basis p = b /\ parse P hn (length (s_time s)) = Ok (p_nopers p, p_nids p, p_ncoeffs p) /\
  exists k, parse P (control_terms (c_ctrl (s_conf s)) u) k = Ok (p_copers p, p_cids p, p_ccoeffs p).
Proof.
  intros LU L H. unfold new_pulse in H. destruct (parse P (control_terms _ _) _) as [[[os ids] cs]|] eqn:E1; [|discriminate]. cbn [bind] in H.
  destruct (parse P hn _) as [[[nos nids] ncs]|] eqn:E2; [|discriminate]. cbn [bind fst snd] in H. apply ok_inj in H. subst p. cbn.
  pose proof (LU _ _ _ _ _ E1) as K. rewrite (control_terms_triples _ _ L) in K. apply some_order_triples in K. split; [exact K|]. eauto 10.
Qed.

(** ---- the noise ---- *)
Lemma collect_ids l : forall ids ids', collect ids l = (ids', Ok tt) -> ids' = ids ++ map (@term_id F) l.
Proof.
  induction l as [|x l IH]; cbn; intros ids ids' H. { inversion H. now rewrite app_nil_r. }
  destruct x; try discriminate H. apply IH in H. rewrite H, <- app_assoc. reflexivity.
Qed.
Lemma base_noise (f f' : fsol) l : ~ is_monte_carlo (f_s f) -> create_ff_h_n f = (f', Ok l) -> noise_terms (f_s f) (ff_h_n (f_conf f)) l /\ f_ids f' = map (@term_id F) l.
Proof.
  intros NM H. unfold create_ff_h_n in H. destruct (c_class (s_conf (f_s f))) as [|m|m] eqn:Ec; [|exfalso; apply NM; now exists m|];
  (unfold base_ff_h_n in H; destruct (match ff_h_n (f_conf f) with HList l => Ok l | HCall h => call_three h (f_s f) end) as [l0|] eqn:E0; [|discriminate H];
   cbn [bind] in H;
   assert (G : given (f_s f) (ff_h_n (f_conf f)) l0) by
     (unfold given; destruct (ff_h_n (f_conf f)) as [l1|g]; [congruence|]; unfold call_three in E0; destruct (g [s_opt (f_s f); s_tpars (f_s f); s_amps (f_s f)]) as [v|e]; [left; congruence|];
      destruct e; try discriminate E0; right; auto);
   destruct l0 as [|x l0];
   [destruct (idx (c_ctrl (s_conf (f_s f))) 0) as [h0|] eqn:E1; [|discriminate H]; cbn [bind collect app] in H; inversion H; subst; cbn [f_ids set_ids]; split; [|reflexivity];
    eexists; split; [exact G|]; right; split; [reflexivity|]; eexists _, h0, _, _;
    split; [unfold idx in E1; destruct (nth_error (c_ctrl (s_conf (f_s f))) 0); congruence|]; split; [reflexivity|]; split; [reflexivity|];
    intros i j Hi Hj; unfold mscale; rewrite mg_mk2 by auto; cring
   |destruct (collect [] (x :: l0)) as [ids [[]|]] eqn:E1; [|discriminate H]; cbn [bind] in H; inversion H; subst; cbn [f_ids set_ids]; apply collect_ids in E1; split; [|exact E1];
    eexists; split; [exact G|]; left; split; [discriminate|reflexivity]]).
Qed.
(** the terms depend on the parameters only *)
Lemma noise_fixed (f f' : fsol) : fixed (f_s f) (f_s f') -> f_conf f' = f_conf f -> snd (create_ff_h_n f') = snd (create_ff_h_n f).
Proof.
  intros (E1 & E2 & E3 & E4 & E5 & E6) Ec. unfold create_ff_h_n, base_ff_h_n, mc_ff_h_n, call_three. rewrite E1, E3, E4, E5, E6, Ec.
  destruct (c_class _); cbn [snd]; auto;
  match goal with |- snd (match ?r with _ => _ end) = _ => destruct r as [l9|]; auto end; destruct (collect [] l9); auto.
Qed.

(** ---- sorted controls ---- *)
Lemma sorted_unique A (R : A -> A -> Prop) (l : list A) : forall l', Permutation l l' -> StronglySorted R l -> StronglySorted R l' ->
  (forall x y, In x l -> In y l -> R x y -> R y x -> x = y) -> l = l'.
Proof.
  induction l as [|a l IH]; intros l' HP S1 S2 HA. { apply Permutation_nil in HP. now subst. }
  destruct l' as [|b l']; [now apply Permutation_sym, Permutation_nil in HP|].
  assert (Ea : a = b).
  { assert (I1 : In a (b :: l')) by (eapply Permutation_in; [exact HP|now left]). assert (I2 : In b (a :: l)) by (eapply Permutation_in; [apply Permutation_sym; exact HP|now left]).
    destruct I1 as [I1|I1]; [now symmetry|]. destruct I2 as [I2|I2]; [exact I2|]. apply StronglySorted_inv in S1, S2. destruct S1 as [_ S1], S2 as [_ S2]. rewrite Forall_forall in S1, S2.
    apply HA; [now left|now right| |]; auto. }
  subst b. f_equal. apply Permutation_cons_inv in HP. apply StronglySorted_inv in S1, S2. apply IH; try tauto. intros x y Hx Hy. apply HA; now right.
Qed.
Lemma sorted_map A C (f : A -> C) (R : C -> C -> Prop) l : StronglySorted R (map f l) <-> StronglySorted (fun x y => R (f x) (f y)) l.
Proof.
  induction l as [|a l IH]; cbn; split; intros H; try constructor; apply StronglySorted_inv in H; destruct H as [H1 H2]; try (now apply IH).
  - rewrite Forall_forall in *. intros x Hx. apply H2. now apply in_map.
  - rewrite Forall_forall in *. intros x Hx. apply in_map_iff in Hx. destruct Hx as (y & <- & Hy). now apply H2.
Qed.
Fixpoint increasing (l : list string) : bool :=
  match l with [] => true | a :: l' => forallb (fun b => String.leb a b && negb (String.eqb a b)) l' && increasing l' end.
Lemma increasing_sorted l : increasing l = true -> StronglySorted (fun a b => String.leb a b = true) l /\ NoDup l.
Proof.
  induction l as [|a l IH]; cbn; intros H; [split; constructor|]. apply andb_prop in H. destruct H as [H1 H2]. destruct (IH H2) as [I1 I2]. rewrite forallb_forall in H1. split; constructor; auto.
  - apply Forall_forall. intros x Hx. specialize (H1 x Hx). now apply andb_prop in H1.
  - intros Hx. specialize (H1 a Hx). apply andb_prop in H1. destruct H1 as [_ H1]. now rewrite String.eqb_refl in H1.
Qed.
Lemma ten_controls k : k <= 10 -> increasing (map (numbered "Control") (seq 0 k)) = true.
Proof. intros H. do 11 (destruct k as [|k]; [vm_compute; reflexivity|]). lia. Qed.
Lemma triples_parts (hs : list op) (u : arrF) : length hs = dim1 u ->
  map (fun x : triple F => fst (fst x)) (ctrl_triples hs u) = hs /\ map (fun x : triple F => snd (fst x)) (ctrl_triples hs u) = map (numbered "Control") (seq 0 (length hs)) /\
  map snd (ctrl_triples hs u) = columns_of u.
Proof.
  intros L. unfold ctrl_triples. rewrite !map_map. cbn [fst snd]. split; [|split; [reflexivity|]].
  - apply nth_ext with (d := dop) (d' := dop); rewrite map_length, seq_length; auto. intros i Hi.
    rewrite (nth_indep _ dop (nth 0 hs dop)) by (rewrite map_length, seq_length; lia). rewrite (map_nth (fun c => nth c hs dop)), seq_nth by lia. reflexivity.
  - unfold columns_of. now rewrite L.
Qed.
Lemma in_order (hs : list op) (u : arrF) tr : length hs <= 10 -> length hs = dim1 u -> Permutation (ctrl_triples hs u) tr ->
  StronglySorted (fun a b => String.leb a b = true) (map (fun x : triple F => snd (fst x)) tr) -> ctrl_triples hs u = tr.
Proof.
  intros L10 L HP HS. destruct (triples_parts hs u L) as (_ & Ei & _). destruct (increasing_sorted _ (ten_controls L10)) as [I1 I2]. rewrite <- Ei in I1, I2.
  apply sorted_map in HS. apply sorted_map in I1. refine (sorted_unique HP I1 HS _). intros x y Hx Hy R1 R2.
  pose proof (String.leb_antisym _ _ R1 R2) as K. clear -I2 Hx Hy K. revert I2 Hx Hy K. generalize (ctrl_triples hs u) as l. induction l as [|a l IH]; cbn; intros ND Hx Hy K; [easy|]. apply NoDup_cons_iff in ND; destruct ND as [N1 N2]. destruct Hx as [->|Hx], Hy as [->|Hy]; auto.
  - exfalso. apply N1. rewrite K. now apply (in_map (fun x : triple F => snd (fst x))).
  - exfalso. apply N1. rewrite <- K. now apply (in_map (fun x : triple F => snd (fst x))).
Qed.

(** ---- one creation ---- *)
(** the terms of a pulse sequence, the controls in the order of the solver *)
Definition terms_of (f : fsol) (p : pseq) (u : arrF) (l : list term) : Prop :=
  s_amps (f_s f) = Some u /\ p_copers p = c_ctrl (s_conf (f_s f)) /\ p_cids p = map (numbered "Control") (seq 0 (length (c_ctrl (s_conf (f_s f))))) /\ p_ccoeffs p = columns_of u /\
  p_dt p = s_time (f_s f) /\ snd (create_ff_h_n f) = Ok l /\ (~ is_monte_carlo (f_s f) -> f_ids f = map (@term_id F) l) /\
  parse P l (length (s_time (f_s f))) = Ok (p_nopers p, p_nids p, p_ncoeffs p).
Definition inv (n : nat) (f : fsol) : Prop := forall p, f_ps f = Some p -> shaped n (f_s f) -> length (c_ctrl (s_conf (f_s f))) <= 10 ->
  describes P n (f_s f) p /\ exists u l, terms_of f p u l.
Lemma shaped_fixed n (s s' : st) : fixed s s' -> shaped n s' -> shaped n s.
Proof. intros (E1 & E2 & E3 & _ & _ & E6). unfold shaped, square_hamiltonians. now rewrite E1, E2, E3, E6. Qed.
Lemma describes_fixed n (s s' : st) p : fixed s s' -> describes P n s p -> describes P n s' p.
Proof. intros (E1 & E2 & E3 & _ & _ & E6). unfold describes. now rewrite E1, E2, E3, E6. Qed.
Lemma terms_fixed (f f' : fsol) p u l : fixed (f_s f) (f_s f') -> f_conf f' = f_conf f -> f_ids f' = f_ids f -> terms_of f p u l -> terms_of f' p u l.
Proof.
  intros Hf Hc Hi. unfold terms_of. rewrite (noise_fixed _ _ Hf Hc), Hi. destruct Hf as (E1 & E2 & E3 & _ & _ & E6). unfold is_monte_carlo. now rewrite E1, E3, E6.
Qed.
Lemma inv_fixed n (f f' : fsol) : fixed (f_s f) (f_s f') -> f_conf f' = f_conf f -> f_ids f' = f_ids f -> f_ps f' = f_ps f -> inv n f -> inv n f'.
Proof.
  intros Hf Hc Hi Hp I p H Sh L. rewrite Hp in H. destruct (I p H) as [D (u & l & T)].
  - now apply (shaped_fixed Hf).
  - destruct Hf as (E1 & _). now rewrite E1 in L.
  - split; [now apply (describes_fixed Hf)|]. exists u, l. now apply (@terms_fixed f f').
Qed.
Lemma built n (f f' : fsol) u b : sorts P -> inv n f -> shaped n (f_s f) -> length (c_ctrl (s_conf (f_s f))) <= 10 -> s_amps (f_s f) = Some u ->
  build_pulse P u b f = (f', Ok tt) -> f_s f' = f_s f /\ f_conf f' = f_conf f /\ exists p l, f_ps f' = Some p /\ terms_of f' p u l.
Proof.
  intros [LU SO] I Sh L Hu H. assert (Du : length (c_ctrl (s_conf (f_s f))) = dim1 u) by (destruct Sh as (_ & _ & _ & Su); now destruct (Su u Hu)).
  unfold build_pulse in H. destruct (f_ps f) as [p|] eqn:Ep.
  - destruct (I p Ep Sh L) as [_ (u' & l' & T)].
    apply fbind_ok in H. destruct H as (f1 & hn & H1 & H2). pose proof H1 as HN. apply noise_keeps in H1. cbn [f_s f_conf f_ps set_ps] in H1. destruct H1 as (K1 & K2 & K3).
    destruct (parse P hn _) as [[[nos nids] ncs]|] eqn:Eq; [|discriminate]. inversion H2; subst f'; clear H2. cbn [f_s f_conf f_ps set_ps]. split; auto. split; auto.
    eexists. exists hn. split; [reflexivity|]. destruct T as (T1 & T2 & T3 & T4 & T5 & T6 & T7 & T8).
    assert (El : l' = hn).
    { assert (K : snd (create_ff_h_n f) = Ok hn). { pose proof (f_equal snd HN) as K. cbn [snd] in K. rewrite <- K. symmetry. apply noise_fixed; [apply fixed_refl|reflexivity]. } congruence. }
    subst l'. assert (Fx : fixed (f_s f) (f_s f1)) by (rewrite K1; apply fixed_refl).
    rewrite K1 in Eq. rewrite T8 in Eq. inversion Eq; subst nos nids ncs.
    unfold terms_of. cbn [f_s f_conf f_ps f_ids set_ps p_copers p_cids p_ccoeffs p_dt p_nopers p_nids p_ncoeffs snd]. rewrite K1.
    repeat (split; [assumption || reflexivity || congruence|]). split; [|split; [|exact T8]].
    + rewrite <- T6. apply noise_fixed; auto.
    + intros NM. refine (proj2 (@base_noise _ f1 hn _ HN)). cbn. exact NM.
  - apply fbind_ok in H. destruct H as (f1 & hn & H1 & H2). pose proof H1 as HN. apply noise_keeps in H1. destruct H1 as (K1 & K2 & K3). rewrite K1 in H2.
    destruct (new_pulse _ _ _ _ _) as [p|] eqn:Eq; [|discriminate]. inversion H2; subst f'; clear H2. cbn [f_s f_conf f_ps set_ps]. split; auto. split; auto.
    exists p, hn. split; [reflexivity|]. destruct (@new_controls (f_s f) u p hn b LU Du Eq) as ((tr & Ptr & E1 & E2 & E3) & Edt & _ & En & (k & Ek)).
    apply SO in Ek. rewrite E2 in Ek. apply (@in_order _ u tr L Du Ptr) in Ek. subst tr. destruct (triples_parts _ u Du) as (Q1 & Q2 & Q3).
    unfold terms_of. cbn [f_s f_conf f_ps f_ids set_ps]. rewrite K1.
    split; [assumption|]. split; [congruence|]. split; [congruence|]. split; [congruence|]. split; [assumption|]. split; [|split; [|assumption]].
    + rewrite (@noise_fixed f); auto. * now rewrite HN. * cbn. rewrite K1. apply fixed_refl.
    + intros NM. now refine (proj2 (@base_noise f f1 hn NM HN)).
Qed.
End Build.
