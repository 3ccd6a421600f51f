(** Time grids, oversampling (C13, C14, C15, C21). *)
Require Import List Arith Lia Ring Field Bool.
From Verif Require Import LibBase LibRing LibArr LibCplx M_Transfer S_Transfer.
Import ListNotations.
Set Implicit Arguments.

Lemma repeat_each_length {T} n (l : list T) : length (repeat_each n l) = n * length l.
Proof. induction l as [|x l IH]; cbn [repeat_each flat_map length]; [lia|]. unfold repeat_each in IH. rewrite app_length, repeat_length, IH. lia. Qed.
Lemma nth_repeat_lt {T} (x d : T) n i : i < n -> nth i (repeat x n) d = x.
Proof. revert i. induction n; intros i Hi; [lia|]. destruct i; cbn; auto. apply IHn. lia. Qed.
Lemma repeat_each_nth {T} n (l : list T) d i j : i < length l -> j < n -> nth (i * n + j) (repeat_each n l) d = nth i l d.
Proof.
  revert i. induction l as [|x l IH]; intros i Hi Hj; cbn [length] in Hi; [lia|].
  unfold repeat_each. cbn [flat_map]. destruct i.
  - cbn. rewrite app_nth1 by (rewrite repeat_length; lia). now apply nth_repeat_lt.
  - rewrite app_nth2 by (rewrite repeat_length; cbn; lia). rewrite repeat_length.
    replace (S i * n + j - n) with (i * n + j) by (cbn; lia). cbn [nth]. apply IH; lia.
Qed.

(** see an equation over KStar F as one over F *)
Ltac keq F := tok; match goal with |- @eq _ ?a ?b => change (@eq (kcar F) a b) end.

Section P.
Variable F : OField.
Variable rexp : F -> F.
Add Field Kfield_pt : (k_field F).
Notation K := (KStar F).
Notation arrF := (arr (kcar F)).
Notation base := (base F).
Notation tf := (tf F).

Lemma padding_pads (b : base) : padding b = match pads (b_bound b) (b_os b) with Some p => Ok p | None => Err ValueError end.
Proof. unfold padding, pads. destruct (b_bound b) as [[[] p]|]; reflexivity. Qed.

Lemma last_nth {T} (l : list T) d : last l d = nth (length l - 1) l d.
Proof. induction l as [|x [|y l] IH]; auto. cbn [last length] in *. rewrite IH. cbn. now rewrite Nat.sub_0_r. Qed.

(** what a successful set_times of the base class leaves behind *)
Lemma set_times_base_ok (b : base) ys b' : set_times_base b ys = (b', Ok tt) ->
  exists ps pe xs, pads (b_bound b) (b_os b) = Some (ps, pe) /\
    b' = set_tm b (length ys) (Some ys) (ps + b_os b * length ys + pe) (Some xs) /\
    (b_os b <> 0 -> is_split_grid (b_os b) ps pe ys xs) /\ length xs = ps + b_os b * length ys + pe.
Proof.
  unfold set_times_base. set (os := b_os b).
  set (cells := repeat_each os (map (fun y => kdivn y os) ys)).
  assert (LC : length cells = os * length ys) by (unfold cells; now rewrite repeat_each_length, map_length).
  assert (NC : forall i j, i < length ys -> j < os -> nth (i * os + j) cells k0 = kdiv (nth i ys k0) (kofnat os)).
  { intros i j Hi Hj. unfold cells. rewrite repeat_each_nth by (rewrite ?map_length; auto).
    rewrite (nth_indep _ k0 (kdivn k0 os)) by (rewrite map_length; auto). now rewrite (map_nth (fun y => kdivn y os)). }
  assert (Hlast : forall y0, ys <> [] -> last ys y0 = nth (length ys - 1) ys k0).
  { intros y0 Hy. rewrite last_nth. apply nth_indep. destruct ys; [congruence|cbn; lia]. }
  assert (CI : forall i j, i < length ys -> j < os -> i * os + j < os * length ys) by (intros; nia).
  assert (G : forall ps pe y0 rest, ys = y0 :: rest ->
     is_split_grid os ps pe ys (ones_times (kdivn y0 os) ps ++ cells ++ ones_times (kdivn (last ys y0) os) pe)).
  { intros ps pe y0 rest E. unfold is_split_grid, ones_times. repeat split.
    - rewrite !app_length, !repeat_length, LC. lia.
    - intros i Hi. rewrite app_nth1 by (rewrite repeat_length; lia). rewrite nth_repeat_lt by lia. now rewrite E.
    - intros i j Hi Hj. rewrite app_nth2 by (rewrite repeat_length; lia). rewrite repeat_length.
      replace (ps + (i * os + j) - ps) with (i * os + j) by lia. rewrite app_nth1 by (rewrite LC; auto). auto.
    - intros i Hi. rewrite app_nth2 by (rewrite repeat_length; lia). rewrite repeat_length.
      replace (ps + os * length ys + i - ps) with (os * length ys + i) by lia.
      rewrite app_nth2 by (rewrite LC; lia). rewrite LC. replace (os * length ys + i - os * length ys) with i by lia.
      rewrite nth_repeat_lt by lia. rewrite Hlast by (rewrite E; discriminate). reflexivity. }
  destruct (b_bound b) as [[kind p]|] eqn:EB.
  - destruct ys as [|y0 rest] eqn:EY; [destruct kind; discriminate|]. rewrite <- EY in *.
    destruct kind; try discriminate; destruct (Nat.eqb_spec os 0); try discriminate; intros [= <-]; cbn [pads].
    + exists p, p. eexists. split; [reflexivity|]. split; [f_equal; lia|]. split; [intros _; eapply G; eauto|].
      destruct (G p p y0 rest EY) as [L _]. exact L.
    + exists (p * os), (p * os). eexists. split; [reflexivity|]. split; [f_equal; lia|]. split; [intros _; eapply G; eauto|].
      destruct (G (p * os) (p * os) y0 rest EY) as [L _]. exact L.
    + exists 0, p. eexists. split; [reflexivity|]. split; [f_equal; lia|]. pose proof (G 0 p y0 rest EY) as GG. cbn [repeat ones_times app] in GG.
      split; [intros _; exact GG|]. destruct GG as [L _]. exact L.
  - intros [= <-]. exists 0, 0, cells. split; [reflexivity|]. split; [f_equal; lia|]. split; [|rewrite LC; lia].
    intros Ho. unfold is_split_grid. repeat split; try (intros; lia).
    intros i j Hi Hj. cbn [Nat.add]. apply NC; auto.
Qed.

Lemma set_times_base_defined (b : base) ys : pads (b_bound b) (b_os b) <> None -> b_os b <> 0 -> ys <> [] ->
  exists b', set_times_base b ys = (b', Ok tt).
Proof.
  unfold set_times_base, pads. intros Hp Ho Hy. apply Nat.eqb_neq in Ho. destruct ys as [|y0 r]; [congruence|].
  destruct (b_bound b) as [[[] p]|]; try congruence; rewrite ?Ho; eauto.
Qed.

Lemma lsumk_app (a b : list F) : lsumk (a ++ b) = kadd (lsumk a) (lsumk b).
Proof. induction a; cbn [lsumk app]; [ring|]. rewrite IHa. ring. Qed.
Lemma lsumk_sumn (l : list F) : lsumk l = sumn (S:=K) (length l) (fun i => nth i l k0).
Proof. induction l; auto. cbn [lsumk length]. rewrite sumn_S_l. cbn [nth]. now rewrite IHl. Qed.

(** the total duration of a split grid *)
Lemma split_grid_sum os ps pe (ys xs : list F) : os <> 0 -> is_split_grid os ps pe ys xs ->
  lsumk xs = kadd (kadd (kmul (kofnat ps) (kdiv (nth 0 ys k0) (kofnat os))) (lsumk ys))
                    (kmul (kofnat pe) (kdiv (nth (length ys - 1) ys k0) (kofnat os))).
Proof.
  intros Ho [L [A [B C]]]. rewrite !lsumk_sumn, L, sumn_app, sumn_app. tok.
  f_equal; [f_equal|].
  - rewrite (@sumn_ext K ps _ (fun _ => kdiv (nth 0 ys k0) (kofnat os))) by auto. apply ksumn_const.
  - replace (os * length ys) with (length ys * os) by lia.
    rewrite (@sumn_mul_split K (length ys) os). apply sumn_ext. intros i Hi.
    rewrite (@sumn_ext K os _ (fun _ => kdiv (nth i ys k0) (kofnat os))).
    + rewrite ksumn_const. keq F. field. now apply kofnat_neq0.
    + intros j Hj. apply B; auto.
  - rewrite (@sumn_ext K pe _ (fun _ => kdiv (nth (length ys - 1) ys k0) (kofnat os))) by auto. apply ksumn_const.
Qed.

(** static part of a tree *)
Fixpoint t_no_custom (t : tf) : Prop :=
  match t with
  | Leaf KCustom _ => False
  | Leaf _ _ => True
  | Conc _ a b | Par _ a b | ConcM _ a b | ParM _ a b => t_no_custom a /\ t_no_custom b
  end.
Fixpoint t_unpadded (t : tf) : Prop :=
  match t with
  | Leaf KCustom _ => False
  | Leaf _ b => b_bound b = None /\ b_os b <> 0
  | Conc _ a b | Par _ a b | ConcM _ a b | ParM _ a b => t_unpadded a /\ t_unpadded b
  end.
Lemma t_unpadded_nc t : t_unpadded t -> t_no_custom t.
Proof. induction t; cbn; try tauto. destruct k; tauto. Qed.

(** two objects with the same classes and constructor arguments (they differ in times and caches) *)
Definition same_static (b b' : base) : Prop :=
  b_ctrls b = b_ctrls b' /\ b_bound b = b_bound b' /\ b_os b = b_os b' /\ b_off b = b_off b'.
Fixpoint skel (t t' : tf) : Prop :=
  match t, t' with
  | Leaf k b, Leaf k' b' => k = k' /\ same_static b b'
  | Conc b x y, Conc b' x' y' | Par b x y, Par b' x' y' | ConcM b x y, ConcM b' x' y' | ParM b x y, ParM b' x' y' =>
      same_static b b' /\ skel x x' /\ skel y y'
  | _, _ => False
  end.
Lemma same_static_refl b : same_static b b.
Proof. firstorder. Qed.
Lemma same_static_sym b b' : same_static b b' -> same_static b' b.
Proof. unfold same_static; intuition congruence. Qed.
Lemma same_static_trans b b' b'' : same_static b b' -> same_static b' b'' -> same_static b b''.
Proof. unfold same_static; intuition congruence. Qed.
Lemma same_static_tm b a c d e : same_static b (set_tm b a c d e).
Proof. repeat split. Qed.
Lemma same_static_mat b m : same_static b (set_mat b m).
Proof. repeat split. Qed.
Lemma skel_refl t : skel t t.
Proof. induction t; cbn; auto using same_static_refl. Qed.
Lemma skel_trans t1 t2 t3 : skel t1 t2 -> skel t2 t3 -> skel t1 t3.
Proof.
  revert t2 t3. induction t1; destruct t2; destruct t3; cbn; try tauto; intuition (try congruence; eauto using same_static_trans).
Qed.
Lemma skel_sym t1 t2 : skel t1 t2 -> skel t2 t1.
Proof. revert t2. induction t1; destruct t2; cbn; try tauto; intuition (auto using same_static_sym). Qed.
Lemma skel_base t t' : skel t t' -> same_static (tbase t) (tbase t').
Proof. destruct t, t'; cbn; tauto. Qed.

Lemma set_times_base_static (b : base) ys : same_static b (fst (set_times_base b ys)).
Proof.
  unfold set_times_base. destruct (b_bound b) as [[[] p]|]; [| | | |apply same_static_tm];
  try (destruct ys; [apply same_static_tm|]; destruct (Nat.eqb _ _); apply same_static_tm). apply same_static_tm.
Qed.
Lemma set_times_leaf k (b : base) ys : k <> KCustom ->
  set_times (Leaf k b) ys = (Leaf k (fst (set_times_base b ys)), snd (set_times_base b ys)).
Proof. intros Hk. destruct k; try congruence; cbn [set_times]; destruct (set_times_base b ys); reflexivity. Qed.
Lemma set_times_skel t ys : t_no_custom t -> skel t (fst (set_times t ys)).
Proof.
  revert ys. induction t as [k b|b t1 IH1 t2 IH2|b t1 IH1 t2 IH2|b t1 IH1 t2 IH2|b t1 IH1 t2 IH2]; intros ys H.
  - rewrite set_times_leaf by (destruct k; cbn in H; congruence). cbn. split; auto. apply set_times_base_static.
  - destruct H as [H1 H2]. cbn [set_times]. pose proof (IH1 ys H1) as A. destruct (set_times t1 ys) as [t1' [[]|e]]; cbn [fst] in A;
    [|cbn; auto using same_static_refl, same_static_tm, skel_refl].
    destruct (b_xt (tbase t1')) as [xs|]; [|cbn; auto using same_static_refl, same_static_tm, skel_refl].
    pose proof (IH2 xs H2) as B. destruct (set_times t2 xs) as [t2' [[]|e]]; cbn [fst] in B; cbn; auto using same_static_refl, same_static_tm, skel_refl.
  - destruct H as [H1 H2]. cbn [set_times]. pose proof (IH1 ys H1) as A. destruct (set_times t1 ys) as [t1' [[]|e]]; cbn [fst] in A;
    [|cbn; auto using same_static_refl, same_static_tm, skel_refl].
    pose proof (IH2 ys H2) as B. destruct (set_times t2 ys) as [t2' [[]|e]]; cbn [fst] in B; cbn; auto using same_static_refl, same_static_tm, skel_refl.
  - destruct H as [H1 H2]. cbn [set_times]. pose proof (IH1 ys H1) as A. destruct (set_times t1 ys) as [t1' [[]|e]]; cbn [fst] in A;
    [|cbn; auto using same_static_refl, same_static_tm, skel_refl].
    destruct (b_xt (tbase t1')) as [xs|]; [|cbn; auto using same_static_refl, same_static_tm, skel_refl].
    pose proof (IH2 xs H2) as B. destruct (set_times t2 xs) as [t2' [[]|e]]; cbn [fst] in B; cbn; auto using same_static_refl, same_static_tm, skel_refl.
  - destruct H as [H1 H2]. cbn [set_times]. pose proof (IH1 ys H1) as A. destruct (set_times t1 ys) as [t1' [[]|e]]; cbn [fst] in A;
    [|cbn; auto using same_static_refl, same_static_tm, skel_refl].
    pose proof (IH2 ys H2) as B. destruct (set_times t2 ys) as [t2' [[]|e]]; cbn [fst] in B; cbn; auto using same_static_refl, same_static_tm, skel_refl.
Qed.

(** the grid left by a successful set_times *)
Lemma set_times_grid t ys t' : t_no_custom t -> set_times t ys = (t', Ok tt) ->
  b_ny (tbase t') = length ys /\ b_yt (tbase t') = Some ys /\
  exists xs, b_xt (tbase t') = Some xs /\ b_nx (tbase t') = length xs /\ (t_unpadded t -> lsumk xs = lsumk ys).
Proof.
  revert ys t'. induction t as [k b|b t1 IH1 t2 IH2|b t1 IH1 t2 IH2|b t1 IH1 t2 IH2|b t1 IH1 t2 IH2]; intros ys t' H.
  - rewrite set_times_leaf by (destruct k; cbn in H; congruence). destruct (set_times_base b ys) as [b' r] eqn:E. cbn [fst snd].
    intros [= <- ->]. destruct (set_times_base_ok _ _ E) as [ps [pe [xs [Hp [-> [Hg Hl]]]]]]. cbn. split; auto. split; auto.
    exists xs. split; auto. split; [symmetry; exact Hl|]. intros Hu.
    assert (Hu' : b_bound b = None /\ b_os b <> 0) by (destruct k; cbn in H; tauto). destruct Hu' as [Hu' Ho].
    rewrite Hu' in Hp. injection Hp as <- <-. rewrite (split_grid_sum Ho (Hg Ho)). cbn [kofnat]. keq F. field. now apply kofnat_neq0.
  - destruct H as [H1 H2]. cbn [set_times]. destruct (set_times t1 ys) as [t1' [[]|e]] eqn:E1; [|discriminate].
    destruct (IH1 ys t1' H1 E1) as [A [B [xs [X [Y Z]]]]]. rewrite X.
    destruct (set_times t2 xs) as [t2' [[]|e]] eqn:E2; [|discriminate]. intros [= <-].
    destruct (IH2 xs t2' H2 E2) as [A2 [B2 [xs2 [X2 [Y2 Z2]]]]]. cbn. rewrite A, B, X2, Y2. split; auto. split; auto. exists xs2. split; auto. split; auto.
    intros [U1 U2]. rewrite (Z2 U2). auto.
  - destruct H as [H1 H2]. cbn [set_times]. destruct (set_times t1 ys) as [t1' [[]|e]] eqn:E1; [|discriminate].
    destruct (IH1 ys t1' H1 E1) as [A [B [xs [X [Y Z]]]]].
    destruct (set_times t2 ys) as [t2' [[]|e]] eqn:E2; [|discriminate]. intros [= <-].
    cbn. rewrite A, B, X, Y. split; auto. split; auto. exists xs. split; auto. split; auto. tauto.
  - destruct H as [H1 H2]. cbn [set_times]. destruct (set_times t1 ys) as [t1' [[]|e]] eqn:E1; [|discriminate].
    destruct (IH1 ys t1' H1 E1) as [A [B [xs [X [Y Z]]]]]. rewrite X.
    destruct (set_times t2 xs) as [t2' [[]|e]] eqn:E2; [|discriminate]. intros [= <-].
    destruct (IH2 xs t2' H2 E2) as [A2 [B2 [xs2 [X2 [Y2 Z2]]]]]. cbn. rewrite A, B, X2, Y2. split; auto. split; auto. exists xs2. split; auto. split; auto.
    intros [U1 U2]. rewrite (Z2 U2). auto.
  - destruct H as [H1 H2]. cbn [set_times]. destruct (set_times t1 ys) as [t1' [[]|e]] eqn:E1; [|discriminate].
    destruct (IH1 ys t1' H1 E1) as [A [B [xs [X [Y Z]]]]].
    destruct (set_times t2 ys) as [t2' [[]|e]] eqn:E2; [|discriminate]. intros [= <-].
    cbn. rewrite A, B, X, Y. split; auto. split; auto. exists xs. split; auto. split; auto. tauto.
Qed.

(** evaluations keep the static part and the times *)
Fixpoint timed_eq (t t' : tf) : Prop :=
  match t, t' with
  | Leaf k b, Leaf k' b' => k = k' /\ set_mat b None = set_mat b' None
  | Conc b x y, Conc b' x' y' | Par b x y, Par b' x' y' | ConcM b x y, ConcM b' x' y' | ParM b x y, ParM b' x' y' =>
      set_mat b None = set_mat b' None /\ timed_eq x x' /\ timed_eq y y'
  | _, _ => False
  end.
Lemma set_mat_eq_static (b b' : base) : set_mat b None = set_mat b' None -> same_static b b'.
Proof. destruct b, b'. unfold set_mat, same_static. cbn. intros [= -> -> -> -> -> -> -> ->]. auto. Qed.
Lemma timed_eq_refl t : timed_eq t t.
Proof. induction t; cbn; auto. Qed.
Lemma timed_eq_skel t t' : timed_eq t t' -> skel t t'.
Proof. revert t'. induction t; destruct t'; cbn; try tauto; intuition (auto using set_mat_eq_static). Qed.
Lemma timed_eq_trans t1 t2 t3 : timed_eq t1 t2 -> timed_eq t2 t3 -> timed_eq t1 t3.
Proof. revert t2 t3. induction t1; destruct t2; destruct t3; cbn; try tauto; intuition (try congruence; eauto). Qed.
Lemma set_mat_none (b : base) m : set_mat b None = set_mat (set_mat b m) None.
Proof. reflexivity. Qed.

Lemma get_matrix_timed t : timed_eq t (fst (get_matrix rexp t)).
Proof.
  induction t as [k b|b t1 IH1 t2 IH2|b t1 IH1 t2 IH2|b t1 IH1 t2 IH2|b t1 IH1 t2 IH2]; cbn [get_matrix].
  - destruct k; try apply timed_eq_refl; destruct (b_mat b); try apply timed_eq_refl; destruct (leaf_matrix _ _ _); try apply timed_eq_refl; cbn; auto.
  - apply timed_eq_refl.
  - apply timed_eq_refl.
  - destruct (get_matrix rexp t2) as [t2' [T2|e]]; cbn [fst] in *; [|cbn; auto using timed_eq_refl].
    destruct (get_matrix rexp t1) as [t1' [T1|e]]; cbn [fst] in *; cbn; auto using timed_eq_refl.
  - destruct (b_mat b); [apply timed_eq_refl|].
    destruct (get_matrix rexp t1) as [t1' [T1|e]]; cbn [fst] in *; [|cbn; auto using timed_eq_refl].
    destruct (get_matrix rexp t2) as [t2' [T2|e]]; cbn [fst] in *; [|cbn; auto using timed_eq_refl].
    destruct (concat3 T1 T2); cbn; auto.
Qed.
Lemma calc_matrix_timed t : timed_eq t (fst (calc_matrix rexp t)).
Proof.
  induction t as [k b|b t1 IH1 t2 IH2|b t1 IH1 t2 IH2|b t1 IH1 t2 IH2|b t1 IH1 t2 IH2]; try apply timed_eq_refl.
  - cbn [calc_matrix]. destruct (leaf_matrix _ _ _); cbn; auto.
  - cbn [calc_matrix]. destruct (calc_matrix rexp t1) as [t1' [T1|e]]; cbn [fst] in *; [|cbn; auto using timed_eq_refl].
    destruct (calc_matrix rexp t2) as [t2' r]; cbn [fst] in *; cbn; auto.
  - pose proof (get_matrix_timed (ParM (set_mat b None) t1 t2)) as H. cbn [calc_matrix].
    destruct (get_matrix rexp (ParM (set_mat b None) t1 t2)) as [t' [T|e]]; cbn [fst] in *.
    + destruct t'; cbn in *; try tauto.
    + destruct t'; cbn in *; try tauto.
Qed.
Lemma own_matrix_timed t : timed_eq t (fst (own_matrix rexp t)).
Proof.
  destruct t; try apply get_matrix_timed. unfold own_matrix. pose proof (calc_matrix_timed (ConcM b t1 t2)) as H.
  destruct (calc_matrix rexp (ConcM b t1 t2)) as [t' [[]|e]]; exact H.
Qed.
Lemma matrix_call_timed t y : timed_eq t (fst (matrix_call rexp t y)).
Proof.
  unfold matrix_call. destruct (check_dims _ _); [|apply timed_eq_refl].
  pose proof (own_matrix_timed t) as H. destruct (own_matrix rexp t); exact H.
Qed.
Lemma matrix_grad_timed t g : timed_eq t (fst (matrix_grad rexp t g)).
Proof.
  unfold matrix_grad. destruct (if is_exp t then _ else _); [|apply timed_eq_refl].
  pose proof (own_matrix_timed t) as H. destruct (own_matrix rexp t); exact H.
Qed.
Lemma call_timed t y : timed_eq t (fst (call rexp t y)).
Proof.
  revert y. induction t as [k b|b t1 IH1 t2 IH2|b t1 IH1 t2 IH2|b t1 IH1 t2 IH2|b t1 IH1 t2 IH2]; intros y.
  - destruct k; cbn [call]; try apply timed_eq_refl; apply matrix_call_timed.
  - cbn [call]. destruct (check_dims b y); [|apply timed_eq_refl]. pose proof (IH1 y) as H1.
    destruct (call rexp t1 y) as [t1' [x|e]]; cbn [fst] in *; [|cbn; auto using timed_eq_refl].
    pose proof (IH2 x) as H2. destruct (call rexp t2 x) as [t2' r]; cbn [fst] in *; cbn; auto.
  - cbn [call]. destruct (check_dims b y); [|apply timed_eq_refl]. pose proof (IH1 (cols_lo (b_ctrls (tbase t1)) y)) as H1.
    destruct (call rexp t1 _) as [t1' [x|e]]; cbn [fst] in *; [|cbn; auto using timed_eq_refl].
    pose proof (IH2 (cols_hi (b_ctrls (tbase t1)) y)) as H2. destruct (call rexp t2 _) as [t2' r]; cbn [fst] in *; cbn; auto.
  - apply matrix_call_timed.
  - apply matrix_call_timed.
Qed.
Lemma grad_timed t g : timed_eq t (fst (grad rexp t g)).
Proof.
  revert g. induction t as [k b|b t1 IH1 t2 IH2|b t1 IH1 t2 IH2|b t1 IH1 t2 IH2|b t1 IH1 t2 IH2]; intros g.
  - destruct k; cbn [grad]; try apply timed_eq_refl; apply matrix_grad_timed.
  - cbn [grad]. pose proof (IH2 g) as H2.
    destruct (grad rexp t2 g) as [t2' [x|e]]; cbn [fst] in *; [|cbn; auto using timed_eq_refl].
    pose proof (IH1 x) as H1. destruct (grad rexp t1 x) as [t1' r]; cbn [fst] in *; cbn; auto.
  - cbn [grad]. destruct (Nat.eqb (rank g) 3); [|apply timed_eq_refl]. pose proof (IH1 (cols3_lo (b_ctrls (tbase t1)) g)) as H1.
    destruct (grad rexp t1 _) as [t1' [x|e]]; cbn [fst] in *; [|cbn; auto using timed_eq_refl].
    pose proof (IH2 (cols3_hi (b_ctrls (tbase t1)) g)) as H2. destruct (grad rexp t2 _) as [t2' r]; cbn [fst] in *; cbn; auto.
  - apply matrix_grad_timed.
  - apply matrix_grad_timed.
Qed.

Lemma skel_nc t t' : skel t t' -> t_no_custom t -> t_no_custom t'.
Proof. revert t'. induction t; destruct t'; cbn; try tauto. intros [-> _]. auto. all: intuition eauto. Qed.
Lemma skel_unpadded t t' : skel t t' -> t_unpadded t -> t_unpadded t'.
Proof.
  revert t'. induction t; destruct t'; cbn; try tauto; try (intuition eauto; fail).
  intros [-> [A [B [C D]]]]. rewrite B, C. auto.
Qed.
Lemma do_op_skel t o : t_no_custom t -> skel t (do_op rexp t o).
Proof.
  intros H. destruct o; cbn [do_op].
  - now apply set_times_skel.
  - unfold set_absolute_times. destruct (forallb _ _); [now apply set_times_skel|apply skel_refl].
  - apply timed_eq_skel, call_timed.
  - apply timed_eq_skel, grad_timed.
  - apply timed_eq_skel, get_matrix_timed.
Qed.
Lemma do_ops_skel ops t : t_no_custom t -> skel t (do_ops rexp t ops).
Proof.
  unfold do_ops. revert t. induction ops as [|o ops IH]; intros t H; cbn [fold_left]; [apply skel_refl|].
  pose proof (@do_op_skel t o H) as Ho. eapply skel_trans; [exact Ho|]. apply IH. eapply skel_nc; eauto.
Qed.

Lemma build_no_custom d t : build d = Ok t -> no_custom d -> t_no_custom t.
Proof.
  revert t. induction d; cbn [build no_custom]; intros t E H; try (injection E as <-; exact I); try tauto;
  destruct (build d1) as [x|]; try discriminate; cbn [bind] in E; destruct (build d2) as [y|]; try discriminate; cbn [bind] in E;
  unfold mk_par, mk_parM in E; repeat match type of E with (if ?c then _ else _) = _ => destruct c; [|discriminate] end; injection E as <-; cbn; split; intuition.
Qed.
Lemma build_unpadded d t : build d = Ok t -> unpadded d -> t_unpadded t.
Proof.
  revert t. induction d; cbn [build unpadded]; intros t E H; try (injection E as <-; cbn; auto); try tauto;
  destruct (build d1) as [x|]; try discriminate; cbn [bind] in E; destruct (build d2) as [y|]; try discriminate; cbn [bind] in E;
  unfold mk_par, mk_parM in E; repeat match type of E with (if ?c then _ else _) = _ => destruct c; [|discriminate] end; injection E as <-; cbn; split; intuition.
Qed.

(** C13 *)
Lemma plain_grid d bt os n t ops ys t' : plain d = Some (bt, os, n) -> os <> 0 -> build d = Ok t ->
  set_times (do_ops rexp t ops) ys = (t', Ok tt) ->
  exists ps pe xs, pads bt os = Some (ps, pe) /\
    b_ny (tbase t') = length ys /\ b_xt (tbase t') = Some xs /\ b_nx (tbase t') = length xs /\
    is_split_grid os ps pe ys xs /\
    lsumk xs = kadd (kadd (kmul (kofnat ps) (kdiv (nth 0 ys k0) (kofnat os))) (lsumk ys))
                    (kmul (kofnat pe) (kdiv (nth (length ys - 1) ys k0) (kofnat os))).
Proof.
  intros Hp Ho Hb Hs.
  assert (exists k b, t = Leaf k b /\ k <> KCustom /\ b_bound b = bt /\ b_os b = os) as [k [b [-> [Hk [E1 E2]]]]].
  { destruct d; try discriminate; injection Hp as <- <- <-; injection Hb as <-; do 2 eexists; repeat split; discriminate. }
  assert (HC : t_no_custom (Leaf k b)) by (destruct k; cbn; auto; congruence).
  pose proof (@do_ops_skel ops _ HC) as S. destruct (do_ops rexp (Leaf k b) ops) as [k' b'| | | |]; cbn in S; try tauto.
  destruct S as [<- [S1 [S2 [S3 S4]]]]. rewrite set_times_leaf in Hs by auto.
  destruct (set_times_base b' ys) as [b'' r] eqn:E. cbn [fst snd] in Hs. injection Hs as <- ->.
  destruct (set_times_base_ok _ _ E) as [ps [pe [xs [P1 [-> [P3 P4]]]]]]. rewrite <- S2, <- S3, E1, E2 in *.
  exists ps, pe, xs. cbn. repeat split; auto; try (now apply P3). now apply split_grid_sum; auto.
Qed.
Lemma plain_set_times_defined d bt os n t ops ys : plain d = Some (bt, os, n) -> os <> 0 -> build d = Ok t -> ys <> [] ->
  (exists t', set_times (do_ops rexp t ops) ys = (t', Ok tt)) <-> pads bt os <> None.
Proof.
  intros Hp Ho Hb Hy.
  assert (exists k b, t = Leaf k b /\ k <> KCustom /\ b_bound b = bt /\ b_os b = os) as [k [b [-> [Hk [E1 E2]]]]].
  { destruct d; try discriminate; injection Hp as <- <- <-; injection Hb as <-; do 2 eexists; repeat split; discriminate. }
  assert (HC : t_no_custom (Leaf k b)) by (destruct k; cbn; auto; congruence).
  pose proof (@do_ops_skel ops _ HC) as S. destruct (do_ops rexp (Leaf k b) ops) as [k' b'| | | |]; cbn in S; try tauto.
  destruct S as [<- [S1 [S2 [S3 S4]]]]. rewrite set_times_leaf by auto. rewrite <- E1, <- E2, S2, S3 in *. split.
  - intros [t' E]. destruct (set_times_base b' ys) as [b'' r] eqn:E'. cbn [fst snd] in E. injection E as <- ->.
    destruct (set_times_base_ok _ _ E') as [ps [pe [xs [P1 _]]]]. congruence.
  - intros H. destruct (set_times_base_defined b' H Ho Hy) as [b'' E]. rewrite E. eauto.
Qed.
Lemma tree_grid d t ops ys t' : no_custom d -> build d = Ok t -> set_times (do_ops rexp t ops) ys = (t', Ok tt) ->
  b_ny (tbase t') = length ys /\
  exists xs, b_xt (tbase t') = Some xs /\ b_nx (tbase t') = length xs /\ (unpadded d -> lsumk xs = lsumk ys).
Proof.
  intros Hd Hb Hs. pose proof (@build_no_custom _ _ Hb Hd) as Hc. pose proof (@do_ops_skel ops _ Hc) as Sk.
  destruct (@set_times_grid _ _ _ (@skel_nc _ _ Sk Hc) Hs) as [A [_ [xs [B [C D]]]]]. split; auto. exists xs. split; auto. split; auto.
  intros Hu. apply D. eapply skel_unpadded; eauto. eapply build_unpadded; eauto.
Qed.

(** C21 *)
Lemma np_diff_differences (ts : list F) : differences ts (np_diff ts).
Proof.
  induction ts as [|x [|y l] IH]; [split; [reflexivity|cbn; lia]|split; [reflexivity|cbn; lia]|].
  destruct IH as [L E]. change (np_diff (x :: y :: l)) with (ksub y x :: np_diff (y :: l)). split.
  - cbn [length] in *. lia.
  - intros [|i] Hi; [reflexivity|]. cbn [length] in Hi. change (nth (S i) (ksub y x :: np_diff (y :: l)) k0) with (nth i (np_diff (y :: l)) k0).
    rewrite E by lia. reflexivity.
Qed.
Lemma differences_unique (ts ds ds' : list F) : differences ts ds -> differences ts ds' -> ds = ds'.
Proof.
  intros [L E] [L' E']. apply (nth_ext ds ds' k0 k0); [congruence|]. intros i Hi. rewrite E by auto. rewrite E' by (rewrite L', <- L; auto). reflexivity.
Qed.
Lemma np_diff_sorted (ts : list F) : forallb (fun d => kleb k0 d) (np_diff ts) = true <-> sorted ts.
Proof.
  destruct (np_diff_differences ts) as [L E]. rewrite forallb_forall. split.
  - intros H i Hi. apply kle_of_sub. rewrite <- E by lia. apply H. apply nth_In. lia.
  - intros H x Hx. destruct (In_nth _ _ k0 Hx) as [i [Hi <-]]. rewrite E by auto. apply ksub_nonneg. apply H. lia.
Qed.
Lemma absolute_times t (ts ds : list F) : sorted ts -> differences ts ds -> set_absolute_times t ts = set_times t ds.
Proof.
  intros Hs Hd. unfold set_absolute_times. rewrite (proj2 (np_diff_sorted ts) Hs).
  now rewrite (differences_unique Hd (np_diff_differences ts)).
Qed.
Lemma absolute_times_unsorted t (ts : list F) i : S i < length ts -> klt (nth (S i) ts k0) (nth i ts k0) ->
  set_absolute_times t ts = (t, Err PyException).
Proof.
  intros Hi Hl. unfold set_absolute_times. destruct (forallb _ _) eqn:E; auto. apply np_diff_sorted in E.
  exfalso. specialize (E i Hi). apply klt_nle in Hl. auto.
Qed.
Lemma absolute_times_duration d t ops (ts : list F) t' : unpadded d -> no_custom d -> build d = Ok t -> ts <> [] ->
  set_absolute_times (do_ops rexp t ops) ts = (t', Ok tt) ->
  exists xs, b_xt (tbase t') = Some xs /\ lsumk xs = ksub (last ts k0) (hd k0 ts).
Proof.
  intros Hu Hc Hb Ht. unfold set_absolute_times. destruct (forallb _ _); [|discriminate]. intros Hs.
  destruct (@tree_grid _ _ _ _ _ Hc Hb Hs) as [_ [xs [A [_ B]]]]. exists xs. split; auto. rewrite (B Hu). clear - Ht.
  induction ts as [|x [|y l] IH]; [congruence|cbn; ring|].
  change (np_diff (x :: y :: l)) with (ksub y x :: np_diff (y :: l)). cbn [lsumk]. rewrite IH by discriminate. cbn [hd last]. ring.
Qed.
End P.
