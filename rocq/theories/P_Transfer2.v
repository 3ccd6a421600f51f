(** Cached transfer matrices: an evaluated object behaves as a fresh one (C17), oversampling (C14, C15). *)
Require Import List Arith Lia Ring Field Bool.
From Verif Require Import LibBase LibRing LibArr LibCplx M_Transfer S_Transfer P_Transfer.
Import ListNotations.
Open Scope res_scope.
Set Implicit Arguments.

Section P.
Variable F : OField.
Variable rexp : F -> F.
Add Field Kfield_pt2 : (k_field F).
Notation K := (KStar F).
Notation arrF := (arr (kcar F)).
Notation base := (base F).
Notation tf := (tf F).
Implicit Types (t : tf) (b : base) (y g : arrF).

(** values computed without looking at the cached matrices *)
Fixpoint pm (t : tf) : res arrF :=
  match t with
  | Leaf k b => match k with
                | KId | KOver => Err AttributeError
                | KConv _ _ _ _ => Err NotImplementedError
                | _ => leaf_matrix rexp k b
                end
  | Conc _ _ _ | Par _ _ _ => Err AttributeError
  | ConcM b t1 t2 => T2 <- pm t2 ;; T1 <- pm t1 ;; einsum_mat T2 T1
  | ParM b t1 t2 => T1 <- pm t1 ;; T2 <- pm t2 ;; concat3 T1 T2
  end.
Fixpoint pcalc (t : tf) : res unit :=
  match t with
  | Leaf k b => _ <- leaf_matrix rexp k b ;; Ok tt
  | Conc _ _ _ | Par _ _ _ => Err AttributeError
  | ConcM b t1 t2 => _ <- pcalc t1 ;; pcalc t2
  | ParM b t1 t2 => _ <- pm t ;; Ok tt
  end.
Definition pown (t : tf) : res arrF :=
  match t with ConcM _ _ _ => _ <- pcalc t ;; Err ValueError | _ => pm t end.
Definition pmcall (t : tf) (y : arrF) : res arrF :=
  _ <- check_dims (tbase t) y ;; T <- pown t ;; x <- einsum_call T y ;; Ok (add_offset (b_off (tbase t)) x).
Definition pmgrad (t : tf) (g : arrF) : res arrF :=
  _ <- (if is_exp t then Ok tt else check_grad (tbase t) g) ;; T <- pown t ;; einsum_grad T g.
Fixpoint cv (t : tf) (y : arrF) : res arrF :=
  match t with
  | Leaf KId _ => Ok y
  | Leaf KOver b => over_call b y
  | Leaf (KConv ker m _ cval) b => conv_call ker m cval b y
  | Leaf _ _ | ConcM _ _ _ | ParM _ _ _ => pmcall t y
  | Conc b t1 t2 => _ <- check_dims b y ;; x <- cv t1 y ;; cv t2 x
  | Par b t1 t2 => _ <- check_dims b y ;; x1 <- cv t1 (cols_lo (b_ctrls (tbase t1)) y) ;;
                   x2 <- cv t2 (cols_hi (b_ctrls (tbase t1)) y) ;; concat2 x1 x2
  end.
Fixpoint gv (t : tf) (g : arrF) : res arrF :=
  match t with
  | Leaf KId _ => Ok g
  | Leaf KOver b => over_grad b g
  | Leaf (KConv ker _ mg cval) b => conv_grad ker mg cval b g
  | Leaf _ _ | ConcM _ _ _ | ParM _ _ _ => pmgrad t g
  | Conc b t1 t2 => h <- gv t2 g ;; gv t1 h
  | Par b t1 t2 => check Nat.eqb (rank g) 3 else IndexError ;;
                   h1 <- gv t1 (cols3_lo (b_ctrls (tbase t1)) g) ;;
                   h2 <- gv t2 (cols3_hi (b_ctrls (tbase t1)) g) ;; concat3 h1 h2
  end.

Definition okmat (b : base) (r : res arrF) : Prop := forall T, b_mat b = Some T -> r = Ok T.
(** every stored matrix is the one that would be computed now *)
Fixpoint coherent (t : tf) : Prop :=
  match t with
  | Leaf KCustom b => True
  | Leaf _ b => okmat b (pm t)
  | Conc b x y | Par b x y | ConcM b x y => coherent x /\ coherent y
  | ParM b x y => okmat b (pm t) /\ coherent x /\ coherent y
  end.
Fixpoint nocache (t : tf) : Prop :=
  match t with
  | Leaf KCustom b => False
  | Leaf _ b => b_mat b = None
  | Conc b x y | Par b x y | ConcM b x y | ParM b x y => b_mat b = None /\ nocache x /\ nocache y
  end.
Lemma okmat_none b r : b_mat b = None -> okmat b r.
Proof. intros H T E. congruence. Qed.
Lemma nocache_coherent t : nocache t -> coherent t.
Proof.
  induction t as [k b|b t1 IH1 t2 IH2|b t1 IH1 t2 IH2|b t1 IH1 t2 IH2|b t1 IH1 t2 IH2]; cbn [nocache coherent]; try tauto.
  - destruct k; auto using okmat_none.
  - intros [A [B C]]. auto using okmat_none.
Qed.
Lemma nocache_nc t : nocache t -> t_no_custom t.
Proof. induction t; cbn; try tauto. destruct k; auto. Qed.

Lemma leaf_matrix_mat k (b : base) m : k <> KCustom -> leaf_matrix rexp k (set_mat b m) = leaf_matrix rexp k b.
Proof. destruct k; intros; try reflexivity. congruence. Qed.
Lemma set_mat_cong (b b' : base) : set_mat b None = set_mat b' None -> exists m, b' = set_mat b m.
Proof.
  intros H. exists (b_mat b'). destruct b, b'. unfold set_mat in *. cbn in *. congruence.
Qed.
Lemma pm_timed t t' : t_no_custom t -> timed_eq t t' -> pm t = pm t'.
Proof.
  revert t'. induction t as [k b|b t1 IH1 t2 IH2|b t1 IH1 t2 IH2|b t1 IH1 t2 IH2|b t1 IH1 t2 IH2]; destruct t'; cbn [timed_eq t_no_custom]; try tauto.
  - intros Hk [<- H]. apply set_mat_cong in H. destruct H as [m ->]. cbn [pm]. destruct k; try reflexivity; tauto.
  - intros [N1 N2] [_ [H1 H2]]. cbn [pm]. rewrite <- (IH1 _ N1 H1), <- (IH2 _ N2 H2). reflexivity.
  - intros [N1 N2] [_ [H1 H2]]. cbn [pm]. rewrite <- (IH1 _ N1 H1), <- (IH2 _ N2 H2). reflexivity.
Qed.
Lemma pcalc_timed t t' : t_no_custom t -> timed_eq t t' -> pcalc t = pcalc t'.
Proof.
  revert t'. induction t as [k b|b t1 IH1 t2 IH2|b t1 IH1 t2 IH2|b t1 IH1 t2 IH2|b t1 IH1 t2 IH2]; destruct t'; cbn [timed_eq t_no_custom]; try tauto.
  - intros Hk [<- H]. apply set_mat_cong in H. destruct H as [m ->]. cbn [pcalc]. destruct k; try reflexivity; tauto.
  - intros [N1 N2] [_ [H1 H2]]. cbn [pcalc]. rewrite <- (IH1 _ N1 H1), <- (IH2 _ N2 H2). reflexivity.
  - intros [N1 N2] [_ [H1 H2]]. cbn [pcalc pm]. rewrite <- (@pm_timed _ _ N1 H1), <- (@pm_timed _ _ N2 H2). reflexivity.
Qed.
Lemma pown_timed t t' : t_no_custom t -> timed_eq t t' -> pown t = pown t'.
Proof.
  intros N H. destruct t, t'; cbn [timed_eq] in H; try tauto; unfold pown; try now apply pm_timed.
  now rewrite (@pcalc_timed (ConcM b t1 t2) (ConcM b0 t'1 t'2) N H).
Qed.
Lemma timed_base t t' : timed_eq t t' -> set_mat (tbase t) None = set_mat (tbase t') None.
Proof. destruct t, t'; cbn; try tauto. Qed.
Lemma check_dims_timed t t' y : timed_eq t t' -> check_dims (tbase t) y = check_dims (tbase t') y.
Proof. intros H. apply timed_base, set_mat_cong in H. destruct H as [m ->]. reflexivity. Qed.
Lemma check_grad_timed t t' y : timed_eq t t' -> check_grad (tbase t) y = check_grad (tbase t') y.
Proof. intros H. apply timed_base, set_mat_cong in H. destruct H as [m ->]. reflexivity. Qed.
Lemma off_timed t t' : timed_eq t t' -> b_off (tbase t) = b_off (tbase t').
Proof. intros H. apply timed_base, set_mat_cong in H. destruct H as [m ->]. reflexivity. Qed.
Lemma ctrls_timed t t' : timed_eq t t' -> b_ctrls (tbase t) = b_ctrls (tbase t').
Proof. intros H. apply timed_base, set_mat_cong in H. destruct H as [m ->]. reflexivity. Qed.
Lemma is_exp_timed t t' : timed_eq t t' -> is_exp t = is_exp t'.
Proof. destruct t, t'; cbn; try tauto. intros [-> _]. reflexivity. Qed.
Lemma pmcall_timed t t' y : t_no_custom t -> timed_eq t t' -> pmcall t y = pmcall t' y.
Proof. intros N H. unfold pmcall. now rewrite (check_dims_timed _ _ _ H), (@pown_timed _ _ N H), (off_timed _ _ H). Qed.
Lemma pmgrad_timed t t' y : t_no_custom t -> timed_eq t t' -> pmgrad t y = pmgrad t' y.
Proof. intros N H. unfold pmgrad. now rewrite (check_grad_timed _ _ _ H), (@pown_timed _ _ N H), (is_exp_timed _ _ H). Qed.
Lemma cv_timed t t' y : t_no_custom t -> timed_eq t t' -> cv t y = cv t' y.
Proof.
  revert t' y. induction t as [k b|b t1 IH1 t2 IH2|b t1 IH1 t2 IH2|b t1 IH1 t2 IH2|b t1 IH1 t2 IH2]; intros t' y N H; pose proof H as H';
  destruct t'; cbn [timed_eq] in H; try tauto.
  - destruct H as [<- H]. destruct k; cbn [cv]; try (now apply pmcall_timed); apply set_mat_cong in H; destruct H as [m' ->]; reflexivity.
  - destruct H as [H0 [H1 H2]], N as [N1 N2]. cbn [cv]. rewrite (IH1 _ _ N1 H1). pose proof (check_dims_timed _ _ y H') as E. cbn [tbase] in E. rewrite E.
    destruct (check_dims b0 y); cbn [bind]; auto. destruct (cv t'1 y); cbn [bind]; auto.
  - destruct H as [H0 [H1 H2]], N as [N1 N2]. cbn [cv]. rewrite (ctrls_timed _ _ H1). rewrite (IH1 _ _ N1 H1), (IH2 _ _ N2 H2). pose proof (check_dims_timed _ _ y H') as E. cbn [tbase] in E. now rewrite E.
  - now apply pmcall_timed.
  - now apply pmcall_timed.
Qed.
Lemma gv_timed t t' y : t_no_custom t -> timed_eq t t' -> gv t y = gv t' y.
Proof.
  revert t' y. induction t as [k b|b t1 IH1 t2 IH2|b t1 IH1 t2 IH2|b t1 IH1 t2 IH2|b t1 IH1 t2 IH2]; intros t' y N H; pose proof H as H';
  destruct t'; cbn [timed_eq] in H; try tauto.
  - destruct H as [<- H]. destruct k; cbn [gv]; try (now apply pmgrad_timed); apply set_mat_cong in H; destruct H as [m' ->]; reflexivity.
  - destruct H as [H0 [H1 H2]], N as [N1 N2]. cbn [gv]. rewrite (IH2 _ _ N2 H2).
    destruct (gv t'2 y); cbn [bind]; auto.
  - destruct H as [H0 [H1 H2]], N as [N1 N2]. cbn [gv]. rewrite (ctrls_timed _ _ H1). now rewrite (IH1 _ _ N1 H1), (IH2 _ _ N2 H2).
  - now apply pmgrad_timed.
  - now apply pmgrad_timed.
Qed.

(** evaluations return these values and keep coherence *)
Lemma get_matrix_pure t : t_no_custom t -> coherent t -> snd (get_matrix rexp t) = pm t /\ coherent (fst (get_matrix rexp t)).
Proof.
  induction t as [k b|b t1 IH1 t2 IH2|b t1 IH1 t2 IH2|b t1 IH1 t2 IH2|b t1 IH1 t2 IH2]; cbn [get_matrix pm]; try tauto.
  - intros N H. cbn [coherent] in H. destruct k; cbn in N; try tauto; try (split; [reflexivity|exact H]);
    (destruct (b_mat b) as [T|] eqn:E; [split; [symmetry; exact (H T E)|exact H]|]);
    (destruct (leaf_matrix rexp _ b) as [T|e] eqn:E'; cbn [fst snd]; (split; [reflexivity|]); [|exact H]);
    cbn [coherent pm]; rewrite leaf_matrix_mat by discriminate; rewrite E'; intros T' [= ->]; reflexivity.
  - intros [N1 N2] [H1 H2]. destruct (IH1 N1 H1) as [A1 B1], (IH2 N2 H2) as [A2 B2].
    destruct (get_matrix rexp t2) as [t2' [T2|e]]; cbn [fst snd] in *; rewrite <- A2; cbn [bind]; [|cbn [fst coherent]; auto].
    destruct (get_matrix rexp t1) as [t1' [T1|e]]; cbn [fst snd] in *; rewrite <- A1; cbn [bind coherent]; auto.
  - intros [N1 N2] [H0 [H1 H2]]. destruct (IH1 N1 H1) as [A1 B1], (IH2 N2 H2) as [A2 B2].
    pose proof (get_matrix_timed rexp t1) as E1. pose proof (get_matrix_timed rexp t2) as E2.
    destruct (b_mat b) as [T|] eqn:E; [split; [symmetry; exact (H0 T E)|cbn [fst coherent]; auto]|].
    assert (P1 : forall x y : tf, timed_eq t1 x -> timed_eq t2 y -> pm (ParM b x y) = pm (ParM b t1 t2)).
    { intros x y X Y. symmetry. apply pm_timed; [split; auto|cbn; auto]. }
    destruct (get_matrix rexp t1) as [t1' [T1|e]]; cbn [fst snd] in *; rewrite <- A1; cbn [bind];
      [|cbn [fst coherent]; split; [reflexivity|]; split; [|split]; auto using okmat_none].
    destruct (get_matrix rexp t2) as [t2' [T2|e]]; cbn [fst snd] in *; rewrite <- A2; cbn [bind];
      [|cbn [fst coherent]; split; [reflexivity|]; split; [|split]; auto using okmat_none].
    destruct (concat3 T1 T2) as [T|e] eqn:E3; cbn [fst snd]; (split; [reflexivity|]); cbn [coherent]; (split; [|split]; auto using okmat_none).
    intros T' [= <-]. specialize (P1 t1' t2' E1 E2). cbn [pm] in *. rewrite P1, <- A1. cbn [bind]. rewrite <- A2. exact E3.
Qed.
Lemma coherent_set_none b t1 t2 : coherent (ParM b t1 t2) -> coherent (ParM (set_mat b None) t1 t2).
Proof. cbn [coherent]. intros [H [A B]]. split; [intros T [=]|auto]. Qed.
Lemma calc_matrix_pure t : t_no_custom t -> coherent t -> snd (calc_matrix rexp t) = pcalc t /\ coherent (fst (calc_matrix rexp t)).
Proof.
  induction t as [k b|b t1 IH1 t2 IH2|b t1 IH1 t2 IH2|b t1 IH1 t2 IH2|b t1 IH1 t2 IH2]; try (cbn [calc_matrix pcalc]; tauto).
  - intros N H. cbn [calc_matrix pcalc]. cbn in N. destruct (leaf_matrix rexp k b) as [T|e] eqn:E; cbn [bind fst snd]; (split; [reflexivity|]); [|exact H].
    destruct k; try (discriminate || tauto); cbn [coherent pm]; rewrite leaf_matrix_mat by discriminate; rewrite E; intros T' [= ->]; reflexivity.
  - intros [N1 N2] [H1 H2]. cbn [calc_matrix pcalc]. destruct (IH1 N1 H1) as [A1 B1], (IH2 N2 H2) as [A2 B2].
    destruct (calc_matrix rexp t1) as [t1' [T1|e]]; cbn [fst snd] in *; rewrite <- A1; cbn [bind]; [|cbn [fst coherent]; auto].
    destruct (calc_matrix rexp t2) as [t2' r]; cbn [fst snd] in *; rewrite <- A2; cbn [coherent]; auto.
  - intros N H. cbn [calc_matrix]. pose proof (@coherent_set_none _ _ _ H) as HN.
    assert (N' : t_no_custom (ParM (set_mat b None) t1 t2)) by exact N.
    destruct (get_matrix_pure _ N' HN) as [A B]. pose proof (get_matrix_timed rexp (ParM (set_mat b None) t1 t2)) as Tm.
    assert (P : pm (ParM (set_mat b None) t1 t2) = pm (ParM b t1 t2)) by reflexivity. rewrite P in A. cbn [pcalc].
    destruct (get_matrix rexp (ParM (set_mat b None) t1 t2)) as [t' [T|e]]; cbn [fst snd] in *.
    + split; [rewrite <- A; reflexivity|exact B].
    + split; [rewrite <- A; reflexivity|]. destruct t'; cbn [timed_eq] in Tm; try tauto. destruct Tm as [T0 [T1 T2]]. cbn [coherent] in B, H |- *.
      split; [|tauto]. intros T E. destruct H as [H _]. specialize (H T E). congruence.
Qed.
Lemma own_matrix_pure t : t_no_custom t -> coherent t -> snd (own_matrix rexp t) = pown t /\ coherent (fst (own_matrix rexp t)).
Proof.
  intros N H. destruct t; try now apply get_matrix_pure. unfold own_matrix, pown.
  destruct (calc_matrix_pure _ N H) as [A B]. destruct (calc_matrix rexp _) as [t' [[]|e]]; cbn [fst snd] in *; rewrite <- A; auto.
Qed.
Lemma matrix_call_pure t y : t_no_custom t -> coherent t -> snd (matrix_call rexp t y) = pmcall t y /\ coherent (fst (matrix_call rexp t y)).
Proof.
  intros N H. unfold matrix_call, pmcall. destruct (check_dims (tbase t) y); cbn [bind]; [|auto].
  destruct (own_matrix_pure _ N H) as [A B]. destruct (own_matrix rexp t); cbn [fst snd] in *. rewrite A. auto.
Qed.
Lemma matrix_grad_pure t y : t_no_custom t -> coherent t -> snd (matrix_grad rexp t y) = pmgrad t y /\ coherent (fst (matrix_grad rexp t y)).
Proof.
  intros N H. unfold matrix_grad, pmgrad. destruct (if is_exp t then _ else _); cbn [bind]; [|auto].
  destruct (own_matrix_pure _ N H) as [A B]. destruct (own_matrix rexp t); cbn [fst snd] in *. rewrite A. auto.
Qed.
Lemma call_pure t y : t_no_custom t -> coherent t -> snd (call rexp t y) = cv t y /\ coherent (fst (call rexp t y)).
Proof.
  revert y. induction t as [k b|b t1 IH1 t2 IH2|b t1 IH1 t2 IH2|b t1 IH1 t2 IH2|b t1 IH1 t2 IH2]; intros y N H.
  - destruct k; cbn [call cv]; auto; now apply matrix_call_pure.
  - destruct N as [N1 N2], H as [H1 H2]. cbn [call cv]. destruct (check_dims b y); cbn [bind]; [|cbn [fst coherent]; auto].
    destruct (IH1 y N1 H1) as [A1 B1]. destruct (call rexp t1 y) as [t1' [x|e]]; cbn [fst snd] in *; rewrite <- A1; cbn [bind]; [|cbn [fst coherent]; auto].
    destruct (IH2 x N2 H2) as [A2 B2]. destruct (call rexp t2 x) as [t2' r]; cbn [fst snd coherent] in *. auto.
  - destruct N as [N1 N2], H as [H1 H2]. cbn [call cv]. destruct (check_dims b y); cbn [bind]; [|cbn [fst coherent]; auto].
    destruct (IH1 (cols_lo (b_ctrls (tbase t1)) y) N1 H1) as [A1 B1]. destruct (call rexp t1 _) as [t1' [x|e]]; cbn [fst snd] in *; rewrite <- A1; cbn [bind]; [|cbn [fst coherent]; auto].
    destruct (IH2 (cols_hi (b_ctrls (tbase t1)) y) N2 H2) as [A2 B2]. destruct (call rexp t2 _) as [t2' r]; cbn [fst snd coherent] in *. rewrite A2. auto.
  - now apply matrix_call_pure.
  - now apply matrix_call_pure.
Qed.
Lemma grad_pure t y : t_no_custom t -> coherent t -> snd (grad rexp t y) = gv t y /\ coherent (fst (grad rexp t y)).
Proof.
  revert y. induction t as [k b|b t1 IH1 t2 IH2|b t1 IH1 t2 IH2|b t1 IH1 t2 IH2|b t1 IH1 t2 IH2]; intros y N H.
  - destruct k; cbn [grad gv]; auto; now apply matrix_grad_pure.
  - destruct N as [N1 N2], H as [H1 H2]. cbn [grad gv].
    destruct (IH2 y N2 H2) as [A1 B1]. destruct (grad rexp t2 y) as [t2' [x|e]]; cbn [fst snd] in *; rewrite <- A1; cbn [bind]; [|cbn [fst coherent]; auto].
    destruct (IH1 x N1 H1) as [A2 B2]. destruct (grad rexp t1 x) as [t1' r]; cbn [fst snd coherent] in *. auto.
  - destruct N as [N1 N2], H as [H1 H2]. cbn [grad gv]. destruct (Nat.eqb (rank y) 3); cbn [bind]; [|cbn [fst coherent]; auto].
    destruct (IH1 (cols3_lo (b_ctrls (tbase t1)) y) N1 H1) as [A1 B1]. destruct (grad rexp t1 _) as [t1' [x|e]]; cbn [fst snd] in *; rewrite <- A1; cbn [bind]; [|cbn [fst coherent]; auto].
    destruct (IH2 (cols3_hi (b_ctrls (tbase t1)) y) N2 H2) as [A2 B2]. destruct (grad rexp t2 _) as [t2' r]; cbn [fst snd coherent] in *. rewrite A2. auto.
  - now apply matrix_grad_pure.
  - now apply matrix_grad_pure.
Qed.
Lemma evals_pure t ops : t_no_custom t -> coherent t -> Forall is_eval ops ->
  timed_eq t (do_ops rexp t ops) /\ coherent (do_ops rexp t ops) /\ t_no_custom (do_ops rexp t ops).
Proof.
  unfold do_ops. revert t. induction ops as [|o ops IH]; intros t N H E; cbn [fold_left]; [auto using timed_eq_refl|].
  inversion E as [|? ? E1 E2]; subst.
  assert (S : timed_eq t (do_op rexp t o) /\ coherent (do_op rexp t o)).
  { destruct o; cbn [do_op is_eval] in *; try tauto.
    - split; [apply call_timed|now apply call_pure].
    - split; [apply grad_timed|now apply grad_pure].
    - split; [apply get_matrix_timed|now apply get_matrix_pure]. }
  destruct S as [S1 S2]. destruct (IH (do_op rexp t o)) as [A [B C]]; auto.
  { eapply skel_nc; [apply timed_eq_skel; exact S1|auto]. }
  split; auto. eapply timed_eq_trans; eauto.
Qed.

(** set_times keeps objects free of matrices *)
Lemma set_times_base_mat (b : base) ys : b_mat (fst (set_times_base b ys)) = b_mat b.
Proof.
  unfold set_times_base. destruct (b_bound b) as [[[] p]|]; try reflexivity; destruct ys; try reflexivity; destruct (Nat.eqb _ _); reflexivity.
Qed.
Lemma set_times_nocache t ys : nocache t -> nocache (fst (set_times t ys)).
Proof.
  revert ys. induction t as [k b|b t1 IH1 t2 IH2|b t1 IH1 t2 IH2|b t1 IH1 t2 IH2|b t1 IH1 t2 IH2]; intros ys H.
  - rewrite set_times_leaf by (destruct k; cbn in H; congruence). cbn. rewrite set_times_base_mat. destruct k; exact H.
  - destruct H as [H0 [H1 H2]]. cbn [set_times]. pose proof (IH1 ys H1) as A. destruct (set_times t1 ys) as [t1' [[]|e]]; cbn [fst] in A; [|cbn; auto].
    destruct (b_xt (tbase t1')) as [xs|]; [|cbn; auto].
    pose proof (IH2 xs H2) as B. destruct (set_times t2 xs) as [t2' [[]|e]]; cbn [fst] in B; cbn; auto.
  - destruct H as [H0 [H1 H2]]. cbn [set_times]. pose proof (IH1 ys H1) as A. destruct (set_times t1 ys) as [t1' [[]|e]]; cbn [fst] in A; [|cbn; auto].
    pose proof (IH2 ys H2) as B. destruct (set_times t2 ys) as [t2' [[]|e]]; cbn [fst] in B; cbn; auto.
  - destruct H as [H0 [H1 H2]]. cbn [set_times]. pose proof (IH1 ys H1) as A. destruct (set_times t1 ys) as [t1' [[]|e]]; cbn [fst] in A; [|cbn; auto].
    destruct (b_xt (tbase t1')) as [xs|]; [|cbn; auto].
    pose proof (IH2 xs H2) as B. destruct (set_times t2 xs) as [t2' [[]|e]]; cbn [fst] in B; cbn; auto.
  - destruct H as [H0 [H1 H2]]. cbn [set_times]. pose proof (IH1 ys H1) as A. destruct (set_times t1 ys) as [t1' [[]|e]]; cbn [fst] in A; [|cbn; auto].
    pose proof (IH2 ys H2) as B. destruct (set_times t2 ys) as [t2' [[]|e]]; cbn [fst] in B; cbn; auto.
Qed.
Lemma sets_nocache t ops : nocache t -> Forall is_set ops -> nocache (do_ops rexp t ops).
Proof.
  unfold do_ops. revert t. induction ops as [|o ops IH]; intros t H E; cbn [fold_left]; auto.
  inversion E as [|? ? E1 E2]; subst. apply IH; auto. destruct o; cbn [do_op is_set] in *; try tauto.
  - now apply set_times_nocache.
  - unfold set_absolute_times. destruct (forallb _ _); auto. now apply set_times_nocache.
Qed.
Lemma build_nocache d t : build d = Ok t -> no_custom d -> nocache t.
Proof.
  revert t. induction d; cbn [build no_custom]; intros t E H; try (injection E as <-; reflexivity); try tauto;
  destruct (build d1) as [x|]; try discriminate; cbn [bind] in E; destruct (build d2) as [y|]; try discriminate; cbn [bind] in E;
  unfold mk_par, mk_parM in E; repeat match type of E with (if ?c then _ else _) = _ => destruct c; [|discriminate] end; injection E as <-; cbn; split; intuition.
Qed.

(** set_times on objects of the same shape without matrices *)
Lemma set_times_base_same (b b' : base) ys : same_static b b' -> b_mat b = None -> b_mat b' = None ->
  snd (set_times_base b ys) = snd (set_times_base b' ys) /\
  (snd (set_times_base b ys) = Ok tt -> fst (set_times_base b ys) = fst (set_times_base b' ys)).
Proof.
  destruct b as [c1 bb os of m1 ny1 yt1 nx1 xt1], b' as [c1' bb' os' of' m1' ny1' yt1' nx1' xt1']. unfold same_static. cbn [b_ctrls b_bound b_os b_off b_mat]. intros [<- [<- [<- <-]]] -> ->. unfold set_times_base, set_tm.
  cbn [b_ctrls b_bound b_os b_off b_mat b_xt b_nx].
  destruct bb as [[[] p]|]; cbn [fst snd]; auto; try (split; [reflexivity|discriminate]); destruct ys; try (split; [reflexivity|discriminate]);
  destruct (Nat.eqb _ _); split; auto; discriminate.
Qed.
Lemma set_tm_same (b b' : base) a c d e : same_static b b' -> b_mat b = None -> b_mat b' = None -> set_tm b a c d e = set_tm b' a c d e.
Proof. destruct b, b'. unfold same_static. cbn. intros [<- [<- [<- <-]]] -> ->. reflexivity. Qed.
Lemma set_times_same t t' ys : skel t t' -> nocache t -> nocache t' ->
  snd (set_times t ys) = snd (set_times t' ys) /\ (snd (set_times t ys) = Ok tt -> fst (set_times t ys) = fst (set_times t' ys)).
Proof.
  revert t' ys. induction t as [k b|b t1 IH1 t2 IH2|b t1 IH1 t2 IH2|b t1 IH1 t2 IH2|b t1 IH1 t2 IH2]; intros t' ys; destruct t' as [k' b'|b' t1' t2'|b' t1' t2'|b' t1' t2'|b' t1' t2']; cbn [skel]; try tauto.
  - intros [<- H] N N'. rewrite !set_times_leaf by (destruct k; cbn in N; congruence). cbn [fst snd].
    destruct (@set_times_base_same b b' ys H) as [A B]; try (destruct k; cbn in *; tauto). split; auto. intros E. now rewrite (B E).
  - intros [S0 [S1 S2]] [N0 [N1 N2]] [M0 [M1 M2]]. cbn [set_times]. destruct (IH1 t1' ys S1 N1 M1) as [A1 B1].
    destruct (set_times t1 ys) as [u1 [[]|e]], (set_times t1' ys) as [u1' [[]|e']]; cbn [fst snd] in *; try discriminate; try (split; [congruence|discriminate]).
    rewrite <- (B1 eq_refl). destruct (b_xt (tbase u1)) as [xs|]; [|split; [reflexivity|discriminate]].
    destruct (IH2 t2' xs S2 N2 M2) as [A2 B2].
    destruct (set_times t2 xs) as [u2 [[]|e]], (set_times t2' xs) as [u2' [[]|e']]; cbn [fst snd] in *; try discriminate; try (split; [congruence|discriminate]).
    rewrite <- (B2 eq_refl). split; auto. intros _. f_equal. now apply set_tm_same.
  - intros [S0 [S1 S2]] [N0 [N1 N2]] [M0 [M1 M2]]. cbn [set_times]. destruct (IH1 t1' ys S1 N1 M1) as [A1 B1].
    destruct (set_times t1 ys) as [u1 [[]|e]], (set_times t1' ys) as [u1' [[]|e']]; cbn [fst snd] in *; try discriminate; try (split; [congruence|discriminate]).
    rewrite <- (B1 eq_refl). destruct (IH2 t2' ys S2 N2 M2) as [A2 B2].
    destruct (set_times t2 ys) as [u2 [[]|e]], (set_times t2' ys) as [u2' [[]|e']]; cbn [fst snd] in *; try discriminate; try (split; [congruence|discriminate]).
    rewrite <- (B2 eq_refl). split; auto. intros _. f_equal. now apply set_tm_same.
  - intros [S0 [S1 S2]] [N0 [N1 N2]] [M0 [M1 M2]]. cbn [set_times]. destruct (IH1 t1' ys S1 N1 M1) as [A1 B1].
    destruct (set_times t1 ys) as [u1 [[]|e]], (set_times t1' ys) as [u1' [[]|e']]; cbn [fst snd] in *; try discriminate; try (split; [congruence|discriminate]).
    rewrite <- (B1 eq_refl). destruct (b_xt (tbase u1)) as [xs|]; [|split; [reflexivity|discriminate]].
    destruct (IH2 t2' xs S2 N2 M2) as [A2 B2].
    destruct (set_times t2 xs) as [u2 [[]|e]], (set_times t2' xs) as [u2' [[]|e']]; cbn [fst snd] in *; try discriminate; try (split; [congruence|discriminate]).
    rewrite <- (B2 eq_refl). split; auto. intros _. f_equal. now apply set_tm_same.
  - intros [S0 [S1 S2]] [N0 [N1 N2]] [M0 [M1 M2]]. cbn [set_times]. destruct (IH1 t1' ys S1 N1 M1) as [A1 B1].
    destruct (set_times t1 ys) as [u1 [[]|e]], (set_times t1' ys) as [u1' [[]|e']]; cbn [fst snd] in *; try discriminate; try (split; [congruence|discriminate]).
    rewrite <- (B1 eq_refl). destruct (IH2 t2' ys S2 N2 M2) as [A2 B2].
    destruct (set_times t2 ys) as [u2 [[]|e]], (set_times t2' ys) as [u2' [[]|e']]; cbn [fst snd] in *; try discriminate; try (split; [congruence|discriminate]).
    rewrite <- (B2 eq_refl). split; auto. intros _. f_equal. now apply set_tm_same.
Qed.

(** classes without matrices never cache *)
Fixpoint t_no_matrix (t : tf) : Prop :=
  match t with
  | Leaf KOverM _ | Leaf KCustom _ | Leaf (KExp _) _ | ConcM _ _ _ | ParM _ _ _ => False
  | Leaf _ b => b_mat b = None
  | Conc b x y | Par b x y => b_mat b = None /\ t_no_matrix x /\ t_no_matrix y
  end.
Lemma t_no_matrix_nocache t : t_no_matrix t -> nocache t.
Proof. induction t; cbn; try tauto. destruct k; cbn; tauto. Qed.
Lemma build_no_matrix d t : build d = Ok t -> no_matrix d -> t_no_matrix t.
Proof.
  revert t. induction d; cbn [build no_matrix]; intros t E H; try (injection E as <-; reflexivity); try tauto;
  destruct (build d1) as [x|]; try discriminate; cbn [bind] in E; destruct (build d2) as [y|]; try discriminate; cbn [bind] in E;
  unfold mk_par, mk_parM in E; repeat match type of E with (if ?c then _ else _) = _ => destruct c; [|discriminate] end; injection E as <-; cbn; split; intuition.
Qed.
Lemma no_matrix_skel t t' : skel t t' -> t_no_matrix t -> nocache t' -> t_no_matrix t'.
Proof. revert t'. induction t; destruct t'; cbn; try tauto. intros [<- _]. destruct k; auto. all: intuition eauto. Qed.
Lemma call_no_matrix t y : t_no_matrix t -> fst (call rexp t y) = t.
Proof.
  revert y. induction t; intros y; cbn [t_no_matrix]; try tauto.
  - destruct k; cbn; tauto.
  - intros [_ [H1 H2]]. cbn [call]. destruct (check_dims b y); auto. specialize (IHt1 y H1). destruct (call rexp t1 y) as [u [x|e]]; cbn [fst] in *; subst; auto.
    specialize (IHt2 x H2). destruct (call rexp t2 x) as [u2 r]; cbn [fst] in *; subst; auto.
  - intros [_ [H1 H2]]. cbn [call]. destruct (check_dims b y); auto. specialize (IHt1 (cols_lo (b_ctrls (tbase t1)) y) H1). destruct (call rexp t1 _) as [u [x|e]]; cbn [fst] in *; subst; auto.
    specialize (IHt2 (cols_hi (b_ctrls (tbase t1)) y) H2). destruct (call rexp t2 _) as [u2 r]; cbn [fst] in *; subst; auto.
Qed.
Lemma grad_no_matrix t y : t_no_matrix t -> fst (grad rexp t y) = t.
Proof.
  revert y. induction t; intros y; cbn [t_no_matrix]; try tauto.
  - destruct k; cbn; tauto.
  - intros [_ [H1 H2]]. cbn [grad]. specialize (IHt2 y H2). destruct (grad rexp t2 y) as [u [x|e]]; cbn [fst] in *; subst; auto.
    specialize (IHt1 x H1). destruct (grad rexp t1 x) as [u2 r]; cbn [fst] in *; subst; auto.
  - intros [_ [H1 H2]]. cbn [grad]. destruct (Nat.eqb (rank y) 3); auto. specialize (IHt1 (cols3_lo (b_ctrls (tbase t1)) y) H1). destruct (grad rexp t1 _) as [u [x|e]]; cbn [fst] in *; subst; auto.
    specialize (IHt2 (cols3_hi (b_ctrls (tbase t1)) y) H2). destruct (grad rexp t2 _) as [u2 r]; cbn [fst] in *; subst; auto.
Qed.
Lemma get_matrix_no_matrix t : t_no_matrix t -> fst (get_matrix rexp t) = t.
Proof. destruct t; cbn; try tauto. destruct k; tauto. Qed.
Lemma ops_no_matrix t ops : t_no_matrix t -> t_no_matrix (do_ops rexp t ops).
Proof.
  unfold do_ops. revert t. induction ops as [|o ops IH]; intros t H; cbn [fold_left]; auto. apply IH.
  destruct o; cbn [do_op].
  - eapply no_matrix_skel; [apply set_times_skel|exact H|apply set_times_nocache; now apply t_no_matrix_nocache]. now apply nocache_nc, t_no_matrix_nocache.
  - unfold set_absolute_times. destruct (forallb _ _); auto.
    eapply no_matrix_skel; [apply set_times_skel|exact H|apply set_times_nocache; now apply t_no_matrix_nocache]. now apply nocache_nc, t_no_matrix_nocache.
  - now rewrite call_no_matrix.
  - now rewrite grad_no_matrix.
  - now rewrite get_matrix_no_matrix.
Qed.

(** C17: set_times after any use gives the state of a fresh object *)
Lemma set_times_takes_effect d t ops ys : no_matrix d -> build d = Ok t ->
  snd (set_times (do_ops rexp t ops) ys) = snd (set_times t ys) /\
  (snd (set_times t ys) = Ok tt -> fst (set_times (do_ops rexp t ops) ys) = fst (set_times t ys)).
Proof.
  intros Hd Hb. pose proof (@build_no_matrix _ _ Hb Hd) as N. pose proof (t_no_matrix_nocache _ N) as C. pose proof (@ops_no_matrix _ ops N) as N2.
  destruct (@set_times_same t (do_ops rexp t ops) ys) as [A B]; auto.
  - apply do_ops_skel. now apply nocache_nc.
  - now apply t_no_matrix_nocache.
  - split; [auto|]. intros E. symmetry. auto.
Qed.
Lemma set_times_again d t ops ys : no_custom d -> build d = Ok t -> Forall is_set ops ->
  snd (set_times (do_ops rexp t ops) ys) = snd (set_times t ys) /\
  (snd (set_times t ys) = Ok tt -> fst (set_times (do_ops rexp t ops) ys) = fst (set_times t ys)).
Proof.
  intros Hd Hb Ho. pose proof (@build_nocache _ _ Hb Hd) as C.
  destruct (@set_times_same t (do_ops rexp t ops) ys) as [A B]; auto.
  - apply do_ops_skel. now apply nocache_nc.
  - now apply sets_nocache.
  - split; [auto|]. intros E. symmetry. auto.
Qed.

(** a ready object is the fresh one up to stored matrices *)
Lemma ready_fresh d ys t : no_custom d -> ready rexp d ys t ->
  exists t0 t1, build d = Ok t0 /\ set_times t0 ys = (t1, Ok tt) /\ nocache t1 /\ t_no_custom t1 /\ t_no_custom t /\ timed_eq t1 t /\ coherent t.
Proof.
  intros Hd [t0 [t1 [sets [evals [Hb [Hs [Ht [He ->]]]]]]]]. exists t0, t1.
  destruct (@set_times_again d t0 sets ys Hd Hb Hs) as [A B]. rewrite Ht in A, B. cbn [fst snd] in A, B.
  assert (E : set_times t0 ys = (t1, Ok tt)) by (destruct (set_times t0 ys) as [u r]; cbn [fst snd] in *; subst r; rewrite (B eq_refl); reflexivity).
  pose proof (@build_nocache _ _ Hb Hd) as C. assert (C1 : nocache t1) by (rewrite <- (f_equal fst E : fst (set_times t0 ys) = t1); now apply set_times_nocache).
  pose proof (nocache_nc _ C1) as N1. destruct (@evals_pure t1 evals N1 (nocache_coherent _ C1) He) as [P1 [P2 P3]]. auto 8.
Qed.
Lemma ready_call d ys t t0 t1 y : no_custom d -> ready rexp d ys t -> build d = Ok t0 -> set_times t0 ys = (t1, Ok tt) ->
  snd (call rexp t y) = cv t1 y.
Proof.
  intros Hd Hr Hb Ht. destruct (@ready_fresh _ _ _ Hd Hr) as [u0 [u1 [A [B [C [D [D' [E G]]]]]]]].
  assert (u1 = t1) by congruence. subst u1. rewrite (proj1 (@call_pure t y D' G)). symmetry. now apply cv_timed.
Qed.
Lemma ready_grad d ys t t0 t1 y : no_custom d -> ready rexp d ys t -> build d = Ok t0 -> set_times t0 ys = (t1, Ok tt) ->
  snd (grad rexp t y) = gv t1 y.
Proof.
  intros Hd Hr Hb Ht. destruct (@ready_fresh _ _ _ Hd Hr) as [u0 [u1 [A [B [C [D [D' [E G]]]]]]]].
  assert (u1 = t1) by congruence. subst u1. rewrite (proj1 (@grad_pure t y D' G)). symmetry. now apply gv_timed.
Qed.
Lemma ready_matrix d ys t t0 t1 : no_custom d -> ready rexp d ys t -> build d = Ok t0 -> set_times t0 ys = (t1, Ok tt) ->
  snd (get_matrix rexp t) = pm t1.
Proof.
  intros Hd Hr Hb Ht. destruct (@ready_fresh _ _ _ Hd Hr) as [u0 [u1 [A [B [C [D [D' [E G]]]]]]]].
  assert (u1 = t1) by congruence. subst u1. rewrite (proj1 (@get_matrix_pure t D' G)). symmetry. now apply pm_timed.
Qed.
(** two ready objects of the same kind and times give the same results *)
Lemma ready_same d ys t t' : no_custom d -> ready rexp d ys t -> ready rexp d ys t' ->
  (forall y, snd (call rexp t y) = snd (call rexp t' y)) /\ (forall g, snd (grad rexp t g) = snd (grad rexp t' g)) /\
  snd (get_matrix rexp t) = snd (get_matrix rexp t').
Proof.
  intros Hd H H'. destruct (@ready_fresh _ _ _ Hd H) as [u0 [u1 [A [B _]]]].
  split; [|split]; intros; [rewrite (@ready_call _ _ _ _ _ y Hd H A B), (@ready_call _ _ _ _ _ y Hd H' A B)|rewrite (@ready_grad _ _ _ _ _ g Hd H A B), (@ready_grad _ _ _ _ _ g Hd H' A B)|rewrite (@ready_matrix _ _ _ _ _ Hd H A B), (@ready_matrix _ _ _ _ _ Hd H' A B)]; reflexivity.
Qed.
End P.
