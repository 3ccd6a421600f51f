(** The evaluations write to new operators only, except for the sum of the caller's super operators. *)
Require Import List Arith Lia Bool.
From Coq Require Import ZArith.
From Verif Require Import LibBase LibRing LibArr LibCplx LibMat M_Matrix M_OpHeap P_OpHeap M_SolverHeap LibEx.
Import ListNotations.
Open Scope res_scope.
Set Implicit Arguments.

Section P.
Variable F : OField.
Notation heap := (heap F).
Notation hm := (@hm F).
Implicit Types P : heap -> Prop.

(** h' holds everything h did *)
Record grows (h h' : heap) : Prop := mkgrows {
  gr_objs : forall k o, nth_error (objs h) k = Some o -> nth_error (objs h') k = Some o;
  gr_len : length (bufs h) <= length (bufs h') }.
(** buffers below [B] are not written *)
Definition same_below (B : nat) (h h' : heap) : Prop := forall b, b < B -> nth_error (bufs h') b = nth_error (bufs h) b.
Definition owned (B : nat) (h : heap) (k : nat) : Prop := forall o, nth_error (objs h) k = Some o -> B <= o_buf o.
Definition exists_ (h : heap) (k : nat) : Prop := exists o, nth_error (objs h) k = Some o.
Definition own B h k := owned B h k /\ exists_ h k.
Lemma own_grows B h h' k : grows h h' -> own B h k -> own B h' k.
Proof. intros G [O (o & E)]. split; [|exists o; now apply (gr_objs G)]. intros o' E'. rewrite (gr_objs G k E) in E'. inversion E'; subst. auto. Qed.
Lemma grows_refl h : grows h h. Proof. split; auto. Qed.
Lemma grows_trans a b c : grows a b -> grows b c -> grows a c.
Proof. intros [A1 A2] [B1 B2]. split; auto. lia. Qed.

(** what a program may do when buffers below B belong to others *)
Definition triple {A} (B : nat) (P : heap -> Prop) (m : hm A) (Q : A -> heap -> Prop) : Prop :=
  forall h, wfheap h -> B <= length (bufs h) -> P h ->
    wfheap (fst (m h)) /\ grows h (fst (m h)) /\ same_below B h (fst (m h)) /\ (forall a, snd (m h) = Ok a -> Q a (fst (m h))).
(** assertions stable under growth *)
Definition stable (P : heap -> Prop) : Prop := forall h h', grows h h' -> P h -> P h'.

Lemma t_ret {A} B P (a : A) (Q : A -> heap -> Prop) : (forall h, P h -> Q a h) -> triple B P (hret (F:=F) a) Q.
Proof. intros H h W L HP. cbn. split; [auto|]. split; [apply grows_refl|]. split; [intros ? ?; auto|]. intros a' E. inversion E; subst. auto. Qed.
Lemma t_fail {A} B P e (Q : A -> heap -> Prop) : triple B P (hfail (F:=F) e) Q.
Proof. intros h W L HP. cbn. split; [auto|]. split; [apply grows_refl|]. split; [intros ? ?; auto|]. discriminate. Qed.
Lemma t_bind {A B'} B P (m : hm A) (k : A -> hm B') Q R : triple B P m Q -> (forall a, triple B (Q a) (k a) R) -> triple B P (hbind m k) R.
Proof.
  intros Hm Hk h W L HP. destruct (Hm h W L HP) as (W1 & G1 & S1 & Q1). unfold hbind. destruct (m h) as [h1 [a|e]]; cbn [fst snd] in *.
  - assert (L1 : B <= length (bufs h1)) by (pose proof (gr_len G1); lia). destruct (Hk a h1 W1 L1 (Q1 a eq_refl)) as (W2 & G2 & S2 & R2). split; auto. split; [now apply (grows_trans G1)|]. split; auto.
    intros b Hb. rewrite S2, S1; auto.
  - split; auto. split; auto. split; auto. discriminate.
Qed.
Lemma t_pre {A} B (P P' : heap -> Prop) (m : hm A) Q : (forall h, P h -> P' h) -> triple B P' m Q -> triple B P m Q.
Proof. intros H T h W L HP. apply T; auto. Qed.
Lemma t_post {A} B P (m : hm A) (Q Q' : A -> heap -> Prop) : (forall a h, Q a h -> Q' a h) -> triple B P m Q -> triple B P m Q'.
Proof. intros H T h W L HP. destruct (T h W L HP) as (? & ? & ? & ?). split; auto. Qed.
(** the precondition survives if it is stable *)
Lemma t_keep {A} B P (m : hm A) Q : stable P -> triple B P m Q -> triple B P m (fun a h => P h /\ Q a h).
Proof. intros HS T h W L HP. destruct (T h W L HP) as (W1 & G1 & S1 & Q1). split; auto. split; auto. split; auto. intros a E. split; auto. eapply HS; eauto. Qed.
Lemma t_seq {A B'} B P (m : hm A) (k : A -> hm B') Q R : stable P -> triple B P m Q -> (forall a, triple B (fun h => P h /\ Q a h) (k a) R) -> triple B P (hbind m k) R.
Proof. intros HS Tm Tk. eapply t_bind; [apply t_keep; eauto|]. exact Tk. Qed.

Lemma t_step {A B'} B P (m : hm A) (k : A -> hm B') Q R : stable P -> triple B P m Q -> (forall a, triple B P (k a) R) -> triple B P (hbind m k) R.
Proof. intros HS Tm Tk. eapply t_seq; eauto. intros a. eapply t_pre; [|apply Tk]. tauto. Qed.

(** steps *)
Definition creates (i : instr F) : Prop := match i with IWrap _ => False | _ => target i = None end.
Lemma grows_alloc h M t : grows h (mkheap (bufs h ++ [M]) (objs h ++ [mkobj (length (bufs h)) t])).
Proof. split; cbn [objs bufs]. - intros k o E. now apply nth_error_app_some. - rewrite app_length. lia. Qed.
Lemma same_alloc B h M t : B <= length (bufs h) -> same_below B h (mkheap (bufs h ++ [M]) (objs h ++ [mkobj (length (bufs h)) t])).
Proof. intros L b Hb. cbn [bufs]. rewrite nth_error_app1 by lia. reflexivity. Qed.
Lemma t_expr B P i : creates i -> triple B P (expr i) (fun k h => own B h k).
Proof.
  intros Hi h W L _. unfold expr. destruct (step h i) as [h'|e] eqn:E; cbn [fst snd].
  2: { split; auto. split; [apply grows_refl|]. split; [intros ? ?; auto|]. discriminate. }
  assert (X : exists M t, h' = mkheap (bufs h ++ [M]) (objs h ++ [mkobj (length (bufs h)) t])).
  { unfold step in E. destruct (out_val h i) as [r|] eqn:Ov.
    - destruct r as [M|]; cbn [bind] in E; [|discriminate]. inversion E. exists M, false. reflexivity.
    - destruct i; cbn in Hi; try discriminate; try tauto; try (cbn in Ov; discriminate).
      destruct (valof h a) as [M|]; cbn [bind] in E; [|discriminate]. inversion E. exists M, true. reflexivity. }
  split; [eapply step_wf; eauto|]. destruct X as (M & t & ->). split; [apply grows_alloc|]. split; [now apply same_alloc|]. intros a E1. inversion E1; subst. split.
  - intros o E2. cbn [objs] in E2. rewrite nth_error_app2, Nat.sub_diag in E2 by lia. inversion E2; subst. cbn [o_buf]. lia.
  - exists (mkobj (length (bufs h)) t). cbn [objs]. rewrite nth_error_app2, Nat.sub_diag by lia. reflexivity.
Qed.
Lemma t_store B h o M : B <= o_buf o -> grows h (store h o M) /\ same_below B h (store h o M).
Proof.
  intros Ho. split; [split; auto; unfold store; cbn [bufs]; rewrite lset_length; lia|]. intros b Hb. unfold store. cbn [bufs]. apply lset_nth_error_ne. lia.
Qed.
Lemma t_aug B P b x y : (forall h, P h -> owned B h x) -> triple B P (aug b x y) (fun _ _ => True).
Proof.
  intros HP h W L Hh. unfold aug. destruct (step h (IBinIn b x y)) as [h'|e] eqn:E; cbn [fst snd].
  2: { split; auto. split; [apply grows_refl|]. split; [intros ? ?; auto|]. auto. }
  split; [eapply step_wf; eauto|]. unfold step in E. cbn [out_val] in E. destruct (getobj h x) as [o|] eqn:Eo; cbn [bind] in E; [|discriminate].
  destruct (valof h y) as [V|]; cbn [bind] in E; [|discriminate]. destruct (bin_in b (view h o) V) as [M|]; cbn [bind] in E; [|discriminate]. inversion E; subst h'.
  apply getobj_nth in Eo. destruct (@t_store B h o M (HP h Hh o Eo)) as [G S1]. auto.
Qed.
Lemma t_augs B P x c : (forall h, P h -> owned B h x) -> triple B P (augs x c) (fun _ _ => True).
Proof.
  intros HP h W L Hh. unfold augs. destruct (step h (IScaleIn x c)) as [h'|e] eqn:E; cbn [fst snd].
  2: { split; auto. split; [apply grows_refl|]. split; [intros ? ?; auto|]. auto. }
  split; [eapply step_wf; eauto|]. unfold step in E. cbn [out_val] in E. destruct (getobj h x) as [o|] eqn:Eo; cbn [bind] in E; [|discriminate].
  destruct (op_imul (view h o) (OScal c)) as [M|]; cbn [bind] in E; [|discriminate]. inversion E; subst h'.
  apply getobj_nth in Eo. destruct (@t_store B h o M (HP h Hh o Eo)) as [G S1]. auto.
Qed.
Lemma t_ident B P o : triple B P (ident_like o) (fun k h => own B h k).
Proof.
  intros h W L HP. unfold ident_like. destruct (A <- valof h o ;; op_identity_like A) as [I|e].
  - exact (@t_expr B P (INew I) eq_refl h W L HP).
  - cbn. split; auto. split; [apply grows_refl|]. split; [intros ? ?; auto|]. discriminate.
Qed.

(** lists of owned objects *)
Definition owns B (l : list nat) (h : heap) : Prop := Forall (own B h) l.
Lemma stable_own B k : stable (fun h => own B h k). Proof. intros h h' G. now apply own_grows. Qed.
Lemma stable_owns B l : stable (owns B l).
Proof. intros h h' G H. eapply Forall_impl; [|exact H]. intros k. now apply own_grows. Qed.
Lemma stable_true : stable (fun _ => True). Proof. intros h h' _ _. exact I. Qed.
Lemma stable_and P Q : stable P -> stable Q -> stable (fun h => P h /\ Q h).
Proof. intros A B h h' G [HP HQ]. split; eauto. Qed.

Lemma t_hmap {A X} B P (f : A -> hm X) (l : list A) (Q : X -> heap -> Prop) : stable P -> (forall x, stable (Q x)) -> (forall x, In x l -> triple B P (f x) Q) ->
  triple B P (hmap f l) (fun ys h => Forall (fun y => Q y h) ys).
Proof.
  intros SP SQ. induction l as [|x l IH]; intros H; cbn [hmap].
  - apply t_ret. constructor.
  - apply t_seq with (Q:=Q); auto; [apply H; now left|]. intros y.
    apply t_seq with (Q:=fun ys h => Forall (fun y => Q y h) ys); [apply stable_and; auto|eapply t_pre; [|apply IH; intros; apply H; now right]; tauto|].
    intros ys. apply t_ret. intros h [[_ Hy] Hys]. now constructor.
Qed.
Lemma t_hfor {A} B P (f : A -> hm unit) (l : list A) : stable P -> (forall x, In x l -> triple B P (f x) (fun _ _ => True)) -> triple B P (hfor f l) (fun _ _ => True).
Proof.
  intros SP. induction l as [|x l IH]; intros H; cbn [hfor].
  - apply t_ret. auto.
  - apply t_seq with (Q:=fun _ _ => True); auto; [apply H; now left|]. intros _. eapply t_pre; [|apply IH; intros; apply H; now right]. tauto.
Qed.
Lemma t_idx B P l i : triple B P (hidx l i) (fun k _ => In k l).
Proof.
  unfold hidx. destruct (nth_error l i) as [x|] eqn:E; [|apply t_fail]. apply t_ret. intros _ _. eapply nth_error_In; eauto.
Qed.

Ltac st := repeat first [apply stable_own | apply stable_owns | apply stable_true | apply stable_and].
Lemma owns_in : forall B l h k, owns B l h -> In k l -> own B h k. Proof. intros B l h k. unfold owns. rewrite Forall_forall. auto. Qed.

Lemma t_dyn_gen B P drift ctrl T u : stable P -> triple B P (h_dyn_gen drift ctrl T u) (fun gens h => P h /\ owns B gens h).
Proof.
  intros SP. unfold h_dyn_gen. apply t_seq with (Q:=fun gens h => owns B gens h); auto.
  - apply t_hmap; auto; [intros; apply stable_own|]. intros x Hx. now apply t_expr.
  - intros gens. apply t_seq with (Q:=fun _ _ => True); [apply stable_and; auto; st| |].
    + apply t_hfor; [apply stable_and; auto; st|]. intros [c o] _. apply t_hfor; [apply stable_and; auto; st|]. intros [g t] Hg. cbn [fst snd].
      apply in_combine_l in Hg. eapply t_seq; [apply stable_and; auto; st|now apply t_expr|]. intros k. apply t_aug. intros h [[_ H] _]. exact (proj1 (@owns_in _ _ _ _ H Hg)).
    + intros _. apply t_ret. tauto.
Qed.
Lemma t_directions B P ctrl : stable P -> triple B P (h_directions (F:=F) ctrl) (fun _ _ => True).
Proof. intros SP. unfold h_directions. eapply t_post; [|apply t_hmap with (Q:=fun k h => own B h k); auto]; auto. - intros; apply stable_own. - intros x Hx. now apply t_expr. Qed.
Lemma t_noise B P gens noise T K v : stable P -> triple B P (h_dyn_gen_noise (F:=F) gens noise T K v) (fun _ _ => True).
Proof.
  intros SP. unfold h_dyn_gen_noise. apply t_seq with (Q:=fun rows h => Forall (fun r => owns B r h) rows); auto.
  - apply t_hmap; auto; [intros; apply stable_owns|]. intros k _. apply t_hmap; auto; [intros; apply stable_own|]. intros x Hx. now apply t_expr.
  - intros rows. assert (SR : stable (fun h => Forall (fun r => owns B r h) rows)).
    { intros h h' G H. eapply Forall_impl; [|exact H]. intros r. now apply stable_owns. }
    apply t_seq with (Q:=fun _ _ => True); [apply stable_and; auto| |intros _; apply t_ret; auto].
    apply t_hfor; [apply stable_and; auto|]. intros t _. apply t_hfor; [apply stable_and; auto|]. intros k _. apply t_hfor; [apply stable_and; auto|]. intros [x o] _. cbn [fst snd].
    apply t_seq with (Q:=fun g h => own B h g); [apply stable_and; auto| |].
    + destruct (nth_error rows k) as [row|] eqn:E; [|apply t_fail]. intros h W L [HP HR]. destruct (@t_idx B (fun _ => True) row t h W L I) as (A1 & A2 & A3 & A4).
      split; auto. split; auto. split; auto. intros a Ea. apply (stable_own A2). apply A4 in Ea. rewrite Forall_forall in HR. apply nth_error_In in E. exact (@owns_in _ _ _ _ (HR row E) Ea).
    + intros g. eapply t_seq; [apply stable_and; [apply stable_and; auto|st]|now apply t_expr|]. intros k'. apply t_aug. intros h [[_ H] _]. exact (proj1 H).
Qed.
Lemma t_dissipator B P ident L : stable P -> triple B P (h_dissipator (F:=F) ident L) (fun d h => own B h d).
Proof.
  intros SP. unfold h_dissipator. apply t_step with (Q:=fun _ _ => True); auto; [eapply t_post; [|now apply t_expr]; auto|intros c].
  eapply t_bind; [now apply t_expr|intros d]. cbv beta.
  repeat (eapply t_step; [st|first [now apply t_expr | apply t_aug; intros h H; exact (proj1 H)]|intros ?]).
  apply t_ret. auto.
Qed.
Lemma t_const_ops B P ls : stable P -> triple B P (h_const_ops (F:=F) ls) (fun ds h => owns B ds h).
Proof.
  intros SP. unfold h_const_ops. eapply t_step; [auto|apply t_idx|intros L0]. eapply t_step; [auto|apply t_ident|intros i].
  apply t_hmap; auto; [intros; apply stable_own|]. intros L _. now apply t_dissipator.
Qed.
Lemma t_weighted B P const p : stable P -> triple B P (h_weighted (F:=F) const p) (fun ds h => owns B ds h).
Proof.
  intros SP. unfold h_weighted. apply t_hmap; auto; [intros; apply stable_own|]. intros fs _. eapply t_step; [auto|apply t_idx|intros c].
  destruct fs as [|f fs]; [apply t_fail|]. eapply t_bind; [now apply t_expr|intros d]. cbv beta. apply t_seq with (Q:=fun _ _ => True); [st| |intros _; apply t_ret; tauto].
  apply t_hfor; [st|]. intros [o x] _. cbn [fst snd]. eapply t_step; [st|now apply t_expr|intros k]. apply t_aug. intros h H. exact (proj1 H).
Qed.
Lemma t_sum B P const T : stable P -> triple B (fun h => P h /\ owns B const h) (h_sum (F:=F) const T) (fun _ _ => True).
Proof.
  intros SP. unfold h_sum. apply t_seq with (Q:=fun d _ => In d const); [apply stable_and; auto; st|apply t_idx|intros d].
  apply t_bind with (Q:=fun _ _ => True); [|intros _; apply t_ret; auto]. apply t_hfor; [apply stable_and; [apply stable_and; auto; st|intros ? ? ?; auto]|].
  intros x _. apply t_aug. intros h [[_ H] Hd]. exact (proj1 (@owns_in _ _ _ _ H Hd)).
Qed.
Lemma t_lind_gen B P gens ds : stable P -> triple B P (h_lind_gen (F:=F) gens ds) (fun _ _ => True).
Proof.
  intros SP. unfold h_lind_gen. eapply t_step; [auto|apply t_idx|intros g0]. eapply t_step; [auto|apply t_ident|intros i].
  eapply t_post; [|apply t_hmap with (Q:=fun k h => own B h k); auto; [intros; apply stable_own|]]; auto. intros [g d] _. cbn [fst snd].
  eapply t_bind; [now apply t_expr|intros a]. cbv beta. repeat (eapply t_step; [st|first [now apply t_expr | apply t_aug; intros h H; exact (proj1 H)]|intros ?]).
  apply t_ret. auto.
Qed.
Lemma t_lind_directions B P ctrl : stable P -> triple B P (h_lind_directions (F:=F) ctrl) (fun _ _ => True).
Proof.
  intros SP. unfold h_lind_directions. eapply t_step; [auto|apply t_idx|intros c]. eapply t_bind; [apply t_ident|intros i]. cbv beta.
  eapply t_step; [st|apply t_augs; intros h H; exact (proj1 H)|intros _].
  eapply t_post; [|apply t_hmap with (Q:=fun k h => own B h k); [st|intros; apply stable_own|]]; auto. intros o _.
  eapply t_bind; [now apply t_expr|intros a]. cbv beta. repeat (eapply t_step; [st|first [now apply t_expr | apply t_aug; intros h H; exact (proj1 H)]|intros ?]).
  apply t_ret. auto.
Qed.

Lemma t_evaluate B e : (match e with ELindSup _ _ _ _ _ => False | _ => True end) -> triple B (fun _ => True) (evaluate (F:=F) e) (fun _ _ => True).
Proof.
  intros He. destruct e; cbn [evaluate]; try tauto.
  - eapply t_step; [st|apply t_dyn_gen; st|]. intros; apply t_ret; auto.
  - eapply t_step; [st|apply t_directions; st|]. intros; apply t_ret; auto.
  - eapply t_step; [st|apply t_dyn_gen; st|]. intros g. eapply t_step; [st|apply t_noise; st|]. intros; apply t_ret; auto.
  - eapply t_step; [st|apply t_dyn_gen; st|]. intros g. eapply t_bind; [apply t_const_ops; st|]. intros k.
    eapply t_bind; [eapply t_pre; [|apply t_sum with (P:=fun _ => True); st]; cbv beta; auto|]. intros ds. eapply t_step; [st|apply t_lind_gen; st|]. intros; apply t_ret; auto.
  - eapply t_step; [st|apply t_dyn_gen; st|]. intros g. eapply t_step; [st|apply t_const_ops; st|]. intros k.
    eapply t_step; [st|apply t_weighted; st|]. intros ds. eapply t_step; [st|apply t_lind_gen; st|]. intros; apply t_ret; auto.
  - eapply t_step; [st|apply t_dyn_gen; st|]. intros g.
    eapply t_step; [st|apply t_weighted; st|]. intros d's. eapply t_step; [st|apply t_lind_gen; st|]. intros; apply t_ret; auto.
  - eapply t_step; [st|apply t_lind_directions; st|]. intros; apply t_ret; auto.
Qed.

Lemma evaluate_all_frame es : Forall (fun e => match e with ELindSup _ _ _ _ _ => False | _ => True end) es ->
  forall h, wfheap h -> forall k v, valof h k = Ok v -> valof (evaluate_all (F:=F) h es) k = Ok v.
Proof.
  induction 1 as [|e es He Hes IH]; intros h W k v V; [exact V|]. cbn [evaluate_all fold_left]. 
  destruct (@t_evaluate (length (bufs h)) e He h W (le_n _) I) as (W1 & G1 & S1 & _). apply IH; auto.
  apply (@valof_ext F h _ k v V). intros o Ho. split; [now apply (gr_objs G1)|]. apply S1. exact (W k o Ho).
Qed.
Lemma evaluations_keep (p : list (instr F)) es k v : Forall (fun e => match e with ELindSup _ _ _ _ _ => False | _ => True end) es ->
  valof (run (heap0 F) p) k = Ok v -> valof (evaluate_all (run (heap0 F) p) es) k = Ok v.
Proof. intros H. apply evaluate_all_frame; auto. apply run_wf, heap0_wf. Qed.
End P.

(** two super operators shared by two solvers *)
Definition wsup : list (instr QcField) := [INew (mq 1 1 [[cq 1 0 1]]); INew (mq 1 1 [[cq (-1)%Z 0 1]]); INew (mq 1 1 [[cq (-2)%Z 0 1]])].
Definition getv (h : heap QcField) (k : nat) : op QcField := match valof h k with Ok v => v | Err _ => no_op QcField end.
Definition wsum : @evaluation QcField := ELindSup [0] [0] [1; 2] 1 (fun _ _ => qq 1 1).
Lemma sum_writes : exists (p : list (instr QcField)) e k v v' v'',
  valof (run (heap0 QcField) p) k = Ok v /\ valof (evaluate_all (run (heap0 QcField) p) [e]) k = Ok v' /\
  valof (evaluate_all (run (heap0 QcField) p) [e; e]) k = Ok v'' /\ v' <> v /\ v'' <> v'.
Proof.
  exists wsup, wsum, 1, (getv (run (heap0 QcField) wsup) 1), (getv (evaluate_all (run (heap0 QcField) wsup) [wsum]) 1), (getv (evaluate_all (run (heap0 QcField) wsup) [wsum; wsum]) 1).
  split; [vm_compute; reflexivity|]. split; [vm_compute; reflexivity|]. split; [vm_compute; reflexivity|].
  split; intros H; apply (f_equal (fun A => ceqb (mg A 0 0) (cq (-3)%Z 0 1))) in H; vm_compute in H; discriminate.
Qed.
