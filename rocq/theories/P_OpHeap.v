(** Frame properties of the operator heap (C06). *)
Require Import List Arith Lia Bool.
From Verif Require Import LibBase LibRing LibArr LibCplx LibMat M_Matrix M_OpHeap.
Import ListNotations.
Set Implicit Arguments.

Section P.
Variable F : OField.
Notation S := (CStar F).
Notation heap := (heap F).
Notation instr := (instr F).

(** the operator an in-place instruction is applied to *)
Definition target (i : instr) : option nat :=
  match i with
  | IBinIn _ a _ | IScaleIn a _ | IDagIn a | IConjIn a | ITransIn a | ISet a _ _ _ => Some a
  | _ => None
  end.
Definition out_of_place (i : instr) : Prop := target i = None.

Lemma nth_error_app_some {T} (l l' : list T) k x : nth_error l k = Some x -> nth_error (l ++ l') k = Some x.
Proof. intros H. rewrite nth_error_app1; auto. apply nth_error_Some. congruence. Qed.
Lemma lset_length {T} (l : list T) i x : length (lset l i x) = length l.
Proof. revert i. induction l; intros [|i]; cbn; auto. Qed.
Lemma lset_nth_error_ne {T} (l : list T) i j x : i <> j -> nth_error (lset l i x) j = nth_error l j.
Proof.
  revert i j. induction l as [|a l IH]; intros [|i] [|j] H; cbn; auto; try lia; apply IH; lia.
Qed.
Lemma lset_nth_error_eq {T} (l : list T) i x : i < length l -> nth_error (lset l i x) i = Some x.
Proof. revert i. induction l as [|a l IH]; intros [|i] H; cbn in *; auto; try lia; apply IH; lia. Qed.

(** objects refer to existing buffers *)
Definition wfheap (h : heap) : Prop := forall k o, nth_error (objs h) k = Some o -> o_buf o < length (bufs h).
(** no two objects share a buffer *)
Definition separated (h : heap) : Prop :=
  forall j k o o', nth_error (objs h) j = Some o -> nth_error (objs h) k = Some o' -> j <> k -> o_buf o <> o_buf o'.

Lemma getobj_nth h k o : getobj h k = Ok o <-> nth_error (objs (F:=F) h) k = Some o.
Proof. unfold getobj. destruct (nth_error (objs h) k); split; congruence. Qed.

Lemma valof_ext (h h' : heap) k v : valof h k = Ok v ->
  (forall o, nth_error (objs h) k = Some o -> nth_error (objs h') k = Some o /\
     nth_error (bufs h') (o_buf o) = nth_error (bufs h) (o_buf o)) -> valof h' k = Ok v.
Proof.
  unfold valof, getobj. destruct (nth_error (objs h) k) as [o|]; [|discriminate]. cbn [bind]. intros E H.
  destruct (H o eq_refl) as [-> H2]. cbn [bind]. rewrite <- E. f_equal. unfold view, getbuf.
  assert (E2 : nth (o_buf o) (bufs h') (no_op F) = nth (o_buf o) (bufs h) (no_op F)).
  { revert H2. generalize (o_buf o). intros b H2.
    destruct (nth_error (bufs h) b) eqn:E3.
    - erewrite !nth_error_nth by eauto. reflexivity.
    - rewrite !nth_overflow; auto; now apply nth_error_None. }
  now rewrite E2.
Qed.

Lemma step_wf h i h' : wfheap h -> step h i = Ok h' -> wfheap h'.
Proof.
  intros W. unfold step.
  assert (A : forall M, wfheap (alloc h M)).
  { intros M k o H. unfold alloc in *. cbn [objs bufs] in *. rewrite app_length. cbn [length].
    destruct (Nat.lt_ge_cases k (length (objs h))) as [L|L].
    - rewrite nth_error_app1 in H by auto. specialize (W _ _ H). lia.
    - rewrite nth_error_app2 in H by auto. destruct (k - length (objs h)) as [|m]; cbn in H; [injection H as <-; cbn; lia|].
      destruct m; discriminate. }
  assert (St : forall o M, wfheap (store h o M)).
  { intros o M k o' H. unfold store in *. cbn [objs bufs] in *. rewrite lset_length. eauto. }
  assert (Fl : forall (h0 : heap) a o, wfheap h0 -> nth_error (objs h0) a = Some o -> wfheap (mkheap (bufs h0) (lset (objs h0) a (mkobj (o_buf o) (negb (o_tr o)))))).
  { intros h0 a o W0 Ha k o' H. cbn [objs bufs] in *. destruct (Nat.eq_dec a k) as [<-|N].
    - rewrite lset_nth_error_eq in H by (apply nth_error_Some; congruence). injection H as <-. cbn. eauto.
    - rewrite lset_nth_error_ne in H by auto. eauto. }
  destruct (out_val h i) as [r|].
  { destruct r; cbn [bind]; [intros [= <-]; auto|discriminate]. }
  destruct i; cbn [bind]; try discriminate; try (destruct (getobj h _) as [o|] eqn:G; cbn [bind]; [|discriminate]).
  - intros [= <-] k o' H. cbn [objs bufs] in *. destruct (Nat.lt_ge_cases k (length (objs h))) as [L|L].
    + rewrite nth_error_app1 in H by auto. eauto.
    + rewrite nth_error_app2 in H by auto. destruct (k - length (objs h)) as [|m]; cbn in H; [injection H as <-; apply getobj_nth in G; eauto|].
      destruct m; discriminate.
  - destruct (valof h a) as [v|]; cbn [bind]; [|discriminate]. intros [= <-] k o' H. cbn [objs bufs] in *. rewrite app_length. cbn [length].
    destruct (Nat.lt_ge_cases k (length (objs h))) as [L|L].
    + rewrite nth_error_app1 in H by auto. specialize (W _ _ H). lia.
    + rewrite nth_error_app2 in H by auto. destruct (k - length (objs h)) as [|m]; cbn in H; [injection H as <-; cbn; lia|].
      destruct m; discriminate.
  - destruct (valof h y); cbn [bind]; [|discriminate]. destruct (bin_in _ _ _); cbn [bind]; [|discriminate]. intros [= <-]. auto.
  - intros [= <-]. apply St.
  - intros [= <-]. apply getobj_nth in G. apply (@Fl (store h o (op_conj (view h o))) a o); auto.
  - intros [= <-]. apply St.
  - intros [= <-]. apply getobj_nth in G. apply (@Fl h a o); auto.
  - destruct (_ && _); [|discriminate]. intros [= <-]. apply St.
Qed.

(** one out-of-place instruction leaves every operator alone *)
Lemma step_frame h i h' k v : wfheap h -> out_of_place i -> step h i = Ok h' -> valof h k = Ok v -> valof h' k = Ok v.
Proof.
  intros W O E V.
  assert (A : forall bs os, valof (mkheap (bufs h ++ bs) (objs h ++ os)) k = Ok v).
  { intros bs os. apply (@valof_ext _ _ _ _ V). intros o Ho. cbn [objs bufs]. split; [now apply nth_error_app_some|].
    apply nth_error_app1. eauto. }
  unfold step in E. destruct (out_val h i) as [r|] eqn:Ov.
  { destruct r; cbn [bind] in E; [|discriminate]. injection E as <-. apply A. }
  destruct i; cbn [bind] in E; try discriminate; try discriminate O.
  - destruct (getobj h a) as [o|]; cbn [bind] in E; [|discriminate]. injection E as <-.
    specialize (A [] [o]). now rewrite app_nil_r in A.
  - destruct (valof h a) as [w|]; cbn [bind] in E; [|discriminate]. injection E as <-. apply A.
Qed.
Lemma run_frame p h k v : wfheap h -> Forall out_of_place p -> valof h k = Ok v -> valof (run h p) k = Ok v.
Proof.
  revert h. induction p as [|i p IH]; intros h W O V; [exact V|]. inversion O; subst. cbn [run].
  destruct (step h i) as [h'|e] eqn:E.
  - apply IH; auto. eapply step_wf; eauto. eapply step_frame; eauto.
  - apply IH; auto.
Qed.

(** in-place arithmetic computes the value of the out-of-place expression *)
Lemma mtr_mtr_view (h : heap) o M m n : nth_error (bufs h) (o_buf o) <> None -> wfm m n M -> view (store h o M) o = M.
Proof.
  intros Hb WM. unfold view, store, getbuf. cbn [bufs].
  assert (L : o_buf o < length (bufs h)) by now apply nth_error_Some.
  assert (E : forall x, nth (o_buf o) (lset (bufs h) (o_buf o) x) (no_op F) = x).
  { intros x. erewrite nth_error_nth; [reflexivity|]. now apply lset_nth_error_eq. }
  rewrite E. destruct (o_tr o); auto. now rewrite (mtr_mtr WM).
Qed.
Lemma bin_in_bin b A B M : bin_in b A B = Ok M -> bin (F:=F) b A B = Ok M.
Proof.
  destruct b; cbn; auto; try discriminate. unfold np_matmul_out. destruct (np_matmul A B); cbn [bind]; [|discriminate].
  destruct (Nat.eqb _ _); congruence.
Qed.
Lemma bin_wf b m n p q A B M : wfm m n A -> wfm p q B -> bin (F:=F) b A B = Ok M -> exists m' n', wfm m' n' M.
Proof.
  intros WA WB. destruct b; cbn; unfold op_add, op_sub, op_copy, op_iadd, op_isub, np_matmul.
  - destruct (bcast_ok A B); [|discriminate]. intros [= <-]. exists m, n. unfold bcast. rewrite (wfm_nr WA), (wfm_nc WA). apply wfm_madd; auto using wfm_mk2.
  - destruct (bcast_ok A B); [|discriminate]. intros [= <-]. exists m, n. unfold bcast. rewrite (wfm_nr WA), (wfm_nc WA). apply wfm_msub; auto using wfm_mk2.
  - destruct (Nat.eqb_spec (nc A) (nr B)) as [E|]; [|discriminate]. intros [= <-]. exists m, q.
    rewrite (wfm_nc WA), (wfm_nr WB) in E. subst. apply wfm_mmul with p; auto.
  - intros [= <-]. exists (m * p), (n * q). now apply wfm_mkron.
Qed.
Lemma inplace_agrees b h h' h'' x y A B m n p q : wfheap h -> valof h x = Ok A -> valof h y = Ok B -> wfm m n A -> wfm p q B ->
  step h (IBinIn b x y) = Ok h' -> step h (IBin b x y) = Ok h'' ->
  valof h' x = valof h'' (length (objs h)).
Proof.
  intros W VA VB WA WB E1 E2. unfold step in *. cbn [out_val bind] in *. rewrite VA, VB in *. cbn [bind] in *.
  unfold valof in VA. destruct (getobj h x) as [o|] eqn:G; [|discriminate]. cbn [bind] in *. injection VA as VA. rewrite VA in *.
  destruct (bin_in b A B) as [M|] eqn:EM; [|discriminate]. apply bin_in_bin in EM. rewrite EM in E2. cbn [bind] in *.
  injection E1 as <-. injection E2 as <-. apply getobj_nth in G.
  destruct (bin_wf _ WA WB EM) as (m' & n' & WM).
  unfold valof, getobj. unfold store at 1, alloc at 1. cbn [objs]. rewrite G.
  rewrite nth_error_app2 by auto. rewrite Nat.sub_diag. cbn [nth_error bind].
  f_equal. rewrite (@mtr_mtr_view h o M m' n'); auto.
  - unfold view, alloc, getbuf. cbn. now rewrite nth_middle.
  - apply nth_error_Some. eauto.
Qed.

(** programs without DenseOperator(op): in-place operations only touch their own operator *)
Definition no_wrap (i : instr) : Prop := match i with IWrap _ => False | _ => True end.
Lemma sep_alloc h M t : wfheap h -> separated h -> separated (mkheap (bufs h ++ [M]) (objs h ++ [mkobj (length (bufs h)) t])).
Proof.
  intros W Sp j k o o' Hj Hk N. cbn [objs] in *.
  assert (In1 : forall a x, nth_error (objs h ++ [mkobj (length (bufs h)) t]) a = Some x ->
     (nth_error (objs h) a = Some x /\ o_buf x < length (bufs h)) \/ (a = length (objs h) /\ o_buf x = length (bufs h))).
  { intros a x H. destruct (Nat.lt_ge_cases a (length (objs h))) as [L|L].
    - rewrite nth_error_app1 in H by auto. left. split; eauto.
    - rewrite nth_error_app2 in H by auto. destruct (a - length (objs h)) as [|m] eqn:E; cbn in H; [injection H as <-; right; split; [lia|reflexivity]|].
      destruct m; discriminate. }
  apply In1 in Hj, Hk. destruct Hj as [[Hj Lj]|[-> Lj]], Hk as [[Hk Lk]|[-> Lk]]; try lia. eauto.
Qed.
Lemma sep_store h o M : separated h -> separated (store h o M).
Proof. intros Sp. exact Sp. Qed.
Lemma sep_flip (h : heap) a o : separated h -> nth_error (objs h) a = Some o ->
  separated (mkheap (bufs h) (lset (objs h) a (mkobj (o_buf o) (negb (o_tr o))))).
Proof.
  intros Sp Ha.
  assert (G : forall k x, nth_error (lset (objs h) a (mkobj (o_buf o) (negb (o_tr o)))) k = Some x ->
     exists x', nth_error (objs h) k = Some x' /\ o_buf x' = o_buf x).
  { intros k x H. destruct (Nat.eq_dec a k) as [<-|N].
    - rewrite lset_nth_error_eq in H by (apply nth_error_Some; congruence). injection H as <-. exists o. auto.
    - rewrite lset_nth_error_ne in H by auto. eauto. }
  intros j k x y Hj Hk N. cbn [objs] in *. destruct (G _ _ Hj) as (x' & H1 & <-). destruct (G _ _ Hk) as (y' & H2 & <-). eauto.
Qed.
Lemma step_sep h i h' : wfheap h -> separated h -> no_wrap i -> step h i = Ok h' -> separated h'.
Proof.
  intros W Sp NW E. unfold step in E. destruct (out_val h i) as [r|] eqn:Ov.
  { destruct r; cbn [bind] in E; [|discriminate]. injection E as <-. now apply sep_alloc. }
  destruct i; cbn [bind] in E; try discriminate; try (now destruct NW).
  - destruct (valof h a); cbn [bind] in E; [|discriminate]. injection E as <-. now apply sep_alloc.
  - destruct (getobj h x); cbn [bind] in E; [|discriminate]. destruct (valof h y); cbn [bind] in E; [|discriminate].
    destruct (bin_in _ _ _); cbn [bind] in E; [|discriminate]. injection E as <-. now apply sep_store.
  - destruct (getobj h a); cbn [bind] in E; [|discriminate]. injection E as <-. now apply sep_store.
  - destruct (getobj h a) as [o|] eqn:G; cbn [bind] in E; [|discriminate]. injection E as <-. apply getobj_nth in G.
    apply (@sep_flip (store h o (op_conj (view h o))) a o); auto.
  - destruct (getobj h a); cbn [bind] in E; [|discriminate]. injection E as <-. now apply sep_store.
  - destruct (getobj h a) as [o|] eqn:G; cbn [bind] in E; [|discriminate]. injection E as <-. apply getobj_nth in G. now apply sep_flip.
  - destruct (getobj h a); cbn [bind] in E; [|discriminate]. destruct (_ && _); [|discriminate]. injection E as <-. now apply sep_store.
Qed.
(** writing to object a changes the data of the objects on the same buffer only *)
Lemma store_frame h a o M k v : nth_error (objs h) a = Some o -> separated h -> a <> k -> valof h k = Ok v -> valof (store (F:=F) h o M) k = Ok v.
Proof.
  intros Ha Sp N V. apply (@valof_ext _ _ _ _ V). intros o' Ho'. split; [exact Ho'|]. unfold store. cbn [bufs].
  apply lset_nth_error_ne. eauto.
Qed.
Lemma step_inplace_frame h i h' k v : wfheap h -> separated h -> target i <> Some k ->
  step h i = Ok h' -> valof h k = Ok v -> valof h' k = Ok v.
Proof.
  intros W Sp T E V. destruct (target i) as [a|] eqn:Ti; [|eapply step_frame; eauto].
  assert (N : a <> k) by congruence.
  unfold step in E. destruct i; try discriminate; cbn [out_val target] in *; injection Ti as ->; cbn [bind] in E.
  - destruct (getobj h a) as [o|] eqn:G; cbn [bind] in E; [|discriminate]. destruct (valof h y); cbn [bind] in E; [|discriminate].
    destruct (bin_in _ _ _); cbn [bind] in E; [|discriminate]. injection E as <-. apply getobj_nth in G. eapply store_frame; eauto.
  - destruct (getobj h a) as [o|] eqn:G; cbn [bind] in E; [|discriminate]. injection E as <-. apply getobj_nth in G. eapply store_frame; eauto.
  - destruct (getobj h a) as [o|] eqn:G; cbn [bind] in E; [|discriminate]. injection E as <-. apply getobj_nth in G.
    apply (@valof_ext _ _ _ _ V). intros o' Ho'. cbn [objs bufs store]. rewrite !lset_nth_error_ne; eauto.
  - destruct (getobj h a) as [o|] eqn:G; cbn [bind] in E; [|discriminate]. injection E as <-. apply getobj_nth in G. eapply store_frame; eauto.
  - destruct (getobj h a) as [o|] eqn:G; cbn [bind] in E; [|discriminate]. injection E as <-. apply getobj_nth in G.
    apply (@valof_ext _ _ _ _ V). intros o' Ho'. cbn [objs bufs]. rewrite !lset_nth_error_ne; eauto.
  - destruct (getobj h a) as [o|] eqn:G; cbn [bind] in E; [|discriminate]. destruct (_ && _); [|discriminate]. injection E as <-. apply getobj_nth in G. eapply store_frame; eauto.
Qed.
Lemma run_inplace_frame p h k v : wfheap h -> separated h -> Forall no_wrap p -> Forall (fun i => target i <> Some k) p ->
  valof h k = Ok v -> valof (run h p) k = Ok v.
Proof.
  revert h. induction p as [|i p IH]; intros h W Sp NW T V; [exact V|]. inversion NW; inversion T; subst. cbn [run].
  destruct (step h i) as [h'|e] eqn:E.
  - apply IH; auto. eapply step_wf; eauto. eapply step_sep; eauto. eapply step_inplace_frame; eauto.
  - apply IH; auto.
Qed.

(** the empty heap *)
Definition heap0 : heap := mkheap [] [].
Lemma heap0_wf : wfheap heap0.
Proof. intros [|k] o H; discriminate. Qed.
Lemma heap0_sep : separated heap0.
Proof. intros [|k] j o o' H; discriminate. Qed.
Lemma run_wf p h : wfheap h -> wfheap (run h p).
Proof.
  revert h. induction p as [|i p IH]; intros h W; [exact W|]. cbn [run]. apply IH. destruct (step h i) eqn:E; auto. eapply step_wf; eauto.
Qed.
Lemma run_sep p h : wfheap h -> separated h -> Forall no_wrap p -> separated (run h p).
Proof.
  revert h. induction p as [|i p IH]; intros h W Sp NW; [exact Sp|]. inversion NW; subst. cbn [run]. destruct (step h i) eqn:E.
  - apply IH; auto. eapply step_wf; eauto. eapply step_sep; eauto.
  - now apply IH.
Qed.
Lemma run_app p q h : run (F:=F) h (p ++ q) = run (run h p) q.
Proof. revert h. induction p; intros h; cbn; auto. Qed.
End P.

(** ---- statements about programs started in the empty heap ---- *)
Section Reach.
Variable F : OField.
Notation S := (CStar F).

Lemma reach_frame (p q : list (instr F)) k v : Forall (@out_of_place F) q ->
  valof (run (heap0 F) p) k = Ok v -> valof (run (heap0 F) (p ++ q)) k = Ok v.
Proof. intros Hq Hv. rewrite run_app. apply run_frame; auto. apply run_wf, heap0_wf. Qed.

Lemma reach_inplace_agrees (p : list (instr F)) b x y A B m n m' n' h' h'' :
  valof (run (heap0 F) p) x = Ok A -> valof (run (heap0 F) p) y = Ok B -> wfm m n A -> wfm m' n' B ->
  step (run (heap0 F) p) (IBinIn b x y) = Ok h' -> step (run (heap0 F) p) (IBin b x y) = Ok h'' ->
  valof h' x = valof h'' (length (objs (run (heap0 F) p))).
Proof. intros. eapply inplace_agrees; eauto. apply run_wf, heap0_wf. Qed.

(** whenever the out-of-place expression yields a value of the shape of the left operand, so does the
    in-place statement (except for kron, which has no in-place form) *)
Lemma inplace_defined (h : heap F) b x y A B m n m' n' h'' M :
  valof h x = Ok A -> valof h y = Ok B -> wfm m n A -> wfm m' n' B -> b <> BKron ->
  step h (IBin b x y) = Ok h'' -> bin b A B = Ok M -> shape M = shape A ->
  exists h', step h (IBinIn b x y) = Ok h'.
Proof.
  intros HA HB WA WB Hb Hs HM Hsh. unfold step. cbn [out_val].
  unfold valof in HA. destruct (getobj h x) as [o|] eqn:E; [|discriminate]. cbn [bind] in HA. injection HA as HA'.
  cbn [bind]. rewrite HB. cbn [bind]. rewrite HA'.
  destruct b; try congruence; cbn [bin bin_in] in *.
  - unfold op_add, op_copy in HM. rewrite HM. cbn [bind]. eauto.
  - unfold op_sub, op_copy in HM. rewrite HM. cbn [bind]. eauto.
  - unfold op_imul, np_matmul_out. cbn [op_mul] in HM. rewrite HM. cbn [bind].
    replace (Nat.eqb (nc M) (nc A)) with true; [cbn [bind]; eauto|]. symmetry. apply Nat.eqb_eq. destruct M, A; cbn in *; now subst.
Qed.

Lemma reach_inplace_frame (p q : list (instr F)) k v : Forall (@no_wrap F) p -> Forall (@no_wrap F) q ->
  Forall (fun i => target i <> Some k) q ->
  valof (run (heap0 F) p) k = Ok v -> valof (run (heap0 F) (p ++ q)) k = Ok v.
Proof.
  intros Hp Hq Ht Hv. rewrite run_app. apply run_inplace_frame; auto.
  - apply run_wf, heap0_wf.
  - apply run_sep; auto using heap0_wf, heap0_sep.
Qed.
End Reach.

(** DenseOperator(op) shares the buffer: A = DenseOperator(array); B = DenseOperator(A); B *= 2 changes A *)
Definition walias : list (instr QcField) :=
  [INew (mid (S:=CStar QcField) 2); IWrap 0; IScaleIn 1 (cadd c1 c1)].
Lemma wrap_aliases : exists (p : list (instr QcField)) (i : instr QcField) (k : nat) (v v' : op QcField),
  Forall (fun j => target j = None) p /\ target i <> Some k /\
  valof (run (heap0 QcField) p) k = Ok v /\ valof (run (heap0 QcField) (p ++ [i])) k = Ok v' /\ v <> v'.
Proof.
  exists [INew (mid (S:=CStar QcField) 2); IWrap 0], (IScaleIn 1 (cadd c1 c1)), 0.
  eexists; eexists. split; [repeat constructor|]. split; [discriminate|].
  split; [reflexivity|]. split; [reflexivity|].
  intros H. apply (f_equal (fun M => ceqb (mg (S:=CStar QcField) M 0 0) c1)) in H. vm_compute in H. discriminate.
Qed.
