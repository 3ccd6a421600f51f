(** Proofs about copies of data containers. *)
Require Import List Arith Lia Bool String.
From Verif Require Import LibBase LibRing M_OpHeap P_OpHeap M_Data S_Data P_Data P_Data2 M_Copy.
Import ListNotations.
Open Scope list_scope.
Open Scope nat_scope.
Set Implicit Arguments.
Local Notation length := List.length.

Section Copy.
Variable V : Type.
Variable objeq : V -> V -> bool.
Notation val := (val V).
Notation lheap := (lheap V).
Notation dcont := (dcont V).
Notation ores := (ores V).

(** [agree] only looks at the objects of the heap *)
Lemma agree_more (h h' k : lheap) : forall n v v', agree n h v h' v' -> agree n h v (h' ++ k) v'.
Proof.
  induction n as [|n IH]; intros v v' H; [exact I|]. destruct v, v'; cbn in *; auto.
  - destruct H as (l & l' & A & B & C). exists l, l'. split; auto. split.
    + rewrite nth_error_app1; auto. apply nth_error_Some. congruence.
    + clear A B. induction C; constructor; auto.
  - destruct H. auto.
Qed.
Lemma shift_above n k (v : val) : n <= k -> above n (shift k v).
Proof. intros H. induction v; cbn; auto. lia. Qed.
Lemma map_shift_above n k (h : lheap) : n <= k -> Forall (Forall (above n)) (map (map (shift k)) h).
Proof.
  intros H. apply Forall_forall. intros l Hl. apply in_map_iff in Hl. destruct Hl as (m & <- & _). apply Forall_forall.
  intros v Hv. apply in_map_iff in Hv. destruct Hv as (w & <- & _). now apply shift_above.
Qed.

(** the copies of keyword arguments *)
Lemma copy_kwargs_ok (h0 : lheap) : closed h0 -> forall kw h, Forall (fun p => closed_val (length h0) (snd p)) kw -> exists h3 kw',
  copy_kwargs h0 kw h = (h ++ h3, kw') /\ map fst kw' = map fst kw /\
  Forall2 (fun p q => equal_value h0 (snd p) (h ++ h3) (snd q) /\ above (length h) (snd q) /\ (snd p <> VNone -> snd q <> VNone)) kw kw' /\
  Forall (Forall (above (length h))) h3.
Proof.
  intros C. induction kw as [|[n v] kw IH]; intros h CK.
  - exists [], []. cbn. rewrite app_nil_r. repeat split; constructor.
  - inversion CK as [|? ? Cv CK']; subst. cbn [copy_kwargs deepcopy].
    destruct (IH (h ++ map (map (shift (length h))) h0) CK') as (h3 & kw' & E & N & F2 & A).
    cbn zeta. rewrite E. exists (map (map (shift (length h))) h0 ++ h3), ((n, shift (length h) v) :: kw').
    rewrite <- app_assoc in *. split; [reflexivity|]. split; [cbn; now rewrite N|]. split.
    + constructor.
      * cbn [snd]. split. { intros m. rewrite app_assoc. apply agree_more. now apply agree_shift. }
        split; [now apply shift_above|apply shift_not_none].
      * eapply Forall2_impl; [|exact F2]. intros p q (X & Y & Z). split; auto. split; auto.
        revert Y. generalize (snd q). intros w. rewrite app_length. induction w; cbn; try tauto; try lia.
    + apply Forall_app. split; [now apply map_shift_above|]. eapply Forall_impl; [|exact A]. intros l Hl. eapply Forall_impl; [|exact Hl].
      intros w. rewrite app_length. induction w; cbn; try tauto; try lia.
Qed.

Lemma path_some (v : val) : v <> VNone -> match v with VNone => VStr default_path | VStr s => VStr s | VBool b => VBool b | VStrs l => VStrs l | VRef a => VRef a | VObj x => VObj x | VSummary c p => VSummary c p end = v.
Proof. destruct v; congruence. Qed.
Lemma strs_some (v : val) : v <> VNone -> match v with VNone => VStrs [] | VStr s => VStr s | VBool b => VBool b | VStrs l => VStrs l | VRef a => VRef a | VObj x => VObj x | VSummary c p => VSummary c p end = v.
Proof. destruct v; congruence. Qed.
Theorem copy_ok (d : dcont) h : made objeq d -> closed h -> closed_container h d ->
  exists h3 d', dunder_deepcopy d h = (h ++ h3, Ok d') /\ equal_container h d (h ++ h3) d' /\
    Forall (above (length h)) (attributes d') /\ Forall (Forall (above (length h))) h3.
Proof.
  intros M C CC. apply made_complete in M. unfold complete, lists in M. unfold closed_container, attributes in CC.
  repeat match goal with H : Forall _ (_ :: _) |- _ => inversion_clear H end.
  assert (CK : Forall (fun p => closed_val (length h) (snd p)) (copy_args d)) by (unfold copy_args; repeat constructor; auto).
  destruct (@copy_kwargs_ok h C (copy_args d) h CK) as (h3 & kw & E & N & F2 & A).
  unfold copy_args in N, F2. cbn [map fst] in N.
  repeat match goal with F : Forall2 _ (_ :: _) _ |- _ => inversion F; clear F; subst end.
  match goal with F : Forall2 _ [] _ |- _ => inversion F; subst end.
  repeat match goal with q : string * val |- _ => destruct q end. cbn [map fst] in N. inversion N; subst. clear N. cbn [snd] in *.
  unfold dunder_deepcopy. rewrite E. unfold new_container.
  match goal with |- context [bind_args ?a ?b] => destruct (bind_args a b) as [l|] eqn:B end; [|discriminate B].
  cbn in B. injection B as <-. unfold arg. cbn [nth].
  repeat match goal with H : _ /\ _ |- _ => destruct H end.
  repeat match goal with H : ?a <> VNone -> ?b <> VNone, G : ?a <> VNone |- _ => specialize (H G) end.
  rewrite !or_new_some by auto.
  eexists h3, _. split.
  { rewrite path_some, strs_some by auto. reflexivity. }
  split. { unfold equal_container. cbn [d_storage d_file d_indices d_final_costs d_init d_final d_costs d_pars d_status d_stats d_time]. repeat split; auto. }
  split; [|auto]. unfold attributes. cbn. repeat constructor; auto.
Qed.

(** ---- what appending changes ---- *)
Lemma fold_other (a : nat) l : Forall (fun p => fst p <> VRef a) l -> forall (rd : res dcont) (h h' : lheap) rd' x,
  fold_left (fun (acc : lheap * res dcont) (p : val * val) =>
    match snd acc with Err _ => acc | Ok d => match py_append (fst p) (snd p) (fst acc) with (h', Ok _) => (h', Ok d) | (h', Err e) => (h', Err e) end end)
    l (h, rd) = (h', rd') -> nth_error h a = Some x -> nth_error h' a = Some x.
Proof.
  induction 1 as [|p l Hp Hl IH]; intros rd h h' rd' x E X; cbn in E; [inversion E; subst; auto|].
  destruct rd as [d|e]; [|eauto]. destruct (fst p); cbn in E; eauto. eapply IH; [exact E|]. rewrite lset_nth_error_ne; [auto|congruence].
Qed.
Definition grown (d : dcont) : list val := [d_final_costs d; d_init d; d_final d; d_costs d; d_pars d; d_status d; d_stats d].
Lemma append_other (d : dcont) a1 ix a2 a3 a4 a5 a6 a7 h h' rd (a : nat) x : Forall (fun v => v <> VRef a) (grown d) ->
  dc_append objeq d a1 ix a2 a3 a4 a5 a6 a7 h = (h', rd) -> nth_error h a = Some x -> nth_error h' a = Some x.
Proof.
  intros G. unfold grown in G. repeat match goal with H : Forall _ (_ :: _) |- _ => inversion_clear H end.
  unfold dc_append. destruct (dc_len h d) as [n|]; [|congruence]. destruct (Nat.eqb n 0); [|destruct (py_eqb objeq h (d_indices d) ix); [|congruence]]; intros E; eapply fold_other;
    try exact E; repeat constructor; auto.
Qed.
Lemma append_result_other (d : dcont) r h h' rd (a : nat) x : Forall (fun v => v <> VRef a) (grown d) ->
  append_optim_result objeq d r h = (h', rd) -> nth_error h a = Some x -> nth_error h' a = Some x.
Proof.
  intros G. unfold append_optim_result. destruct (r_summary r); try congruence; intros E X; eapply append_other; eauto.
  rewrite nth_error_app1; auto. apply nth_error_Some. congruence.
Qed.
Lemma nth_Some_lt {T} (l : list T) i x : nth_error l i = Some x -> i < length l.
Proof. intros H. apply nth_error_Some. congruence. Qed.

Lemma agree_self (h h' : lheap) : closed h -> (forall a x, nth_error h a = Some x -> nth_error h' a = Some x) ->
  forall n v, closed_val (length h) v -> agree n h v h' v.
Proof.
  intros C S. induction n as [|n IH]; intros v Hv; [exact I|]. destruct v; cbn; auto.
  - cbn in Hv. destruct (nth_error h a) as [l|] eqn:E; [|apply nth_error_None in E; lia]. exists l, l. split; auto. split; auto.
    assert (Cl : Forall (closed_val (length h)) l) by (eapply Forall_forall in C; eauto; eapply nth_error_In; eauto).
    clear E. induction Cl; constructor; auto.
  - destruct Hv. split; auto.
Qed.
Lemma agree_above (h0 h h3 h' : lheap) : Forall (Forall (above (length h))) h3 ->
  (forall a x, length h <= a -> nth_error (h ++ h3) a = Some x -> nth_error h' a = Some x) ->
  forall n v w, above (length h) w -> agree n h0 v (h ++ h3) w -> agree n h0 v h' w.
Proof.
  intros A S. induction n as [|n IH]; intros v w Hw H; [exact I|]. destruct v, w; cbn in *; auto.
  - destruct H as (l & l' & E1 & E2 & F2). exists l, l'. split; auto. split; auto.
    rewrite nth_error_app2 in E2 by lia. apply nth_error_In in E2. eapply Forall_forall in A; eauto.
    clear E1 E2. induction F2; constructor; inversion A; subst; auto.
  - destruct H, Hw. auto.
Qed.

(** a result appended to the copy leaves the container as it was *)
Theorem copy_leaves_original (d d' : dcont) h h3 r h4 x : made objeq d -> closed h -> closed_container h d ->
  dunder_deepcopy d h = (h ++ h3, Ok d') -> append_optim_result objeq d' r (h ++ h3) = (h4, x) -> equal_container h d h4 d.
Proof.
  intros M C CC E AP. destruct (copy_ok M C CC) as (k & d2 & E2 & _ & AB & _). rewrite E in E2. injection E2 as HK ->. clear HK k.
  unfold attributes in AB. repeat match goal with H : Forall _ (_ :: _) |- _ => inversion_clear H end.
  assert (S : forall a y, nth_error h a = Some y -> nth_error h4 a = Some y).
  { intros a y Y. pose proof (nth_Some_lt _ _ Y) as L. eapply append_result_other; [|exact AP|rewrite nth_error_app1; auto].
    repeat constructor; intros EQ; match goal with G : above _ ?v |- _ => match type of EQ with v = _ => rewrite EQ in G; cbn in G; lia end end. }
  unfold closed_container, attributes in CC. unfold equal_container, equal_value.
  repeat split; intros n; apply agree_self; auto; eapply Forall_forall; eauto; cbn; tauto.
Qed.
(** a result appended to the container leaves the copy as it was *)
Theorem original_leaves_copy (d d' : dcont) h h3 r h4 x : made objeq d -> closed h -> closed_container h d ->
  dunder_deepcopy d h = (h ++ h3, Ok d') -> append_optim_result objeq d r (h ++ h3) = (h4, x) -> equal_container h d h4 d'.
Proof.
  intros M C CC E AP. destruct (copy_ok M C CC) as (k & d2 & E2 & EQ & AB & A3). rewrite E in E2. injection E2 as HK ->. apply app_inv_head in HK. subst k.
  unfold attributes in AB. repeat match goal with H : Forall _ (_ :: _) |- _ => inversion_clear H end.
  unfold closed_container, attributes in CC. repeat match goal with H : Forall _ (_ :: _) |- _ => inversion_clear H end.
  assert (S : forall a y, length h <= a -> nth_error (h ++ h3) a = Some y -> nth_error h4 a = Some y).
  { intros a y L Y. eapply append_result_other; [|exact AP|exact Y].
    repeat constructor; intros EV; match goal with G : closed_val _ ?v |- _ => match type of EV with v = _ => rewrite EV in G; cbn in G; lia end end. }
  unfold equal_container, equal_value in *. repeat match goal with H : _ /\ _ |- _ => destruct H end.
  repeat split; intros n; eapply agree_above; eauto.
Qed.

(** copy.deepcopy *)
Theorem deepcopy_fails (d : dcont) h : deepcopy_container d h = (h, Err TypeError).
Proof. reflexivity. Qed.
End Copy.
