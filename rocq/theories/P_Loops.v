(** Lemmas about the loops of M_Solver. *)
Require Import List Arith Lia Bool.
From Verif Require Import LibBase LibArr M_OpHeap M_Solver.
Import ListNotations.
Open Scope res_scope.
Set Implicit Arguments.

Lemma mapM_ext_in {A B} (f g : A -> res B) l : (forall x, In x l -> f x = g x) -> mapM f l = mapM g l.
Proof.
  induction l as [|a l IH]; simpl; intros H; auto.
  rewrite H by auto. destruct (g a); auto. rewrite IH; auto.
Qed.
Lemma mapM_nth {A B} (f : A -> res B) l r (da : A) (db : B) : mapM f l = Ok r ->
  forall i, i < length l -> f (nth i l da) = Ok (nth i r db).
Proof.
  revert r. induction l as [|a l IH]; simpl; intros r H i Hi; [lia|].
  destruct (f a) eqn:E; [|discriminate]. destruct (mapM f l) eqn:E2; [|discriminate].
  inversion H; subst. destruct i; simpl; auto. apply IH; auto; lia.
Qed.
Lemma mapM_seq {B} (f : nat -> res B) s n r (db : B) : mapM f (seq s n) = Ok r ->
  length r = n /\ forall i, i < n -> f (s + i) = Ok (nth i r db).
Proof.
  intros H. split.
  - rewrite (mapM_length f (seq s n) H). apply seq_length.
  - intros i Hi. rewrite <- (@seq_nth n s i 0 Hi). apply (@mapM_nth _ _ f (seq s n) r 0 db H). now rewrite seq_length.
Qed.
Lemma mapM_seq_of {B} (f : nat -> res B) s n r (db : B) : length r = n -> (forall i, i < n -> f (s + i) = Ok (nth i r db)) ->
  mapM f (seq s n) = Ok r.
Proof.
  intros L H. subst n. revert s H. induction r as [|b r IH]; intros s H; simpl; auto.
  specialize (H 0) as H0. simpl in H0. rewrite Nat.add_0_r in H0. rewrite H0 by lia.
  rewrite IH; auto. intros i Hi. specialize (H (S i)). simpl in H. rewrite <- H by lia. f_equal. lia.
Qed.

Lemma foldE_None {A B} (f : A -> B -> res A) l a r : foldE f l a = (r, None) <-> foldM f l a = Ok r.
Proof.
  revert a. induction l as [|x l IH]; simpl; intros a.
  - split; intros H; inversion H; auto.
  - destruct (f a x); [apply IH|split; discriminate].
Qed.
Lemma foldE_app {A B} (f : A -> B -> res A) l l' a : foldE f (l ++ l') a =
  match foldE f l a with (r, None) => foldE f l' r | (r, Some e) => (r, Some e) end.
Proof. revert a. induction l as [|x l IH]; simpl; intros a; auto. destruct (f a x); auto. Qed.
Lemma foldE_inv {A B} (P : A -> Prop) (f : A -> B -> res A) l a :
  (forall a x a', In x l -> P a -> f a x = Ok a' -> P a') -> P a -> P (fst (foldE f l a)).
Proof.
  revert a. induction l as [|x l IH]; simpl; intros a H Ha; auto.
  destruct (f a x) eqn:E; auto. apply IH; eauto.
Qed.

Lemma fill_mapM {A} (f : nat -> res A) s n :
  match mapM f (seq s n) with
  | Ok vs => fill f s n = (map Some vs, None)
  | Err e => snd (fill f s n) = Some e
  end.
Proof.
  revert s. induction n; intros s; simpl; auto.
  destruct (f s); simpl; auto. specialize (IHn (S s)).
  destruct (mapM f (seq (S s) n)); destruct (fill f (S s) n) as [l e']; simpl in *.
  - inversion IHn; subst; auto.
  - auto.
Qed.
Lemma fill2_mapM {A} (f : nat -> nat -> res A) s n m :
  match mapM (fun t => mapM (f t) (seq 0 m)) (seq s n) with
  | Ok vs => fill2 f s n m = (map (map Some) vs, None)
  | Err e => snd (fill2 f s n m) = Some e
  end.
Proof.
  revert s. induction n; intros s; simpl; auto.
  pose proof (fill_mapM (f s) 0 m) as H. destruct (mapM (f s) (seq 0 m)).
  - rewrite H. specialize (IHn (S s)).
    destruct (mapM _ (seq (S s) n)); destruct (fill2 f (S s) n m) as [l e']; simpl in *.
    + inversion IHn; subst; auto.
    + auto.
  - destruct (fill (f s) 0 m) as [l [e'|]]; simpl in *; [|discriminate]. inversion H; subst; auto.
Qed.
Lemma fill3_mapM {A} (f : nat -> nat -> nat -> res A) s n m p :
  match mapM (fun k => mapM (fun t => mapM (f k t) (seq 0 p)) (seq 0 m)) (seq s n) with
  | Ok vs => fill3 f s n m p = (map (map (map Some)) vs, None)
  | Err e => snd (fill3 f s n m p) = Some e
  end.
Proof.
  revert s. induction n; intros s; simpl; auto.
  pose proof (fill2_mapM (f s) 0 m p) as H. destruct (mapM _ (seq 0 m)).
  - rewrite H. specialize (IHn (S s)).
    destruct (mapM _ (seq (S s) n)); destruct (fill3 f (S s) n m p) as [l e']; simpl in *.
    + inversion IHn; subst; auto.
    + auto.
  - destruct (fill2 (f s) 0 m p) as [l [e'|]]; simpl in *; [|discriminate]. inversion H; subst; auto.
Qed.
(** the same as equations for the exception *)
Lemma fill_exn {A} (f : nat -> res A) s n : of_exn (snd (fill f s n)) = bind (mapM f (seq s n)) (fun _ => Ok tt).
Proof. pose proof (fill_mapM f s n) as H. destruct (mapM f (seq s n)); rewrite H; auto. Qed.
Lemma fill2_exn {A} (f : nat -> nat -> res A) s n m :
  of_exn (snd (fill2 f s n m)) = bind (mapM (fun t => mapM (f t) (seq 0 m)) (seq s n)) (fun _ => Ok tt).
Proof. pose proof (fill2_mapM f s n m) as H. destruct (mapM _ (seq s n)); rewrite H; auto. Qed.
Lemma fill3_exn {A} (f : nat -> nat -> nat -> res A) s n m p :
  of_exn (snd (fill3 f s n m p)) = bind (mapM (fun k => mapM (fun t => mapM (f k t) (seq 0 p)) (seq 0 m)) (seq s n)) (fun _ => Ok tt).
Proof. pose proof (fill3_mapM f s n m p) as H. destruct (mapM _ (seq s n)); rewrite H; auto. Qed.

Definition all_some {A} (l : list (option A)) : Prop := forall i, i < length l -> exists x, nth_error l i = Some (Some x).

Lemma last_fst_some {A B} (row : list (A * B)) p : last_fst (map Some (row ++ [p])) = Some (fst p).
Proof. unfold last_fst. rewrite map_app, fold_left_app. destruct p; reflexivity. Qed.
Lemma last_fst_const {A B} (row : list (A * B)) a (da : A * B) : row <> [] -> (forall i, i < length row -> fst (nth i row da) = a) ->
  last_fst (map Some row) = Some a.
Proof.
  intros H1 H2. destruct (exists_last H1) as (r & p & ->). rewrite last_fst_some. f_equal.
  specialize (H2 (length r)). rewrite app_nth2, Nat.sub_diag in H2 by lia. apply H2. rewrite app_length. simpl. lia.
Qed.

Lemma nth_lset {A} (l : list A) i x d j : i < length l -> nth j (lset l i x) d = if Nat.eqb i j then x else nth j l d.
Proof.
  revert i j. induction l as [|a l IH]; intros i j Hi; simpl in Hi; [lia|].
  destruct i; destruct j; simpl; auto. rewrite IH by lia. reflexivity.
Qed.
