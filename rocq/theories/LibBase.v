(** Python exceptions as values, and the result monad used by the whole model. *)
Require Import List.
Import ListNotations.
Set Implicit Arguments.

(** the exception classes the modelled code can raise.  [FloatNaN] is not a python exception: it marks
    the places where numpy would silently produce nan (0/0) instead of raising. *)
Inductive exn :=
| ValueError | TypeError | AssertionError | IndexError | RuntimeError | NotImplementedError
| AttributeError | KeyError | LinAlgError | WallTimeExceeded | UnboundLocalError | PyException | FloatNaN.

Inductive res (A : Type) := Ok (a : A) | Err (e : exn).
Arguments Ok {A}. Arguments Err {A}.

Definition bind {A B} (r : res A) (f : A -> res B) : res B :=
  match r with Ok a => f a | Err e => Err e end.

Declare Scope res_scope.
Delimit Scope res_scope with res.
Notation "x <- r ;; k" := (bind r (fun x => k)) (at level 61, r at next level, right associativity) : res_scope.
Notation "'check' b 'else' e ;; k" := (if b then k else Err e)
  (at level 61, b at level 60, e at level 60, right associativity) : res_scope.

(** python list comprehension [f(x) for x in l] where f may raise: the first exception wins *)
Fixpoint mapM {A B} (f : A -> res B) (l : list A) : res (list B) :=
  match l with
  | [] => Ok []
  | x :: l' => match f x with
               | Err e => Err e
               | Ok y => match mapM f l' with Err e => Err e | Ok ys => Ok (y :: ys) end
               end
  end.

(** for x in l: acc = f(acc, x) *)
Fixpoint foldM {A B} (f : A -> B -> res A) (l : list B) (a : A) : res A :=
  match l with
  | [] => Ok a
  | x :: l' => match f a x with Err e => Err e | Ok a' => foldM f l' a' end
  end.

Definition is_ok {A} (r : res A) : bool := match r with Ok _ => true | Err _ => false end.

Lemma mapM_Ok {A B} (f : A -> res B) (g : A -> B) l :
  (forall x, In x l -> f x = Ok (g x)) -> mapM f l = Ok (map g l).
Proof.
  induction l; simpl; intros H; auto. rewrite H by auto. rewrite IHl; auto.
Qed.

Lemma foldM_Ok {A B} (f : A -> B -> res A) (g : A -> B -> A) (P : A -> Prop) l a :
  P a -> (forall a x, P a -> In x l -> f a x = Ok (g a x) /\ P (g a x)) ->
  foldM f l a = Ok (fold_left g l a) /\ P (fold_left g l a).
Proof.
  revert a. induction l as [|b l IH]; simpl; intros x Hx H; auto.
  destruct (H x b Hx (or_introl eq_refl)) as [E1 E2]. rewrite E1. apply IH; auto.
Qed.

Lemma mapM_length {A B} (f : A -> res B) l l' : mapM f l = Ok l' -> length l' = length l.
Proof.
  revert l'. induction l; simpl; intros l' H.
  - inversion H; reflexivity.
  - destruct (f a); [|discriminate]. destruct (mapM f l) eqn:E; [|discriminate].
    inversion H; subst. simpl. f_equal. now apply IHl.
Qed.
