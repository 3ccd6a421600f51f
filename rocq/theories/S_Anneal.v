(** Specification vocabulary for annealing moves, elapsed times and termination conditions. *)
Require Import List Arith ZArith QArith Bool String Ascii DecimalString.
From Verif Require Import LibBase LibRing LibArr M_Anneal.
Import ListNotations.
Set Implicit Arguments.

Section Spec.
Variable F : OField.
Notation arrF := (arr (kcar F)).
(** the pulse respects the bounds *)
Definition inside (T C : nat) (lo hi p : arrF) : Prop := wfa [T; C] p /\ forall t c, (t < T)%nat -> (c < C)%nat -> kle (get2 k0 lo t c) (get2 k0 p t c) /\ kle (get2 k0 p t c) (get2 k0 hi t c).
(** the draws of integers are between -z and z *)
Definition drawn (T C : nat) (z : Z) (r : arr Z) : Prop := wfa [T; C] r /\ forall t c, (t < T)%nat -> (c < C)%nat -> (- z <= get2 0%Z r t c <= z)%Z.
(** every entry differs by at most z, and not at all where the mask exceeds the ratio *)
Definition steps (T C : nat) (z : Z) (ratio : F) (mask p p' : arrF) : Prop := forall t c, (t < T)%nat -> (c < C)%nat ->
  kle (ksub (get2 k0 p t c) (kofz z)) (get2 k0 p' t c) /\ kle (get2 k0 p' t c) (kadd (get2 k0 p t c) (kofz z)) /\
  (klt ratio (get2 k0 mask t c) -> get2 k0 p' t c = get2 k0 p t c).
(** the lower bounds are below the upper bounds, and the pulse array can hold both exactly *)
Definition bounds_ok T C (a : @annealer F) : Prop := wfa [T; C] (an_lo a) /\ wfa [T; C] (an_hi a) /\ forall t c, (t < T)%nat -> (c < C)%nat ->
  kle (get2 k0 (an_lo a) t c) (get2 k0 (an_hi a) t c) /\ an_cast a (get2 k0 (an_lo a) t c) = get2 k0 (an_lo a) t c /\ an_cast a (get2 k0 (an_hi a) t c) = get2 k0 (an_hi a) t c.
(** all integer draws of a run are between -z and z *)
Definition draws_ok (T C : nat) (z : Z) (h : list (aev F)) : Prop := Forall (fun e => match e with AMove r _ => drawn T C z r | ABack _ => True end) h.
End Spec.
Arguments inside {F}. Arguments bounds_ok {F}. Arguments steps {F}. Arguments draws_ok {F}.

(** n is q rounded to the nearest integer, ties to even *)
Definition rounded (q : Q) (n : Z) : Prop :=
  (inject_Z n - (1 # 2) <= q)%Q /\ (q <= inject_Z n + (1 # 2))%Q /\ ((q == inject_Z n + (1 # 2) \/ q == inject_Z n - (1 # 2))%Q -> Z.even n = true).
(** the text without the blanks in front *)
Fixpoint strip (s : string) : string := match s with String " " s' => strip s' | _ => s end.
(** the number that a decimal text denotes *)
Definition reads (s : string) (z : Z) : Prop := exists d, NilEmpty.int_of_string (strip s) = Some d /\ Z.of_int d = z.
(** two decimal digits *)
Definition digit (c : ascii) : Prop := In c ["0"; "1"; "2"; "3"; "4"; "5"; "6"; "7"; "8"; "9"]%char.
Definition two_digits (s : string) : Prop := exists a b, s = String a (String b EmptyString) /\ digit a /\ digit b.

Section Term.
Variable V : Type.
(** a key of the defaults overridden by some dictionaries: the last one that has the key counts *)
Definition overridden (d : dict V) (es : list (dict V)) (k : string) : option V :=
  fold_left (fun x e => match dget e k with Some v => Some v | None => x end) es (dget d k).
(** the keyword dictionary has every key once *)
Definition distinct_keys (d : dict V) : Prop := NoDup (map fst d).
(** the dictionary that a constructor call gives: the caller's, or for the annealer a new wall time *)
Definition given (long : V) (e : tev V) : dict V := match e with TNew (Some d) => d | TNew None => [] | TAnneal _ => [("max_wall_time"%string, long)] end.
(** a keyword argument has every key once *)
Definition args_ok (e : tev V) : Prop := match e with TNew (Some d) => distinct_keys d | _ => True end.
End Term.
Arguments args_ok {V}.
