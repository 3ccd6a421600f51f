(** Specification for the properties C57 to C61 and C63 to C65 (noise.py).  Nothing here refers to the model. *)
Require Import List Arith.
From Verif Require Import LibRing LibArr LibCplx.
Import ListNotations.
Open Scope k_scope.
Set Implicit Arguments.

Section Spec.
Variable F : OField.
Local Notation Sum n f := (sumn (S:=KStar F) n f).

(** what is assumed of erfinv and of the square root *)
Definition odd (e : F -> F) : Prop := forall x, e (- x) = - e x.
Definition is_sqrt (q : F -> F) : Prop := forall x, kle 0 x -> kle 0 (q x) /\ q x * q x = x.
(** strictly convex between two points on the positive side, at their midpoint *)
Definition midpoint_convex (e : F -> F) : Prop := forall x y, kle 0 x -> klt x y -> klt y 1 -> klt ((1 + 1) * e ((x + y) / (1 + 1))) (e x + e y).
Definition positive (e : F -> F) : Prop := forall x, klt 0 x -> klt x 1 -> klt 0 (e x).

(** mean and standard deviation of n numbers *)
Definition is_mean (n : nat) (x : nat -> F) (m : F) : Prop := kofnat n * m = Sum n x.
Definition is_std (n : nat) (x : nat -> F) (s : F) : Prop := kle 0 s /\ exists m, is_mean n x m /\ kofnat n * (s * s) = Sum n (fun i => (x i - m) * (x i - m)).

(** the value below which the share (2 j + 1) / (2 n) of a normal distribution with mean m lies *)
Definition sample (erfinv : F -> F) (sqrt2 std m : F) (n j : nat) : F := m + std * (sqrt2 * erfinv (kofnat (2 * j + 1) / kofnat n - 1)).

(** x operator trace time: quasi-static noise with the samples s operator, one operator at a time *)
Definition quasi_static (x : nat -> nat -> nat -> F) (ops per traces times : nat) (s : nat -> nat -> F) : Prop :=
  (forall i j k k', (i < ops)%nat -> (j < traces)%nat -> (k < times)%nat -> (k' < times)%nat -> x i j k = x i j k')
  /\ (forall i i' j k, (i < ops)%nat -> (i' < ops)%nat -> (j < traces)%nat -> (k < times)%nat -> i <> i' -> x i j k <> 0 -> x i' j k = 0)
  /\ (forall i, (i < ops)%nat -> exists p : nat -> nat,
       (forall m, (m < per)%nat -> (p m < traces)%nat)
       /\ (forall m m', (m < per)%nat -> (m' < per)%nat -> p m = p m' -> m = m')
       /\ (forall m k, (m < per)%nat -> (k < times)%nat -> x i (p m) k = s i m)
       /\ (forall j k, (j < traces)%nat -> (k < times)%nat -> (forall m, (m < per)%nat -> p m <> j) -> x i j k = 0)).

(** the smallest power of two not below n *)
Definition next_pow2 (n m : nat) : Prop := (exists k, m = 2 ^ k)%nat /\ (n <= m)%nat /\ forall k, (n <= 2 ^ k -> m <= 2 ^ k)%nat.

(** a primitive root of unity *)
Fixpoint power (z : cplx F) (n : nat) : cplx F := match n with O => c1 | S n => cmul z (power z n) end.
Definition primitive (n : nat) (z : cplx F) : Prop := cnorm2 z = 1 /\ power z n = c1 /\ forall j, (0 < j < n)%nat -> power z j <> c1.
End Spec.
Arguments odd {F}. Arguments is_sqrt {F}. Arguments midpoint_convex {F}. Arguments positive {F}. Arguments is_mean {F}. Arguments is_std {F}. Arguments sample {F}. Arguments quasi_static {F}.
(** the discrete Fourier transform of n numbers with the root of unity z *)
Definition transform {F : OField} (n : nat) (z : cplx F) (x : nat -> F) (j : nat) : cplx F :=
  sumn (S:=CStar F) n (fun k => cmul (cofk (x k)) (power (cconj z) (j * k))).
