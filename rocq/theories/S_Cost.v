(** Specification vocabulary for fidelities and leakage, in terms of entries only. *)
Require Import List Arith.
From Verif Require Import LibRing LibArr LibCplx LibMat S_Linear.
Import ListNotations.
Set Implicit Arguments.

Section SpecCost.
Variable F : OField.
Notation op := (mat (CStar F)).
Notation C := (cplx F).

(** a normalised ket *)
Definition is_state (n : nat) (psi : op) : Prop :=
  is_matrix n 1 psi /\ sumn (S:=KStar F) n (fun i => cnorm2 psi.[i,0]) = k1.
(** t is the bra of the ket phi *)
Definition is_bra_of (n : nat) (t phi : op) : Prop :=
  is_matrix 1 n t /\ forall i, i < n -> t.[0,i] = cconj phi.[i,0].
(** B = c A *)
Definition is_multiple (m n : nat) (c : C) (A B : op) : Prop :=
  is_matrix m n B /\ forall i j, i < m -> j < n -> B.[i,j] = cmul c A.[i,j].
(** equal up to a global phase *)
Definition same_up_to_phase (m n : nat) (A B : op) : Prop :=
  exists c : C, cnorm2 c = k1 /\ is_multiple m n c A B.
(** sum_ij conj V_ij U_ij = tr (V^dagger U) *)
Definition mat_overlap (n : nat) (V U : op) : C :=
  sumn (S:=CStar F) n (fun i => sumn (S:=CStar F) n (fun j => cmul (cconj V.[i,j]) U.[i,j])).
(** distinct levels of an n level system *)
Definition levels (n : nat) (cs : list nat) : Prop := NoDup cs /\ forall i, In i cs -> i < n.
(** B is the block of A on the levels cs *)
Definition is_block (cs : list nat) (A B : op) : Prop :=
  is_matrix (length cs) (length cs) B /\
  forall a b, a < length cs -> b < length cs -> B.[a,b] = A.[nth a cs 0, nth b cs 0].
(** population that stays in the levels cs, averaged over the levels cs as initial states *)
Definition staying (cs : list nat) (U : op) : F :=
  kdiv (sumn (S:=KStar F) (length cs) (fun a => sumn (S:=KStar F) (length cs) (fun b => cnorm2 U.[nth a cs 0, nth b cs 0])))
       (kofnat (length cs)).
(** mean of f 0 .. f (n-1) *)
Definition average (n : nat) (f : nat -> F) : F := kdiv (sumn (S:=KStar F) n f) (kofnat n).
(** y is the last entry of l *)
Definition is_last {A} (l : list A) (y : A) : Prop := exists l', l = l' ++ [y].
(** K is the super operator conj U (x) U acting on column stacked density matrices *)
Definition is_super_of (n : nat) (U K : op) : Prop :=
  is_matrix (n * n) (n * n) K /\
  forall a b c d, a < n -> b < n -> c < n -> d < n -> K.[a * n + b, c * n + d] = cmul (cconj U.[a,c]) U.[b,d].
End SpecCost.
Arguments average {F}. Arguments mat_overlap {F}. Arguments staying {F}. Arguments is_state {F}. Arguments is_super_of {F}.
(** further than tol from the real number b *)
Definition off_by {F : OField} (tol : F) (z : cplx F) (b : F) : Prop := ~ kle (cnorm2 (csub z (cofk b))) (kmul tol tol).
(** entry i, j of u u^dagger for a 2 x 2 matrix u *)
Definition gram2 {F : OField} (u : mat (CStar F)) (i j : nat) : cplx F := cadd (cmul u.[i,0] (cconj u.[j,0])) (cmul u.[i,1] (cconj u.[j,1])).
(** the square root: what is needed of it *)
Definition is_sqrt {F : OField} (sq : F -> F) : Prop := forall x, kle k0 x -> kle k0 (sq x) /\ kmul (sq x) (sq x) = x.
