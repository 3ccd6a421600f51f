(** Specification vocabulary for the colours of eigenvectors (C82); no model functions. *)
Require Import List Arith Reals.
From Verif Require Import LibBase LibRing LibArr LibCplx LibMat M_Matrix S_Linear S_Deriv.
Import ListNotations.
Set Implicit Arguments.
Notation RC := (cplx RField).

(** a colour map: red, green and blue between 0 and 1, never black, and an alpha value *)
Definition color_map (cmap : R -> list R) : Prop :=
  forall x, (0 <= x <= 1)%R -> exists r g b a, cmap x = [r; g; b; a] /\ (0 <= r <= 1)%R /\ (0 <= g <= 1)%R /\ (0 <= b <= 1)%R /\ (0 < r \/ 0 < g \/ 0 < b)%R.
(** the colours of k basis vectors: equally spaced points on the map, from one end to the other *)
Definition basis_colors (cmap : R -> list R) (k i j : nat) : R := nth j (cmap (match k with 0 | 1 => 0 | S k' => INR i / INR k' end))%R 0%R.
(** modulus *)
Definition modulus (z : RC) : R := sqrt (cnorm2 (F:=RField) z).
(** c is the mixture of the colours b with the weights w, made as bright as possible *)
Definition is_mixture (k : nat) (b : nat -> nat -> R) (w : nat -> R) (c : nat -> R) : Prop :=
  (exists s, (0 < s)%R /\ forall j, j < 3 -> (s * c j)%R = Rsum k (fun i => (w i * b i j)%R)) /\
  (forall j, j < 3 -> (0 <= c j <= 1)%R) /\ exists j, j < 3 /\ c j = 1%R.
(** column i of V is an eigenvector of H with the real eigenvalue e *)
Definition eigenpair (d : nat) (H V : op RField) (i : nat) (e : R) : Prop :=
  forall a, a < d -> sumn (S:=CStar RField) d (fun b => cmul H.[a,b] V.[b,i]) = cmul (cofk (e : RField)) V.[a,i].
(** what LAPACK promises for Hermitian matrices, here for the matrices of the list Hs *)
Definition eigh_ok (eigh : op RField -> list R * op RField) (d : nat) (Hs : list (op RField)) : Prop :=
  forall H, In H Hs -> is_hermitian (S:=CStar RField) d H -> is_eigendecomposition (F:=RField) d H (map (fun e => cofk (e : RField)) (fst (eigh H))) (snd (eigh H)).
