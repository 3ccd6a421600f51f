(** Model of qopt/amplitude_functions.py: the maps from transferred optimisation parameters to control
    amplitudes.

    Simplifications: numbers are exact and dtypes are not modelled (np.vectorize would take the dtype of
    its first output); arrays have rank two; the callables given by the user are functions that return
    an array or raise. *)
Require Import List Arith Lia Bool.
From Verif Require Import LibBase LibRing LibArr LibCplx M_Transfer.
Import ListNotations.
Open Scope res_scope.
Set Implicit Arguments.

Section Model.
Variable F : OField.
Notation K := (KStar F).
Notation arrF := (arr (kcar F)).

(** the classes IdentityAmpFunc l.123, UnaryAnalyticAmpFunc l.140 (value_function and
    derivative_function of one number) and CustomAmpFunc l.178 (functions of the whole array) *)
Inductive amp :=
| AIdentity
| AUnary (value deriv : F -> F)
| ACustom (value deriv : arrF -> res arrF).

(** np.vectorize(f)(x), l.161-162: raises ValueError for arrays without elements *)
Definition vectorize (f : F -> F) (x : arrF) : res arrF :=
  check negb (Nat.eqb (length (data x)) 0) else ValueError ;; Ok (Arr (shape x) (map f (data x))).

(** __call__: l.130-132, l.164-166, l.208-210 *)
Definition amp_call (a : amp) (x : arrF) : res arrF :=
  match a with
  | AIdentity => Ok x
  | AUnary f _ => vectorize f x
  | ACustom f _ => f x
  end.

(** einsum('ij,ikj->ikj', d, g), l.175 *)
Definition einsum_unary (d g : arrF) : res arrF :=
  check Nat.eqb (rank d) 2 && Nat.eqb (rank g) 3 else ValueError ;;
  ni <- lab (dim0 d) (dim0 g) ;;
  nj <- lab (dim1 d) (dim2 g) ;;
  Ok (mk3 ni (dim1 g) nj (fun i k j =>
        kmul (get2 k0 d (bi (dim0 d) i) (bi (dim1 d) j)) (get3 k0 g (bi (dim0 g) i) k (bi (dim2 g) j)))).

(** einsum('imj,ikj->ikm', d, g), l.220 *)
Definition einsum_custom (d g : arrF) : res arrF :=
  check Nat.eqb (rank d) 3 && Nat.eqb (rank g) 3 else ValueError ;;
  ni <- lab (dim0 d) (dim0 g) ;;
  nj <- lab (dim2 d) (dim2 g) ;;
  Ok (mk3 ni (dim1 g) (dim1 d) (fun i k m => sumn (S:=K) nj (fun j =>
        kmul (get3 k0 d (bi (dim0 d) i) m (bi (dim2 d) j)) (get3 k0 g (bi (dim0 g) i) k (bi (dim2 g) j))))).

(** derivative_by_chain_rule: l.134-137, l.168-175, l.212-220 *)
Definition amp_chain (a : amp) (g x : arrF) : res arrF :=
  match a with
  | AIdentity => Ok g
  | AUnary _ df => d <- vectorize df x ;; einsum_unary d g
  | ACustom _ df => d <- df x ;; einsum_custom d g
  end.
End Model.
Arguments AIdentity {F}. Arguments AUnary {F}. Arguments ACustom {F}.
