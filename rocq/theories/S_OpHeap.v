(** Specification of the statements on one operator, for C06: what becomes of its entries. *)
Require Import List Arith Bool.
From Verif Require Import LibBase LibRing LibArr LibCplx LibMat M_Matrix M_OpHeap S_Linear.
Set Implicit Arguments.

Section Spec.
Variable F : OField.
Notation C := (cplx F).

(** B is an m x n matrix with the entries f *)
Definition has_entries (m n : nat) (f : nat -> nat -> C) (B : op F) : Prop :=
  nr B = m /\ nc B = n /\ forall i j, i < m -> j < n -> mg B i j = f i j.
(** i is a legal statement on the operator a alone, which has m rows and n columns *)
Definition acts_on (a m n : nat) (i : instr F) : Prop :=
  match i with
  | ICopy x | IWrap x | IScale x _ | IScaleIn x _ | IDag x | IDagIn x | IConj x | IConjIn x | ITrans x | ITransIn x => x = a
  | IDiv x c => x = a /\ c <> c0
  | ISet x k l _ => x = a /\ k < m /\ l < n
  | _ => False
  end.
(** the operator with the result: in-place statements change a, the others make a new operator *)
Definition result_of (i : instr F) (fresh : nat) : nat :=
  match i with IScaleIn x _ | IDagIn x | IConjIn x | ITransIn x | ISet x _ _ _ => x | _ => fresh end.
(** the entries of the result B for the operator A *)
Definition effect (m n : nat) (A : op F) (i : instr F) (B : op F) : Prop :=
  match i with
  | ICopy _ | IWrap _ => has_entries m n (fun k l => mg A k l) B
  | IScale _ c | IScaleIn _ c => has_entries m n (fun k l => cmul c (mg A k l)) B
  | IDiv _ c => has_entries m n (fun k l => cdiv (mg A k l) c) B
  | IDag _ | IDagIn _ => has_entries n m (fun k l => cconj (mg A l k)) B
  | IConj _ | IConjIn _ => has_entries m n (fun k l => cconj (mg A k l)) B
  | ITrans _ | ITransIn _ => has_entries n m (fun k l => mg A l k) B
  | ISet _ k l c => has_entries m n (fun k' l' => if Nat.eqb k' k && Nat.eqb l' l then c else mg A k' l') B
  | _ => True
  end.
End Spec.
Arguments has_entries {F}. Arguments acts_on {F}. Arguments result_of {F}. Arguments effect {F}.
