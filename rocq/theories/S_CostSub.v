(** Specification vocabulary for a composite system of which only some subsystems matter: states of the whole system, of the
    subsystems that are kept and of the rest, by entries. *)
Require Import List Arith.
From Verif Require Import LibRing LibArr LibCplx LibMat S_Linear S_PTrace S_Cost.
Import ListNotations.
Set Implicit Arguments.

(** some, but not all, of the subsystems, each once, of a system with at least two levels *)
Definition proper_part (dims removed : list nat) : Prop :=
  NoDup removed /\ (forall q, In q removed -> q < length dims) /\ removed <> [] /\ length removed < length dims /\ 1 < prodn dims.
(** the dimensions of the whole, of the kept subsystems and of the others *)
Definition whole (dims : list nat) : nat := prodn dims.
Definition own (dims removed : list nat) : nat := prodn (select dims (kept (length dims) removed)).
Definition rest (dims removed : list nat) : nat := prodn (select dims removed).
(** L r x is the number of the basis state of the whole in which the kept subsystems are in the basis state x and the others in the
    basis state r *)
Definition places (dims removed : list nat) (L : nat -> nat -> nat) : Prop :=
  forall r x, r < rest dims removed -> x < own dims removed -> exists z, vidx dims z /\ L r x = ravel dims z /\
    ravel (select dims (kept (length dims) removed)) (select z (kept (length dims) removed)) = x /\
    ravel (select dims removed) (select z removed) = r.

Section SpecSub.
Variable F : OField.
Notation op := (mat (CStar F)).
Notation C := (cplx F).
Variables (dims removed : list nat) (L : nat -> nat -> nat).

(** the probability to find the kept subsystems in the state with the bra t, whatever the others are in *)
Definition found (t psi : op) : F :=
  sumn (S:=KStar F) (rest dims removed) (fun r => cnorm2 (sumn (S:=CStar F) (own dims removed) (fun x => cmul t.[0,x] psi.[L r x, 0]))).
(** the same for a density matrix of the whole *)
Definition found_mixed (t rho : op) : C :=
  sumn (S:=CStar F) (rest dims removed) (fun r => sumn (S:=CStar F) (own dims removed) (fun x => sumn (S:=CStar F) (own dims removed) (fun y =>
    cmul t.[0,x] (cmul rho.[L r x, L r y] (cconj t.[0,y]))))).
(** psi is phi on the kept subsystems and chi on the others *)
Definition is_product_state (phi chi psi : op) : Prop :=
  is_matrix (whole dims) 1 psi /\
  forall r x, r < rest dims removed -> x < own dims removed -> psi.[L r x, 0] = cmul phi.[x,0] chi.[r,0].
(** psi' is psi after the matrix W has acted on the subsystems that are not kept *)
Definition acted_on_rest (W psi psi' : op) : Prop :=
  is_matrix (whole dims) 1 psi' /\
  forall r x, r < rest dims removed -> x < own dims removed ->
    psi'.[L r x, 0] = sumn (S:=CStar F) (rest dims removed) (fun s => cmul W.[r,s] psi.[L s x, 0]).
(** the columns of rho below each other *)
Definition stacked (n : nat) (rho v : op) : Prop :=
  is_matrix (n * n) 1 v /\ forall i j, i < n -> j < n -> v.[j * n + i, 0] = rho.[i,j].
End SpecSub.
