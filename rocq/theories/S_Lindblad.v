(** Specification vocabulary for the master equation: super operators act on matrices rho : nat -> nat -> C,
    vectorised column by column. *)
Require Import List Arith.
From Verif Require Import LibBase LibRing LibArr LibCplx LibMat S_Linear M_Solver.
Import ListNotations.
Set Implicit Arguments.

Section Spec.
Variable F : OField.
Notation S := (CStar F).
Notation C := (cplx F).
Notation op := (mat (CStar F)).
Notation Sg := (sumn (S:=CStar F)).

(** (M rho)_{ij} for the super operator M and vec(rho)_{b n + a} = rho_{ab} *)
Definition apply_super (n : nat) (M : op) (rho : nat -> nat -> C) (i j : nat) : C :=
  Sg n (fun b => Sg n (fun a => cmul (M.[j * n + i, b * n + a]) (rho a b))).
(** (L^+ L)_{ij} *)
Definition number_op (n : nat) (L : op) (i j : nat) : C := Sg n (fun l => cmul (cconj (L.[l, i])) (L.[l, j])).
(** (L rho L^+ - (L^+ L rho + rho L^+ L) / 2)_{ij} *)
Definition dissipation (n : nat) (L : op) (rho : nat -> nat -> C) (i j : nat) : C :=
  csub (Sg n (fun b => Sg n (fun a => cmul (cmul (L.[i, a]) (rho a b)) (cconj (L.[j, b])))))
       (cmul (cofk (kdiv k1 (kofnat 2)))
         (cadd (Sg n (fun a => cmul (number_op n L i a) (rho a j))) (Sg n (fun b => cmul (rho i b) (number_op n L b j))))).
(** -i [H, rho]_{ij} *)
Definition commutation (n : nat) (H rho : nat -> nat -> C) (i j : nat) : C :=
  cmul (copp ci) (csub (Sg n (fun a => cmul (H i a) (rho a j))) (Sg n (fun b => cmul (rho i b) (H b j)))).
(** -i [H, rho] + sum_k w_k (L_k rho L_k^+ - {L_k^+ L_k, rho} / 2) *)
Definition master (n : nat) (H : nat -> nat -> C) (Ls : list op) (w : nat -> F) (rho : nat -> nat -> C) (i j : nat) : C :=
  cadd (commutation n H rho i j) (Sg (length Ls) (fun k => cmul (cofk (w k)) (dissipation n (nth k Ls (Arr [] [])) rho i j))).
(** the same with the dissipation given by super operators *)
Definition master_super (n : nat) (H : nat -> nat -> C) (Ds : list op) (w : nat -> F) (rho : nat -> nat -> C) (i j : nat) : C :=
  cadd (commutation n H rho i j) (Sg (length Ds) (fun k => cmul (cofk (w k)) (apply_super n (nth k Ds (Arr [] [])) rho i j))).
(** H + sum_c u_c H_c *)
Definition hamiltonian (h : op) (hs : list op) (u : nat -> F) (i j : nat) : C :=
  cadd (h.[i, j]) (Sg (length hs) (fun c => cmul (cofk (u c)) ((nth c hs (Arr [] [])).[i, j]))).
(** the super operator G does to every rho what [f] does *)
Definition acts_as (n : nat) (G : op) (f : (nat -> nat -> C) -> nat -> nat -> C) : Prop :=
  is_matrix (n * n) (n * n) G /\ forall rho i j, i < n -> j < n -> apply_super n G rho i j = f rho i j.
Definition hermitian_fun (n : nat) (rho : nat -> nat -> C) : Prop := forall a b, a < n -> b < n -> rho b a = cconj (rho a b).
(** the weights of [k] dissipation operators: what the prefactor function returns for the control
    amplitudes and the transferred parameters, 1 without one *)
Definition rates (l : @liconf F) (u : arr (kcar F)) (x : option (arr (kcar F))) (k : nat) (w : nat -> nat -> F) : Prop :=
  match li_pref l with
  | None => forall t i, w t i = k1
  | Some f => exists p, f u x = Ok p /\ dim1 p = k /\ forall t i, w t i = get2 k0 p t i
  end.
(** the derivatives of the weights by the control amplitudes, [w t c i] for operator i, step t and control c:
    what the function for them returns, 0 without one *)
Definition slopes (l : @liconf F) (u : arr (kcar F)) (x : option (arr (kcar F))) (k : nat) (w : nat -> nat -> nat -> F) : Prop :=
  match li_pref_d l with
  | None => forall t c i, w t c i = k0
  | Some f => exists p, f u x = Ok p /\ dim2 p = k /\ forall t c i, w t c i = get3 k0 p t c i
  end.
(** the amplitudes [u] with e added to the one of control c *)
Definition shifted_amps (u : nat -> F) (c : nat) (e : F) (c' : nat) : F := if Nat.eqb c' c then kadd (u c') e else u c'.
(** the entries of an operator *)
Definition entries (h : op) (i j : nat) : C := h.[i, j].
End Spec.
