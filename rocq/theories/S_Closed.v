(** Specification vocabulary for evolutions known in closed form (C86). *)
Require Import List Arith Reals.
From Verif Require Import LibBase LibRing LibArr LibCplx LibMat LibDeriv M_Matrix S_Linear S_Deriv M_Transfer S_Transfer M_Amplitude S_Amplitude M_Solver S_Solver S_Lindblad S_Invariance.
Import ListNotations.
Set Implicit Arguments.
Local Notation Sg := (sumn (S:=RS)).

(** the Hamiltonian of time step r *)
Definition energy_op (s : @st RField) (u : RA) (r : nat) : nat -> nat -> RC := hamiltonian (F:=RField) (Dr s r) (c_ctrl (s_conf s)) (fun c => get2 (k0 : RField) u r c).
(** the length of time step r *)
Definition span (s : @st RField) (r : nat) : R := nth r (s_time s) 0%R.
(** the sum of the complex numbers f 0, ..., f (t-1) *)
Fixpoint ctotal (f : nat -> RC) (t : nat) : RC := match t with 0 => c0 | Datatypes.S t' => cadd (ctotal f t') (f t') end.
(** H v = e v *)
Definition eigenvector (n : nat) (H : nat -> nat -> RC) (v : nat -> RC) (e : R) : Prop := forall i, i < n -> Sg n (fun j => cmul (H i j) (v j)) = cmul (cofk (e : RField)) (v i).
(** C C = 1 *)
Definition involution (n : nat) (C : nat -> nat -> RC) : Prop := forall i j, i < n -> j < n -> Sg n (fun l => cmul (C i l) (C l j)) = delta (S:=RS) i j.
(** only entries on the diagonal *)
Definition is_diagonal (n : nat) (M : mat RS) : Prop := forall i j, i < n -> j < n -> i <> j -> M.[i,j] = c0.
(** how fast the entry i, j of a density matrix changes under a diagonal Hamiltonian h and diagonal dissipation operators with the
    rates w: -i (h_i - h_j) + sum_q w_q (l_i conj(l_j) - |l_i|^2 / 2 - |l_j|^2 / 2) *)
Definition dephasing (h : nat -> nat -> RC) (Ls : list (mat RS)) (w : nat -> R) (i j : nat) : RC :=
  cadd (cmul (copp ci) (csub (h i i) (h j j)))
       (Sg (length Ls) (fun q => let l := nth q Ls (Arr [] []) in
          cmul (cofk (w q : RField)) (csub (cmul l.[i,i] (cconj l.[j,j])) (cmul (cofk (kdiv k1 (kofnat 2) : RField)) (cadd (cmul (cconj l.[i,i]) l.[i,i]) (cmul (cconj l.[j,j]) l.[j,j])))))).
(** |z|^2 *)
Definition size2 (z : RC) : R := (cre z * cre z + cim z * cim z)%R.
(** the operator |0><1| of a two level system *)
Definition lowers (L : mat RS) : Prop := L.[0,0] = c0 /\ L.[0,1] = c1 /\ L.[1,0] = c0 /\ L.[1,1] = c0.
