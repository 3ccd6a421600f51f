(** Concrete numbers and matrices over the rationals, for the examples and witnesses (library file). *)
Require Import List Arith ZArith QArith Qcanon Bool.
From Verif Require Import LibRing LibArr LibCplx LibMat.
Import ListNotations.

Definition qq (n : Z) (d : positive) : QcField := Q2Qc (n # d).
(** a/d + i b/d *)
Definition cq (a b : Z) (d : positive) : cplx QcField := (qq a d, qq b d).
(** integers *)
Definition zq (a : Z) : cplx QcField := cq a 0 1.
Definition mq (m n : nat) (l : list (list (cplx QcField))) : mat (CStar QcField) :=
  mk2 m n (fun i j => nth j (nth i l []) c0).
(** decidable equality of matrices *)
Definition meqb (A B : mat (CStar QcField)) : bool :=
  (if list_eq_dec Nat.eq_dec (shape A) (shape B) then true else false) &&
  Nat.eqb (length (data A)) (length (data B)) &&
  forallb (fun k => ceqb (nth k (data A) c0) (nth k (data B) c0)) (seq 0 (length (data A))).
Lemma meqb_eq A B : meqb A B = true -> A = B.
Proof.
  unfold meqb. destruct A as [sa da], B as [sb db]. cbn [shape data].
  destruct (list_eq_dec Nat.eq_dec sa sb) as [->|]; [|discriminate]. cbn [andb]. rewrite andb_true_iff. intros [H1 H2].
  apply Nat.eqb_eq in H1. rewrite forallb_forall in H2. f_equal. apply (nth_ext da db c0 c0); auto.
  intros k Hk. apply ceqb_eq. apply H2. apply in_seq. split; [apply Nat.le_0_l|exact Hk].
Qed.

(** case analysis on bounded indices, then computation *)
Ltac qidx := repeat match goal with
  | H : (?i < _)%nat |- _ => is_var i; let i' := fresh in destruct i as [|i']; [clear H | apply (proj2 (Nat.succ_lt_mono _ _)) in H]
  | H : (_ < 0)%nat |- _ => exfalso; exact (Nat.nlt_0_r _ H)
  end.
Ltac qc := solve [apply ceqb_eq; vm_compute; reflexivity | apply keqb_eq; vm_compute; reflexivity | vm_compute; reflexivity | vm_compute; discriminate].
Ltac qfin := intros; qidx; try qc.
