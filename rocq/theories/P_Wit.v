(** Concrete cases used by T_Matrix.v. *)
Require Import List Arith Lia Bool Reals ZArith QArith.
From Verif Require Import LibBase LibRing LibArr LibCplx LibMat LibNorm LibDeriv LibEx M_Matrix S_Linear S_Exp
  P_Linear P_Matrix P_Spectral P_Dexp P_DexpWit.
Import ListNotations.
Open Scope nat_scope.

Lemma truncate_ket_not_rescaled : forall la : LinAlg QcField, exists v T,
  is_matrix 2 1 v /\ sumn (S:=KStar QcField) 2 (fun i => cnorm2 (F:=QcField) (mg (S:=CStar QcField) v i 0)) = k1 /\
  op_truncate la v (Some [0]) true = Ok T /\
  cnorm2 (F:=QcField) (mg (S:=CStar QcField) T 0 0) <> k1.
Proof.
  intros la. exists (mq 2 1 [[cq 3 0 5]; [cq 0 4 5]]). eexists.
  split; [split; reflexivity|]. split; [qc|]. split; [reflexivity|].
  intros H. apply keqb_eq in H. vm_compute in H. discriminate.
Qed.

Lemma svd_case : is_svd 2 (mq 2 2 [[zq 0; zq 2]; [zq 3; zq 0]]) (pauli_x QcField) [qq 3 1; qq 2 1] (pauli_0 QcField) /\
  ~ is_unitary 2 (mq 2 2 [[zq 0; zq 2]; [zq 3; zq 0]]).
Proof.
  split.
  - split; [split; reflexivity|].
    assert (U : is_unitary 2 (pauli_x QcField)) by (split; [split; reflexivity|]; split; qfin).
    assert (W : is_unitary 2 (pauli_0 QcField)) by (split; [split; reflexivity|]; split; qfin).
    split; [exact U|]. split; [exact W|]. split; [reflexivity|]. split; qfin.
  - intros [_ [H _]]. specialize (H 0 0 ltac:(lia) ltac:(lia)). apply ceqb_eq in H. vm_compute in H. discriminate.
Qed.

Lemma c10_case_lemma : exists E dU, op_dexp hla wA wA wtau Spectral false c1 = Ok (E, dU) /\
    op_exp hla wA wtau Spectral false = Ok E /\ is_exp_derivative 2 wtau wA wA dU.
Proof.
  eapply dexp_spectral_ok with (w := [c0; c1]) (V := hV).
  - reflexivity.
  - exact hA_eig_ok.
  - reflexivity.
  - exact (proj1 hA_eig_ok).
  - exact wA_skew.
  - exact wA_skew.
  - exact h_distinct.
  - exact hV_hermitian.
Qed.
