(** Bridges between the entry-wise specification vocabulary and the matrix algebra library. *)
Require Import List Arith Lia Ring.
From Verif Require Import LibBase LibRing LibArr LibCplx LibMat M_Matrix S_Linear.
Import ListNotations.
Set Implicit Arguments.

Section B.
Variable S : StarRing.
Add Ring Sring3 : (s_ring S).
Local Open Scope sr_scope.
Implicit Types A B U V : mat S.

Lemma is_matrix_wfm m n A : is_matrix m n A <-> wfm m n A.
Proof.
  unfold is_matrix, wfm, wfa. simpl. rewrite Nat.mul_1_r. tauto.
Qed.

Lemma delta_kd i j : delta i j = (kd i j : S).
Proof. reflexivity. Qed.

Lemma is_product_mmul m n p A B : wfm m n A -> wfm n p B -> is_product m n p A B (mmul A B).
Proof.
  intros HA HB. split. apply is_matrix_wfm; wf_solve. intros. now mgsimp.
Qed.
Lemma is_product_eq m n p A B P : wfm m n A -> wfm n p B -> is_product m n p A B P -> P = mmul A B.
Proof.
  intros HA HB [H1 H2]. apply is_matrix_wfm in H1. apply (@mat_ext S m p); [auto|wf_solve|].
  intros. rewrite H2; auto. now mgsimp.
Qed.

Lemma is_identity_mid n A : is_identity n A <-> A = mid n.
Proof.
  split.
  - intros [H1 H2]. apply is_matrix_wfm in H1. apply (@mat_ext S n n); [auto|wf_solve|].
    intros. rewrite H2; auto. now mgsimp.
  - intros ->. split. apply is_matrix_wfm; wf_solve. intros. now mgsimp.
Qed.

Definition munitary n U := wfm n n U /\ mmul (mdag U) U = mid n /\ mmul U (mdag U) = mid n.

Lemma is_unitary_m n U : is_unitary n U <-> munitary n U.
Proof.
  unfold is_unitary, munitary. split.
  - intros (H1 & H2 & H3). apply is_matrix_wfm in H1. split; auto. split.
    + apply (@mat_ext S n n); [wf_solve|wf_solve|]. intros. mgsimp.
      rewrite <- delta_kd, <- H2 by auto. apply sumn_ext. intros. now mgsimp.
    + apply (@mat_ext S n n); [wf_solve|wf_solve|]. intros. mgsimp.
      rewrite <- delta_kd, <- H3 by auto. apply sumn_ext. intros. now mgsimp.
  - intros (H1 & H2 & H3). split. now apply is_matrix_wfm. split.
    + intros i j Hi Hj. rewrite delta_kd. rewrite <- (@mg_mid S n) by auto. rewrite <- H2.
      mgsimp. apply sumn_ext. intros. now mgsimp.
    + intros i j Hi Hj. rewrite delta_kd. rewrite <- (@mg_mid S n) by auto. rewrite <- H3.
      mgsimp. apply sumn_ext. intros. now mgsimp.
Qed.

Lemma is_hermitian_m n A : is_hermitian n A <-> (wfm n n A /\ mdag A = A).
Proof.
  split.
  - intros [H1 H2]. apply is_matrix_wfm in H1. split; auto.
    apply (@mat_ext S n n); [wf_solve|wf_solve|]. intros. mgsimp. symmetry. now apply H2.
  - intros [H1 H2]. split. now apply is_matrix_wfm. intros i j Hi Hj.
    rewrite <- H2 at 1. now mgsimp.
Qed.

Lemma is_skew_hermitian_m n A : is_skew_hermitian n A <-> (wfm n n A /\ mdag A = mscale (- (1)) A).
Proof.
  split.
  - intros [H1 H2]. apply is_matrix_wfm in H1. split; auto.
    apply (@mat_ext S n n); [wf_solve|wf_solve|]. intros. mgsimp. rewrite (H2 i j) by auto.
    rewrite (H2 j i) by auto. ring_simplify. rewrite sconj_opp, sconj_inv. ring.
  - intros [H1 H2]. split. now apply is_matrix_wfm. intros i j Hi Hj.
    assert (E : mg (mdag A) j i = mg (mscale (-(1)) A) j i) by now rewrite H2.
    revert E. mgsimp. intros E. rewrite E. ring.
Qed.

Lemma munitary_mul n U V : munitary n U -> munitary n V -> munitary n (mmul U V).
Proof.
  intros (H1 & H2 & H3) (G1 & G2 & G3). split. wf_solve. split.
  - rewrite (@mdag_mmul S n n n) by auto.
    rewrite <- (@mmul_assoc S n n n n) by wf_solve.
    rewrite (@mmul_assoc S n n n n (mdag U)) by wf_solve. rewrite H2.
    rewrite (@mmul_1_l S n n) by auto. auto.
  - rewrite (@mdag_mmul S n n n) by auto.
    rewrite <- (@mmul_assoc S n n n n) by wf_solve.
    rewrite (@mmul_assoc S n n n n V) by wf_solve. rewrite G3.
    rewrite (@mmul_1_l S n n) by wf_solve. auto.
Qed.
Lemma munitary_id n : munitary n (mid n : mat S).
Proof.
  split. wf_solve. rewrite mdag_mid. rewrite (@mmul_1_l S n n) by wf_solve. auto.
Qed.
Lemma munitary_dag n U : munitary n U -> munitary n (mdag U).
Proof.
  intros (H1 & H2 & H3). split. wf_solve. rewrite (@mdag_mdag S n n) by auto. auto.
Qed.
Lemma munitary_wf n U : munitary n U -> wfm n n U.
Proof. now intros [H _]. Qed.

(** tr(U^dag M U) = tr M *)
Lemma mtrace_unitary n U M : munitary n U -> wfm n n M -> mtrace (mmul (mdag U) (mmul M U)) = mtrace M.
Proof.
  intros (H1 & H2 & H3) HM. rewrite (@mtrace_comm S n n) by wf_solve.
  rewrite <- (@mmul_assoc S n n n n) by wf_solve. rewrite H3.
  now rewrite (@mmul_1_r S n n).
Qed.
End B.
#[global] Hint Resolve munitary_wf : wfm.

Lemma lprod_app (S : StarRing) (l1 l2 : list S) : lprod (l1 ++ l2) = smul (lprod l1) (lprod l2).
Proof.
  pose proof (s_ring S) as R. induction l1; simpl.
  - now rewrite (Rmul_1_l R).
  - rewrite IHl1. now rewrite (Rmul_assoc R).
Qed.
