(** Proofs about the operator arithmetic of M_Matrix.v *)
Require Import List Arith Lia Ring Field Bool.
From Verif Require Import LibBase LibRing LibArr LibCplx LibMat M_Matrix S_Linear P_Linear.
Import ListNotations.
Set Implicit Arguments.

Section P.
Variable F : OField.
Add Field Ffield : (k_field F).
Add Field Cfield : (c_field F).
Notation S := (CStar F).
Notation C := (cplx F).
Implicit Types A B D P : op F.

Lemma op_dag_mdag m n A : wfm m n A -> op_dag A = mdag (S:=S) A.
Proof. intros H. unfold op_dag, op_copy. now rewrite (mdag_mconj_mtr H). Qed.

Lemma op_mul_dense m n p A B : wfm m n A -> wfm n p B -> op_mul A (ODense B) = Ok (mmul (S:=S) A B).
Proof.
  intros HA HB. simpl. unfold np_matmul. rewrite (wfm_nc HA), (wfm_nr HB), Nat.eqb_refl. reflexivity.
Qed.
Lemma op_mul_dense_err m n n' p A B : wfm m n A -> wfm n' p B -> n <> n' ->
  op_mul A (ODense B) = Err ValueError.
Proof.
  intros HA HB Hn. simpl. unfold np_matmul. rewrite (wfm_nc HA), (wfm_nr HB).
  apply Nat.eqb_neq in Hn. now rewrite Hn.
Qed.

Lemma bcast_same m n A B : wfm m n A -> wfm m n B -> bcast A B = B.
Proof.
  intros HA HB. unfold bcast. rewrite (wfm_nr HA), (wfm_nc HA), (wfm_nr HB), (wfm_nc HB).
  apply (@mat_ext S m n); [wf_solve|auto|]. intros i j Hi Hj. mgsimp. unfold bidx.
  destruct (Nat.eqb_spec m 1), (Nat.eqb_spec n 1); subst; f_equal; lia.
Qed.
Lemma bcast_ok_same m n A B : wfm m n A -> wfm m n B -> bcast_ok A B = true.
Proof.
  intros HA HB. unfold bcast_ok. rewrite (wfm_nr HA), (wfm_nc HA), (wfm_nr HB), (wfm_nc HB).
  now rewrite !Nat.eqb_refl.
Qed.
Lemma op_add_dense m n A B : wfm m n A -> wfm m n B -> op_add A (ODense B) = Ok (madd (S:=S) A B).
Proof.
  intros HA HB. unfold op_add, op_iadd, op_copy. rewrite (bcast_ok_same HA HB). now rewrite (bcast_same HA HB).
Qed.
Lemma op_sub_dense m n A B : wfm m n A -> wfm m n B -> op_sub A (ODense B) = Ok (msub (S:=S) A B).
Proof.
  intros HA HB. unfold op_sub, op_isub, op_copy. rewrite (bcast_ok_same HA HB). now rewrite (bcast_same HA HB).
Qed.

(** C01 *)
Lemma adjoint_laws m n p A B : is_matrix m n A -> is_matrix n p B ->
  exists P, op_mul A (ODense B) = Ok P /\ is_product m n p A B P
    /\ op_mul (op_dag B) (ODense (op_dag A)) = Ok (op_dag P).
Proof.
  rewrite !is_matrix_wfm. intros HA HB. exists (mmul (S:=S) A B). split; [|split].
  - now apply (@op_mul_dense m n p).
  - now apply is_product_mmul.
  - rewrite (op_dag_mdag HA), (op_dag_mdag HB), (@op_dag_mdag m p) by wf_solve.
    rewrite (@op_mul_dense p n m) by wf_solve. now rewrite (mdag_mmul HA HB).
Qed.
Lemma dag_entries m n A : is_matrix m n A ->
  is_matrix n m (op_dag A) /\ (forall i j, i < n -> j < m -> (op_dag A).[i,j] = cconj A.[j,i]).
Proof.
  rewrite !is_matrix_wfm. intros HA. rewrite (op_dag_mdag HA). split. wf_solve.
  intros. now mgsimp.
Qed.
Lemma conj_entries m n A : is_matrix m n A ->
  is_matrix m n (op_conj A) /\ (forall i j, i < m -> j < n -> (op_conj A).[i,j] = cconj A.[i,j]).
Proof.
  rewrite !is_matrix_wfm. intros HA. unfold op_conj, op_copy. split. wf_solve. intros. now mgsimp.
Qed.
Lemma transpose_entries m n A : is_matrix m n A ->
  is_matrix n m (op_transpose A) /\ (forall i j, i < n -> j < m -> (op_transpose A).[i,j] = A.[j,i]).
Proof.
  rewrite !is_matrix_wfm. intros HA. unfold op_transpose, op_copy. split. wf_solve. intros. now mgsimp.
Qed.
Lemma dag_involutive m n A : is_matrix m n A ->
  op_dag (op_dag A) = A /\ op_conj (op_transpose A) = op_dag A /\ op_transpose (op_conj A) = op_dag A.
Proof.
  rewrite is_matrix_wfm. intros HA. rewrite (op_dag_mdag HA). rewrite (@op_dag_mdag n m) by wf_solve.
  unfold op_conj, op_transpose, op_copy. split; [|split].
  - now apply (@mdag_mdag S m n).
  - now rewrite (mdag_mtr_mconj HA).
  - now rewrite (mdag_mconj_mtr HA).
Qed.

(** C02 *)
Lemma kron_entries m n p q A B : is_matrix m n A -> is_matrix p q B ->
  exists K, op_kron A (ODense B) = Ok K /\ is_matrix (m * p) (n * q) K /\
   forall a b c d, a < m -> b < p -> c < n -> d < q -> K.[a * p + b, c * q + d] = cmul A.[a,c] B.[b,d].
Proof.
  rewrite !is_matrix_wfm. intros HA HB. exists (mkron (S:=S) A B). split; [reflexivity|]. split.
  - apply is_matrix_wfm. wf_solve.
  - intros. exact (@mg_mkron' S m n p q A B a b c d HA HB H H0 H1 H2).
Qed.
Lemma kron_mixed m n p m' n' p' A B D E : is_matrix m n A -> is_matrix n p B ->
  is_matrix m' n' D -> is_matrix n' p' E ->
  exists AD BE AB DE K,
   op_kron A (ODense D) = Ok AD /\ op_kron B (ODense E) = Ok BE /\
   op_mul A (ODense B) = Ok AB /\ op_mul D (ODense E) = Ok DE /\
   op_mul AD (ODense BE) = Ok K /\ op_kron AB (ODense DE) = Ok K.
Proof.
  rewrite !is_matrix_wfm. intros HA HB HD HE.
  exists (mkron (S:=S) A D), (mkron (S:=S) B E), (mmul (S:=S) A B), (mmul (S:=S) D E),
    (mmul (S:=S) (mkron (S:=S) A D) (mkron (S:=S) B E)). repeat split.
  - eapply op_mul_dense; eauto.
  - eapply op_mul_dense; eauto.
  - eapply op_mul_dense; wf_solve.
  - simpl. f_equal. symmetry. eapply mkron_mmul; eauto.
Qed.
Lemma kron_dag m n p q A B : is_matrix m n A -> is_matrix p q B ->
  exists K, op_kron A (ODense B) = Ok K /\ op_kron (op_dag A) (ODense (op_dag B)) = Ok (op_dag K).
Proof.
  rewrite !is_matrix_wfm. intros HA HB. eexists; split; [reflexivity|]. simpl. f_equal.
  rewrite (op_dag_mdag HA), (op_dag_mdag HB), (@op_dag_mdag (m*p) (n*q)) by wf_solve.
  symmetry. now apply (@mkron_mdag S m n p q).
Qed.
Lemma kron_identity m n A B : is_matrix m m A -> is_matrix n n B ->
  exists I J K, op_identity_like A = Ok I /\ op_identity_like B = Ok J /\ op_kron I (ODense J) = Ok K /\
  is_identity (m * n) K.
Proof.
  rewrite !is_matrix_wfm. intros HA HB. unfold op_identity_like.
  rewrite (wfm_nr HA), (wfm_nc HA), (wfm_nr HB), (wfm_nc HB), !Nat.eqb_refl.
  do 3 eexists. repeat split. 
  - apply is_matrix_wfm. wf_solve.
  - rewrite mkron_mid. intros. now mgsimp.
Qed.

(** C03 *)
Lemma trace_laws m n A B : is_matrix m n A -> is_matrix n m B ->
  exists P Q, op_mul A (ODense B) = Ok P /\ op_mul B (ODense A) = Ok Q /\ op_tr P = op_tr Q.
Proof.
  rewrite !is_matrix_wfm. intros HA HB. exists (mmul (S:=S) A B), (mmul (S:=S) B A). split; [|split].
  - eapply op_mul_dense; eauto.
  - eapply op_mul_dense; eauto.
  - unfold op_tr. eapply mtrace_comm; eauto.
Qed.
Lemma trace_sum n A : is_matrix n n A -> op_tr A = sumn (S:=S) n (fun i => A.[i,i]).
Proof. rewrite is_matrix_wfm. intros HA. unfold op_tr. now apply mtrace_sq. Qed.
Lemma trace_linear n A B (c : C) : is_matrix n n A -> is_matrix n n B ->
  exists P Q, op_add A (ODense B) = Ok P /\ op_mul A (OScal c) = Ok Q /\
   op_tr P = cadd (op_tr A) (op_tr B) /\ op_tr Q = cmul c (op_tr A).
Proof.
  rewrite !is_matrix_wfm. intros HA HB. exists (madd (S:=S) A B), (mscale (S:=S) c A). repeat split.
  - eapply op_add_dense; eauto.
  - unfold op_tr. exact (mtrace_madd HA HB).
  - unfold op_tr, op_copy. exact (mtrace_mscale (S:=S) c HA).
Qed.
Lemma trace_kron m n A B : is_matrix m m A -> is_matrix n n B ->
  exists K, op_kron A (ODense B) = Ok K /\ op_tr K = cmul (op_tr A) (op_tr B).
Proof.
  rewrite !is_matrix_wfm. intros HA HB. eexists. split; [reflexivity|]. exact (mtrace_mkron HA HB).
Qed.
Lemma trace_dag n A : is_matrix n n A -> op_tr (op_dag A) = cconj (op_tr A).
Proof.
  rewrite is_matrix_wfm. intros HA. rewrite (op_dag_mdag HA). exact (mtrace_mdag HA).
Qed.

(** C05 *)
Lemma get_reshape {T} (d : T) (a : arr T) sh ix : getn d (reshape sh a) ix = nth (ravel sh ix) (data a) d.
Proof. reflexivity. Qed.

Lemma wfm_reshape m n p q A : wfm m n A -> m * n = p * q -> wfm p q (reshape [p; q] A).
Proof. intros [H1 H2] E. split; simpl in *; auto. rewrite H2. lia. Qed.

Lemma mg_reshape_flat m n p q A i j i' j' : wfm m n A -> i * n + j = i' * q + j' ->
  mg (reshape [p; q] A : op F) i' j' = mg A i j.
Proof.
  intros [H1 H2] E. unfold mg, get2. unfold getn. rewrite H1. simpl.
  f_equal. lia.
Qed.

Definition mvec d A : op F := reshape [d * d; 1] (mtr (S:=S) A).

Lemma op_vec_ok d A : wfm d d A -> op_vec A = Ok (mvec d A).
Proof. intros H. unfold op_vec. rewrite (wfm_nr H), (wfm_nc H), Nat.eqb_refl. reflexivity. Qed.
Lemma wfm_mvec d A : wfm d d A -> wfm (d * d) 1 (mvec d A).
Proof. intros. unfold mvec. eapply wfm_reshape. wf_solve. lia. Qed.
Lemma mg_mvec d A i j : wfm d d A -> i < d -> j < d -> mg (mvec d A) (j * d + i) 0 = mg A i j.
Proof.
  intros H Hi Hj. unfold mvec. rewrite (@mg_reshape_flat d d _ 1 _ j i); [|wf_solve|lia]. now mgsimp.
Qed.
Lemma mvec_inj d A B : wfm d d A -> wfm d d B -> mvec d A = mvec d B -> A = B.
Proof.
  intros HA HB H. apply (@mat_ext S d d); auto. intros i j Hi Hj.
  rewrite <- (mg_mvec HA Hi Hj), <- (mg_mvec HB Hi Hj). now rewrite H.
Qed.

Lemma unvec_vec d A : is_matrix d d A ->
  exists v, op_vec A = Ok v /\ is_matrix (d * d) 1 v /\ op_unvec v = Ok A.
Proof.
  rewrite is_matrix_wfm. intros H. exists (mvec d A). rewrite (op_vec_ok H).
  pose proof (wfm_mvec H) as Hv. split; [reflexivity|]. split. now apply is_matrix_wfm.
  unfold op_unvec. rewrite (wfm_nr Hv), (wfm_nc Hv). simpl Nat.eqb. cbv iota.
  rewrite Nat.mul_1_r. unfold isqrt. rewrite Nat.sqrt_square, Nat.eqb_refl. f_equal.
  apply (@mat_ext S d d).
  - apply wfm_mtr. eapply wfm_reshape; eauto. lia.
  - auto.
  - intros i j Hi Hj. erewrite mg_mtr; [|eapply wfm_reshape; [exact Hv|lia]|auto|auto].
    rewrite (@mg_reshape_flat (d*d) 1 d d (mvec d A) (j * d + i) 0); [|auto|lia].
    now apply mg_mvec.
Qed.
Lemma vec_entries d A : is_matrix d d A ->
  exists v, op_vec A = Ok v /\ is_matrix (d * d) 1 v /\
    forall i j, i < d -> j < d -> v.[j * d + i, 0] = A.[i,j].
Proof.
  rewrite is_matrix_wfm. intros H. exists (mvec d A). split. now apply op_vec_ok. split.
  apply is_matrix_wfm. now apply wfm_mvec. intros. now apply mg_mvec.
Qed.
Lemma unvec_raises m n (v : op F) : is_matrix m n v -> n <> 1 \/ (forall d, d * d <> m) -> op_unvec v = Err ValueError.
Proof.
  rewrite is_matrix_wfm. intros H Hn. unfold op_unvec. rewrite (wfm_nr H), (wfm_nc H).
  destruct (Nat.eqb_spec n 1) as [E|E]; [|reflexivity]. subst n. destruct Hn as [Hn|Hn]; [congruence|].
  rewrite Nat.mul_1_r. destruct (Nat.eqb_spec (isqrt m * isqrt m) m) as [E|E]; [exfalso; now apply (Hn _ E)|reflexivity].
Qed.
Lemma vec_not_square m n A : is_matrix m n A -> m <> n -> op_vec A = Err ValueError.
Proof.
  rewrite is_matrix_wfm. intros H Hn. unfold op_vec. rewrite (wfm_nr H), (wfm_nc H).
  apply Nat.eqb_neq in Hn. now rewrite Hn.
Qed.

(** vec(A X B) = (B^T kron A) vec(X) *)
Lemma mvec_sandwich d A (X : op F) B : wfm d d A -> wfm d d X -> wfm d d B ->
  mvec d (mmul (S:=S) (mmul (S:=S) A X) B) = mmul (S:=S) (mkron (S:=S) (mtr B) A) (mvec d X).
Proof.
  intros HA HX HB. apply (@mat_ext S (d * d) 1).
  - apply wfm_mvec. wf_solve.
  - eapply wfm_mmul; [wf_solve|now apply wfm_mvec].
  - intros r z Hr Hz. destruct (divmod_lt _ _ Hr) as (R1 & R2 & R3).
    set (j := r / d) in *. set (i := r mod d) in *. rewrite R3. replace z with 0 by lia.
    rewrite mg_mvec; [|wf_solve|auto|auto].
    rewrite (@mg_mmul S (d*d) (d*d) 1 (mkron (mtr B) A) (mvec d X));
      [|wf_solve|now apply wfm_mvec|now apply join_lt|lia].
    rewrite sumn_mul_split. mgsimp. apply sumn_ext. intros b Hb. mgsimp.
    rewrite <- sumn_mul_r. apply sumn_ext. intros a Ha.
    erewrite (@mg_mkron' S d d d d) by (first [wf_solve|assumption]).
    rewrite mg_mvec by auto. mgsimp. tocplx. ring.
Qed.

Lemma super_action d (U R : op F) : is_matrix d d U -> is_matrix d d R ->
  exists UR URU v w,
    op_mul U (ODense R) = Ok UR /\ op_mul UR (ODense (op_dag U)) = Ok URU /\
    op_vec R = Ok v /\ op_vec URU = Ok w /\ op_mul (op_to_super U) (ODense v) = Ok w.
Proof.
  rewrite !is_matrix_wfm. intros HU HR.
  exists (mmul (S:=S) U R), (mmul (S:=S) (mmul (S:=S) U R) (op_dag U)), (mvec d R),
    (mvec d (mmul (S:=S) (mmul (S:=S) U R) (op_dag U))).
  assert (HD : wfm d d (op_dag U)) by (rewrite (op_dag_mdag HU); wf_solve).
  repeat split.
  - eapply op_mul_dense; eauto.
  - eapply op_mul_dense; wf_solve.
  - now apply op_vec_ok.
  - apply op_vec_ok. wf_solve.
  - rewrite (@op_mul_dense (d*d) (d*d) 1).
    + f_equal. rewrite (mvec_sandwich HU HR HD). unfold op_to_super, op_conj, op_dag, op_copy.
      rewrite (@mtr_mtr S d d) by wf_solve. reflexivity.
    + unfold op_to_super, op_conj, op_copy. wf_solve.
    + now apply wfm_mvec.
Qed.
Lemma super_compose d (U V : op F) : is_matrix d d U -> is_matrix d d V ->
  exists UV SUV, op_mul U (ODense V) = Ok UV /\
    op_mul (op_to_super U) (ODense (op_to_super V)) = Ok SUV /\ SUV = op_to_super UV.
Proof.
  rewrite !is_matrix_wfm. intros HU HV. exists (mmul (S:=S) U V), (op_to_super (mmul (S:=S) U V)).
  split; [|split]; auto.
  - eapply op_mul_dense; eauto.
  - unfold op_to_super, op_conj, op_copy. rewrite (@op_mul_dense (d*d) (d*d) (d*d)) by wf_solve.
    f_equal. rewrite (mconj_mmul HU HV). rewrite (@mkron_mmul S d d d d d d) by wf_solve. reflexivity.
Qed.

(** C11 *)
Lemma forallb_lt n l : (forall i, In i l -> i < n) -> forallb (fun i => Nat.ltb i n) l = true.
Proof. intros H. apply forallb_forall. intros x Hx. apply Nat.ltb_lt. auto. Qed.

Lemma truncate_square la n A ix : is_matrix n n A -> (forall i, In i ix -> i < n) ->
  exists T, op_truncate la A (Some ix) false = Ok T /\ is_matrix (length ix) (length ix) T /\
  forall a b, a < length ix -> b < length ix -> T.[a,b] = A.[nth a ix 0, nth b ix 0].
Proof.
  rewrite is_matrix_wfm. intros HA Hix. unfold op_truncate, np_ix2.
  rewrite (wfm_nr HA), (wfm_nc HA), Nat.eqb_refl, !(forallb_lt _ Hix). simpl.
  eexists; split; [reflexivity|]. split. apply is_matrix_wfm; wf_solve. intros. now mgsimp.
Qed.
Lemma truncate_out_of_range la n A ix i : is_matrix n n A -> In i ix -> n <= i ->
  op_truncate la A (Some ix) false = Err IndexError.
Proof.
  rewrite is_matrix_wfm. intros HA Hi Hn. unfold op_truncate, np_ix2.
  rewrite (wfm_nr HA), (wfm_nc HA), Nat.eqb_refl.
  assert (E : forallb (fun i => Nat.ltb i n) ix = false).
  { apply not_true_is_false. intros H. rewrite forallb_forall in H. specialize (H _ Hi).
    apply Nat.ltb_lt in H. lia. }
  rewrite E. reflexivity.
Qed.
Lemma truncate_all la n A : is_matrix n n A -> op_truncate la A (Some (seq 0 n)) false = Ok A.
Proof.
  intros HA. destruct (@truncate_square la n A (seq 0 n) HA) as (T & -> & H1 & H2).
  - intros i Hi. apply in_seq in Hi. lia.
  - rewrite seq_length in *. f_equal. apply is_matrix_wfm in H1, HA. apply (@mat_ext S n n); auto.
    intros i j Hi Hj. rewrite H2 by auto. now rewrite !seq_nth by auto.
Qed.
Lemma truncate_compose la n A ix jx : is_matrix n n A -> (forall i, In i ix -> i < n) ->
  (forall j, In j jx -> j < length ix) ->
  exists T, op_truncate la A (Some ix) false = Ok T /\
    op_truncate la T (Some jx) false = op_truncate la A (Some (map (fun j => nth j ix 0) jx)) false.
Proof.
  intros HA Hi Hj. destruct (@truncate_square la n A ix HA Hi) as (T & -> & H1 & H2).
  exists T. split; [reflexivity|].
  destruct (@truncate_square la _ T jx H1 Hj) as (T2 & -> & H3 & H4).
  destruct (@truncate_square la n A (map (fun j => nth j ix 0) jx) HA) as (T3 & -> & H5 & H6).
  { intros k Hk. apply in_map_iff in Hk. destruct Hk as (j & <- & Hk). apply Hi. apply nth_In. auto. }
  rewrite map_length in *. f_equal. apply is_matrix_wfm in H3, H5. apply (@mat_ext S (length jx) (length jx)); auto.
  assert (Hn : forall k, k < length jx -> nth k (map (fun j => nth j ix 0) jx) 0 = nth (nth k jx 0) ix 0).
  { intros k Hk. rewrite (nth_indep _ 0 (nth 0 ix 0)) by (now rewrite map_length).
    now rewrite (map_nth (fun j => nth j ix 0)). }
  intros a b Ha Hb. rewrite H4, H6 by auto. rewrite H2 by (apply Hj; apply nth_In; auto).
  rewrite !Hn by auto. reflexivity.
Qed.
Lemma truncate_dag la n A ix : is_matrix n n A -> (forall i, In i ix -> i < n) ->
  exists T, op_truncate la A (Some ix) false = Ok T /\
    op_truncate la (op_dag A) (Some ix) false = Ok (op_dag T).
Proof.
  intros HA Hi. destruct (@truncate_square la n A ix HA Hi) as (T & -> & H1 & H2).
  exists T. split; [reflexivity|].
  destruct (dag_entries HA) as [D1 D2]. destruct (dag_entries H1) as [E1 E2].
  destruct (@truncate_square la n _ ix D1 Hi) as (T2 & -> & H3 & H4).
  f_equal. apply is_matrix_wfm in H3, E1. apply (@mat_ext S (length ix) (length ix)); auto.
  intros a b Ha Hb. rewrite H4, E2, H2, D2 by (auto; apply Hi; apply nth_In; auto). reflexivity.
Qed.
Lemma truncate_ket la n (v : op F) ix tu : is_matrix n 1 v -> n <> 1 -> (forall i, In i ix -> i < n) ->
  exists T, op_truncate la v (Some ix) tu = Ok T /\ is_matrix (length ix) 1 T /\
  forall a, a < length ix -> T.[a,0] = v.[nth a ix 0, 0].
Proof.
  rewrite is_matrix_wfm. intros HA Hn Hix. unfold op_truncate, np_ix1.
  rewrite (wfm_nr HA), (wfm_nc HA). apply Nat.eqb_neq in Hn. rewrite Hn, !(forallb_lt _ Hix).
  eexists; split; [reflexivity|]. split. apply is_matrix_wfm; wf_solve. intros. now mgsimp.
Qed.
Lemma truncate_closest la n A ix : is_matrix n n A -> (forall i, In i ix -> i < n) ->
  exists T, op_truncate la A (Some ix) false = Ok T /\
    op_truncate la A (Some ix) true = Ok (op_closest_unitary la T).
Proof.
  intros HA Hi. destruct (truncate_square la ix HA Hi) as [T [HT _]]. exists T. split; auto.
  revert HT. unfold op_truncate. destruct (Nat.eqb (nr A) (nc A)) eqn:E.
  - destruct (np_ix2 A ix ix); cbn [bind]; congruence.
  - apply is_matrix_wfm in HA. rewrite (wfm_nr HA), (wfm_nc HA), Nat.eqb_refl in E. discriminate.
Qed.

Lemma truncate_bra_rescale la n (v : op F) ix : is_matrix 1 n v -> n <> 1 ->
  exists e, op_truncate la v (Some ix) true = Err e.
Proof.
  rewrite is_matrix_wfm. intros HA Hn. unfold op_truncate. rewrite (wfm_nr HA), (wfm_nc HA). destruct (Nat.eqb_spec 1 n); [congruence|].
  cbn [Nat.eqb]. destruct (np_ix2 v [0] ix); cbn [bind]; eauto.
Qed.

Lemma truncate_none la A tu : op_truncate la A None tu = Ok A.
Proof. reflexivity. Qed.
End P.
