(** Closest unitary (M_Matrix.v: op_closest_unitary) *)
Require Import List Arith Lia Ring Field Bool.
From Verif Require Import LibBase LibRing LibArr LibCplx LibMat LibNorm M_Matrix S_Linear P_Linear P_Matrix P_Spectral.
Import ListNotations.
Set Implicit Arguments.

Section P.
Variable F : OField.
Add Field Ffield : (k_field F).
Add Field Cfield : (c_field F).
Notation S := (CStar F).
Notation K := (KStar F).
Notation C := (cplx F).
Implicit Types A B D P V U W Q : op F.

Definition sdiag n (s : list F) : op F := mdiag (S:=S) n (fun k => cofk (nth k s k0)).

Lemma svd_m n A U s W : is_svd n A U s W ->
  wfm n n A /\ munitary n U /\ munitary n W /\ A = mmul (S:=S) (mmul (S:=S) U (sdiag n s)) W /\
  (forall k, k < n -> kle k0 (nth k s k0)).
Proof.
  intros (H1 & H2 & H3 & H4 & H5 & H6). apply is_matrix_wfm in H1. apply is_unitary_m in H2, H3.
  repeat split; auto; try apply H2; try apply H3; try apply H1.
  unfold sdiag. apply (@mat_ext S n n); auto. apply wfm_mmul with n; wf_solve. intros i j Hi Hj.
  rewrite (@mg_mmul S n n n) by (wf_solve || auto). rewrite H6 by auto. apply sumn_ext. intros k Hk.
  rewrite mg_mul_diag by (wf_solve || auto). reflexivity.
Qed.

Lemma closest_is_unitary la n A U s W : la_svd la A = (U, s, W) -> is_svd n A U s W ->
  is_unitary n (op_closest_unitary la A).
Proof.
  intros E H. destruct (svd_m H) as (HA & HU & HW & _). unfold op_closest_unitary. rewrite E.
  apply is_unitary_m. now apply munitary_mul.
Qed.

Lemma svd_unitary_sv n A U s W : is_svd n A U s W -> is_unitary n A -> forall k, k < n -> nth k s k0 = k1.
Proof.
  intros H HA. destruct (svd_m H) as (HwA & HU & HW & E & Hs). apply is_unitary_m in HA.
  destruct HA as (_ & _ & HA2). rewrite E in HA2.
  assert (Ws : wfm n n (sdiag n s)) by (unfold sdiag; wf_solve).
  assert (WU := munitary_wf HU). assert (WW := munitary_wf HW).
  assert (Sd : mdag (S:=S) (sdiag n s) = sdiag n s).
  { apply (@mat_ext S n n); [wf_solve|auto|]. intros i j Hi Hj. mgsimp. unfold sdiag. mgsimp. unfold kd.
    rewrite (Nat.eqb_sym j i). destruct (Nat.eqb_spec i j); subst; tocplx; rewrite cconj_mul, cofk_conj.
    unfold cconj, c1, cmul. simpl. f_equal; ring. unfold cconj, c0, cmul. simpl. f_equal; ring. }
  rewrite !(@mdag_mmul S n n n) in HA2 by wf_solve. rewrite Sd in HA2.
  assert (E2 : conjd n U (fun k => cmul (cofk (nth k s k0)) (cofk (nth k s k0))) = mid (S:=S) n).
  { rewrite <- HA2. unfold conjd. rewrite <- diag_mul. fold (sdiag n s).
    rewrite !(@mmul_assoc S n n n n) by wf_solve.
    rewrite <- (@mmul_assoc S n n n n _ W) by wf_solve. destruct HW as (_ & _ & ->).
    now rewrite (@mmul_1_r S n n) by wf_solve. }
  rewrite <- (conjd_one HU) in E2. intros k Hk. pose proof (conjd_inj HU E2 Hk) as Q. cbn beta in Q.
  rewrite <- cofk_mul in Q. apply cofk_inj in Q.
  set (x := nth k s k0) in *. specialize (Hs k Hk). fold x in Hs.
  assert (Z : kmul (ksub x k1) (kadd x k1) = k0).
  { transitivity (ksub (kmul x x) k1); [ring|rewrite Q; ring]. }
  apply kmul_eq0 in Z. destruct Z as [Z|Z].
  - transitivity (kadd (ksub x k1) k1); [ring|rewrite Z; ring].
  - destruct (ksum0 Hs (k01 F) Z) as [_ Z2]. exfalso. now apply (@k1_neq_0 F).
Qed.

Lemma closest_fixes_unitary la n A U s W : la_svd la A = (U, s, W) -> is_svd n A U s W ->
  is_unitary n A -> op_closest_unitary la A = A.
Proof.
  intros E H HA. pose proof (svd_unitary_sv H HA) as Hs. destruct (svd_m H) as (HwA & HU & HW & E2 & _).
  unfold op_closest_unitary. rewrite E. rewrite E2 at 1. f_equal.
  pose proof (munitary_wf HU). apply (@mat_ext S n n); auto. unfold sdiag; wf_solve.
  intros i j Hi Hj. unfold sdiag. rewrite mg_mul_diag by auto. rewrite Hs by auto.
  change (cofk (F:=F) k1) with (@c1 F). cring.
Qed.

Lemma frob_expand n A Q : wfm n n A -> wfm n n Q -> munitary n Q ->
  frob_dist2 n A Q = ksub (kadd (hsnorm2 n n A) (kofnat n)) (kmul (kofnat 2) (cre (hs n n A Q))).
Proof.
  intros HA HQ UQ. rewrite <- (hsnorm2_unitary UQ). unfold frob_dist2, hsnorm2, hs.
  rewrite cre_sumn, ksumn_mul_l, ksumn_add, ksumn_sub. apply sumn_ext. intros i Hi.
  rewrite cre_sumn, ksumn_mul_l, ksumn_add, ksumn_sub. apply sumn_ext. intros j Hj.
  destruct (mg A i j), (mg Q i j). unfold cnorm2, csub, cre, cmul, cconj. tok. simpl. ring.
Qed.

Lemma closest_minimal la n A U s W Q : la_svd la A = (U, s, W) -> is_svd n A U s W ->
  is_unitary n Q -> kle (frob_dist2 n A (op_closest_unitary la A)) (frob_dist2 n A Q).
Proof.
  intros E H HQ. destruct (svd_m H) as (HwA & HU & HW & E2 & Hs). unfold op_closest_unitary. rewrite E.
  apply is_unitary_m in HQ. pose proof (munitary_mul HU HW) as HUW.
  assert (WU := munitary_wf HU). assert (WW := munitary_wf HW). assert (WQ := munitary_wf HQ).
  assert (Ws : wfm n n (sdiag n s)) by (unfold sdiag; wf_solve).
  (* the overlap of A with a unitary Q is the sum of singular values times diagonal entries of a unitary *)
  assert (ov : forall Q, munitary n Q -> cre (hs n n A Q) =
     sumn (S:=K) n (fun k => kmul (nth k s k0) (cre (mg (mmul (S:=S) (mmul (S:=S) (mdag (S:=S) U) Q) (mdag (S:=S) W)) k k)))).
  { intros P HP. assert (WP := munitary_wf HP). rewrite <- (hs_trace HwA WP).
    assert (Sd : mdag (S:=S) (sdiag n s) = sdiag n s).
    { apply (@mat_ext S n n); [wf_solve|auto|]. intros i j Hi Hj. mgsimp. unfold sdiag. mgsimp. unfold kd.
      rewrite (Nat.eqb_sym j i). destruct (Nat.eqb_spec i j); subst; tocplx; rewrite cconj_mul, cofk_conj.
      unfold cconj, c1, cmul. simpl. f_equal; ring. unfold cconj, c0, cmul. simpl. f_equal; ring. }
    rewrite E2. rewrite !(@mdag_mmul S n n n) by wf_solve. rewrite Sd.
    rewrite <- (@mmul_assoc S n n n n) by wf_solve. rewrite (@mtrace_comm S n n) by wf_solve.
    rewrite <- !(@mmul_assoc S n n n n) by wf_solve.
    rewrite (@mtrace_sq S n) by wf_solve. rewrite cre_sumn. apply sumn_ext. intros k Hk.
    unfold sdiag. rewrite mg_diag_mul by (wf_solve || auto).
    rewrite (@mmul_assoc S n n n n) by wf_solve.
    match goal with |- cre (cmul _ ?z) = _ => generalize z end. intros [x y]. unfold cre, cmul, cofk. simpl. ring. }
  rewrite (frob_expand HwA (munitary_wf HUW) HUW), (frob_expand HwA WQ HQ).
  apply kle_of_sub.
  match goal with |- kle k0 (ksub (ksub ?a (kmul ?t ?x)) (ksub ?a (kmul ?t ?y))) =>
    replace (ksub (ksub a (kmul t x)) (ksub a (kmul t y))) with (kmul t (ksub y x)) by ring end.
  apply kmul_nonneg; [apply kofnat_nonneg|]. apply ksub_nonneg.
  rewrite (ov _ HQ), (ov _ HUW). apply (@ksumn_le F). intros k Hk.
  apply kle_mul_l; [now apply Hs|].
  replace (mmul (S:=S) (mmul (S:=S) (mdag (S:=S) U) (mmul (S:=S) U W)) (mdag (S:=S) W)) with (mid (S:=S) n).
  - rewrite mg_mid by auto. unfold kd. rewrite Nat.eqb_refl. apply cre_le1.
    apply unitary_entry with n; auto. apply munitary_mul; [apply munitary_mul|]; auto using munitary_dag.
  - rewrite (@mmul_assoc S n n n n) by wf_solve. destruct HU as (_ & -> & _).
    rewrite (@mmul_1_l S n n) by wf_solve. destruct HW as (_ & _ & ->). reflexivity.
Qed.
End P.
