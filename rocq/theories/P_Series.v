(** Truncated series for the exponential and its derivative (M_Matrix.v, exp_* and dexp_* ) *)
Require Import List Arith Lia Ring Field Bool.
From Verif Require Import LibBase LibRing LibArr LibCplx LibMat M_Matrix S_Linear P_Linear P_Matrix.
Import ListNotations.
Set Implicit Arguments.

Section P.
Variable F : OField.
Add Field Ffield : (k_field F).
Add Field Cfield : (c_field F).
Notation S := (CStar F).
Notation C := (cplx F).
Implicit Types A B D P : op F.

Definition exp_trunc (m : emethod) A (tau : C) : op F :=
  match m with FirstOrder => exp_first A tau | SecondOrder => exp_second A tau | _ => exp_third A tau end.
Definition dexp_trunc (m : emethod) A D (tau : C) : op F :=
  match m with FirstOrder => dexp_first D tau | SecondOrder => dexp_second A D tau | _ => dexp_third A D tau end.
Definition is_series (m : emethod) := m = FirstOrder \/ m = SecondOrder \/ m = ThirdOrder.

Lemma exp_series_ok la n A tau m skew : is_series m -> wfm n n A ->
  op_exp la A tau m skew = Ok (exp_trunc m A tau).
Proof.
  intros Hm HA. unfold op_exp. rewrite (wfm_nr HA), (wfm_nc HA), Nat.eqb_refl. simpl.
  destruct Hm as [->|[->| ->]]; reflexivity.
Qed.
Lemma dexp_series_ok la n A D tau m skew e : is_series m -> wfm n n A -> wfm n n D ->
  op_dexp_grad la A D tau m skew e = Ok (dexp_trunc m A D tau).
Proof.
  intros Hm HA HD. unfold op_dexp_grad, op_dexp, op_exp.
  rewrite (wfm_nr HA), (wfm_nc HA), (wfm_nr HD), (wfm_nc HD), Nat.eqb_refl. simpl.
  destruct Hm as [->|[->| ->]]; reflexivity.
Qed.
Lemma wfm_exp_trunc n A tau m : is_series m -> wfm n n A -> wfm n n (exp_trunc m A tau).
Proof.
  intros Hm HA. destruct Hm as [->|[->| ->]]; simpl; unfold exp_third, exp_second, exp_first;
    rewrite (wfm_nr HA); wf_solve.
Qed.
Lemma wfm_dexp_trunc n A D tau m : is_series m -> wfm n n A -> wfm n n D -> wfm n n (dexp_trunc m A D tau).
Proof.
  intros Hm HA HD. destruct Hm as [->|[->| ->]]; simpl; unfold dexp_third, dexp_second, dexp_first, anticomm; wf_solve.
Qed.

Definition rem0 (m : emethod) n A D (tau : C) : op F :=
  match m with
  | FirstOrder => mzero (S:=S) n n
  | SecondOrder => mscale (S:=S) (cmul (cmul tau tau) (chalf F)) (mmul (S:=S) D D)
  | _ => madd (S:=S) (mscale (S:=S) (cmul (cmul tau tau) (chalf F)) (mmul (S:=S) D D))
           (mscale (S:=S) (cmul (cmul (cmul tau tau) tau) (csixth F))
             (madd (S:=S) (madd (S:=S) (mmul (S:=S) (mmul (S:=S) A D) D) (mmul (S:=S) (mmul (S:=S) D A) D))
                (mmul (S:=S) (mmul (S:=S) D D) A)))
  end.
Definition rem1 (m : emethod) n D (tau : C) : op F :=
  match m with
  | FirstOrder | SecondOrder => mzero (S:=S) n n
  | _ => mscale (S:=S) (cmul (cmul (cmul tau tau) tau) (csixth F)) (mmul (S:=S) (mmul (S:=S) D D) D)
  end.

Lemma k3_neq0 : kofnat 3 <> (k0 : F).
Proof. now apply kofnat_neq0. Qed.
Lemma k6_neq0 : kofnat 6 <> (k0 : F).
Proof. now apply kofnat_neq0. Qed.
Lemma half_third : cmul (chalf F) (cthird F) = csixth F.
Proof.
  unfold chalf, cthird, csixth. rewrite <- cofk_mul. f_equal.
  pose proof k3_neq0. pose proof k6_neq0. pose proof (@kofnat_neq0 F 2 ltac:(discriminate)).
  replace (kofnat 6 : F) with (kmul (kofnat 2) (kofnat 3) : F) in * by (simpl; ring).
  field. auto.
Qed.

Lemma exp_trunc_expand n A D tau m e : is_series m -> wfm n n A -> wfm n n D ->
  exp_trunc m (madd (S:=S) A (mscale (S:=S) e D)) tau =
  madd (S:=S) (madd (S:=S) (exp_trunc m A tau) (mscale (S:=S) e (dexp_trunc m A D tau)))
    (mscale (S:=S) (cmul e e) (madd (S:=S) (rem0 m n A D tau) (mscale (S:=S) e (rem1 m n D tau)))).
Proof.
  intros Hm HA HD.
  assert (HAe : wfm n n (madd (S:=S) A (mscale (S:=S) e D))) by wf_solve.
  destruct Hm as [->|[->| ->]]; simpl.
  - unfold exp_first, dexp_first. rewrite (wfm_nr HAe), (wfm_nr HA).
    apply (@mat_ext S n n); [wf_solve|wf_solve|]. intros i j Hi Hj. mglin. tocplx. ring.
  - unfold exp_second, exp_first, dexp_second, dexp_first, anticomm. rewrite (wfm_nr HAe), (wfm_nr HA).
    mdistr n.
    apply (@mat_ext S n n); [wf_solve|wf_solve|]. intros i j Hi Hj. mglin. tocplx. ring.
  - unfold exp_third, dexp_third, dexp_first, anticomm. rewrite (wfm_nr HAe), (wfm_nr HA).
    mdistr n.
    apply (@mat_ext S n n); [wf_solve|wf_solve|]. intros i j Hi Hj. mglin. tocplx. rewrite <- half_third.
    assert (H2 : cmul (chalf F) (cofk (kofnat 2)) = c1).
    { unfold chalf. rewrite <- cofk_mul. change c1 with (cofk (F:=F) k1). f_equal. field. now apply kofnat_neq0. }
    ring.
Qed.
Lemma exp_trunc_entries n A tau m P2 P3 : is_series m -> wfm n n A ->
  is_product n n n A A P2 -> is_product n n n P2 A P3 ->
  forall i j, i < n -> j < n ->
  (exp_trunc m A tau).[i,j] =
  match m with
  | FirstOrder => cadd (delta i j) (cmul tau A.[i,j])
  | SecondOrder => cadd (cadd (delta i j) (cmul tau A.[i,j])) (cmul (cdiv (cmul tau tau) (cofk (kofnat 2))) P2.[i,j])
  | _ => cadd (cadd (cadd (delta i j) (cmul tau A.[i,j]))
           (cmul (cdiv (cmul tau tau) (cofk (kofnat 2))) P2.[i,j]))
           (cmul (cdiv (cmul (cmul tau tau) tau) (cofk (kofnat 6))) P3.[i,j])
  end.
Proof.
  intros Hm HA H2 H3 i j Hi Hj. apply (is_product_eq HA HA) in H2. subst P2.
  apply (@is_product_eq S n n n) in H3; [|wf_solve|wf_solve]. subst P3.
  assert (E2 : chalf F = cdiv c1 (cofk (kofnat 2))).
  { unfold chalf. apply cofk_div. now apply kofnat_neq0. }
  assert (E6 : csixth F = cdiv c1 (cofk (kofnat 6))).
  { unfold csixth. apply cofk_div. now apply kofnat_neq0. }
  assert (N2 : cofk (kofnat 2) <> (c0 : C)).
  { intros H. apply cofk_inj in H. revert H. now apply kofnat_neq0. }
  assert (N6 : cofk (kofnat 6) <> (c0 : C)).
  { intros H. apply cofk_inj in H. revert H. now apply kofnat_neq0. }
  rewrite delta_kd.
  destruct Hm as [->|[->| ->]]; cbn [exp_trunc].
  - unfold exp_first. rewrite (wfm_nr HA). mglin. reflexivity.
  - unfold exp_second, exp_first. rewrite (wfm_nr HA). mglin. tocplx. rewrite E2. field. auto.
  - unfold exp_third. rewrite (wfm_nr HA). mdistr n. mglin. tocplx.
    assert (E3 : cthird F = cdiv c1 (cofk (kofnat 3))).
    { unfold cthird. apply cofk_div. now apply kofnat_neq0. }
    assert (N3 : cofk (kofnat 3) <> (c0 : C)).
    { intros H. apply cofk_inj in H. revert H. now apply kofnat_neq0. }
    assert (M : cofk (kofnat 6) = cmul (cofk (kofnat 2)) (cofk (kofnat 3)) :> C).
    { rewrite <- cofk_mul. f_equal. simpl. ring. }
    rewrite E2, E3, M. field. auto.
Qed.

Lemma exp_series_value la n A tau m skew P2 P3 : is_series m -> is_matrix n n A ->
  is_product n n n A A P2 -> is_product n n n P2 A P3 ->
  exists X, op_exp la A tau m skew = Ok X /\ is_matrix n n X /\ forall i j, i < n -> j < n ->
  X.[i,j] =
  match m with
  | FirstOrder => cadd (delta i j) (cmul tau A.[i,j])
  | SecondOrder => cadd (cadd (delta i j) (cmul tau A.[i,j])) (cmul (cdiv (cmul tau tau) (cofk (kofnat 2))) P2.[i,j])
  | _ => cadd (cadd (cadd (delta i j) (cmul tau A.[i,j]))
           (cmul (cdiv (cmul tau tau) (cofk (kofnat 2))) P2.[i,j]))
           (cmul (cdiv (cmul (cmul tau tau) tau) (cofk (kofnat 6))) P3.[i,j])
  end.
Proof.
  intros Hm HA H2 H3. apply is_matrix_wfm in HA. exists (exp_trunc m A tau). split; [eapply exp_series_ok; eauto|].
  split; [apply is_matrix_wfm; exact (wfm_exp_trunc tau Hm HA)|]. apply exp_trunc_entries; auto.
Qed.

Lemma series_derivative la n A D tau m skew e : is_series m -> is_matrix n n A -> is_matrix n n D ->
  exists G X R0 R1,
    op_dexp_grad la A D tau m skew e = Ok G /\ op_exp la A tau m skew = Ok X /\
    is_matrix n n G /\ is_matrix n n X /\
    forall eps : C, exists De Ae Xe,
      op_mul D (OScal eps) = Ok De /\ op_add A (ODense De) = Ok Ae /\
      op_exp la Ae tau m skew = Ok Xe /\ is_matrix n n Xe /\
      forall i j, i < n -> j < n ->
        Xe.[i,j] = cadd (cadd X.[i,j] (cmul eps G.[i,j]))
                     (cmul (cmul eps eps) (cadd (R0 i j) (cmul eps (R1 i j)))).
Proof.
  rewrite !is_matrix_wfm. intros Hm HA HD.
  exists (dexp_trunc m A D tau), (exp_trunc m A tau), (mg (rem0 m n A D tau)), (mg (rem1 m n D tau)).
  split; [now apply dexp_series_ok with n|]. split; [now apply exp_series_ok with n|].
  pose proof (@wfm_dexp_trunc n A D tau m Hm HA HD) as HG. pose proof (wfm_exp_trunc tau Hm HA) as HX.
  split; [now apply is_matrix_wfm|]. split; [now apply is_matrix_wfm|]. intros eps.
  exists (mscale (S:=S) eps D), (madd (S:=S) A (mscale (S:=S) eps D)),
     (exp_trunc m (madd (S:=S) A (mscale (S:=S) eps D)) tau).
  split; [reflexivity|]. split; [eapply op_add_dense; wf_solve|].
  split; [apply exp_series_ok with n; [auto|wf_solve]|].
  split; [apply is_matrix_wfm; apply wfm_exp_trunc; [auto|wf_solve]|].
  intros i j Hi Hj. rewrite (exp_trunc_expand tau eps Hm HA HD). 
  assert (H0 : wfm n n (rem0 m n A D tau)) by (destruct Hm as [->|[->| ->]]; simpl; wf_solve).
  assert (H1 : wfm n n (rem1 m n D tau)) by (destruct Hm as [->|[->| ->]]; simpl; wf_solve).
  mglin. reflexivity.
Qed.
End P.
