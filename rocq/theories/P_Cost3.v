(** The angle-axis representation of 2 x 2 matrices (C43). *)
Require Import List Arith Lia Ring Field Bool ZArith QArith Qcanon.
From Verif Require Import LibBase LibRing LibArr LibCplx LibMat LibNorm LibEx M_Matrix S_Linear P_Linear P_Matrix M_Solver M_Cost S_Cost P_Cost.
Import ListNotations.
Open Scope k_scope.
Set Implicit Arguments.

Section Angle.
Variable F : OField.
Notation S := (CStar F).
Notation C := (cplx F).
Add Field Kfield_c3 : (k_field F).
Add Field Cfield_c3 : (c_field F).
Variable rf : RealFun F.

Lemma close_off atol z b : close rf atol z b = false <-> off_by (atol + rf_rtol rf * b) z b.
Proof. unfold close, off_by. destruct (kleb _ _) eqn:E; split; intros H; try discriminate; auto. now destruct H. intros H'. unfold kle in H'. congruence. Qed.
Lemma ksq_nonneg (x : F) : 0 <= x * x.
Proof. pose proof (cnorm2_nonneg (x, 0 : F)) as H. unfold cnorm2 in H. cbn in H. now replace (x * x) with (x * x + 0 * 0) by ring. Qed.
Lemma close_refl atol (b : F) : close rf atol (cofk b) b = true.
Proof.
  unfold close. replace (cnorm2 (csub (cofk b) (cofk b))) with (0:F). apply ksq_nonneg.
  unfold csub, cadd, copp, cofk, cnorm2. cbn. ring.
Qed.
Lemma conj_tr (u : op F) : wfm 2 2 u -> op_conj (op_transpose u) = mdag (S:=S) u.
Proof. intros W. unfold op_conj, op_transpose, op_copy. apply (@mat_ext S 2 2); try wf_solve. intros i j Hi Hj. mgsimp; reflexivity. Qed.
Lemma gram_val (u : op F) i j : wfm 2 2 u -> (i < 2)%nat -> (j < 2)%nat -> get_entry (mmul (S:=S) u (op_conj (op_transpose u))) i j = Ok (gram2 u i j).
Proof.
  intros W Hi Hj. rewrite (conj_tr W). rewrite (@get_entry_ok F 2 2) by (auto; wf_solve). f_equal. rewrite (@mg_mmul S 2 2 2) by (auto; wf_solve). cbn [sumn]. rewrite !(@mg_mdag S 2 2) by auto. unfold gram2. tocplx. ring.
Qed.
Lemma angle_detects (u : op F) : is_matrix 2 2 u ->
  (off_by (rf_atol rf + rf_rtol rf) (gram2 u 0 0) 1 \/ off_by (rf_atol rf) (gram2 u 1 0) 0 \/ off_by (rf_atol rf) (gram2 u 0 1) 0) ->
  angle_axis rf u = Err ValueError.
Proof.
  intros W H. rewrite is_matrix_wfm in W. unfold angle_axis. pose proof (conj_tr W) as E.
  assert (W' : wfm (S:=S) 2 2 (op_conj (op_transpose u))) by (rewrite E; wf_solve).
  rewrite (mm_ok W W'). cbn [bind]. rewrite !gram_val by auto. cbn [bind].
  assert (H' : close rf (rf_atol rf) (gram2 u 0 0) 1 = false \/ close rf (rf_atol rf) (gram2 u 1 0) 0 = false \/ close rf (rf_atol rf) (gram2 u 0 1) 0 = false).
  { rewrite !close_off. replace (rf_rtol rf * 1) with (rf_rtol rf) by ring. replace (rf_atol rf + rf_rtol rf * 0) with (rf_atol rf) by ring. exact H. }
  destruct H' as [-> | [-> | ->]]; cbn [andb]; rewrite ?andb_false_r; reflexivity.
Qed.
(** the conditions of the test, exactly *)
Lemma angle_value_error (u : op F) : is_matrix 2 2 u -> (angle_axis rf u = Err ValueError <->
  (off_by (rf_atol rf + rf_rtol rf) (gram2 u 0 0) 1 \/ off_by (rf_atol rf) (gram2 u 1 0) 0 \/ off_by (rf_atol rf) (gram2 u 0 1) 0)).
Proof.
  intros W. split; [|now apply angle_detects]. pose proof W as W0. rewrite is_matrix_wfm in W. unfold angle_axis. pose proof (conj_tr W) as E.
  assert (W' : wfm (S:=S) 2 2 (op_conj (op_transpose u))) by (rewrite E; wf_solve).
  rewrite (mm_ok W W'). cbn [bind]. rewrite !gram_val by auto. cbn [bind].
  destruct (close rf (rf_atol rf) (gram2 u 0 0) 1) eqn:E1.
  2:{ intros _. left. rewrite close_off in E1. now replace (rf_atol rf + rf_rtol rf) with (rf_atol rf + rf_rtol rf * 1) by ring. }
  destruct (close rf (rf_atol rf) (gram2 u 1 0) 0) eqn:E2.
  2:{ intros _. right; left. rewrite close_off in E2. now replace (rf_atol rf) with (rf_atol rf + rf_rtol rf * 0) by ring. }
  destruct (close rf (rf_atol rf) (gram2 u 0 1) 0) eqn:E3.
  2:{ intros _. right; right. rewrite close_off in E3. now replace (rf_atol rf) with (rf_atol rf + rf_rtol rf * 0) by ring. }
  cbn [andb]. rewrite !(@get_entry_ok F 2 2) by auto. cbn [bind]. cbv zeta.
  repeat match goal with |- context [if ?b then _ else _] => destruct b; cbn [bind]; try discriminate end.
Qed.

(** unitary matrices get a result *)
Hypothesis Hs : is_sqrt (rf_sqrt rf).
Lemma two_n0 : two F <> 0.
Proof. pose proof (@kofnat_neq0 F 2 ltac:(lia)) as H. unfold two. intros E. apply H. cbn [kofnat]. etransitivity; [|exact E]. ring. Qed.
Lemma half_norm (z : C) : cnorm2 (cmul (cofk (1 / two F)) z) = cnorm2 z / (two F * two F).
Proof. rewrite cnorm2_mul. pose proof two_n0 as T. unfold cofk, cnorm2. cbn [cre cim fst snd]. field. exact T. Qed.
Lemma cdiv_norm (z w : C) : cnorm2 w <> 0 -> cnorm2 (cdiv z w) = cnorm2 z / cnorm2 w.
Proof.
  intros H. assert (E : cmul (cdiv z w) w = z). { field. intros E0. apply H. rewrite E0. unfold cnorm2. cbn. ring. }
  rewrite <- E at 2. rewrite cnorm2_mul. field. auto.
Qed.
Lemma cofk_norm (x : F) : cnorm2 (cofk x) = x * x.
Proof. unfold cofk, cnorm2. cbn [cre cim fst snd]. ring. Qed.
Lemma sq_zero (x : F) : x * x = 0 -> x = 0.
Proof. intros H. apply kmul_eq0 in H. tauto. Qed.
Lemma close_neq atol (z : C) : close rf atol z 0 = false -> z <> c0.
Proof. intros H E. subst. change (c0 : C) with (cofk 0 : C) in H. rewrite close_refl in H. discriminate. Qed.
Lemma phase_norm (z : C) : z <> c0 -> cnorm2 (cdiv z (cofk (rf_sqrt rf (cnorm2 z)))) = 1.
Proof.
  intros H. pose proof (cnorm2_neq0 H) as N. destruct (Hs (cnorm2_nonneg z)) as [_ E].
  rewrite cdiv_norm; rewrite cofk_norm, E; auto. field. auto.
Qed.
Lemma sqrt_one : rf_sqrt rf 1 = 1.
Proof.
  assert (L : (0:F) <= 1) by (apply klt_le; apply klt_01).
  destruct (Hs L) as [P E]. set (s := rf_sqrt rf 1) in *. assert (Z : (s - 1) * (s + 1) = 0) by (replace ((s-1)*(s+1)) with (s * s - 1) by ring; rewrite E; ring).
  apply kmul_eq0 in Z. destruct Z as [Z|Z]. replace s with (s - 1 + 1) by ring. rewrite Z. ring.
  exfalso. assert (G : (0:F) < s + 1). { replace (s + 1) with (1 + s) by ring. apply klt_add_pos; auto. apply klt_01. } rewrite Z in G. exact (klt_neq G eq_refl).
Qed.
Lemma parallelogram (a b c d : C) : cnorm2 a + cnorm2 b = 1 -> cnorm2 c + cnorm2 d = 1 ->
  cnorm2 (cadd b c) + cnorm2 (csub b c) + cnorm2 (csub a d) = two F * two F - cnorm2 (cadd a d).
Proof.
  intros H1 H2. replace (two F * two F) with (two F * ((cnorm2 a + cnorm2 b) + (cnorm2 c + cnorm2 d))) by (rewrite H1, H2; unfold two; ring).
  destruct a, b, c, d. unfold two, cnorm2, cadd, csub, copp, cre, cim. cbn. ring.
Qed.
Lemma angle_unitary (u : op F) : is_unitary 2 u -> exists beta n1 n2 n3, angle_axis rf u = Ok (beta, [n1; n2; n3]).
Proof.
  intros HU. pose proof (proj1 HU) as W. rewrite is_matrix_wfm in W. apply is_unitary_m in HU.
  pose proof (@unitary_row F 2 u 0 HU ltac:(lia)) as R0. pose proof (@unitary_row F 2 u 1 HU ltac:(lia)) as R1. cbn [sumn] in R0, R1. tok.
  assert (G : forall i j, (i < 2)%nat -> (j < 2)%nat -> gram2 u i j = kd (S:=S) i j).
  { intros i j Hi Hj. destruct HU as (_ & _ & HU). rewrite <- (@mg_mid S 2 i j) by auto. rewrite <- HU. rewrite (@mg_mmul S 2 2 2) by (auto; wf_solve). cbn [sumn]. rewrite !(@mg_mdag S 2 2) by auto. unfold gram2. tocplx. ring. }
  unfold angle_axis. pose proof (conj_tr W) as E. assert (W' : wfm (S:=S) 2 2 (op_conj (op_transpose u))) by (rewrite E; wf_solve).
  rewrite (mm_ok W W'). cbn [bind]. rewrite !gram_val by auto. cbn [bind]. rewrite !G by auto. cbn [kd Nat.eqb].
  change (s1 : S) with (cofk 1 : C). change (s0 : S) with (cofk 0 : C). rewrite !close_refl. cbn [andb]. rewrite !(@get_entry_ok F 2 2) by auto. cbn [bind]. cbv zeta.
  set (a := u.[0,0] : C) in *. set (b := u.[0,1] : C) in *. set (c := u.[1,0] : C) in *. set (d := u.[1,1] : C) in *. clearbody a b c d.
  change (0 + cnorm2 a + cnorm2 b = 1) in R0. change (0 + cnorm2 c + cnorm2 d = 1) in R1.
  assert (R0' : cnorm2 a + cnorm2 b = 1) by (rewrite <- R0; ring). assert (R1' : cnorm2 c + cnorm2 d = 1) by (rewrite <- R1; ring).
  pose proof (parallelogram _ _ _ _ R0' R1') as P. rewrite half_norm. pose proof two_n0 as T2.
  set (rad := 1 - cnorm2 (cadd a d) / (two F * two F)).
  assert (Er : rad = (cnorm2 (cadd b c) + cnorm2 (csub b c) + cnorm2 (csub a d)) / (two F * two F)) by (rewrite P; unfold rad; field; auto).
  assert (Pr : 0 <= rad).
  { rewrite Er. apply kdiv_nonneg. apply kadd_nonneg. apply kadd_nonneg; apply cnorm2_nonneg. apply cnorm2_nonneg. apply ksq_nonneg. intros Z. apply sq_zero in Z. auto. }
  replace (kleb 0 rad) with true by (symmetry; exact Pr). cbn [bind]. destruct (Hs Pr) as [Ps Es]. set (s := rf_sqrt rf rad) in *.
  destruct (kleb (s * s) _) eqn:E1; [do 4 eexists; reflexivity|].
  assert (Ns : s <> 0).
  { intros Z. rewrite Z in E1. assert (K : kle (0 * 0 : F) ((rf_atol_sin rf + rf_rtol rf * 0) * (rf_atol_sin rf + rf_rtol rf * 0))) by (replace (0 * 0 : F) with (0:F) by ring; apply ksq_nonneg). unfold kle in K. congruence. }
  assert (Nc : cnorm2 (cofk (s * two F)) <> 0). { rewrite cofk_norm. intros Z. apply sq_zero in Z. apply kmul_eq0 in Z. tauto. }
  set (n1 := cdiv (cdiv (cadd b c) ci) (cofk (s * two F))). set (n2 := cdiv (csub b c) (cofk (s * two F))). set (n3 := cdiv (cdiv (csub a d) ci) (cofk (s * two F))).
  assert (Ni : cnorm2 (ci : C) = 1) by (unfold ci, cnorm2; cbn; ring).
  assert (N1n : (1:F) <> 0) by (intros Z; exact (klt_neq (klt_01 F) (eq_sym Z))).
  assert (NS : cnorm2 n1 + cnorm2 n2 + cnorm2 n3 = 1).
  { unfold n1, n2, n3. rewrite !cdiv_norm by (auto; rewrite ?Ni; auto). rewrite Ni, cofk_norm.
    assert (Q : cnorm2 (cadd b c) + cnorm2 (csub b c) + cnorm2 (csub a d) = (s * two F) * (s * two F)).
    { replace ((s * two F) * (s * two F)) with ((s * s) * (two F * two F)) by ring. rewrite Es, Er. field. auto. }
    replace (cnorm2 (cadd b c) / 1 / (s * two F * (s * two F)) + cnorm2 (csub b c) / (s * two F * (s * two F)) + cnorm2 (csub a d) / 1 / (s * two F * (s * two F)))
      with ((cnorm2 (cadd b c) + cnorm2 (csub b c) + cnorm2 (csub a d)) / (s * two F * (s * two F))) by (field; auto).
    rewrite Q. field. auto. }
  assert (K : forall alpha, cnorm2 alpha = 1 -> close rf (rf_atol_norm rf) (cofk (rf_sqrt rf (cnorm2 (cdiv n1 alpha) + cnorm2 (cdiv n2 alpha) + cnorm2 (cdiv n3 alpha)))) 1 = true).
  { intros al Hal. rewrite !cdiv_norm by (rewrite Hal; auto). rewrite Hal. replace (cnorm2 n1 / 1 + cnorm2 n2 / 1 + cnorm2 n3 / 1) with (cnorm2 n1 + cnorm2 n2 + cnorm2 n3) by (field; auto).
    rewrite NS, sqrt_one. apply close_refl. }
  destruct (close rf (rf_atol rf) n1 0) eqn:C1; cbn [negb].
  destruct (close rf (rf_atol rf) n2 0) eqn:C2; cbn [negb].
  destruct (close rf (rf_atol rf) n3 0) eqn:C3; cbn [negb]; [do 4 eexists; reflexivity|].
  all: match goal with H : close rf (rf_atol rf) ?n 0 = false |- _ => pose proof (phase_norm (close_neq _ H)) as PN end; rewrite (K _ PN); cbn [bind];
    match goal with |- context [kltb ?p ?q] => destruct (kltb p q) end; do 4 eexists; reflexivity.
Qed.
End Angle.

(** a matrix with orthogonal rows whose second row has norm 7/3 is accepted *)
Notation Qf := QcField.
Definition bad_u : op Qf := mq 2 2 [[cq 3 0 5; cq (-4)%Z 0 5]; [cq 28 0 15; cq 7 0 5]].
Definition float_rf (s a : kcar Qf -> kcar Qf) (p : kcar Qf) : RealFun Qf := @mkRF Qf s a p (qq 1 100000000) (qq 1 100000) (qq 1 1000000) (qq 1 100000).
Lemma bad_u_not_unitary : ~ is_unitary (S:=CStar Qf) 2 bad_u.
Proof.
  intros H. apply is_unitary_m in H. pose proof (@unitary_row Qf 2 bad_u 1 H ltac:(lia)) as E. apply (f_equal (fun x => keqb x k1)) in E. 
  assert (Y : keqb (k1 : Qf) k1 = true) by now apply keqb_eq. rewrite Y in E. revert E. vm_compute. discriminate.
Qed.
Lemma bad_u_accepted s a p : s (k0 : Qf) = k0 -> angle_axis (float_rf s a p) bad_u = Ok (k0, [k1; k0; k0]).
Proof.
  intros Hs. assert (W : wfm (S:=CStar Qf) 2 2 bad_u) by apply wfm_mk2. unfold angle_axis. pose proof (conj_tr W) as E. assert (W' : wfm (S:=CStar Qf) 2 2 (op_conj (op_transpose bad_u))) by (rewrite E; wf_solve).
  rewrite (mm_ok W W'). cbn [bind]. rewrite !gram_val by auto. cbn [bind].
  assert (E1 : close (float_rf s a p) (rf_atol (float_rf s a p)) (gram2 bad_u 0 0) k1 && close (float_rf s a p) (rf_atol (float_rf s a p)) (gram2 bad_u 1 0) k0
     && close (float_rf s a p) (rf_atol (float_rf s a p)) (gram2 bad_u 0 1) k0 && close (float_rf s a p) (rf_atol (float_rf s a p)) (gram2 bad_u 0 0) k1 = true) by (vm_compute; reflexivity).
  rewrite E1. rewrite !(@get_entry_ok Qf 2 2) by auto. cbn [bind]. cbv zeta.
  set (rad := ksub k1 _). assert (Er : rad = k0) by (apply keqb_eq; vm_compute; reflexivity). rewrite Er. 
  assert (L : kleb (k0 : Qf) k0 = true) by (vm_compute; reflexivity). rewrite L. cbn [bind].
  change (rf_sqrt (float_rf s a p) k0) with (s k0). rewrite Hs.
  match goal with |- context [if ?b then _ else _] => assert (Lb : b = true) by (vm_compute; reflexivity); rewrite Lb end. reflexivity.
Qed.
