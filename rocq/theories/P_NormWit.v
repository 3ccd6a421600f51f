(** Concrete cases for C88. *)
Require Import List Arith Lia Bool ZArith Reals Lra.
From Verif Require Import LibBase LibRing LibArr LibCplx LibMat LibNorm LibDeriv M_Matrix S_Linear P_Linear P_Matrix M_Norm S_Norm M_OpHeap M_Transfer S_Transfer M_Amplitude M_Solver S_Solver
  S_Invariance S_Sensitive P_Sensitive P_GradWit P_InvarianceWit  P_SensitiveWit P_Norm P_Norm2.
Import ListNotations.
Local Open Scope res_scope.
Set Implicit Arguments.

Section Wit.
Add Field Cfield_now : (c_field RField).
Notation op := (op RField).
Definition rz (x : R) : RC := cofk (x : RField).
(** [[3, 4 i], [0, 0]] *)
Definition nmat : op := mk2 2 2 (fun i j => if Nat.eqb i 0 then (if Nat.eqb j 0 then rz 3 else cmul ci (rz 4)) else c0).
Lemma nmat_ok : is_matrix (S:=RS) 2 2 nmat.
Proof. apply is_matrix_wfm, wfm_mk2. Qed.
Lemma abs3 : np_abs (rz 3) = 3%R.
Proof. unfold np_abs, rz, cofk, cnorm2. cbn. replace (3 * 3 + 0 * 0)%R with (3 * 3)%R by ring. apply sqrt_square. lra. Qed.
Lemma abs4 : np_abs (cmul ci (rz 4)) = 4%R.
Proof. unfold np_abs, rz, cofk, cnorm2, cmul, ci. cbn. match goal with |- sqrt ?x = _ => replace x with (4 * 4)%R by ring end. apply sqrt_square. lra. Qed.
Lemma abs0 : np_abs (c0 : RC) = 0%R.
Proof. unfold np_abs, cnorm2, c0. cbn. replace (0 * 0 + 0 * 0)%R with 0%R by ring. apply sqrt_0. Qed.
Lemma nmat_norms la : op_norm la NFro nmat = Ok 5%R /\ op_norm la (NInt 1) nmat = Ok 4%R /\ op_norm la (NInt (-1)) nmat = Ok 3%R /\ op_norm la NInf nmat = Ok 7%R /\ op_norm la NMinf nmat = Ok 0%R.
Proof.
  split; [|split; [|split; [|split]]].
  - cbn [op_norm]. f_equal. cbn. unfold cnorm2, rz, cofk, cmul, ci, c0. cbn. match goal with |- sqrt ?x = _ => replace x with (5 * 5)%R by ring end. apply sqrt_square. lra.
  - change (Ok (Rmax (0 + np_abs (rz 3) + np_abs (c0 : RC)) (0 + np_abs (cmul ci (rz 4)) + np_abs (c0 : RC))) = Ok 4%R). rewrite abs3, abs4, abs0. f_equal. unfold Rmax. destruct (Rle_dec _ _); lra.
  - change (Ok (Rmin (0 + np_abs (rz 3) + np_abs (c0 : RC)) (0 + np_abs (cmul ci (rz 4)) + np_abs (c0 : RC))) = Ok 3%R). rewrite abs3, abs4, abs0. f_equal. unfold Rmin. destruct (Rle_dec _ _); lra.
  - change (Ok (Rmax (0 + np_abs (rz 3) + np_abs (cmul ci (rz 4))) (0 + np_abs (c0 : RC) + np_abs (c0 : RC))) = Ok 7%R). rewrite abs3, abs4, abs0. f_equal. unfold Rmax. destruct (Rle_dec _ _); lra.
  - change (Ok (Rmin (0 + np_abs (rz 3) + np_abs (cmul ci (rz 4))) (0 + np_abs (c0 : RC) + np_abs (c0 : RC))) = Ok 0%R). rewrite abs3, abs4, abs0. f_equal. unfold Rmin. destruct (Rle_dec _ _); lra.
Qed.
(** [[0, 2], [3, 0]], its square, and their singular value decompositions *)
Definition smat : op := mk2 2 2 (fun i j => if Nat.eqb i 0 then (if Nat.eqb j 0 then c0 else rz 2) else (if Nat.eqb j 0 then rz 3 else c0)).
Definition sxm : op := pauli_x RField.
Definition sidm : op := mid (S:=RS) 2.
Definition sla : LinAlg RField := mkLA (F:=RField) (fun A => ([], A)) (fun A => ([], A)) (fun A => A) (fun A D => (A, D))
  (fun A => if Req_EM_T (fst (mg (A : mat RS) 0 0)) 0 then (sxm, [3; 2]%R, sidm) else (sidm, [6; 6]%R, sidm)) (fun z => z).
Lemma sxm_unitary : is_unitary (S:=RS) 2 sxm.
Proof.
  split; [split; reflexivity|]. split; intros i j Hi Hj; destruct i as [|[|]]; try lia; destruct j as [|[|]]; try lia; cbn; unfold mg, get2, getn; cbn; unfold cadd, cmul, cconj, c0, c1, delta; cbn; f_equal; ring.
Qed.
Lemma sidm_unitary : is_unitary (S:=RS) 2 sidm.
Proof. apply is_unitary_m. apply munitary_id. Qed.
Lemma smat_svd : is_svd (F:=RField) 2 smat sxm [3; 2]%R sidm /\ la_svd sla smat = (sxm, [3; 2]%R, sidm).
Proof.
  split.
  - split; [apply is_matrix_wfm, wfm_mk2|]. split; [exact sxm_unitary|]. split; [exact sidm_unitary|]. split; [reflexivity|]. split.
    + intros k Hk. apply r_leb_le. destruct k as [|[|]]; try lia; cbn; lra.
    + intros i j Hi Hj. unfold smat. rewrite mg_mk2 by auto. destruct i as [|[|]]; try lia; destruct j as [|[|]]; try lia; cbn; unfold mg, get2, getn; cbn; unfold rz, cofk, cadd, cmul, c0, c1; cbn; f_equal; ring.
  - cbn [la_svd sla]. replace (fst (mg (smat : mat RS) 0 0)) with 0%R by reflexivity. destruct (Req_EM_T 0 0); [reflexivity|congruence].
Qed.
Definition ssq : op := mmul (S:=RS) smat smat.
Lemma ssq_entry i j : i < 2 -> j < 2 -> mg (ssq : mat RS) i j = if Nat.eqb i j then rz 6 else c0.
Proof.
  intros Hi Hj. unfold ssq. rewrite (@mg_mmul RS 2 2 2) by (auto; apply wfm_mk2). cbn [sumn]. unfold smat. rewrite !mg_mk2 by auto.
  destruct i as [|[|]]; try lia; destruct j as [|[|]]; try lia; cbn; unfold rz, cofk, cadd, cmul, c0; cbn; f_equal; ring.
Qed.
Lemma ssq_svd : is_svd (F:=RField) 2 ssq sidm [6; 6]%R sidm /\ la_svd sla ssq = (sidm, [6; 6]%R, sidm) /\ op_mul (F:=RField) smat (ODense smat) = Ok ssq.
Proof.
  split; [|split].
  - split; [apply is_matrix_wfm; apply wfm_mmul with 2; apply wfm_mk2|]. split; [exact sidm_unitary|]. split; [exact sidm_unitary|]. split; [reflexivity|]. split.
    + intros k Hk. apply r_leb_le. destruct k as [|[|]]; try lia; cbn; lra.
    + intros i j Hi Hj. rewrite ssq_entry by auto. cbn [sumn]. unfold sidm. rewrite !mg_mid by auto. destruct i as [|[|]]; try lia; destruct j as [|[|]]; try lia; cbn; unfold rz, cofk, cadd, cmul, c0, c1; cbn; f_equal; ring.
  - cbn [la_svd sla]. rewrite ssq_entry by auto. cbn. destruct (Req_EM_T 6 0); [lra|reflexivity].
  - apply (@op_mul_dense RField 2 2 2); apply wfm_mk2.
Qed.
Lemma smat_norms : op_norm sla (NInt 2) smat = Ok 3%R /\ op_norm sla (NInt (-2)) smat = Ok 2%R /\ op_norm sla NNuc smat = Ok 5%R /\ op_norm sla (NInt 2) ssq = Ok 6%R.
Proof.
  cbn [op_norm]. rewrite (proj2 smat_svd), (proj1 (proj2 ssq_svd)). cbn. split; [|split; [|split]]; f_equal; try lra; unfold Rmax, Rmin; destruct (Rle_dec _ _); lra.
Qed.
Lemma norm_evolution (rexp : R -> R) : exists ps fs f, evolution rexp wla c0 (s_ref rexp 1) 2 1 (ipulse [1; 3]%R) ps fs /\ hermitian_system 2 (s_ref rexp 1) /\ nth_error fs 2 = Some f.
Proof.
  destruct (two_evo1 rexp 1 2 1 3) as (ps & fs & E). destruct (two_parts rexp 1 2 1 3 (or_introl (eq_refl 1))) as (A1 & A2 & A3 & A4).
  destruct (nth_some (t := 2) E) as [f Hf]; [rewrite A3; auto|]. exists ps, fs, f. split; [exact E|]. split; [exact (two_herm rexp 1 2 1 3 (or_introl eq_refl))|exact Hf].
Qed.
End Wit.
