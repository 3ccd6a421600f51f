(** Proofs about the deprecated derivatives of cost_functions.py (M_CostDeriv.v) *)
Require Import List Arith Lia Ring Field Bool.
From Verif Require Import LibBase LibRing LibArr LibCplx LibMat LibNorm M_Matrix M_Solver M_Cost M_CostDeriv S_Linear P_Linear P_Matrix P_Loops S_Cost P_Cost P_Cost2 S_CostDeriv.
Import ListNotations.
Set Implicit Arguments.

Section PCD.
Variable F : OField.
Variable la : LinAlg F.
Add Field Kfield_pcd : (k_field F).
Add Field Cfield_pcd : (c_field F).
Notation S := (CStar F).
Notation C := (cplx F).
Notation op := (op F).
Notation tr := (mtrace (S:=S)).
Notation "A @@ B" := (mmul (S:=S) A B) (at level 40, left associativity).
Notation "A ^+" := (mdag (S:=S) A) (at level 30).
Implicit Types A B D Q U V X Y : op.
Local Open Scope k_scope.

Lemma paulis_wf : Forall (fun o => wfm (S:=S) 2 2 o /\ o^+ = o) [pauli_x F; pauli_z F; pauli_y F; mid (S:=S) 2].
Proof.
  assert (E : forall o, wfm (S:=S) 2 2 o -> (forall i j, (i < 2)%nat -> (j < 2)%nat -> cconj o.[j,i] = o.[i,j]) -> wfm (S:=S) 2 2 o /\ o^+ = o).
  { intros o W H. split; auto. apply (@mat_ext S 2 2); auto. wf_solve. intros i j Hi Hj. rewrite (@mg_mdag S 2 2) by auto. now apply H. }
  repeat (apply Forall_cons; [apply E; [first [apply wfm_mk2|wf_solve]|]|]); auto;
  intros i j Hi Hj; destruct i as [|[|i]]; try lia; destruct j as [|[|j]]; try lia;
    match goal with |- cconj ?x = ?y => let x' := eval cbn in x in let y' := eval cbn in y in change (cconj x' = y') end; unfold cconj, copp, ci, c0, c1; cbn [fst snd]; f_equal; ring.
Qed.

Lemma tr4 A B D Q : wfm 2 2 A -> wfm 2 2 B -> wfm 2 2 D -> wfm 2 2 Q ->
  tr (A @@ B @@ D @@ Q) = cadd
   (cadd (cmul (cadd (cmul (cadd (cmul A.[0,0] B.[0,0]) (cmul A.[0,1] B.[1,0])) D.[0,0]) (cmul (cadd (cmul A.[0,0] B.[0,1]) (cmul A.[0,1] B.[1,1])) D.[1,0])) Q.[0,0])
         (cmul (cadd (cmul (cadd (cmul A.[0,0] B.[0,0]) (cmul A.[0,1] B.[1,0])) D.[0,1]) (cmul (cadd (cmul A.[0,0] B.[0,1]) (cmul A.[0,1] B.[1,1])) D.[1,1])) Q.[1,0]))
   (cadd (cmul (cadd (cmul (cadd (cmul A.[1,0] B.[0,0]) (cmul A.[1,1] B.[1,0])) D.[0,0]) (cmul (cadd (cmul A.[1,0] B.[0,1]) (cmul A.[1,1] B.[1,1])) D.[1,0])) Q.[0,1])
         (cmul (cadd (cmul (cadd (cmul A.[1,0] B.[0,0]) (cmul A.[1,1] B.[1,0])) D.[0,1]) (cmul (cadd (cmul A.[1,0] B.[0,1]) (cmul A.[1,1] B.[1,1])) D.[1,1])) Q.[1,1])).
Proof.
  intros HA HB HD HQ. rewrite (@mtrace_sq S 2) by wf_solve. rewrite sum2.
  rewrite !(@mg_mmul S 2 2 2 (A @@ B @@ D) Q) by (wf_solve; lia). rewrite !sum2.
  rewrite !(@mg_mmul S 2 2 2 (A @@ B) D) by (wf_solve; lia). rewrite !sum2.
  rewrite !(@mg_mmul S 2 2 2 A B) by (wf_solve; lia). rewrite !sum2. reflexivity.
Qed.

(** sum over the Paulis and the identity of tr(o X o Y) = 2 tr X tr Y *)
Lemma pauli_sum X Y : wfm 2 2 X -> wfm 2 2 Y ->
  cadd (cadd (cadd (tr (pauli_x F @@ X @@ pauli_x F @@ Y)) (tr (pauli_z F @@ X @@ pauli_z F @@ Y))) (tr (pauli_y F @@ X @@ pauli_y F @@ Y))) (tr (mid (S:=S) 2 @@ X @@ mid (S:=S) 2 @@ Y))
  = cmul (cofk (kofnat 2)) (cmul (tr X) (tr Y)).
Proof.
  intros HX HY. pose proof paulis_wf as W. repeat match goal with H : Forall _ (_ :: _) |- _ => inversion H; clear H; subst end.
  rewrite !tr4 by tauto. rewrite !(@mtrace_sq S 2) by auto. rewrite !sum2.
  change (mg (pauli_x F) 0 0) with (c0 : C). change (mg (pauli_x F) 0 1) with (c1 : C). change (mg (pauli_x F) 1 0) with (c1 : C). change (mg (pauli_x F) 1 1) with (c0 : C).
  change (mg (pauli_y F) 0 0) with (c0 : C). change (mg (pauli_y F) 0 1) with (copp ci : C). change (mg (pauli_y F) 1 0) with (ci : C). change (mg (pauli_y F) 1 1) with (c0 : C).
  change (mg (pauli_z F) 0 0) with (c1 : C). change (mg (pauli_z F) 0 1) with (c0 : C). change (mg (pauli_z F) 1 0) with (c0 : C). change (mg (pauli_z F) 1 1) with (copp c1 : C).
  change (mg (mid (S:=S) 2) 0 0) with (c1 : C). change (mg (mid (S:=S) 2) 0 1) with (c0 : C). change (mg (mid (S:=S) 2) 1 0) with (c0 : C). change (mg (mid (S:=S) 2) 1 1) with (c1 : C).
  destruct (X.[0,0]), (X.[0,1]), (X.[1,0]), (X.[1,1]), (Y.[0,0]), (Y.[0,1]), (Y.[1,0]), (Y.[1,1]).
  unfold cmul, cadd, copp, cofk, c0, c1, ci. cbn [fst snd kofnat]. f_equal; ring.
Qed.

Lemma imul_ok m n A B : wfm m n A -> wfm n n B -> op_imul A (ODense B) = Ok (A @@ B).
Proof.
  intros HA HB. cbn [op_imul]. unfold np_matmul_out. rewrite (@mm_ok F m n n) by auto. cbn [bind].
  assert (W : wfm m n (A @@ B)) by wf_solve. rewrite (wfm_nc W), (wfm_nc HA), Nat.eqb_refl. reflexivity.
Qed.
Lemma iadd_ok m n X Y : wfm m n X -> wfm m n Y -> op_iadd X (ODense Y) = Ok (madd (S:=S) X Y).
Proof. intros HX HY. exact (@op_add_dense F m n X Y HX HY). Qed.
Lemma isub_ok m n X Y : wfm m n X -> wfm m n Y -> op_isub X (ODense Y) = Ok (msub (S:=S) X Y).
Proof. intros HX HY. exact (@op_sub_dense F m n X Y HX HY). Qed.

(** the summand of one orthogonal operator *)
Lemma du_summand_val b p p' D o : wfm 2 2 b -> wfm 2 2 p -> wfm 2 2 p' -> wfm 2 2 D -> wfm 2 2 o -> o^+ = o ->
  du_summand b p p' D o = Ok (cadd (tr (o @@ (b^+ @@ D @@ p) @@ o @@ (p'^+ @@ b))) (tr (o @@ (b^+ @@ p') @@ o @@ (p^+ @@ D^+ @@ b)))).
Proof.
  intros Wb Wp Wp' WD Wo Eo. unfold du_summand. rewrite (op_dag_mdag Wo), (op_dag_mdag Wb), (op_dag_mdag Wp'), (op_dag_mdag WD). rewrite Eo.
  rewrite (@mm_ok F 2 2 2) by wf_solve. cbn [bind]. rewrite (@imul_ok 2 2) by wf_solve. cbn [bind].
  rewrite (@mm_ok F 2 2 2) by wf_solve. cbn [bind]. rewrite (@imul_ok 2 2) by wf_solve. cbn [bind].
  assert (Wr : wfm (S:=S) 2 2 (p @@ o @@ p'^+)) by wf_solve. rewrite (op_dag_mdag Wr).
  rewrite (@mm_ok F 2 2 2) by wf_solve. cbn [bind]. rewrite (@mm_ok F 2 2 2) by wf_solve. cbn [bind].
  rewrite (@iadd_ok 2 2) by wf_solve. cbn [bind]. rewrite (@imul_ok 2 2) by wf_solve. cbn [bind]. f_equal. unfold op_tr.
  rewrite (@mmul_add_r S 2 2 2) by wf_solve. rewrite (@mtrace_madd S 2) by wf_solve. refine (f_equal2 (@cadd F) _ _).
  - replace (b @@ o @@ b^+ @@ (D @@ (p @@ o @@ p'^+))) with (b @@ (o @@ (b^+ @@ D @@ p) @@ o @@ p'^+)) by (rewrite !(@mmul_assoc S 2 2 2 2) by wf_solve; reflexivity).
    rewrite (@mtrace_comm S 2 2) by wf_solve. rewrite !(@mmul_assoc S 2 2 2 2) by wf_solve. reflexivity.
  - rewrite (@mdag_mmul S 2 2 2) by wf_solve. rewrite (@mdag_mmul S 2 2 2 p o) by wf_solve. rewrite (@mdag_mdag S 2 2) by auto. rewrite Eo.
    replace (b @@ o @@ b^+ @@ (p' @@ (o @@ p^+) @@ D^+)) with (b @@ (o @@ (b^+ @@ p') @@ o @@ (p^+ @@ D^+))) by (rewrite !(@mmul_assoc S 2 2 2 2) by wf_solve; reflexivity).
    rewrite (@mtrace_comm S 2 2) by wf_solve. rewrite !(@mmul_assoc S 2 2 2 2) by wf_solve. reflexivity.
Qed.

Lemma grape_summand_val b p' H dt o : wfm 2 2 b -> wfm 2 2 p' -> wfm 2 2 H -> wfm 2 2 o -> o^+ = o ->
  grape_summand b p' H (OScal dt) o = Ok (cmul (cmul dt (copp ci)) (csub (tr (o @@ (b^+ @@ H @@ p') @@ o @@ (p'^+ @@ b))) (tr (o @@ (b^+ @@ p') @@ o @@ (p'^+ @@ H @@ b))))).
Proof.
  intros Wb Wp' WH Wo Eo. unfold grape_summand. rewrite (op_dag_mdag Wo), (op_dag_mdag Wb), (op_dag_mdag Wp'). rewrite Eo.
  rewrite (@mm_ok F 2 2 2) by wf_solve. cbn [bind]. rewrite (@imul_ok 2 2) by wf_solve. cbn [bind].
  rewrite (@mm_ok F 2 2 2) by wf_solve. cbn [bind]. rewrite (@imul_ok 2 2) by wf_solve. cbn [bind].
  rewrite (@mm_ok F 2 2 2) by wf_solve. cbn [bind]. rewrite (@mm_ok F 2 2 2) by wf_solve. cbn [bind].
  rewrite (@isub_ok 2 2) by wf_solve. cbn [bind]. cbn [op_imul bind]. 
  match goal with |- bind (np_matmul_out ?A ?B) _ = _ => change (np_matmul_out A B) with (op_imul A (ODense B)) end.
  rewrite (@imul_ok 2 2) by wf_solve. cbn [bind]. f_equal. unfold op_tr.
  rewrite (@mscale_mscale S 2 2) by wf_solve. rewrite (@mmul_scale_l S 2 2 2) by wf_solve. rewrite (@mtrace_mscale S 2) by wf_solve. refine (f_equal2 (@cmul F) _ _). reflexivity.
  rewrite (@mmul_sub_r S 2 2 2) by wf_solve. rewrite (@mtrace_msub S 2) by wf_solve. refine (f_equal2 (@csub F) _ _).
  - replace (b @@ o @@ b^+ @@ (H @@ (p' @@ o @@ p'^+))) with (b @@ (o @@ (b^+ @@ H @@ p') @@ o @@ p'^+)) by (rewrite !(@mmul_assoc S 2 2 2 2) by wf_solve; reflexivity).
    rewrite (@mtrace_comm S 2 2) by wf_solve. rewrite !(@mmul_assoc S 2 2 2 2) by wf_solve. reflexivity.
  - replace (b @@ o @@ b^+ @@ (p' @@ o @@ p'^+ @@ H)) with (b @@ (o @@ (b^+ @@ p') @@ o @@ (p'^+ @@ H))) by (rewrite !(@mmul_assoc S 2 2 2 2) by wf_solve; reflexivity).
    rewrite (@mtrace_comm S 2 2) by wf_solve. rewrite !(@mmul_assoc S 2 2 2 2) by wf_solve. reflexivity.
Qed.

(** the sum over the four operators, and its value for b = R^+ V *)
Lemma four (f : op -> res C) (g : op -> C) : (forall o, wfm 2 2 o -> o^+ = o -> f o = Ok (g o)) ->
  foldM (fun s o => bind (f o) (fun x => Ok (cadd s x))) [pauli_x F; pauli_z F; pauli_y F; mid (S:=S) 2] c0
  = Ok (cadd (cadd (cadd (g (pauli_x F)) (g (pauli_z F))) (g (pauli_y F))) (g (mid (S:=S) 2))).
Proof.
  intros H. pose proof paulis_wf as W. repeat match goal with H : Forall _ (_ :: _) |- _ => inversion H; clear H; subst end.
  cbn [foldM]. rewrite !H by tauto. cbn [bind]. f_equal. cring.
Qed.
Lemma tr_dag_swap A B : wfm 2 2 A -> wfm 2 2 B -> tr (A^+ @@ B) = cconj (tr (B^+ @@ A)).
Proof.
  intros HA HB. assert (W : wfm (S:=S) 2 2 (B^+ @@ A)) by wf_solve. pose proof (mtrace_mdag W) as E. rewrite (@mdag_mmul S 2 2 2) in E by wf_solve. rewrite (@mdag_mdag S 2 2) in E by auto. exact E.
Qed.
Lemma du_sum R V p p' D : wfm 2 2 R -> wfm 2 2 V -> wfm 2 2 p -> wfm 2 2 p' -> wfm 2 2 D ->
  foldM (fun s o => bind (du_summand (R^+ @@ V) p p' D o) (fun x => Ok (cadd s x))) [pauli_x F; pauli_z F; pauli_y F; mid (S:=S) 2] c0
  = Ok (cofk (kofnat 4 * cre (cmul (cconj (mat_overlap 2 V (R @@ p'))) (mat_overlap 2 V (R @@ (D @@ p)))))).
Proof.
  intros WR WV Wp Wp' WD. set (b := R^+ @@ V). assert (Wb : wfm (S:=S) 2 2 b) by (unfold b; wf_solve).
  rewrite (@four (du_summand b p p' D) (fun o => cadd (tr (o @@ (b^+ @@ D @@ p) @@ o @@ (p'^+ @@ b))) (tr (o @@ (b^+ @@ p') @@ o @@ (p^+ @@ D^+ @@ b))))).
  2:{ intros o Wo Eo. now apply du_summand_val. }
  assert (W1 : wfm (S:=S) 2 2 (b^+ @@ D @@ p)) by wf_solve. assert (W2 : wfm (S:=S) 2 2 (p'^+ @@ b)) by wf_solve.
  assert (W3 : wfm (S:=S) 2 2 (b^+ @@ p')) by wf_solve. assert (W4 : wfm (S:=S) 2 2 (p^+ @@ D^+ @@ b)) by wf_solve.
  pose proof (pauli_sum W1 W2) as E1. pose proof (pauli_sum W3 W4) as E2.
  f_equal. etransitivity; [|etransitivity; [exact (f_equal2 (@cadd F) E1 E2)|]].
  { cring. }
  assert (Eb : b^+ = V^+ @@ R). { unfold b. rewrite (@mdag_mmul S 2 2 2) by wf_solve. now rewrite (@mdag_mdag S 2 2) by auto. }
  assert (Z1 : tr (b^+ @@ D @@ p) = mat_overlap 2 V (R @@ (D @@ p))).
  { assert (WZ : wfm (S:=S) 2 2 (R @@ (D @@ p))) by wf_solve. rewrite overlap_hs, <- (hs_trace WV WZ). rewrite Eb. rewrite !(@mmul_assoc S 2 2 2 2) by wf_solve. reflexivity. }
  assert (Z2 : tr (b^+ @@ p') = mat_overlap 2 V (R @@ p')).
  { assert (WZ : wfm (S:=S) 2 2 (R @@ p')) by wf_solve. rewrite overlap_hs, <- (hs_trace WV WZ). rewrite Eb. rewrite !(@mmul_assoc S 2 2 2 2) by wf_solve. reflexivity. }
  assert (Z3 : tr (p'^+ @@ b) = cconj (mat_overlap 2 V (R @@ p'))) by (rewrite <- Z2; now apply tr_dag_swap).
  assert (Z4 : tr (p^+ @@ D^+ @@ b) = cconj (mat_overlap 2 V (R @@ (D @@ p)))).
  { rewrite <- Z1. assert (WDp : wfm (S:=S) 2 2 (D @@ p)) by wf_solve. rewrite <- (@mdag_mmul S 2 2 2 D p) by auto. rewrite tr_dag_swap by auto. rewrite !(@mmul_assoc S 2 2 2 2) by wf_solve. reflexivity. }
  rewrite Z1, Z2, Z3, Z4. destruct (mat_overlap 2 V (R @@ p')), (mat_overlap 2 V (R @@ (D @@ p))). unfold cmul, cadd, cconj, cofk, cre. cbn [fst snd kofnat]. f_equal; ring.
Qed.
Lemma grape_sum R V p' H dt : wfm 2 2 R -> wfm 2 2 V -> wfm 2 2 p' -> wfm 2 2 H -> H^+ = H ->
  foldM (fun s o => bind (grape_summand (R^+ @@ V) p' H (OScal (cofk dt)) o) (fun x => Ok (cadd s x))) [pauli_x F; pauli_z F; pauli_y F; mid (S:=S) 2] c0
  = Ok (cofk (kofnat 4 * (dt * cim (cmul (cconj (mat_overlap 2 V (R @@ p'))) (mat_overlap 2 V (R @@ (H @@ p'))))))).
Proof.
  intros WR WV Wp' WH EH. set (b := R^+ @@ V). assert (Wb : wfm (S:=S) 2 2 b) by (unfold b; wf_solve).
  rewrite (@four (grape_summand b p' H (OScal (cofk dt))) (fun o => cmul (cmul (cofk dt) (copp ci)) (csub (tr (o @@ (b^+ @@ H @@ p') @@ o @@ (p'^+ @@ b))) (tr (o @@ (b^+ @@ p') @@ o @@ (p'^+ @@ H @@ b)))))).
  2:{ intros o Wo Eo. now apply grape_summand_val. }
  assert (W1 : wfm (S:=S) 2 2 (b^+ @@ H @@ p')) by wf_solve. assert (W2 : wfm (S:=S) 2 2 (p'^+ @@ b)) by wf_solve.
  assert (W3 : wfm (S:=S) 2 2 (b^+ @@ p')) by wf_solve. assert (W4 : wfm (S:=S) 2 2 (p'^+ @@ H @@ b)) by wf_solve.
  pose proof (pauli_sum W1 W2) as E1. pose proof (pauli_sum W3 W4) as E2.
  f_equal. etransitivity; [|etransitivity; [exact (f_equal (cmul (cmul (cofk dt) (copp ci))) (f_equal2 (@csub F) E1 E2))|]].
  { cring. }
  assert (Eb : b^+ = V^+ @@ R). { unfold b. rewrite (@mdag_mmul S 2 2 2) by wf_solve. now rewrite (@mdag_mdag S 2 2) by auto. }
  assert (Z1 : tr (b^+ @@ H @@ p') = mat_overlap 2 V (R @@ (H @@ p'))).
  { assert (WZ : wfm (S:=S) 2 2 (R @@ (H @@ p'))) by wf_solve. rewrite overlap_hs, <- (hs_trace WV WZ). rewrite Eb. rewrite !(@mmul_assoc S 2 2 2 2) by wf_solve. reflexivity. }
  assert (Z2 : tr (b^+ @@ p') = mat_overlap 2 V (R @@ p')).
  { assert (WZ : wfm (S:=S) 2 2 (R @@ p')) by wf_solve. rewrite overlap_hs, <- (hs_trace WV WZ). rewrite Eb. rewrite !(@mmul_assoc S 2 2 2 2) by wf_solve. reflexivity. }
  assert (Z3 : tr (p'^+ @@ b) = cconj (mat_overlap 2 V (R @@ p'))) by (rewrite <- Z2; now apply tr_dag_swap).
  assert (Z4 : tr (p'^+ @@ H @@ b) = cconj (mat_overlap 2 V (R @@ (H @@ p')))).
  { rewrite <- Z1. assert (WDp : wfm (S:=S) 2 2 (H @@ p')) by wf_solve. rewrite <- EH at 1. rewrite <- (@mdag_mmul S 2 2 2 H p') by auto. rewrite tr_dag_swap by auto. rewrite !(@mmul_assoc S 2 2 2 2) by wf_solve. reflexivity. }
  rewrite Z1, Z2, Z3, Z4. destruct (mat_overlap 2 V (R @@ p')), (mat_overlap 2 V (R @@ (H @@ p'))). unfold cmul, csub, cconj, cofk, cre, cim, ci, copp. cbn [fst snd kofnat]. f_equal; ring.
Qed.

(** ---- the propagators of the remaining time steps ---- *)
Lemma future_fold n qs : forall rest acc (r : op), is_last acc r -> wfm n n r -> length rest = length qs -> Forall (wfm n n) qs ->
  (forall k p x y, nth_error qs k = Some p -> nth_error (r :: rest) k = Some x -> nth_error rest k = Some y -> is_product (S:=S) n n n x p y) ->
  foldM (fun fs p => bind (idx_last fs) (fun l => bind (np_matmul l p) (fun x => Ok (fs ++ [x])))) qs acc = Ok (acc ++ rest).
Proof.
  induction qs as [|q qs IH]; intros rest acc r Hl Wr HL HF HP.
  - destruct rest; [|discriminate]. cbn. now rewrite app_nil_r.
  - destruct rest as [|y rest]; [discriminate|]. inversion HF as [|? ? Wq HF']; subst. cbn [foldM]. rewrite (idx_last_ok Hl). cbn [bind].
    pose proof (HP 0%nat q r y eq_refl eq_refl eq_refl) as PR. apply is_product_eq in PR; auto. rewrite (@mm_ok F n n n) by auto. cbn [bind]. rewrite <- PR.
    assert (Wy : wfm (S:=S) n n y) by (rewrite PR; wf_solve).
    rewrite (IH rest (acc ++ [y]) y); auto. now rewrite <- app_assoc. now exists acc.
    intros k p x z H1 H2 H3. exact (HP (Datatypes.S k) p x z H1 H2 H3).
Qed.
Lemma nth_error_rev_of {E : Type} (l : list E) k : (k < length l)%nat -> nth_error (rev l) k = nth_error l (length l - Datatypes.S k).
Proof.
  intros H. destruct (nth_error (rev l) k) as [x|] eqn:Ex; [|apply nth_error_None in Ex; rewrite rev_length in Ex; lia].
  pose proof (nth_error_nth' (rev l) x (n:=k)) as G. rewrite rev_length in G. rewrite G in Ex by lia. rewrite rev_nth in Ex by lia.
  pose proof (nth_error_nth' l x (n:=length l - Datatypes.S k)) as G'. rewrite G' by lia. now rewrite Ex.
Qed.
Lemma future_ok n (ps fwd revs : list op) : ps <> [] -> evolution n ps fwd revs -> length revs = Datatypes.S (length ps) -> propagators_future ps = Ok (rev revs).
Proof.
  intros Hne (HF & _ & (r0 & E0 & HI) & HR) HL. unfold propagators_future. destruct ps as [|p0 ps']; [congruence|]. unfold idx at 1. cbn [nth_error bind].
  assert (W0 : wfm (S:=S) n n p0) by (inversion HF; subst; now apply is_matrix_wfm). rewrite (wfm_nr W0).
  destruct revs as [|r0' rest]; [discriminate|]. cbn in E0. injection E0 as ->.
  assert (r0 = mid (S:=S) n). { destruct HI as [HI1 HI2]. rewrite is_matrix_wfm in HI1. apply (@mat_ext S n n); auto. wf_solve. intros i j Hi Hj. rewrite HI2 by auto. now rewrite mg_mid. }
  subst r0. rewrite (@future_fold n (rev (p0 :: ps')) rest [mid (S:=S) n] (mid (S:=S) n)).
  - reflexivity.
  - now exists [].
  - wf_solve.
  - rewrite rev_length. cbn in HL |- *. lia.
  - apply Forall_rev. eapply Forall_impl; [|exact HF]. intros a. apply is_matrix_wfm.
  - intros k p x y H1 H2 H3. exact (HR k p x y H1 H2 H3).
Qed.
(** propagators after step t times the forward propagator up to there is the final propagator *)
Lemma evolution_total n (ps fwd revs : list op) T : evolution n ps fwd revs -> length ps = T -> length fwd = Datatypes.S T -> length revs = Datatypes.S T ->
  Forall (wfm n n) fwd -> Forall (wfm n n) revs ->
  forall k R f l, (k <= T)%nat -> nth_error revs k = Some R -> nth_error fwd (T - k) = Some f -> is_last fwd l -> R @@ f = l.
Proof.
  intros (HP & HF & (r0 & E0 & HI) & HR) L1 L2 L3 WF WR. rewrite Forall_forall in WF, WR, HP.
  induction k as [|k IH]; intros R f l Hk ER Ef Hl.
  - rewrite ER in E0. injection E0 as ->. rewrite Nat.sub_0_r in Ef. destruct Hl as [l' ->]. rewrite app_length in L2. cbn in L2. rewrite nth_error_app2 in Ef by lia. replace (T - length l')%nat with 0%nat in Ef by lia. cbn in Ef. injection Ef as ->.
    assert (r0 = mid (S:=S) n). { destruct HI as [HI1 HI2]. rewrite is_matrix_wfm in HI1. apply (@mat_ext S n n); auto. wf_solve. intros i j Hi Hj. rewrite HI2 by auto. now rewrite mg_mid. }
    subst r0. apply (@mmul_1_l S n n). apply WF. apply in_or_app. right. now left.
  - destruct (nth_error revs k) as [R'|] eqn:ER'; [|apply nth_error_None in ER'; lia].
    destruct (nth_error fwd (T - k)) as [f'|] eqn:Ef'; [|apply nth_error_None in Ef'; lia].
    destruct (nth_error (rev ps) k) as [p|] eqn:Ep; [|apply nth_error_None in Ep; rewrite rev_length in Ep; lia].
    pose proof (HR k p R' R Ep ER' ER) as PR.
    assert (Ep' : nth_error ps (T - Datatypes.S k) = Some p).
    { rewrite <- Ep. rewrite nth_error_rev_of by lia. now rewrite L1. }
    assert (PF : is_product (S:=S) n n n p f f'). { apply (HF (T - Datatypes.S k)%nat); auto. replace (Datatypes.S (T - Datatypes.S k)) with (T - k)%nat by lia. exact Ef'. }
    assert (Wp : wfm (S:=S) n n p) by (apply is_matrix_wfm, HP; eapply nth_error_In; eauto).
    assert (Wf : wfm (S:=S) n n f) by (apply WF; eapply nth_error_In; eauto).
    assert (WR' : wfm (S:=S) n n R') by (apply WR; eapply nth_error_In; eauto).
    apply is_product_eq in PF; auto. apply is_product_eq in PR; auto. subst R. rewrite <- (@mmul_assoc S n n n n) by auto. rewrite <- PF. apply (IH R' f' l); auto. lia.
Qed.
Lemma fill_complex_ok T N f (g : nat -> nat -> F) : (forall c t, (c < N)%nat -> (t < T)%nat -> f c t = Ok (cofk (g t c))) ->
  exists a, fill_complex T N f = Ok a /\ real_entries T N a g.
Proof.
  intros H. unfold fill_complex.
  rewrite (@mapM_seq_of _ _ 0 N (map (fun c => map (fun t => cofk (g t c)) (seq 0 T)) (seq 0 N)) []).
  - cbn [bind]. eexists; split; [reflexivity|]. split; [apply wfa_mk2|]. intros t c Ht Hc. rewrite get2_mk2 by auto. rewrite nth_map_seq by auto. now rewrite nth_map_seq.
  - now rewrite map_length, seq_length.
  - intros c Hc. rewrite nth_map_seq by auto. apply (@mapM_seq_of _ _ 0 T _ c0).
    + now rewrite map_length, seq_length.
    + intros t Ht. rewrite nth_map_seq by auto. cbn. now apply H.
Qed.

Definition z0 : op := Arr [] [].
Definition du_value V (l Rt D f : op) : F := cre (cmul (cconj (mat_overlap 2 V l)) (mat_overlap 2 V (Rt @@ (D @@ f)))) / kofnat 3.
Lemma div12 (x : F) : cdiv (cofk (kofnat 4 * x)) (cofk (kofnat (2 * 2 * (2 + 1)))) = cofk (x / kofnat 3).
Proof.
  pose proof (@kofnat_neq0 F 4 ltac:(discriminate)) as N4. pose proof (@kofnat_neq0 F 3 ltac:(discriminate)) as N3. pose proof (@kofnat_neq0 F 12 ltac:(discriminate)) as N12.
  cbn [Nat.mul Nat.add]. rewrite <- cofk_div by auto. f_equal. assert (E12 : kofnat 12 = kofnat 4 * kofnat 3 :> F) by (change 12%nat with (4 * 3)%nat; now rewrite kofnat_mul). rewrite E12. field. auto.
Qed.
Lemma evo_at ps past revs T l : evolution 2 ps past revs -> length ps = T -> length past = Datatypes.S T -> length revs = Datatypes.S T ->
  Forall (wfm 2 2) past -> Forall (wfm 2 2) revs -> is_last past l ->
  forall t, (t < T)%nat -> exists Rt f f' p, nth_error (rev revs) (Datatypes.S t) = Some Rt /\ nth_error past t = Some f /\ nth_error past (Datatypes.S t) = Some f' /\ nth_error ps t = Some p /\
    Rt = nth (Datatypes.S t) (rev revs) z0 /\ f = nth t past z0 /\
    wfm 2 2 Rt /\ wfm 2 2 f /\ wfm 2 2 f' /\ wfm 2 2 p /\ f' = p @@ f /\ Rt @@ f' = l.
Proof.
  intros HE L1 L2 L3 WF WR Hl t Ht. pose proof HE as (HP & HF & _ & _).
  destruct (nth_error (rev revs) (Datatypes.S t)) as [Rt|] eqn:E1; [|apply nth_error_None in E1; rewrite rev_length in E1; lia].
  destruct (nth_error past t) as [f|] eqn:E2; [|apply nth_error_None in E2; lia].
  destruct (nth_error past (Datatypes.S t)) as [f'|] eqn:E3; [|apply nth_error_None in E3; lia].
  destruct (nth_error ps t) as [p|] eqn:E4; [|apply nth_error_None in E4; lia].
  rewrite Forall_forall in HP. assert (Wp : wfm (S:=S) 2 2 p) by (apply is_matrix_wfm, HP; eapply nth_error_In; eauto).
  pose proof WF as WF'. pose proof WR as WR'. rewrite Forall_forall in WF', WR'. assert (Wf : wfm (S:=S) 2 2 f) by (apply WF'; eapply nth_error_In; eauto).
  assert (Wf' : wfm (S:=S) 2 2 f') by (apply WF'; eapply nth_error_In; eauto).
  assert (Wr : wfm (S:=S) 2 2 Rt) by (apply WR'; apply in_rev; eapply nth_error_In; eauto).
  exists Rt, f, f', p. do 4 (split; auto). split; [symmetry; now apply nth_error_nth|]. split; [symmetry; now apply nth_error_nth|]. do 4 (split; auto).
  split. { pose proof (HF t p f f' E4 E2 E3) as G. now apply is_product_eq in G. }
  rewrite nth_error_rev_of in E1 by lia. rewrite L3 in E1. replace (Datatypes.S T - Datatypes.S (Datatypes.S t))%nat with (T - Datatypes.S t)%nat in E1 by lia.
  replace (Datatypes.S t) with (T - (T - Datatypes.S t))%nat in E3 by lia. refine (@evolution_total 2 ps past revs T HE L1 L2 L3 WF WR (T - Datatypes.S t)%nat Rt f' l _ E1 E3 Hl). lia.
Qed.
Lemma with_du_val ps past revs dus V T N l (D : nat -> nat -> op) : T <> 0%nat -> evolution 2 ps past revs -> length ps = T -> length past = Datatypes.S T -> length revs = Datatypes.S T ->
  Forall (wfm 2 2) past -> Forall (wfm 2 2) revs -> is_last past l -> wfm 2 2 V ->
  wfa [T; N] dus -> (forall t c x, (t < T)%nat -> (c < N)%nat -> get2 x dus t c = D t c /\ wfm 2 2 (D t c)) ->
  exists a, derivative_average_gate_fid_with_du ps past dus V = Ok a /\
    real_entries T N a (fun t c => du_value V l (nth (Datatypes.S t) (rev revs) z0) (D t c) (nth t past z0)).
Proof.
  intros HT HE L1 L2 L3 WF WR Hl WV Wd HD. unfold derivative_average_gate_fid_with_du.
  assert (Hne : ps <> []) by (destruct ps; [cbn in L1; lia|congruence]).
  rewrite (@future_ok 2 ps past revs) by (auto; lia). cbn [bind].
  destruct (evo_at HE L1 L2 L3 WF WR Hl (t:=0)) as (_ & _ & _ & p0 & _ & _ & _ & E0 & _ & _ & _ & _ & _ & W0 & _); [lia|]. unfold idx at 1. rewrite E0. cbn [bind]. rewrite (wfm_nr W0).
  cbn [orthogonal_set Nat.eqb bind]. destruct Wd as [Sd Ld]. assert (E1 : dim0 dus = T) by (unfold dim0; now rewrite Sd). assert (E2 : dim1 dus = N) by (unfold dim1; now rewrite Sd). rewrite E1, E2.
  unfold orthogonal_set. cbn [Nat.eqb bind].
  apply fill_complex_ok. intros c t Hc Ht. destruct (HD t c p0 Ht Hc) as [Eg Wg].
  destruct (evo_at HE L1 L2 L3 WF WR Hl Ht) as (Rt & f & f' & p & G1 & G2 & G3 & G4 & G5 & G6 & Wr & Wf & Wf' & Wp & Ef & El).
  unfold idx. rewrite G1, G2, G3. cbn [bind]. rewrite (op_dag_mdag Wr). rewrite (@mm_ok F 2 2 2) by wf_solve. cbn [bind]. rewrite Eg.
  rewrite (@du_sum Rt V f f' (D t c)) by auto. cbn [bind]. rewrite div12. rewrite El. rewrite <- G5, <- G6. reflexivity.
Qed.
Lemma grape_val ps past revs ham V T N l (H : nat -> nat -> op) dt : T <> 0%nat -> N <> 0%nat -> evolution 2 ps past revs -> length ps = T -> length past = Datatypes.S T -> length revs = Datatypes.S T ->
  Forall (wfm 2 2) past -> Forall (wfm 2 2) revs -> is_last past l -> wfm 2 2 V ->
  wfa [T; N] ham -> (forall t c x, (t < T)%nat -> (c < N)%nat -> get2 x ham t c = H t c /\ wfm 2 2 (H t c) /\ (H t c)^+ = H t c) ->
  exists a, derivative_average_gate_fidelity ham ps past (OScal (cofk dt)) V = Ok a /\
    real_entries T N a (fun t c => du_value V l (nth (Datatypes.S t) (rev revs) z0) (mscale (S:=S) (cmul (copp ci) (cofk dt)) (H t c @@ nth t ps z0)) (nth t past z0)).
Proof.
  intros HT HN HE L1 L2 L3 WF WR Hl WV Wd HD. unfold derivative_average_gate_fidelity.
  assert (Hne : ps <> []) by (destruct ps; [cbn in L1; lia|congruence]).
  rewrite (@future_ok 2 ps past revs) by (auto; lia). cbn [bind]. destruct Wd as [Sd Ld].
  destruct (HD 0%nat 0%nat z0) as (E0 & W0 & _); try lia. unfold idx at 1.
  destruct (data ham) as [|h0 hd] eqn:Eh. { cbn in Ld. destruct T; [lia|]. destruct N; [lia|]. cbn in Ld. lia. }
  cbn [nth_error bind]. assert (Eh0 : h0 = H 0%nat 0%nat). { rewrite <- E0. unfold get2, getn. rewrite Eh, Sd. cbn. rewrite ?Nat.mul_0_l, ?Nat.mul_0_r. reflexivity. }
  rewrite Eh0, (wfm_nr W0). rewrite <- Eh0.
  assert (E1 : dim0 ham = T) by (unfold dim0; now rewrite Sd). assert (E2 : dim1 ham = N) by (unfold dim1; now rewrite Sd). rewrite E1, E2.
  unfold orthogonal_set. cbn [Nat.eqb bind].
  apply fill_complex_ok. intros c t Hc Ht. destruct (HD t c h0 Ht Hc) as (Eg & Wg & Hg).
  destruct (evo_at HE L1 L2 L3 WF WR Hl Ht) as (Rt & f & f' & p & G1 & G2 & G3 & G4 & G5 & G6 & Wr & Wf & Wf' & Wp & Ef & El).
  unfold idx. rewrite G1, G3. cbn [bind]. rewrite (op_dag_mdag Wr). rewrite (@mm_ok F 2 2 2) by wf_solve. cbn [bind]. rewrite Eg.
  rewrite (@grape_sum Rt V f' (H t c)) by auto. cbn [bind]. rewrite div12. rewrite El. rewrite <- G5, <- G6. unfold du_value. f_equal. f_equal. f_equal.
  replace (nth t ps z0) with p by (symmetry; now apply nth_error_nth).
  rewrite (@mmul_scale_l S 2 2 2) by wf_solve. rewrite (@mmul_scale_r S 2 2 2) by wf_solve. rewrite <- (@mmul_assoc S 2 2 2 2) by wf_solve. rewrite <- Ef.
  assert (WZ : wfm (S:=S) 2 2 (Rt @@ (H t c @@ f'))) by wf_solve. rewrite !overlap_hs.
  assert (WZ' : wfm (S:=S) 2 2 (mscale (S:=S) (cmul (copp ci) (cofk dt)) (Rt @@ (H t c @@ f')))) by wf_solve.
  rewrite <- (hs_trace WV WZ'), <- (hs_trace WV WZ). rewrite (@mmul_scale_r S 2 2 2) by wf_solve. rewrite (@mtrace_mscale S 2) by wf_solve.
  destruct (hs 2 2 V l), (tr (V^+ @@ (Rt @@ (H t c @@ f')))). unfold cmul, cconj, cofk, cim, cre, ci, copp. cbn [fst snd smul CStar]. unfold cmul. cbn [fst snd]. ring.
Qed.
End PCD.
