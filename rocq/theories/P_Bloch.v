(** Proofs about the points on the Bloch sphere (C81). *)
Require Import List Arith Lia Bool Ring Field.
From Verif Require Import LibBase LibRing LibArr LibCplx LibMat M_Matrix S_Linear P_Linear P_Matrix M_Bloch S_Bloch.
Import ListNotations.
Set Implicit Arguments.
Open Scope k_scope.

Section P.
Variable F : OField.
Add Field Ffield_bloch : (k_field F).
Add Field Cfield_bloch : (c_field F).
Notation S := (CStar F).
Notation C := (cplx F).
Variable other : op F -> res (point F).

Definition pt (psi : op F) : point F := (expect_ket (sigmax F) psi, expect_ket (sigmay F) psi, expect_ket (sigmaz F) psi).
Lemma expect_entries (A psi : op F) : wfm 2 2 A -> wfm 2 1 psi ->
  expect_ket A psi = cre (cadd (cmul (cconj psi.[0,0]) (cadd (cmul A.[0,0] psi.[0,0]) (cmul A.[0,1] psi.[1,0])))
                               (cmul (cconj psi.[1,0]) (cadd (cmul A.[1,0] psi.[0,0]) (cmul A.[1,1] psi.[1,0])))).
Proof.
  intros WA W. unfold expect_ket. rewrite (@mg_mmul S 1 2 1) by (try lia; auto using wfm_mdag; eapply wfm_mmul; eauto).
  cbn [sumn]. rewrite !(@mg_mdag S 2 1) by (auto; lia). rewrite !(@mg_mmul S 2 2 1) by (auto; lia). cbn [sumn].
  f_equal. tocplx. ring.
Qed.
Lemma wfm_sx : wfm 2 2 (sigmax F : mat S). Proof. split; reflexivity. Qed.
Lemma wfm_sy : wfm 2 2 (sigmay F : mat S). Proof. split; reflexivity. Qed.
Lemma wfm_sz : wfm 2 2 (sigmaz F : mat S). Proof. split; reflexivity. Qed.
(** the coordinates by the amplitudes of the ket *)
Lemma pt_entries (psi : op F) a b c d : wfm 2 1 psi -> psi.[0,0] = (a, b) -> psi.[1,0] = (c, d) ->
  pt psi = ((1 + 1) * (a * c + b * d), (1 + 1) * (a * d - b * c), a * a + b * b - (c * c + d * d)).
Proof.
  intros W E0 E1. unfold pt. rewrite !expect_entries by auto using wfm_sx, wfm_sy, wfm_sz. rewrite E0, E1.
  unfold sigmax, sigmay, sigmaz, mg, get2, getn. cbn [shape data ravel prodn nth Nat.mul Nat.add].
  unfold cre, cadd, cmul, cconj, copp, c0, c1, ci. cbn [fst snd]. f_equal; [f_equal|]; ring.
Qed.
Lemma braket_entries (phi psi : op F) a b c d a' b' c' d' : phi.[0,0] = (a, b) -> phi.[1,0] = (c, d) -> psi.[0,0] = (a', b') -> psi.[1,0] = (c', d') ->
  braket phi psi = (a * a' + b * b' + (c * c' + d * d'), a * b' - b * a' + (c * d' - d * c')).
Proof. intros E1 E2 E3 E4. unfold braket. rewrite E1, E2, E3, E4. unfold cadd, cmul, cconj. cbn [fst snd]. f_equal; ring. Qed.

Lemma pt_describes psi : qubit psi -> describes (pt psi) psi.
Proof.
  intros [W N]. apply is_matrix_wfm in W. destruct (psi.[0,0]) as [a b] eqn:E0. destruct (psi.[1,0]) as [c d] eqn:E1.
  rewrite (pt_entries W E0 E1). rewrite (braket_entries _ _ E0 E1 E0 E1) in N. unfold c1 in N. injection N as N _.
  unfold describes, two. rewrite E0, E1. unfold cmul, cofk, cconj. cbn [fst snd].
  split; [f_equal; [|ring]; transitivity ((a * a + b * b + (c * c + d * d)) + (a * a + b * b - (c * c + d * d))); [ring|rewrite N; ring]|].
  split; [f_equal; ring|]. split; [f_equal; ring|]. f_equal; [|ring].
  transitivity ((a * a + b * b + (c * c + d * d)) - (a * a + b * b - (c * c + d * d))); [ring|rewrite N; ring].
Qed.
Lemma dot_braket phi psi : qubit phi -> qubit psi -> dot (pt phi) (pt psi) = (1 + 1) * cnorm2 (braket phi psi) - 1.
Proof.
  intros [W N] [W' N']. apply is_matrix_wfm in W. apply is_matrix_wfm in W'.
  destruct (phi.[0,0]) as [a b] eqn:E0. destruct (phi.[1,0]) as [c d] eqn:E1. destruct (psi.[0,0]) as [a' b'] eqn:E2. destruct (psi.[1,0]) as [c' d'] eqn:E3.
  rewrite (pt_entries W E0 E1), (pt_entries W' E2 E3), (braket_entries _ _ E0 E1 E2 E3). 
  rewrite (braket_entries _ _ E0 E1 E0 E1) in N. rewrite (braket_entries _ _ E2 E3 E2 E3) in N'. injection N as N _. injection N' as N' _.
  unfold dot, cnorm2. cbn [fst snd]. transitivity ((1 + 1) * ((a * a' + b * b' + (c * c' + d * d')) * (a * a' + b * b' + (c * c' + d * d')) + (a * b' - b * a' + (c * d' - d * c')) * (a * b' - b * a' + (c * d' - d * c')))
    - (a * a + b * b + (c * c + d * d)) * (a' * a' + b' * b' + (c' * c' + d' * d'))); [ring|]. rewrite N, N'. ring.
Qed.
Lemma pt_sphere psi : qubit psi -> on_sphere (pt psi).
Proof.
  intros Q. pose proof (dot_braket Q Q) as D. destruct Q as [_ N]. rewrite N in D. unfold cnorm2, c1 in D. cbn [fst snd] in D.
  unfold on_sphere, pt. unfold dot, pt in D. rewrite D. ring.
Qed.
(** a matrix with orthonormal columns keeps inner products *)
Lemma braket_isometry U phi psi : isometry U -> is_matrix (S:=S) 2 1 phi -> is_matrix (S:=S) 2 1 psi ->
  braket (mmul (S:=S) U phi) (mmul (S:=S) U psi) = braket phi psi.
Proof.
  intros [WU O] W W'. apply is_matrix_wfm in WU. apply is_matrix_wfm in W. apply is_matrix_wfm in W'.
  pose proof (O 0 0 ltac:(lia) ltac:(lia))%nat as O1. pose proof (O 0 1 ltac:(lia) ltac:(lia))%nat as O2. pose proof (O 1 0 ltac:(lia) ltac:(lia))%nat as O3. pose proof (O 1 1 ltac:(lia) ltac:(lia))%nat as O4.
  unfold delta in *. cbn [Nat.eqb sumn] in *. unfold braket. rewrite !(@mg_mmul S 2 2 1) by (auto; lia). cbn [sumn]. 
  tocplx. rewrite !cconj_add, !cconj_mul.
  set (a := cconj (phi.[0,0])). set (b := cconj (phi.[1,0])). 
  assert (Z : cconj c0 = (c0 : C)) by (unfold cconj, c0; cbn; f_equal; ring). try rewrite Z.
  transitivity (cadd (cadd (cmul (cmul a (psi.[0,0])) (cadd (cadd c0 (cmul (cconj (U.[0,0])) (U.[0,0]))) (cmul (cconj (U.[1,0])) (U.[1,0]))))
                           (cmul (cmul a (psi.[1,0])) (cadd (cadd c0 (cmul (cconj (U.[0,0])) (U.[0,1]))) (cmul (cconj (U.[1,0])) (U.[1,1])))))
                     (cadd (cmul (cmul b (psi.[0,0])) (cadd (cadd c0 (cmul (cconj (U.[0,1])) (U.[0,0]))) (cmul (cconj (U.[1,1])) (U.[1,0]))))
                           (cmul (cmul b (psi.[1,0])) (cadd (cadd c0 (cmul (cconj (U.[0,1])) (U.[0,1]))) (cmul (cconj (U.[1,1])) (U.[1,1])))))).
  { ring. }
  change (cadd (cadd c0 (cmul (cconj (U.[0,0])) (U.[0,0]))) (cmul (cconj (U.[1,0])) (U.[1,0])) = c1) in O1.
  change (cadd (cadd c0 (cmul (cconj (U.[0,0])) (U.[0,1]))) (cmul (cconj (U.[1,0])) (U.[1,1])) = c0) in O2.
  change (cadd (cadd c0 (cmul (cconj (U.[0,1])) (U.[0,0]))) (cmul (cconj (U.[1,1])) (U.[1,0])) = c0) in O3.
  change (cadd (cadd c0 (cmul (cconj (U.[0,1])) (U.[0,1]))) (cmul (cconj (U.[1,1])) (U.[1,1])) = c1) in O4.
  rewrite O1, O2, O3, O4. ring.
Qed.
Lemma qubit_isometry U psi : isometry U -> qubit psi -> qubit (mmul (S:=S) U psi).
Proof.
  intros I [W N]. split; [|rewrite (braket_isometry I W W); exact N]. destruct I as [WU _]. apply is_matrix_wfm in WU. apply is_matrix_wfm in W. apply is_matrix_wfm. exact (wfm_mmul WU W).
Qed.
Lemma points_ok (props : list (op F)) psi : props <> [] -> Forall isometry props -> qubit psi ->
  bloch_points other props psi = Ok (map (fun U => pt (mmul (S:=S) U psi)) props).
Proof.
  intros NE FA Q. unfold bloch_points. destruct props as [|p0 props]; [congruence|].
  assert (W0 : wfm 2 2 p0) by (inversion FA as [|? ? [X _]]; now apply is_matrix_wfm). rewrite (wfm_nr W0). cbn [Nat.eqb].
  pose proof (proj1 Q) as W. apply is_matrix_wfm in W. rewrite Forall_forall in FA.
  rewrite (@mapM_Ok _ _ (fun prop => op_mul prop (ODense psi)) (fun U => mmul (S:=S) U psi)).
  2:{ intros U HU. destruct (FA U HU) as [WU _]. apply is_matrix_wfm in WU. now apply (@op_mul_dense F 2 2 1). }
  cbn [bind]. rewrite <- (map_map (fun U => mmul (S:=S) U psi) pt). apply mapM_Ok. intros phi Hphi. apply in_map_iff in Hphi. destruct Hphi as (U & <- & HU).
  destruct (FA U HU) as [WU _]. apply is_matrix_wfm in WU. assert (WP : wfm 2 1 (mmul (S:=S) U psi)) by (exact (wfm_mmul WU W)).
  unfold bloch_point. rewrite (wfm_nr WP), (wfm_nc WP). reflexivity.
Qed.

(** C81 *)
Theorem bloch_evolution (props : list (op F)) psi : props <> [] -> Forall isometry props -> qubit psi ->
  exists pts, bloch_points other props psi = Ok pts /\ length pts = length props /\
  forall t U, nth_error props t = Some U -> exists p phi, nth_error pts t = Some p /\ is_product (S:=S) 2 2 1 U psi phi /\ on_sphere p /\ describes p phi.
Proof.
  intros NE FA Q. eexists. split; [now apply points_ok|]. split; [apply map_length|]. intros t U HU.
  assert (I : isometry U) by (rewrite Forall_forall in FA; apply FA; eapply nth_error_In; eauto).
  exists (pt (mmul (S:=S) U psi)), (mmul (S:=S) U psi). split; [exact (map_nth_error (fun U => pt (mmul (S:=S) U psi)) _ _ HU)|].
  pose proof (qubit_isometry I Q) as Q'. split; [|split; [now apply pt_sphere|now apply pt_describes]].
  destruct I as [WU _]. destruct Q as [W _]. apply is_product_mmul; now apply is_matrix_wfm.
Qed.
Theorem bloch_angle (props : list (op F)) phi psi ps qs : props <> [] -> Forall isometry props -> qubit phi -> qubit psi ->
  bloch_points other props phi = Ok ps -> bloch_points other props psi = Ok qs ->
  forall t p q, nth_error ps t = Some p -> nth_error qs t = Some q -> dot p q = (1 + 1) * cnorm2 (braket phi psi) - 1.
Proof.
  intros NE FA Q Q' E E' t p q Hp Hq. rewrite points_ok in E, E' by auto. injection E as <-. injection E' as <-.
  destruct (nth_error props t) as [U|] eqn:HU; [|apply nth_error_None in HU; assert (length (map (fun U => pt (mmul (S:=S) U phi)) props) <= t)%nat by (rewrite map_length; auto); apply nth_error_None in H; congruence].
  rewrite (map_nth_error _ _ _ HU) in Hp; rewrite (map_nth_error _ _ _ HU) in Hq. injection Hp as <-. injection Hq as <-.
  assert (I : isometry U) by (rewrite Forall_forall in FA; apply FA; eapply nth_error_In; eauto).
  rewrite dot_braket by now apply qubit_isometry. rewrite braket_isometry; auto; [apply Q|apply Q'].
Qed.
Theorem bloch_phase (props : list (op F)) psi c : props <> [] -> Forall isometry props -> qubit psi -> cmul c (cconj c) = c1 ->
  bloch_points other props (mscale (S:=S) c psi) = bloch_points other props psi.
Proof.
  intros NE FA Q HC. pose proof (proj1 Q) as W. apply is_matrix_wfm in W.
  assert (Q' : qubit (mscale (S:=S) c psi)).
  { split; [apply is_matrix_wfm; now apply wfm_mscale|]. destruct Q as [_ N]. unfold braket in *. rewrite !(@mg_mscale S 2 1) by (auto; lia). tocplx. rewrite !cconj_mul.
    transitivity (cmul (cmul c (cconj c)) (cadd (cmul (cconj (psi.[0,0])) (psi.[0,0])) (cmul (cconj (psi.[1,0])) (psi.[1,0])))); [ring|]. rewrite N, HC. ring. }
  rewrite !points_ok by auto. f_equal. apply map_ext_in. intros U HU. rewrite Forall_forall in FA. destruct (FA U HU) as [WU _]. apply is_matrix_wfm in WU.
  assert (WP : wfm 2 1 (mmul (S:=S) U psi)) by exact (wfm_mmul WU W).
  assert (WP' : wfm 2 1 (mmul (S:=S) U (mscale (S:=S) c psi))) by exact (wfm_mmul WU (@wfm_mscale S 2 1 c psi W)).
  assert (EC : forall i, (i < 2)%nat -> mg (mmul (S:=S) U (mscale (S:=S) c psi)) i 0 = cmul c (mg (mmul (S:=S) U psi) i 0)).
  { intros i Hi. rewrite !(@mg_mmul S 2 2 1) by (auto using wfm_mscale; lia). cbn [sumn]. rewrite !(@mg_mscale S 2 1) by (auto; lia). tocplx. ring. }
  destruct (mg (mmul (S:=S) U psi) 0 0) as [x y] eqn:E0. destruct (mg (mmul (S:=S) U psi) 1 0) as [z w] eqn:E1. destruct c as [r s].
  pose proof (EC 0%nat ltac:(lia)) as C0. pose proof (EC 1%nat ltac:(lia)) as C1. rewrite E0 in C0. rewrite E1 in C1. unfold cmul in C0, C1. cbn [fst snd] in C0, C1.
  rewrite (pt_entries WP' C0 C1), (pt_entries WP E0 E1). unfold cmul, cconj, c1 in HC. cbn [fst snd] in HC. injection HC as HC _.
  assert (R : r * r + s * s = 1) by (rewrite <- HC; ring).
  f_equal; [f_equal|].
  - transitivity ((r * r + s * s) * ((1 + 1) * (x * z + y * w))); [ring|]. rewrite R. ring.
  - transitivity ((r * r + s * s) * ((1 + 1) * (x * w - y * z))); [ring|]. rewrite R. ring.
  - transitivity ((r * r + s * s) * (x * x + y * y - (z * z + w * w))); [ring|]. rewrite R. ring.
Qed.
Theorem bloch_errors (props : list (op F)) psi :
  (props = [] -> bloch_points other props psi = Err IndexError) /\
  (forall p0 l m n, props = p0 :: l -> is_matrix (S:=S) m n p0 -> m <> 2%nat -> bloch_points other props psi = Err ValueError) /\
  (forall p0 l, props = p0 :: l -> is_matrix (S:=S) 2 1 p0 -> is_matrix (S:=S) 2 1 psi -> bloch_points other props psi = Err ValueError).
Proof.
  split; [intros ->; reflexivity|]. split.
  - intros p0 l m n -> W N. apply is_matrix_wfm in W. unfold bloch_points. rewrite (wfm_nr W). apply Nat.eqb_neq in N. now rewrite N.
  - intros p0 l -> W W'. apply is_matrix_wfm in W. apply is_matrix_wfm in W'. unfold bloch_points. rewrite (wfm_nr W). cbn [Nat.eqb mapM]. rewrite (@op_mul_dense_err F 2 1 2 1) by auto. reflexivity.
Qed.
End P.
