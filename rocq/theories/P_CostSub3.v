(** The costs of StateInfidelitySubspace, where it fails, and concrete cases. *)
Require Import List Arith Lia Bool Permutation ZArith QArith Qcanon Reals Lra.
From Verif Require Import LibBase LibRing LibArr LibCplx LibMat LibNorm LibEx LibDeriv M_Matrix S_Linear S_Deriv P_Linear P_Matrix M_Solver M_Cost M_CostSub S_Cost S_CostGrad P_Loops P_Cost P_Cost2 P_CostGrad P_CostGrad2 P_CostWit
  S_PTrace P_PTrace S_CostSub P_CostSub P_CostSub2.
Import ListNotations.
Open Scope nat_scope.
Set Implicit Arguments.
Notation iter := (fun l : list nat => l).

Section Cost.
Variable F : OField.
Notation S := (CStar F).
Notation op := (op F).
Variables (dims removed : list nat) (L : nat -> nat -> nat).
Hypothesis HPP : proper_part dims removed.
Hypothesis HL : places dims removed L.
(** the target as a ket or as a bra *)
Lemma part_costs_ket (tol : F) r (t phi psi : op) : is_last (r_fwd r) psi -> is_matrix (whole dims) 1 psi -> is_matrix (own dims removed) 1 phi -> 1 < own dims removed -> is_bra_of (own dims removed) t phi ->
  state_infidelity_part iter tol r phi dims removed = Ok (ksub k1 (found dims removed L t psi)).
Proof.
  intros Hl W Hp Hn [Ht E]. unfold state_infidelity_part. rewrite (idx_last_ok Hl). cbn [bind].
  assert (as_bra phi = t).
  { rewrite is_matrix_wfm in Hp, Ht. unfold as_bra. rewrite (wfm_nr Hp), (wfm_nc Hp). destruct (Nat.ltb_spec 1 (own dims removed)); [|lia]. rewrite (op_dag_mdag Hp).
    apply (@mat_ext S 1 (own dims removed)); [now apply wfm_mdag|auto|]. intros i j Hi Hj. assert (i = 0) by lia. subst i. rewrite (@mg_mdag S (own dims removed) 1) by auto. now rewrite E. }
  subst t. now rewrite (ket_value HPP HL tol Ht W).
Qed.
Lemma part_costs_bra (tol : F) r (t psi : op) : is_last (r_fwd r) psi -> is_matrix (whole dims) 1 psi -> is_matrix 1 (own dims removed) t -> 0 < own dims removed ->
  state_infidelity_part iter tol r t dims removed = Ok (ksub k1 (found dims removed L t psi)).
Proof.
  intros Hl W Ht Hn. unfold state_infidelity_part. rewrite (idx_last_ok Hl). cbn [bind].
  assert (as_bra t = t). { pose proof Ht as Wt. rewrite is_matrix_wfm in Wt. unfold as_bra. rewrite (wfm_nr Wt), (wfm_nc Wt). destruct (Nat.ltb_spec (own dims removed) 1); [lia|reflexivity]. }
  rewrite H. now rewrite (ket_value HPP HL tol Ht W).
Qed.
(** not Hermitian: the branch that should warn raises *)
Lemma complex_raises (tol : F) (t rho : op) : is_matrix 1 (own dims removed) t -> is_matrix (whole dims) (whole dims) rho ->
  ~ kle (kmul (cim (found_mixed dims removed L t rho)) (cim (found_mixed dims removed L t rho))) (kmul tol tol) ->
  state_fidelity_subspace iter tol t rho dims removed = Err IndexError.
Proof.
  intros Ht W H. pose proof (large HPP).
  assert (TR : traced dims removed rho rho).
  { unfold traced. rewrite is_matrix_wfm in W. rewrite (wfm_nc W). replace (Nat.eqb (whole dims) 1) with false by (symmetry; apply Nat.eqb_neq; lia).
    rewrite Bool.andb_false_r. split; [reflexivity|discriminate]. }
  rewrite (value_of HPP HL tol Ht TR W). cbv zeta. unfold kle in H. destruct (kleb _ _); [exfalso; now apply H|reflexivity].
Qed.
End Cost.
Lemma part_costs (F : OField) dims removed L (tol : F) r (t phi psi : op F) : proper_part dims removed -> places dims removed L ->
  is_last (r_fwd r) psi -> is_matrix (whole dims) 1 psi -> is_matrix (own dims removed) 1 phi -> 1 < own dims removed -> is_bra_of (own dims removed) t phi ->
  state_infidelity_part iter tol r phi dims removed = Ok (ksub k1 (found dims removed L t psi)) /\
  state_infidelity_part iter tol r t dims removed = Ok (ksub k1 (found dims removed L t psi)).
Proof.
  intros H1 H2 Hl W Wp Hn Hb. split; [now apply part_costs_ket|]. apply part_costs_bra; auto; [apply Hb|lia].
Qed.
(** density matrices as vectors: the costs are returned, the gradient raises *)
Lemma stacked_gradient dims removed T Cn r phi : proper_part dims removed -> T <> 0 ->
  propagator_lists (whole dims * whole dims) 1 T Cn (r_fwd r) (r_der r) (r_rev r) ->
  state_infidelity_part_grad (F:=RField) iter r phi dims removed = Err AssertionError.
Proof.
  intros HPP HT HL. pose proof (large HPP) as HD. destruct (has_last HL) as (l & Hl & Wl). pose proof HL as (L1 & F1 & L2 & F2 & L3 & L4 & F3).
  unfold state_infidelity_part_grad, derivative_state_fidelity_subspace. destruct (r_der r) as [|row0 ders'] eqn:ED; [cbn in L3; lia|]. unfold idx at 1. cbn [nth_error bind].
  rewrite (idx_last_ok Hl). cbn [bind]. assert (Er : length row0 = T) by (inversion F3; tauto). rewrite Er, L3.
  destruct T as [|T]; [lia|]. destruct Cn as [|Cn]; [lia|]. unfold fill_derivative. cbn [seq mapM].
  destruct (@total_ok (whole dims * whole dims) 1 (Datatypes.S T) (Datatypes.S Cn) _ _ _ 0 0 HL) as (row & D & Rt & f0 & E1 & E2 & E3 & E4 & W1 & W2 & W3 & E5); try lia.
  rewrite E5. cbn [bind]. rewrite (op_dag_mdag Wl).
  assert (WZ : wfm (S:=RS) (whole dims * whole dims) 1 (mmul (S:=RS) Rt (mmul (S:=RS) D f0))) by wf_solve.
  assert (WD : wfm (S:=RS) 1 (whole dims * whole dims) (mdag (S:=RS) l)) by wf_solve.
  rewrite (mm_ok WZ WD). cbn [bind].
  rewrite (@op_ptrace_mismatch RField iter dims removed _ (whole dims * whole dims)); [reflexivity|apply is_matrix_wfm; wf_solve|nia|fold (whole dims); nia].
Qed.

(** ---- concrete cases ---- *)
Lemma two_qubits : proper_part [2; 2] [1].
Proof. split; [constructor; [intros []|constructor]|]. split; [intros q [<-|[]]; cbn; lia|]. split; [discriminate|]. cbn. lia. Qed.
Lemma three_parts : proper_part [2; 3; 2] [2; 0] /\ place [2; 3; 2] [2; 0] 1 2 = 10.
Proof.
  split; [|reflexivity]. split; [constructor; [intros [H|[]]; discriminate|constructor; [intros []|constructor]]|].
  split; [intros q [<-|[<-|[]]]; cbn; lia|]. split; [discriminate|]. cbn. lia.
Qed.
(** 3/5 |00> + 4i/5 |11> and the product of e34 with a rotated state *)
Definition bell : qop := mq 4 1 [[cq 3 0 5]; [c0]; [c0]; [cq 0 4 5]].
Definition chi34 : qop := mq 2 1 [[cq 4 0 5]; [cq (-3)%Z 0 5]].
Definition prod34 : qop := mq 4 1 [[cq 12 0 25]; [cq (-9)%Z 0 25]; [cq 0 16 25]; [cq 0 (-12)%Z 25]].
Definition bell' : qop := mq 4 1 [[cq 9 0 25]; [cq 12 0 25]; [cq 0 (-16)%Z 25]; [cq 0 12 25]].
Lemma ru_unitary : is_unitary (S:=QS) 2 ru.
Proof. qunit. Qed.
Lemma qproduct : is_product_state (F:=Qf) [2; 2] [1] (place [2; 2] [1]) e34 chi34 prod34.
Proof. split; [split; [reflexivity|vm_compute; reflexivity]|]. change (rest [2;2] [1]) with 2. change (own [2;2] [1]) with 2. qfin. Qed.
Lemma qacted : acted_on_rest (F:=Qf) [2; 2] [1] (place [2; 2] [1]) ru bell bell'.
Proof. split; [split; [reflexivity|vm_compute; reflexivity]|]. change (rest [2;2] [1]) with 2. change (own [2;2] [1]) with 2. qfin. Qed.
Lemma part_case : is_state (F:=Qf) 4 bell /\ is_state (F:=Qf) 2 chi34 /\ state_fidelity_subspace iter (qq 1 100000) e0b bell [2; 2] [1] = Ok (qq 9 25) /\
  state_fidelity_subspace iter (qq 1 100000) e0b bell' [2; 2] [1] = Ok (qq 9 25) /\ state_fidelity_subspace iter (qq 1 100000) e0b prod34 [2; 2] [1] = Ok (qq 9 25).
Proof.
  split; [split; [split; [reflexivity|vm_compute; reflexivity]|qc]|]. split; [split; [split; [reflexivity|vm_compute; reflexivity]|qc]|].
  split; [|split]; apply keqr_ok; vm_compute; reflexivity.
Qed.
(** a density matrix that is not pure, and the same as a vector *)
Definition mixed : qop := mq 4 4 [[cq 1 0 2; c0; c0; cq 0 1 4]; [c0; cq 1 0 4; c0; c0]; [c0; c0; c0; c0]; [cq 0 (-1)%Z 4; c0; c0; cq 1 0 4]].
Definition mixed_vec : qop := mk2 16 1 (fun i _ => mg mixed (i mod 4) (i / 4)).
Lemma mixed_case : is_hermitian (S:=QS) 4 mixed /\ stacked (F:=Qf) 4 mixed mixed_vec /\
  state_fidelity_subspace iter (qq 1 100000) e0b mixed [2; 2] [1] = Ok (qq 3 4) /\ state_fidelity_subspace iter (qq 1 100000) e0b mixed_vec [2; 2] [1] = Ok (qq 3 4).
Proof.
  split; [split; [split; [reflexivity|vm_compute; reflexivity]|qfin]|]. split.
  { split; [split; [reflexivity|vm_compute; reflexivity]|]. intros i j Hi Hj. unfold mixed_vec. rewrite mg_mk2 by lia. rewrite Nat.div_add_l, Nat.div_small, Nat.add_0_r by lia.
    rewrite Nat.add_comm, Nat.mod_add, Nat.mod_small by lia. reflexivity. }
  split; apply keqr_ok; vm_compute; reflexivity.
Qed.
(** a propagator in the place of a density matrix *)
Definition phase4 : qop := mq 4 4 [[cq 0 1 1; c0; c0; c0]; [c0; c1; c0; c0]; [c0; c0; c1; c0]; [c0; c0; c0; c1]].
Lemma complex_case : is_unitary (S:=QS) 4 phase4 /\ kleb (kmul (cim (found_mixed (F:=Qf) [2;2] [1] (place [2;2] [1]) e0b phase4)) (cim (found_mixed (F:=Qf) [2;2] [1] (place [2;2] [1]) e0b phase4))) (kmul (qq 1 100000) (qq 1 100000)) = false.
Proof. split; [qunit|vm_compute; reflexivity]. Qed.

(** cos h |00> + sin h |11> *)
Definition ent (h : R) : rop := mk2 4 1 (fun i _ => match i with 0 => rr (cos h) | 3 => rr (sin h) | _ => rr 0 end).
Definition dent (h : R) : rop := mk2 4 1 (fun i _ => match i with 0 => rr (- sin h) | 3 => rr (cos h) | _ => rr 0 end).
(** the derivative of the rotation in the plane of |00> and |11>: its first column matters *)
Definition dent4 (h : R) : rop := mk2 4 4 (fun i j => match j with 0 => mg (dent h) i 0 | _ => rr 0 end).
Definition ket00 : rop := mk2 4 1 (fun i _ => match i with 0 => c1 | _ => c0 end).
Definition ent_reads (a : R) : reads RField := mkreads [ket00; ent a] [mid (S:=RS) 4; mid (S:=RS) 4] [[dent4 a]] [] [] [] 0 1 1.
Lemma ent_final a : final_propagator 4 1 1 1 (r_fwd (ent_reads a)) (r_der (ent_reads a)) (r_rev (ent_reads a)) (only 0 0) ent a.
Proof.
  assert (Wd : wfm (S:=RS) 4 1 (dent a)) by apply wfm_mk2. assert (W4 : wfm (S:=RS) 4 4 (dent4 a)) by apply wfm_mk2. assert (W0 : wfm (S:=RS) 4 1 ket00) by apply wfm_mk2.
  assert (P0 : mmul (S:=RS) (dent4 a) ket00 = dent a).
  { apply (@mat_ext RS 4 1); [wf_solve|auto|]. intros i j Hi Hj. assert (j = 0) by lia. subst j. rewrite (@mg_mmul RS 4 4 1) by auto.
    rewrite (@sumn_single RS 4 0); [|lia|].
    - unfold dent4, ket00. rewrite !mg_mk2 by lia. set (z := mg (dent a) i 0 : RC). clearbody z. change (cmul z c1 = z). cring.
    - intros l Hl Nl. unfold dent4. rewrite mg_mk2 by lia. destruct l; [lia|]. unfold ket00. rewrite mg_mk2 by lia. change (cmul (rr 0) (c0 : RC) = c0). cring. }
  split; [intros h; apply is_matrix_wfm; apply wfm_mk2|]. split; [now exists [ket00]|].
  exists (fun _ _ => dent a). split.
  { intros t c Ht Hc. destruct t, c; try lia. exists [dent4 a], (dent4 a), (mid (S:=RS) 4), ket00, (dent a). do 4 (split; [reflexivity|]).
    split. { rewrite <- P0. apply is_product_mmul; auto. }
    pose proof (@is_product_mmul RS 4 4 1 (mid (S:=RS) 4) (dent a)) as P. rewrite (@mmul_1_l RS 4 1 (dent a) Wd) in P. apply P; auto; apply wfm_mid. }
  intros i j Hi Hj. apply (@cderiv_eq _ _ (mg (dent a) i j)). { cbn [sumn]. unfold only. cbn [Nat.eqb andb]. change (cofk (1%R : RField)) with (c1 : RC). simpl. cring. }
  unfold ent, dent. rewrite mg_mk2 by auto. apply (@cderiv_ext (fun h => match i with 0 => rr (cos h) | 3 => rr (sin h) | _ => rr 0 end)).
  { intros h. now rewrite mg_mk2. }
  destruct i as [|[|[|[|i]]]]; try lia; apply rr_deriv; try apply derivable_pt_lim_cos; try apply derivable_pt_lim_sin; apply derivable_pt_lim_const.
Qed.
Lemma ent_lists a : propagator_lists 4 1 1 1 (r_fwd (ent_reads a)) (r_der (ent_reads a)) (r_rev (ent_reads a)).
Proof.
  assert (W : forall h, is_matrix 4 1 (ent h)) by (intros; apply is_matrix_wfm; apply wfm_mk2). assert (Wd : is_matrix 4 4 (dent4 a)) by (apply is_matrix_wfm; apply wfm_mk2).
  assert (Wi : is_matrix 4 4 (mid (S:=RS) 4)) by (apply is_matrix_wfm; apply wfm_mid). assert (W0 : is_matrix 4 1 ket00) by (apply is_matrix_wfm; apply wfm_mk2).
  do 7 (try split; cbn; auto).
Qed.
Definition k0r : rop := mk2 2 1 (fun i _ => match i with 0 => c1 | _ => c0 end).
Definition b0r : rop := mk2 1 2 (fun _ j => match j with 0 => c1 | _ => c0 end).
Lemma found_ent h : found (F:=RField) [2; 2] [1] (place [2; 2] [1]) b0r (ent h) = (cos h * cos h)%R.
Proof.
  unfold found. change (rest [2;2] [1]) with 2. change (own [2;2] [1]) with 2. cbn [sumn].
  change (place [2;2] [1] 0 0) with 0. change (place [2;2] [1] 0 1) with 2. change (place [2;2] [1] 1 0) with 1. change (place [2;2] [1] 1 1) with 3.
  unfold ent, b0r. rewrite !mg_mk2 by lia. unfold cnorm2, rr, cofk. cbn. ring.
Qed.
(** the entangled state: the gradient of the infidelity at pi/4 *)
Lemma ent_case : exists g, state_infidelity_part_grad (F:=RField) iter (ent_reads (PI/4)) k0r [2; 2] [1] = Ok g /\ get2 0%R g 0 0 = 1%R.
Proof.
  assert (Wk : is_matrix (S:=RS) 2 1 k0r) by (apply is_matrix_wfm; apply wfm_mk2).
  destruct (@part_infidelity_gradient [2; 2] [1] two_qubits 0%R 1 1 (ent_reads (PI/4)) k0r) as (g & E & [_ HG]); [exact Wk|cbn; lia|apply ent_lists|].
  exists g. split; auto.
  specialize (HG (only 0 0) ent (PI/4)%R (fun h => 1 - cos h * cos h)%R (ent_final _)). rewrite (@Rsum_only 1 1 (fun t c => get2 0%R g t c) 0 0 Nat.lt_0_1 Nat.lt_0_1) in HG.
  assert (G : derivable_pt_lim (fun h => 1 - cos h * cos h)%R (PI/4) (get2 0%R g 0 0)).
  { apply HG. intros h r Hr. rewrite (@part_costs_ket RField [2;2] [1] (place [2;2] [1]) two_qubits (place_ok two_qubits) 0%R r b0r k0r (ent h)); auto.
    - now rewrite found_ent.
    - apply is_matrix_wfm. apply wfm_mk2.
    - split; [apply is_matrix_wfm; apply wfm_mk2|]. change (own [2;2] [1]) with 2. intros i Hi. unfold b0r, k0r. rewrite !mg_mk2 by lia. destruct i; unfold cconj, c1, c0; cbn; f_equal; lra. }
  assert (G' : derivable_pt_lim (fun h => 1 - cos h * cos h)%R (PI/4) (0 - ((- sin (PI/4)) * cos (PI/4) + cos (PI/4) * (- sin (PI/4))))%R).
  { apply derivable_pt_lim_minus; [apply derivable_pt_lim_const|]. apply derivable_pt_lim_mult; apply derivable_pt_lim_cos. }
  rewrite (uniqueness_limite _ _ _ _ G G'). pose proof (sin2_cos2 (PI/4)) as H. unfold Rsqr in H.
  assert (sin (PI/4) = cos (PI/4)) by (rewrite sin_PI4, cos_PI4; reflexivity). rewrite H0 in *. lra.
Qed.
(** density matrices as vectors: a solver for two qubits *)
Definition vec16 : rop := mk2 16 1 (fun i _ => match i with 0 => c1 | _ => c0 end).
Definition vec_reads : reads RField := mkreads [vec16; vec16] [mid (S:=RS) 16; mid (S:=RS) 16] [[mid (S:=RS) 16]] [] [] [] 0 1 1.
Lemma vec_lists : propagator_lists (whole [2;2] * whole [2;2]) 1 1 1 (r_fwd vec_reads) (r_der vec_reads) (r_rev vec_reads).
Proof.
  change (whole [2;2] * whole [2;2]) with 16. cbn [r_fwd r_der r_rev vec_reads].
  assert (W0 : is_matrix (S:=RS) 16 1 vec16) by (apply is_matrix_wfm; apply wfm_mk2). assert (W1 : is_matrix (S:=RS) 16 16 (mid (S:=RS) 16)) by (apply is_matrix_wfm; apply wfm_mid).
  unfold propagator_lists. cbn [length]. repeat split; auto.
Qed.
