(** Proofs for C87, part 1: the changes of frame and the gates. *)
Require Import List Arith Lia Bool Reals Lra.
From Verif Require Import LibBase LibRing LibArr LibCplx LibMat LibDeriv M_Matrix S_Linear S_Deriv P_Linear P_Matrix P_Spectral P_Dexp M_Transfer M_Amplitude M_Solver S_Invariance P_Invariance P_Invariance2 S_Closed M_Rabi S_Rabi.
Import ListNotations.
Local Open Scope res_scope.
Set Implicit Arguments.

Section Frames.
Add Field Cfield_rb : (c_field RField).
Notation op := (mat RS).
Notation mm := (mmul (S:=RS)).

Ltac lv2 t := destruct t as [|[|?]]; try (exfalso; lia).
Lemma conj1 : cconj (@c1 RField) = c1. Proof. unfold cconj, c1. cbn. f_equal; ring. Qed.
Lemma conj0 : cconj (@c0 RField) = c0. Proof. unfold cconj, c0. cbn. f_equal; ring. Qed.
Ltac fin := tocplx; rewrite ?conj0, ?conj1; repeat split; cring.
Lemma wf2 (f : nat -> nat -> RC) : is_matrix (S:=RS) 2 2 (mk2 2 2 f). Proof. apply is_matrix_wfm, wfm_mk2. Qed.

(** ---- the exponential from a known decomposition ---- *)
Definition known (w : list RC) (V : op) : LinAlg RField := mkLA (F:=RField) (fun A => ([], A)) (fun _ => (w, V)) (fun A => A) (fun A B => (A, B)) (fun A => (A, [], A)) cexpR.
Lemma known_exp (la : LinAlg RField) (A : op) w V tau : diagonalises la A -> is_eigendecomposition (F:=RField) 2 A w V -> op_exp la A tau Spectral false = Ok (spectral_fun (F:=RField) w V (fun x => cexpR (cmul tau x))).
Proof.
  intros [E D] D'. rewrite (@spectral_independent RField la (known w V) false false 2 A tau E D D').
  destruct D' as [HA _]. apply is_matrix_wfm in HA. unfold op_exp. rewrite (wfm_nr HA), (wfm_nc HA). reflexivity.
Qed.
Lemma fun_entries (w0 w1 : RC) (V : op) (g : RC -> RC) i k : is_matrix 2 2 V -> i < 2 -> k < 2 ->
  mg (spectral_fun (F:=RField) [w0; w1] V g) i k = cadd (cmul (cmul V.[i,0] (g w0)) (cconj V.[k,0])) (cmul (cmul V.[i,1] (g w1)) (cconj V.[k,1])).
Proof.
  intros HV Hi Hk. apply is_matrix_wfm in HV. unfold spectral_fun. rewrite (wfm_nr HV), (wfm_nc HV), (@mg_mk2 RS) by auto. cbn [sumn nth].
  generalize (cmul (cmul V.[i,0] (g w0)) (cconj V.[k,0])) (cmul (cmul V.[i,1] (g w1)) (cconj V.[k,1])). intros a b. fin.
Qed.
Lemma fun_matrix (w : list RC) (V : op) (g : RC -> RC) : is_matrix 2 2 V -> is_matrix (S:=RS) 2 2 (spectral_fun (F:=RField) w V g).
Proof. intros HV. apply is_matrix_wfm in HV. unfold spectral_fun. rewrite (wfm_nr HV). apply wf2. Qed.

(** ---- exponentials of multiples of sigma_z ---- *)
Definition one2 : op := mk2 2 2 (fun i j => delta (S:=RS) i j : RC).
Lemma one2_unitary : is_unitary (S:=RS) 2 one2.
Proof.
  split; [apply wf2|]. split; intros i j Hi Hj; lv2 i; lv2 j; cbn [sumn]; unfold one2; rewrite !(@mg_mk2 RS) by lia; unfold delta; cbn [Nat.eqb]; fin.
Qed.
Lemma z_decomposition (A : op) (a : R) : entries A ((a, 0)%R : RC) c0 c0 ((- a, 0)%R : RC) -> is_eigendecomposition (F:=RField) 2 A [((a, 0)%R : RC); ((- a, 0)%R : RC)] one2.
Proof.
  intros (HA & A00 & A01 & A10 & A11). split; [exact HA|]. split; [reflexivity|]. split; [apply one2_unitary|].
  intros i j Hi Hj. cbn [sumn nth]. unfold one2. rewrite !(@mg_mk2 RS) by lia. lv2 i; lv2 j; rewrite ?A00, ?A01, ?A10, ?A11; unfold delta; cbn [Nat.eqb]; fin.
Qed.
Lemma turn_value (t w a : R) : cexpR (cmul (cmul (cmul ci (cofk (t : RField))) (cofk (w : RField))) ((a, 0)%R : RC)) = phase (- (a * (t * w))).
Proof.
  unfold phase. rewrite cos_neg, sin_neg, Ropp_involutive. unfold cexpR, cmul, ci, cofk. cbn [cre cim fst snd].
  match goal with |- (exp ?x * _, _)%R = _ => replace x with 0%R by (cbn; ring) end. rewrite exp_0, !Rmult_1_l.
  match goal with |- (cos ?x, _) = _ => replace x with (a * (t * w))%R by (cbn; ring) end. reflexivity.
Qed.
Lemma z_exp (la : LinAlg RField) (A : op) (a t w : R) : diagonalises la A -> entries A ((a, 0)%R : RC) c0 c0 ((- a, 0)%R : RC) ->
  exists E, op_exp la A (cmul (cmul ci (cofk (t : RField))) (cofk (w : RField))) Spectral false = Ok E /\ entries E (phase (- (a * (t * w)))) c0 c0 (phase (a * (t * w))).
Proof.
  intros D HA. eexists. split; [exact (known_exp _ D (z_decomposition HA))|].
  split; [apply fun_matrix, wf2|]. rewrite !fun_entries by (auto || apply wf2). rewrite !turn_value. replace (- (- a * (t * w)))%R with (a * (t * w))%R by ring.
  unfold one2. rewrite !(@mg_mk2 RS) by lia. unfold delta. cbn [Nat.eqb]. generalize (phase (- (a * (t * w)))) (phase (a * (t * w))). intros x y. fin.
Qed.
Lemma z_entries (a : R) : entries (times a (pauli_z RField)) ((a, 0)%R : RC) c0 c0 ((- a, 0)%R : RC).
Proof.
  split; [unfold times, mscale; apply wf2|]. unfold times, mscale, pauli_z. repeat split; rewrite (@mg_mk2 RS) by (cbn; lia); unfold mg, get2, getn, of_rows; cbn; unfold cmul, cofk, copp, c0, c1; cbn; f_equal; ring.
Qed.
Lemma half_diag la s : turns la s -> diagonalises la (times (s / 2) (pauli_z RField)).
Proof. intros H. apply H. destruct (z_entries (s / 2)) as (A & B & C & D & E). split; auto. Qed.

(** ---- products of 2 x 2 matrices ---- *)
Lemma entries_dag (A : op) a b c d : entries A a b c d -> entries (op_dag (F:=RField) A) (cconj a) (cconj c) (cconj b) (cconj d).
Proof.
  intros (HA & A00 & A01 & A10 & A11). pose proof HA as W. apply is_matrix_wfm in W. rewrite (@op_dag_mdag RField 2 2 A W).
  split; [apply is_matrix_wfm, (@wfm_mdag RS); exact W|]. rewrite !(@mg_mdag RS 2 2) by (auto; lia). rewrite A00, A01, A10, A11. repeat split.
Qed.
Lemma entries_mul (A B : op) a b c d a' b' c' d' : entries A a b c d -> entries B a' b' c' d' -> exists P, op_mul (F:=RField) A (ODense B) = Ok P /\
  entries P (cadd (cmul a a') (cmul b c')) (cadd (cmul a b') (cmul b d')) (cadd (cmul c a') (cmul d c')) (cadd (cmul c b') (cmul d d')).
Proof.
  intros (HA & A00 & A01 & A10 & A11) (HB & B00 & B01 & B10 & B11). apply is_matrix_wfm in HA. apply is_matrix_wfm in HB.
  exists (mm A B). split; [exact (@op_mul_dense RField 2 2 2 A B HA HB)|].
  split. { apply is_matrix_wfm. unfold mmul. rewrite (wfm_nr HA), (wfm_nc HB). apply wfm_mk2. }
  rewrite !(@mg_mmul RS 2 2 2) by (auto; lia). cbn [sumn]. rewrite A00, A01, A10, A11, B00, B01, B10, B11. fin.
Qed.
Lemma self_entries (P : op) : is_matrix 2 2 P -> entries P P.[0,0] P.[0,1] P.[1,0] P.[1,1]. Proof. intros H. repeat split; apply H. Qed.
Lemma conj_phase x : cconj (phase x) = phase (- x). Proof. unfold phase, cconj. cbn. now rewrite cos_neg, sin_neg. Qed.
Lemma phase_mul x y : cmul (phase x) (phase y) = phase (x + y). Proof. unfold phase, cmul. cbn. rewrite cos_plus, sin_plus. f_equal; ring. Qed.

(** ---- the change of frame ---- *)
Lemma prop_values (la : LinAlg RField) P t1 t0 w : turns la (-1) -> is_matrix 2 2 P -> exists Q, transform_prop_to_rot_frame la P t1 t0 w = Ok Q /\ in_frame w t1 t0 P Q.
Proof.
  intros T HP. apply half_diag in T. replace (-1 / 2)%R with (- / 2)%R in T by lra.
  destruct (z_exp t1 w T (z_entries _)) as (E1 & X1 & V1). destruct (z_exp t0 w T (z_entries _)) as (E0 & X0 & V0).
  unfold transform_prop_to_rot_frame. rewrite X1. cbn [bind]. rewrite X0. cbn [bind].
  destruct (entries_mul (entries_dag V1) (self_entries HP)) as (M & -> & HM). cbn [bind]. destruct (entries_mul HM V0) as (Q & -> & HQ). exists Q. split; auto.
  destruct HQ as (W & Q00 & Q01 & Q10 & Q11). split; auto. rewrite Q00, Q01, Q10, Q11. rewrite !conj_phase.
  replace (- - (- / 2 * (t1 * w)))%R with (- (w * t1 / 2))%R by lra. replace (- (- / 2 * (t1 * w)))%R with (w * t1 / 2)%R by lra.
  replace (- / 2 * (t0 * w))%R with (- (w * t0 / 2))%R by lra. rewrite Ropp_involutive.
  replace (- (w * (t1 - t0) / 2))%R with (- (w * t1 / 2) + w * t0 / 2)%R by lra. replace (- (w * (t1 + t0) / 2))%R with (- (w * t1 / 2) + - (w * t0 / 2))%R by lra.
  replace (w * (t1 + t0) / 2)%R with (w * t1 / 2 + w * t0 / 2)%R by lra. replace (w * (t1 - t0) / 2)%R with (w * t1 / 2 + - (w * t0 / 2))%R by lra.
  rewrite <- !phase_mul. generalize (phase (- (w * t1 / 2))) (phase (w * t1 / 2)) (phase (- (w * t0 / 2))) (phase (w * t0 / 2)) P.[0,0] P.[0,1] P.[1,0] P.[1,1]. intros. fin.
Qed.
Lemma prop_in_frame (la : LinAlg RField) P t1 t0 w Q : turns la (-1) -> is_matrix 2 2 P -> transform_prop_to_rot_frame la P t1 t0 w = Ok Q -> in_frame w t1 t0 P Q.
Proof. intros T HP H. destruct (prop_values t1 t0 w T HP) as (Q' & E & F). rewrite E in H. injection H as <-. exact F. Qed.
(** with a = exp(-i w t1 / 2) and b = exp(-i w t0 / 2) *)
Lemma frame_atoms w t1 t0 P Q : in_frame w t1 t0 P Q -> let a := phase (w * t1 / 2) in let b := phase (w * t0 / 2) in let a' := phase (- (w * t1 / 2)) in let b' := phase (- (w * t0 / 2)) in
  Q.[0,0] = cmul (cmul a' b) P.[0,0] /\ Q.[0,1] = cmul (cmul a' b') P.[0,1] /\ Q.[1,0] = cmul (cmul a b) P.[1,0] /\ Q.[1,1] = cmul (cmul a b') P.[1,1].
Proof.
  intros (_ & Q00 & Q01 & Q10 & Q11). cbv zeta. rewrite !phase_mul.
  replace (- (w * t1 / 2) + w * t0 / 2)%R with (- (w * (t1 - t0) / 2))%R by lra. replace (- (w * t1 / 2) + - (w * t0 / 2))%R with (- (w * (t1 + t0) / 2))%R by lra.
  replace (w * t1 / 2 + w * t0 / 2)%R with (w * (t1 + t0) / 2)%R by lra. replace (w * t1 / 2 + - (w * t0 / 2))%R with (w * (t1 - t0) / 2)%R by lra. auto.
Qed.
Lemma phase_inv x : cmul (phase x) (phase (- x)) = c1.
Proof. rewrite phase_mul. replace (x + - x)%R with 0%R by ring. unfold phase, c1. rewrite cos_0, sin_0. cbn. f_equal. ring. Qed.
Lemma prop_compose (la : LinAlg RField) P1 P2 P t0 t1 t2 w Q1 Q2 Q : turns la (-1) -> is_matrix 2 2 P1 -> is_matrix 2 2 P2 -> is_product 2 2 2 P2 P1 P ->
  transform_prop_to_rot_frame la P1 t1 t0 w = Ok Q1 -> transform_prop_to_rot_frame la P2 t2 t1 w = Ok Q2 -> transform_prop_to_rot_frame la P t2 t0 w = Ok Q -> is_product 2 2 2 Q2 Q1 Q.
Proof.
  intros T H1 H2 [HP EP] X1 X2 X. pose proof (prop_in_frame _ _ _ T H1 X1) as F1. pose proof (prop_in_frame _ _ _ T H2 X2) as F2. pose proof (prop_in_frame _ _ _ T HP X) as F.
  split; [apply F|]. apply frame_atoms in F1, F2, F. cbv zeta in F1, F2, F. destruct F1 as (A1 & A2 & A3 & A4). destruct F2 as (B1 & B2 & B3 & B4). destruct F as (C1 & C2 & C3 & C4).
  pose proof (phase_inv (w * t1 / 2)) as I1. revert I1 A1 A2 A3 A4 B1 B2 B3 B4 C1 C2 C3 C4.
  generalize (phase (w * t0 / 2)) (phase (- (w * t0 / 2))) (phase (w * t1 / 2)) (phase (- (w * t1 / 2))) (phase (w * t2 / 2)) (phase (- (w * t2 / 2))). intros b b' a a' c c' I1 A1 A2 A3 A4 B1 B2 B3 B4 C1 C2 C3 C4.
  intros i j Hi Hj. cbn [sumn]. lv2 i; lv2 j; rewrite ?A1, ?A2, ?A3, ?A4, ?B1, ?B2, ?B3, ?B4, ?C1, ?C2, ?C3, ?C4; rewrite EP by lia; cbn [sumn]; tocplx;
    match goal with |- ?l = ?r => transitivity (cmul l (cmul a a')); [rewrite I1; cring|cring] end.
Qed.
Lemma phase_unitary (E : op) x : entries E (phase x) c0 c0 (phase (- x)) -> munitary (S:=RS) 2 E.
Proof.
  intros (HE & E00 & E01 & E10 & E11). apply is_unitary_m. split; [exact HE|]. pose proof (phase_inv x) as I. pose proof (phase_inv (- x)) as J. rewrite Ropp_involutive in J.
  split; intros i j Hi Hj; cbn [sumn]; lv2 i; lv2 j; rewrite ?E00, ?E01, ?E10, ?E11; unfold delta; cbn [Nat.eqb]; tocplx; rewrite ?conj0, ?conj_phase, ?Ropp_involutive, ?I, ?J; cring.
Qed.
Lemma prop_unitary (la : LinAlg RField) P t1 t0 w Q : turns la (-1) -> is_unitary 2 P -> transform_prop_to_rot_frame la P t1 t0 w = Ok Q -> is_unitary 2 Q.
Proof.
  intros T HP H. apply is_unitary_m in HP. apply half_diag in T. replace (-1 / 2)%R with (- / 2)%R in T by lra.
  destruct (z_exp t1 w T (z_entries _)) as (E1 & X1 & V1). destruct (z_exp t0 w T (z_entries _)) as (E0 & X0 & V0).
  unfold transform_prop_to_rot_frame in H. rewrite X1 in H. cbn [bind] in H. rewrite X0 in H. cbn [bind] in H.
  assert (U1 : munitary (S:=RS) 2 E1) by (apply (@phase_unitary E1 (- (- / 2 * (t1 * w)))%R); rewrite Ropp_involutive; exact V1).
  assert (U0 : munitary (S:=RS) 2 E0) by (apply (@phase_unitary E0 (- (- / 2 * (t0 * w)))%R); rewrite Ropp_involutive; exact V0).
  rewrite (@op_dag_mdag RField 2 2 E1 (munitary_wf U1)) in H. pose proof (munitary_mul (munitary_dag U1) HP) as UM.
  rewrite (@op_mul_dense RField 2 2 2 _ _ (munitary_wf (munitary_dag U1)) (munitary_wf HP)) in H. cbn [bind] in H.
  rewrite (@op_mul_dense RField 2 2 2 _ _ (munitary_wf UM) (munitary_wf U0)) in H. injection H as <-. apply is_unitary_m. apply munitary_mul; auto.
Qed.

(** ---- kets ---- *)
Lemma ket_values (la : LinAlg RField) v t w : turns la 1 -> is_matrix 2 1 v -> exists v', transform_ket_to_rot_frame la v t w = Ok v' /\ ket_in_frame (- w) t v v'.
Proof.
  intros T Hv. apply half_diag in T. replace (1 / 2)%R with (/ 2)%R in T by lra. destruct (z_exp t w T (z_entries _)) as (E & X & V). apply entries_dag in V. destruct V as (HE & E00 & E01 & E10 & E11).
  unfold transform_ket_to_rot_frame. rewrite X. cbn [bind]. apply is_matrix_wfm in HE. apply is_matrix_wfm in Hv. rewrite (@op_mul_dense RField 2 2 1 _ _ HE Hv). eexists. split; [reflexivity|].
  split. { apply is_matrix_wfm. apply (@wfm_mmul RS 2 2 1); auto. } rewrite !(@mg_mmul RS 2 2 1) by (auto; lia). cbn [sumn]. rewrite E00, E01, E10, E11. rewrite !conj0, !conj_phase, !Ropp_involutive.
  replace (- (- w * t / 2))%R with (/ 2 * (t * w))%R by lra. replace (- w * t / 2)%R with (- (/ 2 * (t * w)))%R by lra. generalize (phase (/ 2 * (t * w))) (phase (- (/ 2 * (t * w)))) (mg v 0 0) (mg v 1 0). intros. fin.
Qed.
Lemma ket_opposite (la : LinAlg RField) v t w v' : turns la 1 -> is_matrix 2 1 v -> transform_ket_to_rot_frame la v t w = Ok v' -> ket_in_frame (- w) t v v'.
Proof. intros T Hv H. destruct (ket_values t w T Hv) as (u & E & F). rewrite E in H. injection H as <-. exact F. Qed.
Lemma ket_follows (la : LinAlg RField) P v v1 t1 t0 w Q x y : turns la (-1) -> turns la 1 -> is_matrix 2 2 P -> is_matrix 2 1 v -> is_product 2 2 1 P v v1 ->
  transform_prop_to_rot_frame la P t1 t0 w = Ok Q -> transform_ket_to_rot_frame la v t0 (- w) = Ok x -> transform_ket_to_rot_frame la v1 t1 (- w) = Ok y -> is_product 2 2 1 Q x y.
Proof.
  intros T T' HP Hv [H1 E1] X X0 X1. pose proof (frame_atoms (prop_in_frame _ _ _ T HP X)) as (Q1 & Q2 & Q3 & Q4).
  destruct (ket_opposite _ _ T' Hv X0) as (_ & A0 & A1). destruct (ket_opposite _ _ T' H1 X1) as (HY & B0 & B1). rewrite Ropp_involutive in *. split; [exact HY|].
  pose proof (phase_inv (w * t0 / 2)) as I. revert I Q1 Q2 Q3 Q4 A0 A1 B0 B1.
  generalize (phase (w * t0 / 2)) (phase (- (w * t0 / 2))) (phase (w * t1 / 2)) (phase (- (w * t1 / 2))). intros b b' a a' I Q1 Q2 Q3 Q4 A0 A1 B0 B1.
  intros i j Hi Hj. assert (j = 0) by lia. subst j. cbn [sumn]. lv2 i; rewrite ?Q1, ?Q2, ?Q3, ?Q4, ?A0, ?A1, ?B0, ?B1; rewrite E1 by lia; cbn [sumn]; tocplx;
    match goal with |- ?l = ?r => transitivity (cmul l (cmul b b')); [rewrite I; cring|cring] end.
Qed.

(** ---- the gates ---- *)
Definition r2 : R := / sqrt 2.
Lemma r2_sq : (r2 * r2 = / 2)%R.
Proof. unfold r2. rewrite <- Rinv_mult. rewrite sqrt_sqrt; lra. Qed.
Lemma quarter_value (e : R) : e = 1%R \/ e = (- 1)%R -> cexpR (cmul (cmul (cofk (PI : RField)) ((0, / 4)%R : RC)) ((e, 0)%R : RC)) = ((r2, e * r2)%R : RC).
Proof.
  intros He. unfold cexpR, cmul, cofk. cbn [cre cim fst snd].
  match goal with |- (exp ?x * _, _)%R = _ => replace x with 0%R by (cbn; ring) end. rewrite exp_0, !Rmult_1_l.
  match goal with |- (cos ?x, _) = _ => replace x with (e * (PI / 4))%R by (cbn; field) end.
  destruct He as [-> | ->]; [rewrite !Rmult_1_l|replace (- 1 * (PI / 4))%R with (- (PI / 4))%R by ring; rewrite cos_neg, sin_neg]; rewrite cos_PI4, sin_PI4; unfold r2; f_equal; field; apply Rgt_not_eq, sqrt_lt_R0; lra.
Qed.
Definition vx : op := mk2 2 2 (fun i j => if (Nat.eqb i 1 && Nat.eqb j 1)%bool then ((- r2, 0)%R : RC) else ((r2, 0)%R : RC)).
Definition vy : op := mk2 2 2 (fun i j => if Nat.eqb i 0 then ((r2, 0)%R : RC) else if Nat.eqb j 0 then ((0, r2)%R : RC) else ((0, - r2)%R : RC)).
Ltac num := cbn [Nat.eqb andb]; unfold delta; cbn [Nat.eqb]; tocplx; unfold cadd, cmul, cconj, copp, c0, c1, ci; cbn; f_equal; pose proof r2_sq; try nra.
Ltac cub := first [transitivity (2 * (r2 * r2) * r2)%R; [ring|rewrite r2_sq; lra]|transitivity (- (2 * (r2 * r2) * r2))%R; [ring|rewrite r2_sq; lra]].
Lemma vx_unitary : is_unitary (S:=RS) 2 vx.
Proof. split; [apply wf2|]. split; intros i j Hi Hj; lv2 i; lv2 j; cbn [sumn]; unfold vx; rewrite !(@mg_mk2 RS) by lia; num. Qed.
Lemma vy_unitary : is_unitary (S:=RS) 2 vy.
Proof. split; [apply wf2|]. split; intros i j Hi Hj; lv2 i; lv2 j; cbn [sumn]; unfold vy; rewrite !(@mg_mk2 RS) by lia; num. Qed.
Lemma x_decomposition : is_eigendecomposition (F:=RField) 2 (pauli_x RField) [((1, 0)%R : RC); ((- 1, 0)%R : RC)] vx.
Proof.
  split; [split; reflexivity|]. split; [reflexivity|]. split; [apply vx_unitary|].
  intros i j Hi Hj. cbn [sumn nth]. unfold vx. rewrite !(@mg_mk2 RS) by lia. lv2 i; lv2 j; unfold mg, get2, getn, pauli_x, of_rows; cbn [data shape nth]; num.
Qed.
Lemma y_decomposition : is_eigendecomposition (F:=RField) 2 (pauli_y RField) [((1, 0)%R : RC); ((- 1, 0)%R : RC)] vy.
Proof.
  split; [split; reflexivity|]. split; [reflexivity|]. split; [apply vy_unitary|].
  intros i j Hi Hj. cbn [sumn nth]. unfold vy. rewrite !(@mg_mk2 RS) by lia. lv2 i; lv2 j; unfold mg, get2, getn, pauli_y, of_rows; cbn [data shape nth]; num.
Qed.
Lemma x_half_value (la : LinAlg RField) : diagonalises la (pauli_x RField) -> exists E, x_half la = Ok E /\ entries E ((r2, 0)%R : RC) ((0, r2)%R : RC) ((0, r2)%R : RC) ((r2, 0)%R : RC).
Proof.
  intros D. eexists. split; [exact (known_exp _ D x_decomposition)|]. split; [apply fun_matrix, wf2|]. rewrite !fun_entries by (auto || apply wf2). rewrite !quarter_value by auto.
  unfold vx. rewrite !(@mg_mk2 RS) by lia. pose proof r2_sq as H2. repeat split; num; cub.
Qed.
Lemma y_half_value (la : LinAlg RField) : diagonalises la (pauli_y RField) -> exists E, y_half la = Ok E /\ entries E ((r2, 0)%R : RC) ((r2, 0)%R : RC) ((- r2, 0)%R : RC) ((r2, 0)%R : RC).
Proof.
  intros D. eexists. split; [exact (known_exp _ D y_decomposition)|]. split; [apply fun_matrix, wf2|]. rewrite !fun_entries by (auto || apply wf2). rewrite !quarter_value by auto.
  unfold vy. rewrite !(@mg_mk2 RS) by lia. pose proof r2_sq as H2. repeat split; num; cub.
Qed.
End Frames.
