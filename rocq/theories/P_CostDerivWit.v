(** Concrete cases for the theorems about the deprecated derivatives (C73, C74). *)
Require Import List Arith Lia Bool Reals Lra.
From Verif Require Import LibBase LibRing LibArr LibCplx LibMat LibNorm LibDeriv M_Matrix M_Solver M_Cost M_CostDeriv S_Linear S_Deriv P_Linear P_Matrix P_Loops S_Cost S_CostGrad S_CostDeriv P_Cost P_Cost2 P_CostDeriv P_CostGrad P_CostDerivGrad.
Import ListNotations.
Set Implicit Arguments.
Local Notation X := (pauli_x RField).
Local Notation Z := (pauli_z RField).
Local Notation I2 := (mid (S:=RS) 2).
Local Notation "A @@ B" := (mmul (S:=RS) A B) (at level 40, left associativity).
Lemma WX : wfm (S:=RS) 2 2 X. Proof. apply wfm_mk2. Qed.
Lemma WZ : wfm (S:=RS) 2 2 Z. Proof. apply wfm_mk2. Qed.
Lemma WI : wfm (S:=RS) 2 2 I2. Proof. wf_solve. Qed.
#[local] Hint Resolve WX WZ WI : core.
(** two time steps, each scaled by its amplitude: U = (u1 Z) (u0 X) *)
Definition ps2 : list rop := [X; Z].
Definition fwd2 : list rop := [I2; X @@ I2; Z @@ (X @@ I2)].
Definition revs2 : list rop := [I2; I2 @@ Z; I2 @@ Z @@ X].
Definition ders2 : list (list rop) := [[X; Z]].
Definition dus2 : arr rop := Arr [2; 1] [X; Z].
Definition target2 : rop := Z @@ (X @@ I2).
Ltac ism := apply is_matrix_wfm; unfold target2; auto; repeat apply (@wfm_mmul RS); auto.
Lemma prod_of (A B : rop) : wfm (S:=RS) 2 2 A -> wfm (S:=RS) 2 2 B -> is_product (S:=RS) 2 2 2 A B (A @@ B).
Proof. intros HA HB. split. apply is_matrix_wfm. wf_solve. intros i j Hi Hj. now rewrite (@mg_mmul RS 2 2 2). Qed.
Lemma case2 : is_matrix 2 2 target2 /\ propagator_lists 2 2 2 1 fwd2 ders2 revs2 /\ evolution (F:=RField) 2 ps2 fwd2 revs2 /\ array_of (F:=RField) 2 1 ders2 dus2.
Proof.
  assert (W1 : wfm (S:=RS) 2 2 (X @@ I2)) by wf_solve. assert (W2 : wfm (S:=RS) 2 2 (Z @@ (X @@ I2))) by wf_solve. assert (W3 : wfm (S:=RS) 2 2 (I2 @@ Z)) by wf_solve. assert (W4 : wfm (S:=RS) 2 2 (I2 @@ Z @@ X)) by wf_solve.
  split; [now apply is_matrix_wfm|]. split; [|split].
  - unfold propagator_lists, fwd2, revs2, ders2. repeat split; try discriminate; repeat constructor; try (apply is_matrix_wfm; assumption); reflexivity.
  - unfold evolution, ps2, fwd2, revs2. split; [repeat constructor; apply is_matrix_wfm; auto|]. split; [|split].
    + intros t p f f'. destruct t as [|[|[|t]]]; cbn; intros E1 E2 E3; try discriminate; injection E1 as <-; injection E2 as <-; injection E3 as <-; apply prod_of; auto.
    + exists I2. split; auto. split; [now apply is_matrix_wfm|]. intros i j Hi Hj. rewrite (@mg_mid RS) by auto. reflexivity.
    + intros k p r r'. destruct k as [|[|[|k]]]; cbn; intros E1 E2 E3; try discriminate; injection E1 as <-; injection E2 as <-; injection E3 as <-; apply prod_of; auto.
  - split; [split; reflexivity|]. intros t c row d x. unfold ders2, dus2. destruct c as [|[|c]]; cbn; try discriminate. intros E1. injection E1 as <-. destruct t as [|[|[|t]]]; cbn; intros E2; try discriminate; now injection E2.
Qed.
Lemma overlap_target : mat_overlap (F:=RField) 2 target2 target2 = cofk (2%R : RField).
Proof.
  unfold mat_overlap. rewrite !(@sum2 RField). 
  assert (E : forall i j, i < 2 -> j < 2 -> mg target2 i j = if Nat.eqb i j then c0 else if Nat.eqb i 0 then c1 else copp c1).
  { intros i j Hi Hj. assert (W1 : wfm (S:=RS) 2 2 (X @@ I2)) by wf_solve. unfold target2. rewrite (@mg_mmul RS 2 2 2) by auto. rewrite (@mmul_1_r RS 2 2 X WX). rewrite (@sum2 RField).
    destruct i as [|[|i]]; try lia; destruct j as [|[|j]]; try lia;
    match goal with |- ?x = ?y => let x' := eval cbn in x in let y' := eval cbn in y in change (x' = y') end; unfold cadd, cmul, c0, c1, copp; cbn; f_equal; ring. }
  rewrite !E by lia. cbn [Nat.eqb]. unfold cadd, cmul, cconj, c0, c1, copp, cofk. cbn. f_equal; ring.
Qed.
Lemma case2_value : exists a, derivative_average_gate_fid_with_du ps2 fwd2 dus2 target2 = Ok a /\ real_entries (F:=RField) 2 1 a (fun _ _ => (4 / 3)%R).
Proof.
  destruct case2 as (HV & HL & HE & HA). pose proof HL as (L1 & F1 & L2 & F2 & _). rewrite is_matrix_wfm in HV.
  assert (Hl : is_last fwd2 target2) by (exists [I2; X @@ I2]; reflexivity).
  destruct (@with_du_val RField ps2 fwd2 revs2 dus2 target2 2 1 target2 (fun t c => nth t [X; Z] (z0 RField))) as (a & Ea & [Wa Ra]); auto.
  - apply (proj1 HA).
  - intros t c x Ht Hc. assert (c = 0) by lia. subst c. destruct t as [|[|t]]; try lia; cbn; auto.
  - exists a. split; auto. split; auto. intros t c Ht Hc. rewrite (Ra t c Ht Hc). f_equal.
    assert (E : nth (S t) (rev revs2) (z0 RField) @@ (nth t [X; Z] (z0 RField) @@ nth t fwd2 (z0 RField)) = target2).
    { assert (W1 : wfm (S:=RS) 2 2 (X @@ I2)) by wf_solve. destruct t as [|[|t]]; try lia; cbn [revs2 rev app nth fwd2]; rewrite ?(@mmul_1_l RS 2 2) by (auto; wf_solve); reflexivity. }
    unfold du_value. rewrite E, overlap_target. cbn. field.
Qed.
(** the grape approximation with the control Hamiltonians X and Z *)
Definition gd (h p : rop) : rop := mscale (S:=RS) (cmul (copp ci) (cofk ((1/2)%R : RField))) (h @@ p).
Definition dusg : arr rop := Arr [2; 1] [gd X X; gd Z Z].
Lemma herm_X : is_hermitian (S:=RS) 2 X.
Proof. split. apply is_matrix_wfm; auto. intros i j Hi Hj. destruct i as [|[|i]]; try lia; destruct j as [|[|j]]; try lia; refine (f_equal2 pair _ _); cbn; match goal with |- ?a = ?b => change (@eq R a b) end; lra. Qed.
Lemma herm_Z : is_hermitian (S:=RS) 2 Z.
Proof. split. apply is_matrix_wfm; auto. intros i j Hi Hj. destruct i as [|[|i]]; try lia; destruct j as [|[|j]]; try lia; refine (f_equal2 pair _ _); cbn; match goal with |- ?a = ?b => change (@eq R a b) end; lra. Qed.
Lemma gd_ok (h p : rop) : wfm (S:=RS) 2 2 h -> wfm (S:=RS) 2 2 p -> grape_derivative (F:=RField) 2 (1/2)%R h p (gd h p).
Proof.
  intros Wh Wp. assert (W : wfm (S:=RS) 2 2 (h @@ p)) by wf_solve. split. apply is_matrix_wfm. unfold gd. wf_solve.
  intros i j Hi Hj. unfold gd. rewrite (@mg_mscale RS 2 2) by auto. rewrite (@mg_mmul RS 2 2 2) by auto. reflexivity.
Qed.
Lemma case2_grape : wfa [2; 1] dus2 /\ wfa [2; 1] dusg /\
  forall t c x p, t < 2 -> c < 1 -> nth_error ps2 t = Some p -> is_hermitian (S:=RS) 2 (get2 x dus2 t c) /\ grape_derivative (F:=RField) 2 (1/2)%R (get2 x dus2 t c) p (get2 x dusg t c).
Proof.
  split; [split; reflexivity|]. split; [split; reflexivity|]. intros t c x p Ht Hc Ep. assert (c = 0) by lia. subst c. destruct t as [|[|t]]; try lia; cbn in Ep; injection Ep as <-.
  - exact (conj herm_X (gd_ok WX WX)).
  - exact (conj herm_Z (gd_ok WZ WZ)).
Qed.
(** one time step of length 1/2 *)
Lemma case1 : is_matrix 2 2 target2 /\ is_matrix (S:=RS) 2 2 Z /\ propagator_lists 2 2 1 1 [I2; Z @@ I2] (map (fun D => [D]) [gd X Z]) [I2; I2 @@ Z] /\ is_product (S:=RS) 2 2 2 Z I2 (Z @@ I2) /\
  Forall (@is_matrix RS 2 2) [X] /\ (forall c h D, nth_error [X] c = Some h -> nth_error [gd X Z] c = Some D -> grape_derivative (F:=RField) 2 (1/2)%R h Z D).
Proof.
  assert (W1 : wfm (S:=RS) 2 2 (Z @@ I2)) by wf_solve. assert (W3 : wfm (S:=RS) 2 2 (I2 @@ Z)) by wf_solve. assert (W2 : wfm (S:=RS) 2 2 (X @@ Z)) by wf_solve. assert (W4 : wfm (S:=RS) 2 2 (gd X Z)) by (unfold gd; wf_solve).
  split; [apply (proj1 case2)|]. split; [now apply is_matrix_wfm|]. split.
  - unfold propagator_lists. repeat split; try discriminate; repeat constructor; try (apply is_matrix_wfm; assumption); reflexivity.
  - split; [apply prod_of; auto|]. split; [repeat constructor; apply is_matrix_wfm; auto|]. intros [|[|c]] h D; cbn; intros E1 E2; try discriminate. injection E1 as <-. injection E2 as <-. now apply gd_ok.
Qed.
