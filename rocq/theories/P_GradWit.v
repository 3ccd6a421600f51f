(** An instance for C66: two time steps, a drift, one control, the amplitude is the square of the parameter, exact expm. *)
Require Import List Arith Lia Bool Reals Lra.
From Verif Require Import LibBase LibRing LibArr LibCplx LibMat LibNorm LibDeriv M_Matrix S_Linear S_Deriv S_Exp P_Linear P_Matrix P_Frechet P_Mexp P_Mexp2 P_Total M_OpHeap M_Transfer S_Transfer M_Amplitude S_Amplitude P_Transfer P_Amplitude M_Solver S_Solver M_Cost S_Cost S_CostGrad M_Simulator M_CostProg S_Simulator S_Gradient P_Loops P_Cost P_Grad P_GradTotal P_GradTotal2 P_GradSim.
Import ListNotations.
Local Open Scope res_scope.
Set Implicit Arguments.

Section Wit.
Add Field Cfield_gw : (c_field RField).
Notation op := (op RField).
Notation st := (@st RField).

Lemma wfm_dec n (A : op) : {wfm (S:=RS) n n A} + {~ wfm (S:=RS) n n A}.
Proof.
  unfold wfm, wfa. destruct (list_eq_dec Nat.eq_dec (shape A) [n; n]) as [E|E]; [|right; tauto].
  destruct (Nat.eq_dec (length (data A)) (prodn [n; n])) as [E'|E']; [left; auto|right; tauto].
Qed.
Definition expm (A : op) : op := match wfm_dec (nr A) A with left W => mexp W 1 | right _ => A end.
Definition expm_frechet (A D : op) : op * op :=
  (expm A, match wfm_dec (nr A) A, wfm_dec (nr A) D with left W, left WD => dmexp W WD 1 | _, _ => D end).
Definition wla : LinAlg RField := mkLA (F:=RField) (fun A => ([], A)) (fun A => ([], A)) expm expm_frechet (fun A => (A, [], A)) (fun z => z).

Lemma expm_wf n (A : op) (W : wfm (S:=RS) n n A) : expm A = mexp W 1.
Proof.
  unfold expm. pose proof (wfm_nr W) as E. destruct (wfm_dec (nr A) A) as [W'|N].
  - revert W'. rewrite E. intros W'. now apply mexp_ext.
  - exfalso. apply N. now rewrite E.
Qed.
Lemma wla_exact n : scipy_exact wla n.
Proof.
  split.
  - intros A HA. apply is_matrix_wfm in HA. cbn [la_expm wla]. rewrite (expm_wf HA). apply mexp_exponential.
  - intros A D HA HD. apply is_matrix_wfm in HA. apply is_matrix_wfm in HD. cbn [la_expm_frechet wla expm_frechet snd].
    assert (EX : (match wfm_dec (nr A) A, wfm_dec (nr A) D with left W, left WD => dmexp W WD 1 | _, _ => D end) = dmexp HA HD 1).
    { pose proof (wfm_nr HA) as E. destruct (wfm_dec (nr A) A) as [W'|N]; [|exfalso; apply N; now rewrite E]. destruct (wfm_dec (nr A) D) as [WD'|N]; [|exfalso; apply N; now rewrite E].
      revert W' WD'. rewrite E. intros W' WD'. now apply dmexp_ext2. }
    unfold expm_frechet. cbn [snd]. rewrite EX. split; [apply is_matrix_wfm; apply wfm_dmexp|]. intros Z E HZ HE.
    assert (WZ : forall s, wfm (S:=RS) n n (Z s)) by (intros s; apply is_matrix_wfm; apply HZ).
    assert (EE : forall s, E s = mexp (WZ s) 1) by (intros s; now apply exponential_mexp).
    assert (MD : mderiv n Z 0 D).
    { intros i j Hi Hj. apply (@cderiv_ext (fun s => cadd (mg A i j) (cmul (cofk (s : RField)) (mg D i j)))).
      - intros s. destruct (HZ s) as [_ H]. rewrite H by auto. cring.
      - eapply cderiv_eq; [|apply cderiv_add; [apply cderiv_const|apply cderiv_scale_r; apply cofk_deriv; apply derivable_pt_lim_id]]. change (cofk (1%R : RField)) with (c1 : RC). cring. }
    pose proof (@mexp_curve n Z D WZ HD MD) as MC. assert (E0 : Z 0%R = A).
    { apply (@mat_ext RS n n); auto. intros i j Hi Hj. destruct (HZ 0%R) as [_ H]. rewrite H by auto. change (cofk (0%R : RField)) with (c0 : RC). cring. }
    intros i j Hi Hj. apply (@cderiv_ext (fun s => mg (mexp (WZ s) 1) i j)); [intros s; now rewrite EE|]. eapply cderiv_eq; [|apply MC; auto].
    f_equal. now apply dmexp_ext2.
Qed.

Definition wsz : op := mk2 2 2 (fun i j => if Nat.eqb i j then (if Nat.eqb i 0 then c1 else copp c1) else c0).
Definition wsx : op := mk2 2 2 (fun i j => if Nat.eqb i j then c0 else c1).
Definition wtau : list R := [1; 1]%R.
Definition wd : desc RField := DOver 1 None 2.
Definition wamp : amp RField := AUnary (F:=RField) (fun x : R => (x * x)%R) (fun x : R => (2 * x)%R).
Definition wbuild (init : option op) : res st :=
  build_solver (F:=RField) CSchroedinger [wsz] [wsx] wtau init None Frechet false false GNone (mk_over (F:=RField) 1 None 2) wamp None.
Definition wsolver (init : option op) : st :=
  match wbuild init with
  | Ok s => s
  | Err _ => mkst (mkconf CSchroedinger [] (Arr [] []) Frechet false false GNone AIdentity) [] (mk_identity (F:=RField) 0) [] None None None false false (k_none (F:=RField)) (n_none (F:=RField)) (mkl None None) None
  end.
Lemma wbuild_ok i : wbuild i = Ok (wsolver i).
Proof. unfold wsolver. destruct (wbuild i) eqn:E; auto. exfalso. discriminate. Qed.
Lemma wsolver_built i : constructed_on wd wtau (wsolver i).
Proof.
  split; [exact I|]. exists CSchroedinger, [wsz], [wsx], i, None, Frechet, false, false, GNone, (mk_over (F:=RField) 1 None 2), wamp, None.
  split; [reflexivity|]. exact (wbuild_ok i).
Qed.
Lemma wsolver_good i : good wla c0 (s_conf (wsolver i)).
Proof.
  constructor.
  - exact I.
  - intros A D E X t. change (c_meth (s_conf (wsolver i))) with Frechet. unfold op_dexp, op_exp. destruct (Nat.eqb (nr A) (nc A)); cbn [andb negb]; [|discriminate].
    destruct (Nat.eqb (nr D) (nr A) && Nat.eqb (nc D) (nc A)); cbn [negb]; [|discriminate]. intros H. apply (f_equal (fun r => match r with Ok p => Ok (fst p) | Err e => Err e end)) in H. exact H.
  - discriminate.
  - discriminate.
Qed.
Lemma wsz_herm : is_hermitian (S:=RS) 2 wsz.
Proof. split; [apply is_matrix_wfm, wfm_mk2|]. intros i j Hi Hj. unfold wsz. rewrite !mg_mk2 by auto. destruct i as [|[|]], j as [|[|]]; try lia; cbn; unfold cconj, c0, c1, copp; cbn; f_equal; ring. Qed.
Lemma wsx_herm : is_hermitian (S:=RS) 2 wsx.
Proof. split; [apply is_matrix_wfm, wfm_mk2|]. intros i j Hi Hj. unfold wsx. rewrite !mg_mk2 by auto. destruct i as [|[|]], j as [|[|]]; try lia; cbn; unfold cconj, c0, c1, copp; cbn; f_equal; ring. Qed.
Lemma wsolver_square i : square_hamiltonians 2 (wsolver i).
Proof.
  assert (H1 : is_matrix (S:=RS) 2 2 wsz) by apply is_matrix_wfm, wfm_mk2. assert (H2 : is_matrix (S:=RS) 2 2 wsx) by apply is_matrix_wfm, wfm_mk2.
  split; repeat constructor; assumption.
Qed.
Lemma wsolver_optimised (init : op) k : is_matrix (S:=RS) 2 k init -> optimised wla c0 wd wtau (wsolver (Some init)) 2 k.
Proof.
  intros H. destruct (@frechet_exact wla c0 2 (wsolver (Some init)) (wla_exact 2) eq_refl (wsolver_square _)) as [E _].
  constructor; auto using wsolver_built, wsolver_good, wsolver_square; try exact I; try reflexivity.
Qed.
Lemma wsolver_answers i : answering wla c0 2 (wsolver i).
Proof. apply (@frechet_exact wla c0 2 (wsolver i) (wla_exact 2) eq_refl (wsolver_square _)). Qed.
Lemma wsolver_amps rexp i y : right_amplitudes rexp wd (wsolver i) y.
Proof.
  intros x _. change (c_amp (s_conf (wsolver i))) with wamp. cbn [correct_derivative wamp]. split; [reflexivity|]. intros t p _ _.
  set (z := ent x t p). replace (2 * z)%R with (1 * z + z * 1)%R by ring. apply (derivable_pt_lim_mult (fun x => x) (fun x => x)); apply derivable_pt_lim_id.
Qed.
Definition wy : RA := mk2 2 1 (fun t _ => if Nat.eqb t 0 then 1%R else 3%R).
Lemma wy_call rexp i : exists x, snd (call (F:=RField) rexp (s_tf (wsolver i)) wy) = Ok x.
Proof. eexists. reflexivity. Qed.
Lemma wy_evaluable rexp i : evaluable rexp wla c0 2 (wsolver i) wy.
Proof. split; [reflexivity|]. split; [apply wsolver_answers|]. split; [reflexivity|]. split; [discriminate|]. apply wy_call. Qed.
Lemma wy_wf : wfa [length wtau; ctrls wd] wy.
Proof. apply wfa_mk2. Qed.
Definition wket : op := mk2 2 1 (fun i _ => if Nat.eqb i 0 then c1 else c0).
Definition wone : op := mk2 1 1 (fun _ _ => c1).
Definition wcost (cost grad : @prog RField) : @cfun RField := mkcf 0 [0] cost grad.
Definition wsim : @sim RField := mksim [0] [wcost (prog_operation_infidelity wla wsx false None false) (prog_operation_infidelity_grad wla wsx false None false);
  wcost (prog_leakage wla [0]) (prog_leakage_grad wla [0])] None false.
Definition wworld : @world RField := [wsolver (Some (mid (S:=RS) 2))].
Lemma wsx_matrix : is_matrix (S:=RS) 2 2 wsx. Proof. apply is_matrix_wfm, wfm_mk2. Qed.
Lemma wid_matrix : is_matrix (S:=RS) 2 2 (mid (S:=RS) 2). Proof. apply is_matrix_wfm, wfm_mid. Qed.
Lemma wket_matrix : is_matrix (S:=RS) 2 1 wket. Proof. apply is_matrix_wfm, wfm_mk2. Qed.
Lemma wone_matrix : is_matrix (S:=RS) 1 1 wone. Proof. apply is_matrix_wfm, wfm_mk2. Qed.
Lemma wid_unitary : is_unitary (S:=RS) 2 (mid (S:=RS) 2). Proof. apply is_unitary_m. apply munitary_id. Qed.
Lemma wlevels : levels 2 [0]. Proof. split; [repeat constructor; auto|]. intros i [<-|[]]. lia. Qed.
Lemma wdrift_herm i : Forall (is_hermitian (S:=RS) 2 : op -> Prop) (s_drift (wsolver i)).
Proof. change (Forall (is_hermitian (S:=RS) 2 : op -> Prop) [wsz; wsz; wsz; wsz]). repeat constructor; apply wsz_herm. Qed.
Lemma wctrl_herm i : Forall (is_hermitian (S:=RS) 2 : op -> Prop) (c_ctrl (s_conf (wsolver i))).
Proof. change (Forall (is_hermitian (S:=RS) 2 : op -> Prop) [wsx]). repeat constructor; apply wsx_herm. Qed.

Lemma wsim_set_up : set_up (F:=RField) wla c0 wsim wworld.
Proof.
  split; [|split; [|split]].
  - intros s0 [<-|[]]. exists wd. split; [|apply wsolver_good]. destruct (built_fresh (fun x => x) (wsolver_built (Some (mid (S:=RS) 2))) (wsolver_good _)) as (_ & H & _). exact H.
  - intros i [<-|[]]. cbn. lia.
  - discriminate.
  - intros c [<-|[<-|[]]]; (split; [now left|]); (split; cbn; repeat split; auto; intros; repeat match goal with v : @sval _ |- _ => destruct v end; cbn; auto);
      repeat (split; auto; intros); repeat match goal with v : @sval _ |- _ => destruct v; cbn; auto end; repeat (split; auto; intros); repeat match goal with v : @sval _ |- _ => destruct v; cbn; auto end.
Qed.
Lemma wsim_accepted rexp y' : wfa [2; 1] y' -> accepted (F:=RField) rexp wla c0 wsim wworld y'.
Proof.
  intros W i s0 [<-|[]] E. injection E as <-. destruct (wy_call rexp (Some (mid (S:=RS) 2))) as [x Ex].
  eapply pulse_total with (n := 2) (k := 2) (y := wy); eauto using wy_wf, wid_matrix, wsolver_optimised, wsolver_amps; discriminate.
Qed.
Lemma wsim_differentiable rexp : Forall (fun c => differentiable rexp wla c0 wworld 2 1 c wy) (sm_cfs wsim).
Proof.
  assert (O := wsolver_optimised wid_matrix). repeat constructor.
  - exists (wsolver (Some (mid (S:=RS) 2))), wd, wtau.
    destruct (@total_operation rexp wla c0 wd wtau _ 2 2 (wcost (prog_operation_infidelity wla wsx false None false) (prog_operation_infidelity_grad wla wsx false None false)) wy
      O (wy_evaluable rexp _) (@wsolver_amps rexp _ _) wy_wf wsx false eq_refl wsx_matrix eq_refl eq_refl) as (phi & h & H). exists phi, h. repeat split; auto; apply H.
  - exists (wsolver (Some (mid (S:=RS) 2))), wd, wtau.
    destruct (@total_leakage rexp wla c0 wd wtau _ 2 2 (wcost (prog_leakage wla [0]) (prog_leakage_grad wla [0])) wy
      O (wy_evaluable rexp _) (@wsolver_amps rexp _ _) wy_wf [0] eq_refl ltac:(discriminate) wlevels (wdrift_herm _) (wctrl_herm _) wid_unitary eq_refl eq_refl) as (phi & h & H). exists phi, h. repeat split; auto; apply H.
Qed.
End Wit.
