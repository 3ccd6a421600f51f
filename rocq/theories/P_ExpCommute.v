(** The derivative of exp(tau (A + s D)) by s at 0 where D commutes with A: tau D exp(tau A). *)
Require Import List Arith Lia Ring Field Bool Reals Lra.
From Verif Require Import LibBase LibRing LibArr LibCplx LibMat LibNorm LibDeriv LibSeries M_Matrix S_Linear S_Exp P_Linear P_RealExp P_Frechet P_Dexp P_Mexp P_Mexp2 P_Total.
Import ListNotations.
Set Implicit Arguments.

Section Commute.
Add Field Cfield_cm : (c_field RField).
Notation S := RS.
Notation op := (op RField).
Notation mm := (mmul (S:=RS)).
Notation ma := (madd (S:=RS)).
Notation mb := (msub (S:=RS)).
Notation ms := (mscale (S:=RS)).

Lemma dmexp_commute n X D (W : wfm (S:=RS) n n X) (WD : wfm (S:=RS) n n D) t : mm X D = mm D X ->
  dmexp W WD t = ms (cofk (t : RField)) (mm D (mexp W t)).
Proof.
  intros HC.
  pose (Y := fun s : R => mb (dmexp W WD s) (ms (cofk (s : RField)) (mm D (mexp W s)))).
  assert (WY : forall s, wfm (S:=RS) n n (Y s)). { intros s. unfold Y. pose proof (wfm_dmexp W WD s). pose proof (wfm_mexp W s). wf_solve. }
  assert (HY : forall s, mderiv n Y s (mm X (Y s))).
  { intros s. pose proof (wfm_dmexp W WD s) as W1. pose proof (wfm_mexp W s) as W2.
    assert (HT : mderiv n (fun s : R => ms (cofk (s : RField)) (mm D (mexp W s))) s (ma (mm D (mexp W s)) (ms (cofk (s : RField)) (mm D (mm X (mexp W s)))))).
    { pose proof (mderiv_lmul WD (fun u => wfm_mexp W u) (wfm_mmul W W2) (mexp_deriv W s)) as HM.
      intros i j Hi Hj. apply (@cderiv_ext (fun u => cmul (cofk (u : RField)) (mg (mm D (mexp W u)) i j))).
      - intros u. pose proof (wfm_mexp W u). mglin; auto.
      - eapply cderiv_eq; [|apply cderiv_mul; [apply cderiv_id|apply HM; auto]]. mglin; auto. cring. }
    pose proof (mderiv_sub (dmexp_deriv W WD s) HT) as HS. unfold Y. eapply mderiv_eq; [|apply HS; [intros u; apply wfm_dmexp|wf_solve]].
    assert (E : mm X (mm D (mexp W s)) = mm D (mm X (mexp W s))).
    { rewrite (@mmul_assoc S n n n n) by wf_solve. rewrite HC. symmetry. now apply (@mmul_assoc S n n n n). }
    apply (@mat_ext S n n); [wf_solve|wf_solve|]. intros i j Hi Hj. rewrite <- E. mdistr n. mglin. cring. }
  pose proof (@mexp_back n X W Y t WY HY) as HB. assert (Y0 : Y 0%R = mzero (S:=S) n n).
  { pose proof (wfm_mexp W 0) as W2. unfold Y. rewrite dmexp_0. apply (@mat_ext S n n); [wf_solve|wf_solve|]. intros i j Hi Hj. mglin.
    change (cofk (0%R : RField)) with (c0 : RC). tocplx. cring. }
  assert (YZ : Y t = mzero (S:=S) n n).
  { assert (W2 := WY t). transitivity (mm (mm (mexp W t) (mexp W (- t)%R)) (Y t)).
    - rewrite mexp_inv'. now rewrite (@mmul_1_l S n n).
    - pose proof (wfm_mexp W t). pose proof (wfm_mexp W (- t)%R). rewrite <- (@mmul_assoc S n n n n) by wf_solve. rewrite HB, Y0. apply (@mmul_0_r S n n n); auto. }
  pose proof (wfm_dmexp W WD t) as W1. pose proof (wfm_mexp W t) as W2.
  apply (@mat_ext S n n); [wf_solve|wf_solve|]. intros i j Hi Hj.
  apply (f_equal (fun M => mg (S:=S) M i j)) in YZ. unfold Y in YZ. rewrite (@mg_msub S n n) in YZ by (auto; wf_solve). rewrite mg_mzero in YZ by auto.
  transitivity (cadd (csub (mg (dmexp W WD t) i j) (mg (ms (cofk (t : RField)) (mm D (mexp W t))) i j)) (mg (ms (cofk (t : RField)) (mm D (mexp W t))) i j)); [cring|].
  change (csub (mg (dmexp W WD t) i j) (mg (ms (cofk (t : RField)) (mm D (mexp W t))) i j) = c0) in YZ. rewrite YZ. cring.
Qed.

(** dmexp is the derivative that S_Exp describes *)
Lemma dmexp_exp_derivative n (tau : RC) (A D : op) (W : wfm (S:=RS) n n (ms tau A)) (WD : wfm (S:=RS) n n (ms tau D)) : wfm (S:=RS) n n A -> wfm (S:=RS) n n D ->
  is_exp_derivative n tau A D (dmexp W WD 1).
Proof.
  intros WA WDD. split; [apply is_matrix_wfm; apply wfm_dmexp|]. intros Z E HZ HE.
  assert (WZ : forall s, wfm (S:=RS) n n (Z s)) by (intros s; apply is_matrix_wfm; apply HZ).
  assert (EE : forall s, E s = mexp (WZ s) 1) by (intros s; now apply exponential_mexp).
  assert (MD : mderiv n Z 0 (ms tau D)).
  { intros i j Hi Hj. apply (@cderiv_ext (fun s => cadd (cmul tau (mg A i j)) (cmul (cofk (s : RField)) (cmul tau (mg D i j))))).
    - intros s. destruct (HZ s) as [_ H]. rewrite H by auto. cring.
    - eapply cderiv_eq; [|apply cderiv_add; [apply cderiv_const|apply cderiv_scale_r; apply cderiv_id]]. mglin; auto. cring. }
  pose proof (@mexp_curve n Z (ms tau D) WZ WD MD) as MC. assert (E0 : Z 0%R = ms tau A).
  { apply (@mat_ext RS n n); auto. intros i j Hi Hj. destruct (HZ 0%R) as [_ H]. rewrite H by auto. change (cofk (0%R : RField)) with (c0 : RC). mglin; auto. cring. }
  intros i j Hi Hj. apply (@cderiv_ext (fun s => mg (mexp (WZ s) 1) i j)); [intros s; now rewrite EE|]. eapply cderiv_eq; [|apply MC; auto].
  f_equal. now apply dmexp_ext2.
Qed.

Lemma commuting_derivative n (tau : RC) (A D P E W X Z : op) : is_matrix n n A -> is_matrix n n D ->
  is_product n n n A D P -> is_product n n n D A P ->
  is_perturbed n tau A D 0 Z -> is_exponential n Z E -> is_product n n n D E W ->
  is_matrix n n X -> (forall i j, i < n -> j < n -> mg X i j = cmul tau (mg W i j)) ->
  is_exp_derivative n tau A D X.
Proof.
  intros HA HD HP HQ [HZ EZ] HE HW HX EX. apply is_matrix_wfm in HA. apply is_matrix_wfm in HD. apply is_matrix_wfm in HX. apply is_matrix_wfm in HZ.
  apply (is_product_eq HA HD) in HP. apply (is_product_eq HD HA) in HQ.
  assert (E0 : Z = ms tau A).
  { apply (@mat_ext RS n n); [auto|wf_solve|]. intros i j Hi Hj. rewrite EZ by auto. change (cofk (0%R : RField)) with (c0 : RC). mglin; auto. cring. }
  subst Z. rename HZ into WA. assert (WD : wfm (S:=RS) n n (ms tau D)) by wf_solve.
  apply (exponential_mexp WA) in HE. pose proof (wfm_mexp WA 1) as W1. rewrite <- HE in W1. apply (is_product_eq HD W1) in HW.
  assert (X = dmexp WA WD 1); [|subst X; now apply dmexp_exp_derivative].
  rewrite dmexp_commute.
  - rewrite <- HE. apply (@mat_ext RS n n); [auto|wf_solve|]. intros i j Hi Hj. rewrite EX by auto. rewrite HW. change (cofk (1%R : RField)) with (c1 : RC).
    rewrite (@mg_mscale S n n) by (auto; wf_solve). rewrite (@mmul_scale_l S n n n) by auto. rewrite (@mg_mscale S n n) by (auto; wf_solve). cbn [smul RS CStar]. cring.
  - rewrite (@mmul_scale_l S n n n), (@mmul_scale_r S n n n), (@mmul_scale_l S n n n), (@mmul_scale_r S n n n) by wf_solve. now rewrite <- HP, <- HQ.
Qed.
End Commute.
