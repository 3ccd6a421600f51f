(** Derivatives along curves of amplitudes: all time steps and all controls move together. *)
Require Import List Arith Lia Ring Field Bool Reals Lra.
From Verif Require Import LibBase LibRing LibArr LibCplx LibMat LibNorm LibDeriv LibSeries M_Matrix S_Linear S_Exp P_Linear P_RealExp P_Frechet P_Dexp P_Mexp P_Mexp2.
Import ListNotations.
Set Implicit Arguments.

Section Total.
Add Field Cfield : (c_field RField).
Notation S := RS.
Notation op := (op RField).
Notation mm := (mmul (S:=RS)).
Notation ma := (madd (S:=RS)).
Notation ms := (mscale (S:=RS)).

(** sum_c v_c D_c *)
Fixpoint dsum n C (v : nat -> R) (D : nat -> op) : op :=
  match C with 0 => mzero (S:=RS) n n | Datatypes.S c => ma (dsum n c v D) (ms (cofk (v c : RField)) (D c)) end.
Lemma wfm_dsum n C v D : (forall c, c < C -> wfm n n (D c)) -> wfm n n (dsum n C v D).
Proof. intros H. induction C; cbn [dsum]; [apply wfm_mzero|]. apply wfm_madd. apply IHC. intros; apply H; lia. Qed.
Lemma mg_dsum n C v D i j : (forall c, c < C -> wfm n n (D c)) -> i < n -> j < n ->
  mg (dsum n C v D) i j = sumn (S:=RS) C (fun c => cmul (cofk (v c : RField)) (mg (D c) i j)).
Proof.
  intros H Hi Hj. induction C; cbn [dsum].
  - rewrite (@mg_mzero RS n n) by auto. reflexivity.
  - rewrite (@mg_madd RS n n) by (auto; apply wfm_dsum; intros; apply H; lia). rewrite (@mg_mscale RS n n) by (auto; apply H; lia).
    rewrite IHC by (intros; apply H; lia). reflexivity.
Qed.

Lemma dmexp_ext2 n X X' D D' (W : wfm n n X) (W' : wfm n n X') (WD : wfm n n D) (WD' : wfm n n D') t : X = X' -> D = D' -> dmexp W WD t = dmexp W' WD' t.
Proof. intros -> ->. now apply mser_ext. Qed.

Lemma exp_derivative_dmexp n tau A D X (W : wfm n n (ms tau A)) (WD : wfm n n (ms tau D)) : wfm n n A -> wfm n n D ->
  is_exp_derivative n tau A D X -> X = dmexp W WD 1.
Proof.
  intros WA WDD [HX H].
  pose (Z := fun s : R => ms tau (ma A (ms (cofk (s : RField)) D))).
  assert (WZ : forall s, wfm n n (Z s)) by (intros s; unfold Z; wf_solve).
  assert (H1 : forall i j, i < n -> j < n -> cderiv (fun s => mg (mexp (WZ s) 1) i j) 0%R (mg X i j)).
  { apply (H Z).
    - intros s. split; [now apply is_matrix_wfm|]. intros i j Hi Hj. unfold Z. mglin; auto.
    - intros s. apply mexp_exponential. }
  assert (MD : mderiv n Z 0 (ms tau D)).
  { intros i j Hi Hj. apply (@cderiv_ext (fun s => cadd (cmul tau (mg A i j)) (cmul (cofk (s:RField)) (cmul tau (mg D i j))))).
    - intros s. unfold Z. mglin; auto. simpl. cring.
    - eapply cderiv_eq; [|apply cderiv_add; [apply cderiv_const|apply cderiv_scale_r; apply cderiv_id]]. mglin; auto. cring. }
  pose proof (@mexp_curve n Z (ms tau D) WZ WD MD) as HC.
  rewrite is_matrix_wfm in HX. apply (@mat_ext RS n n); auto. apply wfm_dmexp.
  intros i j Hi Hj. eapply cderiv_unique; [apply H1; auto|]. eapply cderiv_eq; [|apply HC; auto].
  apply (f_equal (fun M : op => mg M i j)). apply dmexp_ext2; auto.
  apply (@mat_ext RS n n); auto. intros a b Ha Hb. unfold Z. mglin; auto. change (cofk (0%R : RField)) with (c0 : RC). cring.
Qed.

Lemma dmexp_dsum n X C v D (W : wfm n n X) tau (WD : forall c, c < C -> wfm n n (D c)) (Y : nat -> op) (WS : wfm n n (ms tau (dsum n C v D))) t :
  (forall c (WT : wfm n n (ms tau (D c))), c < C -> Y c = dmexp W WT t) -> dmexp W WS t = dsum n C v Y.
Proof.
  revert WS. induction C as [|C IH]; intros WS HY.
  - cbn [dsum]. assert (WZ : wfm n n (mzero (S:=RS) n n)) by apply wfm_mzero.
    assert (WZ2 : wfm n n (ms c0 (mzero (S:=RS) n n))) by wf_solve.
    transitivity (dmexp W WZ2 t).
    + apply dmexp_ext2; auto. apply (@mat_ext RS n n); [wf_solve|wf_solve|]. intros i j Hi Hj. cbn [dsum]. mglin; auto. simpl. cring.
    + rewrite (@dmexp_scale n X c0 (mzero (S:=RS) n n) W WZ WZ2). apply (@mat_ext RS n n); [pose proof (wfm_dmexp W WZ t); wf_solve|wf_solve|].
      intros i j Hi Hj. pose proof (wfm_dmexp W WZ t). mglin; auto. simpl. cring.
  - cbn [dsum]. assert (W1 : wfm n n (dsum n C v D)) by (apply wfm_dsum; intros; apply WD; lia).
    assert (W2 : wfm n n (D C)) by (apply WD; lia).
    assert (W3 : wfm n n (ms tau (dsum n C v D))) by wf_solve. assert (W4 : wfm n n (ms tau (D C))) by wf_solve.
    assert (W5 : wfm n n (ms (cofk (v C : RField)) (ms tau (D C)))) by wf_solve.
    assert (W6 : wfm n n (ma (ms tau (dsum n C v D)) (ms (cofk (v C : RField)) (ms tau (D C))))) by wf_solve.
    transitivity (dmexp W W6 t).
    + apply dmexp_ext2; auto. apply (@mat_ext RS n n); [auto|auto|]. intros i j Hi Hj. cbn [dsum]. mglin; auto. cring.
    + rewrite (dmexp_add W W3 W5 W6). f_equal.
      * apply IH. intros; apply WD; lia. intros; apply HY; lia.
      * rewrite (@dmexp_scale n X (cofk (v C : RField)) (ms tau (D C)) W W4 W5). f_equal. symmetry. apply HY. lia.
Qed.

(** derivative of one time step propagator when the generator moves in the directions D_c with velocities v_c *)
Lemma step_deriv n (tau : RC) C (v : nat -> R) (G E : R -> op) (D X : nat -> op) :
  (forall s, wfm n n (G s)) -> (forall c, c < C -> wfm n n (D c)) ->
  (forall i j, i < n -> j < n -> cderiv (fun s => mg (G s) i j) 0 (sumn (S:=RS) C (fun c => cmul (cofk (v c : RField)) (mg (D c) i j)))) ->
  (forall s, is_exponential n (ms tau (G s)) (E s)) -> (forall c, c < C -> is_exp_derivative n tau (G 0%R) (D c) (X c)) ->
  mderiv n E 0 (dsum n C v X).
Proof.
  intros WG WD HG HE HX.
  assert (WZ : forall s, wfm n n (ms tau (G s))) by (intros; apply wfm_mscale; auto).
  assert (WS : wfm n n (dsum n C v D)) by now apply wfm_dsum.
  assert (WV : wfm n n (ms tau (dsum n C v D))) by wf_solve.
  assert (MD : mderiv n (fun s => ms tau (G s)) 0 (ms tau (dsum n C v D))).
  { apply mderiv_scale; auto. intros i j Hi Hj. rewrite mg_dsum by auto. apply HG; auto. }
  pose proof (@mexp_curve n _ _ WZ WV MD) as HC. intros i j Hi Hj.
  eapply cderiv_ext; [|eapply cderiv_eq; [|apply HC; [exact Hi|exact Hj]]].
  - intros s. cbv beta. now rewrite (exponential_mexp (WZ s) (HE s)).
  - apply (f_equal (fun M : op => mg M i j)). apply dmexp_dsum; auto. intros c WT Hc. apply exp_derivative_dmexp; auto.
Qed.

(** ---- products ---- *)
Fixpoint Fw (E : nat -> op) (x : op) t : op := match t with 0 => x | Datatypes.S t => mm (E t) (Fw E x t) end.
Fixpoint dFw n k (E dE : nat -> op) (x : op) t : op :=
  match t with 0 => mzero (S:=RS) n k | Datatypes.S t => ma (mm (dE t) (Fw E x t)) (mm (E t) (dFw n k E dE x t)) end.
Lemma wfm_Fw n k E x t : (forall i, i < t -> wfm n n (E i)) -> wfm n k x -> wfm n k (Fw E x t).
Proof. intros H Hx. induction t; cbn [Fw]; auto. eapply wfm_mmul; [apply H; lia|apply IHt; intros; apply H; lia]. Qed.
Lemma wfm_dFw n k E dE x t : (forall i, i < t -> wfm n n (E i)) -> (forall i, i < t -> wfm n n (dE i)) -> wfm n k x -> wfm n k (dFw n k E dE x t).
Proof.
  intros H H' Hx. induction t; cbn [dFw]; [apply wfm_mzero|]. apply wfm_madd. eapply wfm_mmul; [apply H'; lia|]. apply wfm_Fw; auto.
Qed.
Definition rderiv n k (G : R -> op) (t : R) (L : op) : Prop := forall i j, i < n -> j < k -> cderiv (fun s => mg (G s) i j) t (mg L i j).
Lemma Fw_deriv n k (E : R -> nat -> op) dE x T a : wfm n k x ->
  (forall s i, i < T -> wfm n n (E s i)) -> (forall i, i < T -> wfm n n (dE i)) -> (forall t, t < T -> mderiv n (fun s => E s t) a (dE t)) ->
  rderiv n k (fun s => Fw (E s) x T) a (dFw n k (E a) dE x T).
Proof.
  intros Wx. induction T as [|t IH]; intros WE WdE HE i j Hi Hj; cbn [Fw dFw].
  - rewrite (@mg_mzero RS n k) by auto. apply cderiv_const.
  - assert (WF : forall s, wfm n k (Fw (E s) x t)) by (intros; apply wfm_Fw; auto).
    assert (WdF : wfm n k (dFw n k (E a) dE x t)) by (apply wfm_dFw; auto).
    assert (W1 : forall s, wfm n n (E s t)) by (intros; apply WE; lia). assert (W2 : wfm n n (dE t)) by (apply WdE; lia).
    apply (@cderiv_ext (fun s => sumn (S:=RS) n (fun l => cmul (mg (E s t) i l) (mg (Fw (E s) x t) l j)))).
    { intros s. now rewrite (@mg_mmul RS n n k). }
    eapply cderiv_eq; [|apply cderiv_sumn; intros l Hl; apply cderiv_mul; [apply (HE t); auto|apply IH; auto]].
    rewrite (@mg_madd RS n k) by (auto; eapply wfm_mmul; eauto). rewrite !(@mg_mmul RS n n k) by auto. apply (@sumn_add RS).
Qed.
(** R_t F_t' = sum over the steps before t *)
Lemma dFw_telescope n k (E dE Rv : nat -> op) x T t : wfm n k x ->
  (forall i, i < T -> wfm n n (E i)) -> (forall i, i < T -> wfm n n (dE i)) -> (forall i, i <= T -> wfm n n (Rv i)) ->
  (forall i, i < T -> Rv i = mm (Rv (Datatypes.S i)) (E i)) -> t <= T ->
  forall i j, i < n -> j < k -> mg (mm (Rv t) (dFw n k E dE x t)) i j = sumn (S:=RS) t (fun l => mg (mm (Rv (Datatypes.S l)) (mm (dE l) (Fw E x l))) i j).
Proof.
  intros Wx WE WdE WR HR. induction t as [|t IH]; intros Ht i j Hi Hj; cbn [dFw].
  - assert (W0 := WR 0 ltac:(lia)). rewrite (@mg_mmul RS n n k) by (auto; wf_solve). cbn [sumn].
    transitivity (sumn (S:=RS) n (fun _ => c0)). { apply sumn_ext. intros l Hl. rewrite (@mg_mzero RS n k) by auto. simpl. cring. }
    apply (@sumn_0 RS). reflexivity.
  - assert (WF : wfm n k (Fw E x t)) by (apply wfm_Fw; auto; intros; apply WE; lia).
    assert (WdF : wfm n k (dFw n k E dE x t)) by (apply wfm_dFw; auto; intros; [apply WE|apply WdE]; lia).
    assert (W1 := WR (Datatypes.S t) Ht). assert (W2 := WE t ltac:(lia)). assert (W3 := WdE t ltac:(lia)).
    cbn [sumn]. rewrite <- (IH ltac:(lia) i j Hi Hj). rewrite (HR t) by lia.
    rewrite (@mmul_add_r RS n n k) by wf_solve. rewrite !(@mmul_assoc RS n n n k) by auto. rewrite (@mg_madd RS n k) by (auto; wf_solve). simpl. cring.
Qed.
End Total.
