(** Proofs for C79, part 1: intertwiners, sums of times and phases for the matrix exponential; the time steps of an evolution. *)
Require Import List Arith Lia Bool Reals Lra.
From Verif Require Import LibBase LibRing LibArr LibCplx LibMat LibNorm LibDeriv LibSeries M_Matrix S_Linear S_Deriv S_Exp P_Linear P_Matrix P_Frechet P_Mexp P_Mexp2 M_OpHeap M_Transfer S_Transfer M_Amplitude S_Amplitude P_Amplitude M_Solver S_Solver P_Solver7 P_Solver9 P_SolverMC M_Simulator S_Simulator S_Gradient P_Grad S_Invariance.
Import ListNotations.
Local Open Scope res_scope.
Set Implicit Arguments.

Section Inv.
Add Field Cfield_inv : (c_field RField).
Notation op := (op RField).
Notation st := (@st RField).
Notation mm := (mmul (S:=RS)).
Notation ma := (madd (S:=RS)).
Notation ms := (mscale (S:=RS)).
Hint Resolve wfm_mexp wfm_mpw : wfm.

(** ---- intertwiners ---- *)
Lemma mpw_carry m n V X X' k : wfm m n V -> wfm n n X -> wfm m m X' -> mm V X = mm X' V -> mm V (mpw n X k) = mm (mpw m X' k) V.
Proof.
  intros WV W W' E. induction k; cbn [mpw].
  - now rewrite (@mmul_1_r RS m n), (@mmul_1_l RS m n) by wf_solve.
  - assert (W2 := wfm_mpw k W). assert (W3 := wfm_mpw k W').
    rewrite (@mmul_assoc RS m n n n) by wf_solve. rewrite E. rewrite <- (@mmul_assoc RS m m n n) by wf_solve. rewrite IHk.
    now rewrite (@mmul_assoc RS m m m n) by wf_solve.
Qed.
Lemma mexp_carry m n V X X' (W : wfm n n X) (W' : wfm m m X') t : wfm m n V -> mm V X = mm X' V -> mm V (mexp W t) = mm (mexp W' t) V.
Proof.
  intros WV E. assert (WE := wfm_mexp W t). assert (WE' := wfm_mexp W' t). apply (@mat_ext RS m n); [wf_solve|wf_solve|]. intros i j Hi Hj.
  rewrite (@mg_mmul RS m n n), (@mg_mmul RS m m n) by auto. unfold mexp.
  assert (Ha : forall l, cgeo (fun k => cmul (mg V i l) (mseq n (mpw n X) l j k))) by (intros l; apply cgeo_scal, mseq_geo, mpw_geo, W).
  assert (Hb : forall l, cgeo (fun k => cmul (mg V l j) (mseq m (mpw m X') i l k))) by (intros l; apply cgeo_scal, mseq_geo, mpw_geo, W').
  assert (Hsa : cgeo (fun k => sumn (S:=RS) n (fun l => cmul (mg V i l) (mseq n (mpw n X) l j k)))) by (apply (cgeo_sum (fun l k => cmul (mg V i l) (mseq n (mpw n X) l j k))); auto).
  assert (Hsb : cgeo (fun k => sumn (S:=RS) m (fun l => cmul (mg V l j) (mseq m (mpw m X') i l k)))) by (apply (cgeo_sum (fun l k => cmul (mg V l j) (mseq m (mpw m X') i l k))); auto).
  transitivity (ces Hsa t); [|transitivity (ces Hsb t)].
  - rewrite (@ces_sum n (fun l k => cmul (mg V i l) (mseq n (mpw n X) l j k)) Ha Hsa). apply sumn_ext. intros l Hl. rewrite mg_mser by auto. symmetry. apply ces_scal. reflexivity.
  - apply ces_ext. intros k. pose proof (f_equal (fun M => mg M i j) (mpw_carry k WV W W' E)) as EE. cbv beta in EE.
    rewrite (@mg_mmul RS m n n), (@mg_mmul RS m m n) in EE by (auto with wfm). transitivity (sumn (S:=RS) n (fun l => cmul (mg V i l) (mg (mpw n X k) l j))).
    + apply sumn_ext. intros l Hl. now rewrite mseq_in.
    + etransitivity; [exact EE|]. apply sumn_ext. intros l Hl. rewrite mseq_in by auto. cring.
  - rewrite (@ces_sum m (fun l k => cmul (mg V l j) (mseq m (mpw m X') i l k)) Hb Hsb). apply sumn_ext. intros l Hl. rewrite mg_mser by auto.
    tocplx. rewrite (ces_scal (z:=mg V l j) (mseq_geo (mpw_geo W') i l) (Hb l)) by reflexivity. cring.
Qed.

(** ---- times ---- *)
Lemma mexp_plus n X (W : wfm n n X) a b : mexp W (a + b)%R = mm (mexp W a) (mexp W b).
Proof.
  assert (H : mm (mexp W (- a)%R) (mexp W (a + b)%R) = mexp W (0 + b)%R).
  { apply (@mexp_back n X W (fun s => mexp W (s + b)%R) a); [intros; apply wfm_mexp|]. intros s i j Hi Hj. pose proof (@mexp_deriv n X W (s + b)%R i j Hi Hj) as D.
    destruct D as [D1 D2]. split.
    - replace (cre (mg (mm X (mexp W (s + b))) i j)) with (cre (mg (mm X (mexp W (s + b))) i j) * 1)%R by ring.
      apply (derivable_pt_lim_comp (fun x => x + b)%R (fun x => cre (mg (mexp W x) i j))); auto.
      replace 1%R with (1 + 0)%R by ring. apply (derivable_pt_lim_plus (fun x => x) (fun _ => b)); [apply derivable_pt_lim_id|apply derivable_pt_lim_const].
    - replace (cim (mg (mm X (mexp W (s + b))) i j)) with (cim (mg (mm X (mexp W (s + b))) i j) * 1)%R by ring.
      apply (derivable_pt_lim_comp (fun x => x + b)%R (fun x => cim (mg (mexp W x) i j))); auto.
      replace 1%R with (1 + 0)%R by ring. apply (derivable_pt_lim_plus (fun x => x) (fun _ => b)); [apply derivable_pt_lim_id|apply derivable_pt_lim_const]. }
  rewrite Rplus_0_l in H. rewrite <- H. assert (W1 := wfm_mexp W a). assert (W2 := wfm_mexp W (- a)). assert (W3 := wfm_mexp W (a + b)).
  rewrite (@mmul_assoc RS n n n n) by wf_solve. rewrite mexp_inv'. now rewrite (@mmul_1_l RS n n) by wf_solve.
Qed.
Lemma ms_real_wf n X (x : R) : wfm n n X -> wfm n n (ms (cofk (x : RField)) X).
Proof. intros. wf_solve. Qed.
Lemma mexp_time n X (W : wfm n n X) (x : R) (W' : wfm n n (ms (cofk (x : RField)) X)) : mexp W' 1 = mexp W x.
Proof.
  symmetry. transitivity (mexp W (1 * x)%R); [now rewrite Rmult_1_l|]. apply (solves_unique W' (Y := fun s => mexp W (s * x)%R)). split; [intros; apply wfm_mexp|]. split; [rewrite Rmult_0_l; apply mexp_0|].
  intros s i j Hi Hj. pose proof (@mexp_deriv n X W (s * x)%R i j Hi Hj) as [D1 D2]. assert (WM := wfm_mexp W (s * x)%R).
  assert (E : mg (mm (ms (cofk (x : RField)) X) (mexp W (s * x))) i j = cmul (cofk (x : RField)) (mg (mm X (mexp W (s * x))) i j)).
  { rewrite !(@mg_mmul RS n n n) by (auto; wf_solve). rewrite csumn_mul_l. apply sumn_ext. intros l Hl. rewrite (@mg_mscale RS n n) by auto. tocplx. cring. }
  assert (DL : derivable_pt_lim (fun s => s * x)%R s x).
  { assert (D : derivable_pt_lim (fun s => s * x)%R s (1 * x + s * 0)%R) by (apply (derivable_pt_lim_mult (fun s => s) (fun _ => x)); [apply derivable_pt_lim_id|apply derivable_pt_lim_const]).
    now replace (1 * x + s * 0)%R with x in D by ring. }
  rewrite E. split.
  - replace (cre (cmul (cofk (x : RField)) (mg (mm X (mexp W (s * x))) i j))) with (cre (mg (mm X (mexp W (s * x))) i j) * x)%R by (destruct (mg (mm X (mexp W (s * x))) i j); cbn; ring).
    apply (derivable_pt_lim_comp (fun s => s * x)%R (fun x => cre (mg (mexp W x) i j))); auto.
  - replace (cim (cmul (cofk (x : RField)) (mg (mm X (mexp W (s * x))) i j))) with (cim (mg (mm X (mexp W (s * x))) i j) * x)%R by (destruct (mg (mm X (mexp W (s * x))) i j); cbn; ring).
    apply (derivable_pt_lim_comp (fun s => s * x)%R (fun x => cim (mg (mexp W x) i j))); auto.
Qed.
(** ---- phases ---- *)
Lemma mexp_shift n X X' (W : wfm n n X) (W' : wfm n n X') (w : RC) t : X' = ma X (ms w (mid (S:=RS) n)) ->
  mexp W' t = ms (cexpR (cmul (cofk (t : RField)) w)) (mexp W t).
Proof.
  intros E. symmetry. apply (solves_unique W' (Y := fun s => ms (cexpR (cmul (cofk (s : RField)) w)) (mexp W s))). split; [intros s; assert (WM := wfm_mexp W s); wf_solve|]. split.
  - rewrite mexp_0. change (cofk ((0%R) : RField)) with (c0 : RC). replace (cmul c0 w) with (c0 : RC) by cring. rewrite cexpR_0. apply (@mat_ext RS n n); [wf_solve|wf_solve|]. intros i j Hi Hj.
    rewrite (@mg_mscale RS n n) by wf_solve. tocplx. cring.
  - intros s i j Hi Hj. assert (WM := wfm_mexp W s).
    eapply cderiv_ext; [intros x; symmetry; apply (@mg_mscale RS n n); auto with wfm|].
    eapply cderiv_eq; [|apply cderiv_mul; [apply cderiv_exp|apply (@mexp_deriv n X W s i j Hi Hj)]].
    rewrite E.
    transitivity (cadd (cmul w (cmul (cexpR (cmul (cofk (s : RField)) w)) (mg (mm (mid (S:=RS) n) (mexp W s)) i j))) (cmul (cexpR (cmul (cofk (s : RField)) w)) (mg (mm X (mexp W s)) i j))).
    { rewrite (@mmul_1_l RS n n) by auto. cring. }
    rewrite !(@mg_mmul RS n n n) by (auto; wf_solve). rewrite !csumn_mul_l, csumn_add. apply sumn_ext. intros l Hl.
    rewrite (@mg_madd RS n n), !(@mg_mscale RS n n) by (auto; wf_solve). tocplx. cring.
Qed.
End Inv.
