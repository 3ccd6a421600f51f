(** Concrete generators over the reals: where the spectral derivative, the spectral exponential and the
    exponential returned by dexp are wrong. *)
Require Import List Arith Lia Ring Field Bool Reals Lra.
From Verif Require Import LibBase LibRing LibArr LibCplx LibMat LibNorm LibDeriv M_Matrix S_Linear S_Exp P_Linear P_Matrix P_Spectral P_RealExp P_Frechet P_Dexp.
Import ListNotations.
Set Implicit Arguments.

Section P.
Notation S := RS.
Notation C := RC.
Notation op := (op RField).
Add Field Cfield : (c_field RField).
Notation mm := (mmul (S:=RS)).
Notation md := (mdag (S:=RS)).

(** 2 x 2 matrices by entries *)
Definition m22 (a b c d : C) : op := mk2 2 2 (fun i j => match i, j with 0, 0 => a | 0, _ => b | _, 0 => c | _, _ => d end).
Lemma m22_wf a b c d : wfm 2 2 (m22 a b c d).
Proof. apply wfm_mk2. Qed.
Lemma m22_eq M : wfm 2 2 M -> M = m22 (mg M 0 0) (mg M 0 1) (mg M 1 0) (mg M 1 1).
Proof.
  intros W. apply (@mat_ext S 2 2); [auto|apply m22_wf|]. intros i j Hi Hj. unfold m22. rewrite mg_mk2 by auto.
  destruct i as [|[|?]]; try lia; destruct j as [|[|?]]; try lia; reflexivity.
Qed.
Lemma m22_00 a b c d : mg (m22 a b c d) 0 0 = a. Proof. reflexivity. Qed.
Lemma m22_01 a b c d : mg (m22 a b c d) 0 1 = b. Proof. reflexivity. Qed.
Lemma m22_10 a b c d : mg (m22 a b c d) 1 0 = c. Proof. reflexivity. Qed.
Lemma m22_11 a b c d : mg (m22 a b c d) 1 1 = d. Proof. reflexivity. Qed.
Lemma m22_mul a b c d a' b' c' d' : mm (m22 a b c d) (m22 a' b' c' d') =
  m22 (cadd (cmul a a') (cmul b c')) (cadd (cmul a b') (cmul b d')) (cadd (cmul c a') (cmul d c')) (cadd (cmul c b') (cmul d d')).
Proof.
  rewrite (@m22_eq (mm _ _)) by (apply wfm_mmul with 2; apply m22_wf).
  rewrite !(@mg_mmul S 2 2 2) by (first [apply m22_wf|lia]). cbn [sumn].
  rewrite !m22_00, !m22_01, !m22_10, !m22_11. f_equal; cring.
Qed.
Lemma m22_dag a b c d : md (m22 a b c d) = m22 (cconj a) (cconj c) (cconj b) (cconj d).
Proof. reflexivity. Qed.
Lemma m22_scale k a b c d : mscale (S:=S) k (m22 a b c d) = m22 (cmul k a) (cmul k b) (cmul k c) (cmul k d).
Proof. reflexivity. Qed.
Lemma m22_had a b c d a' b' c' d' : mhad (m22 a b c d) (m22 a' b' c' d') = m22 (cmul a a') (cmul b b') (cmul c c') (cmul d d').
Proof. reflexivity. Qed.

Notation r x := (cofk (F:=RField) x%R).
Ltac c2r := apply injective_projections; cbn [fst snd cofk cmul cadd csub copp cconj c0 c1 ci cre cim];
   change (@kadd RField) with Rplus; change (@kmul RField) with Rmult; change (@ksub RField) with Rminus; change (@kopp RField) with Ropp;
   change (@k0 RField) with 0%R; change (@k1 RField) with 1%R.

(** A = V diag(0,1) V^T with the rotation V; direction D = A *)
Definition wV : op := m22 (r (3/5)) (r (-(4/5))) (r (4/5)) (r (3/5)).
Definition wA : op := m22 (r (16/25)) (r (-(12/25))) (r (-(12/25))) (r (9/25)).
Definition wtau : C := ((0, - PI)%R : C).
Definition wla : LinAlg RField :=
  @mkLA RField (fun M => ([0%R; 1%R] : list RField, wV)) (fun M => ([c0; c1], wV)) (fun M => M) (fun M _ => (M, M)) (fun M => (M, [], M)) cexpR.

Lemma r_mul (a b : R) : cmul (r a) (r b) = r (a * b).
Proof. symmetry. apply cofk_mul. Qed.
Lemma r_add (a b : R) : cadd (r a) (r b) = r (a + b).
Proof. symmetry. apply cofk_add. Qed.
Lemma r_conj (a : R) : cconj (r a) = r a.
Proof. apply cofk_conj. Qed.
Lemma r0 : r 0 = c0. Proof. reflexivity. Qed.
Lemma r1 : r 1 = c1. Proof. reflexivity. Qed.

Lemma cre_cadd (x y : C) : cre (cadd x y) = (cre x + cre y)%R. Proof. reflexivity. Qed.
Lemma cre_r (a : R) : cre (r a) = a. Proof. reflexivity. Qed.
Lemma cre_rmul (a : R) x : cre (cmul (r a) x) = (a * cre x)%R.
Proof. destruct x as [u v]. unfold cmul, cofk, cre. cbn [fst snd]. change (a * u - 0 * v = a * u)%R. ring. Qed.
Lemma cre_mulr (a : R) x : cre (cmul x (r a)) = (a * cre x)%R.
Proof. destruct x as [u v]. unfold cmul, cofk, cre. cbn [fst snd]. change (u * a - v * 0 = a * u)%R. ring. Qed.

Ltac cne Z := apply (f_equal cre) in Z; cbv [cre fst snd c0 c1 csub copp cadd] in Z;
  change (@kadd RField) with Rplus in Z; change (@ksub RField) with Rminus in Z; change (@kopp RField) with Ropp in Z;
  change (@k0 RField) with 0%R in Z; change (@k1 RField) with 1%R in Z; change (kcar RField) with R in Z; lra.
Ltac rnum := rewrite ?r_mul, ?r_add, ?r_conj; rewrite <- ?r0, <- ?r1; rewrite ?r_mul, ?r_add, ?r_conj; f_equal; lra.
Lemma wV_unitary : munitary 2 wV.
Proof.
  assert (I : mid (S:=S) 2 = m22 (r 1) (r 0) (r 0) (r 1)) by reflexivity.
  split; [apply m22_wf|]. unfold wV. rewrite m22_dag, !m22_mul, I. split; f_equal; rnum.
Qed.
Lemma wA_eig : is_eigendecomposition 2 wA [c0; c1] wV.
Proof.
  split; [apply is_matrix_wfm; apply m22_wf|split; [reflexivity|split; [apply is_unitary_m; apply wV_unitary|]]].
  intros i j Hi Hj. cbn [sumn]. destruct i as [|[|?]]; try lia; destruct j as [|[|?]]; try lia; cbn [nth];
    unfold wA, wV; rewrite ?m22_00, ?m22_01, ?m22_10, ?m22_11; tocplx; rewrite <- r0, <- r1, !r_conj, !r_mul, !r_add; f_equal; lra.
Qed.
Lemma wA_eig_ok : eig_ok wla false 2 wA.
Proof. exact wA_eig. Qed.

Lemma cexp_pi : cexpR (cmul wtau c1) = r (-1).
Proof.
  unfold cexpR, wtau. cbn [cmul c1 cre cim fst snd]. change (@kadd RField) with Rplus; change (@kmul RField) with Rmult; change (@ksub RField) with Rminus.
  change (@k0 RField) with 0%R; change (@k1 RField) with 1%R.
  replace (0 * 1 - - PI * 0)%R with 0%R by ring. replace (0 * 0 + - PI * 1)%R with (- PI)%R by ring.
  rewrite exp_0, cos_neg, sin_neg, cos_PI, sin_PI. unfold cofk. change (@k0 RField) with 0%R. apply (f_equal2 pair); lra.
Qed.
Lemma cexp_mpi : cexpR (cmul wtau (copp c1)) = r (-1).
Proof.
  assert (H : cmul (cexpR (cmul wtau (copp c1))) (cexpR (cmul wtau c1)) = c1).
  { rewrite <- cexpR_add, <- cexpR_0. f_equal. ring. }
  rewrite cexp_pi in H. transitivity (cmul (cmul (cexpR (cmul wtau (copp c1))) (r (-1))) (r (-1))).
  - replace (cmul (cmul (cexpR (cmul wtau (copp c1))) (r (-1))) (r (-1))) with (cmul (cexpR (cmul wtau (copp c1))) (cmul (r (-1)) (r (-1)))) by ring.
    rewrite r_mul. replace (-1 * -1)%R with 1%R by lra. rewrite r1. ring.
  - rewrite H. ring.
Qed.

Definition wE : op := m22 (r (-(7/25))) (r (24/25)) (r (24/25)) (r (7/25)).
(** what the code returns: its real part does not vanish *)
Lemma w_code eps : exists dU, op_dexp wla wA wA wtau Spectral false eps = Ok (wE, dU) /\ is_matrix 2 2 dU /\ cre dU.[0,0] <> 0%R.
Proof.
  assert (EE : spectral_fun [c0; c1] wV (fun x => cexpR (cmul wtau x)) = wE).
  { rewrite (spectral_fun_conjd (n:=2)) by apply m22_wf.
    assert (EW : wE = conjd 2 wV (fun k => nth k [c1; r (-1)] c0)).
    { apply (@mat_ext S 2 2); [apply m22_wf|apply wfm_conjd, m22_wf|]. intros i j Hi Hj. rewrite mg_conjd by (auto; apply m22_wf).
      cbn [sumn]. destruct i as [|[|?]]; try lia; destruct j as [|[|?]]; try lia; cbn [nth];
      unfold wE, wV; rewrite ?m22_00, ?m22_01, ?m22_10, ?m22_11; tocplx; rewrite <- r0, <- r1, !r_conj, !r_mul, !r_add; f_equal; lra. }
    rewrite EW. apply conjd_ext; [apply m22_wf|]. intros k Hk. destruct k as [|[|?]]; try lia; cbn [nth].
    - rewrite <- cexpR_0. f_equal. ring.
    - apply cexp_pi. }
  assert (OM : omega_mat wla 2 [c0; c1] wtau = m22 wtau (r (-2)) (r 2) wtau).
  { rewrite (@m22_eq (omega_mat _ _ _ _)) by apply wfm_mk2. unfold omega_mat. rewrite !mg_mk2 by lia. unfold eig_diff. cbn [Nat.eqb nth]. change (la_cexp wla) with cexpR.
    f_equal.
    - replace (cmul (csub c1 c0) wtau) with (cmul wtau c1) by ring. rewrite cexp_pi.
      transitivity (csub (r (-1)) c1); [field; intros Z; cne Z|].
      apply (f_equal2 pair); [change (-1 - 1 = -2)%R || change (1 - -1 = 2)%R; lra|change (0 - 0 = 0)%R; lra].
    - replace (cmul (csub c0 c1) wtau) with (cmul wtau (copp c1)) by ring. rewrite cexp_mpi.
      transitivity (csub c1 (r (-1))); [field; intros Z; cne Z|].
      apply (f_equal2 pair); [change (-1 - 1 = -2)%R || change (1 - -1 = 2)%R; lra|change (0 - 0 = 0)%R; lra]. }
  eexists. split; [|split].
  - unfold op_dexp. cbn [negb andb Nat.eqb nr nc wA m22 mk2 shape nth]. unfold op_dexp_diag. cbn [eig_pair la_eig wla].
    replace (degenerate (nr wA) [c0; c1]) with false by (symmetry; apply not_degenerate; intros i j Hi Hj N;
      change (nr wA) with 2 in *; destruct i as [|[|?]]; try lia; destruct j as [|[|?]]; try lia; try (exfalso; apply N; reflexivity); cbn [nth];
      intros Z; cne Z).
    change (la_cexp wla) with cexpR. rewrite EE. change (nr wA) with 2. rewrite OM. reflexivity.
  - apply is_matrix_wfm. apply wfm_mmul with 2; [apply m22_wf|]. apply wfm_mmul with 2; [|apply m22_wf]. apply wfm_mmul with 2; [apply wfm_mdag; apply m22_wf|].
    apply wfm_mk2.
  - assert (B : mm (mm wV wA) (md wV) = m22 (r (576/625)) (r (168/625)) (r (168/625)) (r (49/625))).
    { unfold wV, wA. rewrite m22_dag, !m22_mul, !r_conj, !r_mul, !r_add, !r_mul, !r_add. f_equal; f_equal; lra. }
    rewrite B, m22_had, !r_mul. unfold wV, wE. rewrite m22_dag, !m22_mul, m22_00.
    rewrite !r_conj. repeat (rewrite ?cre_cadd, ?cre_rmul, ?cre_mulr, ?cre_r). change (cre wtau) with 0%R. lra.
Qed.

(** the true exponentials and their derivative *)
Definition wEs (s : R) : op := conjd 2 wV (fun k => cexpR (cmul (cmul wtau (cadd c1 (r s))) (nth k [c0; c1] c0))).
Lemma wZ s : is_perturbed 2 wtau wA wA s (mscale (S:=S) (cmul wtau (cadd c1 (r s))) wA).
Proof.
  assert (W : wfm 2 2 wA) by apply m22_wf.
  split; [apply is_matrix_wfm; wf_solve|]. intros i j Hi Hj. mglin. tocplx. cring.
Qed.
Lemma wEs_exp s : is_exponential 2 (mscale (S:=S) (cmul wtau (cadd c1 (r s))) wA) (wEs s).
Proof.
  destruct (@spectral_exponential wla false 2 wA (cmul wtau (cadd c1 (r s))) eq_refl wA_eig_ok) as (E & HE & HX).
  revert HE. unfold op_exp. cbn [negb Nat.eqb nr nc wA m22 mk2 shape nth]. unfold op_exp_diag. cbn [eig_pair la_eig wla]. intros [= <-].
  rewrite (spectral_fun_conjd (n:=2)) in HX by apply m22_wf. exact HX.
Qed.
Lemma wEs_deriv : cderiv (fun s => mg (wEs s) 0 0) 0 (cmul (r (-(16/25))) wtau).
Proof.
  apply (@cderiv_ext (fun s => cadd (r (9/25)) (cmul (cmul (r (16/25)) (cexpR wtau)) (cexpR (cmul (r s) wtau))))).
  - intros s. unfold wEs. rewrite mg_conjd by (first [apply m22_wf|lia]). cbn [sumn nth]. unfold wV. rewrite m22_00, m22_01. tocplx.
    replace (cmul (cmul wtau (cadd c1 (r s))) c0) with (@c0 RField) by ring. rewrite cexpR_0.
    replace (cmul (cmul wtau (cadd c1 (r s))) c1) with (cadd wtau (cmul (r s) wtau)) by ring. rewrite cexpR_add, !r_conj.
    replace (r (9/25)) with (cmul (r (3/5)) (r (3/5))) by (rewrite r_mul; f_equal; lra).
    replace (r (16/25)) with (cmul (r (-(4/5))) (r (-(4/5)))) by (rewrite r_mul; f_equal; lra). ring.
  - eapply cderiv_eq; [|apply cderiv_add; [apply cderiv_const|apply cderiv_scale; apply cderiv_exp]].
    change (r 0) with (@c0 RField). replace (cmul c0 wtau) with (@c0 RField) by ring. rewrite cexpR_0.
    replace (cexpR wtau) with (r (-1)) by (rewrite <- cexp_pi; f_equal; ring).
    rewrite r_mul. replace (16/25 * -1)%R with (-(16/25))%R by lra. ring.
Qed.

Lemma dexp_spectral_wrong : exists (la : LinAlg RField) (A : op) (tau : C) (dU : op),
  la_cexp la = cexpR /\ eig_ok la false 2 A /\ is_hermitian 2 A /\ cre tau = 0%R /\
  op_dexp_grad la A A tau Spectral false c1 = Ok dU /\
  exists Z E : R -> op, (forall s, is_perturbed 2 tau A A s (Z s)) /\ (forall s, is_exponential 2 (Z s) (E s)) /\
    ~ cderiv (fun s => (E s).[0,0]) 0%R dU.[0,0].
Proof.
  destruct (w_code c1) as (dU & H1 & H2 & H3).
  exists wla, wA, wtau, dU. split; [reflexivity|split; [apply wA_eig_ok|split; [|split; [reflexivity|split]]]].
  - split; [apply is_matrix_wfm; apply m22_wf|]. intros i j Hi Hj. destruct i as [|[|?]]; try lia; destruct j as [|[|?]]; try lia; apply (f_equal2 pair); try reflexivity; change (0 = - 0)%R; lra.
  - unfold op_dexp_grad. rewrite H1. reflexivity.
  - exists (fun s => mscale (S:=S) (cmul wtau (cadd c1 (r s))) wA), wEs.
    split; [apply wZ|split; [apply wEs_exp|]]. intros HD. pose proof (cderiv_unique HD wEs_deriv) as E.
    apply H3. rewrite E. rewrite cre_rmul. change (cre wtau) with 0%R. lra.
Qed.

(** C07: a diagonalisable but not normal operator with its correct eigenvectors *)
Definition nA : op := m22 c0 (r 4) c0 (r 3).
Definition nV : op := m22 c1 (r (4/5)) c0 (r (3/5)).
Definition nla : LinAlg RField :=
  @mkLA RField (fun M => ([] : list RField, M)) (fun M => ([c0; r 3], nV)) (fun M => M) (fun M _ => (M, M)) (fun M => (M, [], M)) cexpR.
Lemma exp_nonnormal_wrong : exists (la : LinAlg RField) (A V : op) (w : list C) (E : op),
  la_cexp la = cexpR /\ la_eig la A = (w, V) /\
  (forall i k, i < 2 -> k < 2 -> sumn (S:=S) 2 (fun j => cmul A.[i,j] V.[j,k]) = cmul V.[i,k] (nth k w c0)) /\
  (forall k, k < 2 -> sumn (S:=KStar RField) 2 (fun i => cnorm2 V.[i,k]) = 1%R) /\
  csub (cmul V.[0,0] V.[1,1]) (cmul V.[0,1] V.[1,0]) <> c0 /\
  op_exp la A c0 Spectral false = Ok E /\ ~ is_identity 2 E.
Proof.
  exists nla, nA, nV, [c0; r 3]. eexists. split; [reflexivity|split; [reflexivity|split; [|split; [|split; [|split; [reflexivity|]]]]]].
  - intros i k Hi Hk. cbn [sumn]. unfold nA, nV. destruct i as [|[|?]]; try lia; destruct k as [|[|?]]; try lia; cbn [nth];
      rewrite ?m22_00, ?m22_01, ?m22_10, ?m22_11; tocplx; rewrite <- ?r0, <- ?r1, ?r_mul, ?r_add; f_equal; lra.
  - intros k Hk. cbn [sumn]. unfold nV. destruct k as [|[|?]]; try lia; rewrite ?m22_00, ?m22_01, ?m22_10, ?m22_11; unfold cnorm2, cofk, c0, c1; cbn [fst snd];
      change (@sadd (KStar RField)) with Rplus; change (@s0 (KStar RField)) with 0%R;
      change (@kadd RField) with Rplus; change (@kmul RField) with Rmult; change (@k0 RField) with 0%R; change (@k1 RField) with 1%R; lra.
  - unfold nV. rewrite m22_00, m22_01, m22_10, m22_11. replace (cmul (r (4/5)) c0) with (@c0 RField) by ring.
    replace (csub (cmul c1 (r (3/5))) c0) with (r (3/5)) by ring. intros Z. apply (f_equal cre) in Z. rewrite cre_r in Z. change (3/5 = 0)%R in Z. lra.
  - intros [_ H]. specialize (H 0 1 ltac:(lia) ltac:(lia)). apply (f_equal cre) in H. revert H.
    unfold op_exp_diag. cbn [eig_pair la_eig nla]. unfold spectral_fun. change (nr nV) with 2. change (nc nV) with 2.
    rewrite mg_mk2 by lia. cbn [sumn nth]. change (la_cexp nla) with cexpR. 
    replace (cmul c0 c0) with (@c0 RField) by ring. replace (cmul c0 (r 3)) with (@c0 RField) by ring. rewrite cexpR_0.
    unfold nV. rewrite ?m22_00, ?m22_01, ?m22_10, ?m22_11. unfold delta. cbn [Nat.eqb]. tocplx.
    rewrite <- ?r0, <- ?r1, ?r_conj, ?r_mul, ?r_add, ?cre_r. lra.
Qed.

(** C09: the exponential returned along with the derivative is not the one of the same method *)
Definition oA : op := mk2 1 1 (fun _ _ => c1).
Definition ola : LinAlg RField :=
  @mkLA RField (fun M => ([] : list RField, M)) (fun M => ([c1], oA)) (fun M => M) (fun M _ => (M, M)) (fun M => (M, [], M)) cexpR.
Lemma oA_eig_ok : eig_ok ola false 1 oA.
Proof.
  split; [split; reflexivity|split; [reflexivity|split]].
  - split; [split; reflexivity|]. split; intros i j Hi Hj; assert (i = 0) as -> by lia; assert (j = 0) as -> by lia;
      cbn [sumn]; change (mg (snd (la_eig ola oA)) 0 0) with (@c1 RField); unfold delta; cbn [Nat.eqb]; tocplx;
      rewrite <- ?r1, <- ?r0, ?r_conj, ?r_mul, ?r_add; f_equal; lra.
  - intros i j Hi Hj; assert (i = 0) as -> by lia; assert (j = 0) as -> by lia. cbn [sumn].
    change (mg (snd (la_eig ola oA)) 0 0) with (@c1 RField). change (mg oA 0 0) with (@c1 RField). cbn [fst ola la_eig nth].
    tocplx; rewrite <- ?r1, <- ?r0, ?r_conj, ?r_mul, ?r_add; f_equal; lra.
Qed.
Lemma dexp_expm_differs : exists (la : LinAlg RField) (A D : op) (E E' dU : op),
  la_cexp la = cexpR /\ eig_ok la false 1 A /\
  op_dexp la A D c1 FirstOrder false c1 = Ok (E, dU) /\ op_exp la A c1 FirstOrder false = Ok E' /\ E <> E'.
Proof.
  exists ola, oA, oA. do 3 eexists. split; [reflexivity|split; [apply oA_eig_ok|split; [reflexivity|split; [reflexivity|]]]].
  intros H. apply (f_equal (fun M => cre (mg M 0 0))) in H. revert H.
  unfold op_exp_diag. cbn [eig_pair la_eig ola]. unfold spectral_fun, exp_first. change (nr oA) with 1. change (nc oA) with 1.
  assert (W : wfm 1 1 oA) by apply wfm_mk2.
  rewrite mg_mk2 by lia. mglin. cbn [sumn nth]. change (la_cexp ola) with cexpR. change (mg oA 0 0) with (@c1 RField).
  unfold kd. cbn [Nat.eqb]. tocplx.
  replace (cadd c0 (cmul (cmul c1 (cexpR (cmul c1 c1))) (cconj c1))) with (cexpR (r 1)).
  - rewrite <- r1, r_mul, cre_cadd, !cre_r. unfold cexpR. cbn [cre cim cofk fst snd]. change (@k0 RField) with 0%R. rewrite cos_0.
    pose proof (exp_ineq1 1 ltac:(lra)). lra.
  - rewrite <- r1, r_conj, r_mul. replace (1 * 1)%R with 1%R by lra. rewrite r1. ring.
Qed.

(** the same A with the eigenvector matrix [[3/5, 4/5], [4/5, -3/5]], which is Hermitian *)
Definition hV : op := m22 (r (3/5)) (r (4/5)) (r (4/5)) (r (-(3/5))).
Definition hla : LinAlg RField :=
  @mkLA RField (fun M => ([0%R; 1%R] : list RField, hV)) (fun M => ([c0; c1], hV)) (fun M => M) (fun M _ => (M, M)) (fun M => (M, [], M)) cexpR.
Lemma hV_unitary : munitary 2 hV.
Proof.
  assert (I : mid (S:=S) 2 = m22 (r 1) (r 0) (r 0) (r 1)) by reflexivity.
  split; [apply m22_wf|]. unfold hV. rewrite m22_dag, !m22_mul, I. split; f_equal; rnum.
Qed.
Lemma hA_eig_ok : eig_ok hla false 2 wA.
Proof.
  split; [apply is_matrix_wfm; apply m22_wf|split; [reflexivity|split; [apply is_unitary_m; apply hV_unitary|]]].
  intros i j Hi Hj. cbn [sumn]. destruct i as [|[|?]]; try lia; destruct j as [|[|?]]; try lia; cbn [nth fst snd hla la_eig];
    unfold wA, hV; rewrite ?m22_00, ?m22_01, ?m22_10, ?m22_11; tocplx; rewrite <- r0, <- r1, !r_conj, !r_mul, !r_add; f_equal; lra.
Qed.
Lemma wA_skew : is_skew_hermitian 2 (mscale (S:=S) wtau wA).
Proof.
  assert (W : wfm 2 2 wA) by apply m22_wf.
  split; [apply is_matrix_wfm; wf_solve|]. intros i j Hi Hj. mgsimp.
  assert (T : cconj wtau = copp wtau).
  { unfold wtau, cconj, copp. cbn [fst snd]. apply (f_equal2 pair); [change (0 = - 0)%R; ring|reflexivity]. }
  destruct i as [|[|?]]; try lia; destruct j as [|[|?]]; try lia; unfold wA; rewrite ?m22_00, ?m22_01, ?m22_10, ?m22_11;
    tocplx; rewrite cconj_mul, r_conj, T; ring.
Qed.
Lemma hV_hermitian : is_hermitian 2 hV.
Proof.
  split; [apply is_matrix_wfm; apply m22_wf|]. intros i j Hi Hj.
  destruct i as [|[|?]]; try lia; destruct j as [|[|?]]; try lia; unfold hV; rewrite ?m22_00, ?m22_01, ?m22_10, ?m22_11; symmetry; apply r_conj.
Qed.
Lemma h_distinct : forall i j, i < 2 -> j < 2 -> i <> j -> nth i [c0; c1] c0 <> nth j [c0; c1] (c0 : C).
Proof.
  intros i j Hi Hj Hij. destruct i as [|[|?]]; try lia; destruct j as [|[|?]]; try lia; cbn [nth]; intros Z; cne Z.
Qed.
End P.

(** where dexp agrees with exp *)
Lemma dexp_expm_spectral {F} (la : LinAlg F) A D tau skew eps E dU :
  op_dexp la A D tau Spectral skew eps = Ok (E, dU) -> op_exp la A tau Spectral skew = Ok E.
Proof.
  unfold op_dexp, op_exp. destruct (Nat.eqb (nr A) (nc A)); [|discriminate]. cbn [negb andb].
  destruct (_ && _); [|discriminate]. cbn [negb]. unfold op_dexp_diag, op_exp_diag.
  destruct (eig_pair la A skew) as [w V]. destruct (degenerate _ _); [discriminate|]. now intros [= <- _].
Qed.
Lemma dexp_expm_frechet {F} (la : LinAlg F) A D tau skew eps E dU :
  (forall X Y, fst (la_expm_frechet la X Y) = la_expm la X) ->
  op_dexp la A D tau Frechet skew eps = Ok (E, dU) -> op_exp la A tau Frechet skew = Ok E.
Proof.
  intros H. unfold op_dexp, op_exp. destruct (Nat.eqb (nr A) (nc A)); [|discriminate]. cbn [negb andb].
  destruct (_ && _); [|discriminate]. cbn [negb]. intros [= H2]. now rewrite <- (H _ (mscale (S:=CStar F) tau D)), H2.
Qed.
