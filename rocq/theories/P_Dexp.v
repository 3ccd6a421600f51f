(** The spectral exponential and its derivative as computed by matrix.py, compared with the matrix
    exponential of S_Exp. *)
Require Import List Arith Lia Ring Field Bool Reals Lra.
From Verif Require Import LibBase LibRing LibArr LibCplx LibMat LibNorm LibDeriv M_Matrix S_Linear S_Exp P_Linear P_Matrix P_Spectral P_RealExp P_Frechet.
Import ListNotations.
Set Implicit Arguments.

Section P.
Notation S := RS.
Notation C := RC.
Notation op := (op RField).
Add Field Cfield : (c_field RField).
Notation mm := (mmul (S:=RS)).
Notation md := (mdag (S:=RS)).

Lemma solves_exponential n X Y : wfm n n X -> solves n X Y -> is_exponential n X (Y 1%R).
Proof.
  intros WX (W & Y0 & HD). exists Y. split; [intros; now apply is_matrix_wfm|split; [now apply is_identity_mid|split; [|reflexivity]]].
  intros t i j Hi Hj. pose proof (HD t i j Hi Hj) as H. now rewrite (@mg_mmul S n n n) in H by auto.
Qed.
Lemma exponential_solves n X E : wfm n n X -> is_exponential n X E -> exists Y, solves n X Y /\ Y 1%R = E.
Proof.
  intros WX (Y & W & Y0 & HD & E1). exists Y. split; auto. split; [intros; now apply is_matrix_wfm|split; [now apply is_identity_mid|]].
  intros t i j Hi Hj. rewrite (@mg_mmul S n n n) by (auto; apply is_matrix_wfm; auto). now apply HD.
Qed.

Lemma scaled_eig n A w V tau : is_eigendecomposition n A w V ->
  mscale (S:=S) tau A = conjd n V (fun k => cmul tau (nth k w c0)).
Proof.
  intros D. destruct (eigendec_conjd D) as (HA & HV & E & L). pose proof (munitary_wf HV) as W.
  apply (@mat_ext S n n); [wf_solve|now apply wfm_conjd|]. intros i j Hi Hj.
  rewrite (@mg_mscale S n n) by auto. rewrite (mg_conjd _ W) by auto. rewrite E at 1. rewrite (mg_conjd _ W) by auto.
  tocplx. rewrite csumn_mul_l. apply sumn_ext. intros k Hk. cring.
Qed.

(** C07: the spectral method computes the matrix exponential, for every normal operator and complex tau *)
Lemma spectral_exponential la skew n A tau : la_cexp la = cexpR -> eig_ok la skew n A ->
  exists E, op_exp la A tau Spectral skew = Ok E /\ is_exponential n (mscale (S:=S) tau A) E.
Proof.
  intros HC HE. destruct (@op_exp_spectral RField la skew n A tau HE) as (w & V & D & Ex0).
  destruct (eigendec_conjd D) as (HA & HV & EA & L). pose proof (munitary_wf HV) as W.
  eexists. split; [exact Ex0|].
  pose proof (Ex_solves (fun k => cmul tau (nth k w c0)) HV) as HS. rewrite <- (scaled_eig tau D) in HS.
  apply solves_exponential in HS; [|wf_solve]. unfold Ex in HS. rewrite HC.
  erewrite conjd_ext; [exact HS|auto|]. intros k Hk. cbn beta. f_equal.
  change (cofk (F:=RField) 1%R) with (@c1 RField). ring.
Qed.

(** the divided difference formula is the derivative of the exponential *)
Lemma Lfam_exp_derivative n A D w V tau : is_eigendecomposition n A w V -> is_matrix n n D ->
  is_skew_hermitian n (mscale (S:=S) tau A) -> is_skew_hermitian n (mscale (S:=S) tau D) ->
  is_exp_derivative n tau A D (Lfam n V (mscale (S:=S) tau D) (fun k => cmul tau (nth k w c0)) 1).
Proof.
  intros HD WD SA SD. apply is_matrix_wfm in WD. destruct (eigendec_conjd HD) as (WA & HV & EA & L). pose proof (munitary_wf HV) as W.
  split; [apply is_matrix_wfm; now apply wfm_Lfam|]. intros Z E HZ HE i j Hi Hj.
  assert (EZ : forall s, Z s = madd (S:=S) (conjd n V (fun k => cmul tau (nth k w c0))) (mscale (S:=S) (cofk (s:RField)) (mscale (S:=S) tau D))).
  { intros s. rewrite <- (scaled_eig tau HD). destruct (HZ s) as [W1 W2]. apply is_matrix_wfm in W1.
    apply (@mat_ext S n n); [auto|wf_solve|]. intros a b Ha Hb. rewrite W2 by auto. mglin. cring. }
  assert (WZ : forall s, wfm n n (Z s)) by (intros s; apply is_matrix_wfm; apply (HZ s)).
  (* choose the solutions *)
  assert (G : mderiv n E 0 (Lfam n V (mscale (S:=S) tau D) (fun k => cmul tau (nth k w c0)) 1)); [|exact (G i j Hi Hj)].
  apply is_skew_hermitian_m in SD. destruct SD as [WD' SD].
  pose proof (@skew_generator RField n A w V tau HD SA) as Hx.
  intros a b Ha Hb.
  apply (@frechet_limit n V (fun k => cmul tau (nth k w c0)) (mscale (S:=S) tau D) E HV Hx WD' SD); auto.
  intros s. rewrite <- EZ. now apply exponential_solves.
Qed.

Lemma not_degenerate n (w : list C) : (forall i j, i < n -> j < n -> i <> j -> nth i w c0 <> nth j w c0) ->
  degenerate n w = false.
Proof.
  intros H. unfold degenerate. apply Bool.not_true_is_false. intros E. apply existsb_exists in E. destruct E as (i & Hi & E).
  apply existsb_exists in E. destruct E as (j & Hj & E). apply in_seq in Hi, Hj. apply andb_prop in E. destruct E as [E1 E2].
  apply negb_true_iff in E1. apply Nat.eqb_neq in E1. apply ceqb_eq in E2. unfold eig_diff in E2. apply csub_eq0 in E2.
  apply (H i j); auto; lia.
Qed.
Lemma degenerate_true n (w : list C) i j : i < n -> j < n -> i <> j -> nth i w c0 = nth j w c0 -> degenerate n w = true.
Proof.
  intros Hi Hj N E. unfold degenerate. apply existsb_exists. exists i. split; [apply in_seq; lia|].
  apply existsb_exists. exists j. split; [apply in_seq; lia|]. apply Nat.eqb_neq in N. rewrite N. cbn.
  apply ceqb_eq. unfold eig_diff. rewrite E. ring.
Qed.

(** C10, where the eigenvector matrix is Hermitian *)
Lemma dexp_spectral_ok la skew n A D w V tau eps : la_cexp la = cexpR -> eig_ok la skew n A ->
  eig_pair la A skew = (w, V) -> is_matrix n n D ->
  is_skew_hermitian n (mscale (S:=S) tau A) -> is_skew_hermitian n (mscale (S:=S) tau D) ->
  (forall i j, i < n -> j < n -> i <> j -> nth i w c0 <> nth j w c0) -> is_hermitian n V ->
  exists E dU, op_dexp la A D tau Spectral skew eps = Ok (E, dU) /\
    op_exp la A tau Spectral skew = Ok E /\ is_exp_derivative n tau A D dU.
Proof.
  intros HC HE HP WD SA SD Hw HVh. pose proof (@eig_pair_ok RField la skew n A w V HE HP) as HD.
  destruct (eigendec_conjd HD) as (WA & HV & EA & L). pose proof (munitary_wf HV) as WV.
  apply is_hermitian_m in HVh. destruct HVh as [_ HVh].
  pose proof WD as WD0. apply is_matrix_wfm in WD.
  pose proof (Lfam_exp_derivative HD WD0 SA SD) as G.
  do 2 eexists. split; [|split].
  - unfold op_dexp. rewrite (wfm_nr WA), (wfm_nc WA), (wfm_nr WD), (wfm_nc WD), !Nat.eqb_refl. cbn [andb negb].
    unfold op_dexp_diag. rewrite HP. rewrite (wfm_nr WA). rewrite (not_degenerate w Hw). reflexivity.
  - unfold op_exp. rewrite (wfm_nr WA), (wfm_nc WA), Nat.eqb_refl. cbn [negb]. unfold op_exp_diag. rewrite HP. reflexivity.
  - match type of G with is_exp_derivative _ _ _ _ ?L => match goal with |- is_exp_derivative _ _ _ _ ?R => replace R with L; [exact G|] end end.
    rewrite (spectral_fun_conjd _ _ WV). rewrite HVh. rewrite HC. unfold Lfam. rewrite HVh.
    set (Kd := mhad (mm (mm V D) V) (omega_mat la n w tau)).
    assert (WK : wfm n n Kd) by (unfold Kd, mhad; rewrite (wfm_nr (m:=n) (n:=n)), (wfm_nc (m:=n) (n:=n)) by wf_solve; apply wfm_mk2).
    unfold conjd. rewrite HVh.
    rewrite (@mmul_assoc S n n n n _ (mm V Kd) V) by wf_solve. f_equal.
    rewrite (@mmul_assoc S n n n n _ V Kd) by wf_solve.
    rewrite <- (@mmul_assoc S n n n n _ V V) by wf_solve.
    replace (mm V V) with (mid (S:=S) n) by (destruct HV as (_ & V1 & _); now rewrite HVh in V1).
    rewrite (@mmul_1_r S n n) by wf_solve. rewrite <- (@mmul_assoc S n n n n) by wf_solve. f_equal.
    apply (@mat_ext S n n); [apply wfm_Dint|wf_solve|]. intros i j Hi Hj.
    rewrite mg_diag_mul by (auto; wf_solve). unfold Kd, mhad, omega_mat, Dint.
    rewrite (wfm_nr (m:=n) (n:=n)), (wfm_nc (m:=n) (n:=n)) by wf_solve. rewrite HVh, HC.
    rewrite !mg_mk2 by auto.
    replace (mg (mm (mm V (mscale (S:=S) tau D)) V) i j) with (cmul tau (mg (mm (mm V D) V) i j)) by (mdistr n; mglin; reflexivity).
    set (q := mg (mm (mm V D) V) i j). clearbody q. unfold phi. change (cofk (F:=RField) 1%R) with (@c1 RField).
    replace (cmul c1 (cmul tau (nth i w c0))) with (cmul tau (nth i w c0)) by ring.
    replace (cmul c1 (cmul tau (nth j w c0))) with (cmul tau (nth j w c0)) by ring.
    destruct (Nat.eqb_spec i j) as [<-|Nij].
    + replace (ceqb (cmul tau (nth i w c0)) (cmul tau (nth i w c0))) with true by (symmetry; now apply ceqb_eq). cring.
    + assert (Nd : eig_diff w i j <> c0).
      { unfold eig_diff. intros Z. apply csub_eq0 in Z. apply (Hw i j); auto. }
      assert (Ee : cexpR (cmul tau (nth j w c0)) = cmul (cexpR (cmul tau (nth i w c0))) (cexpR (cmul (eig_diff w i j) tau))).
      { rewrite <- cexpR_add. f_equal. unfold eig_diff. ring. }
      destruct (ceqb (cmul tau (nth i w c0)) (cmul tau (nth j w c0))) eqn:Eq.
      * apply ceqb_eq in Eq. assert (T0 : tau = c0).
        { destruct (ceq_dec tau c0) as [?|Nt]; auto. exfalso. apply Nd. unfold eig_diff.
          assert (E2 : cmul tau (csub (nth j w c0) (nth i w c0)) = c0) by (transitivity (csub (cmul tau (nth j w c0)) (cmul tau (nth i w c0))); [ring|rewrite Eq; ring]).
          replace (csub (nth j w c0) (nth i w c0)) with (cdiv (cmul tau (csub (nth j w c0) (nth i w c0))) tau) by (field; auto).
          rewrite E2. field; auto. }
        rewrite T0. replace (cmul (eig_diff w i j) c0) with (@c0 RField) by ring. rewrite cexpR_0.
        replace (cmul c0 (nth i w c0)) with (@c0 RField) by ring. rewrite cexpR_0. tocplx. field. exact Nd.
      * rewrite Ee. assert (Nx : csub (cmul tau (nth j w c0)) (cmul tau (nth i w c0)) <> c0).
        { intros Z. apply csub_eq0 in Z. symmetry in Z. apply ceqb_eq in Z. congruence. }
        assert (Nt : tau <> c0). { intros ->. apply Nx. ring. }
        unfold eig_diff in *.
        replace (csub (cmul tau (nth j w c0)) (cmul tau (nth i w c0))) with (cmul tau (csub (nth j w c0) (nth i w c0))) by ring.
        tocplx; field. split; auto.
Qed.

(** C10: equal eigenvalues make the result undefined (0/0 in the off-diagonal elements) *)
Lemma dexp_degenerate (la : LinAlg RField) skew n A D w V tau eps i j : is_matrix n n A -> is_matrix n n D ->
  eig_pair la A skew = (w, V) -> i < n -> j < n -> i <> j -> nth i w c0 = nth j w c0 ->
  op_dexp la A D tau Spectral skew eps = Err FloatNaN.
Proof.
  intros WA WD HP Hi Hj N E. apply is_matrix_wfm in WA, WD.
  unfold op_dexp. rewrite (wfm_nr WA), (wfm_nc WA), (wfm_nr WD), (wfm_nc WD), !Nat.eqb_refl. cbn [andb negb].
  unfold op_dexp_diag. rewrite HP, (wfm_nr WA). now rewrite (degenerate_true w Hi Hj N E).
Qed.
End P.
