(** Spectral exponential and closest unitary (M_Matrix.v: op_exp_diag, op_closest_unitary) *)
Require Import List Arith Lia Ring Field Bool.
From Verif Require Import LibBase LibRing LibArr LibCplx LibMat M_Matrix S_Linear P_Linear P_Matrix.
Import ListNotations.
Set Implicit Arguments.

Section P.
Variable F : OField.
Add Field Ffield : (k_field F).
Add Field Cfield : (c_field F).
Notation S := (CStar F).
Notation C := (cplx F).
Implicit Types A B D P V U W : op F.

(** V diag(f) V^dagger *)
Definition conjd n V (f : nat -> C) : op F := mmul (S:=S) (mmul (S:=S) V (mdiag (S:=S) n f)) (mdag (S:=S) V).

Lemma wfm_conjd n V f : wfm n n V -> wfm n n (conjd n V f).
Proof. intros. unfold conjd. wf_solve. Qed.

Lemma mg_mul_diag n V f i j : wfm n n V -> i < n -> j < n ->
  mg (mmul (S:=S) V (mdiag (S:=S) n f)) i j = cmul (mg V i j) (f j).
Proof.
  intros H Hi Hj. mgsimp. rewrite (sumn_ext (S:=S) _ (fun k => cmul (cmul (mg V i k) (f k)) (kd (S:=S) k j))).
  - exact (sumn_kd_r (S:=S) (fun k => cmul (mg V i k) (f k)) Hj).
  - intros k Hk. mgsimp. tocplx. ring.
Qed.
Lemma mg_diag_mul n V f i j : wfm n n V -> i < n -> j < n ->
  mg (mmul (S:=S) (mdiag (S:=S) n f) V) i j = cmul (f i) (mg V i j).
Proof.
  intros H Hi Hj. mgsimp. rewrite (sumn_ext (S:=S) _ (fun k => smul (s:=S) (kd (S:=S) i k) (cmul (f i) (mg V k j)))).
  - exact (sumn_kd_l (S:=S) (fun k => cmul (f i) (mg V k j)) Hi).
  - intros k Hk. mgsimp. tocplx. ring.
Qed.
Lemma mg_conjd n V f i j : wfm n n V -> i < n -> j < n ->
  mg (conjd n V f) i j = sumn (S:=S) n (fun k => cmul (cmul (mg V i k) (f k)) (cconj (mg V j k))).
Proof.
  intros H Hi Hj. unfold conjd. rewrite (@mg_mmul S n n n) by (wf_solve || auto).
  apply sumn_ext. intros k Hk. rewrite (mg_mul_diag f H) by auto. mgsimp. reflexivity.
Qed.
Lemma spectral_fun_conjd n w V f : wfm n n V ->
  spectral_fun w V f = conjd n V (fun j => f (nth j w c0)).
Proof.
  intros H. apply (@mat_ext S n n).
  - unfold spectral_fun. rewrite (wfm_nr H). wf_solve.
  - now apply wfm_conjd.
  - intros i j Hi Hj. rewrite (mg_conjd _ H) by auto. unfold spectral_fun.
    rewrite (wfm_nr H), (wfm_nc H). mgsimp. reflexivity.
Qed.

Lemma diag_mul n f g : mmul (S:=S) (mdiag (S:=S) n f) (mdiag (S:=S) n g) = mdiag (S:=S) n (fun i => cmul (f i) (g i)).
Proof.
  apply (@mat_ext S n n); [wf_solve|wf_solve|]. intros i j Hi Hj.
  rewrite mg_mul_diag by (wf_solve || auto). mgsimp. tocplx. unfold kd.
  destruct (Nat.eqb_spec i j); subst; tocplx; ring.
Qed.
Lemma conjd_mul n V f g : munitary n V ->
  mmul (S:=S) (conjd n V f) (conjd n V g) = conjd n V (fun i => cmul (f i) (g i)).
Proof.
  intros [HV [H1 H2]]. unfold conjd.
  rewrite <- diag_mul.
  rewrite (@mmul_assoc S n n n n V) by wf_solve.
  rewrite <- (@mmul_assoc S n n n n (mmul V (mdiag n f)) (mdag V)) by wf_solve.
  rewrite !(@mmul_assoc S n n n n (mdag V)) by wf_solve. rewrite H1.
  rewrite (@mmul_1_l S n n) by wf_solve.
  rewrite !(@mmul_assoc S n n n n) by wf_solve. reflexivity.
Qed.
Lemma conjd_dag n V f : wfm n n V -> mdag (S:=S) (conjd n V f) = conjd n V (fun i => cconj (f i)).
Proof.
  intros HV. apply (@mat_ext S n n); [apply wfm_mdag; now apply wfm_conjd|now apply wfm_conjd|].
  intros i j Hi Hj. erewrite mg_mdag by (first [now apply wfm_conjd|assumption]).
  rewrite !(mg_conjd _ HV) by auto. rewrite sumn_conj. apply sumn_ext. intros k Hk.
  tocplx. rewrite !cconj_mul, cconj_cconj. ring.
Qed.
Lemma conjd_one n V : munitary n V -> conjd n V (fun _ => c1) = mid (S:=S) n.
Proof.
  intros [HV [H1 H2]]. rewrite <- H2. unfold conjd. f_equal. apply (@mat_ext S n n); [wf_solve|auto|].
  intros i j Hi Hj. rewrite mg_mul_diag by auto. tocplx. ring.
Qed.
Lemma conjd_ext n V f g : wfm n n V -> (forall k, k < n -> f k = g k) -> conjd n V f = conjd n V g.
Proof.
  intros HV H. apply (@mat_ext S n n); try now apply wfm_conjd. intros i j Hi Hj.
  rewrite !(mg_conjd _ HV) by auto. apply sumn_ext. intros k Hk. now rewrite H.
Qed.
(** V^dagger (V diag f V^dagger) V = diag f *)
Lemma conjd_inv n V f : munitary n V ->
  mmul (S:=S) (mmul (S:=S) (mdag (S:=S) V) (conjd n V f)) V = mdiag (S:=S) n f.
Proof.
  intros [HV [H1 H2]]. unfold conjd. rewrite !(@mmul_assoc S n n n n) by wf_solve. rewrite H1.
  rewrite (@mmul_1_l S n n) by wf_solve. rewrite <- (@mmul_assoc S n n n n) by wf_solve. rewrite H1.
  now rewrite (@mmul_1_r S n n) by wf_solve.
Qed.
Lemma conjd_inj n V f g : munitary n V -> conjd n V f = conjd n V g -> forall k, k < n -> f k = g k.
Proof.
  intros HV E k Hk. pose proof (f_equal (fun M => mg (mmul (S:=S) (mmul (S:=S) (mdag (S:=S) V) M) V) k k) E) as H.
  cbn beta in H. rewrite !(conjd_inv _ HV) in H. rewrite !mg_mdiag in H by auto.
  unfold kd in H. rewrite Nat.eqb_refl in H. revert H. tocplx. intros H.
  replace (f k) with (cmul c1 (f k)) by ring. rewrite H. ring.
Qed.
Lemma conjd_unitary n V f : munitary n V -> (forall k, k < n -> cmul (cconj (f k)) (f k) = c1) ->
  munitary n (conjd n V f).
Proof.
  intros HV Hf. pose proof (munitary_wf HV) as W. split; [now apply wfm_conjd|].
  rewrite (conjd_dag _ W). rewrite !(conjd_mul _ _ HV). rewrite <- (conjd_one HV). split.
  - now apply conjd_ext.
  - apply conjd_ext; auto. intros k Hk. rewrite <- (Hf k Hk). ring.
Qed.

Lemma eigendec_conjd n A w V : is_eigendecomposition n A w V ->
  wfm n n A /\ munitary n V /\ A = conjd n V (fun k => nth k w c0) /\ length w = n.
Proof.
  intros (H1 & H2 & H3 & H4). apply is_matrix_wfm in H1. apply is_unitary_m in H3.
  pose proof (munitary_wf H3) as W. repeat split; auto; try apply H3; try apply H1.
  apply (@mat_ext S n n); auto. now apply wfm_conjd. intros i j Hi Hj. rewrite (mg_conjd _ W) by auto.
  now apply H4.
Qed.

(** the decomposition used by the code for A *)
Definition eig_ok (la : LinAlg F) (skew : bool) n A : Prop :=
  if skew then is_matrix n n A /\ is_eigendecomposition n (mscale (S:=S) (copp ci) A)
                 (map (fun x => cofk x) (fst (la_eigh la (mscale (S:=S) (copp ci) A))))
                 (snd (la_eigh la (mscale (S:=S) (copp ci) A)))
  else is_eigendecomposition n A (fst (la_eig la A)) (snd (la_eig la A)).

Lemma ci_ci_opp (x : C) : cmul ci (cmul (copp ci) x) = x.
Proof. transitivity (cmul (copp (cmul ci ci)) x). ring. rewrite ci_mul. ring. Qed.

Lemma eig_pair_ok la skew n A w V : eig_ok la skew n A -> eig_pair la A skew = (w, V) ->
  is_eigendecomposition n A w V.
Proof.
  unfold eig_ok, eig_pair. destruct skew.
  - destruct (la_eigh la (mscale (copp ci) A)) as [w0 V0]. cbn [fst snd].
    intros [HA (H1 & H2 & H3 & H4)] E. injection E as <- <-. split; auto. split; [|split]; auto.
    + rewrite map_length in *. auto.
    + intros i j Hi Hj. specialize (H4 i j Hi Hj). apply is_matrix_wfm in HA.
      revert H4. mglin. tocplx. intros H4.
      rewrite <- (ci_ci_opp A.[i,j]). rewrite H4. tocplx. rewrite csumn_mul_l. apply sumn_ext.
      intros k Hk. rewrite map_length in H2.
      replace (nth k (map (fun x => cmul ci (cofk x)) w0) c0) with (cmul ci (nth k (map (fun x => cofk x) w0) c0)).
      * tocplx. ring.
      * rewrite (nth_indep _ c0 (cofk k0)) by (rewrite map_length; lia). rewrite (map_nth (fun x => cofk x)).
        rewrite (nth_indep _ c0 (cmul ci (cofk k0))) by (rewrite map_length; lia).
        now rewrite (map_nth (fun x => cmul ci (cofk x))).
  - destruct (la_eig la A) as [w0 V0]. cbn [fst snd]. intros H E. injection E as <- <-. exact H.
Qed.

Lemma op_exp_spectral la skew n A tau : eig_ok la skew n A ->
  exists w V, is_eigendecomposition n A w V /\
    op_exp la A tau Spectral skew = Ok (conjd n V (fun k => la_cexp la (cmul tau (nth k w c0)))).
Proof.
  intros H. destruct (eig_pair la A skew) as [w V] eqn:E. pose proof (@eig_pair_ok la skew n A w V H E) as D.
  exists w, V. split; auto. destruct (eigendec_conjd D) as (HA & HV & E2 & L).
  unfold op_exp. rewrite (wfm_nr HA), (wfm_nc HA), Nat.eqb_refl. simpl. unfold op_exp_diag. rewrite E.
  f_equal. now rewrite (@spectral_fun_conjd n) by apply HV.
Qed.

Lemma skew_generator n A w V tau : is_eigendecomposition n A w V ->
  is_skew_hermitian n (mscale (S:=S) tau A) ->
  forall k, k < n -> cconj (cmul tau (nth k w c0)) = copp (cmul tau (nth k w c0)).
Proof.
  intros D H k Hk. destruct (eigendec_conjd D) as (HA & HV & E & L). pose proof (munitary_wf HV) as W.
  apply is_skew_hermitian_m in H. destruct H as [H1 H2].
  assert (E2 : mscale (S:=S) tau A = conjd n V (fun k => cmul tau (nth k w c0))).
  { rewrite E. apply (@mat_ext S n n); [apply wfm_mscale; now apply wfm_conjd|now apply wfm_conjd|].
    intros i j Hi Hj. erewrite mg_mscale by (first [now apply wfm_conjd|assumption]).
    rewrite !(mg_conjd _ W) by auto. tocplx. rewrite csumn_mul_l. apply sumn_ext. intros q Hq. tocplx. ring. }
  rewrite E2 in H2. rewrite (conjd_dag _ W) in H2.
  assert (E3 : mscale (S:=S) (copp c1) (conjd n V (fun k => cmul tau (nth k w c0)))
     = conjd n V (fun k => copp (cmul tau (nth k w c0)))).
  { apply (@mat_ext S n n); [apply wfm_mscale; now apply wfm_conjd|now apply wfm_conjd|].
    intros i j Hi Hj. erewrite mg_mscale by (first [now apply wfm_conjd|assumption]).
    rewrite !(mg_conjd _ W) by auto. tocplx. rewrite csumn_mul_l. apply sumn_ext. intros q Hq. tocplx. ring. }
  etransitivity; [|exact (conjd_inj HV (eq_trans H2 E3) Hk)]. reflexivity.
Qed.

(** C07: unitarity *)
Lemma spectral_unitary la skew n A tau : exp_laws (la_cexp la) -> eig_ok la skew n A ->
  is_skew_hermitian n (mscale (S:=S) tau A) ->
  exists E, op_exp la A tau Spectral skew = Ok E /\ is_unitary n E.
Proof.
  intros (X0 & Xa & Xc) HE HS. destruct (@op_exp_spectral la skew n A tau HE) as (w & V & D & E).
  eexists. split; [exact E|]. apply is_unitary_m. destruct (eigendec_conjd D) as (HA & HV & E2 & L).
  apply conjd_unitary; auto. intros k Hk. rewrite <- Xc, <- Xa.
  rewrite (skew_generator D HS) by auto.
  replace (cadd (copp (cmul tau (nth k w c0))) (cmul tau (nth k w c0))) with (c0 : C) by ring. exact X0.
Qed.
Lemma spectral_zero la skew n A : exp_laws (la_cexp la) -> eig_ok la skew n A ->
  exists E, op_exp la A c0 Spectral skew = Ok E /\ is_identity n E.
Proof.
  intros (X0 & Xa & Xc) HE. destruct (@op_exp_spectral la skew n A c0 HE) as (w & V & D & E).
  eexists. split; [exact E|]. apply is_identity_mid. destruct (eigendec_conjd D) as (HA & HV & E2 & L).
  rewrite <- (conjd_one HV). apply conjd_ext. apply HV. intros k Hk.
  replace (cmul c0 (nth k w c0)) with (c0 : C) by ring. exact X0.
Qed.
Lemma spectral_group la skew n A s t : exp_laws (la_cexp la) -> eig_ok la skew n A ->
  exists Es Et Est, op_exp la A s Spectral skew = Ok Es /\ op_exp la A t Spectral skew = Ok Et /\
    op_exp la A (cadd s t) Spectral skew = Ok Est /\ op_mul Es (ODense Et) = Ok Est.
Proof.
  intros (X0 & Xa & Xc) HE. destruct (eig_pair la A skew) as [w V] eqn:E. pose proof (@eig_pair_ok la skew n A w V HE E) as D.
  destruct (eigendec_conjd D) as (HA & HV & E2 & L). pose proof (munitary_wf HV) as W.
  assert (R : forall tau, op_exp la A tau Spectral skew = Ok (conjd n V (fun k => la_cexp la (cmul tau (nth k w c0))))).
  { intros tau. unfold op_exp. rewrite (wfm_nr HA), (wfm_nc HA), Nat.eqb_refl. simpl. unfold op_exp_diag. rewrite E.
    f_equal. now rewrite (@spectral_fun_conjd n) by auto. }
  rewrite !R. do 3 eexists. split; [reflexivity|]. split; [reflexivity|]. split; [reflexivity|].
  rewrite (@op_mul_dense F n n n) by now apply wfm_conjd. f_equal. rewrite (conjd_mul _ _ HV).
  apply conjd_ext; auto. intros k Hk. rewrite <- Xa. f_equal. ring.
Qed.

(** A f(A) = f(A) A, and the value does not depend on the decomposition *)
Lemma functional_calculus n A w V w' V' f : is_eigendecomposition n A w V -> is_eigendecomposition n A w' V' ->
  conjd n V (fun k => f (nth k w c0)) = conjd n V' (fun k => f (nth k w' c0)).
Proof.
  intros D D'. destruct (eigendec_conjd D) as (HA & HV & E & L). destruct (eigendec_conjd D') as (_ & HV' & E' & L').
  pose proof (munitary_wf HV) as W. pose proof (munitary_wf HV') as W'.
  set (M := mmul (S:=S) (mdag (S:=S) V) V').
  assert (WM : wfm n n M) by (unfold M; wf_solve).
  destruct HV as (_ & V1 & V2). destruct HV' as (_ & V1' & V2').
  assert (key : forall g g', conjd n V g = conjd n V' g' ->
     mmul (S:=S) (mdiag (S:=S) n g) M = mmul (S:=S) M (mdiag (S:=S) n g')).
  { intros g g' H. unfold M. pose proof (f_equal (fun X => mmul (S:=S) (mmul (S:=S) (mdag (S:=S) V) X) V') H) as H0.
    cbn beta in H0. unfold conjd in H0. rewrite !(@mmul_assoc S n n n n) in H0 by wf_solve.
    rewrite V1 in H0. rewrite (@mmul_1_l S n n) in H0 by wf_solve.
    rewrite <- (@mmul_assoc S n n n n _ (mdag V') V') in H0 by wf_solve. rewrite V1' in H0.
    rewrite (@mmul_1_r S n n) in H0 by wf_solve. rewrite (@mmul_assoc S n n n n) by wf_solve. exact H0. }
  assert (K := key _ _ (eq_trans (eq_sym E) E')).
  assert (K2 : mmul (S:=S) (mdiag (S:=S) n (fun k => f (nth k w c0))) M =
               mmul (S:=S) M (mdiag (S:=S) n (fun k => f (nth k w' c0)))).
  { apply (@mat_ext S n n); [wf_solve|wf_solve|]. intros i j Hi Hj.
    pose proof (f_equal (fun X => mg X i j) K) as Kij. cbn beta in Kij.
    rewrite mg_diag_mul, mg_mul_diag in * by auto.
    tocplx. destruct (ceq_dec (mg M i j) c0) as [Z|N]; [rewrite Z; ring|].
    replace (nth i w c0) with (nth j w' c0); [ring|].
    apply (f_equal (fun z => cdiv z (mg M i j))) in Kij.
    transitivity (cdiv (cmul (mg M i j) (nth j w' c0)) (mg M i j)); [field; auto|].
    rewrite <- Kij. field. auto. }
  unfold conjd. set (G := mdiag (S:=S) n (fun k => f (nth k w c0))) in *.
  set (G' := mdiag (S:=S) n (fun k => f (nth k w' c0))) in *.
  assert (WG : wfm n n G) by (unfold G; wf_solve). assert (WG' : wfm n n G') by (unfold G'; wf_solve).
  transitivity (mmul (S:=S) (mmul (S:=S) V (mmul (S:=S) G M)) (mdag (S:=S) V')).
  - unfold M. rewrite !(@mmul_assoc S n n n n) by wf_solve.
    rewrite <- (@mmul_assoc S n n n n _ V' (mdag V')) by wf_solve. rewrite V2'.
    now rewrite (@mmul_1_r S n n) by wf_solve.
  - rewrite K2. unfold M. rewrite !(@mmul_assoc S n n n n) by wf_solve. rewrite V2.
    now rewrite (@mmul_1_l S n n) by wf_solve.
Qed.

Lemma spectral_independent (la la' : LinAlg F) skew skew' n A tau :
  la_cexp la = la_cexp la' -> eig_ok la skew n A -> eig_ok la' skew' n A ->
  op_exp la A tau Spectral skew = op_exp la' A tau Spectral skew'.
Proof.
  intros E H H'. destruct (@op_exp_spectral la skew n A tau H) as (w & V & D & ->).
  destruct (@op_exp_spectral la' skew' n A tau H') as (w' & V' & D' & ->). f_equal. rewrite E.
  exact (functional_calculus (fun x => la_cexp la' (cmul tau x)) D D').
Qed.
End P.
