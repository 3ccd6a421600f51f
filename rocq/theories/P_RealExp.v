(** The spectral exponential over the reals solves the defining differential equation *)
Require Import List Arith Lia Ring Field Bool Reals Lra.
From Verif Require Import LibBase LibRing LibArr LibCplx LibMat LibNorm LibDeriv M_Matrix S_Linear P_Linear P_Matrix P_Spectral.
Import ListNotations.
Set Implicit Arguments.

Section P.
Notation S := RS.
Notation C := RC.
Add Field Cfield : (c_field RField).

Lemma exp_laws_R : exp_laws cexpR.
Proof. split; [apply cexpR_0|split]; [apply cexpR_add|apply cexpR_conj]. Qed.

(** E(s) = V diag(exp(s w)) V^dagger *)
Definition Efam n (V : op RField) (w : list C) (s : R) : op RField :=
  conjd n V (fun k => cexpR (cmul (cofk (s : RField)) (nth k w c0))).

Lemma E_deriv n V w t i j : wfm n n V -> i < n -> j < n ->
  cderiv (fun s => mg (Efam n V w s) i j) t
    (sumn (S:=S) n (fun k => cmul (cmul (mg V i k) (cmul (nth k w c0) (cexpR (cmul (cofk (t:RField)) (nth k w c0))))) (cconj (mg V j k)))).
Proof.
  intros HV Hi Hj.
  eapply cderiv_ext; [intros s; symmetry; unfold Efam; apply (mg_conjd _ HV Hi Hj)|].
  apply (cderiv_sumn (fun k s => cmul (cmul (mg V i k) (cexpR (cmul (cofk (s:RField)) (nth k w c0)))) (cconj (mg V j k)))).
  intros k Hk. apply cderiv_scale_r. apply cderiv_scale. apply cderiv_exp.
Qed.

Lemma A_E n A V w t : munitary n V -> A = conjd n V (fun k => nth k w c0) ->
  mmul (S:=S) A (Efam n V w t) = conjd n V (fun k => cmul (nth k w c0) (cexpR (cmul (cofk (t:RField)) (nth k w c0)))).
Proof. intros HV ->. unfold Efam. now rewrite (conjd_mul _ _ HV). Qed.
Lemma E_A n A V w t : munitary n V -> A = conjd n V (fun k => nth k w c0) ->
  mmul (S:=S) (Efam n V w t) A = mmul (S:=S) A (Efam n V w t).
Proof.
  intros HV HA. rewrite (A_E w t HV HA). rewrite HA. unfold Efam. rewrite (conjd_mul _ _ HV).
  apply conjd_ext. apply HV. intros. ring.
Qed.

Lemma E_ode n A V w t i j : munitary n V -> A = conjd n V (fun k => nth k w c0) -> i < n -> j < n ->
  cderiv (fun s => mg (Efam n V w s) i j) t (mg (mmul (S:=S) A (Efam n V w t)) i j).
Proof.
  intros HV HA Hi Hj. eapply cderiv_eq; [|apply E_deriv; auto; apply HV].
  rewrite (A_E w t HV HA). rewrite mg_conjd by (auto; apply HV). reflexivity.
Qed.

Lemma cderiv_comp_opp f t l : cderiv f (- t) l -> cderiv (fun s => f (- s)%R) t (copp l).
Proof.
  intros [H1 H2].
  assert (N : derivable_pt_lim (fun s => - s)%R t (-1)%R).
  { pose proof (derivable_pt_lim_opp id t 1 (derivable_pt_lim_id t)) as H.
    unfold opp_fct, id in H. replace (- (1))%R with (-1)%R in H by lra. exact H. }
  split.
  - pose proof (derivable_pt_lim_comp (fun s => - s)%R (fun s => cre (f s)) t (-1) (cre l) N H1) as H.
    unfold comp in H. replace (cre (copp l)) with (cre l * -1)%R; [exact H|]. unfold copp, cre. cbn. rring.
  - pose proof (derivable_pt_lim_comp (fun s => - s)%R (fun s => cim (f s)) t (-1) (cim l) N H2) as H.
    unfold comp in H. replace (cim (copp l)) with (cim l * -1)%R; [exact H|]. unfold copp, cim. cbn. rring.
Qed.

Lemma deriv0_const (f : R -> R) : (forall t, derivable_pt_lim f t 0%R) -> forall t, f t = f 0%R.
Proof.
  intros H t.
  assert (pr : derivable f) by (intros x; exists 0%R; apply H).
  apply (null_derivative_1 f pr); intros x. apply derive_pt_eq_0. apply H.
Qed.
Lemma cderiv0_const (f : R -> C) : (forall t, cderiv f t c0) -> forall t, f t = f 0%R.
Proof.
  intros H t. assert (E1 := @deriv0_const (fun s => cre (f s)) (fun t => proj1 (H t)) t).
  assert (E2 := @deriv0_const (fun s => cim (f s)) (fun t => proj2 (H t)) t).
  rewrite (surjective_pairing (f t)), (surjective_pairing (f 0%R)). unfold cre, cim in *. now rewrite E1, E2.
Qed.

(** the spectral exponential is the solution of X' = A X, X(0) = 1, and the only one *)
Lemma ode_unique n A V w (X : R -> op RField) : munitary n V -> A = conjd n V (fun k => nth k w c0) ->
  (forall s, wfm n n (X s)) -> X 0%R = mid (S:=S) n ->
  (forall t i j, i < n -> j < n -> cderiv (fun s => mg (X s) i j) t (mg (mmul (S:=S) A (X t)) i j)) ->
  forall t, X t = Efam n V w t.
Proof.
  intros HV HA HX X0 HD t. pose proof (munitary_wf HV) as W.
  assert (WE : forall s, wfm n n (Efam n V w s)) by (intros; now apply wfm_conjd).
  assert (WA : wfm n n A) by (rewrite HA; now apply wfm_conjd).
  set (G := fun s => mmul (S:=S) (Efam n V w (- s)%R) (X s)).
  assert (Emul : forall a b, mmul (S:=S) (Efam n V w a) (Efam n V w b) = Efam n V w (a + b)%R).
  { intros a b. unfold Efam. rewrite (conjd_mul _ _ HV). apply conjd_ext; auto. intros k Hk.
    rewrite <- cexpR_add. f_equal. change (cofk (F:=RField) (a + b)%R) with (cofk (F:=RField) (kadd (o:=RField) a b)).
    rewrite cofk_add. ring. }
  assert (E0 : Efam n V w 0%R = mid (S:=S) n).
  { rewrite <- (conjd_one HV). apply conjd_ext; auto. intros k Hk. rewrite <- cexpR_0. f_equal.
    change (cofk (F:=RField) 0%R) with (c0 : C). ring. }
  assert (Gc : forall s i j, i < n -> j < n -> mg (G s) i j = mg (G 0%R) i j).
  { intros s i j Hi Hj. revert s. apply (@cderiv0_const (fun s => mg (G s) i j)). intros s.
    eapply cderiv_eq; cycle 1.
    - eapply cderiv_ext; [intros r; symmetry; unfold G; apply (@mg_mmul S n n n); auto|].
      apply (cderiv_sumn (fun k r => cmul (mg (Efam n V w (- r)%R) i k) (mg (X r) k j))).
      intros k Hk. apply cderiv_mul.
      + apply (@cderiv_comp_opp (fun r => mg (Efam n V w r) i k)). apply (E_ode w (- s) HV HA Hi Hk).
      + apply HD; auto.
    - rewrite <- (csumn_add (F:=RField) n).
      rewrite (sumn_ext (S:=S) _ (fun k => cmul (copp c1) (cmul (mg (mmul (S:=S) A (Efam n V w (- s)%R)) i k) (mg (X s) k j))))
        by (intros; cring).
      rewrite <- csumn_mul_l.
      pose proof (@mg_mmul S n n n (mmul (S:=S) A (Efam n V w (- s)%R)) (X s) i j ltac:(wf_solve) ltac:(auto) Hi Hj) as M1.
      pose proof (@mg_mmul S n n n (Efam n V w (- s)%R) (mmul (S:=S) A (X s)) i j ltac:(auto) ltac:(wf_solve) Hi Hj) as M2.
      match type of M1 with _ = ?a => match type of M2 with _ = ?b =>
        transitivity (cadd (cmul (copp c1) a) b); [reflexivity|] end end.
      rewrite <- M1, <- M2. rewrite <- (E_A w (- s) HV HA). rewrite (@mmul_assoc S n n n n) by auto. cring. }
  assert (G1 : G t = mid (S:=S) n).
  { apply (@mat_ext S n n); [unfold G; wf_solve|wf_solve|]. intros i j Hi Hj. rewrite Gc by auto.
    unfold G. rewrite X0, Ropp_0, E0. now rewrite (@mmul_1_l S n n) by wf_solve. }
  transitivity (mmul (S:=S) (Efam n V w t) (G t)).
  - unfold G. rewrite (@mmul_assoc S n n n n) by auto. rewrite Emul.
    replace (t + - t)%R with 0%R by lra. rewrite E0. now rewrite (@mmul_1_l S n n) by auto.
  - rewrite G1. now rewrite (@mmul_1_r S n n) by auto.
Qed.

Lemma spectral_is_exponential la skew n A : la_cexp la = cexpR -> eig_ok la skew n A ->
  exists E : R -> op RField,
    (forall s, op_exp la A (cofk (s:RField)) Spectral skew = Ok (E s)) /\
    (forall s, is_matrix n n (E s)) /\ is_identity n (E 0%R) /\
    (forall t i j, i < n -> j < n ->
       cderiv (fun s => (E s).[i,j]) t (sumn (S:=S) n (fun k => cmul A.[i,k] (E t).[k,j]))) /\
    (forall X : R -> op RField, (forall s, is_matrix n n (X s)) -> is_identity n (X 0%R) ->
       (forall t i j, i < n -> j < n ->
          cderiv (fun s => (X s).[i,j]) t (sumn (S:=S) n (fun k => cmul A.[i,k] (X t).[k,j]))) ->
       forall t, X t = E t).
Proof.
  intros HL HE. destruct (eig_pair la A skew) as [w V] eqn:E. pose proof (@eig_pair_ok _ la skew n A w V HE E) as D.
  destruct (eigendec_conjd D) as (HA & HV & E2 & L). pose proof (munitary_wf HV) as W.
  exists (Efam n V w). split; [|split; [|split; [|split]]].
  - intros tau. unfold op_exp. rewrite (wfm_nr HA), (wfm_nc HA), Nat.eqb_refl. simpl. unfold op_exp_diag. rewrite E.
    f_equal. rewrite (@spectral_fun_conjd _ n) by auto. rewrite HL. reflexivity.
  - intros s. apply is_matrix_wfm. now apply wfm_conjd.
  - apply is_identity_mid. rewrite <- (conjd_one HV). apply conjd_ext; auto. intros k Hk. rewrite <- cexpR_0. f_equal.
    change (cofk (F:=RField) 0%R) with (c0 : C). ring.
  - intros t i j Hi Hj. eapply cderiv_eq; [|apply (E_ode w t HV E2 Hi Hj)].
    apply (@mg_mmul S n n n); auto. now apply wfm_conjd.
  - intros X HX X0 HD t. apply (@ode_unique n A V w X HV E2).
    + intros s. apply is_matrix_wfm. apply HX.
    + now apply is_identity_mid.
    + intros t' i j Hi Hj. eapply cderiv_eq; [|apply HD; auto].
      symmetry. apply (@mg_mmul S n n n); auto. apply is_matrix_wfm. apply HX.
Qed.
End P.
