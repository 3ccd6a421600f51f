(** (phi(1/m))^m tends to exp(X) for every curve of matrices with phi(0) = 1 and phi'(0) = X. *)
Require Import List Arith Lia Ring Field Bool Reals Lra.
From Verif Require Import LibBase LibRing LibArr LibCplx LibMat LibNorm LibDeriv LibSeries M_Matrix S_Linear S_Exp P_Linear P_RealExp P_Frechet P_Dexp P_Mexp P_Mexp2.
Import ListNotations.
Set Implicit Arguments.

Section Trotter.
Add Field Cfield_tr : (c_field RField).
Notation S := RS.
Notation op := (op RField).
Notation mm := (mmul (S:=RS)).
Notation ma := (madd (S:=RS)).
Notation mb := (msub (S:=RS)).
Notation ms := (mscale (S:=RS)).

Lemma cderiv_shift (f : R -> RC) b t l : cderiv f (t + b)%R l -> cderiv (fun s => f (s + b)%R) t l.
Proof.
  intros [H1 H2]. assert (D : derivable_pt_lim (fun s => s + b)%R t 1%R).
  { replace 1%R with (1 + 0)%R by ring. apply (derivable_pt_lim_plus (fun s => s) (fun _ => b)); [apply derivable_pt_lim_id|apply derivable_pt_lim_const]. }
  split.
  - rewrite <- (Rmult_1_r (cre l)). exact (derivable_pt_lim_comp _ _ _ _ _ D H1).
  - rewrite <- (Rmult_1_r (cim l)). exact (derivable_pt_lim_comp _ _ _ _ _ D H2).
Qed.
Lemma mexp_add n X (W : wfm (S:=RS) n n X) a b : mexp W (a + b)%R = mm (mexp W a) (mexp W b).
Proof.
  pose (Y := fun s : R => mexp W (s + b)%R).
  assert (WY : forall s, wfm (S:=RS) n n (Y s)) by (intros; apply wfm_mexp).
  assert (HY : forall t, mderiv n Y t (mm X (Y t))). { intros t i j Hi Hj. apply (@cderiv_shift (fun s => mg (mexp W s) i j)). now apply mexp_deriv. }
  pose proof (@mexp_back n X W Y a WY HY) as HB. unfold Y in HB. rewrite Rplus_0_l in HB. rewrite <- HB.
  rewrite (@mmul_assoc S n n n n) by (apply wfm_mexp). rewrite mexp_inv'. symmetry. apply (@mmul_1_l S n n). apply wfm_mexp.
Qed.

Lemma bnd_sub n a b (A B : op) : wfm (S:=RS) n n A -> wfm (S:=RS) n n B -> bnd n a A -> bnd n b B -> bnd n (a + b) (mb A B).
Proof.
  intros WA WB HA HB i j Hi Hj. destruct (HA i j Hi Hj) as [A1 A2]. destruct (HB i j Hi Hj) as [B1 B2]. rewrite (@mg_msub S n n) by auto. tocplx.
  set (x := mg A i j) in *. set (y := mg B i j) in *. clearbody x y. unfold csub, cre, cim in *. cbn [fst snd]. change (@ksub RField) with Rminus.
  unfold Rminus. split; (eapply Rle_trans; [apply Rabs_triang|]); rewrite Rabs_Ropp; lra.
Qed.

Fixpoint pw n (A : op) (k : nat) : op := match k with 0 => mid (S:=RS) n | Datatypes.S k => mm (pw n A k) A end.
Lemma wfm_pw n A k : wfm (S:=RS) n n A -> wfm (S:=RS) n n (pw n A k).
Proof. intros W. induction k; cbn; [apply wfm_mid|now apply (@wfm_mmul S n n n)]. Qed.

Lemma one_plus_pow (x : R) k : (0 <= x)%R -> ((1 + x) ^ k <= exp (INR k * x))%R.
Proof.
  intros Hx. induction k.
  - cbn. rewrite Rmult_0_l, exp_0. lra.
  - rewrite S_INR, Rmult_plus_distr_r, Rmult_1_l, exp_plus. cbn [pow]. rewrite Rmult_comm. apply Rmult_le_compat; auto.
    + apply pow_le. lra. + lra. + apply exp_ineq1_le.
Qed.

(** one step of the comparison of the powers of mexp(h) and of P *)
Lemma power_gap n X (W : wfm (S:=RS) n n X) (P : op) h M e x : wfm (S:=RS) n n P -> (0 <= M)%R -> (0 <= e)%R -> (0 <= x)%R ->
  forall m, (forall k, k < m -> bnd n M (mexp W (INR k * h))) -> bnd n e (mb (mexp W h) P) -> bnd n x (mb P (mid (S:=RS) n)) ->
  bnd n (INR m * (INR n * (2 * (M * e))) * (1 + INR n * (2 * x)) ^ m) (mb (mexp W (INR m * h)) (pw n P m)).
Proof.
  intros WP HM He Hx m Hk Hd Hp. pose proof (pos_INR n) as Pn. set (q := (INR n * (2 * (M * e)))%R). set (y := (INR n * (2 * x))%R).
  assert (Hq : (0 <= q)%R) by (unfold q; apply Rmult_le_pos; auto; apply Rmult_le_pos; [lra|]; now apply Rmult_le_pos).
  assert (Hy : (0 <= y)%R) by (unfold y; apply Rmult_le_pos; lra).
  induction m.
  - cbn [pw INR pow]. rewrite !Rmult_0_l, mexp_0. apply bnd_weaken with (0 + 0)%R; [lra|]. 
    intros i j Hi Hj. mglin. tocplx. replace (csub _ _) with (c0 : RC) by cring. cbn. rewrite Rabs_R0. lra.
  - assert (IH := IHm (fun k Hk' => Hk k (Nat.lt_lt_succ_r _ _ Hk'))). clear IHm. specialize (Hk m (Nat.lt_succ_diag_r m)).
    set (A := mexp W (INR m * h)) in *. set (D := mb A (pw n P m)) in *.
    assert (WA : wfm (S:=RS) n n A) by apply wfm_mexp. assert (Wh := wfm_mexp W h). assert (WQ := @wfm_pw n P m WP).
    assert (WD : wfm (S:=RS) n n D) by (unfold D; wf_solve). assert (WI : wfm (S:=RS) n n (mid (S:=RS) n)) by apply wfm_mid.
    assert (E : mb (mexp W (INR (Datatypes.S m) * h)) (pw n P (Datatypes.S m)) = ma (mm A (mb (mexp W h) P)) (ma D (mm D (mb P (mid (S:=RS) n))))).
    { rewrite S_INR, Rmult_plus_distr_r, Rmult_1_l, mexp_add. fold A. cbn [pw].
      apply (@mat_ext S n n); [wf_solve|wf_solve|]. intros i j Hi Hj. unfold D. mdistr n. mglin. cring. }
    rewrite E. set (b := (INR m * q * (1 + y) ^ m)%R) in *. assert (Hp1 : (1 <= (1 + y) ^ m)%R) by (apply pow_R1_Rle; lra).
    assert (Hb : (0 <= b)%R) by (unfold b; apply Rmult_le_pos; [apply Rmult_le_pos; auto using pos_INR|lra]).
    apply bnd_weaken with (q + (b + INR n * (2 * (b * x))))%R.
    2:{ apply bnd_add; [wf_solve|wf_solve| |apply bnd_add; [wf_solve|wf_solve|exact IH|apply bnd_mul; auto; wf_solve]]. unfold q. apply bnd_mul; auto; wf_solve. }
    replace (b + INR n * (2 * (b * x)))%R with (b * (1 + y))%R by (unfold y; ring). rewrite S_INR. cbn [pow]. unfold b.
    set (p := ((1 + y) ^ m)%R) in *. replace ((INR m + 1) * q * ((1 + y) * p))%R with (q * ((1 + y) * p) + INR m * q * p * (1 + y))%R by ring.
    apply Rplus_le_compat_r. rewrite <- (Rmult_1_r q) at 1. apply Rmult_le_compat_l; auto. rewrite <- (Rmult_1_r 1). apply Rmult_le_compat; lra.
Qed.

Lemma chernoff n X (W : wfm (S:=RS) n n X) (phi : R -> op) : (forall h, wfm (S:=RS) n n (phi h)) -> phi 0%R = mid (S:=RS) n -> mderiv n phi 0 X ->
  forall eps, (0 < eps)%R -> exists m, 0 < m /\ bnd n eps (mb (mexp W 1) (pw n (phi (/ INR m)%R) m)).
Proof.
  intros WP P0 PD eps He. destruct (bnd_exists n X) as (c & Hc & BX). pose proof (pos_INR n) as Pn.
  set (M := exp (rad n c)). assert (HM : (0 < M)%R) by apply exp_pos.
  set (x := (c + 1)%R). set (G := exp (INR n * (2 * x))). assert (HG : (0 < G)%R) by apply exp_pos.
  set (K := (INR n * (2 * (M * 2)) * G)%R). assert (HK : (0 <= K)%R).
  { unfold K. apply Rmult_le_pos; [|lra]. apply Rmult_le_pos; lra. }
  set (e := (eps / (K + 1))%R). assert (Pe : (0 < e)%R) by (apply Rdiv_lt_0_compat; lra).
  assert (D0 : mderiv n (mexp W) 0 X). { eapply mderiv_eq; [|apply mexp_deriv]. rewrite mexp_0. now apply (@mmul_1_r S n n). }
  destruct (@mderiv_expand n (mexp W) X e (wfm_mexp W) W D0 Pe) as (d1 & Hd1 & R1).
  destruct (@mderiv_expand n phi X e WP W PD Pe) as (d2 & Hd2 & R2).
  destruct (@mderiv_expand n phi X 1 WP W PD Rlt_0_1) as (d3 & Hd3 & R3).
  set (d := Rmin d1 (Rmin d2 d3)). assert (Hd : (0 < d)%R) by (repeat apply Rmin_glb_lt; auto).
  assert (L1 : (d <= d1)%R) by apply Rmin_l. assert (L2 : (d <= d2)%R) by (eapply Rle_trans; [apply Rmin_r|apply Rmin_l]). assert (L3 : (d <= d3)%R) by (eapply Rle_trans; [apply Rmin_r|apply Rmin_r]).
  destruct (archimed_cor1 d Hd) as (m & Hm & Pm). exists m. split; auto. set (h := (/ INR m)%R) in *.
  assert (Im : (0 < INR m)%R) by now apply lt_0_INR. assert (Hh : (0 < h)%R) by (apply Rinv_0_lt_compat; auto).
  assert (Ah : Rabs h = h) by (apply Rabs_right; lra). assert (mh : (INR m * h = 1)%R) by (unfold h; apply Rinv_r; lra).
  specialize (R1 h). specialize (R2 h). specialize (R3 h). rewrite Ah in R1, R2, R3. specialize (R1 ltac:(lra)). specialize (R2 ltac:(lra)). specialize (R3 ltac:(lra)).
  assert (Wh := wfm_mexp W h). assert (WPh := WP h). assert (WI : wfm (S:=RS) n n (mid (S:=RS) n)) by apply wfm_mid.
  assert (B1 : bnd n (2 * e * h) (mb (mexp W h) (phi h))).
  { replace (mb (mexp W h) (phi h)) with (mb (rem (mexp W) X h) (rem phi X h)).
    - apply bnd_weaken with (e * h + e * h)%R; [lra|]. apply bnd_sub; auto; unfold rem; rewrite ?mexp_0, ?P0; wf_solve.
    - unfold rem. rewrite mexp_0, P0. apply (@mat_ext S n n); [wf_solve|wf_solve|]. intros i j Hi Hj. mglin. cring. }
  assert (B2 : bnd n (x * h) (mb (phi h) (mid (S:=RS) n))).
  { replace (mb (phi h) (mid (S:=RS) n)) with (ma (rem phi X h) (ms (cofk (h : RField)) X)).
    - apply bnd_weaken with (1 * h + Rabs h * c)%R; [rewrite Ah; unfold x; lra|]. apply bnd_add; auto; [unfold rem; rewrite P0; wf_solve|wf_solve|]. now apply bnd_scale.
    - unfold rem. rewrite P0. apply (@mat_ext S n n); [wf_solve|wf_solve|]. intros i j Hi Hj. mglin. cring. }
  assert (BM : forall k, k < m -> bnd n M (mexp W (INR k * h))).
  { intros k Hk. eapply bnd_weaken; [|apply (mexp_bnd W (INR k * h) Hc BX)]. unfold M.
    assert (Hkm : (INR k <= INR m)%R) by (apply le_INR; lia). pose proof (pos_INR k) as Pk.
    assert (Ak : (Rabs (INR k * h) <= 1)%R). { rewrite Rabs_right by (apply Rle_ge, Rmult_le_pos; lra). rewrite <- mh. apply Rmult_le_compat_r; lra. }
    pose proof (rad_pos n Hc) as Pr. destruct (Rle_lt_or_eq_dec (rad n c * Rabs (INR k * h)) (rad n c)) as [Hl|Hl].
    - rewrite <- (Rmult_1_r (rad n c)) at 2. now apply Rmult_le_compat_l.
    - left. now apply exp_increasing.
    - rewrite Hl. lra. }
  assert (Px : (0 <= x * h)%R) by (apply Rmult_le_pos; [unfold x; lra|lra]).
  assert (P2 : (0 <= 2 * e * h)%R). { apply Rmult_le_pos; [|lra]. apply Rmult_le_pos; lra. }
  pose proof (@power_gap n X W (phi h) h M (2 * e * h) (x * h) WPh ltac:(lra) P2 Px m BM B1 B2) as B.
  rewrite mh in B. eapply bnd_weaken; [|exact B].
  assert (HY : (0 <= INR n * (2 * (x * h)))%R). { apply Rmult_le_pos; [lra|]. apply Rmult_le_pos; [lra|exact Px]. }
  pose proof (@one_plus_pow (INR n * (2 * (x * h))) m HY) as Q. replace (INR m * (INR n * (2 * (x * h))))%R with (INR n * (2 * x) * (INR m * h))%R in Q by ring. rewrite mh, Rmult_1_r in Q. fold G in Q.
  replace (INR m * (INR n * (2 * (M * (2 * e * h)))))%R with (INR n * (2 * (M * 2)) * e * (INR m * h))%R by ring. rewrite mh, Rmult_1_r.
  apply Rle_trans with (INR n * (2 * (M * 2)) * e * G)%R.
  - apply Rmult_le_compat_l; auto. apply Rmult_le_pos; [|lra]. apply Rmult_le_pos; [lra|]. lra.
  - replace (INR n * (2 * (M * 2)) * e * G)%R with (K * e)%R by (unfold K; ring). unfold e. replace (K * (eps / (K + 1)))%R with (eps * (K / (K + 1)))%R by (field; lra).
    rewrite <- (Rmult_1_r eps) at 2. apply Rmult_le_compat_l; [lra|]. apply Rmult_le_reg_r with (K + 1)%R; [lra|]. unfold Rdiv. rewrite Rmult_assoc, Rinv_l by lra. lra.
Qed.
End Trotter.
