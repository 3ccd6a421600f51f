(** The derivative of the exponential of an arbitrary square complex matrix along any differentiable curve
    of generators. *)
Require Import List Arith Lia Ring Field Bool Reals Lra.
From Verif Require Import LibBase LibRing LibArr LibCplx LibMat LibNorm LibDeriv LibSeries M_Matrix S_Linear S_Exp P_Linear P_RealExp P_Frechet P_Dexp P_Mexp.
Import ListNotations.
Set Implicit Arguments.

Section P.
Notation S := RS.
Notation C := RC.
Notation op := (op RField).
Add Field Cfield : (c_field RField).
Notation mm := (mmul (S:=RS)).
Notation ma := (madd (S:=RS)).
Notation mb := (msub (S:=RS)).
Notation ms := (mscale (S:=RS)).

(** ---- the directional derivative as a series ---- *)
Fixpoint mdw n (X D : op) (k : nat) : op :=
  match k with O => mzero (S:=S) n n | Datatypes.S k' => ma (mm X (mdw n X D k')) (mm D (mpw n X k')) end.
Lemma wfm_mdw n X D k : wfm n n X -> wfm n n D -> wfm n n (mdw n X D k).
Proof. intros W WD. induction k; cbn; wf_solve. Qed.
Hint Resolve wfm_mdw : wfm.
Lemma bnd_add n a b A B : wfm n n A -> wfm n n B -> bnd n a A -> bnd n b B -> bnd n (a + b) (ma A B).
Proof.
  intros WA WB HA HB i j Hi Hj. rewrite (@mg_madd S n n) by auto. destruct (HA i j Hi Hj), (HB i j Hi Hj). tocplx.
  split; (eapply Rle_trans; [apply Rabs_triang|]); unfold cre, cim in *; lra.
Qed.
Lemma mdw_bnd n X D c d k : (0 <= c)%R -> (0 <= d)%R -> wfm n n X -> wfm n n D -> bnd n c X -> bnd n d D ->
  bnd n (rad n d * (rad n c + 1) ^ k) (mdw n X D k).
Proof.
  intros Hc Hd W WD HX HD. pose proof (rad_pos n Hc) as Pc. pose proof (rad_pos n Hd) as Pd. induction k; cbn [mdw pow].
  - apply bnd_msub_0. lra.
  - assert (P1 : (0 <= (rad n c + 1) ^ k)%R) by (apply pow_le; lra).
    assert (P2 : (0 <= rad n c ^ k)%R) by now apply pow_le.
    eapply bnd_weaken; [|apply bnd_add; [wf_solve|wf_solve|apply bnd_mul with (3:=W) (5:=HX) (6:=IHk); auto with wfm; now apply Rmult_le_pos
      |apply bnd_mul with (3:=WD) (5:=HD) (6:=mpw_bnd k Hc W HX); auto with wfm; lra]].
    change (INR n * (2 * (c * (rad n d * (rad n c + 1) ^ k))))%R with (INR n * (2 * (c * (rad n d * (rad n c + 1) ^ k))))%R.
    replace (INR n * (2 * (c * (rad n d * (rad n c + 1) ^ k))))%R with (rad n c * (rad n d * (rad n c + 1) ^ k))%R by (unfold rad; ring).
    replace (INR n * (2 * (d * (1 * rad n c ^ k))))%R with (rad n d * rad n c ^ k)%R by (unfold rad; ring).
    assert (P3 : (rad n c ^ k <= (rad n c + 1) ^ k)%R) by (apply pow_incr; lra).
    assert (P4 : (rad n d * rad n c ^ k <= rad n d * (rad n c + 1) ^ k)%R) by now apply Rmult_le_compat_l.
    replace (rad n d * ((rad n c + 1) * (rad n c + 1) ^ k))%R with (rad n c * (rad n d * (rad n c + 1) ^ k) + rad n d * (rad n c + 1) ^ k)%R by ring. lra.
Qed.
Lemma mdw_geo n X D : wfm n n X -> wfm n n D -> mgeo n (mdw n X D).
Proof.
  intros W WD. split; [intros; now apply wfm_mdw|]. destruct (bnd_exists n X) as (c & Hc & H). destruct (bnd_exists n D) as (d & Hd & H').
  exists (rad n d), (rad n c + 1)%R. split; [now apply rad_pos|split; [pose proof (rad_pos n Hc); lra|]]. intros k. now apply mdw_bnd.
Qed.
Definition dmexp n X D (W : wfm n n X) (WD : wfm n n D) (t : R) : op := mser (mdw_geo W WD) t.
Lemma wfm_dmexp n X D (W : wfm n n X) (WD : wfm n n D) t : wfm n n (dmexp W WD t).
Proof. apply mser_wf. Qed.
Hint Resolve wfm_dmexp : wfm.
Lemma dmexp_0 n X D (W : wfm n n X) (WD : wfm n n D) : dmexp W WD 0 = mzero (S:=S) n n.
Proof. unfold dmexp. now rewrite mser_0. Qed.
Lemma mexp_ext n X X' (W : wfm n n X) (W' : wfm n n X') t : X = X' -> mexp W t = mexp W' t.
Proof. intros ->. now apply mser_ext. Qed.
Lemma mgeo_mul_l n X A : wfm n n X -> mgeo n A -> mgeo n (fun k => mm X (A k)).
Proof.
  intros WX (W & B & r & HB & Hr & H). split; [intros k; assert (W2 := W k); wf_solve|]. destruct (bnd_exists n X) as (c & Hc & HX).
  exists (INR n * (2 * (c * B)))%R, r. split; [repeat (apply Rmult_le_pos; auto using pos_INR); lra|split; auto].
  intros k. replace (INR n * (2 * (c * B)) * r ^ k)%R with (INR n * (2 * (c * (B * r ^ k))))%R by ring.
  apply bnd_mul; auto. apply Rmult_le_pos; auto. now apply pow_le.
Qed.
Lemma dmexp_deriv n X D (W : wfm n n X) (WD : wfm n n D) t :
  mderiv n (dmexp W WD) t (ma (mm X (dmexp W WD t)) (mm D (mexp W t))).
Proof.
  pose proof (mgeo_shift (mdw_geo W WD)) as H'. eapply mderiv_eq; [|apply (mser_deriv (mdw_geo W WD) H')].
  pose proof (mgeo_mul_l W (mdw_geo W WD)) as G1. pose proof (mgeo_mul_l WD (mpw_geo W)) as G2.
  rewrite (mser_add G1 G2 H') by reflexivity. unfold dmexp, mexp. now rewrite (mser_mul_l (mdw_geo W WD) G1 t W), (mser_mul_l (mpw_geo W) G2 t WD) by reflexivity.
Qed.
Lemma dmexp_bnd n X D (W : wfm n n X) (WD : wfm n n D) c d t : (0 <= c)%R -> (0 <= d)%R -> bnd n c X -> bnd n d D ->
  bnd n (rad n d * exp ((rad n c + 1) * Rabs t)) (dmexp W WD t).
Proof.
  intros Hc Hd HX HD. apply mser_bnd; [now apply rad_pos|pose proof (rad_pos n Hc); lra|]. intros k. now apply mdw_bnd.
Qed.
Lemma mdw_add n X D D' k : wfm n n X -> wfm n n D -> wfm n n D' -> mdw n X (ma D D') k = ma (mdw n X D k) (mdw n X D' k).
Proof.
  intros W WD WD'. induction k; cbn [mdw].
  - apply (@mat_ext S n n); [wf_solve|wf_solve|]. intros i j Hi Hj. mglin. cring.
  - rewrite IHk. apply (@mat_ext S n n); [wf_solve|wf_solve|]. intros i j Hi Hj. mdistr n. mglin. cring.
Qed.
Lemma mdw_scale n X c D k : wfm n n X -> wfm n n D -> mdw n X (ms c D) k = ms c (mdw n X D k).
Proof.
  intros W WD. induction k; cbn [mdw].
  - apply (@mat_ext S n n); [wf_solve|wf_solve|]. intros i j Hi Hj. mglin. cring.
  - rewrite IHk. apply (@mat_ext S n n); [wf_solve|wf_solve|]. intros i j Hi Hj. mdistr n. mglin. cring.
Qed.
Lemma dmexp_add n X D D' (W : wfm n n X) (WD : wfm n n D) (WD' : wfm n n D') (WA : wfm n n (ma D D')) t :
  dmexp W WA t = ma (dmexp W WD t) (dmexp W WD' t).
Proof. apply mser_add. intros k. now apply mdw_add. Qed.
Lemma dmexp_scale n X c D (W : wfm n n X) (WD : wfm n n D) (WA : wfm n n (ms c D)) t : dmexp W WA t = ms c (dmexp W WD t).
Proof. apply mser_scale. intros k. now apply mdw_scale. Qed.
Lemma dmexp_ext n X D D' (W : wfm n n X) (WD : wfm n n D) (WD' : wfm n n D') t : D = D' -> dmexp W WD t = dmexp W WD' t.
Proof. intros ->. now apply mser_ext. Qed.

(** ---- quadratic remainder ---- *)
Lemma mexp_remainder n X (W : wfm n n X) : exists K, (0 <= K)%R /\ forall Z (WZ : wfm n n Z) (WD : wfm n n (mb Z X)) d,
  (0 <= d <= 1)%R -> bnd n d (mb Z X) -> bnd n (d * (d * K)) (mb (mb (mexp WZ 1) (mexp W 1)) (dmexp W WD 1)).
Proof.
  destruct (bnd_exists n X) as (c & Hc & BX).
  set (e := exp (rad n (c + 1) * 1)). assert (He : (0 <= e)%R) by (left; apply exp_pos).
  set (N := INR n). assert (HN : (0 <= N)%R) by apply pos_INR.
  set (k1 := (N * (2 * (e * (N * (2 * (1 * e))))))%R).
  assert (Hk1 : (0 <= k1)%R) by (unfold k1; repeat (apply Rmult_le_pos; try lra)).
  set (k2 := (N * (2 * (e * k1)))%R).
  assert (Hk2 : (0 <= k2)%R) by (unfold k2; repeat (apply Rmult_le_pos; try lra)).
  set (k3 := (N * (2 * (e * (N * (2 * k2)))))%R).
  assert (Hk3 : (0 <= k3)%R) by (unfold k3; repeat (apply Rmult_le_pos; try lra)).
  set (k4 := (N * (2 * (e * k3)))%R).
  assert (Hk4 : (0 <= k4)%R) by (unfold k4; repeat (apply Rmult_le_pos; try lra)).
  exists k4. split; auto. intros Z WZ WD d Hd BD.
  assert (BZ : bnd n (c + 1) Z).
  { replace Z with (ma X (mb Z X)).
    - eapply bnd_weaken; [|apply bnd_add; [auto|auto|exact BX|exact BD]]. lra.
    - apply (@mat_ext S n n); [wf_solve|wf_solve|]. intros i j Hi Hj. mglin. cring. }
  assert (BX' : bnd n (c + 1) X) by (eapply bnd_weaken; [|exact BX]; lra).
  assert (expb : forall (Q : op) (WQ : wfm n n Q) t, bnd n (c + 1) Q -> (-1 <= t <= 1)%R -> bnd n e (mexp WQ t)).
  { intros Q WQ t BQ Ht. eapply bnd_weaken; [|apply mexp_bnd with (c := (c + 1)%R); auto; lra]. unfold e.
    assert (rad n (c + 1) * Rabs t <= rad n (c + 1) * 1)%R.
    { apply Rmult_le_compat_l; [apply rad_pos; lra|]. apply Rabs_le. lra. }
    destruct (Rle_lt_or_eq_dec _ _ H) as [L|E]; [left; now apply exp_increasing|right; now rewrite E]. }
  set (E := mexp W) in *. set (F := mexp WZ) in *. set (D := mb Z X) in *.
  assert (WE : forall t, wfm n n (E t)) by (intros; apply wfm_mexp). assert (WF : forall t, wfm n n (F t)) by (intros; apply wfm_mexp).
  assert (E0 : E 0%R = mid (S:=S) n) by apply mexp_0. assert (F0 : F 0%R = mid (S:=S) n) by apply mexp_0.
  assert (ED := mexp_deriv W). assert (FD := mexp_deriv WZ). fold E in ED. fold F in FD.
  assert (EO := mexp_opp_deriv W). fold E in EO.
  assert (EZ : Z = ma X D) by (unfold D; apply (@mat_ext S n n); [wf_solve|wf_solve|]; intros i j Hi Hj; mglin; cring).
  assert (B1 : forall t, (0 <= t <= 1)%R -> bnd n (d * k1) (mm (E (- t)%R) (mb (F t) (E t)))).
  { apply (@bnd_mvt n (d * k1) (fun t => mm (E (- t)%R) (mb (F t) (E t))) (fun t => mm (E (- t)%R) (mm D (F t)))).
    - apply Rmult_le_pos; lra.
    - intros i j Hi Hj. rewrite F0, E0, (@msub_diag S n n) by wf_solve. rewrite (@mmul_0_r S n n n) by auto. now rewrite mg_mzero.
    - intros t i j Hi Hj. assert (W1 := WE (- t)%R). assert (W2 := WF t). assert (W3 := WE t).
      pose proof (mderiv_mul (G := fun t => E (- t)%R) (H := fun t => mb (F t) (E t)) (n := n) (t := t)
        (EO t) (mderiv_sub (FD t) (ED t) ltac:(auto) ltac:(wf_solve))
        ltac:(intros; apply WE) ltac:(intros; apply wfm_msub; auto) ltac:(wf_solve) ltac:(wf_solve)) as M.
      eapply cderiv_eq; [|apply (M i j Hi Hj)]. unfold D. mdistr n. mglin. cring.
    - intros t Ht. replace (d * k1)%R with (N * (2 * (e * (N * (2 * (d * e))))))%R by (unfold k1; ring).
      assert (W2 := WF t).
      apply bnd_mul; auto.
      + repeat (apply Rmult_le_pos; try lra).
      + wf_solve.
      + apply expb; auto; lra.
      + apply bnd_mul; auto; try lra. apply expb; auto; lra. }
  assert (B2 : forall t, (0 <= t <= 1)%R -> bnd n (d * k2) (mb (F t) (E t))).
  { intros t Ht. assert (W2 := WF t). assert (W3 := WE t).
    replace (mb (F t) (E t)) with (mm (E t) (mm (E (- t)%R) (mb (F t) (E t)))).
    - replace (d * k2)%R with (N * (2 * (e * (d * k1))))%R by (unfold k2; ring).
      apply bnd_mul; auto; try (apply Rmult_le_pos; lra).
      + apply wfm_mmul with n; auto. wf_solve.
      + apply expb; auto; lra.
    - rewrite (@mmul_assoc S n n n n) by (auto; wf_solve). unfold E at 1 2. rewrite (mexp_inv' W t). apply (@mmul_1_l S n n). wf_solve. }
  set (Rm := fun t => mb (mb (F t) (E t)) (dmexp W WD t)).
  assert (WR : forall t, wfm n n (Rm t)).
  { intros t. unfold Rm. assert (W2 := WF t). assert (W3 := WE t). wf_solve. }
  assert (B3 : bnd n (d * (d * k3)) (mm (E (Ropp 1)) (Rm 1%R))).
  { apply (@bnd_mvt n (d * (d * k3)) (fun t => mm (E (- t)%R) (Rm t)) (fun t => mm (E (- t)%R) (mm D (mb (F t) (E t))))); [| | | |lra].
    - repeat (apply Rmult_le_pos; try lra).
    - intros i j Hi Hj. unfold Rm. rewrite F0, E0, dmexp_0, (@msub_diag S n n) by wf_solve. rewrite (@msub_diag S n n) by wf_solve.
      rewrite (@mmul_0_r S n n n) by auto. now rewrite mg_mzero.
    - intros t i j Hi Hj. assert (W1 := WE (- t)%R). assert (W2 := WF t). assert (W3 := WE t). assert (W4 := wfm_dmexp W WD t).
      pose proof (mderiv_sub (mderiv_sub (FD t) (ED t) ltac:(auto) ltac:(wf_solve)) (dmexp_deriv W WD t)
          ltac:(intros; apply wfm_msub; auto) ltac:(wf_solve)) as DR. fold E in DR.
      pose proof (mderiv_mul (G := fun t => E (- t)%R) (H := Rm) (n := n) (t := t)
        (EO t) DR ltac:(intros; apply WE) ltac:(intros; apply WR) ltac:(wf_solve) ltac:(wf_solve)) as M.
      eapply cderiv_eq; [|apply (M i j Hi Hj)]. unfold Rm. set (L := dmexp W WD t) in *. clearbody L. unfold D. mdistr n. mglin. cring.
    - intros t Ht. assert (W2 := WF t). assert (W3 := WE t).
      replace (d * (d * k3))%R with (N * (2 * (e * (N * (2 * (d * (d * k2)))))))%R by (unfold k3; ring).
      assert (0 <= d * k2)%R by (apply Rmult_le_pos; lra).
      apply bnd_mul; auto.
      + repeat (apply Rmult_le_pos; try lra).
      + wf_solve.
      + apply expb; auto; lra.
      + apply bnd_mul; auto; [lra|wf_solve]. }
  assert (B4 : bnd n (d * (d * k4)) (Rm 1%R)).
  { replace (Rm 1%R) with (mm (E 1%R) (mm (E (Ropp 1)) (Rm 1%R))).
    - replace (d * (d * k4))%R with (N * (2 * (e * (d * (d * k3)))))%R by (unfold k4; ring).
      apply bnd_mul; auto.
      + repeat (apply Rmult_le_pos; try lra).
      + apply wfm_mmul with n; auto.
      + apply expb; auto; lra.
    - assert (W2 := WR 1%R). rewrite (@mmul_assoc S n n n n) by auto. unfold E. rewrite (mexp_inv' W 1). now apply (@mmul_1_l S n n). }
  exact B4.
Qed.

(** ---- first order expansion of a differentiable curve of matrices, uniformly in the entries ---- *)
Lemma deriv_expand f l eps : derivable_pt_lim f 0 l -> (0 < eps)%R ->
  exists d, (0 < d)%R /\ forall s, (Rabs s < d)%R -> (Rabs (f s - f 0 - s * l) <= eps * Rabs s)%R.
Proof.
  intros H He. destruct (H eps He) as [d Hd]. exists d. split; [apply cond_pos|]. intros s Hs.
  destruct (Req_dec s 0) as [->|N].
  - rewrite Rmult_0_l, Rabs_R0. replace (f 0 - f 0 - 0)%R with 0%R by ring. rewrite Rabs_R0. lra.
  - specialize (Hd s N Hs). rewrite Rplus_0_l in Hd. replace (f s - f 0 - s * l)%R with (((f s - f 0) / s - l) * s)%R by (field; auto).
    rewrite Rabs_mult. apply Rmult_le_compat_r; [apply Rabs_pos|lra].
Qed.
Lemma expand_deriv f l : (forall eps, (0 < eps)%R -> exists d, (0 < d)%R /\ forall s, (Rabs s < d)%R -> (Rabs (f s - f 0 - s * l) <= eps * Rabs s)%R) ->
  derivable_pt_lim f 0 l.
Proof.
  intros H eps He. destruct (H (eps / 2)%R) as (d & Hd & E); [lra|]. exists (mkposreal d Hd). intros h Hh Hs. cbn in Hs. specialize (E h Hs).
  rewrite Rplus_0_l. replace ((f h - f 0) / h - l)%R with ((f h - f 0 - h * l) / h)%R by (field; auto).
  unfold Rdiv. rewrite Rabs_mult, Rabs_inv. assert (Ph : (0 < Rabs h)%R) by now apply Rabs_pos_lt.
  apply Rle_lt_trans with (eps / 2)%R; [|lra]. apply Rmult_le_reg_r with (Rabs h); auto. rewrite Rmult_assoc, Rinv_l by lra. lra.
Qed.
Lemma fin_delta m (P : nat -> R -> Prop) : (forall k, k < m -> exists d, (0 < d)%R /\ forall s, (Rabs s < d)%R -> P k s) ->
  exists d, (0 < d)%R /\ forall s, (Rabs s < d)%R -> forall k, k < m -> P k s.
Proof.
  induction m; intros H.
  - exists 1%R. split; [lra|]. intros; lia.
  - destruct IHm as (d & Hd & HP); [intros; apply H; lia|]. destruct (H m) as (d' & Hd' & HP'); [lia|].
    exists (Rmin d d'). split; [now apply Rmin_glb_lt|]. intros s Hs k Hk. pose proof (Rmin_l d d'). pose proof (Rmin_r d d').
    destruct (Nat.eq_dec k m) as [->|N]; [apply HP'; lra|apply HP; [lra|lia]].
Qed.
Definition rem (Z : R -> op) (V : op) s : op := mb (mb (Z s) (Z 0%R)) (ms (cofk (s : RField)) V).
Lemma mg_rem n Z V s i j : (forall s, wfm n n (Z s)) -> wfm n n V -> i < n -> j < n ->
  cre (mg (rem Z V s) i j) = (cre (mg (Z s) i j) - cre (mg (Z 0) i j) - s * cre (mg V i j))%R /\
  cim (mg (rem Z V s) i j) = (cim (mg (Z s) i j) - cim (mg (Z 0) i j) - s * cim (mg V i j))%R.
Proof.
  intros WZ WV Hi Hj. assert (W2 := WZ s). assert (W3 := WZ 0%R). unfold rem. mglin. tocplx.
  generalize (mg (Z s) i j) (mg (Z 0%R) i j) (mg V i j). intros [a b] [a' b'] [a'' b''].
  unfold csub, cmul, cofk, cre, cim. cbn [fst snd].
  change (@ksub RField) with Rminus. change (@kadd RField) with Rplus. change (@kmul RField) with Rmult.
  change (@k0 RField) with 0%R. change (kcar RField) with R in *. split; ring.
Qed.
Lemma mderiv_expand n Z V eps : (forall s, wfm n n (Z s)) -> wfm n n V -> mderiv n Z 0 V -> (0 < eps)%R ->
  exists d, (0 < d)%R /\ forall s, (Rabs s < d)%R -> bnd n (eps * Rabs s) (rem Z V s).
Proof.
  intros WZ WV HD He.
  destruct (@fin_delta (n * n) (fun k s =>
     (Rabs (cre (mg (rem Z V s) (k / n) (k mod n))) <= eps * Rabs s)%R /\ (Rabs (cim (mg (rem Z V s) (k / n) (k mod n))) <= eps * Rabs s)%R))
    as (d & Hd & H).
  - intros k Hk. assert (Hn : n <> 0) by (intros ->; lia).
    assert (Hi : k / n < n) by (apply Nat.div_lt_upper_bound; lia). assert (Hj : k mod n < n) by now apply Nat.mod_upper_bound.
    destruct (HD _ _ Hi Hj) as [D1 D2]. destruct (deriv_expand D1 He) as (d1 & P1 & H1). destruct (deriv_expand D2 He) as (d2 & P2 & H2).
    exists (Rmin d1 d2). split; [now apply Rmin_glb_lt|]. intros s Hs. pose proof (Rmin_l d1 d2). pose proof (Rmin_r d1 d2).
    destruct (@mg_rem n Z V s _ _ WZ WV Hi Hj) as [-> ->]. split; [apply H1; lra|apply H2; lra].
  - exists d. split; auto. intros s Hs i j Hi Hj. specialize (H s Hs (i * n + j) (join_lt Hi Hj)). now rewrite div_join, mod_join in H by auto.
Qed.
Lemma expand_mderiv n Z V : (forall s, wfm n n (Z s)) -> wfm n n V ->
  (forall eps, (0 < eps)%R -> exists d, (0 < d)%R /\ forall s, (Rabs s < d)%R -> bnd n (eps * Rabs s) (rem Z V s)) -> mderiv n Z 0 V.
Proof.
  intros WZ WV H i j Hi Hj. split; apply expand_deriv; intros eps He; destruct (H eps He) as (d & Hd & B); exists d; (split; [auto|]);
    intros s Hs; specialize (B s Hs i j Hi Hj); destruct (@mg_rem n Z V s _ _ WZ WV Hi Hj) as [E1 E2]; rewrite E1, E2 in B; apply B.
Qed.

(** ---- the derivative along a curve ---- *)
Lemma mexp_curve n (Z : R -> op) V (WZ : forall s, wfm n n (Z s)) (WV : wfm n n V) :
  mderiv n Z 0 V -> mderiv n (fun s => mexp (WZ s) 1) 0 (dmexp (WZ 0%R) WV 1).
Proof.
  intros HD. destruct (mexp_remainder (WZ 0%R)) as (K & HK & HR).
  destruct (bnd_exists n V) as (v & Hv & BV). destruct (bnd_exists n (Z 0%R)) as (c & Hc & BX).
  set (ex := exp ((rad n c + 1) * Rabs 1)). assert (Hex : (0 <= ex)%R) by (left; apply exp_pos).
  apply expand_mderiv; [intros; apply wfm_mexp|apply wfm_dmexp|]. intros eps He.
  (* q: bound of the derivative operator *)
  set (q := (rad n 1 * ex)%R). assert (Hq : (0 <= q)%R) by (apply Rmult_le_pos; auto; apply rad_pos; lra).
  assert (P1 : (0 < eps / (2 * (q + 1)))%R) by (apply Rdiv_lt_0_compat; lra).
  destruct (mderiv_expand WZ WV HD P1) as (d1 & Hd1 & X1).
  destruct (mderiv_expand WZ WV HD Rlt_0_1) as (d2 & Hd2 & X2).
  set (w := (v + 1)%R). assert (P3 : (0 < eps / (2 * (w * w * K + 1)))%R).
  { apply Rdiv_lt_0_compat; auto. assert (0 <= w * w * K)%R by (apply Rmult_le_pos; auto; apply Rmult_le_pos; unfold w; lra). lra. }
  assert (P4 : (0 < / w)%R) by (apply Rinv_0_lt_compat; unfold w; lra).
  exists (Rmin (Rmin d1 d2) (Rmin (eps / (2 * (w * w * K + 1))) (/ w))). split; [repeat apply Rmin_glb_lt; auto|].
  intros s Hs.
  pose proof (Rmin_l (Rmin d1 d2) (Rmin (eps / (2 * (w * w * K + 1))) (/ w))). pose proof (Rmin_r (Rmin d1 d2) (Rmin (eps / (2 * (w * w * K + 1))) (/ w))).
  pose proof (Rmin_l d1 d2). pose proof (Rmin_r d1 d2). pose proof (Rmin_l (eps / (2 * (w * w * K + 1))) (/ w)). pose proof (Rmin_r (eps / (2 * (w * w * K + 1))) (/ w)).
  specialize (X1 s ltac:(lra)). specialize (X2 s ltac:(lra)).
  assert (Ws := WZ s). pose (W0 := WZ 0%R).
  assert (WD : wfm n n (mb (Z s) (Z 0%R))) by wf_solve.
  assert (WR : wfm n n (rem Z V s)) by (unfold rem; wf_solve).
  assert (WsV : wfm n n (ms (cofk (s : RField)) V)) by wf_solve.
  assert (BD : bnd n (w * Rabs s) (mb (Z s) (Z 0%R))).
  { replace (mb (Z s) (Z 0%R)) with (ma (rem Z V s) (ms (cofk (s : RField)) V)).
    - eapply bnd_weaken; [|apply bnd_add; [auto|auto|exact X2|apply bnd_scale; [auto|exact BV]]]. unfold w. lra.
    - apply (@mat_ext S n n); [wf_solve|wf_solve|]. intros i j Hi Hj. unfold rem. mglin. cring. }
  assert (Pw : (0 < w)%R) by (unfold w; lra). pose proof (Rabs_pos s) as Ps.
  assert (D1 : (0 <= w * Rabs s <= 1)%R).
  { split; [apply Rmult_le_pos; lra|]. apply Rmult_le_reg_l with (/ w)%R; auto. rewrite <- Rmult_assoc, Rinv_l by lra. lra. }
  specialize (HR (Z s) (WZ s) WD (w * Rabs s)%R D1 BD).
  assert (WA : wfm n n (ma (rem Z V s) (ms (cofk (s : RField)) V))) by wf_solve.
  assert (EL : dmexp W0 WD 1 = ma (dmexp W0 WR 1) (ms (cofk (s : RField)) (dmexp W0 WV 1))).
  { rewrite <- (dmexp_scale (c:=cofk (s : RField)) W0 WV WsV), <- (dmexp_add W0 WR WsV WA). apply dmexp_ext.
    apply (@mat_ext S n n); [wf_solve|wf_solve|]. intros i j Hi Hj. unfold rem. mglin. cring. }
  assert (BL := dmexp_bnd W0 WR 1 Hc ltac:(apply Rmult_le_pos; [left; exact P1|apply Rabs_pos]) BX X1). fold ex in BL.
  eapply bnd_weaken with (M := rem (fun s => mexp (WZ s) 1) (dmexp (WZ 0%R) WV 1) s); cycle 1.
  - replace (rem (fun s => mexp (WZ s) 1) (dmexp (WZ 0%R) WV 1) s) with (ma (mb (mb (mexp (WZ s) 1) (mexp (WZ 0%R) 1)) (dmexp (WZ 0%R) WD 1)) (dmexp W0 WR 1)).
    + apply bnd_add; [wf_solve|wf_solve|exact HR|exact BL].
    + fold W0. assert (WL := wfm_dmexp W0 WR 1). assert (WL2 := wfm_dmexp W0 WV 1). rewrite EL.
      set (L1 := dmexp W0 WR 1) in *. set (L2 := dmexp W0 WV 1) in *. clearbody L1 L2. unfold rem.
      assert (WE1 := wfm_mexp (WZ s) 1). assert (WE2 := wfm_mexp W0 1). change (mexp (WZ 0%R) 1) with (mexp W0 1).
      apply (@mat_ext S n n); [wf_solve|wf_solve|]. intros i j Hi Hj. mglin. cring.
  - replace (rad n (eps / (2 * (q + 1)) * Rabs s) * ex)%R with (eps / (2 * (q + 1)) * q * Rabs s)%R by (unfold q, rad; ring).
    assert (A1 : (eps / (2 * (q + 1)) * q <= eps / 2)%R).
    { apply Rmult_le_reg_r with (2 * (q + 1))%R; [lra|]. replace (eps / (2 * (q + 1)) * q * (2 * (q + 1)))%R with (eps * q)%R by (field; lra).
      replace (eps / 2 * (2 * (q + 1)))%R with (eps * (q + 1))%R by field. apply Rmult_le_compat_l; lra. }
    assert (A2 : (w * Rabs s * (w * Rabs s * K) <= eps / 2 * Rabs s)%R).
    { replace (w * Rabs s * (w * Rabs s * K))%R with (w * w * K * Rabs s * Rabs s)%R by ring. apply Rmult_le_compat_r; auto.
      set (m := (w * w * K)%R) in *. assert (Hm : (0 <= m)%R) by (unfold m; repeat (apply Rmult_le_pos; try lra)).
      assert (Rabs s <= eps / (2 * (m + 1)))%R by lra.
      apply Rle_trans with (m * (eps / (2 * (m + 1))))%R; [now apply Rmult_le_compat_l|].
      apply Rmult_le_reg_r with (2 * (m + 1))%R; [lra|]. replace (m * (eps / (2 * (m + 1))) * (2 * (m + 1)))%R with (eps * m)%R by (field; lra).
      replace (eps / 2 * (2 * (m + 1)))%R with (eps * (m + 1))%R by field. apply Rmult_le_compat_l; lra. }
    assert (A3 : (eps / (2 * (q + 1)) * q * Rabs s <= eps / 2 * Rabs s)%R) by now apply Rmult_le_compat_r. lra.
Qed.
End P.
#[export] Hint Resolve wfm_mdw wfm_dmexp : wfm.
