(** The exponential of an arbitrary square complex matrix over the reals, as a power series; it is the
    unique solution of the matrix differential equation, and its directional derivative in the generator
    is again a power series. *)
Require Import List Arith Lia Ring Field Bool Reals Lra.
From Verif Require Import LibBase LibRing LibArr LibCplx LibMat LibNorm LibDeriv LibSeries M_Matrix S_Linear S_Exp P_Linear P_RealExp P_Frechet P_Dexp.
Import ListNotations.
Set Implicit Arguments.

Section P.
Notation S := RS.
Notation C := RC.
Notation op := (op RField).
Add Field Cfield : (c_field RField).
Notation mm := (mmul (S:=RS)).
Notation ma := (madd (S:=RS)).
Notation ms := (mscale (S:=RS)).

(** ---- series of complex numbers ---- *)
Definition cgeo (a : nat -> C) : Prop := geo (fun k => cre (a k)) /\ geo (fun k => cim (a k)).
Definition ces a (H : cgeo a) (t : R) : C := (es (proj1 H) t, es (proj2 H) t).

Lemma ces_ext a b (Ha : cgeo a) (Hb : cgeo b) t : (forall k, a k = b k) -> ces Ha t = ces Hb t.
Proof. intros E. unfold ces. f_equal; apply es_ext; intros k; now rewrite E. Qed.
Lemma ces_add a b c (Ha : cgeo a) (Hb : cgeo b) (Hc : cgeo c) t : (forall k, c k = cadd (a k) (b k)) ->
  ces Hc t = cadd (ces Ha t) (ces Hb t).
Proof.
  intros E. unfold ces, cadd. apply injective_projections; cbn [fst snd].
  - apply (es_add (proj1 Ha) (proj1 Hb) (proj1 Hc)). intros k. now rewrite E.
  - apply (es_add (proj2 Ha) (proj2 Hb) (proj2 Hc)). intros k. now rewrite E.
Qed.
Lemma geo_scal x a : geo a -> geo (fun k => x * a k)%R.
Proof.
  intros (B & r & HB & Hr & H). exists (Rabs x * B)%R, r. split; [apply Rmult_le_pos; auto using Rabs_pos|split; auto].
  intros k. rewrite Rabs_mult, Rmult_assoc. apply Rmult_le_compat_l; auto using Rabs_pos.
Qed.
Lemma ces_scal z a c (Ha : cgeo a) (Hc : cgeo c) t : (forall k, c k = cmul z (a k)) -> ces Hc t = cmul z (ces Ha t).
Proof.
  intros E. destruct z as [x y]. unfold ces, cmul. cbn [fst snd].
  pose (G1 := geo_scal x (proj1 Ha)). pose (G2 := geo_scal (- y) (proj2 Ha)).
  pose (G3 := geo_scal x (proj2 Ha)). pose (G4 := geo_scal y (proj1 Ha)). change (kcar RField) with R in *.
  apply injective_projections; cbn [fst snd].
  - rewrite (es_add G1 G2 (proj1 Hc)).
    + rewrite (@es_scal x _ _ (proj1 Ha) G1), (@es_scal (-y)%R _ _ (proj2 Ha) G2) by reflexivity.
      change (@ksub RField) with Rminus. change (@kmul RField) with Rmult. change (kcar RField) with R. unfold Rminus. f_equal. now rewrite Ropp_mult_distr_l.
    + intros k. rewrite E. unfold cmul, cre, cim. cbn [fst snd]. change (@ksub RField) with Rminus. change (@kmul RField) with Rmult. change (kcar RField) with R. ring.
  - rewrite (es_add G3 G4 (proj2 Hc)).
    + now rewrite (@es_scal x _ _ (proj2 Ha) G3), (@es_scal y _ _ (proj1 Ha) G4) by reflexivity.
    + intros k. rewrite E. unfold cmul, cre, cim. cbn [fst snd]. reflexivity.
Qed.
Lemma geo_ext a b : (forall k, a k = b k) -> geo a -> geo b.
Proof. intros E (B & r & HB & Hr & H). exists B, r. split; [auto|split; [auto|]]. intros k. rewrite <- E. apply H. Qed.
Lemma geo_0 : geo (fun _ => 0%R).
Proof. exists 0%R, 0%R. split; [lra|split; [lra|]]. intros k. rewrite Rabs_R0. lra. Qed.
Lemma geo_add a b : geo a -> geo b -> geo (fun k => a k + b k)%R.
Proof.
  intros (B & r & HB & Hr & H) (B' & r' & HB' & Hr' & H'). exists (B + B')%R, (r + r')%R. split; [lra|split; [lra|]]. intros k.
  eapply Rle_trans; [apply Rabs_triang|]. rewrite Rmult_plus_distr_r. apply Rplus_le_compat.
  - eapply Rle_trans; [apply H|]. apply Rmult_le_compat_l; auto. apply pow_incr. lra.
  - eapply Rle_trans; [apply H'|]. apply Rmult_le_compat_l; auto. apply pow_incr. lra.
Qed.
Lemma cgeo_scal z a : cgeo a -> cgeo (fun k => cmul z (a k)).
Proof.
  intros [G1 G2]. destruct z as [x y]. change (kcar RField) with R in x, y. split.
  - apply geo_ext with (2 := geo_add (geo_scal x G1) (geo_scal (- y) G2)). intros k. unfold cmul, cre, cim. cbn [fst snd].
    change (@ksub RField) with Rminus. change (@kmul RField) with Rmult. change (kcar RField) with R. ring.
  - apply geo_ext with (2 := geo_add (geo_scal x G2) (geo_scal y G1)). reflexivity.
Qed.
Lemma cgeo_0 : cgeo (fun _ => c0).
Proof. split; apply geo_0. Qed.
Lemma cgeo_sum n (a : nat -> nat -> C) : (forall l, l < n -> cgeo (a l)) -> cgeo (fun k => sumn (S:=S) n (fun l => a l k)).
Proof.
  induction n; intros H.
  - apply cgeo_0.
  - destruct IHn as [I1 I2]; [intros; apply H; lia|]. destruct (H n) as [J1 J2]; [lia|].
    split; [exact (geo_add I1 J1)|exact (geo_add I2 J2)].
Qed.
Lemma ces_0 a (H : cgeo a) : ces H 0 = a 0.
Proof. unfold ces. rewrite !es_0. now destruct (a 0). Qed.
Lemma ces_zero (H : cgeo (fun _ => c0)) t : ces H t = c0.
Proof.
  rewrite (ces_scal (z:=c0) H H t) by (intros; ring). ring.
Qed.
Lemma ces_sum n (a : nat -> nat -> C) (Ha : forall l, cgeo (a l)) (H : cgeo (fun k => sumn (S:=S) n (fun l => a l k))) t :
  ces H t = sumn (S:=S) n (fun l => ces (Ha l) t).
Proof.
  induction n.
  - cbn [sumn]. change (s0 (s:=S)) with (c0 (F:=RField)). apply ces_zero.
  - assert (H0 : cgeo (fun k => sumn (S:=S) n (fun l => a l k))) by (apply cgeo_sum; auto). cbn [sumn].
    rewrite <- (IHn H0). apply ces_add. intros k. reflexivity.
Qed.
Lemma cgeo_shift a : cgeo a -> cgeo (fun k => a (Datatypes.S k)).
Proof. intros [H1 H2]. split; [apply (geo_shift H1)|apply (geo_shift H2)]. Qed.
Lemma ces_deriv a (H : cgeo a) (H' : cgeo (fun k => a (Datatypes.S k))) t : cderiv (ces H) t (ces H' t).
Proof. split; cbn; [apply (es_deriv (proj1 H) (proj1 H'))|apply (es_deriv (proj2 H) (proj2 H'))]. Qed.

(** ---- series of matrices ---- *)
Definition mgeo n (M : nat -> op) : Prop :=
  (forall k, wfm n n (M k)) /\ exists B r, (0 <= B)%R /\ (0 <= r)%R /\ forall k, bnd n (B * r ^ k) (M k).
Definition mseq n (M : nat -> op) i j k : C := if (Nat.ltb i n && Nat.ltb j n)%bool then mg (M k) i j else c0.
Lemma mseq_in n M i j k : i < n -> j < n -> mseq n M i j k = mg (M k) i j.
Proof. intros Hi Hj. unfold mseq. apply Nat.ltb_lt in Hi, Hj. now rewrite Hi, Hj. Qed.
Lemma mseq_geo n M (H : mgeo n M) i j : cgeo (mseq n M i j).
Proof.
  destruct H as (W & B & r & HB & Hr & H). unfold mseq. destruct (Nat.ltb_spec i n) as [Hi|Hi]; [|apply cgeo_0].
  destruct (Nat.ltb_spec j n) as [Hj|Hj]; [|apply cgeo_0]. cbn.
  split; exists B, r; (split; [auto|split; [auto|]]); intros k; apply (H k i j Hi Hj).
Qed.
Definition mser n M (H : mgeo n M) (t : R) : op := mk2 n n (fun i j => ces (mseq_geo H i j) t).
Lemma mser_wf n M (H : mgeo n M) t : wfm n n (mser H t).
Proof. apply wfm_mk2. Qed.
Lemma mg_mser n M (H : mgeo n M) t i j : i < n -> j < n -> mg (mser H t) i j = ces (mseq_geo H i j) t.
Proof. intros. unfold mser. now rewrite mg_mk2. Qed.
Lemma mser_ext n M N (HM : mgeo n M) (HN : mgeo n N) t : (forall k, M k = N k) -> mser HM t = mser HN t.
Proof.
  intros E. apply (@mat_ext S n n); [apply mser_wf|apply mser_wf|]. intros i j Hi Hj. rewrite !mg_mser by auto.
  apply ces_ext. intros k. unfold mseq. now rewrite E.
Qed.
Lemma mser_0 n M (H : mgeo n M) : mser H 0 = M 0.
Proof.
  apply (@mat_ext S n n); [apply mser_wf|apply H|]. intros i j Hi Hj. rewrite mg_mser by auto. rewrite ces_0. now apply mseq_in.
Qed.
Lemma mser_add n A B M (HA : mgeo n A) (HB : mgeo n B) (HM : mgeo n M) t : (forall k, M k = ma (A k) (B k)) ->
  mser HM t = ma (mser HA t) (mser HB t).
Proof.
  intros E. assert (W := mser_wf HA t). apply (@mat_ext S n n); [apply mser_wf|wf_solve|]. intros i j Hi Hj.
  rewrite (@mg_madd S n n) by auto. rewrite !mg_mser by auto. apply ces_add. intros k. rewrite !mseq_in by auto. rewrite E.
  apply (@mg_madd S n n); auto. apply HA.
Qed.
Lemma mser_scale n c A M (HA : mgeo n A) (HM : mgeo n M) t : (forall k, M k = ms c (A k)) -> mser HM t = ms c (mser HA t).
Proof.
  intros E. assert (W := mser_wf HA t). apply (@mat_ext S n n); [apply mser_wf|wf_solve|]. intros i j Hi Hj.
  rewrite (@mg_mscale S n n) by auto. rewrite !mg_mser by auto. apply ces_scal. intros k. rewrite !mseq_in by auto. rewrite E.
  apply (@mg_mscale S n n); auto. apply HA.
Qed.
Lemma mser_mul_l n X A M (HA : mgeo n A) (HM : mgeo n M) t : wfm n n X -> (forall k, M k = mm X (A k)) -> mser HM t = mm X (mser HA t).
Proof.
  intros WX E. assert (W := mser_wf HA t). apply (@mat_ext S n n); [apply mser_wf|wf_solve|]. intros i j Hi Hj.
  rewrite (@mg_mmul S n n n) by auto. rewrite mg_mser by auto.
  assert (Hl : forall l, cgeo (fun k => cmul (mg X i l) (mseq n A l j k))).
  { intros l. apply cgeo_scal, mseq_geo, HA. }
  assert (Hs : cgeo (fun k => sumn (S:=S) n (fun l => cmul (mg X i l) (mseq n A l j k)))) by (apply (cgeo_sum (fun l k => cmul (mg X i l) (mseq n A l j k))); auto).
  rewrite (ces_ext (mseq_geo HM i j) Hs t).
  - rewrite (@ces_sum n (fun l k => cmul (mg X i l) (mseq n A l j k)) Hl Hs). apply sumn_ext. intros l Hl'. rewrite mg_mser by auto. apply ces_scal. reflexivity.
  - intros k. rewrite mseq_in by auto. rewrite E. rewrite (@mg_mmul S n n n) by (auto; apply HA). apply sumn_ext. intros l Hl'. now rewrite mseq_in.
Qed.
Lemma mser_mul_r n X A M (HA : mgeo n A) (HM : mgeo n M) t : wfm n n X -> (forall k, M k = mm (A k) X) -> mser HM t = mm (mser HA t) X.
Proof.
  intros WX E. assert (W := mser_wf HA t). apply (@mat_ext S n n); [apply mser_wf|wf_solve|]. intros i j Hi Hj.
  rewrite (@mg_mmul S n n n) by auto. rewrite mg_mser by auto.
  assert (Hl : forall l, cgeo (fun k => cmul (mg X l j) (mseq n A i l k))).
  { intros l. apply cgeo_scal, mseq_geo, HA. }
  assert (Hs : cgeo (fun k => sumn (S:=S) n (fun l => cmul (mg X l j) (mseq n A i l k)))) by (apply (cgeo_sum (fun l k => cmul (mg X l j) (mseq n A i l k))); auto).
  rewrite (ces_ext (mseq_geo HM i j) Hs t).
  - rewrite (@ces_sum n (fun l k => cmul (mg X l j) (mseq n A i l k)) Hl Hs). apply sumn_ext. intros l Hl'. rewrite mg_mser by auto.
    tocplx. rewrite (ces_scal (z:=mg X l j) (mseq_geo HA i l) (Hl l)) by reflexivity. ring.
  - intros k. rewrite mseq_in by auto. rewrite E. rewrite (@mg_mmul S n n n) by (auto; apply HA). apply sumn_ext. intros l Hl'. rewrite mseq_in by auto. cring.
Qed.
Lemma mgeo_shift n M : mgeo n M -> mgeo n (fun k => M (Datatypes.S k)).
Proof.
  intros (W & B & r & HB & Hr & H). split; [auto|]. exists (B * r)%R, r. split; [now apply Rmult_le_pos|split; auto].
  intros k. replace (B * r * r ^ k)%R with (B * r ^ Datatypes.S k)%R by (cbn; ring). apply H.
Qed.
Lemma mser_deriv n M (H : mgeo n M) (H' : mgeo n (fun k => M (Datatypes.S k))) t : mderiv n (mser H) t (mser H' t).
Proof.
  intros i j Hi Hj. rewrite mg_mser by auto. eapply cderiv_ext; [intros s; symmetry; apply mg_mser; auto|].
  assert (G : cgeo (fun k => mseq n M i j (Datatypes.S k))) by (apply cgeo_shift, mseq_geo, H).
  eapply cderiv_eq; [|apply (ces_deriv (mseq_geo H i j) G)]. apply ces_ext. reflexivity.
Qed.
Lemma mser_bnd n M (H : mgeo n M) B r t : (0 <= B)%R -> (0 <= r)%R -> (forall k, bnd n (B * r ^ k) (M k)) -> bnd n (B * exp (r * Rabs t)) (mser H t).
Proof.
  intros HB Hr HM i j Hi Hj. rewrite mg_mser by auto. unfold ces, cre, cim. cbn [fst snd].
  split; apply es_bound; auto; intros k; rewrite mseq_in by auto; apply (HM k i j Hi Hj).
Qed.

(** ---- the exponential ---- *)
Fixpoint mpw n (X : op) (k : nat) : op := match k with O => mid (S:=S) n | Datatypes.S k' => mm X (mpw n X k') end.
Lemma wfm_mpw n X k : wfm n n X -> wfm n n (mpw n X k).
Proof. intros W. induction k; cbn; wf_solve. Qed.
Hint Resolve wfm_mpw : wfm.
Lemma mpw_comm n X k : wfm n n X -> mm X (mpw n X k) = mm (mpw n X k) X.
Proof.
  intros W. induction k; cbn [mpw].
  - now rewrite (@mmul_1_r S n n), (@mmul_1_l S n n) by wf_solve.
  - rewrite IHk at 1. assert (W2 := wfm_mpw k W). now rewrite (@mmul_assoc S n n n n) by wf_solve.
Qed.
Definition rad n (c : R) : R := (INR n * (2 * c))%R.
Lemma rad_pos n c : (0 <= c)%R -> (0 <= rad n c)%R.
Proof. intros. unfold rad. apply Rmult_le_pos; [apply pos_INR|lra]. Qed.
Lemma mpw_bnd n X c k : (0 <= c)%R -> wfm n n X -> bnd n c X -> bnd n (1 * rad n c ^ k) (mpw n X k).
Proof.
  intros Hc W HX. rewrite Rmult_1_l. induction k; cbn [mpw pow].
  - intros i j Hi Hj. rewrite mg_mid by auto. unfold kd. destruct (Nat.eqb i j); cbn; rewrite ?Rabs_R0, ?Rabs_R1; lra.
  - replace (rad n c * rad n c ^ k)%R with (INR n * (2 * (c * rad n c ^ k)))%R by (unfold rad; ring).
    apply bnd_mul; auto with wfm. apply pow_le. now apply rad_pos.
Qed.
Lemma mpw_geo n X : wfm n n X -> mgeo n (mpw n X).
Proof.
  intros W. split; [intros; now apply wfm_mpw|]. destruct (bnd_exists n X) as (c & Hc & H). exists 1%R, (rad n c).
  split; [lra|split; [now apply rad_pos|]]. intros k. now apply mpw_bnd.
Qed.
Definition mexp n X (W : wfm n n X) (t : R) : op := mser (mpw_geo W) t.
Lemma wfm_mexp n X (W : wfm n n X) t : wfm n n (mexp W t).
Proof. apply mser_wf. Qed.
Hint Resolve wfm_mexp : wfm.
Lemma mexp_0 n X (W : wfm n n X) : mexp W 0 = mid (S:=S) n.
Proof. unfold mexp. now rewrite mser_0. Qed.
Lemma mexp_deriv n X (W : wfm n n X) t : mderiv n (mexp W) t (mm X (mexp W t)).
Proof.
  pose proof (mgeo_shift (mpw_geo W)) as H'. eapply mderiv_eq; [|apply (mser_deriv (mpw_geo W) H')]. now apply mser_mul_l.
Qed.
Lemma mexp_comm n X (W : wfm n n X) t : mm X (mexp W t) = mm (mexp W t) X.
Proof.
  pose proof (mgeo_shift (mpw_geo W)) as H'. unfold mexp. rewrite <- (mser_mul_l (mpw_geo W) H' t W) by reflexivity.
  apply mser_mul_r; auto. intros k. cbn. now apply mpw_comm.
Qed.
Lemma mexp_solves n X (W : wfm n n X) : solves n X (mexp W).
Proof. split; [intros; apply wfm_mexp|split; [apply mexp_0|intros; apply mexp_deriv]]. Qed.
Lemma mexp_opp_deriv n X (W : wfm n n X) t :
  mderiv n (fun s => mexp W (- s)%R) t (ms (copp c1) (mm (mexp W (- t)%R) X)).
Proof.
  intros i j Hi Hj. mglin. eapply cderiv_eq; [|apply (@cderiv_comp_opp (fun r => mg (mexp W r) i j)); apply (mexp_deriv W (- t)); auto].
  rewrite mexp_comm. cring.
Qed.
(** a matrix function with derivative zero is constant *)
Lemma mderiv0_const n (G : R -> op) : (forall s, wfm n n (G s)) -> (forall t, mderiv n G t (mzero (S:=S) n n)) -> forall t, G t = G 0%R.
Proof.
  intros WG HD t. apply (@mat_ext S n n); auto. intros i j Hi Hj. revert t. apply (@cderiv0_const (fun s => mg (G s) i j)). intros t.
  eapply cderiv_eq; [|apply (HD t i j Hi Hj)]. now rewrite mg_mzero.
Qed.
Lemma mexp_back n X (W : wfm n n X) Y t : (forall s, wfm n n (Y s)) -> (forall t, mderiv n Y t (mm X (Y t))) ->
  mm (mexp W (- t)%R) (Y t) = Y 0%R.
Proof.
  intros WY HD.
  assert (WG : forall s, wfm n n (mm (mexp W (- s)%R) (Y s))).
  { intros s. assert (W2 := WY s). wf_solve. }
  rewrite (mderiv0_const (G := fun s => mm (mexp W (- s)%R) (Y s)) WG).
  - rewrite Ropp_0, mexp_0. apply (@mmul_1_l S n n). apply WY.
  - intros u. assert (W2 := WY u).
    pose proof (mderiv_mul (mexp_opp_deriv W u) (HD u) ltac:(intros; cbn beta; wf_solve) WY ltac:(wf_solve) ltac:(wf_solve)) as M.
    eapply mderiv_eq; [|exact M]. apply (@mat_ext S n n); [wf_solve|wf_solve|]. intros i j Hi Hj. mdistr n. mglin. cring.
Qed.
Lemma mexp_inv n X (W : wfm n n X) t : mm (mexp W (- t)%R) (mexp W t) = mid (S:=S) n.
Proof. rewrite (@mexp_back n X W (mexp W)); [apply mexp_0|intros; apply wfm_mexp|intros; apply mexp_deriv]. Qed.
Lemma mexp_inv' n X (W : wfm n n X) t : mm (mexp W t) (mexp W (- t)%R) = mid (S:=S) n.
Proof. pose proof (mexp_inv W (- t)) as H. now rewrite Ropp_involutive in H. Qed.
(** solutions are unique *)
Lemma solves_unique n X (W : wfm n n X) Y t : solves n X Y -> Y t = mexp W t.
Proof.
  intros (WY & Y0 & HD). pose proof (@mexp_back n X W Y t WY HD) as H. rewrite Y0 in H.
  assert (W2 := WY t).
  transitivity (mm (mm (mexp W t) (mexp W (- t)%R)) (Y t)).
  - rewrite mexp_inv'. now rewrite (@mmul_1_l S n n).
  - rewrite <- (@mmul_assoc S n n n n) by wf_solve. rewrite H. apply (@mmul_1_r S n n). wf_solve.
Qed.
Lemma mexp_exponential n X (W : wfm n n X) : is_exponential n X (mexp W 1).
Proof. apply solves_exponential; auto. apply mexp_solves. Qed.
Lemma exponential_mexp n X (W : wfm n n X) E : is_exponential n X E -> E = mexp W 1.
Proof. intros H. destruct (exponential_solves W H) as (Y & HY & <-). now apply solves_unique. Qed.
Lemma mexp_bnd n X (W : wfm n n X) c t : (0 <= c)%R -> bnd n c X -> bnd n (exp (rad n c * Rabs t)) (mexp W t).
Proof.
  intros Hc H. rewrite <- (Rmult_1_l (exp _)). apply mser_bnd; [lra|now apply rad_pos|]. intros k. now apply mpw_bnd.
Qed.
End P.
#[export] Hint Resolve wfm_mpw wfm_mexp : wfm.
