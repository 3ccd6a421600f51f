(** Derivative of the matrix exponential with respect to the generator (skew-Hermitian case), over the
    reals.  [frechet_limit] identifies the derivative of s -> exp(X + s Y) at s = 0 with the divided
    difference formula in the eigenbasis of X. *)
Require Import List Arith Lia Ring Field Bool Reals Lra.
From Verif Require Import LibBase LibRing LibArr LibCplx LibMat LibNorm LibDeriv M_Matrix S_Linear P_Linear P_Matrix P_Spectral P_RealExp.
Import ListNotations.
Set Implicit Arguments.

Section P.
Notation S := RS.
Notation C := RC.
Notation op := (op RField).
Add Field Cfield : (c_field RField).
Notation mm := (mmul (S:=RS)).
Notation md := (mdag (S:=RS)).

(** ---- entrywise bounds ---- *)
Definition bnd n (c : R) (M : op) : Prop :=
  forall i j, i < n -> j < n -> (Rabs (cre (mg M i j)) <= c)%R /\ (Rabs (cim (mg M i j)) <= c)%R.

Lemma bnd_sumn n c (f : nat -> C) : (forall k, k < n -> (Rabs (cre (f k)) <= c)%R /\ (Rabs (cim (f k)) <= c)%R) ->
  (Rabs (cre (sumn (S:=S) n f)) <= INR n * c)%R /\ (Rabs (cim (sumn (S:=S) n f)) <= INR n * c)%R.
Proof.
  induction n; intros H.
  - cbn. rewrite Rabs_R0. lra.
  - destruct IHn as [I1 I2]; [intros; apply H; lia|]. destruct (H n) as [J1 J2]; [lia|].
    rewrite S_INR. cbn [sumn]. tocplx. set (s := sumn (S:=S) n f) in *. clearbody s.
    unfold cadd, cre, cim in *. cbn [fst snd]. change (@kadd RField) with Rplus.
    split; (eapply Rle_trans; [apply Rabs_triang|]); lra.
Qed.
Lemma bnd_mul n a b A B : (0 <= a)%R -> (0 <= b)%R -> wfm n n A -> wfm n n B -> bnd n a A -> bnd n b B ->
  bnd n (INR n * (2 * (a * b))) (mm A B).
Proof.
  intros Ha Hb WA WB HA HB i j Hi Hj. rewrite (@mg_mmul S n n n) by auto. apply bnd_sumn. intros k Hk.
  destruct (HA i k Hi Hk) as [A1 A2]. destruct (HB k j Hk Hj) as [B1 B2]. tocplx.
  set (x := mg A i k) in *. set (y := mg B k j) in *. clearbody x y.
  unfold cmul, cre, cim in *. cbn [fst snd]. change (@kmul RField) with Rmult. change (@kadd RField) with Rplus.
  change (@ksub RField) with Rminus.
  assert (P : forall u v, (Rabs u <= a)%R -> (Rabs v <= b)%R -> (Rabs (u * v) <= a * b)%R).
  { intros u v Hu Hv. rewrite Rabs_mult. apply Rmult_le_compat; auto using Rabs_pos. }
  pose proof (P _ _ A1 B1). pose proof (P _ _ A1 B2). pose proof (P _ _ A2 B1). pose proof (P _ _ A2 B2).
  split.
  - unfold Rminus. eapply Rle_trans; [apply Rabs_triang|]. rewrite Rabs_Ropp. lra.
  - eapply Rle_trans; [apply Rabs_triang|]. lra.
Qed.
Lemma bnd_scale n c (s : R) M : wfm n n M -> bnd n c M -> bnd n (Rabs s * c) (mscale (S:=S) (cofk (s:RField)) M).
Proof.
  intros W H i j Hi Hj. destruct (H i j Hi Hj) as [H1 H2]. rewrite (@mg_mscale S n n) by auto. tocplx.
  set (x := mg M i j) in *. clearbody x. unfold cmul, cofk, cre, cim in *. cbn [fst snd].
  change (@kmul RField) with Rmult. change (@kadd RField) with Rplus. change (@ksub RField) with Rminus.
  change (@k0 RField) with 0%R.
  replace (s * fst x - 0 * snd x)%R with (s * fst x)%R by rring.
  replace (s * snd x + 0 * fst x)%R with (s * snd x)%R by rring. rewrite !Rabs_mult.
  split; apply Rmult_le_compat_l; auto using Rabs_pos.
Qed.
Lemma bnd_weaken n a b M : (a <= b)%R -> bnd n a M -> bnd n b M.
Proof. intros H HM i j Hi Hj. destruct (HM i j Hi Hj). split; lra. Qed.

Lemma Rsqr_le_abs (x : R) : (x * x <= 1)%R -> (Rabs x <= 1)%R.
Proof. intros H. apply Rabs_le. split; nra. Qed.
Lemma bnd_unitary n U : munitary n U -> bnd n 1 U.
Proof.
  intros H i j Hi Hj. pose proof (unitary_entry H Hi Hj) as E. unfold kle in E. cbn in E. apply r_leb_le in E.
  revert E. generalize (mg U i j). intros x E. unfold cnorm2 in E. unfold cre, cim.
  change (@kmul RField) with Rmult in E. change (@kadd RField) with Rplus in E. destruct x as [a b].
  cbn [fst snd] in *. change (kcar RField) with R in a, b. split; apply Rsqr_le_abs; nra.
Qed.
(** every matrix is bounded *)
Lemma bnd_exists_row n (f : nat -> C) : exists c, (0 <= c)%R /\ forall k, k < n -> (Rabs (cre (f k)) <= c)%R /\ (Rabs (cim (f k)) <= c)%R.
Proof.
  induction n.
  - exists 0%R. split; [lra|]. intros; lia.
  - destruct IHn as (c & Hc & H). exists (c + Rabs (cre (f n)) + Rabs (cim (f n)))%R.
    pose proof (Rabs_pos (cre (f n))). pose proof (Rabs_pos (cim (f n))). split; [lra|].
    intros k Hk. destruct (Nat.eq_dec k n) as [->|N]; [lra|]. destruct (H k); [lia|]. lra.
Qed.
Lemma bnd_exists n M : exists c, (0 <= c)%R /\ bnd n c M.
Proof.
  destruct (bnd_exists_row (n * n) (fun k => mg M (k / n) (k mod n))) as (c & Hc & H). exists c. split; auto.
  intros i j Hi Hj. specialize (H (i * n + j) (join_lt Hi Hj)). now rewrite div_join, mod_join in H by auto.
Qed.

(** mean value theorem for matrix valued functions *)
Lemma mvt1 (f f' : R -> R) c : (0 <= c)%R -> f 0%R = 0%R ->
  (forall t, derivable_pt_lim f t (f' t)) -> (forall t, (0 <= t <= 1)%R -> (Rabs (f' t) <= c)%R) ->
  forall t, (0 <= t <= 1)%R -> (Rabs (f t) <= c)%R.
Proof.
  intros Hc H0 Hd Hb t Ht. destruct (Req_dec t 0) as [->|N].
  - rewrite H0, Rabs_R0. auto.
  - destruct (MVT_cor2 f f' 0 t) as (u & E & Hu); [lra|intros; apply Hd|].
    rewrite H0 in E. replace (f t) with (f' u * (t - 0))%R by (rewrite <- E; ring).
    rewrite Rabs_mult. specialize (Hb u ltac:(lra)).
    rewrite (Rabs_right (t - 0)) by lra. pose proof (Rabs_pos (f' u)). nra.
Qed.
Lemma bnd_mvt n c (G G' : R -> op) : (0 <= c)%R ->
  (forall i j, i < n -> j < n -> mg (G 0%R) i j = c0) ->
  (forall t i j, i < n -> j < n -> cderiv (fun s => mg (G s) i j) t (mg (G' t) i j)) ->
  (forall t, (0 <= t <= 1)%R -> bnd n c (G' t)) ->
  forall t, (0 <= t <= 1)%R -> bnd n c (G t).
Proof.
  intros Hc H0 Hd Hb t Ht i j Hi Hj. split.
  - apply (@mvt1 (fun s => cre (mg (G s) i j)) (fun s => cre (mg (G' s) i j))); auto.
    + now rewrite H0.
    + intros u. apply (Hd u i j Hi Hj).
    + intros u Hu. apply (Hb u Hu i j Hi Hj).
  - apply (@mvt1 (fun s => cim (mg (G s) i j)) (fun s => cim (mg (G' s) i j))); auto.
    + now rewrite H0.
    + intros u. apply (Hd u i j Hi Hj).
    + intros u Hu. apply (Hb u Hu i j Hi Hj).
Qed.

(** derivatives of matrix valued functions *)
Definition mderiv n (G : R -> op) (t : R) (L : op) : Prop :=
  forall i j, i < n -> j < n -> cderiv (fun s => mg (G s) i j) t (mg L i j).

Lemma mderiv_mul n G H t L M : mderiv n G t L -> mderiv n H t M ->
  (forall s, wfm n n (G s)) -> (forall s, wfm n n (H s)) -> wfm n n L -> wfm n n M ->
  mderiv n (fun s => mm (G s) (H s)) t (madd (S:=S) (mm L (H t)) (mm (G t) M)).
Proof.
  intros HG HH WG WH WL WM i j Hi Hj. mglin.
  rewrite (@mg_mmul S n n n L (H t) i j), (@mg_mmul S n n n (G t) M i j) by auto. tocplx.
  rewrite csumn_add. eapply cderiv_ext; [intros s; symmetry; apply (@mg_mmul S n n n); auto|].
  apply (cderiv_sumn (fun k s => cmul (mg (G s) i k) (mg (H s) k j))). intros k Hk.
  apply (cderiv_mul (HG i k Hi Hk) (HH k j Hk Hj)).
Qed.
Lemma mderiv_sub n G H t L M : mderiv n G t L -> mderiv n H t M ->
  (forall s, wfm n n (G s)) -> wfm n n L -> mderiv n (fun s => msub (S:=S) (G s) (H s)) t (msub (S:=S) L M).
Proof.
  intros HG HH WG WL i j Hi Hj. mglin.
  eapply cderiv_ext; [intros s; symmetry; apply (@mg_msub S n n); auto|]. now apply cderiv_sub; auto.
Qed.
Lemma mderiv_scale n c G t L : mderiv n G t L -> (forall s, wfm n n (G s)) -> wfm n n L ->
  mderiv n (fun s => mscale (S:=S) c (G s)) t (mscale (S:=S) c L).
Proof.
  intros HG WG WL i j Hi Hj. mglin.
  eapply cderiv_ext; [intros s; symmetry; apply (@mg_mscale S n n); auto|]. now apply cderiv_scale; auto.
Qed.
Lemma mderiv_eq n G t L L' : L = L' -> mderiv n G t L -> mderiv n G t L'.
Proof. now intros ->. Qed.

(** X(t) solves X' = A X, X(0) = 1 *)
Definition solves n (A : op) (X : R -> op) : Prop :=
  (forall s, wfm n n (X s)) /\ X 0%R = mid (S:=S) n /\ forall t, mderiv n X t (mm A (X t)).

(** solutions for skew-Hermitian generators are unitary *)
Lemma solves_unitary n A X t : wfm n n A -> md A = mscale (S:=S) (copp c1) A -> solves n A X ->
  mm (md (X t)) (X t) = mid (S:=S) n.
Proof.
  intros WA HA (WX & X0 & HD). apply (@mat_ext S n n); [wf_solve|wf_solve|]. intros i j Hi Hj.
  transitivity (mg (mm (md (X 0%R)) (X 0%R)) i j).
  - revert t. apply (@cderiv0_const (fun s => mg (mm (md (X s)) (X s)) i j)). intros t.
    assert (Dd : mderiv n (fun s => md (X s)) t (md (mm A (X t)))).
    { intros a b Ha Hb. rewrite (@mg_mdag S n n) by (auto; wf_solve).
      eapply cderiv_ext; [intros s; symmetry; apply (@mg_mdag S n n); auto|]. apply cderiv_conj. apply HD; auto. }
    pose proof (mderiv_mul Dd (HD t)
       ltac:(intros; cbn beta; wf_solve) WX ltac:(wf_solve) ltac:(wf_solve)) as M.
    eapply cderiv_eq; [|apply (M i j Hi Hj)].
    rewrite (@mdag_mmul S n n n) by auto. rewrite HA. mdistr n. mglin. cring.
  - rewrite X0, mdag_mid. now rewrite (@mmul_1_l S n n) by wf_solve.
Qed.

(** ---- the divided difference formula ---- *)
Definition phi (x : nat -> C) (t : R) (i j : nat) : C :=
  if ceqb (x i) (x j) then cmul (cofk (t:RField)) (cexpR (cmul (cofk (t:RField)) (x i)))
  else cdiv (csub (cexpR (cmul (cofk (t:RField)) (x j))) (cexpR (cmul (cofk (t:RField)) (x i)))) (csub (x j) (x i)).
Definition Dint n (V Y : op) (x : nat -> C) (t : R) : op :=
  mk2 n n (fun i j => cmul (mg (mm (mm (md V) Y) V) i j) (phi x t i j)).
(** V [(V^dagger Y V) o phi] V^dagger *)
Definition Lfam n (V Y : op) (x : nat -> C) (t : R) : op := mm (mm V (Dint n V Y x t)) (md V).

Lemma cderiv_id t : cderiv (fun s => cofk (s:RField)) t c1.
Proof. split; cbn. apply derivable_pt_lim_id. apply (derivable_pt_lim_const 0). Qed.

Lemma phi_deriv x t i j :
  cderiv (fun s => phi x s i j) t (cadd (cmul (x i) (phi x t i j)) (cexpR (cmul (cofk (t:RField)) (x j)))).
Proof.
  unfold phi. destruct (ceqb (x i) (x j)) eqn:E.
  - apply ceqb_eq in E. rewrite <- E.
    eapply cderiv_eq; [|apply (cderiv_mul (cderiv_id t) (cderiv_exp (x i) t))]. ring.
  - assert (N : csub (x j) (x i) <> c0).
    { intros Z. apply csub_eq0 in Z. symmetry in Z. apply ceqb_eq in Z. congruence. }
    eapply cderiv_eq; [|apply cderiv_scale_r; apply cderiv_sub; apply cderiv_exp].
    fold (cdiv (csub (cexpR (cmul (cofk (t:RField)) (x j))) (cexpR (cmul (cofk (t:RField)) (x i)))) (csub (x j) (x i))).
    field. exact N.
Qed.

Lemma wfm_Dint n V Y x t : wfm n n (Dint n V Y x t).
Proof. unfold Dint. wf_solve. Qed.
Lemma wfm_Lfam n V Y x t : wfm n n V -> wfm n n (Lfam n V Y x t).
Proof. intros. unfold Lfam. pose proof (wfm_Dint n V Y x t). wf_solve. Qed.
Hint Resolve wfm_Dint wfm_Lfam : wfm.

Lemma Dint_deriv n V Y x t : wfm n n V -> wfm n n Y ->
  mderiv n (Dint n V Y x) t
    (madd (S:=S) (mm (mdiag (S:=S) n x) (Dint n V Y x t))
       (mm (mm (mm (md V) Y) V) (mdiag (S:=S) n (fun j => cexpR (cmul (cofk (t:RField)) (x j)))))).
Proof.
  intros WV WY i j Hi Hj. mglin. rewrite mg_diag_mul by (auto; wf_solve). rewrite mg_mul_diag by (auto; wf_solve).
  eapply (@cderiv_ext (fun s => cmul (mg (mm (mm (md V) Y) V) i j) (phi x s i j)));
    [intros s; symmetry; apply (@mg_mk2 S n n); auto|].
  eapply cderiv_eq; [|apply cderiv_scale; apply phi_deriv].
  unfold Dint. rewrite mg_mk2 by auto. cring.
Qed.
Lemma mderiv_const n M t : mderiv n (fun _ => M) t (mzero (S:=S) n n).
Proof. intros i j Hi Hj. rewrite mg_mzero by auto. apply cderiv_const. Qed.
Lemma mderiv_lmul n A G t L : wfm n n A -> (forall s, wfm n n (G s)) -> wfm n n L -> mderiv n G t L ->
  mderiv n (fun s => mm A (G s)) t (mm A L).
Proof.
  intros WA WG WL H. eapply mderiv_eq; [|apply (@mderiv_mul n (fun _ => A) G t (mzero (S:=S) n n) L); auto; [apply mderiv_const|wf_solve]].
  rewrite (@mmul_0_l S n n n) by auto. rewrite (@madd_0_l S n n) by wf_solve. reflexivity.
Qed.
Lemma mderiv_rmul n A G t L : wfm n n A -> (forall s, wfm n n (G s)) -> wfm n n L -> mderiv n G t L ->
  mderiv n (fun s => mm (G s) A) t (mm L A).
Proof.
  intros WA WG WL H. eapply mderiv_eq; [|apply (@mderiv_mul n G (fun _ => A) t L (mzero (S:=S) n n)); auto; [apply mderiv_const|wf_solve]].
  rewrite (@mmul_0_r S n n n) by auto. rewrite (@madd_0_r S n n) by wf_solve. reflexivity.
Qed.

Definition Ex n (V : op) (x : nat -> C) (t : R) : op := conjd n V (fun k => cexpR (cmul (cofk (t:RField)) (x k))).

(** L' = X L + Y E *)
Lemma Lfam_deriv n V Y x t : munitary n V -> wfm n n Y ->
  mderiv n (Lfam n V Y x) t (madd (S:=S) (mm (conjd n V x) (Lfam n V Y x t)) (mm Y (Ex n V x t))).
Proof.
  intros HV WY. pose proof (munitary_wf HV) as WV. destruct HV as (_ & V1 & V2).
  eapply mderiv_eq; cycle 1.
  - unfold Lfam. apply mderiv_rmul; [wf_solve|intros; wf_solve| |apply mderiv_lmul; [auto|intros; wf_solve| |apply Dint_deriv; auto]]; pose proof (wfm_Dint n V Y x t); wf_solve.
  - unfold Lfam, Ex, conjd. set (P := Dint n V Y x t). assert (WP : wfm n n P) by apply wfm_Dint.
    mdistr n. f_equal.
    + rewrite <- (@mmul_assoc S n n n n _ (md V) V) by wf_solve. rewrite V1. now rewrite (@mmul_1_r S n n) by wf_solve.
    + rewrite V2. now rewrite (@mmul_1_l S n n) by wf_solve.
Qed.
Lemma Lfam_0 n V Y x : munitary n V -> wfm n n Y -> Lfam n V Y x 0%R = mzero (S:=S) n n.
Proof.
  intros HV WY. pose proof (munitary_wf HV) as WV. unfold Lfam.
  replace (Dint n V Y x 0) with (mzero (S:=S) n n).
  - rewrite (@mmul_0_r S n n n) by auto. now rewrite (@mmul_0_l S n n n) by wf_solve.
  - apply (@mat_ext S n n); [wf_solve|wf_solve|]. intros i j Hi Hj. unfold Dint. rewrite mg_mzero, mg_mk2 by auto.
    unfold phi. change (cofk (F:=RField) 0%R) with (c0 : C).
    destruct (ceqb (x i) (x j)) eqn:E; [cring|].
    assert (N : csub (x j) (x i) <> c0).
    { intros Z. apply csub_eq0 in Z. symmetry in Z. apply ceqb_eq in Z. congruence. }
    replace (cmul c0 (x j)) with (c0 : C) by ring. replace (cmul c0 (x i)) with (c0 : C) by ring.
    tocplx. field. exact N.
Qed.

Lemma Ex_solves n V x : munitary n V -> solves n (conjd n V x) (Ex n V x).
Proof.
  intros HV. pose proof (munitary_wf HV) as WV. split; [intros; now apply wfm_conjd|split].
  - rewrite <- (conjd_one HV). apply conjd_ext; auto. intros k Hk. rewrite <- cexpR_0. f_equal.
    change (cofk (F:=RField) 0%R) with (c0 : C). ring.
  - intros t i j Hi Hj. unfold Ex. rewrite (conjd_mul _ _ HV).
    eapply cderiv_ext; [intros s; symmetry; apply (mg_conjd _ WV Hi Hj)|].
    rewrite (mg_conjd _ WV Hi Hj).
    apply (cderiv_sumn (fun k s => cmul (cmul (mg V i k) (cexpR (cmul (cofk (s:RField)) (x k)))) (cconj (mg V j k)))).
    intros k Hk. apply cderiv_scale_r. apply cderiv_scale. apply cderiv_exp.
Qed.
Lemma Ex_mul n V x a b : munitary n V -> mm (Ex n V x a) (Ex n V x b) = Ex n V x (a + b)%R.
Proof.
  intros HV. unfold Ex. rewrite (conjd_mul _ _ HV). apply conjd_ext; [apply HV|]. intros k Hk.
  rewrite <- cexpR_add. f_equal. change (cofk (F:=RField) (a + b)%R) with (cofk (F:=RField) (kadd (o:=RField) a b)).
  rewrite cofk_add. ring.
Qed.
Lemma Ex_inv n V x t : munitary n V -> mm (Ex n V x t) (Ex n V x (- t)%R) = mid (S:=S) n.
Proof.
  intros HV. rewrite (Ex_mul x _ _ HV). replace (t + - t)%R with 0%R by lra. apply (Ex_solves x HV).
Qed.
(** derivative of t -> E(-t) *)
Lemma Ex_opp_deriv n V x t : munitary n V ->
  mderiv n (fun s => Ex n V x (- s)%R) t (mscale (S:=S) (copp c1) (mm (Ex n V x (- t)%R) (conjd n V x))).
Proof.
  intros HV i j Hi Hj. pose proof (munitary_wf HV) as WV. destruct (Ex_solves x HV) as (WE & _ & HD).
  assert (Wc : wfm n n (conjd n V x)) by now apply wfm_conjd.
  mglin. eapply cderiv_eq; [|apply (@cderiv_comp_opp (fun r => mg (Ex n V x r) i j)); apply (HD (- t)%R); auto].
  replace (mm (Ex n V x (- t)%R) (conjd n V x)) with (mm (conjd n V x) (Ex n V x (- t)%R)); [cring|].
  unfold Ex. rewrite !(conjd_mul _ _ HV). apply conjd_ext; auto. intros; ring.
Qed.

Lemma bnd_msub_0 n c : (0 <= c)%R -> bnd n c (mzero (S:=S) n n).
Proof. intros Hc i j Hi Hj. rewrite mg_mzero by auto. cbn. rewrite Rabs_R0. lra. Qed.

(** the derivative of the exponential *)
Lemma frechet_bound n V (x : nat -> C) Y :
  munitary n V -> (forall k, k < n -> cconj (x k) = copp (x k)) ->
  wfm n n Y -> md Y = mscale (S:=S) (copp c1) Y ->
  exists c, (0 <= c)%R /\ forall s Es, solves n (madd (S:=S) (conjd n V x) (mscale (S:=S) (cofk (s:RField)) Y)) Es ->
    bnd n (Rabs s * (Rabs s * c))
      (msub (S:=S) (msub (S:=S) (Es 1%R) (Ex n V x 1)) (mscale (S:=S) (cofk (s:RField)) (Lfam n V Y x 1))).
Proof.
  intros HV Hx WY HY. pose proof (munitary_wf HV) as WV.
  set (X := conjd n V x) in *. set (E := Ex n V x) in *.
  assert (WX : wfm n n X) by now apply wfm_conjd.
  destruct (Ex_solves x HV) as (WE & E0 & ED). fold E X in WE, E0, ED.
  assert (WL : forall t, wfm n n (Lfam n V Y x t)) by (intros; now apply wfm_Lfam).
  assert (Uexp : forall t, munitary n (E t)).
  { intros t. apply conjd_unitary; auto. intros k Hk. rewrite <- cexpR_conj, <- cexpR_add.
    rewrite <- cexpR_0. f_equal. rewrite cconj_mul, cofk_conj, (Hx k Hk). ring. }
  assert (HX : md X = mscale (S:=S) (copp c1) X).
  { unfold X. rewrite (conjd_dag _ WV). apply (@mat_ext S n n); [now apply wfm_conjd|apply wfm_mscale; now apply wfm_conjd|].
    intros i j Hi Hj. erewrite mg_mscale by (first [now apply wfm_conjd|assumption]).
    rewrite !(mg_conjd _ WV) by auto. tocplx. rewrite csumn_mul_l. apply sumn_ext. intros k Hk. rewrite (Hx k Hk). cring. }
  destruct (bnd_exists n Y) as (y & Hy & BY).
  set (N := INR n). assert (HN : (0 <= N)%R) by apply pos_INR.
  set (c1' := (N * (2 * (1 * (N * (2 * (y * 1))))))%R).
  assert (Hc1 : (0 <= c1')%R) by (unfold c1'; repeat (apply Rmult_le_pos; try lra)).
  set (c2 := (N * (2 * (1 * c1')))%R).
  assert (Hc2 : (0 <= c2)%R) by (unfold c2; repeat (apply Rmult_le_pos; try lra)).
  set (c3 := (N * (2 * (1 * (N * (2 * (y * c2))))))%R).
  assert (Hc3 : (0 <= c3)%R) by (unfold c3; repeat (apply Rmult_le_pos; try lra)).
  set (c4 := (N * (2 * (1 * c3)))%R).
  assert (Hc4 : (0 <= c4)%R) by (unfold c4; repeat (apply Rmult_le_pos; try lra)).
  exists c4. split; auto. intros s Es HEs.
  assert (WEs : forall t, wfm n n (Es t)) by apply HEs.
  (* entries of Es are bounded by one *)
  assert (BEs : forall t, bnd n 1 (Es t)).
  { intros t. assert (W : wfm n n (madd (S:=S) X (mscale (S:=S) (cofk (s:RField)) Y))) by wf_solve.
    assert (G : md (madd (S:=S) X (mscale (S:=S) (cofk (s:RField)) Y)) =
                mscale (S:=S) (copp c1) (madd (S:=S) X (mscale (S:=S) (cofk (s:RField)) Y))).
    { rewrite (@mdag_madd S n n) by wf_solve. rewrite (@mdag_mscale S n n) by wf_solve. rewrite HX, HY.
      apply (@mat_ext S n n); [wf_solve|wf_solve|]. intros i j Hi Hj. mglin. tocplx. rewrite cofk_conj. ring. }
    pose proof (@solves_unitary n _ Es t W G HEs) as U. intros i j Hi Hj.
    assert (Hn : (cnorm2 (mg (Es t) i j) <= 1)%R).
    { assert (H : kle (F:=RField) (cnorm2 (mg (Es t) i j)) k1).
      { replace (k1 : RField) with (sumn (S:=KStar RField) n (fun a => cnorm2 (mg (Es t) a j))).
        - apply (@ksumn_ge_term RField n (fun a => cnorm2 (mg (Es t) a j)) i); auto. intros; apply cnorm2_nonneg.
        - apply cofk_inj. rewrite cofk_sumn. pose proof (f_equal (fun M => mg M j j) U) as Ej. cbn beta in Ej.
          revert Ej. rewrite (@mg_mmul S n n n) by (auto; wf_solve). rewrite mg_mid by auto. unfold kd. rewrite Nat.eqb_refl.
          intros Ej. etransitivity; [|exact Ej]. apply sumn_ext. intros a Ha. rewrite (@mg_mdag S n n) by auto.
          tocplx. now rewrite <- cconj_mul_norm2. }
      unfold kle in H. cbn in H. now apply r_leb_le in H. }
    revert Hn. generalize (mg (Es t) i j). intros z Hn. unfold cnorm2 in Hn. unfold cre, cim.
    change (@kmul RField) with Rmult in Hn. change (@kadd RField) with Rplus in Hn. destruct z as [a b].
    cbn [fst snd] in *. change (kcar RField) with R in a, b. split; apply Rsqr_le_abs; nra. }
  (* step 1: P_s(t) = E(-t) (E_s(t) - E(t)) is bounded by |s| c1 *)
  assert (B1 : forall t, (0 <= t <= 1)%R -> bnd n (Rabs s * c1') (mm (E (- t)%R) (msub (S:=S) (Es t) (E t)))).
  { apply (@bnd_mvt n (Rabs s * c1') (fun t => mm (E (- t)%R) (msub (S:=S) (Es t) (E t)))
       (fun t => mscale (S:=S) (cofk (s:RField)) (mm (E (- t)%R) (mm Y (Es t))))).
    - apply Rmult_le_pos; auto using Rabs_pos.
    - intros i j Hi Hj. destruct HEs as (_ & -> & _). rewrite E0, (@msub_diag S n n) by wf_solve.
      rewrite (@mmul_0_r S n n n) by auto. now rewrite mg_mzero.
    - intros t i j Hi Hj. destruct HEs as (_ & _ & Ds).
      assert (W1 : wfm n n (E (-t)%R)) by auto. assert (W2 := WEs t). assert (W3 := WE t).
      pose proof (mderiv_mul (G := fun t => E (- t)%R) (H := fun t => msub (S:=S) (Es t) (E t)) (n := n) (t := t)
        (Ex_opp_deriv x t HV) (mderiv_sub (Ds t) (ED t) ltac:(auto) ltac:(wf_solve))
        ltac:(intros; apply WE) ltac:(intros; apply wfm_msub; auto) ltac:(fold E X; wf_solve) ltac:(wf_solve)) as M. fold E X in M.
      eapply cderiv_eq; [|apply (M i j Hi Hj)]. mdistr n. mglin. cring.
    - intros t Ht. apply bnd_scale; [assert (W2 := WEs t); wf_solve|].
      unfold c1'. apply bnd_mul; auto; try lra.
      + repeat (apply Rmult_le_pos; try lra).
      + apply wfm_mmul with n; auto.
      + now apply bnd_unitary.
      + apply bnd_mul; auto; lra. }
  assert (B2 : forall t, (0 <= t <= 1)%R -> bnd n (Rabs s * c2) (msub (S:=S) (Es t) (E t))).
  { intros t Ht.
    replace (msub (S:=S) (Es t) (E t)) with (mm (E t) (mm (E (- t)%R) (msub (S:=S) (Es t) (E t)))).
    - replace (Rabs s * c2)%R with (N * (2 * (1 * (Rabs s * c1'))))%R by (unfold c2; ring).
      apply bnd_mul; auto; try lra.
      + apply Rmult_le_pos; auto using Rabs_pos.
      + apply wfm_mmul with n; auto. apply wfm_msub; auto.
      + now apply bnd_unitary.
    - assert (W2 := WEs t). rewrite (@mmul_assoc S n n n n) by (auto; wf_solve). unfold E. rewrite (Ex_inv x t HV).
      apply (@mmul_1_l S n n). wf_solve. }
  set (Rm := fun t => msub (S:=S) (msub (S:=S) (Es t) (E t)) (mscale (S:=S) (cofk (s:RField)) (Lfam n V Y x t))).
  assert (WR : forall t, wfm n n (Rm t)).
  { intros t. unfold Rm. assert (W2 := WEs t). wf_solve. }
  (* step 2: the remainder is quadratic *)
  assert (B3 : bnd n (Rabs s * (Rabs s * c3)) (mm (E (Ropp 1)) (Rm 1%R))).
  { apply (@bnd_mvt n (Rabs s * (Rabs s * c3)) (fun t => mm (E (- t)%R) (Rm t))
       (fun t => mscale (S:=S) (cofk (s:RField)) (mm (E (- t)%R) (mm Y (msub (S:=S) (Es t) (E t)))))); [| | | |lra].
    - repeat (apply Rmult_le_pos; auto using Rabs_pos).
    - intros i j Hi Hj. unfold Rm. destruct HEs as (_ & -> & _). rewrite E0, (@msub_diag S n n) by wf_solve.
      rewrite (Lfam_0 x HV WY).
      replace (msub (S:=S) (mzero (S:=S) n n) (mscale (S:=S) (cofk (s:RField)) (mzero (S:=S) n n))) with (mzero (S:=S) n n).
      + rewrite (@mmul_0_r S n n n) by auto. now rewrite mg_mzero.
      + apply (@mat_ext S n n); [wf_solve|wf_solve|]. intros a b Ha Hb. mglin. cring.
    - intros t i j Hi Hj. destruct HEs as (_ & _ & Ds).
      assert (W1 : wfm n n (E (-t)%R)) by auto. assert (W2 := WEs t). assert (W3 := WE t). assert (W4 := WL t).
      pose proof (mderiv_sub (mderiv_sub (Ds t) (ED t) ltac:(auto) ltac:(wf_solve))
          (mderiv_scale (cofk (s:RField)) (Lfam_deriv x t HV WY) ltac:(auto) ltac:(fold X; fold E; wf_solve))
          ltac:(intros; apply wfm_msub; auto) ltac:(wf_solve)) as DR.
      pose proof (mderiv_mul (G := fun t => E (- t)%R) (H := Rm) (n := n) (t := t)
        (Ex_opp_deriv x t HV) DR ltac:(intros; apply WE) ltac:(intros; apply WR) ltac:(fold E X; wf_solve) ltac:(fold X; fold E; wf_solve)) as M.
      fold E X in M. eapply cderiv_eq; [|apply (M i j Hi Hj)]. unfold Rm. fold (E t). mdistr n. mglin. cring.
    - intros t Ht. assert (W2 := WEs t). assert (W3 := WE t). apply bnd_scale; [wf_solve|].
      replace (Rabs s * c3)%R with (N * (2 * (1 * (N * (2 * (y * (Rabs s * c2)))))))%R by (unfold c3; ring).
      assert (0 <= Rabs s * c2)%R by (apply Rmult_le_pos; auto using Rabs_pos).
      apply bnd_mul; auto; try lra.
      + repeat (apply Rmult_le_pos; try lra; auto).
      + wf_solve.
      + now apply bnd_unitary.
      + apply bnd_mul; auto. wf_solve. }
  assert (B4 : bnd n (Rabs s * (Rabs s * c4)) (Rm 1%R)).
  { replace (Rm 1%R) with (mm (E 1%R) (mm (E (Ropp 1)) (Rm 1%R))).
    - replace (Rabs s * (Rabs s * c4))%R with (N * (2 * (1 * (Rabs s * (Rabs s * c3)))))%R by (unfold c4; ring).
      apply bnd_mul; auto; try lra.
      + repeat (apply Rmult_le_pos; auto using Rabs_pos).
      + apply wfm_mmul with n; auto.
      + now apply bnd_unitary.
    - assert (W2 := WR 1%R). rewrite (@mmul_assoc S n n n n) by auto. unfold E. rewrite (Ex_inv x 1 HV).
      apply (@mmul_1_l S n n). auto. }
  exact B4.
Qed.

Lemma frechet_limit n V (x : nat -> C) Y (Es : R -> op) :
  munitary n V -> (forall k, k < n -> cconj (x k) = copp (x k)) ->
  wfm n n Y -> md Y = mscale (S:=S) (copp c1) Y ->
  (forall s, exists Z, solves n (madd (S:=S) (conjd n V x) (mscale (S:=S) (cofk (s:RField)) Y)) Z /\ Z 1%R = Es s) ->
  mderiv n Es 0 (Lfam n V Y x 1).
Proof.
  intros HV Hx WY HY HEs. pose proof (munitary_wf HV) as WV.
  destruct (frechet_bound x HV Hx WY HY) as (c4 & Hc4 & B).
  set (E := Ex n V x) in *.
  destruct (Ex_solves x HV) as (WE & _ & _). fold E in WE.
  assert (WL : forall t, wfm n n (Lfam n V Y x t)) by (intros; now apply wfm_Lfam).
  assert (WEs : forall s, wfm n n (Es s)) by (intros s; destruct (HEs s) as (Z & (W & _) & <-); apply W).
  assert (B4 : forall s, bnd n (Rabs s * (Rabs s * c4))
     (msub (S:=S) (msub (S:=S) (Es s) (E 1%R)) (mscale (S:=S) (cofk (s:RField)) (Lfam n V Y x 1)))).
  { intros s. destruct (HEs s) as (Z & HZ & <-). now apply B. }
  (* E_0 = E *)
  assert (Es0 : forall i j, i < n -> j < n -> mg (Es 0%R) i j = mg (E 1%R) i j).
  { intros i j Hi Hj. destruct (B4 0%R i j Hi Hj) as [Q1 Q2]. assert (W2 := WEs 0%R).
    assert (W3 := WE 1%R). assert (W4 := WL 1%R).
    rewrite Rabs_R0 in Q1, Q2. revert Q1 Q2. rewrite (@mg_msub S n n) by (auto; wf_solve). rewrite (@mg_msub S n n) by auto.
    rewrite (@mg_mscale S n n) by auto. tocplx.
    generalize (mg (Es 0%R) i j) (mg (E 1%R) i j) (mg (Lfam n V Y x 1) i j). intros [a b] [a' b'] [a'' b''].
    unfold csub, cmul, cofk, cre, cim. cbn [fst snd].
    change (@ksub RField) with Rminus. change (@kadd RField) with Rplus. change (@kmul RField) with Rmult.
    change (@k0 RField) with 0%R. change (kcar RField) with R in *. intros Q1 Q2.
    replace (a - a' - (0 * a'' - 0 * b''))%R with (a - a')%R in Q1 by ring.
    replace (b - b' - (0 * b'' + 0 * a''))%R with (b - b')%R in Q2 by ring.
    pose proof (Rabs_pos (a - a')). pose proof (Rabs_pos (b - b')).
    assert (Z1 : Rabs (a - a') = 0%R) by lra. assert (Z2 : Rabs (b - b') = 0%R) by lra.
    f_equal.
    - destruct (Req_dec (a - a') 0) as [z|z]; [lra|]. apply Rabs_no_R0 in z. contradiction.
    - destruct (Req_dec (b - b') 0) as [z|z]; [lra|]. apply Rabs_no_R0 in z. contradiction. }
  (* conclusion *)
  assert (fin : forall (f : R -> R) (l : R), (forall s, (Rabs (f s - f 0 - s * l) <= Rabs s * (Rabs s * c4))%R) ->
     derivable_pt_lim f 0 l).
  { intros f l H eps He. assert (Hd : (0 < eps / (c4 + 1))%R) by (apply Rdiv_lt_0_compat; lra).
    exists (mkposreal _ Hd). intros h Hh Hh2. cbn in Hh2. rewrite Rplus_0_l.
    specialize (H h). replace ((f h - f 0) / h - l)%R with ((f h - f 0 - h * l) / h)%R by (field; auto).
    unfold Rdiv. rewrite Rabs_mult, Rabs_inv.
    assert (Ph : (0 < Rabs h)%R) by now apply Rabs_pos_lt.
    apply Rle_lt_trans with (Rabs h * c4)%R.
    - apply Rmult_le_reg_r with (Rabs h); auto. rewrite Rmult_assoc, Rinv_l by lra. lra.
    - assert (Rabs h * (c4 + 1) < eps)%R; [|nra].
      apply Rmult_lt_reg_r with (/ (c4 + 1))%R; [apply Rinv_0_lt_compat; lra|].
      rewrite Rmult_assoc, Rinv_r by lra. rewrite Rmult_1_r. exact Hh2. }
  intros i j Hi Hj. 
  assert (K : forall s, (Rabs (cre (mg (Es s) i j) - cre (mg (Es 0%R) i j) - s * cre (mg (Lfam n V Y x 1) i j)) <= Rabs s * (Rabs s * c4))%R
     /\ (Rabs (cim (mg (Es s) i j) - cim (mg (Es 0%R) i j) - s * cim (mg (Lfam n V Y x 1) i j)) <= Rabs s * (Rabs s * c4))%R).
  { intros s. destruct (B4 s i j Hi Hj) as [Q1 Q2]. revert Q1 Q2.  assert (W2 := WEs s). assert (W4 := WL 1%R).
    assert (W3 := WE 1%R).
    rewrite (@mg_msub S n n) by (auto; wf_solve). rewrite (@mg_msub S n n) by auto. rewrite (@mg_mscale S n n) by auto.
    rewrite <- Es0 by auto. tocplx.
    generalize (mg (Es s) i j) (mg (Es 0%R) i j) (mg (Lfam n V Y x 1) i j). intros [a b] [a' b'] [a'' b''].
    unfold csub, cmul, cofk, cre, cim. cbn [fst snd]. change (@ksub RField) with Rminus. change (@kadd RField) with Rplus.
    change (@kmul RField) with Rmult. change (@k0 RField) with 0%R. change (kcar RField) with R in *. intros Q1 Q2.
    replace (s * a'' - 0 * b'')%R with (s * a'')%R in Q1 by ring.
    replace (s * b'' + 0 * a'')%R with (s * b'')%R in Q2 by ring. split; assumption. }
  split.
  - apply (fin (fun s => cre (mg (Es s) i j))). intros s. apply K.
  - apply (fin (fun s => cim (mg (Es s) i j))). intros s. apply K.
Qed.
End P.
