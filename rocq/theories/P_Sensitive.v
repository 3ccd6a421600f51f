(** Proofs for C84, part 1: lengths, limited matrices, the distance of two exponentials. *)
Require Import List Arith Lia Bool Reals Lra.
From Verif Require Import LibBase LibRing LibArr LibCplx LibMat LibNorm LibDeriv LibSeries M_Matrix S_Linear S_Deriv S_Exp P_Linear P_Matrix P_Frechet P_Mexp P_Mexp2 M_OpHeap M_Transfer S_Transfer M_Amplitude S_Amplitude M_Solver S_Solver S_Lindblad S_Invariance P_Invariance S_Sensitive.
Import ListNotations.
Local Open Scope res_scope.
Set Implicit Arguments.

Section Sens.
Add Field Cfield_sen : (c_field RField).
Notation op := (op RField).
Notation mm := (mmul (S:=RS)).
Notation ma := (madd (S:=RS)).
Notation ms := (mscale (S:=RS)).
Notation mb := (msub (S:=RS)).
Notation md := (mdag (S:=RS)).
Notation vec := (nat -> RC).
Notation Sg := (sumn (S:=RS)).
Hint Resolve wfm_mexp wfm_mpw : wfm.
Notation norm2 := (vnorm2 (F:=RField)).
Notation inner := (vinner (F:=RField)).
Definition mv (n : nat) (A : op) (v : vec) (i : nat) : RC := Sg n (fun j => cmul (mg (A : mat RS) i j) (v j)).

Lemma norm2_pos n v : (0 <= norm2 n v)%R.
Proof. apply r_leb_le. exact (@vnorm2_nonneg RField n v). Qed.
Lemma size_pos n v : (0 <= size n v)%R.
Proof. apply sqrt_pos. Qed.
Lemma size_sq n v : (size n v * size n v)%R = norm2 n v.
Proof. apply sqrt_sqrt. apply norm2_pos. Qed.
Lemma norm2_ext n v w : (forall i, i < n -> v i = w i) -> norm2 n v = norm2 n w.
Proof. intros H. unfold vnorm2. apply sumn_ext. intros i Hi. now rewrite H. Qed.
Lemma size_ext n v w : (forall i, i < n -> v i = w i) -> size n v = size n w.
Proof. intros H. unfold size. f_equal. now apply norm2_ext. Qed.
Lemma size_le n v K : (0 <= K)%R -> (norm2 n v <= K * K)%R -> (size n v <= K)%R.
Proof. intros HK H. unfold size. rewrite <- (sqrt_square K HK). now apply sqrt_le_1_alt. Qed.
Lemma cre_norm (z : RC) : (cre z * cre z <= cnorm2 z)%R.
Proof. destruct z as [a b]. unfold cnorm2, cre. cbn. nra. Qed.
Lemma cs n a b : (cnorm2 (inner n a b) <= norm2 n a * norm2 n b)%R.
Proof. apply r_leb_le. exact (@cauchy_schwarz RField n a b). Qed.
Lemma cs_re n a b : (Rabs (cre (inner n a b)) <= size n a * size n b)%R.
Proof.
  apply Rsqr_incr_0; [|apply Rabs_pos|apply Rmult_le_pos; apply size_pos]. rewrite <- Rsqr_abs. unfold Rsqr.
  replace (size n a * size n b * (size n a * size n b))%R with (size n a * size n a * (size n b * size n b))%R by ring. rewrite !size_sq.
  eapply Rle_trans; [apply cre_norm|apply cs].
Qed.
Lemma cs_abs n a b : (sqrt (cnorm2 (inner n a b)) <= size n a * size n b)%R.
Proof.
  rewrite <- (sqrt_square (size n a * size n b)) by (apply Rmult_le_pos; apply size_pos). apply sqrt_le_1_alt.
  replace (size n a * size n b * (size n a * size n b))%R with (size n a * size n a * (size n b * size n b))%R by ring. rewrite !size_sq. apply cs.
Qed.
Lemma norm2_add n a b : norm2 n (fun i => cadd (a i) (b i)) = (norm2 n a + norm2 n b + 2 * cre (inner n a b))%R.
Proof.
  unfold vnorm2, vinner. induction n; cbn [sumn]; [cbn; lra|]. rewrite IHn. set (P := sumn n (fun i => cmul (cconj (a i)) (b i))). clearbody P. destruct P as [p q], (a n) as [x y], (b n) as [u v].
  unfold cnorm2, cadd, cmul, cconj, cre. cbn. lra.
Qed.
Lemma size_add n a b : (size n (fun i => cadd (a i) (b i)) <= size n a + size n b)%R.
Proof.
  apply size_le; [pose proof (size_pos n a); pose proof (size_pos n b); lra|]. rewrite norm2_add. replace ((size n a + size n b) * (size n a + size n b))%R with (size n a * size n a + size n b * size n b + 2 * (size n a * size n b))%R by ring.
  rewrite !size_sq. pose proof (cs_re n a b) as H. pose proof (Rle_abs (cre (inner n a b))). lra.
Qed.
Lemma size_scale n (z : RC) a : size n (fun i => cmul z (a i)) = (sqrt (cnorm2 z) * size n a)%R.
Proof.
  unfold size. rewrite <- sqrt_mult; [|destruct z; unfold cnorm2; cbn; nra|apply norm2_pos]. f_equal. induction n; cbn [sumn]; [cbn; lra|]. rewrite IHn.
  match goal with |- context [(cnorm2 z * sumn ?m ?f)%R] => set (P := sumn (S:=KStar RField) m f) end. destruct z as [x y], (a n) as [u v]. unfold cnorm2, cmul. cbn in *. lra.
Qed.
Lemma size_0 n : size n (fun _ => c0) = 0%R.
Proof. unfold size. replace (sumn (S:=KStar RField) n (fun _ => cnorm2 (c0 : RC))) with 0%R; [apply sqrt_0|]. induction n; cbn [sumn]; auto. rewrite <- IHn. unfold cnorm2. cbn. lra. Qed.

(** ---- matrices and vectors ---- *)
Lemma mv_mm n A B v i : wfm n n A -> wfm n n B -> i < n -> mv n (mm A B) v i = mv n A (mv n B v) i.
Proof.
  intros WA WB Hi. unfold mv. transitivity (Sg n (fun j => Sg n (fun l => cmul (cmul (mg (A : mat RS) i l) (mg (B : mat RS) l j)) (v j)))).
  - apply sumn_ext. intros j Hj. rewrite (@mg_mmul RS n n n) by auto. now rewrite csumn_mul_r.
  - rewrite (@sumn_swap RS). apply sumn_ext. intros l Hl. rewrite csumn_mul_l. apply sumn_ext. intros j Hj. cring.
Qed.
Lemma mv_ext n A v w i : (forall j, j < n -> v j = w j) -> mv n A v i = mv n A w i.
Proof. intros H. unfold mv. apply sumn_ext. intros j Hj. now rewrite H. Qed.
Lemma mv_id n v i : i < n -> mv n (mid (S:=RS) n) v i = v i.
Proof.
  intros Hi. unfold mv. rewrite (@sumn_single RS n i _ Hi).
  - rewrite (@mg_mid RS) by auto. unfold kd. rewrite Nat.eqb_refl. cring.
  - intros j Hj N. rewrite (@mg_mid RS) by auto. unfold kd. destruct (Nat.eqb_spec i j); [congruence|]. cring.
Qed.
Lemma inner_mv n A a b : wfm n n A -> inner n a (mv n A b) = inner n (mv n (md A) a) b.
Proof.
  intros WA. unfold vinner, mv. transitivity (Sg n (fun i => Sg n (fun j => cmul (cconj (a i)) (cmul (mg (A : mat RS) i j) (b j))))).
  - apply sumn_ext. intros i Hi. now rewrite csumn_mul_l.
  - rewrite (@sumn_swap RS). apply sumn_ext. intros j Hj. rewrite csumn_conj, csumn_mul_r. apply sumn_ext. intros i Hi. rewrite (@mg_mdag RS n n) by auto. tocplx. rewrite cconj_mul, cconj_cconj. cring.
Qed.
Lemma inner_ext n a b b' : (forall i, i < n -> b i = b' i) -> inner n a b = inner n a b'.
Proof. intros H. unfold vinner. apply sumn_ext. intros i Hi. now rewrite H. Qed.
Lemma inner_ext_l n a a' b : (forall i, i < n -> a i = a' i) -> inner n a b = inner n a' b.
Proof. intros H. unfold vinner. apply sumn_ext. intros i Hi. now rewrite H. Qed.
Lemma size_unitary n U v : munitary (S:=RS) n U -> size n (mv n U v) = size n v.
Proof.
  intros (WU & U1 & _). unfold size. f_equal. assert (E : cofk (norm2 n (mv n U v) : RField) = cofk (norm2 n v : RField)).
  { rewrite !vnorm2_inner. rewrite inner_mv by auto. apply inner_ext_l. intros i Hi. rewrite <- mv_mm by (auto; wf_solve). rewrite U1. now apply mv_id. }
  injection E as E. exact E.
Qed.
Lemma mv_sub n A B v i : wfm n n A -> wfm n n B -> i < n -> mv n (mb A B) v i = csub (mv n A v i) (mv n B v i).
Proof. intros WA WB Hi. unfold mv. rewrite csumn_sub. apply sumn_ext. intros j Hj. rewrite (@mg_msub RS n n) by auto. cring. Qed.
Lemma mv_vsub n A v w i : mv n A (fun j => csub (v j) (w j)) i = csub (mv n A v i) (mv n A w i).
Proof. unfold mv. rewrite csumn_sub. apply sumn_ext. intros j Hj. cring. Qed.

(** ---- the distance of two exponentials ---- *)
Definition skew n (X : op) := wfm n n X /\ md X = ms (copp c1) X.
Lemma skew_unitary n X (W : wfm n n X) t : skew n X -> munitary (S:=RS) n (mexp W t).
Proof.
  intros [_ H]. assert (E : mm (md (mexp W t)) (mexp W t) = mid (S:=RS) n) by (apply (@solves_unitary n X (mexp W) t W H); apply mexp_solves).
  split; [auto with wfm|]. split; auto.
  assert (E' : md (mexp W t) = mexp W (- t)%R).
  { transitivity (mm (md (mexp W t)) (mm (mexp W t) (mexp W (- t)%R))); [rewrite mexp_inv'; symmetry; apply (@mmul_1_r RS n n); wf_solve|].
    rewrite (@mmul_assoc RS n n n n) by wf_solve. rewrite E. apply (@mmul_1_l RS n n). wf_solve. }
  rewrite E'. apply mexp_inv'.
Qed.
Lemma mexp_apart n X Y (WX : wfm n n X) (WY : wfm n n Y) K v : skew n X -> skew n Y -> limited n K (fun i j => mg (mb Y X : mat RS) i j) ->
  (size n (fun i => csub (mv n (mexp WY 1) v i) (mv n (mexp WX 1) v i)) <= K * size n v)%R.
Proof.
  intros SX SY [HK HL]. set (P := fun s => mm (mexp WX (- s)%R) (mexp WY s)).
  assert (WP : forall s, wfm n n (P s)) by (intros; unfold P; wf_solve).
  assert (DP : forall t, mderiv n P t (mm (mexp WX (- t)%R) (mm (mb Y X) (mexp WY t)))).
  { intros t. pose proof (mderiv_mul (mexp_opp_deriv WX t) (mexp_deriv WY t) ltac:(intros; cbn beta; wf_solve) ltac:(intros; wf_solve) ltac:(wf_solve) ltac:(wf_solve)) as M.
    eapply mderiv_eq; [|exact M]. apply (@mat_ext RS n n); [wf_solve|wf_solve|]. intros i j Hi Hj. mdistr n. mglin. cring. }
  set (a := fun i => csub (mv n (P 1%R) v i) (v i)).
  assert (Ha : size n (fun i => csub (mv n (mexp WY 1) v i) (mv n (mexp WX 1) v i)) = size n a).
  { rewrite <- (size_unitary a (skew_unitary WX 1 SX)). apply size_ext. intros i Hi. unfold a. rewrite mv_vsub. f_equal. rewrite <- mv_mm by (auto; wf_solve). unfold P.
    rewrite (@mmul_assoc RS n n n n) by wf_solve. rewrite mexp_inv'. now rewrite (@mmul_1_l RS n n) by wf_solve. }
  rewrite Ha. set (g := fun s => cre (inner n a (mv n (P s) v))).
  assert (Dg : forall c, derivable_pt_lim g c (cre (inner n a (mv n (mm (mexp WX (- c)%R) (mm (mb Y X) (mexp WY c))) v)))).
  { intros c. unfold g. assert (CD : cderiv (fun s => inner n a (mv n (P s) v)) c (inner n a (mv n (mm (mexp WX (- c)%R) (mm (mb Y X) (mexp WY c))) v))).
    { unfold vinner, mv. apply (cderiv_sumn (fun i s => cmul (cconj (a i)) (Sg n (fun j => cmul (mg (P s : mat RS) i j) (v j))))). intros i Hi. apply cderiv_scale.
      apply (cderiv_sumn (fun j s => cmul (mg (P s : mat RS) i j) (v j))). intros j Hj. apply cderiv_scale_r. now apply DP. }
    apply CD. }
  destruct (MVT_cor2 g _ 0 1 Rlt_0_1 (fun c _ => Dg c)) as (c & Ec & _).
  assert (E1 : (g 1 - g 0)%R = norm2 n a).
  { unfold g. assert (E : csub (inner n a (mv n (P 1%R) v)) (inner n a (mv n (P 0%R) v)) = cofk (norm2 n a : RField)).
    { rewrite vnorm2_inner. rewrite <- vinner_sub_r. apply inner_ext. intros i Hi. unfold a at 1. f_equal. unfold P. rewrite Ropp_0, !mexp_0. rewrite (@mmul_1_l RS n n) by wf_solve. now apply mv_id. }
    apply f_equal with (f := cre) in E. exact E. }
  assert (B : (Rabs (cre (inner n a (mv n (mm (mexp WX (- c)%R) (mm (mb Y X) (mexp WY c))) v))) <= size n a * (K * size n v))%R).
  { eapply Rle_trans; [apply cs_re|]. apply Rmult_le_compat_l; [apply size_pos|].
    rewrite (size_ext _ (mv n (mexp WX (- c)%R) (mv n (mb Y X) (mv n (mexp WY c) v)))).
    2:{ intros i Hi. rewrite mv_mm by (auto; wf_solve). apply mv_ext. intros j Hj. apply mv_mm; auto; wf_solve. }
    rewrite (size_unitary _ (skew_unitary WX (- c)%R SX)). eapply Rle_trans; [apply HL|]. now rewrite (size_unitary _ (skew_unitary WY c SY)); right. }
  assert (Q : (size n a * size n a <= size n a * (K * size n v))%R).
  { rewrite size_sq, <- E1, Ec. eapply Rle_trans; [apply Rle_abs|]. rewrite Rminus_0_r, Rmult_1_r. exact B. }
  destruct (Req_dec (size n a) 0) as [Z|Z]; [rewrite Z; apply Rmult_le_pos; auto; apply size_pos|].
  apply Rmult_le_reg_l with (size n a); auto. pose proof (size_pos n a). lra.
Qed.
End Sens.
