(** Squared norms, Cauchy-Schwarz and the Hilbert-Schmidt inner product (library file). *)
Require Import List Arith Lia Ring Field Bool.
From Verif Require Import LibBase LibRing LibArr LibCplx LibMat S_Linear P_Linear.
Import ListNotations.
Set Implicit Arguments.

Section N.
Variable F : OField.
Add Field Ffield : (k_field F).
Add Field Cfield : (c_field F).
Notation S := (CStar F).
Notation K := (KStar F).
Notation C := (cplx F).
Local Open Scope k_scope.

Lemma kle_tr (x y z : F) : x <= y -> y <= z -> x <= z.
Proof. apply kle_trans. Qed.
Lemma kle_eq (x y : F) : x = y -> x <= y.
Proof. intros ->. apply kle_refl. Qed.
Lemma klt_le_nle (x y : F) : ~ x <= y -> y < x.
Proof. intros H. apply klt_nle. exact H. Qed.
Lemma klt_neq (x y : F) : x < y -> x <> y.
Proof. intros H E. subst. apply klt_nle in H. apply H. apply kle_refl. Qed.
Lemma kle_lt_eq (x y : F) : x <= y -> x <> y -> x < y.
Proof. intros H E. apply klt_nle. intros G. apply E. now apply kle_antisym. Qed.

Lemma kle_add_r (a b : F) : 0 <= a -> b <= a + b.
Proof. intros. apply kle_of_sub. now replace (a + b - b) with a by ring. Qed.
Lemma kle_add_l (a b : F) : 0 <= b -> a <= a + b.
Proof. intros. apply kle_of_sub. now replace (a + b - a) with b by ring. Qed.

(** x^2 <= 1 implies x <= 1 *)
Lemma ksqr_le1 (x : F) : x * x <= 1 -> x <= 1.
Proof.
  intros H. destruct (kle_dec x 1) as [L|L]; auto. exfalso.
  assert (P : 0 < (x - 1) * (x - 1)).
  { apply kle_lt_eq; [apply ksqr_nonneg|]. intros E. symmetry in E. apply ksqr_eq0 in E.
    apply (klt_neq L). replace x with (x - 1 + 1) by ring. rewrite E. ring. }
  apply klt_nle in P. apply P. apply kle_of_sub.
  replace (0 - (x - 1) * (x - 1)) with ((1 - x * x) + (x - 1) * (1 + 1)) by ring.
  apply kadd_nonneg. now apply ksub_nonneg. apply kmul_nonneg.
  - apply ksub_nonneg. now apply klt_le.
  - apply kadd_nonneg; apply k01.
Qed.
(** for x, y >= 0: x^2 <= y^2 implies x <= y *)
Lemma ksqr_le (x y : F) : 0 <= y -> x * x <= y * y -> x <= y.
Proof.
  intros Hy H. destruct (kle_dec x y) as [L|L]; auto. exfalso.
  assert (P : 0 < (x - y) * (x - y)).
  { apply kle_lt_eq; [apply ksqr_nonneg|]. intros E. symmetry in E. apply ksqr_eq0 in E.
    apply (klt_neq L). replace x with (x - y + y) by ring. rewrite E. ring. }
  apply klt_nle in P. apply P. apply kle_of_sub.
  replace (0 - (x - y) * (x - y)) with ((y * y - x * x) + (x - y) * (y + y)) by ring.
  apply kadd_nonneg. now apply ksub_nonneg. apply kmul_nonneg.
  - apply ksub_nonneg. now apply klt_le.
  - now apply kadd_nonneg.
Qed.
Lemma kle_cancel (c x y : F) : 0 < c -> c * x <= c * y -> x <= y.
Proof.
  intros Hc H. destruct (kle_dec x y) as [L|L]; auto. exfalso.
  assert (Hc0 : c <> 0) by (intros E; symmetry in E; now apply (klt_neq Hc)).
  apply (klt_neq L). apply kle_antisym. now apply klt_le.
  replace x with (kinv c * (c * x)) by (field; auto). replace y with (kinv c * (c * y)) by (field; auto).
  apply kle_mul_l; auto. apply kinv_nonneg; auto. now apply klt_le.
Qed.
Lemma klt_add_pos (x y : F) : 0 < x -> 0 <= y -> 0 < x + y.
Proof.
  intros H1 H2. apply kle_lt_eq. apply kadd_nonneg; auto. now apply klt_le.
  intros E. symmetry in E. destruct (ksum0 (klt_le H1) H2 E). apply (klt_neq H1). auto.
Qed.
Lemma kle_div (x y z : F) : 0 < z -> x <= y -> x / z <= y / z.
Proof.
  intros Hz H. assert (Z : z <> 0) by (intros E; symmetry in E; now apply (klt_neq Hz)).
  replace (x / z) with (kinv z * x) by (field; auto). replace (y / z) with (kinv z * y) by (field; auto).
  apply kle_mul_l; auto. apply kinv_nonneg; auto. now apply klt_le.
Qed.

Lemma csub_eq0 (x y : C) : csub x y = c0 -> x = y.
Proof. intros H. transitivity (cadd (csub x y) y); [ring|]. rewrite H. ring. Qed.

(** squared norm of the vector a_0 .. a_{n-1} *)
Definition vnorm2 n (a : nat -> C) : F := sumn (S:=K) n (fun i => cnorm2 (a i)).
(** inner product *)
Definition vinner n (a b : nat -> C) : C := sumn (S:=S) n (fun i => cmul (cconj (a i)) (b i)).

Lemma cnorm2_0 : cnorm2 (c0 : C) = 0.
Proof. unfold cnorm2, c0. simpl. ring. Qed.
Lemma cconj_mul_norm2 (x : C) : cmul (cconj x) x = cofk (cnorm2 x).
Proof. rewrite <- cmul_conj_norm2. ring. Qed.
Lemma vnorm2_nonneg n a : 0 <= vnorm2 n a.
Proof. apply (@ksumn_nonneg F). intros. apply cnorm2_nonneg. Qed.
Lemma vnorm2_inner n a : cofk (vnorm2 n a) = vinner n a a.
Proof.
  unfold vnorm2, vinner. rewrite cofk_sumn. apply sumn_ext. intros. now rewrite cconj_mul_norm2.
Qed.
Lemma vnorm2_0 n a : vnorm2 n a = 0 -> forall i, (i < n)%nat -> a i = c0.
Proof.
  intros H i Hi. apply cnorm2_eq0. revert i Hi. apply (@ksumn_eq0 F n (fun i => cnorm2 (a i))); auto.
  intros. apply cnorm2_nonneg.
Qed.
Lemma vinner_conj n a b : cconj (vinner n a b) = vinner n b a.
Proof.
  unfold vinner. rewrite csumn_conj. apply sumn_ext. intros. rewrite cconj_mul, cconj_cconj. tocplx. ring.
Qed.
Lemma vinner_scale_r n a b c : vinner n a (fun i => cmul c (b i)) = cmul c (vinner n a b).
Proof. unfold vinner. rewrite csumn_mul_l. apply sumn_ext. intros. tocplx. ring. Qed.
Lemma vinner_scale_l n a b c : vinner n (fun i => cmul c (a i)) b = cmul (cconj c) (vinner n a b).
Proof. unfold vinner. rewrite csumn_mul_l. apply sumn_ext. intros. rewrite cconj_mul. tocplx. ring. Qed.
Lemma vinner_sub_r n a b c : vinner n a (fun i => csub (b i) (c i)) = csub (vinner n a b) (vinner n a c).
Proof. unfold vinner. rewrite csumn_sub. apply sumn_ext. intros. tocplx. ring. Qed.
Lemma vinner_sub_l n a b c : vinner n (fun i => csub (a i) (b i)) c = csub (vinner n a c) (vinner n b c).
Proof.
  unfold vinner. rewrite csumn_sub. apply sumn_ext. intros. unfold csub.
  destruct (a i), (b i), (c i); unfold cmul, cconj; simpl; f_equal; ring.
Qed.

(** the residual identity behind Cauchy-Schwarz *)
Lemma cs_residual n a b :
  vnorm2 n (fun i => csub (cmul (cofk (vnorm2 n a)) (b i)) (cmul (vinner n a b) (a i))) =
  vnorm2 n a * (vnorm2 n a * vnorm2 n b - cnorm2 (vinner n a b)).
Proof.
  apply cofk_inj. rewrite vnorm2_inner.
  rewrite vinner_sub_l, !vinner_sub_r, !vinner_scale_l, !vinner_scale_r, cofk_conj.
  rewrite <- !vnorm2_inner. rewrite <- (vinner_conj n a b).
  set (A := vnorm2 n a). set (B := vnorm2 n b). set (s := vinner n a b).
  destruct s as [x y]. unfold cmul, csub, cofk, cconj, cnorm2. simpl. f_equal; ring.
Qed.
Lemma cauchy_schwarz n a b : cnorm2 (vinner n a b) <= vnorm2 n a * vnorm2 n b.
Proof.
  destruct (keq_dec (vnorm2 n a) 0) as [Z|Z].
  - assert (E : vinner n a b = c0).
    { unfold vinner. apply (sumn_0 (S:=S)). intros i Hi. rewrite (vnorm2_0 _ Z) by auto.
      destruct (b i). tocplx. unfold cmul, cconj, c0. simpl. f_equal; ring. }
    rewrite E, Z, cnorm2_0. apply kle_eq. ring.
  - apply kle_of_sub. apply (@kle_cancel (vnorm2 n a)).
    + apply kle_lt_eq; auto. apply vnorm2_nonneg.
    + rewrite <- cs_residual. replace (vnorm2 n a * 0) with (0:F) by ring. apply vnorm2_nonneg.
Qed.
Lemma cauchy_schwarz_eq n a b : cnorm2 (vinner n a b) = vnorm2 n a * vnorm2 n b ->
  forall i, (i < n)%nat -> cmul (cofk (vnorm2 n a)) (b i) = cmul (vinner n a b) (a i).
Proof.
  intros H i Hi. pose proof (cs_residual n a b) as R. rewrite H in R.
  replace (vnorm2 n a * (vnorm2 n a * vnorm2 n b - vnorm2 n a * vnorm2 n b)) with (0:F) in R by ring.
  pose proof (vnorm2_0 _ R Hi) as E. cbn beta in E.
  now apply csub_eq0.
Qed.

(** Hilbert-Schmidt inner product of m x n matrices *)
Definition hs m n (A B : mat S) : C := sumn (S:=S) m (fun i => sumn (S:=S) n (fun j => cmul (cconj (mg A i j)) (mg B i j))).
Definition hsnorm2 m n (A : mat S) : F := sumn (S:=K) m (fun i => sumn (S:=K) n (fun j => cnorm2 (mg A i j))).
Definition flat n (A : mat S) (k : nat) : C := mg A (k / n) (k mod n).

Lemma hs_flat m n A B : hs m n A B = vinner (m * n) (flat n A) (flat n B).
Proof.
  unfold hs, vinner. rewrite (sumn_mul_split (S:=S)). apply sumn_ext. intros i Hi. apply sumn_ext. intros j Hj.
  unfold flat. now rewrite div_join, mod_join by auto.
Qed.
Lemma hsnorm2_flat m n A : hsnorm2 m n A = vnorm2 (m * n) (flat n A).
Proof.
  unfold hsnorm2, vnorm2. rewrite (sumn_mul_split (S:=K)). apply sumn_ext. intros i Hi. apply sumn_ext. intros j Hj.
  unfold flat. now rewrite div_join, mod_join by auto.
Qed.
Lemma hs_cs m n A B : cnorm2 (hs m n A B) <= hsnorm2 m n A * hsnorm2 m n B.
Proof. rewrite hs_flat, !hsnorm2_flat. apply cauchy_schwarz. Qed.
Lemma hs_cs_eq m n A B : cnorm2 (hs m n A B) = hsnorm2 m n A * hsnorm2 m n B ->
  forall i j, (i < m)%nat -> (j < n)%nat -> cmul (cofk (hsnorm2 m n A)) (mg B i j) = cmul (hs m n A B) (mg A i j).
Proof.
  rewrite hs_flat, !hsnorm2_flat. intros H i j Hi Hj.
  pose proof (@cauchy_schwarz_eq _ _ _ H _ (join_lt Hi Hj)) as E. unfold flat in E.
  now rewrite div_join, mod_join in E by auto.
Qed.
Lemma hs_trace m n A B : wfm m n A -> wfm m n B -> mtrace (S:=S) (mmul (S:=S) (mdag (S:=S) A) B) = hs m n A B.
Proof.
  intros HA HB. rewrite (@mtrace_sq S n) by wf_solve. unfold hs. rewrite (sumn_swap (S:=S)).
  apply sumn_ext. intros j Hj. mgsimp. apply sumn_ext. intros i Hi. mgsimp. reflexivity.
Qed.
Lemma hsnorm2_hs m n A : cofk (hsnorm2 m n A) = hs m n A A.
Proof. rewrite hs_flat, hsnorm2_flat. apply vnorm2_inner. Qed.
Lemma hsnorm2_trace m n A : wfm m n A -> cofk (hsnorm2 m n A) = mtrace (S:=S) (mmul (S:=S) (mdag (S:=S) A) A).
Proof. intros H. rewrite (hs_trace H H). apply hsnorm2_hs. Qed.
Lemma hsnorm2_nonneg m n A : 0 <= hsnorm2 m n A.
Proof. rewrite hsnorm2_flat. apply vnorm2_nonneg. Qed.
Lemma mtrace_mid n : mtrace (S:=S) (mid (S:=S) n) = cofk (kofnat n).
Proof.
  rewrite (@mtrace_sq S n) by wf_solve.
  rewrite (sumn_ext _ (fun _ => cofk (k1:F))).
  - rewrite <- cofk_sumn. f_equal. rewrite ksumn_const. tok. ring.
  - intros i Hi. mgsimp. unfold kd. now rewrite Nat.eqb_refl.
Qed.
Lemma hsnorm2_unitary n (U : mat S) : munitary n U -> hsnorm2 n n U = kofnat n.
Proof.
  intros [H [H1 H2]]. apply cofk_inj. rewrite (hsnorm2_trace H), H1. apply mtrace_mid.
Qed.
(** columns of a unitary have norm one; entries have modulus at most one *)
Lemma unitary_col n (U : mat S) j : munitary n U -> (j < n)%nat -> sumn (S:=K) n (fun i => cnorm2 (mg U i j)) = 1.
Proof.
  intros [H [H1 H2]] Hj. apply cofk_inj. rewrite cofk_sumn.
  pose proof (f_equal (fun M => mg M j j) H1) as E. cbn beta in E. revert E. mgsimp.
  unfold kd. rewrite Nat.eqb_refl. intros E. etransitivity; [|exact E]. apply sumn_ext. intros i Hi. mgsimp.
  now rewrite <- cconj_mul_norm2.
Qed.
Lemma ksumn_ge_term n (f : nat -> F) k : (k < n)%nat -> (forall i, (i < n)%nat -> 0 <= f i) ->
  f k <= sumn (S:=K) n f.
Proof.
  induction n; intros Hk Hf; [lia|]. simpl. destruct (Nat.eq_dec k n) as [->|N].
  - apply (@kle_add_r (sumn (S:=K) n f) (f n)). apply (@ksumn_nonneg F). intros; apply Hf; lia.
  - apply kle_tr with (sumn (S:=K) n f). apply IHn; [lia|]. intros; apply Hf; lia.
    apply (@kle_add_l (sumn (S:=K) n f) (f n)). apply Hf; lia.
Qed.
Lemma unitary_entry n (U : mat S) i j : munitary n U -> (i < n)%nat -> (j < n)%nat -> cnorm2 (mg U i j) <= 1.
Proof.
  intros H Hi Hj. rewrite <- (unitary_col H Hj).
  apply (@ksumn_ge_term n (fun i => cnorm2 (mg U i j)) i); auto. intros; apply cnorm2_nonneg.
Qed.
Lemma cre_le1 (x : C) : cnorm2 x <= 1 -> cre x <= 1.
Proof.
  intros H. apply ksqr_le1. apply kle_tr with (cnorm2 x); auto. unfold cnorm2, cre.
  apply kle_of_sub. replace (fst x * fst x + snd x * snd x - fst x * fst x) with (snd x * snd x) by ring.
  apply ksqr_nonneg.
Qed.
End N.
