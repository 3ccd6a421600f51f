(** Matrix algebra on rank two arrays over a star ring (library file).  The operations are the numpy
    primitives used by qopt/matrix.py: @, +, -, scalar multiplication, .T, .conj(), np.kron,
    np.trace, np.eye. *)
Require Import List Arith Lia.
Require Import Ring.
From Verif Require Import LibRing LibArr.
Import ListNotations.
Set Implicit Arguments.

Definition mat (S : StarRing) := arr S.
Definition mg {S : StarRing} (A : mat S) (i j : nat) : S := get2 s0 A i j.
Definition nr {S : StarRing} (A : mat S) := dim0 A.
Definition nc {S : StarRing} (A : mat S) := dim1 A.
Definition wfm {S : StarRing} (m n : nat) (A : mat S) := wfa [m; n] A.

Definition madd {S : StarRing} (A B : mat S) : mat S := mk2 (nr A) (nc A) (fun i j => sadd (mg A i j) (mg B i j)).
Definition msub {S : StarRing} (A B : mat S) : mat S := mk2 (nr A) (nc A) (fun i j => ssub (mg A i j) (mg B i j)).
Definition mscale {S : StarRing} (c : S) (A : mat S) : mat S := mk2 (nr A) (nc A) (fun i j => smul c (mg A i j)).
(** A @ B *)
Definition mmul {S : StarRing} (A B : mat S) : mat S :=
  mk2 (nr A) (nc B) (fun i j => sumn (nc A) (fun k => smul (mg A i k) (mg B k j))).
(** A.T *)
Definition mtr {S : StarRing} (A : mat S) : mat S := mk2 (nc A) (nr A) (fun i j => mg A j i).
(** A.conj() *)
Definition mconj {S : StarRing} (A : mat S) : mat S := mk2 (nr A) (nc A) (fun i j => sconj (mg A i j)).
(** A.conj().T *)
Definition mdag {S : StarRing} (A : mat S) : mat S := mk2 (nc A) (nr A) (fun i j => sconj (mg A j i)).
(** np.eye(n) *)
Definition mid {S : StarRing} (n : nat) : mat S := mk2 n n (fun i j => kd i j).
(** np.zeros((m, n)) *)
Definition mzero {S : StarRing} (m n : nat) : mat S := mk2 m n (fun _ _ => s0).
(** np.kron(A, B) *)
Definition mkron {S : StarRing} (A B : mat S) : mat S :=
  mk2 (nr A * nr B) (nc A * nc B)
      (fun i j => smul (mg A (i / nr B) (j / nc B)) (mg B (i mod nr B) (j mod nc B))).
(** A.trace() *)
Definition mtrace {S : StarRing} (A : mat S) : S := sumn (Nat.min (nr A) (nc A)) (fun i => mg A i i).
(** np.diag(v) for a rank one array *)
Definition mdiag {S : StarRing} (n : nat) (v : nat -> S) : mat S := mk2 n n (fun i j => smul (kd i j) (v i)).

Section Laws.
Variable S : StarRing.
Add Ring Sring : (s_ring S).
Local Open Scope sr_scope.
Implicit Types A B C D : mat S.

Lemma wfm_nr m n A : wfm m n A -> nr A = m.
Proof. intros H. apply dim_wfa2 in H. tauto. Qed.
Lemma wfm_nc m n A : wfm m n A -> nc A = n.
Proof. intros H. apply dim_wfa2 in H. tauto. Qed.
Lemma wfm_self m n A : wfm m n A -> wfm (nr A) (nc A) A.
Proof. intros H. rewrite (wfm_nr H), (wfm_nc H). exact H. Qed.

Lemma mg_mk2 m n f i j : lt i m -> lt j n -> mg (mk2 m n f : mat S) i j = f i j.
Proof. apply get2_mk2. Qed.
Lemma wfm_mk2 m n f : wfm m n (mk2 m n f : mat S).
Proof. apply wfa_mk2. Qed.
Lemma nr_mk2 m n f : nr (mk2 m n f : mat S) = m.
Proof. reflexivity. Qed.
Lemma nc_mk2 m n f : nc (mk2 m n f : mat S) = n.
Proof. reflexivity. Qed.

Lemma mat_ext m n A B : wfm m n A -> wfm m n B ->
  (forall i j, lt i m -> lt j n -> mg A i j = mg B i j) -> A = B.
Proof. apply arr2_ext. Qed.

Lemma wfm_madd m n A B : wfm m n A -> wfm m n (madd A B).
Proof. intros H. unfold madd. rewrite (wfm_nr H), (wfm_nc H). apply wfm_mk2. Qed.
Lemma wfm_msub m n A B : wfm m n A -> wfm m n (msub A B).
Proof. intros H. unfold msub. rewrite (wfm_nr H), (wfm_nc H). apply wfm_mk2. Qed.
Lemma wfm_mscale m n c A : wfm m n A -> wfm m n (mscale c A).
Proof. intros H. unfold mscale. rewrite (wfm_nr H), (wfm_nc H). apply wfm_mk2. Qed.
Lemma wfm_mmul m n p A B : wfm m n A -> wfm n p B -> wfm m p (mmul A B).
Proof. intros H H'. unfold mmul. rewrite (wfm_nr H), (wfm_nc H'). apply wfm_mk2. Qed.
Lemma wfm_mtr m n A : wfm m n A -> wfm n m (mtr A).
Proof. intros H. unfold mtr. rewrite (wfm_nr H), (wfm_nc H). apply wfm_mk2. Qed.
Lemma wfm_mconj m n A : wfm m n A -> wfm m n (mconj A).
Proof. intros H. unfold mconj. rewrite (wfm_nr H), (wfm_nc H). apply wfm_mk2. Qed.
Lemma wfm_mdag m n A : wfm m n A -> wfm n m (mdag A).
Proof. intros H. unfold mdag. rewrite (wfm_nr H), (wfm_nc H). apply wfm_mk2. Qed.
Lemma wfm_mid n : wfm n n (mid n : mat S).
Proof. apply wfm_mk2. Qed.
Lemma wfm_mzero m n : wfm m n (mzero m n : mat S).
Proof. apply wfm_mk2. Qed.
Lemma wfm_mdiag n v : wfm n n (mdiag n v : mat S).
Proof. apply wfm_mk2. Qed.
Lemma wfm_mkron m n p q A B : wfm m n A -> wfm p q B -> wfm (m * p) (n * q) (mkron A B).
Proof.
  intros H H'. unfold mkron. rewrite (wfm_nr H), (wfm_nc H), (wfm_nr H'), (wfm_nc H'). apply wfm_mk2.
Qed.

Lemma mg_madd m n A B i j : wfm m n A -> lt i m -> lt j n -> mg (madd A B) i j = mg A i j + mg B i j.
Proof. intros H Hi Hj. unfold madd. rewrite (wfm_nr H), (wfm_nc H). now rewrite mg_mk2. Qed.
Lemma mg_msub m n A B i j : wfm m n A -> lt i m -> lt j n -> mg (msub A B) i j = mg A i j - mg B i j.
Proof. intros H Hi Hj. unfold msub. rewrite (wfm_nr H), (wfm_nc H). now rewrite mg_mk2. Qed.
Lemma mg_mscale m n c A i j : wfm m n A -> lt i m -> lt j n -> mg (mscale c A) i j = c * mg A i j.
Proof. intros H Hi Hj. unfold mscale. rewrite (wfm_nr H), (wfm_nc H). now rewrite mg_mk2. Qed.
Lemma mg_mmul m n p A B i j : wfm m n A -> wfm n p B -> lt i m -> lt j p ->
  mg (mmul A B) i j = sumn n (fun k => mg A i k * mg B k j).
Proof. intros H H' Hi Hj. unfold mmul. rewrite (wfm_nr H), (wfm_nc H), (wfm_nc H'). now rewrite mg_mk2. Qed.
Lemma mg_mtr m n A i j : wfm m n A -> lt i n -> lt j m -> mg (mtr A) i j = mg A j i.
Proof. intros H Hi Hj. unfold mtr. rewrite (wfm_nr H), (wfm_nc H). now rewrite mg_mk2. Qed.
Lemma mg_mconj m n A i j : wfm m n A -> lt i m -> lt j n -> mg (mconj A) i j = sconj (mg A i j).
Proof. intros H Hi Hj. unfold mconj. rewrite (wfm_nr H), (wfm_nc H). now rewrite mg_mk2. Qed.
Lemma mg_mdag m n A i j : wfm m n A -> lt i n -> lt j m -> mg (mdag A) i j = sconj (mg A j i).
Proof. intros H Hi Hj. unfold mdag. rewrite (wfm_nr H), (wfm_nc H). now rewrite mg_mk2. Qed.
Lemma mg_mid n i j : lt i n -> lt j n -> mg (mid n : mat S) i j = kd i j.
Proof. intros. unfold mid. now rewrite mg_mk2. Qed.
Lemma mg_mzero m n i j : lt i m -> lt j n -> mg (mzero m n : mat S) i j = 0.
Proof. intros. unfold mzero. now rewrite mg_mk2. Qed.
Lemma mg_mdiag n v i j : lt i n -> lt j n -> mg (mdiag n v : mat S) i j = kd i j * v i.
Proof. intros. unfold mdiag. now rewrite mg_mk2. Qed.
Lemma mg_mkron m n p q A B i j : wfm m n A -> wfm p q B -> lt i (m * p) -> lt j (n * q) ->
  mg (mkron A B) i j = mg A (i / p) (j / q) * mg B (i mod p) (j mod q).
Proof.
  intros H H' Hi Hj. unfold mkron. rewrite (wfm_nr H), (wfm_nc H), (wfm_nr H'), (wfm_nc H').
  now rewrite mg_mk2.
Qed.
Lemma mtrace_sq n A : wfm n n A -> mtrace A = sumn n (fun i => mg A i i).
Proof. intros H. unfold mtrace. rewrite (wfm_nr H), (wfm_nc H), Nat.min_id. reflexivity. Qed.
End Laws.

#[global] Hint Resolve wfm_mk2 wfm_madd wfm_msub wfm_mscale wfm_mmul wfm_mtr wfm_mconj wfm_mdag
  wfm_mid wfm_mzero wfm_mdiag wfm_mkron : wfm.

(** rewrite all entry accesses of composite matrices; side conditions by eauto / lia *)
Ltac wf_solve := solve [eauto 30 with wfm].
Ltac mgsimp :=
  repeat first
    [ erewrite mg_madd by (first [wf_solve | lia | assumption])
    | erewrite mg_msub by (first [wf_solve | lia | assumption])
    | erewrite mg_mscale by (first [wf_solve | lia | assumption])
    | erewrite mg_mmul by (first [wf_solve | lia | assumption])
    | erewrite mg_mtr by (first [wf_solve | lia | assumption])
    | erewrite mg_mconj by (first [wf_solve | lia | assumption])
    | erewrite mg_mdag by (first [wf_solve | lia | assumption])
    | erewrite mg_mid by (first [lia | assumption])
    | erewrite mg_mzero by (first [lia | assumption])
    | erewrite mg_mdiag by (first [lia | assumption])
    | erewrite mg_mk2 by (first [lia | assumption]) ].

Section Algebra.
Variable S : StarRing.
Add Ring Sring2 : (s_ring S).
Local Open Scope sr_scope.
Implicit Types A B C D : mat S.

Ltac mext m n := apply (@mat_ext S m n); [wf_solve | wf_solve | intros i j Hi Hj].

Lemma madd_comm m n A B : wfm m n A -> wfm m n B -> madd A B = madd B A.
Proof. intros. mext m n. mgsimp. ring. Qed.
Lemma madd_assoc m n A B C : wfm m n A -> wfm m n B -> wfm m n C -> madd A (madd B C) = madd (madd A B) C.
Proof. intros. mext m n. mgsimp. ring. Qed.
Lemma madd_0_l m n A : wfm m n A -> madd (mzero m n) A = A.
Proof. intros. mext m n. mgsimp. ring. Qed.
Lemma madd_0_r m n A : wfm m n A -> madd A (mzero m n) = A.
Proof. intros. mext m n. mgsimp. ring. Qed.
Lemma mscale_add m n c A B : wfm m n A -> wfm m n B -> mscale c (madd A B) = madd (mscale c A) (mscale c B).
Proof. intros. mext m n. mgsimp. ring. Qed.
Lemma mscale_add_l m n c d A : wfm m n A -> mscale (c + d) A = madd (mscale c A) (mscale d A).
Proof. intros. mext m n. mgsimp. ring. Qed.
Lemma mscale_mscale m n c d A : wfm m n A -> mscale c (mscale d A) = mscale (c * d) A.
Proof. intros. mext m n. mgsimp. ring. Qed.
Lemma mscale_1 m n A : wfm m n A -> mscale 1 A = A.
Proof. intros. mext m n. mgsimp. ring. Qed.
Lemma mscale_0 m n A : wfm m n A -> mscale 0 A = mzero m n.
Proof. intros. mext m n. mgsimp. ring. Qed.
Lemma msub_madd m n A B : wfm m n A -> wfm m n B -> msub A B = madd A (mscale (- (1)) B).
Proof. intros. mext m n. mgsimp. ring. Qed.
Lemma msub_diag m n A : wfm m n A -> msub A A = mzero m n.
Proof. intros. mext m n. mgsimp. ring. Qed.

Lemma mmul_assoc m n p q A B C : wfm m n A -> wfm n p B -> wfm p q C ->
  mmul A (mmul B C) = mmul (mmul A B) C.
Proof.
  intros. mext m q. mgsimp.
  rewrite (@sumn_ext S n _ (fun k => sumn p (fun l => mg A i k * mg B k l * mg C l j))).
  2:{ intros k Hk. mgsimp. rewrite <- sumn_mul_l. apply sumn_ext. intros. ring. }
  rewrite sumn_swap. apply sumn_ext. intros l Hl. mgsimp.
  rewrite <- sumn_mul_r. reflexivity.
Qed.
Lemma mmul_1_l m n A : wfm m n A -> mmul (mid m) A = A.
Proof.
  intros. mext m n. mgsimp.
  rewrite (@sumn_ext S m _ (fun k => kd i k * mg A k j)).
  - now rewrite sumn_kd_l.
  - intros. mgsimp. reflexivity.
Qed.
Lemma mmul_1_r m n A : wfm m n A -> mmul A (mid n) = A.
Proof.
  intros. mext m n. mgsimp.
  rewrite (@sumn_ext S n _ (fun k => mg A i k * kd k j)).
  - now rewrite sumn_kd_r.
  - intros. mgsimp. reflexivity.
Qed.
Lemma mmul_add_l m n p A B C : wfm m n A -> wfm m n B -> wfm n p C ->
  mmul (madd A B) C = madd (mmul A C) (mmul B C).
Proof.
  intros. mext m p. mgsimp. rewrite <- sumn_add. apply sumn_ext. intros. mgsimp. ring.
Qed.
Lemma mmul_add_r m n p A B C : wfm m n A -> wfm n p B -> wfm n p C ->
  mmul A (madd B C) = madd (mmul A B) (mmul A C).
Proof.
  intros. mext m p. mgsimp. rewrite <- sumn_add. apply sumn_ext. intros. mgsimp. ring.
Qed.
Lemma mmul_sub_l m n p A B C : wfm m n A -> wfm m n B -> wfm n p C ->
  mmul (msub A B) C = msub (mmul A C) (mmul B C).
Proof.
  intros. mext m p. mgsimp. rewrite <- sumn_sub. apply sumn_ext. intros. mgsimp. ring.
Qed.
Lemma mmul_sub_r m n p A B C : wfm m n A -> wfm n p B -> wfm n p C ->
  mmul A (msub B C) = msub (mmul A B) (mmul A C).
Proof.
  intros. mext m p. mgsimp. rewrite <- sumn_sub. apply sumn_ext. intros. mgsimp. ring.
Qed.
Lemma mmul_scale_l m n p c A B : wfm m n A -> wfm n p B -> mmul (mscale c A) B = mscale c (mmul A B).
Proof.
  intros. mext m p. mgsimp. rewrite <- sumn_mul_l. apply sumn_ext. intros. mgsimp. ring.
Qed.
Lemma mmul_scale_r m n p c A B : wfm m n A -> wfm n p B -> mmul A (mscale c B) = mscale c (mmul A B).
Proof.
  intros. mext m p. mgsimp. rewrite <- sumn_mul_l. apply sumn_ext. intros. mgsimp. ring.
Qed.
Lemma mmul_0_l m n p A : wfm n p A -> mmul (mzero m n) A = mzero m p.
Proof.
  intros. mext m p. mgsimp. apply sumn_0. intros. mgsimp. ring.
Qed.
Lemma mmul_0_r m n p A : wfm m n A -> mmul A (mzero n p) = mzero m p.
Proof.
  intros. mext m p. mgsimp. apply sumn_0. intros. mgsimp. ring.
Qed.

(** transposition, conjugation, adjoint *)
Lemma mdag_mconj_mtr m n A : wfm m n A -> mdag A = mtr (mconj A).
Proof. intros. mext n m. mgsimp. reflexivity. Qed.
Lemma mdag_mtr_mconj m n A : wfm m n A -> mdag A = mconj (mtr A).
Proof. intros. mext n m. mgsimp. reflexivity. Qed.
Lemma mtr_mtr m n A : wfm m n A -> mtr (mtr A) = A.
Proof. intros. mext m n. mgsimp. reflexivity. Qed.
Lemma mconj_mconj m n A : wfm m n A -> mconj (mconj A) = A.
Proof. intros. mext m n. mgsimp. apply sconj_inv. Qed.
Lemma mdag_mdag m n A : wfm m n A -> mdag (mdag A) = A.
Proof. intros. mext m n. mgsimp. apply sconj_inv. Qed.
Lemma mtr_mmul m n p A B : wfm m n A -> wfm n p B -> mtr (mmul A B) = mmul (mtr B) (mtr A).
Proof.
  intros. mext p m. mgsimp. apply sumn_ext. intros. mgsimp. ring.
Qed.
Lemma mconj_mmul m n p A B : wfm m n A -> wfm n p B -> mconj (mmul A B) = mmul (mconj A) (mconj B).
Proof.
  intros. mext m p. mgsimp. rewrite sumn_conj. apply sumn_ext. intros. mgsimp. apply sconj_mul.
Qed.
Lemma mdag_mmul m n p A B : wfm m n A -> wfm n p B -> mdag (mmul A B) = mmul (mdag B) (mdag A).
Proof.
  intros. mext p m. mgsimp. rewrite sumn_conj. apply sumn_ext. intros. mgsimp.
  rewrite sconj_mul. ring.
Qed.
Lemma mdag_madd m n A B : wfm m n A -> wfm m n B -> mdag (madd A B) = madd (mdag A) (mdag B).
Proof. intros. mext n m. mgsimp. apply sconj_add. Qed.
Lemma mdag_msub m n A B : wfm m n A -> wfm m n B -> mdag (msub A B) = msub (mdag A) (mdag B).
Proof. intros. mext n m. mgsimp. apply sconj_sub. Qed.
Lemma mdag_mscale m n c A : wfm m n A -> mdag (mscale c A) = mscale (sconj c) (mdag A).
Proof. intros. mext n m. mgsimp. apply sconj_mul. Qed.
Lemma mconj_madd m n A B : wfm m n A -> wfm m n B -> mconj (madd A B) = madd (mconj A) (mconj B).
Proof. intros. mext m n. mgsimp. apply sconj_add. Qed.
Lemma mconj_mscale m n c A : wfm m n A -> mconj (mscale c A) = mscale (sconj c) (mconj A).
Proof. intros. mext m n. mgsimp. apply sconj_mul. Qed.
Lemma mtr_madd m n A B : wfm m n A -> wfm m n B -> mtr (madd A B) = madd (mtr A) (mtr B).
Proof. intros. mext n m. mgsimp. reflexivity. Qed.
Lemma mtr_mscale m n c A : wfm m n A -> mtr (mscale c A) = mscale c (mtr A).
Proof. intros. mext n m. mgsimp. reflexivity. Qed.
Lemma mdag_mid n : mdag (mid n : mat S) = mid n.
Proof. mext n n. mgsimp. rewrite kd_conj. apply kd_sym. Qed.
Lemma mconj_mid n : mconj (mid n : mat S) = mid n.
Proof. mext n n. mgsimp. apply kd_conj. Qed.
Lemma mtr_mid n : mtr (mid n : mat S) = mid n.
Proof. mext n n. mgsimp. apply kd_sym. Qed.

(** trace *)
Lemma mtrace_madd n A B : wfm n n A -> wfm n n B -> mtrace (madd A B) = mtrace A + mtrace B.
Proof.
  intros. rewrite !(@mtrace_sq S n) by wf_solve. rewrite <- sumn_add. apply sumn_ext. intros. now mgsimp.
Qed.
Lemma mtrace_msub n A B : wfm n n A -> wfm n n B -> mtrace (msub A B) = mtrace A - mtrace B.
Proof.
  intros. rewrite !(@mtrace_sq S n) by wf_solve. rewrite <- sumn_sub. apply sumn_ext. intros. now mgsimp.
Qed.
Lemma mtrace_mscale n c A : wfm n n A -> mtrace (mscale c A) = c * mtrace A.
Proof.
  intros. rewrite !(@mtrace_sq S n) by wf_solve. rewrite <- sumn_mul_l. apply sumn_ext. intros. now mgsimp.
Qed.
Lemma mtrace_mmul m n A B : wfm m n A -> wfm n m B ->
  mtrace (mmul A B) = sumn m (fun i => sumn n (fun k => mg A i k * mg B k i)).
Proof.
  intros. rewrite (@mtrace_sq S m) by wf_solve. apply sumn_ext. intros. now mgsimp.
Qed.
Lemma mtrace_comm m n A B : wfm m n A -> wfm n m B -> mtrace (mmul A B) = mtrace (mmul B A).
Proof.
  intros HA HB. rewrite (mtrace_mmul HA HB), (mtrace_mmul HB HA). rewrite sumn_swap.
  apply sumn_ext; intros; apply sumn_ext; intros. ring.
Qed.
Lemma mtrace_mdag n A : wfm n n A -> mtrace (mdag A) = sconj (mtrace A).
Proof.
  intros. rewrite !(@mtrace_sq S n) by wf_solve. rewrite sumn_conj. apply sumn_ext. intros. now mgsimp.
Qed.
Lemma mtrace_mtr n A : wfm n n A -> mtrace (mtr A) = mtrace A.
Proof.
  intros. rewrite !(@mtrace_sq S n) by wf_solve. apply sumn_ext. intros. now mgsimp.
Qed.
Lemma mtrace_mconj n A : wfm n n A -> mtrace (mconj A) = sconj (mtrace A).
Proof.
  intros. rewrite !(@mtrace_sq S n) by wf_solve. rewrite sumn_conj. apply sumn_ext. intros. now mgsimp.
Qed.

(** Kronecker product *)
Lemma divmod_lt i m p : lt i (m * p) -> lt (i / p) m /\ lt (i mod p) p /\ i = (i / p * p + i mod p)%nat.
Proof.
  intros H. assert (p <> O) by lia. repeat split.
  - apply Nat.div_lt_upper_bound; lia.
  - now apply Nat.mod_upper_bound.
  - pose proof (Nat.div_mod i p). lia.
Qed.
Lemma div_join a b p : lt b p -> ((a * p + b) / p = a)%nat.
Proof. intros. rewrite Nat.div_add_l by lia. rewrite Nat.div_small; lia. Qed.
Lemma mod_join a b p : lt b p -> ((a * p + b) mod p = b)%nat.
Proof. intros. rewrite Nat.add_comm, Nat.mod_add by lia. now apply Nat.mod_small. Qed.
Lemma join_lt a b m p : lt a m -> lt b p -> lt (a * p + b) (m * p).
Proof. nia. Qed.

Lemma join_inj a b c d p : lt b p -> lt d p -> (a * p + b = c * p + d)%nat -> a = c /\ b = d.
Proof.
  intros Hb Hd E. split.
  - rewrite <- (@div_join a b p), <- (@div_join c d p) by auto. now rewrite E.
  - rewrite <- (@mod_join a b p), <- (@mod_join c d p) by auto. now rewrite E.
Qed.

Lemma mg_mkron' m n p q A B a b c d : wfm m n A -> wfm p q B ->
  lt a m -> lt b p -> lt c n -> lt d q ->
  mg (mkron A B) (a * p + b) (c * q + d) = mg A a c * mg B b d.
Proof.
  intros. erewrite mg_mkron by eauto using join_lt.
  now rewrite !div_join, !mod_join.
Qed.

Lemma mkron_ext m n p q (X Y : mat S) : wfm (m * p) (n * q) X -> wfm (m * p) (n * q) Y ->
  (forall a b c d, lt a m -> lt b p -> lt c n -> lt d q ->
     mg X (a * p + b) (c * q + d) = mg Y (a * p + b) (c * q + d)) -> X = Y.
Proof.
  intros HX HY H. apply (@mat_ext S (m * p) (n * q)); auto. intros i j Hi Hj.
  destruct (divmod_lt _ _ Hi) as (A1 & A2 & A3). destruct (divmod_lt _ _ Hj) as (B1 & B2 & B3).
  specialize (H _ _ _ _ A1 A2 B1 B2). rewrite <- A3, <- B3 in H. exact H.
Qed.

Lemma mkron_mmul m n p m' n' p' A B C D :
  wfm m n A -> wfm n p B -> wfm m' n' C -> wfm n' p' D ->
  mmul (mkron A C) (mkron B D) = mkron (mmul A B) (mmul C D).
Proof.
  intros. apply (@mkron_ext m p m' p'); [wf_solve|wf_solve|].
  intros a b c d Ha Hb Hc Hd.
  erewrite (@mg_mkron' m p m' p') by (first [wf_solve|assumption]).
  erewrite (@mg_mmul S (m*m') (n*n') (p*p')) by (first [wf_solve|auto using join_lt]).
  rewrite sumn_mul_split. mgsimp. rewrite <- sumn_mul_r. apply sumn_ext. intros x Hx.
  rewrite <- sumn_mul_l. apply sumn_ext. intros y Hy.
  erewrite (@mg_mkron' m n m' n') by (first [wf_solve|assumption]).
  erewrite (@mg_mkron' n p n' p') by (first [wf_solve|assumption]). ring.
Qed.
Lemma mkron_mid m n : mkron (mid m) (mid n) = (mid (m * n) : mat S).
Proof.
  apply (@mkron_ext m m n n); [wf_solve|wf_solve|].
  intros a b c d Ha Hb Hc Hd.
  erewrite (@mg_mkron' m m n n) by (first [wf_solve|assumption]).
  rewrite !mg_mid by (auto using join_lt). unfold kd.
  destruct (Nat.eqb_spec (a*n+b) (c*n+d)) as [E|E].
  - apply join_inj in E; auto. destruct E; subst. rewrite !Nat.eqb_refl. ring.
  - destruct (Nat.eqb_spec a c), (Nat.eqb_spec b d); subst; try ring. now elim E.
Qed.
Lemma mkron_mdag m n p q A B : wfm m n A -> wfm p q B -> mdag (mkron A B) = mkron (mdag A) (mdag B).
Proof.
  intros. apply (@mkron_ext n m q p); [wf_solve|wf_solve|]. intros a b c d Ha Hb Hc Hd.
  erewrite (@mg_mkron' n m q p) by (first [wf_solve|assumption]).
  erewrite (@mg_mdag S (m*p) (n*q)) by (first [wf_solve|auto using join_lt]).
  erewrite (@mg_mkron' m n p q) by (first [wf_solve|assumption]).
  mgsimp. apply sconj_mul.
Qed.
Lemma mkron_mconj m n p q A B : wfm m n A -> wfm p q B -> mconj (mkron A B) = mkron (mconj A) (mconj B).
Proof.
  intros. apply (@mkron_ext m n p q); [wf_solve|wf_solve|]. intros a b c d Ha Hb Hc Hd.
  erewrite (@mg_mkron' m n p q) by (first [wf_solve|assumption]).
  erewrite (@mg_mconj S (m*p) (n*q)) by (first [wf_solve|auto using join_lt]).
  erewrite (@mg_mkron' m n p q) by (first [wf_solve|assumption]).
  mgsimp. apply sconj_mul.
Qed.
Lemma mtrace_mkron m n A B : wfm m m A -> wfm n n B -> mtrace (mkron A B) = mtrace A * mtrace B.
Proof.
  intros. rewrite (@mtrace_sq S (m*n)) by wf_solve. rewrite sumn_mul_split.
  rewrite (@mtrace_sq S m), (@mtrace_sq S n) by wf_solve. rewrite <- sumn_mul_r.
  apply sumn_ext. intros x Hx. rewrite <- sumn_mul_l. apply sumn_ext. intros y Hy.
  erewrite (@mg_mkron' m m n n) by (first [wf_solve|assumption]). reflexivity.
Qed.
Lemma mkron_madd_l m n p q A B C : wfm m n A -> wfm m n B -> wfm p q C ->
  mkron (madd A B) C = madd (mkron A C) (mkron B C).
Proof.
  intros. apply (@mkron_ext m n p q); [wf_solve|wf_solve|]. intros a b c d Ha Hb Hc Hd.
  erewrite (@mg_mkron' m n p q) by (first [wf_solve|assumption]).
  erewrite (@mg_madd S (m*p) (n*q) (mkron A C)) by (first [wf_solve|auto using join_lt]).
  erewrite !(@mg_mkron' m n p q) by (first [wf_solve|assumption]).
  mgsimp. ring.
Qed.
Lemma mkron_madd_r m n p q A B C : wfm m n A -> wfm p q B -> wfm p q C ->
  mkron A (madd B C) = madd (mkron A B) (mkron A C).
Proof.
  intros. apply (@mkron_ext m n p q); [wf_solve|wf_solve|]. intros a b c d Ha Hb Hc Hd.
  erewrite (@mg_mkron' m n p q) by (first [wf_solve|assumption]).
  erewrite (@mg_madd S (m*p) (n*q) (mkron A B)) by (first [wf_solve|auto using join_lt]).
  erewrite !(@mg_mkron' m n p q) by (first [wf_solve|assumption]).
  mgsimp. ring.
Qed.
Lemma mkron_scale_l m n p q c A B : wfm m n A -> wfm p q B -> mkron (mscale c A) B = mscale c (mkron A B).
Proof.
  intros. apply (@mkron_ext m n p q); [wf_solve|wf_solve|]. intros a b x d Ha Hb Hc Hd.
  erewrite (@mg_mkron' m n p q) by (first [wf_solve|assumption]).
  erewrite (@mg_mscale S (m*p) (n*q) c (mkron A B)) by (first [wf_solve|auto using join_lt]).
  erewrite !(@mg_mkron' m n p q) by (first [wf_solve|assumption]).
  mgsimp. ring.
Qed.
Lemma mkron_scale_r m n p q c A B : wfm m n A -> wfm p q B -> mkron A (mscale c B) = mscale c (mkron A B).
Proof.
  intros. apply (@mkron_ext m n p q); [wf_solve|wf_solve|]. intros a b x d Ha Hb Hc Hd.
  erewrite (@mg_mkron' m n p q) by (first [wf_solve|assumption]).
  erewrite (@mg_mscale S (m*p) (n*q) c (mkron A B)) by (first [wf_solve|auto using join_lt]).
  erewrite !(@mg_mkron' m n p q) by (first [wf_solve|assumption]).
  mgsimp. ring.
Qed.
End Algebra.

(** linear part of [mgsimp]: products stay opaque *)
Ltac mglin :=
  repeat first
    [ erewrite mg_madd by (first [wf_solve | lia | assumption])
    | erewrite mg_msub by (first [wf_solve | lia | assumption])
    | erewrite mg_mscale by (first [wf_solve | lia | assumption])
    | erewrite mg_mid by (first [lia | assumption])
    | erewrite mg_mzero by (first [lia | assumption]) ].

(** distribute products of square matrices over sums and scalars *)
Ltac mdistr n :=
  repeat first
    [ rewrite (@mmul_add_l _ n n n) by wf_solve
    | rewrite (@mmul_add_r _ n n n) by wf_solve
    | rewrite (@mmul_sub_l _ n n n) by wf_solve
    | rewrite (@mmul_sub_r _ n n n) by wf_solve
    | rewrite (@mmul_scale_l _ n n n) by wf_solve
    | rewrite (@mmul_scale_r _ n n n) by wf_solve
    | rewrite (@mmul_1_l _ n n) by wf_solve
    | rewrite (@mmul_1_r _ n n) by wf_solve
    | rewrite (@mmul_assoc _ n n n n) by wf_solve ].
