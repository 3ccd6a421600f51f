(** Number structures used by the model (library file: no python code is modelled here).

    [OField]   ordered field: stands for python floats (exact, no rounding).
    [StarRing] commutative ring with involution: the entries of numpy arrays; the involution is
               complex conjugation for complex arrays and the identity for real arrays.
    [sumn]     finite sums (np.sum, einsum, matmul, trace are built from it). *)
Require Import List Arith Lia Bool.
Require Import Ring Field Ring_theory Field_theory.
Import ListNotations.
Set Implicit Arguments.

Record StarRing := mkSR {
  scar :> Type;
  s0 : scar; s1 : scar;
  sadd : scar -> scar -> scar;
  smul : scar -> scar -> scar;
  ssub : scar -> scar -> scar;
  sopp : scar -> scar;
  sconj : scar -> scar;
  s_ring : ring_theory s0 s1 sadd smul ssub sopp (@eq scar);
  sconj_add : forall x y, sconj (sadd x y) = sadd (sconj x) (sconj y);
  sconj_mul : forall x y, sconj (smul x y) = smul (sconj x) (sconj y);
  sconj_inv : forall x, sconj (sconj x) = x
}.
Arguments s0 {_}. Arguments s1 {_}. Arguments sadd {_}. Arguments smul {_}.
Arguments ssub {_}. Arguments sopp {_}. Arguments sconj {_}.

Declare Scope sr_scope.
Delimit Scope sr_scope with sr.
Notation "0" := s0 : sr_scope.
Notation "1" := s1 : sr_scope.
Infix "+" := sadd : sr_scope.
Infix "*" := smul : sr_scope.
Infix "-" := ssub : sr_scope.
Notation "- x" := (sopp x) : sr_scope.

(** finite sum f 0 + ... + f (n-1) *)
Fixpoint sumn {S : StarRing} (n : nat) (f : nat -> S) : S :=
  match n with
  | O => s0
  | Datatypes.S n' => sadd (sumn n' f) (f n')
  end.

(** sum of a list of numbers (np.sum of a rank one array) *)
Definition lsum {S : StarRing} (l : list S) : S := fold_right sadd s0 l.

Section Sums.
Variable S : StarRing.
Add Ring Sring : (s_ring S).
Local Open Scope sr_scope.
Implicit Types (x y z : S) (f g : nat -> S).

Lemma sconj_1 : sconj (1 : S) = 1.
Proof.
  assert (H : sconj (sconj (1:S) * 1) = sconj (sconj 1)) by (f_equal; ring).
  rewrite sconj_mul, sconj_inv in H. rewrite <- H at 2. ring.
Qed.

Lemma sconj_0 : sconj (0 : S) = 0.
Proof.
  assert (H : sconj (0:S) + sconj 0 = sconj 0).
  { rewrite <- sconj_add. f_equal. ring. }
  replace (sconj 0) with ((sconj (0:S) + sconj 0) - sconj 0) by ring.
  rewrite H. ring.
Qed.

Lemma sconj_opp x : sconj (- x) = - sconj x.
Proof.
  assert (H : sconj x + sconj (- x) = 0).
  { rewrite <- sconj_add. replace (x + - x) with (0:S) by ring. apply sconj_0. }
  replace (sconj (- x)) with ((sconj x + sconj (-x)) - sconj x) by ring.
  rewrite H. ring.
Qed.

Lemma sconj_sub x y : sconj (x - y) = sconj x - sconj y.
Proof.
  replace (x - y) with (x + - y) by ring. rewrite sconj_add, sconj_opp. ring.
Qed.

Lemma sumn_ext n f g : (forall i, i < n -> f i = g i) -> sumn n f = sumn n g.
Proof.
  induction n; simpl; intros H; auto. rewrite IHn, H; auto.
Qed.

Lemma sumn_0 n f : (forall i, i < n -> f i = 0) -> sumn n f = 0.
Proof.
  induction n; simpl; intros H; auto. rewrite IHn, H; auto; ring.
Qed.

Lemma sumn_add n f g : sumn n (fun i => f i + g i) = sumn n f + sumn n g.
Proof. induction n; simpl; [ring|rewrite IHn; ring]. Qed.

Lemma sumn_sub n f g : sumn n (fun i => f i - g i) = sumn n f - sumn n g.
Proof. induction n; simpl; [ring|rewrite IHn; ring]. Qed.

Lemma sumn_opp n f : sumn n (fun i => - f i) = - sumn n f.
Proof. induction n; simpl; [ring|rewrite IHn; ring]. Qed.

Lemma sumn_mul_l n c f : sumn n (fun i => c * f i) = c * sumn n f.
Proof. induction n; simpl; [ring|rewrite IHn; ring]. Qed.

Lemma sumn_mul_r n c f : sumn n (fun i => f i * c) = sumn n f * c.
Proof. induction n; simpl; [ring|rewrite IHn; ring]. Qed.

Lemma sumn_swap n m (f : nat -> nat -> S) :
  sumn n (fun i => sumn m (fun j => f i j)) = sumn m (fun j => sumn n (fun i => f i j)).
Proof.
  induction n; simpl.
  - symmetry. apply sumn_0. auto.
  - rewrite IHn. rewrite <- sumn_add. reflexivity.
Qed.

Lemma sumn_conj n f : sconj (sumn n f) = sumn n (fun i => sconj (f i)).
Proof. induction n; simpl; [apply sconj_0 | rewrite sconj_add, IHn; auto]. Qed.

(** only one index contributes *)
Lemma sumn_single n k f : k < n -> (forall i, i < n -> i <> k -> f i = 0) -> sumn n f = f k.
Proof.
  induction n; intros Hk H; [lia|]. simpl.
  destruct (Nat.eq_dec k n) as [->|Hne].
  - rewrite sumn_0; [ring|]. intros; apply H; lia.
  - rewrite IHn; [|lia|intros; apply H; lia]. rewrite (H n); [ring|lia|lia].
Qed.

Definition kd (i j : nat) : S := if Nat.eqb i j then 1 else 0.

Lemma kd_eq i : kd i i = 1.
Proof. unfold kd. now rewrite Nat.eqb_refl. Qed.
Lemma kd_neq i j : i <> j -> kd i j = 0.
Proof. intros H. unfold kd. apply Nat.eqb_neq in H. now rewrite H. Qed.
Lemma kd_sym i j : kd i j = kd j i.
Proof. unfold kd. now rewrite Nat.eqb_sym. Qed.
Lemma kd_conj i j : sconj (kd i j) = kd i j.
Proof. unfold kd. destruct (Nat.eqb i j); [apply sconj_1|apply sconj_0]. Qed.

Lemma sumn_kd_l n k f : k < n -> sumn n (fun i => kd k i * f i) = f k.
Proof.
  intros H. rewrite (@sumn_single n k); auto.
  - rewrite kd_eq. ring.
  - intros i _ Hi. rewrite kd_neq; auto. ring.
Qed.
Lemma sumn_kd_r n k f : k < n -> sumn n (fun i => f i * kd i k) = f k.
Proof.
  intros H. rewrite (@sumn_single n k); auto.
  - rewrite kd_eq. ring.
  - intros i _ Hi. rewrite kd_neq; auto. ring.
Qed.
Lemma sumn_kd_l' n k f : k < n -> sumn n (fun i => kd i k * f i) = f k.
Proof.
  intros H. rewrite (@sumn_single n k); auto.
  - rewrite kd_eq. ring.
  - intros i _ Hi. rewrite kd_neq; auto. ring.
Qed.
Lemma sumn_kd_r' n k f : k < n -> sumn n (fun i => f i * kd k i) = f k.
Proof.
  intros H. rewrite (@sumn_single n k); auto.
  - rewrite kd_eq. ring.
  - intros i _ Hi. rewrite kd_neq; auto. ring.
Qed.

Lemma sumn_app n m f : sumn (n + m) f = sumn n f + sumn m (fun i => f (n + i)%nat).
Proof.
  induction m; simpl.
  - rewrite Nat.add_0_r. ring.
  - rewrite Nat.add_succ_r. simpl. rewrite IHm. ring.
Qed.

Lemma sumn_S_l n f : sumn (Datatypes.S n) f = f 0%nat + sumn n (fun i => f (Datatypes.S i)).
Proof. change (Datatypes.S n) with (1 + n)%nat. rewrite sumn_app. simpl. ring. Qed.

(** a sum over m*n flat indices is a double sum *)
Lemma sumn_mul_split m n f :
  sumn (m * n) f = sumn m (fun a => sumn n (fun b => f (a * n + b)%nat)).
Proof.
  induction m; simpl; auto.
  rewrite Nat.add_comm, sumn_app, IHm. reflexivity.
Qed.

Lemma sumn_const_0 n : sumn n (fun _ => (0 : S)) = 0.
Proof. apply sumn_0; auto. Qed.

Lemma sumn_rev n f : sumn n f = sumn n (fun i => f (n - 1 - i)%nat).
Proof.
  revert f. induction n; intros f; auto.
  rewrite sumn_S_l. cbn [sumn]. rewrite (IHn (fun i => f (Datatypes.S i))).
  replace (Datatypes.S n - 1 - n)%nat with 0%nat by lia.
  rewrite (@sumn_ext n (fun i => f (Datatypes.S (n - 1 - i))) (fun i => f (Datatypes.S n - 1 - i)%nat)).
  - ring.
  - intros i Hi. f_equal. lia.
Qed.

Lemma lsum_app (l1 l2 : list S) : lsum (l1 ++ l2) = lsum l1 + lsum l2.
Proof. induction l1; simpl; [ring|]. unfold lsum in *. simpl. rewrite IHl1. ring. Qed.

Lemma lsum_map_seq n f a : lsum (map f (seq a n)) = sumn n (fun i => f (a + i)%nat).
Proof.
  revert a. induction n; intros a; auto.
  cbn [seq map]. unfold lsum. cbn [fold_right]. fold (lsum (map f (seq (Datatypes.S a) n))).
  rewrite IHn, sumn_S_l. rewrite Nat.add_0_r. f_equal.
  apply sumn_ext. intros. f_equal. lia.
Qed.

Lemma lsum_nth (l : list S) : lsum l = sumn (length l) (fun i => nth i l 0).
Proof.
  induction l; auto. unfold lsum in *. cbn [fold_right length].
  rewrite sumn_S_l. cbn [nth]. now rewrite IHl.
Qed.
End Sums.
Arguments kd {S} i j.
Arguments sumn_ext {S n}. Arguments sumn_0 {S}. Arguments sumn_add {S}. Arguments sumn_sub {S}.
Arguments sumn_opp {S}. Arguments sumn_mul_l {S}. Arguments sumn_mul_r {S}. Arguments sumn_swap {S}.
Arguments sumn_conj {S}. Arguments sumn_single {S n k}. Arguments sumn_kd_l {S n k}. Arguments sumn_kd_r {S n k}.
Arguments sumn_kd_l' {S n k}. Arguments sumn_kd_r' {S n k}. Arguments sumn_app {S}. Arguments sumn_S_l {S}.
Arguments sumn_mul_split {S}. Arguments sumn_rev {S}.

(** Ordered field with decidable order *)
Record OField := mkOF {
  kcar :> Type;
  k0 : kcar; k1 : kcar;
  kadd : kcar -> kcar -> kcar;
  kmul : kcar -> kcar -> kcar;
  ksub : kcar -> kcar -> kcar;
  kopp : kcar -> kcar;
  kdiv : kcar -> kcar -> kcar;
  kinv : kcar -> kcar;
  kleb : kcar -> kcar -> bool;
  k_field : field_theory k0 k1 kadd kmul ksub kopp kdiv kinv (@eq kcar);
  kle_total : forall x y, kleb x y = true \/ kleb y x = true;
  kle_antisym : forall x y, kleb x y = true -> kleb y x = true -> x = y;
  kle_trans : forall x y z, kleb x y = true -> kleb y z = true -> kleb x z = true;
  kle_add : forall x y z, kleb x y = true -> kleb (kadd z x) (kadd z y) = true;
  kle_mul : forall x y, kleb k0 x = true -> kleb k0 y = true -> kleb k0 (kmul x y) = true
}.
Arguments k0 {_}. Arguments k1 {_}. Arguments kadd {_}. Arguments kmul {_}.
Arguments ksub {_}. Arguments kopp {_}. Arguments kdiv {_}. Arguments kinv {_}. Arguments kleb {_}.

Declare Scope k_scope.
Delimit Scope k_scope with k.
Notation "0" := k0 : k_scope.
Notation "1" := k1 : k_scope.
Infix "+" := kadd : k_scope.
Infix "*" := kmul : k_scope.
Infix "-" := ksub : k_scope.
Infix "/" := kdiv : k_scope.
Notation "- x" := (kopp x) : k_scope.
Definition kle {F : OField} (x y : F) : Prop := kleb x y = true.
Definition klt {F : OField} (x y : F) : Prop := kleb y x = false.
Definition keqb {F : OField} (x y : F) : bool := kleb x y && kleb y x.
Definition kltb {F : OField} (x y : F) : bool := negb (kleb y x).
Infix "<=" := kle : k_scope.
Infix "<" := klt : k_scope.

(** the number n as a field element *)
Fixpoint kofnat {F : OField} (n : nat) : F :=
  match n with O => k0 | S n' => kadd (kofnat n') k1 end.

Section OFieldLaws.
Variable F : OField.
Add Field Ffield : (k_field F).
Local Open Scope k_scope.
Implicit Types x y z : F.

Lemma kle_refl x : x <= x.
Proof. destruct (kle_total F x x); auto. Qed.

Lemma klt_le x y : x < y -> x <= y.
Proof. unfold klt, kle. destruct (kle_total F x y) as [H|H]; auto. congruence. Qed.

Lemma klt_nle x y : x < y <-> ~ y <= x.
Proof. unfold klt, kle. destruct (kleb y x); split; intros; congruence. Qed.

Lemma kle_dec x y : {x <= y} + {y < x}.
Proof. unfold kle, klt. destruct (kleb x y); auto. Qed.

Lemma keqb_eq x y : keqb x y = true <-> x = y.
Proof.
  unfold keqb. split.
  - intros H. apply andb_prop in H. destruct H. now apply kle_antisym.
  - intros ->. rewrite (kle_refl y). reflexivity.
Qed.
Lemma keq_dec x y : {x = y} + {x <> y}.
Proof.
  destruct (keqb x y) eqn:E.
  - left. now apply keqb_eq.
  - right. intros H. apply keqb_eq in H. congruence.
Qed.

Lemma kle_sub0 x y : x <= y <-> 0 <= y - x.
Proof.
  split; intros H.
  - apply (kle_add F x y (- x)) in H. unfold kle.
    replace (- x + x) with (0:F) in H by ring. replace (-x + y) with (y - x) in H by ring. exact H.
  - apply (kle_add F 0 (y - x) x) in H. unfold kle.
    replace (x + 0) with x in H by ring. replace (x + (y - x)) with y in H by ring. exact H.
Qed.

Lemma ksub_nonneg x y : x <= y -> 0 <= y - x.
Proof. intros H. now apply (proj1 (kle_sub0 x y)). Qed.
Lemma kle_of_sub x y : 0 <= y - x -> x <= y.
Proof. intros H. now apply (proj2 (kle_sub0 x y)). Qed.

Lemma kle_add2 x y z w : x <= y -> z <= w -> x + z <= y + w.
Proof.
  intros H1 H2. apply (kle_trans F _ (x + w)).
  - now apply kle_add.
  - replace (x + w) with (w + x) by ring. replace (y + w) with (w + y) by ring. now apply kle_add.
Qed.

Lemma kadd_nonneg x y : 0 <= x -> 0 <= y -> 0 <= x + y.
Proof. intros. replace (0:F) with ((0:F) + 0) by ring. now apply kle_add2. Qed.

Lemma kmul_nonneg x y : 0 <= x -> 0 <= y -> 0 <= x * y.
Proof. apply kle_mul. Qed.

Lemma kopp_nonneg x : 0 <= - x <-> x <= 0.
Proof.
  rewrite (kle_sub0 x 0). replace (0 - x) with (- x) by ring. tauto.
Qed.

Lemma kopp_nonneg' x : 0 <= x <-> - x <= 0.
Proof.
  rewrite (kle_sub0 (- x) 0). replace (0 - - x) with x by ring. tauto.
Qed.

Lemma ksqr_nonneg x : 0 <= x * x.
Proof.
  destruct (kle_total F 0 x) as [H|H].
  - now apply kle_mul.
  - replace (x * x) with (- x * - x) by ring. apply kmul_nonneg; now apply (proj2 (kopp_nonneg x)).
Qed.

Lemma k01 : (0:F) <= 1.
Proof. replace (1:F) with ((1:F) * 1) by ring. apply ksqr_nonneg. Qed.

Lemma k1_neq_0 : (1:F) <> 0.
Proof. apply (F_1_neq_0 (k_field F)). Qed.

Lemma klt_01 : (0:F) < 1.
Proof.
  apply klt_nle. intros H. apply k1_neq_0. apply kle_antisym; auto. apply k01.
Qed.

Lemma kle_mul_l x y z : 0 <= z -> x <= y -> z * x <= z * y.
Proof.
  intros Hz H. apply kle_of_sub. replace (z * y - z * x) with (z * (y - x)) by ring.
  apply kmul_nonneg; auto. now apply ksub_nonneg.
Qed.

Lemma kmul_eq0 x y : x * y = 0 -> x = 0 \/ y = 0.
Proof.
  intros H. destruct (keq_dec x 0) as [->|Hx]; auto. right.
  replace y with (kinv x * (x * y)) by (field; auto). rewrite H. ring.
Qed.

Lemma ksum0 x y : 0 <= x -> 0 <= y -> x + y = 0 -> x = 0 /\ y = 0.
Proof.
  intros Hx Hy H.
  assert (x <= 0).
  { apply kle_of_sub. replace (0 - x) with ((x + y) - x) by (rewrite H; ring).
    now replace (x + y - x) with y by ring. }
  assert (x = 0) by (apply kle_antisym; auto). subst x.
  split; auto. rewrite <- H. ring.
Qed.

Lemma ksqr_eq0 x : x * x = 0 -> x = 0.
Proof. intros H. destruct (kmul_eq0 _ _ H); auto. Qed.

Lemma kofnat_nonneg n : (0:F) <= kofnat n.
Proof. induction n; simpl; [apply kle_refl|]. apply kadd_nonneg; auto. apply k01. Qed.

Lemma kofnat_S_neq0 n : (kofnat (S n) : F) <> 0.
Proof.
  simpl. intros H.
  destruct (ksum0 (kofnat_nonneg n) k01 H) as [_ H1]. now apply k1_neq_0.
Qed.

Lemma kofnat_neq0 n : n <> O -> (kofnat n : F) <> 0.
Proof. destruct n; [congruence|]. intros _. apply kofnat_S_neq0. Qed.

Lemma kofnat_pos n : n <> O -> (0:F) < kofnat n.
Proof.
  intros H. apply klt_nle. intros H1. apply (kofnat_neq0 H). apply kle_antisym; auto.
  apply kofnat_nonneg.
Qed.

Lemma kofnat_add n m : (kofnat (n + m) : F) = kofnat n + kofnat m.
Proof. induction n; simpl; [ring|rewrite IHn; ring]. Qed.
Lemma kofnat_mul n m : (kofnat (n * m) : F) = kofnat n * kofnat m.
Proof. induction n; simpl; [ring|rewrite kofnat_add, IHn; ring]. Qed.
Lemma kofnat_1 : (kofnat 1 : F) = 1.
Proof. simpl. ring. Qed.

Lemma kinv_nonneg x : 0 <= x -> x <> 0 -> 0 <= kinv x.
Proof.
  intros H Hx. replace (kinv x) with (x * (kinv x * kinv x)) by (field; auto).
  apply kmul_nonneg; auto. apply ksqr_nonneg.
Qed.

Lemma kdiv_nonneg x y : 0 <= x -> 0 <= y -> y <> 0 -> 0 <= x / y.
Proof.
  intros. replace (x / y) with (x * kinv y) by (field; auto).
  apply kmul_nonneg; auto. now apply kinv_nonneg.
Qed.

Lemma kle_div_1 x y : 0 <= y -> y <> 0 -> x <= y -> x / y <= 1.
Proof.
  intros H0 Hy H. apply kle_of_sub. replace (1 - x / y) with ((y - x) * kinv y) by (field; auto).
  apply kmul_nonneg. now apply ksub_nonneg. now apply kinv_nonneg.
Qed.
End OFieldLaws.
Arguments kle_dec {F}. Arguments keq_dec {F}. Arguments ksqr_nonneg {F}.

(** a field seen as star ring with trivial conjugation: entries of real arrays *)
Definition KStar (F : OField) : StarRing :=
  @mkSR F k0 k1 kadd kmul ksub kopp (fun x => x) (F_R (k_field F))
    (fun _ _ => eq_refl) (fun _ _ => eq_refl) (fun _ => eq_refl).
Canonical KStar.

Section KSums.
Variable F : OField.
Add Field Ffield : (k_field F).
Local Open Scope k_scope.

Lemma ksumn_nonneg n (f : nat -> KStar F) :
  (forall i, lt i n -> kle (F:=F) k0 (f i)) -> kle (F:=F) k0 (sumn n f).
Proof.
  induction n; simpl; intros H. apply kle_refl.
  apply kadd_nonneg; auto.
Qed.

Lemma ksumn_le n (f g : nat -> KStar F) :
  (forall i, lt i n -> kle (F:=F) (f i) (g i)) -> kle (F:=F) (sumn n f) (sumn n g).
Proof.
  induction n; simpl; intros H. apply kle_refl.
  apply kle_add2; auto.
Qed.

Lemma ksumn_eq0 n (f : nat -> KStar F) :
  (forall i, lt i n -> kle (F:=F) k0 (f i)) -> sumn n f = k0 -> forall i, lt i n -> f i = k0.
Proof.
  induction n; intros H H0 i Hi; [lia|].
  simpl in H0. destruct (@ksum0 F (sumn n f) (f n)) as [A B]; auto.
  - apply (@ksumn_nonneg n). auto.
  - destruct (Nat.eq_dec i n) as [->|]; auto. apply IHn; auto. lia.
Qed.

Lemma ksumn_const n (c : F) : sumn (S:=KStar F) n (fun _ => c) = kofnat n * c.
Proof. induction n; simpl in *; [ring|]. rewrite IHn. ring. Qed.
End KSums.
