(** Complex numbers over an ordered field (library file): python's complex / numpy complex128,
    without rounding.  Instances: canonical rationals and the stdlib reals. *)
Require Import List Arith Lia Bool.
Require Import Ring Field Ring_theory Field_theory.
Require Import QArith Qcanon Reals Lra.
From Verif Require Import LibRing.
Import ListNotations.
Set Implicit Arguments.

Definition cplx (F : OField) : Type := (F * F)%type.

Section Cplx.
Variable F : OField.
Add Field Ffield : (k_field F).
Local Open Scope k_scope.
Notation C := (cplx F).

Definition cre (z : C) : F := fst z.
Definition cim (z : C) : F := snd z.
Definition c0 : C := (0, 0).
Definition c1 : C := (1, 0).
Definition ci : C := (0, 1).
Definition cofk (x : F) : C := (x, 0).
Definition cadd (x y : C) : C := (fst x + fst y, snd x + snd y).
Definition csub (x y : C) : C := (fst x - fst y, snd x - snd y).
Definition copp (x : C) : C := (- fst x, - snd x).
Definition cmul (x y : C) : C := (fst x * fst y - snd x * snd y, fst x * snd y + snd x * fst y).
Definition cconj (x : C) : C := (fst x, - snd x).
(** |z|^2 *)
Definition cnorm2 (x : C) : F := fst x * fst x + snd x * snd x.
Definition cinv (x : C) : C := (fst x / cnorm2 x, - snd x / cnorm2 x).
Definition cdiv (x y : C) : C := cmul x (cinv y).
Definition cscale (a : F) (x : C) : C := (a * fst x, a * snd x).
Definition ceqb (x y : C) : bool := keqb (fst x) (fst y) && keqb (snd x) (snd y).

Lemma c_ring : ring_theory c0 c1 cadd cmul csub copp (@eq C).
Proof.
  constructor; intros; unfold c0, c1, cadd, cmul, csub, copp;
    repeat match goal with x : C |- _ => destruct x end; simpl; f_equal; ring.
Qed.

Lemma cnorm2_nonneg x : 0 <= cnorm2 x.
Proof. apply kadd_nonneg; apply ksqr_nonneg. Qed.

Lemma cnorm2_eq0 x : cnorm2 x = 0 -> x = c0.
Proof.
  intros H. destruct (ksum0 (ksqr_nonneg (fst x)) (ksqr_nonneg (snd x)) H) as [A B].
  destruct x as [a b]. simpl in *. apply ksqr_eq0 in A. apply ksqr_eq0 in B. subst. reflexivity.
Qed.

Lemma cnorm2_neq0 x : x <> c0 -> cnorm2 x <> 0.
Proof. intros H H1. apply H. now apply cnorm2_eq0. Qed.

Lemma c_field : field_theory c0 c1 cadd cmul csub copp cdiv cinv (@eq C).
Proof.
  constructor.
  - apply c_ring.
  - unfold c1, c0. intros H. injection H. intros. now apply (k1_neq_0 F).
  - reflexivity.
  - intros p Hp. apply cnorm2_neq0 in Hp. destruct p as [a b].
    unfold cinv, cmul, c1. simpl. unfold cnorm2 in *. simpl in *. f_equal; field; auto.
Qed.

Lemma ceqb_eq x y : ceqb x y = true <-> x = y.
Proof.
  unfold ceqb. rewrite andb_true_iff, !keqb_eq. destruct x, y; simpl.
  split; [intros [-> ->]|intros H; injection H]; auto.
Qed.

Lemma ceq_dec (x y : C) : {x = y} + {x <> y}.
Proof.
  destruct (ceqb x y) eqn:E; [left; now apply ceqb_eq|right].
  intros H. apply ceqb_eq in H. congruence.
Qed.
Lemma cconj_add x y : cconj (cadd x y) = cadd (cconj x) (cconj y).
Proof. destruct x, y; unfold cconj, cadd; simpl; f_equal; ring. Qed.
Lemma cconj_mul x y : cconj (cmul x y) = cmul (cconj x) (cconj y).
Proof. destruct x, y; unfold cconj, cmul; simpl; f_equal; ring. Qed.
Lemma cconj_cconj x : cconj (cconj x) = x.
Proof. destruct x; unfold cconj; simpl; f_equal; ring. Qed.
Definition CStar : StarRing :=
  @mkSR C c0 c1 cadd cmul csub copp cconj c_ring cconj_add cconj_mul cconj_cconj.

Add Ring Cring : c_ring.

Lemma cmul_conj_norm2 x : cmul x (cconj x) = cofk (cnorm2 x).
Proof. destruct x. unfold cmul, cconj, cofk, cnorm2. simpl. f_equal; ring. Qed.
Lemma cnorm2_mul x y : cnorm2 (cmul x y) = cnorm2 x * cnorm2 y.
Proof. destruct x, y. unfold cnorm2, cmul. simpl. ring. Qed.
Lemma cnorm2_conj x : cnorm2 (cconj x) = cnorm2 x.
Proof. destruct x. unfold cnorm2, cconj. simpl. ring. Qed.
Lemma cscale_mul a x : cscale a x = cmul (cofk a) x.
Proof. destruct x. unfold cscale, cmul, cofk. simpl. f_equal; ring. Qed.
Lemma cofk_mul a b : cofk (a * b) = cmul (cofk a) (cofk b).
Proof. unfold cofk, cmul. simpl. f_equal; ring. Qed.
Lemma cofk_add a b : cofk (a + b) = cadd (cofk a) (cofk b).
Proof. unfold cofk, cadd. simpl. f_equal; ring. Qed.
Lemma cofk_conj a : cconj (cofk a) = cofk a.
Proof. unfold cofk, cconj. simpl. f_equal; ring. Qed.
Lemma cofk_inj a b : cofk a = cofk b -> a = b.
Proof. unfold cofk. congruence. Qed.
Lemma cofk_div a b : b <> 0 -> cofk (a / b) = cdiv (cofk a) (cofk b).
Proof.
  intros H. unfold cdiv, cofk, cinv, cmul, cnorm2. simpl.
  assert (b * b + 0 * 0 <> 0) by (intros E; apply H; replace (b*b+0*0) with (b*b) in E by ring;
    apply kmul_eq0 in E; tauto).
  f_equal; field; auto.
Qed.
Lemma ci_conj : cconj ci = copp ci.
Proof. unfold cconj, copp, ci. simpl. f_equal; ring. Qed.
Lemma ci_mul : cmul ci ci = copp c1.
Proof. unfold cmul, copp, ci, c1. simpl. f_equal; ring. Qed.
Lemma cre_add x y : cre (cadd x y) = cre x + cre y.
Proof. reflexivity. Qed.
Lemma cre_sumn n (f : nat -> CStar) :
  cre (sumn (S:=CStar) n f) = sumn (S:=KStar F) n (fun i => cre (f i)).
Proof. induction n; simpl; auto. rewrite <- IHn. reflexivity. Qed.
Lemma cim_sumn n (f : nat -> CStar) :
  cim (sumn (S:=CStar) n f) = sumn (S:=KStar F) n (fun i => cim (f i)).
Proof. induction n; simpl; auto. rewrite <- IHn. reflexivity. Qed.
Lemma cofk_sumn n (f : nat -> F) :
  cofk (sumn (S:=KStar F) n f) = sumn (S:=CStar) n (fun i => cofk (f i)).
Proof.
  induction n; [reflexivity|]. cbn [sumn]. rewrite <- IHn. apply cofk_add.
Qed.
End Cplx.
Canonical CStar.
Arguments c0 {F}. Arguments c1 {F}. Arguments ci {F}. Arguments cofk {F}.
Arguments cre {F}. Arguments cim {F}. Arguments cadd {F}. Arguments csub {F}. Arguments copp {F}.
Arguments cmul {F}. Arguments cconj {F}. Arguments cnorm2 {F}. Arguments cinv {F}. Arguments cdiv {F}.
Arguments cscale {F}. Arguments ceqb {F}.

(** canonical rationals: the computable instance *)
Definition qc_leb (x y : Qc) : bool := Qle_bool (this x) (this y).

Lemma qc_leb_le x y : qc_leb x y = true <-> (x <= y)%Qc.
Proof. unfold qc_leb. rewrite Qle_bool_iff. reflexivity. Qed.

Definition QcField : OField.
Proof.
  refine (@mkOF Qc 0%Qc 1%Qc Qcplus Qcmult Qcminus Qcopp Qcdiv Qcinv qc_leb Qcft _ _ _ _ _);
    intros; rewrite ?qc_leb_le in *.
  - destruct (Qc_dec x y) as [[H|H]|H].
    + left. now apply Qclt_le_weak.
    + right. now apply Qclt_le_weak.
    + left. subst. apply Qcle_refl.
  - now apply Qcle_antisym.
  - eapply Qcle_trans; eauto.
  - apply Qcplus_le_compat; auto. apply Qcle_refl.
  - replace 0%Qc with (0 * y)%Qc by ring. now apply Qcmult_le_compat_r.
Defined.

(** the stdlib reals *)
Definition r_leb (x y : R) : bool := if Rle_dec x y then true else false.

Lemma r_leb_le x y : r_leb x y = true <-> (x <= y)%R.
Proof. unfold r_leb. destruct (Rle_dec x y); split; intros; auto; congruence. Qed.

Definition RField : OField.
Proof.
  refine (@mkOF R 0%R 1%R Rplus Rmult Rminus Ropp Rdiv Rinv r_leb _ _ _ _ _ _);
    intros; rewrite ?r_leb_le in *; try lra.
  - apply Rfield.
  - nra.
Defined.

(** [sumn] laws with the complex operations *)
Section CSums.
Variable F : OField.
Notation Sg := (sumn (S:=CStar F)).
Lemma csumn_mul_l n (c : cplx F) f : cmul c (Sg n f) = Sg n (fun i => cmul c (f i)).
Proof. symmetry. exact (sumn_mul_l (S:=CStar F) n c f). Qed.
Lemma csumn_mul_r n (c : cplx F) f : cmul (Sg n f) c = Sg n (fun i => cmul (f i) c).
Proof. symmetry. exact (sumn_mul_r (S:=CStar F) n c f). Qed.
Lemma csumn_add n f g : cadd (Sg n f) (Sg n g) = Sg n (fun i => cadd (f i) (g i)).
Proof. symmetry. exact (sumn_add (S:=CStar F) n f g). Qed.
Lemma csumn_sub n f g : csub (Sg n f) (Sg n g) = Sg n (fun i => csub (f i) (g i)).
Proof. symmetry. exact (sumn_sub (S:=CStar F) n f g). Qed.
Notation Kg := (sumn (S:=KStar F)).
Lemma ksumn_mul_l n (c : F) f : kmul c (Kg n f) = Kg n (fun i => kmul c (f i)).
Proof. symmetry. exact (sumn_mul_l (S:=KStar F) n c f). Qed.
Lemma ksumn_mul_r n (c : F) f : kmul (Kg n f) c = Kg n (fun i => kmul (f i) c).
Proof. symmetry. exact (sumn_mul_r (S:=KStar F) n c f). Qed.
Lemma ksumn_add n f g : kadd (Kg n f) (Kg n g) = Kg n (fun i => kadd (f i) (g i)).
Proof. symmetry. exact (sumn_add (S:=KStar F) n f g). Qed.
Lemma ksumn_sub n f g : ksub (Kg n f) (Kg n g) = Kg n (fun i => ksub (f i) (g i)).
Proof. symmetry. exact (sumn_sub (S:=KStar F) n f g). Qed.
Lemma csumn_conj n f : cconj (Sg n f) = Sg n (fun i => cconj (f i)).
Proof. exact (sumn_conj (S:=CStar F) n f). Qed.
End CSums.

(** express goals over the star ring CStar with the complex operations, for [ring] and [field] *)
Ltac tocplx :=
  repeat (match goal with
  | |- context [@sadd (CStar ?F)] => change (@sadd (CStar F)) with (@cadd F)
  | |- context [@smul (CStar ?F)] => change (@smul (CStar F)) with (@cmul F)
  | |- context [@ssub (CStar ?F)] => change (@ssub (CStar F)) with (@csub F)
  | |- context [@sopp (CStar ?F)] => change (@sopp (CStar F)) with (@copp F)
  | |- context [@sconj (CStar ?F)] => change (@sconj (CStar F)) with (@cconj F)
  | |- context [@s0 (CStar ?F)] => change (@s0 (CStar F)) with (@c0 F)
  | |- context [@s1 (CStar ?F)] => change (@s1 (CStar F)) with (@c1 F)
  | |- context [scar (CStar ?F)] => change (scar (CStar F)) with (cplx F)
  end).
Ltac tok :=
  repeat (match goal with
  | |- context [@sadd (KStar ?F)] => change (@sadd (KStar F)) with (@kadd F)
  | |- context [@smul (KStar ?F)] => change (@smul (KStar F)) with (@kmul F)
  | |- context [@ssub (KStar ?F)] => change (@ssub (KStar F)) with (@ksub F)
  | |- context [@sopp (KStar ?F)] => change (@sopp (KStar F)) with (@kopp F)
  | |- context [@sconj (KStar ?F)] => change (@sconj (KStar F)) with (fun x : kcar F => x)
  | |- context [@s0 (KStar ?F)] => change (@s0 (KStar F)) with (@k0 F)
  | |- context [@s1 (KStar ?F)] => change (@s1 (KStar F)) with (@k1 F)
  | |- context [scar (KStar ?F)] => change (scar (KStar F)) with (kcar F)
  end).
Ltac cring := tocplx; first [ring | symmetry; ring].
Ltac kring := tok; first [ring | symmetry; ring].
