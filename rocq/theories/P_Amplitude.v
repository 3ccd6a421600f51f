(** Proofs about amplitude functions (C22). *)
Require Import List Arith Lia Bool Reals Lra.
From Verif Require Import LibBase LibRing LibArr LibCplx LibMat LibDeriv M_Transfer M_Amplitude S_Deriv S_Amplitude.
Import ListNotations.
Set Implicit Arguments.

Lemma Rsum_sumn n (f : nat -> R) : Rsum n f = sumn (S:=KStar RField) n f.
Proof. induction n; cbn; auto. now rewrite IHn. Qed.
Lemma Rsum_ext n f g : (forall i, i < n -> f i = g i) -> Rsum n f = Rsum n g.
Proof. induction n; cbn; intros H; auto. rewrite IHn, H; auto. Qed.
Lemma Rsum_0 n f : (forall i, i < n -> f i = 0%R) -> Rsum n f = 0%R.
Proof. induction n; cbn; intros H; auto. rewrite IHn, H; auto. lra. Qed.
Lemma Rsum_single n k f : k < n -> (forall i, i < n -> i <> k -> f i = 0%R) -> Rsum n f = f k.
Proof. intros H1 H2. rewrite Rsum_sumn. now rewrite (@sumn_single (KStar RField) n k). Qed.
Lemma Rsum_mul_l n c f : Rsum n (fun i => (c * f i)%R) = (c * Rsum n f)%R.
Proof. induction n; cbn; [lra|]. rewrite IHn. lra. Qed.
Lemma Rsum_mul_r n c f : Rsum n (fun i => (f i * c)%R) = (Rsum n f * c)%R.
Proof. induction n; cbn; [lra|]. rewrite IHn. lra. Qed.
Lemma Rsum_swap n m (f : nat -> nat -> R) : Rsum n (fun i => Rsum m (fun j => f i j)) = Rsum m (fun j => Rsum n (fun i => f i j)).
Proof.
  transitivity (sumn (S:=KStar RField) n (fun i => sumn (S:=KStar RField) m (fun j => f i j))).
  - rewrite Rsum_sumn. apply (@sumn_ext (KStar RField)). intros. apply Rsum_sumn.
  - rewrite (@sumn_swap (KStar RField)). rewrite (Rsum_sumn m). apply (@sumn_ext (KStar RField)). intros. symmetry. apply Rsum_sumn.
Qed.

Lemma has_gradient_partial T P f x g t p : wfa [T; P] x -> t < T -> p < P ->
  has_gradient T P f x g -> is_partial T P f x t p (g t p).
Proof.
  intros Hx Ht Hp H. unfold is_partial.
  assert (Hc : curve_at T P x (bump T P x t p) (fun t' p' => if (Nat.eqb t' t && Nat.eqb p' p)%bool then 1%R else 0%R)).
  { split; [|split].
    - apply (@arr2_ext R 0%R T P); [apply wfa_mk2|exact Hx|]. intros i j Hi Hj. unfold bump. rewrite get2_mk2 by auto.
      destruct (Nat.eqb i t && Nat.eqb j p)%bool; unfold ent; lra.
    - intros. apply wfa_mk2.
    - intros t' p' Ht' Hp'. unfold ent at 1, bump.
      apply derivable_pt_lim_ext with (fun s => if (Nat.eqb t' t && Nat.eqb p' p)%bool then (ent x t' p' + s)%R else ent x t' p').
      + intros s. rewrite get2_mk2 by auto. reflexivity.
      + destruct (Nat.eqb t' t && Nat.eqb p' p)%bool.
        * replace 1%R with (0 + 1)%R by lra. apply (derivable_pt_lim_plus (fct_cte (ent x t' p')) id 0 0 1).
          apply derivable_pt_lim_const. apply derivable_pt_lim_id.
        * apply derivable_pt_lim_const. }
  specialize (H _ _ Hc). cbn beta in H.
  replace (g t p) with (Rsum T (fun t0 => Rsum P (fun p0 => (g t0 p0 * (if (t0 =? t) && (p0 =? p) then 1 else 0))%R))); auto.
  rewrite (@Rsum_single T t); auto.
  - rewrite (@Rsum_single P p); auto.
    + rewrite !Nat.eqb_refl. cbn. lra.
    + intros i _ Hi. apply Nat.eqb_neq in Hi. rewrite Nat.eqb_refl, Hi. cbn. lra.
  - intros i _ Hi. apply Rsum_0. intros j _. apply Nat.eqb_neq in Hi. rewrite Hi. cbn. lra.
Qed.

Lemma vectorize_get (F : OField) (f : F -> F) x u T P t p : wfa [T; P] x -> vectorize F f x = Ok u -> t < T -> p < P ->
  wfa [T; P] u /\ get2 k0 u t p = f (get2 k0 x t p).
Proof.
  intros [Hs Hl] H Ht Hp. unfold vectorize in H. destruct (negb _) eqn:E; [|discriminate]. injection H as <-.
  split; [split; cbn; auto; now rewrite map_length|].
  unfold get2, getn. cbn [shape data]. rewrite Hs. rewrite (nth_indep _ k0 (f k0)).
  - now rewrite map_nth.
  - rewrite map_length, Hl. apply ravel_lt. now apply vidx2.
Qed.
Lemma vectorize_defined (F : OField) (f : F -> F) x T P : wfa [T; P] x -> 0 < T -> 0 < P -> exists u, vectorize F f x = Ok u /\ wfa [T; P] u.
Proof.
  intros [Hs Hl] H1 H2. unfold vectorize. destruct (Nat.eqb_spec (length (data x)) 0) as [E|E].
  - rewrite Hl in E. cbn in E. nia.
  - cbn. eexists; split; eauto. split; cbn; auto. now rewrite map_length.
Qed.

Lemma dims3 {X} m n p (a : arr X) : wfa [m; n; p] a -> rank a = 3 /\ dim0 a = m /\ dim1 a = n /\ dim2 a = p.
Proof. intros [H _]. unfold rank, dim0, dim1, dim2. rewrite H. auto. Qed.
Lemma dims2 {X} m n (a : arr X) : wfa [m; n] a -> rank a = 2 /\ dim0 a = m /\ dim1 a = n.
Proof. intros [H _]. unfold rank, dim0, dim1. rewrite H. auto. Qed.
Lemma lab_same n : lab n n = Ok n.
Proof. unfold lab. now rewrite Nat.eqb_refl. Qed.
Lemma bi_same n i : i < n -> bi n i = i.
Proof. unfold bi. destruct (Nat.eqb_spec n 1); auto. lia. Qed.

(** C22 *)
Lemma amplitude_chain_rule (T P C nf : nat) (a : amp RField) (x u g : RA) (f : nat -> RA -> R) :
  0 < T -> 0 < P ->
  wfa [T; P] x -> correct_derivative T P C a x -> amp_call a x = Ok u -> wfa [T; nf; C] g ->
  (forall k, k < nf -> has_gradient T C (f k) u (fun t c => get3 0%R g t k c)) ->
  exists d, amp_chain a g x = Ok d /\ wfa [T; nf; P] d /\
    forall k, k < nf -> has_gradient T P (after_amp a (f k)) x (fun t p => get3 0%R d t k p).
Proof.
  intros HT HP Hx Hd Hu Hg Hf. destruct a as [|v dv|v dv]; cbn [amp_call amp_chain correct_derivative] in *.
  - subst C. injection Hu as <-. exists g. split; auto.
  - destruct Hd as [-> Hd].
    destruct (@vectorize_defined RField dv x T C Hx HT HP) as (d & Ed & Wd). rewrite Ed. cbn [bind].
    unfold einsum_unary. destruct (@dims2 (kcar RField) _ _ d Wd) as (R1 & R2 & R3). destruct (@dims3 (kcar RField) _ _ _ g Hg) as (R4 & R5 & R6 & R7).
    rewrite R1, R2, R3, R4, R5, R6, R7, !lab_same. cbn [Nat.eqb andb bind]. eexists. split; [reflexivity|].
    split; [apply wfa_mk3|]. intros k Hk c w Hc.
    assert (Hcv : exists uc, (forall s, vectorize RField v (c s) = Ok (uc s)) /\ curve_at T C u uc (fun t p => (dv (ent x t p) * w t p)%R)).
    { exists (fun s => Arr (shape (c s)) (map v (data (c s)))). destruct Hc as (C1 & C2 & C3).
      assert (E : forall s, vectorize RField v (c s) = Ok (Arr (shape (c s)) (map v (data (c s))))).
      { intros s. destruct (@vectorize_defined RField v (c s) T C (C2 s) HT HP) as (us & Eu & _). clear - Eu. unfold vectorize in *.
        match goal with |- (if ?b then _ else _) = _ => destruct b end; [reflexivity|discriminate]. }
      split; [exact E|]. split; [|split].
      - specialize (E 0%R). rewrite C1 in E. rewrite C1. rewrite Hu in E. now injection E.
      - intros s. destruct (@vectorize_defined RField v (c s) T C (C2 s) HT HP) as (us & Eu & W). rewrite E in Eu. injection Eu as <-. auto.
      - intros t p Ht Hp. apply derivable_pt_lim_ext with (fun s => v (ent (c s) t p)).
        + intros s. destruct (@vectorize_get RField v (c s) _ T C t p (C2 s) (E s) Ht Hp) as [_ Eg]. symmetry. exact Eg.
        + pose proof (derivable_pt_lim_comp (fun s => ent (c s) t p) v 0 (w t p) (dv (ent x t p)) (C3 t p Ht Hp)) as Hcomp.
          apply Hcomp. rewrite C1. apply Hd; auto. }
    destruct Hcv as (uc & Ec & Hcv). unfold after_amp. cbn [amp_call].
    apply derivable_pt_lim_ext with (fun s => f k (uc s)); [intros s; now rewrite Ec|].
    match goal with |- derivable_pt_lim _ _ ?l => replace l with (Rsum T (fun t => Rsum C (fun p => (get3 0%R g t k p * (dv (ent x t p) * w t p))%R))) end.
    { apply (Hf k Hk _ _ Hcv). }
    apply Rsum_ext. intros t Ht. apply Rsum_ext. intros p Hp. change (0%R) with (k0 (o:=RField)).
    rewrite get3_mk3 by auto. rewrite !bi_same by auto.
    destruct (@vectorize_get RField dv x d T C t p Hx Ed Ht Hp) as [_ Eg]. rewrite Eg. unfold ent. cbn. lra.
  - destruct Hd as (Hv & d & Ed & Wd & Hd). rewrite Ed. cbn [bind].
    unfold einsum_custom. destruct (@dims3 (kcar RField) _ _ _ d Wd) as (R1 & R2 & R3 & R3'). destruct (@dims3 (kcar RField) _ _ _ g Hg) as (R4 & R5 & R6 & R7).
    rewrite R1, R2, R3, R3', R4, R5, R6, R7, !lab_same. cbn [Nat.eqb andb bind]. eexists. split; [reflexivity|].
    split; [apply wfa_mk3|]. intros k Hk c w Hc.
    destruct (Hv x Hx) as (u' & E' & Wu). rewrite Hu in E'. injection E' as <-.
    set (uc := fun s => match v (c s) with Ok y => y | Err _ => u end).
    assert (E : forall s, v (c s) = Ok (uc s) /\ wfa [T; C] (uc s)).
    { intros s. destruct Hc as (_ & C2 & _). destruct (Hv (c s) (C2 s)) as (y & Ey & Wy). unfold uc. rewrite Ey. auto. }
    assert (Hcv : curve_at T C u uc (fun t j => Rsum P (fun p => (get3 0%R d t p j * w t p)%R))).
    { split; [|split].
      - destruct Hc as (C1 & _). unfold uc. now rewrite C1, Hu.
      - intros s. apply E.
      - intros t j Ht Hj. apply derivable_pt_lim_ext with (fun s => match v (c s) with Ok y => ent y t j | Err _ => 0%R end).
        + intros s. destruct (E s) as [E1 _]. now rewrite E1.
        + apply (Hd _ _ Hc); auto. }
    unfold after_amp. cbn [amp_call].
    apply derivable_pt_lim_ext with (fun s => f k (uc s)); [intros s; destruct (E s) as [-> _]; reflexivity|].
    match goal with |- derivable_pt_lim _ _ ?l => replace l with
      (Rsum T (fun t => Rsum C (fun j => (get3 0%R g t k j * Rsum P (fun p => (get3 0%R d t p j * w t p)%R))%R))) end.
    { apply (Hf k Hk _ _ Hcv). }
    apply Rsum_ext. intros t Ht.
    rewrite (@Rsum_ext C _ (fun j => Rsum P (fun p => (get3 0%R g t k j * (get3 0%R d t p j * w t p))%R)))
      by (intros; now rewrite Rsum_mul_l).
    rewrite Rsum_swap. apply Rsum_ext. intros p Hp. change (0%R) with (k0 (o:=RField)).
    rewrite get3_mk3 by auto. rewrite <- (Rsum_sumn C). change (kcar RField) with R. rewrite <- Rsum_mul_r. apply Rsum_ext. intros j Hj.
    rewrite !bi_same by auto. cbn. lra.
Qed.

(** the partial derivatives *)
Lemma amplitude_partials (T P C nf : nat) (a : amp RField) (x u g : RA) (f : nat -> RA -> R) :
  0 < T -> 0 < P ->
  wfa [T; P] x -> correct_derivative T P C a x -> amp_call a x = Ok u -> wfa [T; nf; C] g ->
  (forall k, k < nf -> has_gradient T C (f k) u (fun t c => get3 0%R g t k c)) ->
  exists d, amp_chain a g x = Ok d /\
    forall t k p, t < T -> k < nf -> p < P -> is_partial T P (after_amp a (f k)) x t p (get3 0%R d t k p).
Proof.
  intros. destruct (@amplitude_chain_rule T P C nf a x u g f) as (d & E & W & Hd); auto.
  exists d. split; auto. intros. apply (@has_gradient_partial T P _ x (fun t p => get3 0%R d t k p)); auto.
Qed.

(** a value function that mixes time steps: u[0] = x[0] + x[1], u[1] = x[1].  The array of derivatives
    du[t]/dx[t] is all ones, yet the chain rule is wrong *)
Definition mix (y : RA) : res RA :=
  Ok (mk2 2 1 (fun t _ => if Nat.eqb t 0 then (ent y 0 0 + ent y 1 0)%R else ent y 1 0)).
Definition ones3 : RA := mk3 2 1 1 (fun _ _ _ => 1%R).
Definition mix_amp : amp RField := ACustom (F:=RField) mix (fun _ => Ok ones3).

Lemma mix_refuted : exists (a : amp RField) (x u g d : RA) (f : RA -> R),
  wfa [2; 1] x /\ amp_call a x = Ok u /\ wfa [2; 1] u /\
  (forall t, t < 2 -> is_partial 2 1 (fun y => match amp_call a y with Ok w => ent w t 0 | Err _ => 0%R end) x t 0 1) /\
  (exists f' df', a = ACustom (F:=RField) f' df' /\ df' x = Ok ones3) /\
  has_gradient 2 1 f u (fun t c => get3 0%R g t 0 c) /\ amp_chain a g x = Ok d /\
  ~ is_partial 2 1 (after_amp a f) x 1 0 (get3 0%R d 1 0 0).
Proof.
  exists mix_amp, (mk2 2 1 (fun _ _ => 0%R)), (mk2 2 1 (fun _ _ => 0%R)), (mk3 2 1 1 (fun t _ _ => if Nat.eqb t 0 then 1%R else 0%R)),
    (mk3 2 1 1 (fun t _ _ => if Nat.eqb t 0 then 1%R else 0%R)), (fun y => ent y 0 0).
  split; [apply wfa_mk2|]. split.
  { cbn. unfold mix. f_equal. apply mk2_ext. intros. unfold ent. rewrite !get2_mk2 by lia. destruct (Nat.eqb i 0); lra. }
  split; [apply wfa_mk2|]. split.
  { intros t Ht. unfold is_partial. cbn [amp_call mix_amp]. unfold mix.
    apply derivable_pt_lim_ext with (fun s : R => s).
    - intros s. unfold ent. rewrite get2_mk2 by lia. unfold bump, ent. destruct t as [|[|]]; [| |lia]; cbn [Nat.eqb];
        rewrite !get2_mk2 by lia; cbn; lra.
    - apply derivable_pt_lim_id. }
  split; [eexists; eexists; split; reflexivity|]. split.
  { intros c v (C1 & C2 & C3). specialize (C3 0 0 ltac:(lia) ltac:(lia)). cbn [Rsum].
    rewrite !get3_mk3 by lia. cbn [Nat.eqb]. match goal with |- derivable_pt_lim _ _ ?l => replace l with (v 0%nat 0%nat) by lra end. exact C3. }
  split.
  { cbn [amp_chain mix_amp bind]. unfold einsum_custom, ones3, lab. cbn [rank dim0 dim1 dim2 mk3 mkn shape nth length Nat.eqb andb bind].
    f_equal. apply mk3_ext. intros i j k Hi Hj Hk. cbn [sumn]. change (k0 (o:=RField)) with 0%R. unfold bi. cbn [Nat.eqb].
    rewrite (@get3_mk3 R 0%R 2 1 1) by lia. rewrite (@get3_mk3 R 0%R 2 1 1) by lia. cbn. lra. }
  intros H. unfold is_partial in H. rewrite get3_mk3 in H by lia. cbn [Nat.eqb] in H.
  assert (H' : derivable_pt_lim (fun s : R => s) 0%R 0%R).
  { apply derivable_pt_lim_ext with (2 := H). intros s. unfold after_amp, mix_amp. cbn [amp_call]. unfold mix, ent. rewrite get2_mk2 by lia.
    unfold bump, ent. cbn [Nat.eqb]. rewrite !get2_mk2 by lia. cbn. lra. }
  pose proof (uniqueness_limite _ _ _ _ H' (derivable_pt_lim_id 0%R)). lra.
Qed.

(** cases for the examples: the amplitude x^2, and the custom function u = x[0] * x[1] of two parameters *)
Definition square : amp RField := AUnary (F:=RField) (fun z : R => (z * z)%R) (fun z : R => (2 * z)%R).
Lemma square_correct T P x : correct_derivative T P P square x.
Proof.
  split; auto. intros t p _ _. set (z := ent x t p).
  replace (2 * z)%R with (1 * z + z * 1)%R by lra. apply (derivable_pt_lim_mult id id z 1 1); apply derivable_pt_lim_id.
Qed.
Definition product : amp RField := ACustom (F:=RField)
  (fun y => Ok (mk2 1 1 (fun _ _ => (ent y 0 0 * ent y 0 1)%R)))
  (fun y => Ok (mk3 1 2 1 (fun _ p _ => ent y 0 (1 - p)))).
Lemma product_correct x : wfa [1; 2] x -> correct_derivative 1 2 1 product x.
Proof.
  intros Hx. split.
  - intros y _. eexists. split; [reflexivity|]. apply wfa_mk2.
  - eexists. split; [reflexivity|]. split; [apply wfa_mk3|]. intros c v (C1 & C2 & C3) t k Ht Hk.
    assert (t = 0) by lia. assert (k = 0) by lia. subst t k.
    apply derivable_pt_lim_ext with (fun s => (ent (c s) 0 0 * ent (c s) 0 1)%R).
    { intros s. unfold ent at 3. rewrite get2_mk2 by lia. reflexivity. }
    cbn [Rsum]. rewrite !get3_mk3 by lia. cbn [Nat.sub].
    match goal with |- derivable_pt_lim _ _ ?l => replace l with (v 0%nat 0%nat * ent (c 0%R) 0 1 + ent (c 0%R) 0 0 * v 0%nat 1%nat)%R end.
    + apply (derivable_pt_lim_mult (fun s => ent (c s) 0 0) (fun s => ent (c s) 0 1)); apply C3; lia.
    + rewrite C1. cbn. lra.
Qed.
(** a function of one amplitude *)
Lemma first_entry_gradient T P u : wfa [T; P] u -> 0 < T -> 0 < P ->
  has_gradient T P (fun y => ent y 0 0) u (fun t p => if (Nat.eqb t 0 && Nat.eqb p 0)%bool then 1%R else 0%R).
Proof.
  intros Hu HT HP c v (C1 & C2 & C3).
  replace (Rsum T _) with (v 0%nat 0%nat); [apply C3; auto|].
  rewrite (@Rsum_single T 0); auto.
  - rewrite (@Rsum_single P 0); auto; [cbn; lra|]. intros i _ Hi. apply Nat.eqb_neq in Hi. rewrite Hi. cbn. lra.
  - intros i _ Hi. apply Rsum_0. intros. apply Nat.eqb_neq in Hi. rewrite Hi. cbn. lra.
Qed.
Lemma product_case : exists x u g d,
  wfa [1; 2] x /\ correct_derivative 1 2 1 product x /\ amp_call product x = Ok u /\ wfa [1; 1; 1] g /\
  has_gradient 1 1 (fun y => ent y 0 0) u (fun t c => get3 0%R g t 0 c) /\
  amp_chain product g x = Ok d /\ get3 0%R d 0 0 0 = 3%R /\ get3 0%R d 0 0 1 = 2%R.
Proof.
  exists (mk2 1 2 (fun _ p => if Nat.eqb p 0 then 2%R else 3%R)). eexists. exists (mk3 1 1 1 (fun _ _ _ => 1%R)). eexists.
  split; [apply wfa_mk2|]. split; [apply product_correct; apply wfa_mk2|]. split; [reflexivity|]. split; [apply wfa_mk3|]. split.
  { intros c v H. rewrite (@Rsum_ext 1 _ (fun t => Rsum 1 (fun p => ((if (Nat.eqb t 0 && Nat.eqb p 0)%bool then 1%R else 0%R) * v t p)%R))).
    - apply (@first_entry_gradient 1 1 _ ltac:(apply wfa_mk2) ltac:(lia) ltac:(lia) c v H).
    - intros i Hi. apply Rsum_ext. intros j Hj. assert (i = 0) by lia. assert (j = 0) by lia. subst. cbn [Nat.eqb andb].
      rewrite get3_mk3 by lia. reflexivity. }
  split; [reflexivity|]. cbn [dim0 dim1 dim2 mk3 mkn shape nth length lab Nat.eqb].
  change (k0 (o:=RField)) with 0%R. rewrite !(@get3_mk3 R 0%R) by lia. cbn [sumn]. unfold bi. cbn [Nat.eqb dim0 dim2 shape nth mkn].
  rewrite !(@get3_mk3 R 0%R) by lia. unfold ent. cbn [Nat.sub]. rewrite !get2_mk2 by lia. cbn. split; lra.
Qed.
