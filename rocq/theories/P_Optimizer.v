(** Proofs about the optimisers: parameters, jacobian layout, bookkeeping. *)
Require Import List Arith Lia Bool Ring Field.
From Verif Require Import LibBase LibRing LibArr M_OpHeap P_OpHeap M_Optimizer S_Optimizer.
Import ListNotations.
Open Scope nat_scope.
Set Implicit Arguments.

Section Flat.
Variable F : OField.
Notation arrF := (arr (kcar F)).
Add Field Kfield_o : (k_field F).

Lemma get2_arr (d : list F) m n i j : get2 k0 (Arr [m; n] d) i j = nth (i * n + j) d k0.
Proof. unfold get2, getn. cbn. f_equal. lia. Qed.
Lemma get1_arr (x : arrF) n i : wfa [n] x -> get1 k0 x i = nth i (data x) k0.
Proof. intros [H _]. unfold get1, getn. rewrite H. cbn. f_equal. lia. Qed.

Lemma unflatten_inv nt nc (x y : arrF) : unflatten nt nc x = Ok y -> length (data x) = nc * nt /\ y = mk2 nt nc (fun t c => nth (c * nt + t) (data x) k0).
Proof.
  unfold unflatten, np_reshape. cbn [prodn]. rewrite Nat.mul_1_r. destruct (Nat.eqb (nc * nt) (length (data x))) eqn:E; [|discriminate]. apply Nat.eqb_eq in E.
  cbn [bind]. intros H. inversion H. split; auto. unfold np_T. cbn [dim0 dim1 shape nth]. apply mk2_ext. intros. now rewrite get2_arr.
Qed.
Lemma unflatten_ok nt nc (x : arrF) : length (data x) = nc * nt -> unflatten nt nc x = Ok (mk2 nt nc (fun t c => nth (c * nt + t) (data x) k0)).
Proof.
  intros E. unfold unflatten, np_reshape. cbn [prodn]. rewrite Nat.mul_1_r, E, Nat.eqb_refl. cbn [bind]. f_equal. unfold np_T. cbn [dim0 dim1 shape nth].
  apply mk2_ext. intros. now rewrite get2_arr.
Qed.
Lemma flatten_wf nt nc (y : arrF) : wfa [nt; nc] y -> wfa [nt * nc] (flatten y) /\ forall t c, t < nt -> c < nc -> nth (c * nt + t) (data (flatten y)) k0 = get2 k0 y t c.
Proof.
  intros [H1 H2]. unfold flatten, np_T, dim0, dim1. rewrite H1. cbn [nth]. destruct (wfa_mk2 nc nt (fun i j => get2 k0 y j i)) as [A B]. cbn [prodn] in B. split.
  - split; cbn [shape data prodn]; rewrite B; [f_equal|]; lia.
  - intros t c Ht Hc. cbn [data]. pose proof (get2_mk2 k0 (fun i j => get2 k0 y j i) Hc Ht) as E. cbv beta in E. rewrite <- E.
    set (b := mk2 nc nt (fun i j => get2 k0 y j i)) in *. unfold get2, getn. rewrite A. cbn [ravel prodn]. f_equal. lia.
Qed.

(** C46: flatten and unflatten *)
Lemma flatten_same nt nc (y : arrF) : wfa [nt; nc] y -> same_parameters nt nc y (flatten y).
Proof. intros H. destruct (flatten_wf H) as [A B]. split; auto. split; auto. intros t c Ht Hc. rewrite (get1_arr _ A). auto. Qed.
Lemma unflatten_same nt nc (x : arrF) : wfa [nt * nc] x -> exists y, unflatten nt nc x = Ok y /\ same_parameters nt nc y x.
Proof.
  intros H. eexists. split. { apply unflatten_ok. rewrite (proj2 H). cbn. lia. } split; [apply wfa_mk2|]. split; auto.
  intros t c Ht Hc. rewrite get2_mk2 by auto. now apply get1_arr with (n := nt * nc).
Qed.
Lemma same_unique_y nt nc (y y' x : arrF) : same_parameters nt nc y x -> same_parameters nt nc y' x -> y = y'.
Proof. intros (A & _ & B) (A' & _ & B'). eapply arr2_ext with (d := k0); eauto. intros. rewrite <- B, <- B'; auto. Qed.
Lemma flat_index nt nc j : j < nt * nc -> exists t c, t < nt /\ c < nc /\ j = c * nt + t.
Proof.
  intros H. assert (nt <> 0) by (intros ->; cbn in H; lia). exists (j mod nt), (j / nt). split; [now apply Nat.mod_upper_bound|]. split.
  - apply Nat.div_lt_upper_bound; auto.
  - rewrite (Nat.div_mod j nt) at 1 by auto. lia.
Qed.
Lemma same_unique_x nt nc (y x x' : arrF) : same_parameters nt nc y x -> same_parameters nt nc y x' -> x = x'.
Proof.
  intros (_ & A & B) (_ & A' & B'). eapply arr1_ext with (d := k0); eauto. intros j Hj. destruct (flat_index _ _ Hj) as (t & c & Ht & Hc & ->). rewrite B, B'; auto.
Qed.
Theorem flat_round_trip nt nc : (forall y : arrF, wfa [nt; nc] y -> same_parameters nt nc y (flatten y) /\ unflatten nt nc (flatten y) = Ok y) /\
  (forall x : arrF, wfa [nt * nc] x -> exists y, unflatten nt nc x = Ok y /\ same_parameters nt nc y x /\ flatten y = x).
Proof.
  split.
  - intros y H. split; [now apply flatten_same|]. destruct (flatten_wf H) as [A B]. destruct (unflatten_same nt nc A) as (y' & E & S). rewrite E. f_equal.
    eapply same_unique_y; eauto. now apply flatten_same.
  - intros x H. destruct (unflatten_same nt nc H) as (y & E & S). exists y. split; auto. split; auto. eapply same_unique_x; eauto. apply flatten_same. apply S.
Qed.
(** arrays of any other size are rejected *)
Lemma unflatten_size nt nc (x : arrF) : length (data x) <> nt * nc -> unflatten nt nc x = Err ValueError.
Proof.
  intros H. unfold unflatten, np_reshape. cbn [prodn]. destruct (Nat.eqb _ _) eqn:E; auto. apply Nat.eqb_eq in E. lia.
Qed.

(** ---- jacobian ---- *)
Lemma jac_matrix_ok nt n nc (J : arrF) : wfa [nt; n; nc] J -> exists m, jac_matrix J = Ok m /\ wfa [n; nt * nc] m /\
  forall t f c, t < nt -> f < n -> c < nc -> get2 k0 m f (c * nt + t) = get3 k0 J t f c.
Proof.
  intros [H1 H2]. unfold jac_matrix, rank, dim0, dim1, dim2. rewrite H1. cbn [length Nat.eqb nth shape mk3 mkn].
  set (b := mk3 n nc nt (fun f c t => get3 k0 J t f c)). change (Arr [n; nc; nt] _) with b.
  assert (Wb : wfa [n; nc; nt] b) by apply wfa_mk3. destruct Wb as [B1 B2]. cbn [prodn] in B2.
  unfold np_reshape. cbn [prodn shape]. rewrite B2. replace (n * (nc * nt * 1)) with (n * (nc * (nt * 1))) by lia. rewrite Nat.eqb_refl.
  eexists. split; [reflexivity|]. split.
  - split; cbn [shape data]; [f_equal; f_equal; lia|]. rewrite B2. cbn. lia.
  - intros t f c Ht Hf Hc. assert (E : get3 k0 b f c t = get3 k0 J t f c) by (unfold b; now rewrite get3_mk3).
    rewrite <- E. rewrite get2_arr. unfold get3, getn. rewrite B1. cbn [ravel prodn data]. f_equal. lia.
Qed.
Lemma scale_rows_ok n k (m : arrF) ws : wfa [n; k] m -> length ws = n -> exists m', scale_rows m ws = Ok m' /\ wfa [n; k] m' /\
  forall f j, f < n -> j < k -> get2 k0 m' f j = kmul (get2 k0 m f j) (nth f ws k0).
Proof.
  intros [H1 H2] L. unfold scale_rows, dim0, dim1. rewrite H1, L. cbn [nth]. rewrite Nat.eqb_refl. cbn [orb]. eexists. split; [reflexivity|].
  assert (E : (if Nat.eqb n 1 then n else n) = n) by (destruct (Nat.eqb n 1); auto). rewrite E. split; [apply wfa_mk2|].
  intros f j Hf Hj. rewrite get2_mk2 by auto. destruct (Nat.eqb n 1) eqn:E1; auto. apply Nat.eqb_eq in E1. replace f with 0 by lia. auto.
Qed.
(** sums *)
Lemma fold_sum (g : F -> F) l : forall s, fold_left (fun s x => kadd s (g x)) l s = kadd s (sumn (S:=KStar F) (length l) (fun i => g (nth i l k0))).
Proof.
  induction l as [|x l IH]; intros s; cbn [fold_left length]. { cbn. ring. }
  rewrite IH. rewrite (@sumn_S_l (KStar F)). cbn [nth]. cbn [KStar sadd scar]. ring.
Qed.
Lemma sqnorm_sumsq (v : list F) : sqnorm v = sumsq v.
Proof. unfold sqnorm, sumsq. rewrite (fold_sum (fun x => kmul x x)). ring. Qed.
Lemma np_sum_sumn (v : list F) : np_sum v = sumn (S:=KStar F) (length v) (fun i => nth i v k0).
Proof. unfold np_sum. rewrite (fold_sum (fun x => x)). ring. Qed.
Lemma scale_costs_ok ws (v : list F) : length ws = length v -> exists v', scale_costs v ws = Ok v' /\ weighted (Some ws) v v'.
Proof.
  intros L. unfold scale_costs. rewrite L, Nat.eqb_refl. eexists. split; [reflexivity|]. split.
  - rewrite map_length, combine_length. lia.
  - intros i Hi. rewrite nth_indep with (d' := (fun p : F * F => kmul (fst p) (snd p)) (k0, k0)) by (rewrite map_length, combine_length; lia).
    rewrite (map_nth (fun p : F * F => kmul (fst p) (snd p))), combine_nth by auto. reflexivity.
Qed.
End Flat.
