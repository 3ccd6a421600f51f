(** Reindexing finite sums, for any star ring. *)
Require Import List Arith Lia Permutation Ring.
From Verif Require Import LibRing LibArr.
Import ListNotations.
Set Implicit Arguments.

Section L.
Variable S : StarRing.
Add Ring Sring_ls : (s_ring S).
Definition gsum (l : list S) : S := fold_right (@sadd S) s0 l.
Lemma gsum_perm l l' : Permutation l l' -> gsum l = gsum l'.
Proof. unfold gsum. induction 1; cbn [fold_right]; auto; try congruence. ring. Qed.
Lemma gsum_app l l' : gsum (l ++ l') = sadd (gsum l) (gsum l').
Proof. unfold gsum in *. induction l; cbn [app fold_right]; [ring|]. rewrite IHl. ring. Qed.
Lemma sumn_gsum n (f : nat -> S) : sumn (S:=S) n f = gsum (map f (seq 0 n)).
Proof.
  induction n; [reflexivity|]. rewrite seq_S, map_app, gsum_app. cbn [sumn]. rewrite IHn. unfold gsum at 3. cbn [map fold_right Nat.add]. ring.
Qed.
(** reindexing along a bijection *)
Lemma gsumn_bij n (s : nat -> nat) (f : nat -> S) : (forall i, i < n -> s i < n) ->
  (forall i j, i < n -> j < n -> s i = s j -> i = j) ->
  sumn (S:=S) n (fun i => f (s i)) = sumn (S:=S) n f.
Proof.
  intros H1 H2. rewrite !sumn_gsum. rewrite <- (map_map s f). apply gsum_perm. apply Permutation_map.
  apply NoDup_Permutation_bis.
  - apply NoDup_nth with (d := 0). rewrite map_length, seq_length. intros i j Hi Hj.
    rewrite !nth_map_seq by auto. now apply H2.
  - now rewrite map_length, !seq_length.
  - intros x Hx. apply in_map_iff in Hx. destruct Hx as (i & <- & Hi). apply in_seq in Hi. apply in_seq.
    specialize (H1 i). lia.
Qed.
Lemma divn_join n i j : j < n -> (i * n + j) / n = i.
Proof. intros H. rewrite Nat.div_add_l by lia. rewrite Nat.div_small by lia. lia. Qed.
Lemma modn_join n i j : j < n -> (i * n + j) mod n = j.
Proof. intros H. rewrite Nat.add_comm, Nat.mod_add by lia. now apply Nat.mod_small. Qed.
(** sum over a product range *)
Lemma gsumn_prod m n (f : nat -> nat -> S) :
  sumn (S:=S) m (fun i => sumn (S:=S) n (fun j => f i j)) = sumn (S:=S) (m * n) (fun k => f (k / n) (k mod n)).
Proof.
  rewrite (@sumn_mul_split S m n). apply sumn_ext. intros i Hi. apply sumn_ext. intros j Hj. now rewrite divn_join, modn_join.
Qed.
(** reindexing a double sum along an involution *)
Lemma gsumn_involution m n (s : nat -> nat -> nat * nat) (f : nat -> nat -> S) :
  (forall i j, i < m -> j < n -> fst (s i j) < m /\ snd (s i j) < n /\ s (fst (s i j)) (snd (s i j)) = (i, j)) ->
  sumn (S:=S) m (fun i => sumn (S:=S) n (fun j => f (fst (s i j)) (snd (s i j)))) =
  sumn (S:=S) m (fun i => sumn (S:=S) n (fun j => f i j)).
Proof.
  intros H. rewrite !gsumn_prod.
  destruct (Nat.eq_dec n 0) as [->|Hn]; [rewrite Nat.mul_0_r; reflexivity|].
  set (sg := fun k => fst (s (k / n) (k mod n)) * n + snd (s (k / n) (k mod n))).
  assert (B : forall k, k < m * n -> k / n < m /\ k mod n < n).
  { intros k Hk. split; [apply Nat.div_lt_upper_bound; lia|now apply Nat.mod_upper_bound]. }
  transitivity (sumn (S:=S) (m * n) (fun k => (fun k => f (k / n) (k mod n)) (sg k))).
  - apply sumn_ext. intros k Hk. destruct (B k Hk) as [B1 B2]. destruct (H _ _ B1 B2) as [A1 [A2 _]]. unfold sg. rewrite divn_join, modn_join by auto. reflexivity.
  - apply (@gsumn_bij (m * n) sg (fun k => f (k / n) (k mod n))).
    + intros k Hk. destruct (B k Hk) as [B1 B2]. destruct (H _ _ B1 B2) as [A1 [A2 _]]. unfold sg. nia.
    + intros k l Hk Hl E. destruct (B k Hk) as [B1 B2], (B l Hl) as [B3 B4].
      destruct (H _ _ B1 B2) as [A1 [A2 A3]], (H _ _ B3 B4) as [A4 [A5 A6]].
      unfold sg in E. pose proof (f_equal (fun z => z / n) E) as E1. pose proof (f_equal (fun z => z mod n) E) as E2. cbn beta in E1, E2.
      rewrite !divn_join in E1 by auto. rewrite !modn_join in E2 by auto. rewrite E1, E2, A6 in A3. injection A3 as E3 E4.
      rewrite (Nat.div_mod k n), (Nat.div_mod l n) by auto. congruence.
Qed.
End L.
