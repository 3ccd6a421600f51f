(** Pool.map does not depend on the size of the pool and the interleaving of its workers. *)
Require Import List Arith Lia Permutation.
From Verif Require Import LibBase M_OpHeap M_Pool P_OpHeap P_Loops.
Import ListNotations.
Set Implicit Arguments.

Section Pool.
Variables A B : Type.
Variable f : A -> res B.

Lemma concat_chunks_fuel c fuel (xs : list A) : 0 < c -> length xs <= fuel -> concat (chunks_fuel fuel c xs) = xs.
Proof.
  intros Hc. revert xs. induction fuel; intros xs Hf.
  - destruct xs; cbn in *; auto; lia.
  - destruct xs as [|x xs]; auto. cbn [chunks_fuel concat]. rewrite IHfuel; [apply firstn_skipn|]. rewrite skipn_length. cbn [length] in *. lia.
Qed.
Lemma concat_chunks c (xs : list A) : 0 < c -> concat (chunks c xs) = xs.
Proof. intros Hc. now apply concat_chunks_fuel. Qed.

Lemma mapM_app (l l' : list A) : mapM f (l ++ l') = bind (mapM f l) (fun a => bind (mapM f l') (fun b => Ok (a ++ b))).
Proof.
  induction l as [|x l IH]; cbn [app mapM bind].
  - destruct (mapM f l'); auto.
  - destruct (f x); cbn [bind]; auto. rewrite IH. destruct (mapM f l); cbn [bind]; auto. destruct (mapM f l'); cbn [bind]; auto.
Qed.
Lemma mapM_concat (chs : list (list A)) : mapM f (concat chs) = bind (mapM (mapM f) chs) (fun yss => Ok (concat yss)).
Proof.
  induction chs as [|ch chs IH]; cbn [concat mapM bind]; auto. rewrite mapM_app, IH. destruct (mapM f ch); cbn [bind]; auto. destruct (mapM (mapM f) chs); cbn [bind]; auto.
Qed.

(** once failed, failed *)
Lemma report_failed chs sched rs e : fold_left (report f chs) sched (rs, Some e) = (rs, Some e).
Proof. induction sched; cbn; auto. Qed.
Lemma report_spec chs sched rs : NoDup sched -> (forall i, In i sched -> i < length rs) ->
  match fold_left (report f chs) sched (rs, None) with
  | (rs', None) => length rs' = length rs /\ (forall i, In i sched -> exists ys, mapM f (nth i chs []) = Ok ys /\ nth i rs' None = Some ys) /\
                   (forall i, ~ In i sched -> nth i rs' None = nth i rs None)
  | (_, Some e) => exists i, In i sched /\ mapM f (nth i chs []) = Err e
  end.
Proof.
  intros ND. revert rs. induction ND as [|i sched Hi ND IH]; intros rs Hr; cbn [fold_left].
  - split; auto. split; auto. intros i [].
  - unfold report at 2. cbn [snd fst]. destruct (mapM f (nth i chs [])) as [ys|e] eqn:E.
    + specialize (IH (lset rs i (Some ys))).
      assert (Hr' : forall j, In j sched -> j < length (lset rs i (Some ys))) by (intros j Hj; rewrite lset_length; apply Hr; now right).
      specialize (IH Hr'). destruct (fold_left (report f chs) sched (lset rs i (Some ys), None)) as [rs' [e'|]].
      * destruct IH as (j & Hj & Ej). exists j. split; auto. now right.
      * destruct IH as (L & H1 & H2). rewrite lset_length in L. split; auto. split.
        -- intros j [<-|Hj]; auto. exists ys. split; auto. rewrite H2 by auto. rewrite nth_lset by (apply Hr; now left). now rewrite Nat.eqb_refl.
        -- intros j Hj. rewrite H2 by (intros X; apply Hj; now right). rewrite nth_lset by (apply Hr; now left). destruct (Nat.eqb_spec i j); auto. subst. exfalso. apply Hj. now left.
    + rewrite report_failed. exists i. split; auto. now left.
Qed.

Lemma mapM_err_in {X Y} (g : X -> res Y) l e : mapM g l = Err e -> exists x, In x l /\ g x = Err e.
Proof.
  induction l as [|x l IH]; cbn; [discriminate|]. destruct (g x) eqn:E; [|intros H; inversion H; subst; eauto].
  destruct (mapM g l) eqn:E2; [discriminate|]. intros H. inversion H; subst. destruct (IH eq_refl) as (x' & ? & ?). eauto.
Qed.
Lemma mapM_ok_in {X Y} (g : X -> res Y) l ys : mapM g l = Ok ys -> forall x, In x l -> exists y, g x = Ok y.
Proof.
  revert ys. induction l as [|x l IH]; cbn; intros ys H x' Hx; [tauto|]. destruct (g x) eqn:E; [|discriminate]. destruct (mapM g l) eqn:E2; [|discriminate].
  destruct Hx as [<-|Hx]; eauto.
Qed.
Lemma mapM_nth_of {X Y} (g : X -> res Y) l ys dx dy : length ys = length l -> (forall i, i < length l -> g (nth i l dx) = Ok (nth i ys dy)) -> mapM g l = Ok ys.
Proof.
  revert ys. induction l as [|x l IH]; intros [|y ys] L H; cbn in L; try discriminate; auto. cbn [mapM].
  pose proof (H 0 ltac:(cbn; lia)) as H0. cbn in H0. rewrite H0. rewrite (IH ys); auto. intros i Hi. apply (H (S i)). cbn. lia.
Qed.

Lemma pool_map_ok c sched xs ys : 0 < c -> Permutation sched (seq 0 (length (chunks c xs))) -> (pool_map f c sched xs = Ok ys <-> mapM f xs = Ok ys).
Proof.
  intros Hc HP. set (chs := chunks c xs) in *.
  assert (ND : NoDup sched) by (apply (Permutation_NoDup (Permutation_sym HP)); apply seq_NoDup).
  assert (Hr : forall i, In i sched <-> i < length chs). { intros i. split; intros H; [apply (Permutation_in i HP) in H; apply in_seq in H; lia|]. apply (Permutation_in i (Permutation_sym HP)). apply in_seq. lia. }
  assert (Hr' : forall i, In i sched -> i < length (repeat (@None (list B)) (length chs))) by (intros i Hi; rewrite repeat_length; now apply Hr).
  pose proof (@report_spec chs sched (repeat None (length chs)) ND Hr') as H.
  assert (EX : mapM f xs = bind (mapM (mapM f) chs) (fun yss => Ok (concat yss))). { rewrite <- (concat_chunks xs Hc) at 1. apply mapM_concat. }
  unfold pool_map. fold chs. destruct (fold_left (report f chs) sched (repeat None (length chs), None)) as [rs [e|]].
  - destruct H as (i & Hi & E). split; [discriminate|]. intros H. rewrite EX in H.
    destruct (mapM (mapM f) chs) as [yss|] eqn:E2; [|discriminate]. apply Hr in Hi. destruct (mapM_ok_in _ _ E2 (nth i chs []) ltac:(now apply nth_In)) as [y Ey]. congruence.
  - destruct H as (L & H1 & _). rewrite repeat_length in L.
    assert (E2 : mapM (mapM f) chs = Ok (map (fun r => match r with Some ys => ys | None => [] end) rs)).
    { apply mapM_nth_of with (dx := []) (dy := []); [now rewrite map_length|]. intros i Hi. destruct (H1 i (proj2 (Hr i) Hi)) as (zs & E1 & E3). rewrite E1. f_equal.
      symmetry. etransitivity; [apply (@map_nth _ _ (fun r : option (list B) => match r with Some ys => ys | None => [] end) rs None i)|]. now rewrite E3. }
    rewrite EX, E2. cbn [bind]. reflexivity.
Qed.
(** the exception is the exception of some input *)
Lemma pool_map_err c sched xs e : 0 < c -> Permutation sched (seq 0 (length (chunks c xs))) -> pool_map f c sched xs = Err e -> exists x, In x xs /\ f x = Err e.
Proof.
  intros Hc HP. set (chs := chunks c xs) in *.
  assert (ND : NoDup sched) by (apply (Permutation_NoDup (Permutation_sym HP)); apply seq_NoDup).
  assert (Hr' : forall i, In i sched -> i < length (repeat (@None (list B)) (length chs))).
  { intros i Hi. rewrite repeat_length. apply (Permutation_in i HP) in Hi. apply in_seq in Hi. lia. }
  pose proof (@report_spec chs sched (repeat None (length chs)) ND Hr') as H. unfold pool_map. fold chs.
  destruct (fold_left (report f chs) sched (repeat None (length chs), None)) as [rs [e'|]]; [|discriminate].
  intros E. inversion E; subst e'. destruct H as (i & Hi & Ei). specialize (Hr' i Hi). rewrite repeat_length in Hr'.
  destruct (mapM_err_in _ _ Ei) as (x & Hx & Ex). exists x. split; auto. rewrite <- (concat_chunks xs Hc). apply in_concat. exists (nth i chs []). split; auto. now apply nth_In.
Qed.
End Pool.
