(** The absolute costs of the analyser (C72). *)
Require Import List Arith Lia Bool Reals Lra.
From Verif Require Import LibBase LibRing LibCplx M_Absolute S_Stats.
Import ListNotations.
Open Scope res_scope.
Set Implicit Arguments.

Lemma fold_added (l : list R) : fold_left Rplus l 0%R = added l.
Proof.
  unfold added. enough (H : forall a, fold_left Rplus l a = (a + fold_right Rplus 0 l)%R) by (rewrite H; lra).
  induction l as [|x l IH]; intros a; cbn [fold_left fold_right]; [lra|]. rewrite IH. lra.
Qed.
Lemma root_sum_norm k (v : list R) : length v = k -> @root_sum RField sqrt k v = norm2 v.
Proof. intros <-. unfold root_sum. rewrite Nat.eqb_refl. unfold norm2. f_equal. apply fold_added. Qed.
Lemma list_max_ge (l : list nat) x : In x l -> x <= list_max l.
Proof. intros H. assert (X := proj1 (list_max_le l (list_max l)) (Nat.le_refl _)). rewrite Forall_forall in X. auto. Qed.
Lemma mapM_nth {A B} (f : A -> res B) (g : A -> B) l : (forall x, In x l -> f x = Ok (g x)) -> mapM f l = Ok (map g l).
Proof.
  induction l as [|x l IH]; intros H; cbn [mapM map]; auto. rewrite (H x) by now left. cbn [bind]. rewrite IH by (intros; apply H; now right). reflexivity.
Qed.
Theorem absolute_values (runs : list (list (list R))) k : runs <> [] -> 0 < k -> (forall run, In run runs -> run <> [] /\ forall v, In v run -> length v = k) ->
  exists A, @absolute_costs RField sqrt runs = Ok A /\ length A = length runs /\
   forall i run row, nth_error runs i = Some run -> nth_error A i = Some row -> length row = list_max (map (@length _) runs) /\
    (forall j v, nth_error run j = Some v -> nth_error row j = Some (Some (norm2 v))) /\ (forall j, length run <= j < length row -> nth_error row j = Some None).
Proof.
  intros Hn Hk H. destruct runs as [|r0 runs]; [contradiction|]. destruct (H r0 (or_introl eq_refl)) as [N0 L0]. destruct r0 as [|v0 r0]; [contradiction|].
  unfold absolute_costs. change (kcar RField) with R. rewrite (L0 v0 (or_introl eq_refl)). set (rs := (v0 :: r0) :: runs) in *. set (n := list_max (map (@length _) rs)).
  rewrite (@mapM_nth _ _ _ (fun run => map (fun v => Some (norm2 v)) run ++ repeat None (n - length run))).
  2:{ intros run Hr. destruct (H run Hr) as [N L]. destruct run as [|v run]; [contradiction|]. unfold absolute_row. change (kcar RField) with R.
      match goal with |- context [forallb ?f ?l] => assert (forallb f l = true) as -> end.
      { apply forallb_forall. intros u Hu. apply Nat.eqb_eq. rewrite (L u Hu), (L v (or_introl eq_refl)). reflexivity. }
      rewrite (L v (or_introl eq_refl)), Nat.eqb_refl. cbn [orb]. f_equal. destruct (Nat.eqb_spec k 0); [lia|]. f_equal. apply map_ext_in. intros u Hu. now rewrite root_sum_norm by auto. }
  eexists. split; [reflexivity|]. split; [apply map_length|]. intros i run row Hr Hw. rewrite nth_error_map in Hw. rewrite Hr in Hw. injection Hw as <-.
  assert (Hl : length run <= n) by (apply list_max_ge, in_map; eapply nth_error_In; eauto).
  assert (HL : length (map (fun v => Some (norm2 v)) run ++ repeat None (n - length run)) = n) by (rewrite app_length, map_length, repeat_length; lia).
  split; [exact HL|]. split.
  - intros j v Hv. rewrite nth_error_app1 by (rewrite map_length; apply nth_error_Some; congruence). rewrite nth_error_map, Hv. reflexivity.
  - intros j Hj. rewrite HL in Hj. rewrite nth_error_app2 by (rewrite map_length; lia). rewrite map_length. apply nth_error_repeat. lia.
Qed.
(** the exceptions *)
Theorem absolute_empty : @absolute_costs RField sqrt [] = Err ValueError.
Proof. reflexivity. Qed.
Theorem absolute_first_empty runs : @absolute_costs RField sqrt ([] :: runs) = Err IndexError.
Proof. reflexivity. Qed.
Theorem absolute_run_empty (rest : list (list (list R))) v r0 : In [] rest -> @absolute_costs RField sqrt ((v :: r0) :: rest) = Err ValueError.
Proof.
  intros Hi. unfold absolute_costs. set (n := list_max _). set (k := length v). assert (Hi' : In [] ((v :: r0) :: rest)) by now right. clearbody n k. clear Hi. induction ((v :: r0) :: rest) as [|x l IH]; [contradiction|]. cbn [mapM].
  destruct Hi' as [->|Hi].
  - reflexivity.
  - unfold absolute_row at 1. destruct x as [|u x]; [reflexivity|]. destruct (forallb _ _); [|reflexivity]. destruct (_ || _); [|reflexivity]. cbn [bind]. rewrite IH by exact Hi. reflexivity.
Qed.
(** one cost among runs with k costs counts k times *)
Theorem absolute_broadcast (v : list R) x k : length v = k -> k <> 1 -> @absolute_costs RField sqrt [[v]; [[x]]] = Ok [[Some (norm2 v)]; [Some (norm2 (repeat x k))]].
Proof.
  intros L Hk. unfold absolute_costs. cbn [mapM map length list_max fold_right Nat.max]. unfold absolute_row at 1. cbn [forallb length]. change (kcar RField) with R. rewrite !L, !Nat.eqb_refl. cbn [andb orb map length app bind].
  unfold absolute_row. cbn [forallb length]. change (Nat.eqb 1 1) with true. cbn [andb]. rewrite orb_true_r. cbn [map length Nat.sub repeat app bind].
  rewrite (@root_sum_norm k v L). unfold root_sum. cbn [length]. destruct (Nat.eqb_spec 1 k); [lia|]. cbn [nth]. unfold norm2. rewrite <- !fold_added. reflexivity.
Qed.
Lemma norm34 : norm2 [3%R; 4%R] = 5%R.
Proof. unfold norm2, added. cbn [map fold_right]. replace (3 * 3 + (4 * 4 + 0))%R with (5 * 5)%R by lra. apply sqrt_square. lra. Qed.
Theorem absolute_sum : exists (runs : list (list (list R))) v z, In [v] runs /\ @absolute_costs RField sqrt runs = Ok [[Some z]] /\ z <> added v.
Proof.
  exists [[[3%R; 4%R]]], [3%R; 4%R], 5%R. split; [now left|]. destruct (@absolute_values [[[3%R; 4%R]]] 2) as (A & E & L & H); [discriminate|lia| |].
  { intros run [<-|[]]. split; [discriminate|]. intros v [<-|[]]. reflexivity. }
  rewrite E. destruct A as [|row [|]]; try discriminate. destruct (H 0 _ row eq_refl eq_refl) as (L1 & V & _). specialize (V 0 _ eq_refl). destruct row as [|o [|]]; try discriminate.
  injection V as ->. rewrite norm34. split; [reflexivity|]. unfold added. cbn. lra.
Qed.
Theorem absolute_case : @absolute_costs RField sqrt [[[3%R; 4%R]; [0%R; 1%R]]; [[0%R; 2%R]]] = Ok [[Some 5%R; Some 1%R]; [Some 2%R; None]].
Proof.
  destruct (@absolute_values [[[3%R; 4%R]; [0%R; 1%R]]; [[0%R; 2%R]]] 2) as (A & E & L & H); [discriminate|lia| |].
  { intros run [<-|[<-|[]]]; (split; [discriminate|]); intros v Hv; repeat (destruct Hv as [<-|Hv]; [reflexivity|]); destruct Hv. }
  rewrite E. f_equal. destruct A as [|r1 [|r2 [|]]]; try discriminate. destruct (H 0 _ r1 eq_refl eq_refl) as (L1 & V1 & _). destruct (H 1 _ r2 eq_refl eq_refl) as (L2 & V2 & W2).
  cbn in L1, L2. assert (A0 := V1 0 _ eq_refl). assert (A1 := V1 1 _ eq_refl). assert (B0 := V2 0 _ eq_refl). assert (B1 := W2 1 ltac:(cbn; lia)).
  destruct r1 as [|x [|y [|]]]; try discriminate. destruct r2 as [|z [|u [|]]]; try discriminate. cbn [nth_error] in *. injection A0 as ->. injection A1 as ->. injection B0 as ->. injection B1 as ->.
  assert (norm2 [0%R; 1%R] = 1%R) as -> by (unfold norm2, added; cbn [map fold_right]; replace (0 * 0 + (1 * 1 + 0))%R with 1%R by lra; apply sqrt_1).
  assert (norm2 [0%R; 2%R] = 2%R) as -> by (unfold norm2, added; cbn [map fold_right]; replace (0 * 0 + (2 * 2 + 0))%R with (2 * 2)%R by lra; apply sqrt_square; lra).
  now rewrite norm34.
Qed.
