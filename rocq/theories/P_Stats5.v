(** The shares of the analyser (C71). *)
Require Import List Arith Lia Bool Reals Lra.
From Verif Require Import LibBase LibRing LibArr LibCplx LibMat M_Matrix M_OpHeap M_Transfer M_Amplitude M_Solver M_Cost M_Simulator M_Optimizer M_Stats S_Stats P_Stats P_Stats2 P_Stats3 P_Stats4.
Import ListNotations.
Open Scope res_scope.
Set Implicit Arguments.
Local Notation stats := (@stats RField).

Lemma np_sum_added (l : list R) : np_sum (F:=RField) l = added l.
Proof.
  unfold np_sum, added. cbn [kadd k0 RField]. enough (H : forall a, fold_left Rplus l a = (a + fold_right Rplus 0 l)%R) by (rewrite H; lra).
  induction l as [|x l IH]; intros a; cbn [fold_left fold_right]; [lra|]. rewrite IH. lra.
Qed.
Lemma added_app a b : added (a ++ b) = (added a + added b)%R.
Proof. exact (lsum_app a b). Qed.
Lemma added_map_plus {A} (f g : A -> R) l : added (map (fun x => (f x + g x)%R) l) = (added (map f l) + added (map g l))%R.
Proof. unfold added. induction l as [|x l IH]; cbn [map fold_right]; [lra|]. rewrite IH. lra. Qed.
Lemma added_zero {A} (l : list A) : added (map (fun _ => 0%R) l) = 0%R.
Proof. unfold added. induction l as [|x l IH]; cbn [map fold_right]; [lra|]. rewrite IH. lra. Qed.
Lemma added_nth (q : list R) : added (map (fun i => nth i q 0%R) (seq 0 (length q))) = added q.
Proof.
  f_equal. apply nth_ext with (d := 0%R) (d' := 0%R); [now rewrite map_length, seq_length|]. intros i Hi. rewrite map_length, seq_length in Hi.
  rewrite (nth_indep _ 0%R (nth 0 q 0%R)) by (now rewrite map_length, seq_length). rewrite (map_nth (fun i => nth i q 0%R)). now rewrite seq_nth.
Qed.
Lemma added_columns n (rows : list (list R)) : Forall (fun q => length q = n) rows ->
  added (map (fun i => added (map (fun q => nth i q 0%R) rows)) (seq 0 n)) = added (concat rows).
Proof.
  induction rows as [|q rows IH]; intros H; cbn [map concat].
  - apply added_zero.
  - inversion H; subst. rewrite added_app, <- IH by assumption. change (fun i => added (nth i q 0%R :: map (fun q => nth i q 0%R) rows)) with (fun i => (nth i q 0 + added (map (fun q => nth i q 0) rows))%R).
    rewrite added_map_plus. now rewrite added_nth.
Qed.
Lemma column_sums_even (rows : list (list R)) : even rows -> exists v, column_sums (F:=RField) rows = Ok v /\ np_sum (F:=RField) v = added (concat rows).
Proof.
  intros [n H]. destruct rows as [|q rows]; [exists []; split; reflexivity|]. unfold column_sums. inversion H as [|? ? L R]; subst.
  match goal with |- context [if ?b then _ else _] => assert (b = true) as -> end.
  { apply forallb_forall. intros q0 Hq. apply Nat.eqb_eq. now apply (proj1 (Forall_forall _ _) H). }
  eexists. split; [reflexivity|]. rewrite np_sum_added. rewrite <- (added_columns H). f_equal. apply map_ext. intros i. apply np_sum_added.
Qed.
Lemma column_sums_Ok (rows : list (list R)) v : column_sums (F:=RField) rows = Ok v -> even rows.
Proof.
  destruct rows as [|q rows]; intros E; [exists 0; constructor|]. unfold column_sums in E. destruct (forallb _ _) eqn:EF; [|discriminate].
  exists (length q). apply Forall_forall. intros q0 Hq. apply (proj1 (forallb_forall _ _) EF) in Hq. now apply Nat.eqb_eq.
Qed.
Lemma total_of_even (f : stats -> list (list R)) l : Forall (fun t => even (f t)) l -> forall acc,
  foldM (fun (acc : R) t => v <- column_sums (F:=RField) (f t) ;; Ok (acc + np_sum (F:=RField) v)%R) l acc = Ok (acc + recorded f l)%R.
Proof.
  induction 1 as [|t l H HL IH]; intros acc; cbn [foldM]; [unfold recorded, added; cbn; f_equal; lra|]. destruct (column_sums_even H) as (v & -> & E). cbn [bind].
  rewrite IH. f_equal. unfold recorded. cbn [flat_map]. rewrite added_app, E. lra.
Qed.
Lemma total_of_Ok (f : stats -> list (list R)) l : forall acc r,
  foldM (fun (acc : R) t => v <- column_sums (F:=RField) (f t) ;; Ok (acc + np_sum (F:=RField) v)%R) l acc = Ok r -> Forall (fun t => even (f t)) l.
Proof.
  induction l as [|t l IH]; intros acc r; cbn [foldM]; [constructor|]. destruct (column_sums (F:=RField) (f t)) as [v|] eqn:E; cbn [bind]; [|discriminate]. intros H. constructor; [|eapply IH; eauto].
  eapply column_sums_Ok; eauto.
Qed.
Lemma opt_times_lasted l ds : Forall2 lasted l ds -> opt_times (F:=RField) l = Ok ds.
Proof.
  intros H. unfold opt_times. induction H as [|t d l ds (b & e & B & E & ->) _ IH]; [reflexivity|]. cbn [mapM]. rewrite B, E. cbn [bind]. rewrite IH. reflexivity.
Qed.
Lemma opt_times_Ok l ds : opt_times (F:=RField) l = Ok ds -> Forall2 lasted l ds.
Proof.
  unfold opt_times. revert ds. induction l as [|t l IH]; intros ds; cbn [mapM]; [intros E; injection E as <-; constructor|].
  destruct (t_begin t) as [b|] eqn:B; [|discriminate]. destruct (t_end t) as [e|] eqn:E; [|discriminate]. cbn [bind]. destruct (mapM _ l) as [ds'|]; [|discriminate]. cbn [bind]. intros Q. injection Q as <-.
  constructor; [exists b, e; auto|]. apply IH. reflexivity.
Qed.
Theorem share_values l ds : Forall2 lasted l ds -> Forall (fun t : stats => even (cost_times t) /\ even (grad_times t)) l ->
  time_share_cost (F:=RField) l = Ok (recorded (@cost_times RField) l / added ds)%R /\ time_share_grad (F:=RField) l = Ok (recorded (@grad_times RField) l / added ds)%R.
Proof.
  intros HD HE. assert (H1 : Forall (fun t : stats => even (cost_times t)) l) by (eapply Forall_impl; [|exact HE]; cbv beta; intros t [Q1 Q2]; assumption).
  assert (H2 : Forall (fun t : stats => even (grad_times t)) l) by (eapply Forall_impl; [|exact HE]; cbv beta; intros t [Q1 Q2]; assumption).
  unfold time_share_cost, time_share_grad, share, total_cost_time, total_grad_time, total_of, integral_cost_times, integral_grad_times. rewrite (opt_times_lasted HD).
  assert (X1 := @total_of_even (@cost_times RField) l H1 0%R). assert (X2 := @total_of_even (@grad_times RField) l H2 0%R). rewrite Rplus_0_l in X1, X2.
  split; [refine (eq_trans (f_equal (fun z => bind z _) X1) _)|refine (eq_trans (f_equal (fun z => bind z _) X2) _)]; cbn [bind]; rewrite np_sum_added; reflexivity.
Qed.

(** ---- the shares of recorded runs ---- *)
Lemma positive_added rows : positive rows -> (0 <= added (concat rows))%R.
Proof.
  induction rows as [|q rows IH]; intros H; [unfold added; cbn; lra|]. inversion H as [|? ? Q R]; subst. cbn [concat]. rewrite added_app. specialize (IH R).
  enough (0 <= added q)%R by lra. clear -Q. induction Q; unfold added in *; cbn; lra.
Qed.
Lemma total_concat rows : total rows = added (concat rows).
Proof. induction rows as [|q rows IH]; [reflexivity|]. cbn [concat]. rewrite added_app, <- IH. reflexivity. Qed.
Lemma recorded_cons f t (l : list stats) : recorded f (t :: l) = (added (concat (f t)) + recorded f l)%R.
Proof. unfold recorded. cbn [flat_map]. apply added_app. Qed.
Lemma outcomes_bound fin l ds : Forall (outcome fin) l -> Forall2 lasted l ds ->
  (0 <= recorded (@cost_times RField) l)%R /\ (0 <= recorded (@grad_times RField) l)%R /\ (recorded (@cost_times RField) l + recorded (@grad_times RField) l <= added ds)%R.
Proof.
  intros HO HD. revert HO. induction HD as [|t d l ds HT HD IH]; intros HO; [unfold recorded, added; cbn; lra|]. inversion HO as [|? ? O1 O2]; subst. specialize (IH O2).
  destruct O1 as (rexp & la & eps & clock & m & dl & kd & me & cf & y0 & sp & s & s' & res & a & M & C & E & N & K & _).
  destruct (@run_fits rexp la eps clock M m dl kd me cf y0 sp s s' res a C E K) as (t' & N' & B & P1 & P2 & e & Ee & L). assert (t' = t) as -> by congruence.
  destruct HT as (b & e' & B' & E' & ->). rewrite !recorded_cons. rewrite !total_concat in L. assert (X1 := positive_added P1). assert (X2 := positive_added P2).
  assert (e' = e) as -> by congruence. assert (b = clock (tw_n (o_w s))) as -> by congruence. unfold added at 5. cbn [fold_right]. fold (added ds). lra.
Qed.
Theorem shares_bound fin l a b ts : Forall (outcome fin) l -> time_share_cost (F:=RField) l = Ok a -> time_share_grad (F:=RField) l = Ok b -> opt_times (F:=RField) l = Ok ts -> (0 < added ts)%R ->
  (0 <= a)%R /\ (0 <= b)%R /\ (a + b <= 1)%R.
Proof.
  intros HO EA EB ET HP. assert (HD := opt_times_Ok _ ET).
  assert (HE : Forall (fun t : stats => even (cost_times t) /\ even (grad_times t)) l).
  { unfold time_share_cost, time_share_grad, share, total_cost_time, total_grad_time, total_of, integral_cost_times, integral_grad_times in EA, EB.
    destruct (foldM _ _ _) as [ra|] eqn:FA in EA; [|discriminate]. destruct (foldM _ _ _) as [rb|] eqn:FB in EB; [|discriminate].
    assert (X1 := @total_of_Ok (@cost_times RField) l 0%R ra FA). assert (X2 := @total_of_Ok (@grad_times RField) l 0%R rb FB). rewrite Forall_forall in *. auto. }
  destruct (share_values HD HE) as [VA VB]. rewrite VA in EA. rewrite VB in EB. injection EA as <-. injection EB as <-. destruct (outcomes_bound HO HD) as (X1 & X2 & X3).
  split; [|split].
  - apply Rmult_le_pos; auto. now apply Rlt_le, Rinv_0_lt_compat.
  - apply Rmult_le_pos; auto. now apply Rlt_le, Rinv_0_lt_compat.
  - unfold Rdiv. rewrite <- Rmult_plus_distr_r. apply (Rmult_le_reg_r (added ts)); auto. rewrite Rmult_assoc, Rinv_l by lra. lra.
Qed.
Theorem shares_return fin l : (fin 5 = false) -> Forall (outcome fin) l -> exists a b ts, time_share_cost (F:=RField) l = Ok a /\ time_share_grad (F:=RField) l = Ok b /\ opt_times (F:=RField) l = Ok ts.
Proof.
  intros Hf HO.
  assert (exists ds, Forall2 lasted l ds) as [ds HD].
  { clear Hf. induction HO as [|t l O1 HO [ds IH]]; [now exists []|].
    destruct O1 as (rexp & la & eps & clock & m & dl & kd & me & cf & y0 & sp & s & s' & res & a & M & C & E & N & K & _).
    destruct (@run_fits rexp la eps clock M m dl kd me cf y0 sp s s' res a C E K) as (t' & N' & B & _ & _ & e & Ee & _). assert (t' = t) as -> by congruence.
    exists ((e - clock (tw_n (o_w s)))%R :: ds). constructor; auto. eexists. eexists. eauto. }
  assert (HE : Forall (fun t : stats => even (cost_times t) /\ even (grad_times t)) l).
  { eapply Forall_impl; [|exact HO]. cbv beta. intros t (rexp & la & eps & clock & m & dl & kd & me & cf & y0 & sp & s & s' & res & a & M & C & E & N & K & Fi).
    destruct (@run_rect rexp la eps clock m dl kd me cf y0 sp s s' res a C E) as (t' & N' & R1 & R2). { intros Q. rewrite Q in Fi. congruence. }
    assert (t' = t) as -> by congruence. split; eexists; eassumption. }
  destruct (share_values HD HE) as [VA VB]. exists (recorded (@cost_times RField) l / added ds)%R, (recorded (@grad_times RField) l / added ds)%R, ds. split; [exact VA|]. split; [exact VB|]. now apply opt_times_lasted.
Qed.
