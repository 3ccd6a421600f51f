(** The derivative of the total propagator. *)
Require Import List Arith Lia Bool Reals.
From Verif Require Import LibBase LibRing LibArr LibCplx LibMat LibNorm LibDeriv M_Matrix S_Linear P_Linear M_OpHeap M_Transfer S_Transfer M_Amplitude M_Solver S_Solver P_Loops P_Solver P_Solver2 P_Solver3 P_Solver4 P_Solver5 P_Solver6 P_Solver7.
Import ListNotations.
Set Implicit Arguments.

Section Replace.
Variable F : OField.
Notation S := (CStar F).
Notation op := (op F).
Notation dop := (Arr [] [] : op).
Lemma prods_prefix (es : list op) (x X : op) t i : i <= t -> nth i (x :: prods (lset es t X) x) dop = nth i (x :: prods es x) dop.
Proof.
  revert x t i. induction es as [|P es IH]; intros x t i Hi; [reflexivity|].
  destruct i; [reflexivity|]. destruct t; [lia|].
  change (nth i (mmul (S:=S) P x :: prods (lset es t X) (mmul (S:=S) P x)) dop = nth i (mmul (S:=S) P x :: prods es (mmul (S:=S) P x)) dop). apply IH. lia.
Qed.
Lemma rprods_prefix (es : list op) (x X : op) t i : i <= t -> nth i (x :: rprods (lset es t X) x) dop = nth i (x :: rprods es x) dop.
Proof.
  revert x t i. induction es as [|P es IH]; intros x t i Hi; [reflexivity|].
  destruct i; [reflexivity|]. destruct t; [lia|].
  change (nth i (mmul (S:=S) x P :: rprods (lset es t X) (mmul (S:=S) x P)) dop = nth i (mmul (S:=S) x P :: rprods es (mmul (S:=S) x P)) dop). apply IH. lia.
Qed.
Lemma lset_app {A} (l l' : list A) i (x : A) : lset (l ++ l') i x = if Nat.ltb i (length l) then lset l i x ++ l' else l ++ lset l' (i - length l) x.
Proof.
  revert i. induction l as [|a l IH]; intros i; cbn [app length].
  - now rewrite Nat.sub_0_r.
  - destruct i; [reflexivity|]. cbn [lset app]. rewrite IH. change (Nat.ltb (Datatypes.S i) (Datatypes.S (length l))) with (Nat.ltb i (length l)). destruct (Nat.ltb i (length l)); reflexivity.
Qed.
Lemma rev_lset {A} (l : list A) i (x : A) : i < length l -> rev (lset l i x) = lset (rev l) (length l - 1 - i) x.
Proof.
  revert i. induction l as [|a l IH]; intros i Hi; [cbn in Hi; lia|]. destruct i; cbn [lset rev length].
  - rewrite lset_app, rev_length. destruct (Nat.ltb_spec (Datatypes.S (length l) - 1 - 0) (length l)); [lia|]. replace (Datatypes.S (length l) - 1 - 0 - length l) with 0 by lia. reflexivity.
  - cbn in Hi. rewrite lset_app, rev_length. rewrite IH by lia. destruct (Nat.ltb_spec (Datatypes.S (length l) - 1 - Datatypes.S i) (length l)); [|lia].
    now replace (Datatypes.S (length l) - 1 - Datatypes.S i) with (length l - 1 - i) by lia.
Qed.
Lemma Forall_lset {A} (Q : A -> Prop) l i x : Forall Q l -> Q x -> Forall Q (lset l i x).
Proof. intros H Hx. revert i. induction H; intros i; cbn; auto. destruct i; auto. Qed.

(** the product with factor t replaced *)
Lemma replaced d k (es : list op) (x X : op) t : Forall (wfm (S:=S) d d : op -> Prop) es -> wfm (S:=S) d k x -> wfm (S:=S) d d X -> t < length es ->
  nth (length es) (x :: prods (lset es t X) x) dop =
  mmul (S:=S) (nth (Datatypes.S t) (rev (mid (S:=S) d :: rprods (rev es) (mid (S:=S) d))) dop) (mmul (S:=S) X (nth t (x :: prods es x) dop)).
Proof.
  intros He Hx HX Ht.
  assert (He' : Forall (wfm (S:=S) d d : op -> Prop) (lset es t X)) by now apply Forall_lset.
  assert (L : length (lset es t X) = length es) by apply lset_length.
  pose proof (@telescope F d k (lset es t X) x (Datatypes.S t) He' Hx ltac:(lia)) as T. rewrite L in T. 
  etransitivity; [symmetry; exact T|]. clear T. apply (f_equal2 (mmul (S:=S))).
  - rewrite rev_lset by auto.
    assert (L1 : forall l : list op, length (mid (S:=S) d :: rprods l (mid (S:=S) d)) = Datatypes.S (length l)) by (intros; cbn [length]; apply f_equal; apply rprods_length).
    rewrite !rev_nth by (rewrite L1, ?lset_length, rev_length; lia). rewrite !L1, lset_length, rev_length.
    apply rprods_prefix. lia.
  - rewrite prods_step by lia. apply (f_equal2 (mmul (S:=S))); [|apply prods_prefix; lia].
    rewrite (@nth_lset _ es t X dop t Ht). now rewrite Nat.eqb_refl.
Qed.
End Replace.

Section Deriv.
Notation op := (op RField).

Notation dop := (Arr [] [] : op).
Variable rexp : kcar RField -> kcar RField.
Variable la : LinAlg RField.
Variable eps : cplx RField.

Lemma used_total d (s0 s : st) (es : list op) fs rs n k t (X Y : R -> op) (dX Rt ft W Z : op) a :
  used rexp la eps d s0 s -> returns rexp la eps s SPropag (VProp (map Some es)) -> returns rexp la eps s SFwd (VOps fs) -> returns rexp la eps s SRev (VOps rs) ->
  all_square n (map Some es) -> is_matrix n k (c_init (s_conf s)) -> t < length es ->
  (forall h, is_matrix n n (X h)) -> is_matrix n n dX -> (forall i j, i < n -> j < n -> cderiv (fun h => mg (X h) i j) a (mg dX i j)) ->
  (forall h, chain n k (lset es t (X h)) (c_init (s_conf s)) (Y h)) ->
  nth_error (rev rs) (Datatypes.S t) = Some Rt -> nth_error fs t = Some ft -> is_product n n k dX ft W -> is_product n n k Rt W Z ->
  forall i j, i < n -> j < k -> cderiv (fun h => mg (Y h) i j) a (mg Z i j).
Proof.
  intros HU Hp Hf Hr Hn Hi Ht HX HdX Hd HY HRt Hft HW HZ i j Hij Hj.
  destruct (@used_value RField rexp la eps d s0 s SPropag _ HU eq_refl Hp) as (g & es1 & A1 & A2 & A3).
  destruct (@used_value RField rexp la eps d s0 s SFwd _ HU eq_refl Hf) as (g' & es' & B1 & B2 & B3).
  destruct (@used_value RField rexp la eps d s0 s SRev _ HU eq_refl Hr) as (g2 & es2 & C1 & C2 & C3).
  assert (es1 = es). { clear - A3. revert es1 A3. induction es as [|e es IH]; intros [|e1 es1] H; try discriminate; auto. cbn in H. inversion H; subst. f_equal. auto. } subst es1.
  assert (g' = g) by congruence. subst g'. assert (es' = es) by congruence. subst es'. assert (g2 = g) by congruence. subst g2. assert (es2 = es) by congruence. subst es2.
  apply all_square_map in Hn. apply is_matrix_wfm in Hi. apply is_matrix_wfm in HdX.
  assert (HX' : forall h, wfm (S:=RS) n n (X h)) by (intros h; apply is_matrix_wfm; apply HX). clear HX.
  unfold fwd_of in B3. cbn [s_conf bare] in B3. change [c_init (s_conf s)] with ([] ++ [c_init (s_conf s)]) in B3.
  rewrite (@fwd_foldM RField n k) in B3 by auto. inversion B3; subst fs. clear B3. cbn [app] in Hft.
  pose proof (@rev_of_val RField n es rs Hn C3) as ->.
  set (f := nth t (c_init (s_conf s) :: prods es (c_init (s_conf s))) dop).
  set (R0 := nth (Datatypes.S t) (rev (mid (S:=RS) n :: rprods (rev es) (mid (S:=RS) n))) dop).
  assert (ft = f) by (symmetry; exact (@nth_error_nth _ _ _ _ dop Hft)). subst ft.
  assert (Rt = R0) by (symmetry; exact (@nth_error_nth _ _ _ _ dop HRt)). subst Rt.
  assert (Wf : wfm (S:=RS) n k f) by (apply prods_wf; auto; lia).
  assert (L1 : length (mid (S:=RS) n :: rprods (rev es) (mid (S:=RS) n)) = Datatypes.S (length es)) by (cbn [length]; apply f_equal; etransitivity; [apply rprods_length|apply rev_length]).
  assert (WR : wfm (S:=RS) n n R0).
  { unfold R0. rewrite rev_nth by (rewrite L1; lia). apply rprods_wf; [now apply Forall_rev|apply wfm_mid|]. rewrite L1, rev_length. lia. }
  apply is_product_eq in HW; auto. apply is_product_eq in HZ; auto; [|subst W; eapply wfm_mmul; eauto]. subst W Z.
  assert (EY : forall h, Y h = mmul (S:=RS) R0 (mmul (S:=RS) (X h) f)).
  { intros h. pose proof (HY h) as H. 
    apply (@chain_prods RField n k (lset es t (X h)) (c_init (s_conf s)) (Y h)) in H; [|apply (@Forall_lset op); auto|auto].
    etransitivity; [exact H|]. rewrite lset_length. apply (@replaced RField n k); auto. }
  apply (@cderiv_ext (fun h => sumn (S:=RS) n (fun a0 => cmul (mg R0 i a0) (sumn (S:=RS) n (fun b => cmul (mg (X h) a0 b) (mg f b j)))))).
  { intros h. rewrite EY. rewrite (@mg_mmul RS n n k) by (auto; eapply wfm_mmul; eauto). apply sumn_ext. intros a0 Ha. tocplx. f_equal. now rewrite (@mg_mmul RS n n k). }
  rewrite (@mg_mmul RS n n k) by (auto; eapply wfm_mmul; eauto).
  eapply cderiv_eq; [|apply cderiv_sumn; intros a0 Ha; apply cderiv_scale; apply cderiv_sumn; intros b Hb; apply cderiv_scale_r; apply Hd; auto].
  apply sumn_ext. intros a0 Ha. tocplx. f_equal. symmetry. now apply (@mg_mmul RS n n k).
Qed.
End Deriv.
