(** Bookkeeping of the optimisers: stored minimum and iteration summary. *)
Require Import List Arith Lia Bool Ring Field.
From Verif Require Import LibBase LibRing LibArr M_OpHeap P_OpHeap M_Optimizer S_Optimizer P_Optimizer.
Import ListNotations.
Open Scope nat_scope.
Set Implicit Arguments.

Lemma lset_last {A} (l : list A) x z : lset (l ++ [x]) (length l) z = l ++ [z].
Proof. induction l; cbn; auto. now rewrite IHl. Qed.
Lemma nth_error_ext {A} (l : list A) t i x : nth_error l i = Some x -> nth_error (l ++ t) i = Some x.
Proof. intros H. rewrite nth_error_app1; auto. apply nth_error_Some. congruence. Qed.
Lemma nth_error_last {A} (l : list A) x : nth_error (l ++ [x]) (length l) = Some x.
Proof. rewrite nth_error_app2 by lia. now rewrite Nat.sub_diag. Qed.
Lemma Forall2_imp {A B} (P Q : A -> B -> Prop) l l' : (forall a b, P a b -> Q a b) -> Forall2 P l l' -> Forall2 Q l l'.
Proof. induction 2; constructor; auto. Qed.
Lemma nth_error_snoc_inv {A} (l : list A) x i z : nth_error (l ++ [x]) i = Some z -> nth_error l i = Some z \/ (i = length l /\ z = x).
Proof.
  intros H. destruct (Nat.lt_ge_cases i (length l)) as [L|L]. { rewrite nth_error_app1 in H by auto. auto. }
  rewrite nth_error_app2 in H by auto. destruct (i - length l) as [|k] eqn:E; cbn in H; [|destruct k; discriminate]. right. split; [lia|congruence].
Qed.

Section One.
Variable F : OField.
Notation arrF := (arr (kcar F)).
Variable W : Type.

(** ---- one successful evaluation ---- *)
Section Step.
Variable simc : arrF -> W -> W * res (list F).
Variable simj : arrF -> W -> W * res arrF.
Lemma cost_wrapper_ok cf x now (s : @ost F W) nt nc xa y w' v v' (m : summary) :
  kltb (oc_wall cf) (ksub now (o_start s)) = false -> o_shape s = Some (nt, nc) -> nth_error (o_heap s) x = Some xa -> unflatten nt nc xa = Ok y ->
  simc y (o_w s) = (w', Ok v) -> (oc_save cf = true -> o_sum s = Some m) -> (forall b, o_min s = Some b -> b < length (o_heap s)) ->
  (match oc_weights cf with None => v' = v | Some ws => scale_costs v ws = Ok v' end) -> length v' = length v ->
  let p := mkview x nt nc in let a := length (o_heap s) in
  let b := match o_min s with None => true | Some b => kltb (sqnorm v) (sqnorm (cells_of s b)) end in
  cost_func_wrapper simc cf x now s = (mko (o_heap s ++ [Arr [length v'] v']) w' (o_shape s) (if b then Some a else o_min s) (if b then Some p else o_par s)
     (S (o_nc s)) (o_nj s) (if oc_save cf then Some (mksum (S (iter_num m)) (sum_costs m ++ [a]) (sum_grads m) (sum_pars m ++ [p])) else o_sum s) (o_start s), Ok a).
Proof.
  intros Ht Hs Hx Hy Hv Hm Hb Hw Hl p a b. unfold cost_func_wrapper. rewrite Ht, Hs, Hx, Hy, Hv. fold p a.
  assert (ES : forall s1 : @ost F W, o_sum s1 = o_sum s -> store_summary cf a p s1 =
     (with_sum s1 (if oc_save cf then Some (mksum (S (iter_num m)) (sum_costs m ++ [a]) (sum_grads m) (sum_pars m ++ [p])) else o_sum s), Ok tt)).
  { intros s1 E1. unfold store_summary. destruct (oc_save cf). { rewrite E1, (Hm eq_refl). reflexivity. } rewrite <- E1. destruct s1. reflexivity. }
  rewrite ES by reflexivity. cbv zeta. set (sm := if oc_save cf then _ else o_sum s).
  assert (EB : smaller (with_sum (with_heap (with_w s w') (o_heap s ++ [Arr [length v] v])) sm) a = b).
  { unfold smaller, b, cells_of. cbn [o_min with_sum with_heap with_w o_heap]. unfold a. destruct (o_min s) as [c|] eqn:Em; auto. rewrite nth_error_last. cbn [data].
    rewrite nth_error_app1 by (apply Hb; auto). reflexivity. }
  unfold store_min. rewrite EB. destruct (oc_weights cf) as [ws|].
  - assert (EC : forall mn pr, cells_of (with_min (with_sum (with_heap (with_w s w') (o_heap s ++ [Arr [length v] v])) sm) mn pr) a = v).
    { intros. unfold cells_of. cbn. unfold a. now rewrite nth_error_last. }
    assert (EC' : cells_of (with_sum (with_heap (with_w s w') (o_heap s ++ [Arr [length v] v])) sm) a = v).
    { intros. unfold cells_of. cbn. unfold a. now rewrite nth_error_last. }
    destruct b; [rewrite EC|rewrite EC']; rewrite Hw; unfold inc_nc, inc_nj, with_min, with_heap, with_sum, with_w; cbn; unfold a; rewrite lset_last; rewrite ?Hs; reflexivity.
  - subst v'. destruct b; unfold inc_nc, inc_nj, with_min, with_heap, with_sum, with_w; cbn; rewrite ?Hs; reflexivity.
Qed.
(** an evaluation that raised before the simulator returned leaves everything but the simulator alone *)
Lemma jac_wrapper_ok cf x (s : @ost F W) nt nc n y w' j (m : summary) : o_shape s = Some (nt, nc) -> unflatten nt nc x = Ok y -> simj y (o_w s) = (w', Ok j) ->
  wfa [nt; n; nc] j -> (oc_save cf = true -> o_sum s = Some m) -> (forall ws, oc_weights cf = Some ws -> length ws = n) ->
  exists r, cost_jacobian_wrapper simj cf x s = (mko (o_heap s) w' (o_shape s) (o_min s) (o_par s) (o_nc s) (S (o_nj s))
     (if oc_save cf then Some (mksum (iter_num m) (sum_costs m) (sum_grads m ++ [j]) (sum_pars m)) else o_sum s) (o_start s), Ok r) /\
   wfa [n; nt * nc] r /\ forall t f c, t < nt -> f < n -> c < nc -> get2 k0 r f (c * nt + t) = kmul (get3 k0 j t f c) (weight (oc_weights cf) f).
Proof.
  intros Hs Hy Hj Hw Hm Hl. unfold cost_jacobian_wrapper. rewrite Hs, Hy, Hj. cbv zeta.
  destruct (@jac_matrix_ok F _ _ _ _ Hw) as (m0 & E0 & W0 & G0).
  assert (exists r, (m1 <- jac_matrix j;; match oc_weights cf with Some ws => scale_rows m1 ws | None => Ok m1 end)%res = Ok r /\
     wfa [n; nt * nc] r /\ forall t f c, t < nt -> f < n -> c < nc -> get2 k0 r f (c * nt + t) = kmul (get3 k0 j t f c) (weight (oc_weights cf) f)) as (r & Er & Wr & Gr).
  { rewrite E0. cbn [bind]. unfold weight. destruct (oc_weights cf) as [ws|] eqn:Ew.
    - destruct (@scale_rows_ok F _ _ _ ws W0 (Hl ws eq_refl)) as (m1 & E1 & W1 & G1). exists m1. split; auto. split; auto. intros t f c Ht Hf Hc. rewrite G1; [|auto|nia]. now rewrite G0.
    - exists m0. split; auto. split; auto. intros t f c Ht Hf Hc. rewrite G0 by auto. pose proof (k_field F) as KF. symmetry. destruct KF as [KR _ _ _]. rewrite (Ring_theory.Rmul_comm KR). apply (Ring_theory.Rmul_1_l KR). }
  exists r. split; [|auto]. destruct (oc_save cf).
  - cbn [with_w o_sum]. rewrite (Hm eq_refl), Er. unfold inc_nc, inc_nj, with_min, with_heap, with_sum, with_w; cbn. now rewrite ?Hs.
  - rewrite Er. unfold inc_nc, inc_nj, with_min, with_heap, with_sum, with_w; cbn. now rewrite ?Hs.
Qed.
End Step.
End One.

Section Book.
Variable F : OField.
Notation arrF := (arr (kcar F)).
Variable W : Type.
(** ---- the invariant, for recording simulators ---- *)
Variable simc : arrF -> W -> W * res (list F).
Variable simj : arrF -> W -> W * res arrF.
Variable cf : @oconf F.
Variables nt nc n : nat.
Notation rst := (@ost F (@record F W)).
Definition cost_cell (h : list arrF) (a : nat) (e : arrF * list F) : Prop := exists v', weighted (oc_weights cf) (snd e) v' /\ nth_error h a = Some (Arr [length v'] v').
Definition par_cell (h : list arrF) (p : view) (e : arrF * list F) : Prop := exists xa, nth_error h (v_addr p) = Some xa /\ unflatten (v_t p) (v_c p) xa = Ok (fst e) /\ v_t p = nt /\ v_c p = nc.
Record book (s : rst) (lc : list (arrF * list F)) (lj : list (arrF * arrF)) : Prop := {
  b_rec : exists w, o_w s = (w, lc, lj);
  b_shape : o_shape s = Some (nt, nc);
  b_nc : o_nc s = length lc;
  b_nj : o_nj s = length lj;
  b_sum : oc_save cf = true -> exists m, o_sum s = Some m /\ iter_num m = length lc /\ sum_grads m = map snd lj /\
     Forall2 (cost_cell (o_heap s)) (sum_costs m) lc /\ Forall2 (par_cell (o_heap s)) (sum_pars m) lc;
  b_min : (lc = [] /\ o_min s = None /\ o_par s = None) \/ exists i y v a p, nth_error lc i = Some (y, v) /\ o_min s = Some a /\ o_par s = Some p /\
     cost_cell (o_heap s) a (y, v) /\ par_cell (o_heap s) p (y, v) /\ (oc_weights cf = None -> is_best lc i y v) }.

Lemma cost_cell_ext h t a e : cost_cell h a e -> cost_cell (h ++ t) a e.
Proof. intros (v' & A & B). exists v'. split; auto. now apply nth_error_ext. Qed.
Lemma par_cell_ext h t a e : par_cell h a e -> par_cell (h ++ t) a e.
Proof. intros (v' & A & B). exists v'. split; auto. now apply nth_error_ext. Qed.
Lemma cell_data (s : rst) a e : cost_cell (o_heap s) a e -> weighted (oc_weights cf) (snd e) (cells_of s a).
Proof. intros (v' & A & B). unfold cells_of. now rewrite B. Qed.
Lemma weighted_none (v v' : list F) : weighted None v v' -> v' = v.
Proof. intros [A B]. apply nth_ext with (d := k0) (d' := k0); auto. intros i Hi. apply B. lia. Qed.
Lemma cell_view (s : rst) p e : par_cell (o_heap s) p e -> view_of s p = fst e.
Proof.
  intros (xa & A & B & _). unfold view_of, cells_of. rewrite A. apply unflatten_inv in B. destruct B as [_ ->]. unfold np_T. cbn [dim0 dim1 shape nth].
  apply mk2_ext. intros. now rewrite get2_arr.
Qed.

Lemma is_best_new (lc : list (arrF * list F)) y v : lc = [] \/ (exists i y0 v0, is_best lc i y0 v0 /\ klt (sumsq v) (sumsq v0)) -> is_best (lc ++ [(y, v)]) (length lc) y v.
Proof.
  intros H. split; [apply nth_error_last|]. intros j y' v' Hj. apply nth_error_snoc_inv in Hj. destruct Hj as [Hj|[-> E]].
  - assert (L : klt (sumsq v) (sumsq v')). { destruct H as [->|(i & y0 & v0 & [B1 B2] & Lt)]; [destruct j; discriminate|]. destruct (B2 _ _ _ Hj) as [Le _].
      apply klt_nle. intros Q. apply klt_nle in Lt. apply Lt. exact (kle_trans _ _ _ _ Le Q). }
    split; auto. now apply klt_le.
  - inversion E; subst. split; [apply kle_refl|lia].
Qed.
Lemma is_best_keep (lc : list (arrF * list F)) i y v y' v' : is_best lc i y v -> ~ klt (sumsq v') (sumsq v) -> is_best (lc ++ [(y', v')]) i y v.
Proof.
  intros [B1 B2] H. split; [now apply nth_error_ext|]. intros j y1 v1 Hj. apply nth_error_snoc_inv in Hj. destruct Hj as [Hj|[-> E]]; [exact (B2 j _ _ Hj)|].
  inversion E; subst. split. { destruct (kle_dec (sumsq v) (sumsq v')) as [Q|Q]; [exact Q|]. exfalso. apply H. now apply klt_nle. } intros L. exfalso. assert (i < length lc) by (apply nth_error_Some; congruence). lia.
Qed.

Hypothesis HC : has_costs simc simj nt nc n.
Hypothesis HW : forall ws, oc_weights cf = Some ws -> length ws = n.
Notation rc := (rec_costs simc).
Notation rj := (rec_jac simj).
Lemma book_prepare (s : rst) w now : o_w s = (w, [], []) -> book (prepare cf nt nc now s) [] [].
Proof.
  intros H. constructor; cbn; auto. { now exists w. } { intros ->. eexists. split; [reflexivity|]. cbn. repeat split; constructor. }
Qed.
Lemma weights_scale (v : list F) : length v = n -> exists v', (match oc_weights cf with None => v' = v | Some ws => scale_costs v ws = Ok v' end) /\ weighted (oc_weights cf) v v'.
Proof.
  intros L. destruct (oc_weights cf) as [ws|] eqn:E.
  - destruct (@scale_costs_ok F ws v) as (v' & A & B); [rewrite (HW eq_refl); auto|]. exists v'. auto.
  - exists v. split; auto. split; auto.
Qed.
Lemma book_cost (s : rst) lc lj x now : book s lc lj -> exists lc', book (fst (cost_func_wrapper rc cf x now s)) (lc ++ lc') lj.
Proof.
  intros B. assert (K : exists lc', book s (lc ++ lc') lj) by (exists []; now rewrite app_nil_r).
  pose proof B as [(w & Ew) Bs B1 B2 B3 B4].
  unfold cost_func_wrapper at 1. destruct (kltb (oc_wall cf) (ksub now (o_start s))) eqn:Et; [exact K|].
  rewrite Bs. destruct (nth_error (o_heap s) x) as [xa|] eqn:Ex; [|exact K]. destruct (unflatten nt nc xa) as [y|] eqn:Ey; [|exact K].
  destruct (rc y (o_w s)) as [w' [v|e]] eqn:Ec.
  2:{ exists []. rewrite app_nil_r. cbn [fst]. assert (exists w1, w' = (w1, lc, lj)) as (w1 & ->).
      { unfold rec_costs in Ec. rewrite Ew in Ec. destruct (simc y w) as [w1 [v|e1]]; [discriminate|]. inversion Ec. eauto. }
      constructor; cbn; auto. now exists w1. }
  assert (exists w1, w' = (w1, lc ++ [(y, v)], lj) /\ simc y w = (w1, Ok v)) as (w1 & -> & Es).
  { unfold rec_costs in Ec. rewrite Ew in Ec. destruct (simc y w) as [w1 [v1|e1]]; inversion Ec; subst. eauto. }
  pose proof (proj1 HC _ _ _ _ Es) as Lv. destruct (weights_scale v Lv) as (v' & Hv & Wv).
  assert (exists m, oc_save cf = true -> o_sum s = Some m) as (m0 & Hm0).
  { destruct (oc_save cf); [|exists (mksum 0 [] [] []); discriminate]. destruct (B3 eq_refl) as (m & E & _). exists m. auto. }
  assert (Hb : forall b, o_min s = Some b -> b < length (o_heap s)).
  { intros b Eb. destruct B4 as [(_ & E & _)|(i & y0 & v0 & a & p & _ & E & _ & (v0' & _ & E1) & _)]; [congruence|]. rewrite Eb in E. inversion E; subst. apply nth_error_Some. congruence. }
  pose proof (@cost_wrapper_ok F _ rc cf x now s nt nc xa y _ v v' m0 Et Bs Ex Ey Ec Hm0 Hb Hv (proj1 Wv)) as E. cbv zeta in E.
  unfold cost_func_wrapper in E at 1. rewrite Et, Bs, Ex, Ey, Ec in E. cbv zeta in E |- *. rewrite E. clear E. cbn [fst].
  exists [(y, v)]. set (a := length (o_heap s)). set (p := mkview x nt nc). set (h' := o_heap s ++ [Arr [length v'] v']).
  assert (Ca : cost_cell h' a (y, v)). { exists v'. split; auto. unfold h', a. apply nth_error_last. }
  assert (Cp : par_cell h' p (y, v)). { exists xa. split; [cbn; unfold h'; now apply nth_error_ext|auto]. }
  constructor; cbn [o_w o_shape o_nc o_nj o_sum o_min o_par o_heap].
  - now exists w1.
  - auto.
  - rewrite B1, app_length. cbn. lia.
  - auto.
  - intros Hsv. rewrite Hsv. destruct (B3 Hsv) as (m & Em & C1 & C2 & C3 & C4). assert (m0 = m) as -> by (specialize (Hm0 Hsv); congruence). eexists. split; [reflexivity|]. cbn.
    split; [rewrite C1, app_length; cbn; lia|]. split; auto. split; (apply Forall2_app; [|repeat constructor; auto]).
    + eapply Forall2_imp; [|exact C3]. intros. now apply cost_cell_ext.
    + eapply Forall2_imp; [|exact C4]. intros. now apply par_cell_ext.
  - right. destruct B4 as [(-> & Q1 & Q2)|(i & y0 & v0 & a0 & p0 & D1 & D2 & D3 & D4 & D5 & D6)].
    + rewrite ?Q1, ?Q2. exists 0, y, v, a, p. cbn [app]. do 5 (split; [solve [auto]|]). intros _. apply (is_best_new (lc := [])). now left.
    + rewrite D2, D3. destruct (kltb (sqnorm v) (sqnorm (cells_of s a0))) eqn:El.
      * exists (length lc), y, v, a, p. split; [apply nth_error_last|]. do 4 (split; [solve [auto]|]). intros Hw. apply is_best_new. right. exists i, y0, v0. split; auto.
        apply cell_data in D4. rewrite Hw in D4. apply weighted_none in D4. cbn [snd] in D4. rewrite D4, !sqnorm_sumsq in El. unfold kltb in El. unfold klt. now apply negb_true_iff.
      * exists i, y0, v0, a0, p0. split; [now apply nth_error_ext|]. split; auto. split; auto. split; [now apply cost_cell_ext|]. split; [now apply par_cell_ext|].
        intros Hw. apply is_best_keep; auto. apply cell_data in D4. rewrite Hw in D4. apply weighted_none in D4. cbn [snd] in D4. rewrite D4, !sqnorm_sumsq in El.
        unfold kltb in El. unfold klt. apply negb_false_iff in El. congruence.
Qed.
Lemma book_jac (s : rst) lc lj x : book s lc lj -> exists lj', book (fst (cost_jacobian_wrapper rj cf x s)) lc (lj ++ lj').
Proof.
  intros B. assert (K : exists lj', book s lc (lj ++ lj')) by (exists []; now rewrite app_nil_r).
  pose proof B as [(w & Ew) Bs B1 B2 B3 B4].
  unfold cost_jacobian_wrapper at 1. rewrite Bs. destruct (unflatten nt nc x) as [y|] eqn:Ey; [|exact K].
  destruct (rj y (o_w s)) as [w' [j|e]] eqn:Ej.
  2:{ exists []. rewrite app_nil_r. cbn [fst]. assert (exists w1, w' = (w1, lc, lj)) as (w1 & ->).
      { unfold rec_jac in Ej. rewrite Ew in Ej. destruct (simj y w) as [w1 [v|e1]]; [discriminate|]. inversion Ej. eauto. }
      constructor; cbn; auto. now exists w1. }
  assert (exists w1, w' = (w1, lc, lj ++ [(y, j)]) /\ simj y w = (w1, Ok j)) as (w1 & -> & Es).
  { unfold rec_jac in Ej. rewrite Ew in Ej. destruct (simj y w) as [w1 [v1|e1]]; inversion Ej; subst. eauto. }
  assert (Wy : wfa [nt; nc] y). { destruct (@unflatten_inv F _ _ _ _ Ey) as [_ ->]. apply wfa_mk2. }
  pose proof (proj2 HC _ _ _ _ Wy Es) as Wj.
  assert (exists m, oc_save cf = true -> o_sum s = Some m) as (m0 & Hm0).
  { destruct (oc_save cf); [|exists (mksum 0 [] [] []); discriminate]. destruct (B3 eq_refl) as (m & E & _). exists m. auto. }
  destruct (@jac_wrapper_ok F _ rj cf x s nt nc n y _ j m0 Bs Ey Ej Wj Hm0 HW) as (r & E & _).
  unfold cost_jacobian_wrapper in E at 1. rewrite Bs, Ey, Ej in E. cbv zeta in E |- *. rewrite E. clear E. cbn [fst].
  exists [(y, j)]. constructor; cbn [o_w o_shape o_nc o_nj o_sum o_min o_par o_heap]; auto.
  - now exists w1.
  - rewrite B2, app_length. cbn. lia.
  - intros Hsv. rewrite Hsv. destruct (B3 Hsv) as (m & Em & C1 & C2 & C3 & C4). assert (m0 = m) as -> by (specialize (Hm0 Hsv); congruence). eexists. split; [reflexivity|]. cbn.
    split; auto. split; auto. rewrite C2, map_app. reflexivity.
Qed.
Lemma book_alloc (s : rst) lc lj x : book s lc lj -> book (with_heap s (o_heap s ++ [x])) lc lj.
Proof.
  intros [A Bs B1 B2 B3 B4]. constructor; cbn; auto.
  - intros Hsv. destruct (B3 Hsv) as (m & Em & C1 & C2 & C3 & C4). exists m. split; auto. split; auto. split; auto. split.
    + eapply Forall2_imp; [|exact C3]. intros. now apply cost_cell_ext.
    + eapply Forall2_imp; [|exact C4]. intros. now apply par_cell_ext.
  - destruct B4 as [?|(i & y0 & v0 & a0 & p0 & D1 & D2 & D3 & D4 & D5 & D6)]; [auto|]. right. exists i, y0, v0, a0, p0. split; auto. split; auto. split; auto.
    split; [now apply cost_cell_ext|]. split; [now apply par_cell_ext|]. auto.
Qed.
Lemma book_run h : forall (s : rst) lc lj, Forall no_poke h -> book s lc lj -> exists lc' lj', book (orun rc rj cf s h) lc' lj'.
Proof.
  induction h as [|e h IH]; intros s lc lj Hh B; [now exists lc, lj|]. inversion Hh; subst. cbn [orun fold_left]. destruct e as [x|a now|x|a x]; cbn [ostep].
  - apply IH with (lc := lc) (lj := lj); auto. now apply book_alloc.
  - destruct (book_cost a now B) as (lc' & B'). eapply IH; eauto.
  - destruct (book_jac x B) as (lj' & B'). eapply IH; eauto.
  - contradiction.
Qed.
Lemma map_cells (s : rst) la lc : Forall2 (cost_cell (o_heap s)) la lc -> Forall2 (fun e a => weighted (oc_weights cf) (snd e) (cells_of s a)) lc la.
Proof. induction 1; constructor; auto. now apply cell_data. Qed.
Lemma map_views (s : rst) lp lc : Forall2 (par_cell (o_heap s)) lp lc -> map (view_of s) lp = map fst lc.
Proof. induction 1; cbn; auto. f_equal; auto. now apply cell_view. Qed.
End Book.

Section Thm.
Variable F : OField.
Notation arrF := (arr (kcar F)).
Variable W : Type.
Variable simc : arrF -> W -> W * res (list F).
Variable simj : arrF -> W -> W * res arrF.
Theorem best_so_far (cf : @oconf F) nt nc n (s : @ost F (@record F W)) w now h : has_costs simc simj nt nc n -> oc_weights cf = None -> o_w s = (w, [], []) -> Forall no_poke h ->
  exists w' lc lj, o_w (orun (rec_costs simc) (rec_jac simj) cf (prepare cf nt nc now s) h) = (w', lc, lj) /\
    stores_best (orun (rec_costs simc) (rec_jac simj) cf (prepare cf nt nc now s) h) lc.
Proof.
  intros HC Hw Ew Hh. assert (HW : forall ws, oc_weights cf = Some ws -> length ws = n) by (intros; congruence).
  destruct (book_run HC HW Hh (@book_prepare F W cf nt nc s w now Ew)) as (lc & lj & [(w' & A) _ _ _ _ B4]). exists w', lc, lj. split; auto.
  destruct B4 as [?|(i & y & v & a & p & D1 & D2 & D3 & D4 & D5 & D6)]; [now left|]. right. exists i, y, v, a, p. split; auto. split; auto.
  split; [apply cell_data in D4; rewrite Hw in D4; now apply weighted_none in D4|]. split; auto. apply cell_view in D5. exact D5.
Qed.
(** with weights: some evaluation, its weighted costs *)
Theorem stored_is_evaluation (cf : @oconf F) nt nc n (s : @ost F (@record F W)) w now h : has_costs simc simj nt nc n -> (forall ws, oc_weights cf = Some ws -> length ws = n) -> o_w s = (w, [], []) -> Forall no_poke h ->
  let s' := orun (rec_costs simc) (rec_jac simj) cf (prepare cf nt nc now s) h in
  exists w' lc lj, o_w s' = (w', lc, lj) /\ ((lc = [] /\ o_min s' = None /\ o_par s' = None) \/
    exists y v a p, In (y, v) lc /\ o_min s' = Some a /\ weighted (oc_weights cf) v (cells_of s' a) /\ o_par s' = Some p /\ view_of s' p = y).
Proof.
  intros HC HW Ew Hh s'. destruct (book_run HC HW Hh (@book_prepare F W cf nt nc s w now Ew)) as (lc & lj & [(w' & A) _ _ _ _ B4]). exists w', lc, lj. split; auto.
  destruct B4 as [?|(i & y & v & a & p & D1 & D2 & D3 & D4 & D5 & D6)]; [now left|]. right. exists y, v, a, p. split; [eapply nth_error_In; eauto|]. split; auto.
  split; [now apply cell_data in D4|]. split; auto. apply cell_view in D5. exact D5.
Qed.
Theorem summary_complete (cf : @oconf F) nt nc n (s : @ost F (@record F W)) w now h : has_costs simc simj nt nc n -> (forall ws, oc_weights cf = Some ws -> length ws = n) -> o_w s = (w, [], []) -> Forall no_poke h -> oc_save cf = true ->
  let s' := orun (rec_costs simc) (rec_jac simj) cf (prepare cf nt nc now s) h in
  exists w' lc lj m, o_w s' = (w', lc, lj) /\ o_sum s' = Some m /\ iter_num m = length lc /\ o_nc s' = length lc /\ o_nj s' = length lj /\
    Forall2 (fun e a => weighted (oc_weights cf) (snd e) (cells_of s' a)) lc (sum_costs m) /\ map (view_of s') (sum_pars m) = map fst lc /\ sum_grads m = map snd lj.
Proof.
  intros HC HW Ew Hh Hs s'. destruct (book_run HC HW Hh (@book_prepare F W cf nt nc s w now Ew)) as (lc & lj & [(w' & A) _ C1 C2 B3 _]).
  destruct (B3 Hs) as (m & Em & D1 & D2 & D3 & D4). exists w', lc, lj, m. split; auto. split; auto. split; auto. split; auto. split; auto.
  split; [now apply map_cells|]. split; auto. eapply map_views; eauto.
Qed.
(** counters also without summary *)
Theorem counters (cf : @oconf F) nt nc n (s : @ost F (@record F W)) w now h : has_costs simc simj nt nc n -> (forall ws, oc_weights cf = Some ws -> length ws = n) -> o_w s = (w, [], []) -> Forall no_poke h ->
  let s' := orun (rec_costs simc) (rec_jac simj) cf (prepare cf nt nc now s) h in
  exists w' lc lj, o_w s' = (w', lc, lj) /\ o_nc s' = length lc /\ o_nj s' = length lj.
Proof.
  intros HC HW Ew Hh s'. destruct (book_run HC HW Hh (@book_prepare F W cf nt nc s w now Ew)) as (lc & lj & [(w' & A) _ C1 C2 B3 _]).
  exists w', lc, lj. auto.
Qed.
End Thm.
