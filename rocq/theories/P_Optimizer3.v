(** Runs of the optimisers: any algorithm, wall time, derivative of what the algorithm sees. *)
Require Import List Arith Lia Bool Ring Field Reals.
From Verif Require Import LibBase LibRing LibArr LibCplx M_OpHeap P_OpHeap M_Optimizer S_Deriv S_Optimizer P_Optimizer P_Optimizer2.
Import ListNotations.
Open Scope nat_scope.
Set Implicit Arguments.

Section Run.
Variable F : OField.
Notation arrF := (arr (kcar F)).
Variable W : Type.
Variable simc : arrF -> W -> W * res (list F).
Variable simj : arrF -> W -> W * res arrF.
Variable cf : @oconf F.

Lemma call_cost_state kd x now (s : @ost F W) : fst (call_cost simc kd cf x now s) = fst (cost_func_wrapper simc cf x now s).
Proof. destruct kd; unfold call_cost, scalar_cost; destruct (cost_func_wrapper simc cf x now s) as [s' [a|e]]; reflexivity. Qed.
Lemma call_jac_state kd x (s : @ost F W) : fst (call_jac simj kd cf x s) = fst (cost_jacobian_wrapper simj cf x s).
Proof. destruct kd; unfold call_jac, scalar_jac; destruct (cost_jacobian_wrapper simj cf x s) as [s' [a|e]]; reflexivity. Qed.
Lemma interp_history kd jg p : forall s : @ost F W, exists h, Forall no_poke h /\ fst (interp simc simj kd cf jg p s) = orun simc simj cf s h.
Proof.
  induction p as [r|x now k IH|x k IH]; intros s; cbn [interp].
  - exists []. split; [constructor|reflexivity].
  - set (s1 := with_heap s (o_heap s ++ [x])). pose proof (call_cost_state kd (length (o_heap s)) now s1) as E. destruct (call_cost simc kd cf (length (o_heap s)) now s1) as [s2 [v|e]]; cbn [fst] in E.
    + destruct (IH v s2) as (h & H1 & H2). exists (OAlloc x :: OCost (length (o_heap s)) now :: h). split; [repeat constructor; auto|]. rewrite H2, E. reflexivity.
    + exists [OAlloc x; OCost (length (o_heap s)) now]. split; [repeat constructor|]. cbn [fst]. rewrite E. reflexivity.
  - destruct jg; [|exists []; split; [constructor|reflexivity]].
    pose proof (call_jac_state kd x s) as E. destruct (call_jac simj kd cf x s) as [s2 [v|e]]; cbn [fst] in E.
    + destruct (IH v s2) as (h & H1 & H2). exists (OJac x :: h). split; [repeat constructor; auto|]. rewrite H2, E. reflexivity.
    + exists [OJac x]. split; [repeat constructor|]. cbn [fst]. rewrite E. reflexivity.
Qed.

(** ---- states after prepare_optimization, any history ---- *)
Record prepared nt nc (t0 : F) (s : @ost F W) : Prop := { pr_shape : o_shape s = Some (nt, nc); pr_sum : oc_save cf = true -> o_sum s <> None;
  pr_min : forall b, o_min s = Some b -> b < length (o_heap s); pr_start : o_start s = t0 }.
Lemma prepare_prepared nt nc t0 (s : @ost F W) : prepared nt nc t0 (prepare cf nt nc t0 s).
Proof. constructor; cbn; auto; [intros ->; discriminate|discriminate]. Qed.
Lemma prepared_step nt nc t0 (s : @ost F W) e : prepared nt nc t0 s -> prepared nt nc t0 (ostep simc simj cf s e).
Proof.
  intros [A B C D]. destruct e as [x|x now|x|a x]; cbn [ostep].
  - constructor; cbn; auto. intros b Hb. rewrite app_length. specialize (C b Hb). lia.
  - unfold cost_func_wrapper. destruct (kltb _ _); [constructor; auto|]. rewrite A. destruct (nth_error (o_heap s) x) as [xa|]; [|constructor; auto].
    destruct (unflatten nt nc xa) as [y|]; [|constructor; auto]. destruct (simc y (o_w s)) as [w' [v|e]]; [|constructor; cbn; auto]. cbv zeta.
    unfold store_summary. cbn [o_sum with_heap with_w]. assert (X : exists q, (oc_save cf = true -> q <> None) /\ (if oc_save cf then match o_sum s with
       | None => (with_heap (with_w s w') (o_heap s ++ [Arr [length v] v]), Err AttributeError)
       | Some m => (with_sum (with_heap (with_w s w') (o_heap s ++ [Arr [length v] v])) (Some (mksum (S (iter_num m)) (sum_costs m ++ [length (o_heap s)]) (sum_grads m) (sum_pars m ++ [mkview x nt nc]))), Ok tt)
       end else (with_heap (with_w s w') (o_heap s ++ [Arr [length v] v]), Ok tt)) = (with_sum (with_heap (with_w s w') (o_heap s ++ [Arr [length v] v])) q, Ok tt)).
    { destruct (oc_save cf). { destruct (o_sum s) as [m|]; [|now destruct (B eq_refl)]. eexists. split; [|reflexivity]. discriminate. } exists (o_sum s). split; [discriminate|]. now destruct s. }
    destruct X as (q & Q & ->). set (s2 := with_sum (with_heap (with_w s w') (o_heap s ++ [Arr [length v] v])) q).
    assert (P3 : forall s3, s3 = store_min (length (o_heap s)) (mkview x nt nc) s2 -> prepared nt nc t0 s3 /\ o_heap s3 = o_heap s ++ [Arr [length v] v]).
    { intros s3 ->. unfold store_min. destruct (smaller s2 (length (o_heap s))); (split; [constructor; cbn; auto|reflexivity]).
      - intros b Hb. inversion Hb. rewrite app_length. cbn. lia.
      - intros b Hb. rewrite app_length. specialize (C b Hb). lia. }
    destruct (P3 _ eq_refl) as [[A3 B3 C3 D3] H3]. set (s3 := store_min _ _ s2) in *. destruct (oc_weights cf) as [ws|]; [|constructor; cbn; auto].
    destruct (scale_costs (cells_of s3 (length (o_heap s))) ws) as [v'|]; constructor; cbn; auto. intros b Hb. rewrite lset_length. auto.
  - unfold cost_jacobian_wrapper. rewrite A. destruct (unflatten nt nc x) as [y|]; [|constructor; auto]. destruct (simj y (o_w s)) as [w' [j|e]]; [|constructor; cbn; auto]. cbv zeta.
    cbn [o_sum with_w]. destruct (oc_save cf) eqn:Es.
    + destruct (o_sum s) as [m|]; [|now destruct (B eq_refl)]. destruct (bind (jac_matrix j) _); constructor; cbn; auto; discriminate.
    + destruct (bind (jac_matrix j) _); constructor; cbn; auto; congruence.
  - constructor; cbn; auto. intros b Hb. rewrite lset_length. auto.
Qed.
Lemma prepared_run nt nc t0 h : forall s : @ost F W, prepared nt nc t0 s -> prepared nt nc t0 (orun simc simj cf s h).
Proof. induction h as [|e h IH]; intros s H; cbn; auto. apply IH. now apply prepared_step. Qed.
End Run.

(** ---- values of the calls ---- *)
Section Values.
Variable F : OField.
Notation arrF := (arr (kcar F)).
Add Field Kfield_o3 : (k_field F).
Variable W : Type.
Variable simc : arrF -> W -> W * res (list F).
Variable simj : arrF -> W -> W * res arrF.
Variable cf : @oconf F.
Variables nt nc n : nat.
Variable phi : arrF -> list F.
Variable J : arrF -> arrF.
Hypothesis HS : simulates simc simj nt nc n phi J.
Hypothesis HW : forall ws, oc_weights cf = Some ws -> length ws = n.
Variable t0 : F.

Lemma weights_scale' (v : list F) : length v = n -> exists v', (match oc_weights cf with None => v' = v | Some ws => scale_costs v ws = Ok v' end) /\ weighted (oc_weights cf) v v'.
Proof.
  intros L. destruct (oc_weights cf) as [ws|] eqn:E.
  - destruct (@scale_costs_ok F ws v) as (v' & A & B); [rewrite (HW eq_refl); auto|]. exists v'. auto.
  - exists v. split; auto. split; auto.
Qed.
Lemma wrapper_value (s : @ost F W) now x y : in_use simc simj cf nt nc t0 s -> kle (ksub now t0) (oc_wall cf) -> same_parameters nt nc y x ->
  exists s' a v', cost_func_wrapper simc cf (length (o_heap s)) now (with_heap s (o_heap s ++ [x])) = (s', Ok a) /\ cells_of s' a = v' /\ weighted (oc_weights cf) (phi y) v'.
Proof.
  intros (s0 & h & Es) Hn Sx. assert (P : prepared cf nt nc t0 s) by (subst s; apply prepared_run, prepare_prepared).
  apply (fun q => prepared_step simc simj (OAlloc x) q) in P. cbn [ostep] in P. set (s1 := with_heap s (o_heap s ++ [x])) in *.
  pose proof Sx as (Wy & Wx & _). destruct (HS (o_w s1) Wy) as (H1 & H2 & _ & _). destruct P as [A B C D].
  destruct (@unflatten_same F nt nc _ Wx) as (y' & Ey & Sy). assert (y' = y) as -> by (eapply same_unique_y; eauto).
  destruct (simc y (o_w s1)) as [w' r] eqn:Ec. cbn [snd] in H1. subst r. destruct (weights_scale' _ H2) as (v' & Hv & Wv).
  assert (exists m, oc_save cf = true -> o_sum s1 = Some m) as (m & Hm).
  { destruct (oc_save cf); [|exists (mksum 0 [] [] []); discriminate]. destruct (o_sum s1) as [m|]; [now exists m|]. now destruct (B eq_refl). }
  assert (Ht : kltb (oc_wall cf) (ksub now (o_start s1)) = false). { rewrite D. unfold kltb. apply negb_false_iff. exact Hn. }
  pose proof (@cost_wrapper_ok F W simc cf (length (o_heap s)) now s1 nt nc x y w' (phi y) v' m Ht A (nth_error_last _ _) Ey Ec Hm C Hv (proj1 Wv)) as E. cbv zeta in E.
  rewrite E. do 2 eexists. exists v'. split; [reflexivity|]. split; auto. unfold cells_of. cbn [o_heap]. now rewrite nth_error_last.
Qed.
Theorem answer_least_squares (s : @ost F W) now x y : in_use simc simj cf nt nc t0 s -> kle (ksub now t0) (oc_wall cf) -> same_parameters nt nc y x ->
  weighted (oc_weights cf) (phi y) (answer simc LeastSquares cf s now x).
Proof. intros Hu Hn Sx. destruct (wrapper_value now Hu Hn Sx) as (s' & a & v' & E & E1 & E2). unfold answer, call_cost. rewrite E. cbn [data]. now rewrite E1. Qed.
Lemma sum_weighted (v v' : list F) : weighted (oc_weights cf) v v' -> np_sum v' = sumn (S:=KStar F) (length v) (fun f => kmul (nth f v k0) (weight (oc_weights cf) f)).
Proof.
  intros [A B]. rewrite np_sum_sumn, A. apply sumn_ext. intros i Hi. rewrite B by auto. unfold weight. destruct (oc_weights cf); auto. change (scar (KStar F)) with (kcar F). ring.
Qed.
Theorem answer_scalar (s : @ost F W) now x y : in_use simc simj cf nt nc t0 s -> kle (ksub now t0) (oc_wall cf) -> same_parameters nt nc y x ->
  answer simc ScalarMin cf s now x = [sumn (S:=KStar F) n (fun f => kmul (nth f (phi y) k0) (weight (oc_weights cf) f))].
Proof.
  intros Hu Hn Sx. destruct (wrapper_value now Hu Hn Sx) as (s' & a & v' & E & E1 & E2). unfold answer, call_cost, scalar_cost. rewrite E. cbn [data]. rewrite E1, (sum_weighted E2).
  destruct Sx as (Wy & _). now destruct (HS (o_w s) Wy) as (_ & -> & _).
Qed.
Theorem jacobian_least_squares (s : @ost F W) x y : in_use simc simj cf nt nc t0 s -> same_parameters nt nc y x ->
  exists s' m, call_jac simj LeastSquares cf x s = (s', Ok m) /\ wfa [n; nt * nc] m /\
   forall t f c, t < nt -> f < n -> c < nc -> get2 k0 m f (c * nt + t) = kmul (get3 k0 (J y) t f c) (weight (oc_weights cf) f).
Proof.
  intros (s0 & h & Es) Sx. assert (P : prepared cf nt nc t0 s) by (subst s; apply prepared_run, prepare_prepared). destruct P as [A B C D].
  pose proof Sx as (Wy & Wx & _). destruct (HS (o_w s) Wy) as (_ & _ & H3 & H4).
  destruct (@unflatten_same F nt nc _ Wx) as (y' & Ey & Sy). assert (y' = y) as -> by (eapply same_unique_y; eauto).
  destruct (simj y (o_w s)) as [w' r] eqn:Ec. cbn [snd] in H3. subst r.
  assert (exists m, oc_save cf = true -> o_sum s = Some m) as (m & Hm).
  { destruct (oc_save cf); [|exists (mksum 0 [] [] []); discriminate]. destruct (o_sum s) as [m|]; [now exists m|]. now destruct (B eq_refl). }
  destruct (@jac_wrapper_ok F W simj cf x s nt nc n y w' (J y) m A Ey Ec H4 Hm HW) as (r & E & E1 & E2). cbn [call_jac]. rewrite E. eexists. exists r. auto.
Qed.
Theorem jacobian_scalar (s : @ost F W) x y : in_use simc simj cf nt nc t0 s -> same_parameters nt nc y x ->
  exists s' m, call_jac simj ScalarMin cf x s = (s', Ok m) /\ wfa [nt * nc] m /\
   forall t c, t < nt -> c < nc -> get1 k0 m (c * nt + t) = sumn (S:=KStar F) n (fun f => kmul (get3 k0 (J y) t f c) (weight (oc_weights cf) f)).
Proof.
  intros Hu Sx. destruct (jacobian_least_squares Hu Sx) as (s' & m & E & W1 & G). cbn [call_jac] in *. unfold scalar_jac. rewrite E. exists s', (sum_rows m). split; auto.
  destruct (dim_wfa2 W1) as (D0 & D1 & _). unfold sum_rows. rewrite D1. split; [apply wfa_mk1|]. intros t c Ht Hc. rewrite get1_mk1 by nia. rewrite np_sum_sumn, map_length, seq_length, D0.
  apply sumn_ext. intros f Hf. rewrite nth_map_seq by auto. now apply G.
Qed.
End Values.

(** ---- over the reals ---- *)
Section Real.
Notation FR := RField.
Notation arrF := (arr (kcar FR)).
Variable W : Type.
Variable simc : arrF -> W -> W * res (list FR).
Variable simj : arrF -> W -> W * res arrF.
Variable cf : @oconf FR.
Variables nt nc n : nat.
Variable phi : arrF -> list FR.
Variable J : arrF -> arrF.
Hypothesis HS : simulates simc simj nt nc n phi J.
Hypothesis HW : forall ws, oc_weights cf = Some ws -> length ws = n.
Variable t0 : FR.
Lemma bump_same (x y : arrF) t c e : same_parameters nt nc y x -> t < nt -> c < nc -> same_parameters (F:=FR) nt nc (bump nt nc y t c e) (bump1 (nt * nc) x (c * nt + t) e).
Proof.
  intros (Wy & Wx & H) Ht Hc. split; [apply wfa_mk2|]. split; [apply wfa_mk1|]. intros t' c' Ht' Hc'. unfold bump, bump1. rewrite get1_mk1 by nia. rewrite get2_mk2 by auto.
  specialize (H t' c' Ht' Hc'). unfold ent. change (get1 0%R x) with (get1 (k0 (o:=FR)) x). change (get2 0%R y) with (get2 (k0 (o:=FR)) y). rewrite H.
  destruct (Nat.eqb t' t) eqn:E1, (Nat.eqb c' c) eqn:E2; cbn [andb]; try apply Nat.eqb_eq in E1; try apply Nat.eqb_eq in E2; subst; try rewrite Nat.eqb_refl; auto.
  - assert (Nat.eqb (c' * nt + t) (c * nt + t) = false) as ->; auto. apply Nat.eqb_neq. apply Nat.eqb_neq in E2. intros Q. apply E2. nia.
  - assert (Nat.eqb (c * nt + t') (c * nt + t) = false) as ->; auto. apply Nat.eqb_neq. apply Nat.eqb_neq in E1. lia.
  - assert (Nat.eqb (c' * nt + t') (c * nt + t) = false) as ->; auto. apply Nat.eqb_neq. apply Nat.eqb_neq in E1, E2. intros Q. apply E2.
    destruct (Nat.lt_trichotomy c' c) as [L|[L|L]]; [exfalso; nia|auto|exfalso; nia].
Qed.
Lemma deriv_ext (f g : R -> R) a l : (forall e, f e = g e) -> derivable_pt_lim f a l -> derivable_pt_lim g a l.
Proof. intros H D eps He. destruct (D eps He) as (d & Hd). exists d. intros h Hh Hl. rewrite <- !H. auto. Qed.
Lemma deriv_sumn k (f : nat -> R -> R) l a : (forall i, i < k -> derivable_pt_lim (f i) a (l i)) -> derivable_pt_lim (fun e => sumn (S:=KStar FR) k (fun i => f i e)) a (sumn (S:=KStar FR) k l).
Proof.
  induction k as [|k IH]; intros H; cbn [sumn]. { apply derivable_pt_lim_const. }
  apply (derivable_pt_lim_plus (fun e => sumn (S:=KStar FR) k (fun i => f i e)) (f k)); [apply IH; auto|apply H; auto].
Qed.
Lemma deriv_scale (f : R -> R) a l u : derivable_pt_lim f a l -> derivable_pt_lim (fun e => (f e * u)%R) a (l * u)%R.
Proof. intros H. rewrite Rmult_comm. apply deriv_ext with (f := mult_real_fct u f); [intros e; unfold mult_real_fct; ring|]. now apply derivable_pt_lim_scal. Qed.

Theorem derivative_least_squares (s : @ost FR W) now (x y : arrF) : in_use simc simj cf nt nc t0 s -> kle (ksub now t0) (oc_wall cf) -> same_parameters nt nc y x -> jacobian_of nt nc n phi J y ->
  exists s' m, call_jac simj LeastSquares cf x s = (s', Ok m) /\ wfa [n; nt * nc] m /\
   forall f j, f < n -> j < nt * nc -> derivable_pt_lim (fun e => nth f (answer simc LeastSquares cf s now (bump1 (nt * nc) x j e)) 0%R) 0 (get2 0%R m f j).
Proof.
  intros Hu Hn Sx HJ. destruct (jacobian_least_squares HS HW Hu Sx) as (s' & m & E & W1 & G). exists s', m. split; auto. split; auto.
  intros f j Hf Hj. destruct (flat_index _ _ Hj) as (t & c & Ht & Hc & ->). change (get2 0%R m) with (get2 (k0 (o:=FR)) m). rewrite G by auto.
  apply deriv_ext with (f := fun e => (nth f (phi (bump nt nc y t c e)) 0 * weight (oc_weights cf) f)%R).
  - intros e. pose proof (bump_same e Sx Ht Hc) as Se. destruct (answer_least_squares HS HW now Hu Hn Se) as [L H].
    assert (Lf : length (phi (bump nt nc y t c e)) = n) by (apply (HS (o_w s) (proj1 Se))). rewrite H by lia. unfold weight. destruct (oc_weights cf) as [ws|]; cbn; [reflexivity|]. now rewrite Rmult_1_r.
  - apply deriv_scale. now apply HJ.
Qed.
Theorem derivative_scalar (s : @ost FR W) now (x y : arrF) : in_use simc simj cf nt nc t0 s -> kle (ksub now t0) (oc_wall cf) -> same_parameters nt nc y x -> jacobian_of nt nc n phi J y ->
  exists s' m, call_jac simj ScalarMin cf x s = (s', Ok m) /\ wfa [nt * nc] m /\
   forall j, j < nt * nc -> derivable_pt_lim (fun e => nth 0 (answer simc ScalarMin cf s now (bump1 (nt * nc) x j e)) 0%R) 0 (get1 0%R m j).
Proof.
  intros Hu Hn Sx HJ. destruct (jacobian_scalar HS HW Hu Sx) as (s' & m & E & W1 & G). exists s', m. split; auto. split; auto.
  intros j Hj. destruct (flat_index _ _ Hj) as (t & c & Ht & Hc & ->). change (get1 0%R m) with (get1 (k0 (o:=FR)) m). rewrite G by auto.
  apply deriv_ext with (f := fun e => sumn (S:=KStar FR) n (fun f => (nth f (phi (bump nt nc y t c e)) 0 * weight (oc_weights cf) f)%R)).
  - intros e. pose proof (bump_same e Sx Ht Hc) as Se. rewrite (answer_scalar HS HW now Hu Hn Se). reflexivity.
  - apply (deriv_sumn (fun f e => (nth f (phi (bump nt nc y t c e)) 0 * weight (oc_weights cf) f)%R) (fun f => (get3 0 (J y) t f c * weight (oc_weights cf) f)%R)). intros f Hf. apply deriv_scale. now apply HJ.
Qed.
End Real.

(** ---- runs stopped by the clock ---- *)
Section Abort.
Variable F : OField.
Notation arrF := (arr (kcar F)).
Variable W : Type.
Variable simc : arrF -> W -> W * res (list F).
Variable simj : arrF -> W -> W * res arrF.
Notation rc := (rec_costs simc).
Notation rj := (rec_jac simj).
Lemma stopped_run kd me cf y0 t0 sp (s s' : @ost F (@record F W)) r n w : has_costs simc simj (dim0 y0) (dim1 y0) n -> (forall ws, oc_weights cf = Some ws -> length ws = n) ->
  o_w s = (w, [], []) -> stopped rc rj kd me cf y0 t0 sp s -> run_optimization rc rj kd me cf y0 t0 sp s = (s', Ok r) ->
  exists lc lj sa, book cf (dim0 y0) (dim1 y0) sa lc lj /\ write_state_to_result rj kd cf sa = (s', Ok r) /\ exists lj', book cf (dim0 y0) (dim1 y0) s' lc lj'.
Proof.
  intros HC HW Ew St Er. unfold run_optimization in Er. destruct (Nat.eqb (rank y0) 2); cbn [negb] in Er; [|discriminate]. cbv zeta in Er. unfold stopped in St.
  destruct (interp_history rc rj cf kd (oc_jac cf && match kd, me with ScalarMin, OtherMethod => false | _, _ => true end) (sp (flatten y0)) (prepare cf (dim0 y0) (dim1 y0) t0 s)) as (h & Hh & Eh).
  destruct (interp rc rj kd cf _ (sp (flatten y0)) _) as [sa ra]. cbn [snd fst] in St, Eh. subst ra sa.
  destruct (book_run HC HW Hh (@book_prepare F W cf (dim0 y0) (dim1 y0) s w t0 Ew)) as (lc & lj & B). eexists lc, lj, _. split; [exact B|]. split; [exact Er|].
  unfold write_state_to_result in Er. destruct (oc_jac cf); [|inversion Er; subst; eauto]. destruct (o_par _) as [p|] eqn:Ep; [|discriminate].
  pose proof (call_jac_state rj cf kd (view_of (orun rc rj cf (prepare cf (dim0 y0) (dim1 y0) t0 s) h) p) (orun rc rj cf (prepare cf (dim0 y0) (dim1 y0) t0 s) h)) as E.
  destruct (call_jac rj kd cf _ _) as [sb [mb|]]; [|discriminate]. inversion Er; subst sb. cbn [fst] in E. rewrite E. destruct (book_jac HC HW (view_of (orun rc rj cf (prepare cf (dim0 y0) (dim1 y0) t0 s) h) p) B) as (lj' & B').
  exists (lj ++ lj'). exact B'.
Qed.
Lemma written kd cf (sa s' : @ost F (@record F W)) r : write_state_to_result rj kd cf sa = (s', Ok r) ->
  r_iter r = o_nc s' /\ r_sum r = o_sum s' /\ r_cost r = match o_min s' with Some a => Some (Arr [length (cells_of s' a)] (cells_of s' a)) | None => None end /\
  r_pars r = match o_par s' with Some p => Some (view_of s' p) | None => None end.
Proof.
  unfold write_state_to_result. destruct (oc_jac cf); [|intros E; inversion E; subst; auto]. destruct (o_par sa) as [p|]; [|discriminate].
  destruct (call_jac rj kd cf (view_of sa p) sa) as [sb [mb|]]; [|discriminate]. intros E. inversion E; subst; auto.
Qed.
Theorem stopped_returns_best kd me cf y0 t0 sp (s s' : @ost F (@record F W)) r n w : has_costs simc simj (dim0 y0) (dim1 y0) n -> oc_weights cf = None ->
  o_w s = (w, [], []) -> stopped rc rj kd me cf y0 t0 sp s -> run_optimization rc rj kd me cf y0 t0 sp s = (s', Ok r) ->
  exists w' lc lj, o_w s' = (w', lc, lj) /\ r_iter r = length lc /\
   ((lc = [] /\ r_cost r = None /\ r_pars r = None) \/ exists i y v, is_best lc i y v /\ r_cost r = Some (Arr [length v] v) /\ r_pars r = Some y).
Proof.
  intros HC Hw Ew St Er. assert (HW : forall ws, oc_weights cf = Some ws -> length ws = n) by (intros; congruence).
  destruct (stopped_run HC HW Ew St Er) as (lc & lj & sa & _ & Ewr & lj' & [(w' & A) _ B1 _ _ B4]). apply written in Ewr. destruct Ewr as (R1 & _ & R2 & R3).
  exists w', lc, lj'. split; auto. split; [congruence|]. rewrite R2, R3. destruct B4 as [(-> & -> & ->)|(i & y & v & a & p & D1 & D2 & D3 & D4 & D5 & D6)]; [now left|]. right.
  exists i, y, v. split; auto. rewrite D2, D3. split.
  - apply cell_data in D4. rewrite Hw in D4. apply weighted_none in D4. cbn [snd] in D4. now rewrite D4.
  - apply cell_view in D5. cbn [fst] in D5. now rewrite D5.
Qed.
(** the gradient norm *)
Lemma thin_view nt nc (y : arrF) : wfa [nt; nc] y -> nt <= 1 \/ nc <= 1 -> data y = data (flatten y).
Proof.
  intros Hy H. destruct (@flatten_wf F _ _ _ Hy) as [Wx G]. apply nth_ext with (d := k0) (d' := k0). { rewrite (proj2 Hy), (proj2 Wx). cbn. lia. }
  intros i Hi. rewrite (proj2 Hy) in Hi. cbn in Hi. rewrite Nat.mul_1_r in Hi. destruct (flat_index _ _ Hi) as (t & c & Ht & Hc & ->). rewrite G by auto.
  unfold get2, getn. rewrite (proj1 Hy). cbn [ravel prodn]. f_equal. destruct H; [assert (t = 0) by lia; assert (nt = 1) by lia; subst|assert (c = 0) by lia; assert (nc = 1) by lia; subst]; lia.
Qed.
Lemma unflatten_data nt nc (x x' : arrF) : data x = data x' -> unflatten nt nc x = unflatten nt nc x'.
Proof. intros H. unfold unflatten, np_reshape. now rewrite H. Qed.
Lemma call_jac_data kd cf (x x' : arrF) (s : @ost F (@record F W)) : data x = data x' -> call_jac rj kd cf x s = call_jac rj kd cf x' s.
Proof.
  intros H. assert (E : cost_jacobian_wrapper rj cf x s = cost_jacobian_wrapper rj cf x' s). { unfold cost_jacobian_wrapper. destruct (o_shape s) as [[a b]|]; auto. now rewrite (unflatten_data _ _ _ _ H). }
  destruct kd; cbn; auto. unfold scalar_jac. now rewrite E.
Qed.
Lemma call_jac_keeps kd cf (x : arrF) (s : @ost F (@record F W)) : let s' := fst (call_jac rj kd cf x s) in o_heap s' = o_heap s /\ o_min s' = o_min s /\ o_par s' = o_par s.
Proof.
  cbv zeta. rewrite call_jac_state. unfold cost_jacobian_wrapper. destruct (o_shape s) as [[a b]|]; auto. destruct (unflatten a b x); auto. destruct (rj a0 (o_w s)) as [w' [j|]]; [|auto].
  cbv zeta. destruct (oc_save cf); [cbn [o_sum with_w]; destruct (o_sum s); [|auto]|]; destruct (bind (jac_matrix j) _); auto.
Qed.
Theorem stopped_gradient kd me cf y0 t0 sp (s s' : @ost F (@record F W)) r n w : has_costs simc simj (dim0 y0) (dim1 y0) n -> (forall ws, oc_weights cf = Some ws -> length ws = n) ->
  o_w s = (w, [], []) -> stopped rc rj kd me cf y0 t0 sp s -> run_optimization rc rj kd me cf y0 t0 sp s = (s', Ok r) ->
  oc_jac cf = true -> dim0 y0 <= 1 \/ dim1 y0 <= 1 ->
  exists sa y m, r_pars r = Some y /\ call_jac rj kd cf (flatten y) sa = (s', Ok m) /\ o_shape sa = Some (dim0 y0, dim1 y0) /\ r_grad r = Some (sumsq (data m)).
Proof.
  intros HC HW Ew St Er Hj Thin. destruct (stopped_run HC HW Ew St Er) as (lc & lj & sa & [(wa & Aa) Sa _ _ _ B4] & Ewr & lj' & _). pose proof (written _ _ _ Ewr) as (_ & _ & _ & R3).
  unfold write_state_to_result in Ewr. rewrite Hj in Ewr. destruct (o_par sa) as [p|] eqn:Ep; [|discriminate].
  destruct B4 as [(_ & _ & Q)|(i & y & v & a & p' & D1 & D2 & D3 & D4 & D5 & D6)]; [discriminate|]. inversion D3; subst p'.
  assert (Vy : wfa [dim0 y0; dim1 y0] y).
  { destruct D5 as (xa & _ & Q & Q1 & Q2). apply unflatten_inv in Q. destruct Q as [_ Q]. cbn [fst] in Q. rewrite Q, Q1, Q2. apply wfa_mk2. }
  pose proof (cell_view _ D5) as Vp. cbn [fst] in Vp. rewrite Vp in Ewr.
  rewrite (@call_jac_data kd cf y (flatten y) sa) in Ewr by (eapply thin_view; eauto).
  destruct (call_jac rj kd cf (flatten y) sa) as [sb [mb|]] eqn:Ec; [|discriminate]. injection Ewr as E1 E2. subst sb. exists sa, y, mb. split.
  { destruct (call_jac_keeps kd cf (flatten y) sa) as (K1 & K2 & K3). rewrite Ec in K1, K2, K3. cbn [fst] in K1, K2, K3. rewrite R3, K3, Ep. f_equal. unfold view_of, cells_of in *. now rewrite K1. }
  split; [auto|]. split; auto. rewrite <- E2. cbn. now rewrite sqnorm_sumsq.
Qed.
End Abort.
