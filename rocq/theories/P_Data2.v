(** Proofs about data containers: serialisation, run selection. *)
Require Import List Arith Lia Bool String Ring Field.
From Verif Require Import LibBase LibRing M_OpHeap P_OpHeap M_Data S_Data P_Data P_Optimizer P_Anneal.
Import ListNotations.
Open Scope list_scope.
Open Scope nat_scope.
Set Implicit Arguments.
Local Notation concat := List.concat.
Local Notation length := List.length.

Section Serial.
Variable V : Type.
Variable objeq : V -> V -> bool.
Notation val := (val V).
Notation lheap := (lheap V).
Notation dcont := (dcont V).
Notation ores := (ores V).

Definition lists (d : dcont) : list val := [d_storage d; d_indices d; d_final_costs d; d_init d; d_final d; d_costs d; d_pars d; d_status d; d_stats d].
Definition complete (d : dcont) : Prop := Forall (fun v => v <> VNone) (lists d).

Lemma or_new_some (h : lheap) v : v <> VNone -> or_new h v = (h, v).
Proof. destruct v; auto. congruence. Qed.
Lemma or_new_not_none (h : lheap) v h' w : or_new h v = (h', w) -> w <> VNone.
Proof. destruct v; cbn; intros H; inversion H; subst; discriminate. Qed.
Lemma new_complete kw (h h' : lheap) d : new_container kw h = (h', Ok d) -> complete d.
Proof.
  unfold new_container. destruct (bind_args (dc_params V) kw) as [l|e]; [|discriminate].
  destruct (or_new h (arg l 3)) as [h1 v1] eqn:E1. destruct (or_new h1 (arg l 4)) as [h2 v2] eqn:E2. destruct (or_new h2 (arg l 5)) as [h3 v3] eqn:E3.
  destruct (or_new h3 (arg l 6)) as [h4 v4] eqn:E4. destruct (or_new h4 (arg l 7)) as [h5 v5] eqn:E5. destruct (or_new h5 (arg l 8)) as [h6 v6] eqn:E6.
  destruct (or_new h6 (arg l 9)) as [h7 v7] eqn:E7. intros H. inversion H. unfold complete, lists.
  cbn [d_storage d_indices d_final_costs d_init d_final d_costs d_pars d_status d_stats].
  repeat constructor; try (eapply or_new_not_none; eassumption); [destruct (arg l 0)|destruct (arg l 2)]; discriminate.
Qed.
Lemma fold_same l : forall (d d' : dcont) h h',
  fold_left (fun (acc : lheap * res dcont) (p : val * val) =>
    match snd acc with Err _ => acc | Ok d => match py_append (fst p) (snd p) (fst acc) with (h', Ok _) => (h', Ok d) | (h', Err e) => (h', Err e) end end)
    l (h, Ok d) = (h', Ok d') -> d' = d.
Proof.
  assert (X : forall l e (h h' : lheap) (d' : dcont), fold_left (fun (acc : lheap * res dcont) (p : val * val) =>
    match snd acc with Err _ => acc | Ok d => match py_append (fst p) (snd p) (fst acc) with (h', Ok _) => (h', Ok d) | (h', Err e) => (h', Err e) end end)
    l (h, Err e) = (h', Ok d') -> False). { induction l0; cbn; intros; [discriminate|eauto]. }
  induction l as [|p l IH]; intros d d' h h' H; cbn in H; [congruence|].
  destruct (py_append (fst p) (snd p) h) as [h1 [u|e]]; [eauto|]. exfalso. eauto.
Qed.
Lemma dc_append_same (d d' : dcont) a1 ix a2 a3 a4 a5 a6 a7 h h' : dc_append objeq d a1 ix a2 a3 a4 a5 a6 a7 h = (h', Ok d') -> d' = d \/ d' = with_ix d ix.
Proof.
  unfold dc_append. destruct (dc_len h d) as [n|]; [|discriminate]. destruct (Nat.eqb n 0).
  - intros H. right. now apply fold_same in H.
  - destruct (py_eqb objeq h (d_indices d) ix); [|discriminate]. intros H. left. now apply fold_same in H.
Qed.
Lemma append_same (d d' : dcont) r h h' : append_optim_result objeq d r h = (h', Ok d') -> d' = d \/ d' = with_ix d (r_indices r).
Proof. unfold append_optim_result. destruct (r_summary r); try discriminate; apply dc_append_same. Qed.
Lemma made_complete d : made objeq d -> complete d.
Proof.
  induction 1 as [kw h h' d H|d d' r h h' _ IH [[l RO] _] H]. { eapply new_complete; eauto. }
  apply append_same in H. destruct H as [E|E]; subst; auto. unfold complete, lists in *. cbn. inversion_clear IH as [|? ? A1 A2]. inversion_clear A2 as [|? ? B1 B2].
  constructor; auto. constructor; auto. rewrite RO. discriminate.
Qed.

(** ---- dictionary ---- *)
Lemma from_dict_complete (f : val -> val) (d : dcont) h : (forall v, v <> VNone -> f v <> VNone) -> complete d ->
  dc_from_dict (map (fun p => (fst p, f (snd p))) (dc_to_dict d)) h =
   (h, Ok (mkdc (f (d_storage d)) (f (d_file d)) (f (d_indices d)) (f (d_final_costs d)) (f (d_init d)) (f (d_final d)) (f (d_costs d)) (f (d_pars d)) (f (d_status d)) (f (d_stats d)) (f (d_time d)))).
Proof.
  intros Hf C. unfold complete, lists in C. apply Forall_cons_iff in C as [C1 C]. apply Forall_cons_iff in C as [C2 C]. apply Forall_cons_iff in C as [C3 C].
  apply Forall_cons_iff in C as [C4 C]. apply Forall_cons_iff in C as [C5 C]. apply Forall_cons_iff in C as [C6 C]. apply Forall_cons_iff in C as [C7 C].
  apply Forall_cons_iff in C as [C8 C]. apply Forall_cons_iff in C as [C9 _].
  unfold dc_from_dict, new_container. 
  assert (B : bind_args (dc_params V) (map (fun p => (fst p, f (snd p))) (dc_to_dict d)) =
    Ok [f (d_storage d); f (d_file d); f (d_indices d); f (d_final_costs d); f (d_init d); f (d_final d); f (d_costs d); f (d_pars d); f (d_status d); f (d_stats d); f (d_time d)]) by reflexivity.
  rewrite B. unfold arg. cbn [nth]. rewrite !or_new_some by auto. pose proof (Hf _ C1) as N1. pose proof (Hf _ C2) as N2.
  destruct (f (d_storage d)) eqn:E1; try congruence; destruct (f (d_indices d)) eqn:E2; try congruence; reflexivity.
Qed.
Theorem dict_round_trip (d : dcont) h : made objeq d -> dc_from_dict (dc_to_dict d) h = (h, Ok d).
Proof.
  intros M. apply made_complete in M. pose proof (@from_dict_complete (fun v => v) d h (fun v H => H) M) as E. 
  etransitivity; [exact E|]. now destruct d.
Qed.

(** ---- pickle ---- *)
Lemma agree_shift (h h2 : lheap) : closed h -> forall n v, closed_val (length h) v ->
  agree n h v (h2 ++ map (map (shift (length h2))) h) (shift (length h2) v).
Proof.
  intros C. induction n as [|n IH]; intros v Hv; [exact I|]. destruct v; cbn; auto.
  - cbn in Hv. destruct (nth_error h a) as [l|] eqn:E; [|apply nth_error_None in E; lia]. exists l, (map (shift (length h2)) l). split; auto. split.
    + rewrite nth_error_app2 by lia. replace (a + length h2 - length h2) with a by lia. now apply map_nth_error.
    + assert (Cl : Forall (closed_val (length h)) l). { eapply Forall_forall in C; eauto. eapply nth_error_In; eauto. }
      clear E. induction Cl; cbn; constructor; auto.
  - destruct Hv. split; auto.
Qed.
Lemma above_shift n (v : val) : above n (shift n v).
Proof. induction v; cbn; auto. lia. Qed.
Lemma shift_not_none n (v : val) : v <> VNone -> shift n v <> VNone.
Proof. destruct v; cbn; congruence. Qed.
Lemma fget_other (fs : files V) s t x : s <> t -> fget ((s, x) :: fs) t = fget fs t.
Proof. intros N. cbn. destruct (String.eqb s t) eqn:E; auto. apply String.eqb_eq in E. congruence. Qed.

(** C55 *)
Theorem pickle_round_trip may_write (d : dcont) filename h fs fs' s : made objeq d -> closed h -> closed_container h d ->
  pickle_name d filename = Ok s -> to_pickle may_write d filename h fs = (fs', Ok tt) ->
  forall fs2 (h2 : lheap), fget fs2 s = fget fs' s ->
  exists h3 d', from_pickle s fs2 h2 = (h2 ++ h3, Ok d') /\ equal_container h d (h2 ++ h3) d' /\ Forall (above (length h2)) (attributes d') /\ Forall (Forall (above (length h2))) h3.
Proof.
  intros M C CC PN TP fs2 h2 FG. apply made_complete in M. unfold to_pickle in TP. rewrite PN in TP. destruct (may_write s); [|discriminate]. inversion TP; subst fs'. clear TP.
  cbn in FG. rewrite String.eqb_refl in FG. unfold from_pickle. rewrite FG. unfold load. cbn [fst snd].
  eexists. eexists. split. { apply (@from_dict_complete (shift (length h2)) d (h2 ++ map (map (shift (length h2))) h)); auto. apply shift_not_none. }
  unfold closed_container, attributes in CC.
  split.
  - unfold equal_container, equal_value. cbn [d_storage d_file d_indices d_final_costs d_init d_final d_costs d_pars d_status d_stats d_time].
    repeat split; intros n; apply agree_shift; auto; eapply Forall_forall; eauto; cbn; tauto.
  - split. { unfold attributes. cbn. repeat constructor; apply above_shift. }
    apply Forall_forall. intros l Hl. apply in_map_iff in Hl. destruct Hl as (m & <- & _). apply Forall_forall. intros v Hv. apply in_map_iff in Hv. destruct Hv as (w & <- & _). apply above_shift.
Qed.
(** another file does not matter *)
Lemma other_file may_write (d d2 : dcont) fn fn2 h h2 fs fs1 fs2 s s2 u : pickle_name d fn = Ok s -> pickle_name d2 fn2 = Ok s2 -> s <> s2 ->
  to_pickle may_write d fn h fs = (fs1, Ok tt) -> to_pickle may_write d2 fn2 h2 fs1 = (fs2, u) -> fget fs2 s = fget fs1 s.
Proof.
  intros E E2 N T T2. unfold to_pickle in *. rewrite E in T. rewrite E2 in T2. destruct (may_write s); [|discriminate]. destruct (may_write s2); inversion T; inversion T2; subst; auto.
  apply fget_other. congruence.
Qed.
(** results *)
Theorem result_round_trip (r : ores) : result_from_dict (result_to_dict r) =
  Ok (mkres (r_final_cost r) (r_indices r) (r_final r) (r_grad_norm r) (r_init r) (r_num_iter r) (r_reason r) VNone (r_stats r) (r_optimizer r) (r_summary r)).
Proof. reflexivity. Qed.
End Serial.

Section Select.
Variable F : OField.
Add Field Kfield_d : (k_field F).
Lemma klt_of_kltb (x y : F) : kltb x y = true -> klt x y.
Proof. unfold kltb, klt. destruct (kleb y x); auto; discriminate. Qed.
Lemma first_min_snoc (l : list F) i x : first_min l i -> first_min (l ++ [x]) (if kltb x (nth i l k0) then length l else i).
Proof.
  intros (Hi & H1 & H2). unfold first_min. rewrite app_length. cbn [length].
  assert (LO : forall j, j < length l -> nth j (l ++ [x]) k0 = nth j l k0) by (intros; now apply app_nth1).
  assert (LN : nth (length l) (l ++ [x]) k0 = x) by (rewrite app_nth2, Nat.sub_diag; auto).
  destruct (kltb x (nth i l k0)) eqn:E.
  - assert (LT : forall j, j < length l -> klt x (nth j l k0)).
    { intros j Hj. specialize (H1 j Hj). unfold klt. destruct (kleb (nth j l k0) x) eqn:K; auto. exfalso. apply klt_of_kltb in E. apply (proj1 (klt_nle F _ _) E). apply (@kle_trans F _ (nth j l k0)); auto. }
    split; [lia|]. rewrite LN. split.
    + intros j Hj. destruct (Nat.eq_dec j (length l)) as [->|N]. { rewrite LN. apply kle_refl. } rewrite LO by lia. apply klt_le. apply LT. lia.
    + intros j Hj. rewrite LO by lia. auto.
  - split; [lia|]. rewrite LO by auto. split.
    + intros j Hj. destruct (Nat.eq_dec j (length l)) as [->|N]. { rewrite LN. unfold kltb in E. apply negb_false_iff in E. exact E. } rewrite LO by lia. apply H1. lia.
    + intros j Hj. rewrite LO by lia. auto.
Qed.
Lemma argmin_from_ok (l : list F) : forall (pre : list F) i, first_min pre i -> first_min (pre ++ l) (argmin_from l (length pre) i (nth i pre k0)).
Proof.
  induction l as [|x l IH]; intros pre i H; cbn [argmin_from]. { now rewrite app_nil_r. }
  pose proof (first_min_snoc x H) as H'. specialize (IH (pre ++ [x])). rewrite <- app_assoc in IH. cbn [app] in IH. rewrite app_length in IH. cbn [length] in IH. rewrite Nat.add_1_r in IH.
  destruct (kltb x (nth i pre k0)).
  - specialize (IH _ H'). rewrite app_nth2, Nat.sub_diag in IH by auto. exact IH.
  - specialize (IH _ H'). rewrite app_nth1 in IH by (apply H). exact IH.
Qed.
Lemma np_argmin_ok (l : list F) : l <> [] -> exists i, np_argmin l = Ok i /\ first_min l i.
Proof.
  destruct l as [|x l]; [congruence|]. intros _. eexists. split; [reflexivity|]. apply (argmin_from_ok l (pre := [x]) (i := 0)). split; [cbn; lia|]. split.
  - intros [|j] Hj; cbn in *; [apply kle_refl|lia].
  - intros j Hj. lia.
Qed.
Lemma sq_sum_total (c : fcost F) : sq_sum (costs_of c) = total c.
Proof. unfold sq_sum, total. rewrite (fold_sum F (fun x => kmul x x)). ring. Qed.
Lemma cost_rows_ok (l : list (fcost F)) : uniform l -> cost_rows l = Ok (map (@costs_of F) l).
Proof.
  intros U. destruct l as [|c l]; auto. destruct U as [U|(n & U)].
  - destruct (U c (or_introl eq_refl)) as (x & ->). cbn [cost_rows]. apply mapM_Ok. intros d Hd. destruct (U d Hd) as (y & ->). reflexivity.
  - destruct (U c (or_introl eq_refl)) as (v & -> & L). cbn [cost_rows]. apply mapM_Ok. intros d Hd. destruct (U d Hd) as (w & -> & L'). rewrite L, L', Nat.eqb_refl. reflexivity.
Qed.
Lemma mapM_Err {A B} (f : A -> res B) e l : (forall x, f x = Err e \/ exists y, f x = Ok y) -> (exists x, In x l /\ f x = Err e) -> mapM f l = Err e.
Proof.
  intros D. induction l as [|x l IH]; intros (z & H & E); [destruct H|]. cbn. destruct (D x) as [K|(y & K)]; rewrite K; auto.
  destruct H as [->|H]; [congruence|]. rewrite IH; eauto.
Qed.
Lemma cost_rows_bad (l : list (fcost F)) : ~ uniform l -> cost_rows l = Err ValueError.
Proof.
  intros U. destruct l as [|[x|v] l].
  - exfalso. apply U. left. intros c [].
  - cbn [cost_rows]. apply mapM_Err. { intros [y|w]; eauto. }
    assert (X : exists c, In c (FNum x :: l) /\ exists v, c = FVec v).
    { clear - U. assert (H : forall m : list (fcost F), (forall c, In c m -> exists y, c = FNum y) \/ exists c, In c m /\ exists v, c = FVec v).
      { induction m as [|c m IH]. - left. intros c []. - destruct c as [y|w]; [|right; exists (FVec w); cbn; eauto]. destruct IH as [IH|(c & A & B)]; [left|right; exists c; cbn; eauto].
        intros c [<-|Hc]; eauto. }
      destruct (H (FNum x :: l)) as [A|A]; auto. exfalso. apply U. now left. }
    destruct X as (c & Hc & v & ->). exists (FVec v). auto.
  - cbn [cost_rows]. apply mapM_Err. { intros [y|w]; eauto. destruct (Nat.eqb (length w) (length v)); eauto. }
    assert (H : forall m : list (fcost F), (forall c, In c m -> exists w, c = FVec w /\ length w = length v) \/
       exists c, In c m /\ match c with FVec w => if Nat.eqb (length w) (length v) then Ok w else Err ValueError | FNum _ => Err ValueError end = Err ValueError).
    { induction m as [|c m IH]. - left. intros c []. - destruct c as [y|w]; [right; exists (FNum y); cbn; eauto|].
      destruct (Nat.eqb (length w) (length v)) eqn:E. 2:{ right. exists (FVec w). cbn [In]. rewrite E. auto. } apply Nat.eqb_eq in E.
      destruct IH as [IH|(c & A & B)]; [left|right; exists c; cbn [In]; auto]. intros c [<-|Hc]; eauto. }
    destruct (H (FVec v :: l)) as [A|A]; auto. exfalso. apply U. right. exists (length v). exact A.
Qed.
(** C56 *)
Theorem best_run (l : list (fcost F)) : uniform l -> l <> [] -> exists i, n_least_square l = Ok i /\ first_min (map (@total F) l) i.
Proof.
  intros U N. unfold n_least_square. rewrite (cost_rows_ok U). cbn [bind]. rewrite map_map. rewrite (map_ext _ _ sq_sum_total).
  apply np_argmin_ok. destruct l; [congruence|discriminate].
Qed.
Theorem no_best_run (l : list (fcost F)) : l = [] \/ ~ uniform l -> n_least_square l = Err ValueError.
Proof. intros [->|U]; [reflexivity|]. unfold n_least_square. now rewrite cost_rows_bad. Qed.
Lemma first_min_unique (l : list F) i j : first_min l i -> first_min l j -> i = j.
Proof.
  intros (A1 & A2 & A3) (B1 & B2 & B3). destruct (Nat.lt_total i j) as [L|[L|L]]; auto; exfalso.
  - apply (proj1 (klt_nle F _ _) (B3 i L)). apply A2. auto.
  - apply (proj1 (klt_nle F _ _) (A3 j L)). apply B2. auto.
Qed.
End Select.
