(** Products of propagators: forward, reversed, telescoping; unitarity. *)
Require Import List Arith Lia Bool.
From Verif Require Import LibBase LibRing LibArr LibCplx LibMat M_Matrix S_Linear P_Linear M_Transfer S_Transfer M_Amplitude M_Solver S_Solver P_Loops P_Solver P_Solver2 P_Solver3 P_Solver4 P_Solver5 P_Solver6.
Import ListNotations.
Open Scope res_scope.
Set Implicit Arguments.

Section Products.
Variable F : OField.
Notation S := (CStar F).
Notation op := (op F).
Notation dop := (Arr [] [] : op).

Fixpoint prods (es : list op) (x : op) : list op :=
  match es with [] => [] | P :: es' => mmul (S:=S) P x :: prods es' (mmul (S:=S) P x) end.
Fixpoint rprods (es : list op) (x : op) : list op :=
  match es with [] => [] | P :: es' => mmul (S:=S) x P :: rprods es' (mmul (S:=S) x P) end.

Lemma op_mul_wf m n p (A B : op) : wfm m n A -> wfm n p B -> op_mul A (ODense B) = Ok (mmul (S:=S) A B).
Proof. intros WA WB. cbn. unfold np_matmul. rewrite (wfm_nc WA), (wfm_nr WB), Nat.eqb_refl. reflexivity. Qed.

Lemma fwd_foldM d k (es : list op) (x : op) pre : Forall (wfm (S:=S) d d : op -> Prop) es -> wfm d k x ->
  foldM (times_last (F:=F)) (map Some es) (pre ++ [x]) = Ok (pre ++ x :: prods es x).
Proof.
  intros H. revert x pre. induction H as [|P es WP Hes IH]; intros x pre Wx; cbn [map foldM prods]; auto.
  unfold times_last at 1. rewrite last_last. rewrite (@op_mul_wf d d k P x) by auto. cbn [bind].
  etransitivity; [apply (IH (mmul (S:=S) P x) (pre ++ [x])); eapply wfm_mmul; eauto|]. now rewrite <- app_assoc.
Qed.
Lemma rev_foldM d (es : list op) (x : op) pre : Forall (wfm (S:=S) d d : op -> Prop) es -> wfm d d x ->
  foldM (last_times (F:=F)) (map Some es) (pre ++ [x]) = Ok (pre ++ x :: rprods es x).
Proof.
  intros H. revert x pre. induction H as [|P es WP Hes IH]; intros x pre Wx; cbn [map foldM rprods]; auto.
  unfold last_times at 1. rewrite last_last. rewrite (@op_mul_wf d d d x P) by auto. cbn [bind].
  etransitivity; [apply (IH (mmul (S:=S) x P) (pre ++ [x])); eapply wfm_mmul; eauto|]. now rewrite <- app_assoc.
Qed.
Lemma prods_length (es : list op) (x : op) : length (prods es x) = length es.
Proof. revert x. induction es; intros; cbn; auto. Qed.
Lemma rprods_length (es : list op) (x : op) : length (rprods es x) = length es.
Proof. revert x. induction es; intros; cbn; auto. Qed.
Lemma prods_step (es : list op) (x : op) i : i < length es -> nth (Datatypes.S i) (x :: prods es x) dop = mmul (S:=S) (nth i es dop) (nth i (x :: prods es x) dop).
Proof.
  revert x i. induction es as [|P es IH]; intros x i Hi; [cbn in Hi; lia|]. destruct i; [reflexivity|].
  change (nth (Datatypes.S i) (mmul (S:=S) P x :: prods es (mmul (S:=S) P x)) dop = mmul (S:=S) (nth i es dop) (nth i (mmul (S:=S) P x :: prods es (mmul (S:=S) P x)) dop)).
  apply IH. cbn in Hi. lia.
Qed.
Lemma rprods_step (es : list op) (x : op) i : i < length es -> nth (Datatypes.S i) (x :: rprods es x) dop = mmul (S:=S) (nth i (x :: rprods es x) dop) (nth i es dop).
Proof.
  revert x i. induction es as [|P es IH]; intros x i Hi; [cbn in Hi; lia|]. destruct i; [reflexivity|].
  change (nth (Datatypes.S i) (mmul (S:=S) x P :: rprods es (mmul (S:=S) x P)) dop = mmul (S:=S) (nth i (mmul (S:=S) x P :: rprods es (mmul (S:=S) x P)) dop) (nth i es dop)).
  apply IH. cbn in Hi. lia.
Qed.
Lemma wf_nth d (es : list op) i : Forall (wfm (S:=S) d d : op -> Prop) es -> i < length es -> wfm d d (nth i es dop).
Proof. intros H Hi. rewrite Forall_forall in H. apply H. now apply nth_In. Qed.
Lemma prods_wf d k (es : list op) (x : op) i : Forall (wfm (S:=S) d d : op -> Prop) es -> wfm d k x -> i <= length es -> wfm (S:=S) d k (nth i (x :: prods es x) dop).
Proof.
  intros He Hx. induction i; intros Hi; auto. rewrite prods_step by lia. eapply wfm_mmul; [apply wf_nth; auto|apply IHi; lia].
Qed.
Lemma rprods_wf d (es : list op) (x : op) i : Forall (wfm (S:=S) d d : op -> Prop) es -> wfm d d x -> i <= length es -> wfm (S:=S) d d (nth i (x :: rprods es x) dop).
Proof.
  intros He Hx. induction i; intros Hi; auto. rewrite rprods_step by lia. eapply wfm_mmul; [apply IHi; lia|apply wf_nth; auto].
Qed.

Lemma nth_error_of {A} (l : list A) i (d : A) : i < length l -> nth_error l i = Some (nth i l d).
Proof. apply nth_error_nth'. Qed.

Lemma prods_cumulative d k (es : list op) (x : op) : Forall (wfm (S:=S) d d : op -> Prop) es -> wfm d k x -> cumulative d k x (map Some es) (x :: prods es x).
Proof.
  intros He Hx. unfold cumulative. rewrite map_length. cbn [length]. rewrite prods_length. split; auto. split; auto.
  intros i Hi. exists (nth i es dop), (nth i (x :: prods es x) dop), (nth (Datatypes.S i) (x :: prods es x) dop).
  split. { rewrite nth_error_map, (nth_error_of es dop) by auto. reflexivity. }
  split. { apply nth_error_of. cbn. rewrite prods_length. lia. }
  split. { apply nth_error_of. cbn. rewrite prods_length. lia. }
  rewrite prods_step by auto. apply is_product_mmul; [apply wf_nth; auto|apply prods_wf; auto; lia].
Qed.

(** R_{n-t} F_t = F_n *)
Lemma telescope d k (es : list op) (x : op) t : Forall (wfm (S:=S) d d : op -> Prop) es -> wfm d k x -> t <= length es ->
  mmul (S:=S) (nth t (rev (mid (S:=S) d :: rprods (rev es) (mid (S:=S) d))) dop) (nth t (x :: prods es x) dop) = nth (length es) (x :: prods es x) dop.
Proof.
  intros He Hx Ht.
  set (r := mid (S:=S) d :: rprods (rev es) (mid (S:=S) d)). set (f := x :: prods es x).
  assert (Hr : Forall (wfm (S:=S) d d) (rev es)) by now apply Forall_rev.
  assert (Lr : length r = Datatypes.S (length es)) by (unfold r; cbn; rewrite rprods_length, rev_length; auto).
  assert (E : forall j, j <= length es -> mmul (S:=S) (nth j r dop) (nth (length es - j) f dop) = nth (length es) f dop).
  { induction j; intros Hj.
    - rewrite Nat.sub_0_r. unfold r. cbn [nth]. eapply mmul_1_l. apply prods_wf; eauto.
    - unfold r. rewrite rprods_step by (rewrite rev_length; lia). rewrite rev_nth by lia. fold r.
      rewrite <- (IHj ltac:(lia)). replace (length es - j) with (Datatypes.S (length es - Datatypes.S j)) by lia.
      unfold f at 2. rewrite prods_step by lia. fold f. symmetry. replace (length es - Datatypes.S j) with (length es - Datatypes.S j) by lia.
      apply (@mmul_assoc S d d d k).
      + unfold r. apply rprods_wf; [exact Hr|apply wfm_mid|rewrite rev_length; lia].
      + apply wf_nth; auto; lia.
      + apply prods_wf; eauto; lia. }
  rewrite rev_nth by lia. rewrite Lr. replace (Datatypes.S (length es) - Datatypes.S t) with (length es - t) by lia.
  rewrite <- (E (length es - t)) by lia. f_equal. f_equal. lia.
Qed.

Lemma chain_prods d k (es : list op) (x : op) (y : op) : Forall (wfm (S:=S) d d : op -> Prop) es -> wfm d k x -> (chain d k es x y <-> y = nth (length es) (x :: prods es x) dop).
Proof.
  intros H. revert x. induction H as [|P es WP Hes IH]; intros x Wx; cbn [chain length]; [reflexivity|].
  assert (Wz : wfm (S:=S) d k (mmul P x)) by (eapply wfm_mmul; eauto).
  change (nth (Datatypes.S (length es)) (x :: prods (P :: es) x) dop) with (nth (length es) (mmul (S:=S) P x :: prods es (mmul (S:=S) P x)) dop).
  rewrite <- (IH _ Wz). split.
  - intros (z & Hz & Hc). apply is_product_eq in Hz; auto. now subst z.
  - intros Hc. exists (mmul (S:=S) P x). split; auto. now apply is_product_mmul.
Qed.

(** unitarity of the products *)
Lemma prods_unitary d (es : list op) (x : op) i : Forall (munitary (S:=S) d : op -> Prop) es -> munitary (S:=S) d x -> i <= length es -> munitary (S:=S) d (nth i (x :: prods es x) dop).
Proof.
  intros He Hx. induction i; intros Hi; auto. rewrite prods_step by lia. apply munitary_mul; [|apply IHi; lia].
  rewrite Forall_forall in He. apply He, nth_In. lia.
Qed.
Lemma rprods_unitary d (es : list op) (x : op) i : Forall (munitary (S:=S) d : op -> Prop) es -> munitary (S:=S) d x -> i <= length es -> munitary (S:=S) d (nth i (x :: rprods es x) dop).
Proof.
  intros He Hx. induction i; intros Hi; auto. rewrite rprods_step by lia. apply munitary_mul; [apply IHi; lia|].
  rewrite Forall_forall in He. apply He, nth_In. lia.
Qed.
End Products.

(** ---- used solvers ---- *)
Section Used.
Variable F : OField.
Variable rexp : F -> F.
Variable la : LinAlg F.
Variable eps : cplx F.
Notation S := (CStar F).
Notation op := (op F).
Notation st := (@st F).
Notation dop := (Arr [] [] : op).
Notation used := (used rexp la eps).
Notation returns := (returns rexp la eps).
Notation constructed := (@constructed F).

Lemma constructed_fresh d (s0 : st) : constructed d s0 -> good la eps (s_conf s0) -> exists tau, Fresh rexp la eps (s_udiss s0) d tau s0.
Proof.
  intros (Hc & cls & drift & ctrl & tau & init & amps & meth & skew & calc & approx & t & a & udiss & Hb & H) G.
  exists tau. pose proof (@build_fresh F rexp la eps cls drift ctrl tau init amps meth skew calc approx d t a udiss s0 Hb Hc H G) as Fr. rewrite (f_u Fr). exact Fr.
Qed.

Lemma used_value d (s0 s : st) o v : used d s0 s -> is_read o = true -> returns s o v -> rval la eps (s_udiss s0) s o v.
Proof.
  intros (Hc & G & hist & A & H & ->) Ho Hv. destruct (@constructed_fresh d s0 Hc G) as [tau Fr].
  exact (@reach_value F rexp la eps (s_udiss s0) d tau s0 hist o v Fr A H Ho Hv).
Qed.
Lemma used_coherent d (s0 : st) hist o v : constructed d s0 -> good la eps (s_conf s0) -> Forall allowed hist -> all_ok rexp la eps s0 hist -> is_read o = true ->
  returns (srun rexp la eps s0 (match last_set hist with Some y => [SSet y] | None => [] end)) o v -> returns (srun rexp la eps s0 hist) o v.
Proof. intros Hc G A H Ho Hv. destruct (@constructed_fresh d s0 Hc G) as [tau Fr]. exact (@coherent F rexp la eps (s_udiss s0) d tau s0 hist o v Fr A H Ho Hv). Qed.

Lemma all_square_map d (es : list op) : all_square d (map Some es) -> Forall (wfm (S:=S) d d : op -> Prop) es.
Proof. intros H. apply Forall_forall. intros P HP. apply is_matrix_wfm, H. now apply in_map. Qed.

Lemma used_forward d (s0 s : st) ps fs n k : used d s0 s -> returns s SPropag (VProp ps) -> returns s SFwd (VOps fs) ->
  all_square n ps -> is_matrix n k (c_init (s_conf s)) -> cumulative n k (c_init (s_conf s)) ps fs.
Proof.
  intros HU Hp Hf Hn Hi. destruct (@used_value d s0 s SPropag _ HU eq_refl Hp) as (g & es & A1 & A2 & ->). destruct (@used_value d s0 s SFwd _ HU eq_refl Hf) as (g' & es' & B1 & B2 & B3).
  assert (g' = g) by congruence. subst g'. assert (es' = es) by congruence. subst es'. apply all_square_map in Hn. apply is_matrix_wfm in Hi.
  unfold fwd_of in B3. cbn [s_conf bare] in B3. change [c_init (s_conf s)] with ([] ++ [c_init (s_conf s)]) in B3.
  rewrite (@fwd_foldM F n k) in B3 by auto. inversion B3; subst. now apply prods_cumulative.
Qed.
(** what the reversed propagators are *)
Lemma rev_of_val n (es : list op) rs : Forall (wfm (S:=S) n n) es -> rev_of es = Ok rs -> rs = mid (S:=S) n :: rprods (rev es) (mid (S:=S) n).
Proof.
  intros Hn H. unfold rev_of in H. destruct es as [|P es]; [discriminate|]. cbn [map first_dim idx nth_error bind] in H.
  assert (WP : wfm (S:=S) n n P) by now inversion Hn. rewrite (wfm_nr WP) in H.
  change (Some P :: map Some es) with (map Some (P :: es)) in H. rewrite <- map_rev in H.
  change [mid (S:=S) n] with ([] ++ [mid (S:=S) n]) in H. rewrite (@rev_foldM F n) in H; [|now apply Forall_rev|apply wfm_mid].
  now inversion H.
Qed.
Lemma used_reversed d (s0 s : st) ps fs rs n k : used d s0 s -> returns s SPropag (VProp ps) -> returns s SFwd (VOps fs) -> returns s SRev (VOps rs) ->
  all_square n ps -> is_matrix n k (c_init (s_conf s)) ->
  length rs = Datatypes.S (length ps) /\ (exists r0, nth_error rs 0 = Some r0 /\ is_identity n r0) /\
  forall t, t <= length ps -> exists R f l, nth_error (rev rs) t = Some R /\ nth_error fs t = Some f /\ nth_error fs (length ps) = Some l /\ is_product n n k R f l.
Proof.
  intros HU Hp Hf Hr Hn Hi. destruct (@used_value d s0 s SPropag _ HU eq_refl Hp) as (g & es & A1 & A2 & ->). destruct (@used_value d s0 s SFwd _ HU eq_refl Hf) as (g' & es' & B1 & B2 & B3).
  destruct (@used_value d s0 s SRev _ HU eq_refl Hr) as (g2 & es2 & C1 & C2 & C3).
  assert (g' = g) by congruence. subst g'. assert (es' = es) by congruence. subst es'. assert (g2 = g) by congruence. subst g2. assert (es2 = es) by congruence. subst es2.
  apply all_square_map in Hn. apply is_matrix_wfm in Hi.
  unfold fwd_of in B3. cbn [s_conf bare] in B3. change [c_init (s_conf s)] with ([] ++ [c_init (s_conf s)]) in B3.
  rewrite (@fwd_foldM F n k) in B3 by auto. inversion B3; subst fs. clear B3. cbn [app].
  apply (rev_of_val Hn) in C3. subst rs. rewrite map_length. set (x := c_init (s_conf s)) in *.
  assert (L : length (mid (S:=S) n :: rprods (rev es) (mid (S:=S) n)) = Datatypes.S (length es)) by (cbn [length]; f_equal; etransitivity; [apply rprods_length|apply rev_length]).
  split; auto. split. { eexists. split; [reflexivity|]. now apply is_identity_mid. }
  intros t Ht. exists (nth t (rev (mid (S:=S) n :: rprods (rev es) (mid (S:=S) n))) dop), (nth t (x :: prods es x) dop), (nth (length es) (x :: prods es x) dop).
  split. { apply nth_error_of. rewrite rev_length, L. lia. }
  split. { apply nth_error_of. cbn. rewrite prods_length. lia. }
  split. { apply nth_error_of. cbn. rewrite prods_length. lia. }
  rewrite <- (@telescope F n k es x t) by auto. apply is_product_mmul; [|apply prods_wf; auto].
  rewrite rev_nth by (rewrite L; lia). apply rprods_wf; [now apply Forall_rev|apply wfm_mid|rewrite rev_length, L; lia].
Qed.

(** every step unitary: so are all products *)
Lemma used_unitary d (s0 s : st) ps fs n : used d s0 s -> returns s SPropag (VProp ps) -> returns s SFwd (VOps fs) ->
  (forall P, In (Some P) ps -> is_unitary n P) -> is_unitary n (c_init (s_conf s)) -> forall f, In f fs -> is_unitary n f.
Proof.
  intros HU Hp Hf Hn Hi f Hin. destruct (@used_value d s0 s SPropag _ HU eq_refl Hp) as (g & es & A1 & A2 & ->). destruct (@used_value d s0 s SFwd _ HU eq_refl Hf) as (g' & es' & B1 & B2 & B3).
  assert (g' = g) by congruence. subst g'. assert (es' = es) by congruence. subst es'.
  assert (Hu : Forall (munitary (S:=S) n) es). { apply Forall_forall. intros P HP. apply is_unitary_m, Hn. now apply in_map. }
  assert (Hw : Forall (wfm (S:=S) n n) es). { eapply Forall_impl; [|exact Hu]. intros P HP. now apply munitary_wf. }
  apply is_unitary_m in Hi.
  unfold fwd_of in B3. cbn [s_conf bare] in B3. change [c_init (s_conf s)] with ([] ++ [c_init (s_conf s)]) in B3.
  rewrite (@fwd_foldM F n n) in B3; auto; [|now apply munitary_wf]. inversion B3; subst fs. clear B3.
  destruct (In_nth _ _ dop Hin) as (i & Hi' & <-). apply is_unitary_m. apply prods_unitary; auto. pose proof (prods_length es (c_init (s_conf s))) as X. cbn in Hi', X. lia.
Qed.
Lemma used_rev_unitary d (s0 s : st) ps rs n : used d s0 s -> returns s SPropag (VProp ps) -> returns s SRev (VOps rs) ->
  (forall P, In (Some P) ps -> is_unitary n P) -> forall r, In r rs -> is_unitary n r.
Proof.
  intros HU Hp Hr Hn r Hin. destruct (@used_value d s0 s SPropag _ HU eq_refl Hp) as (g & es & A1 & A2 & ->). destruct (@used_value d s0 s SRev _ HU eq_refl Hr) as (g' & es' & B1 & B2 & B3).
  assert (g' = g) by congruence. subst g'. assert (es' = es) by congruence. subst es'.
  assert (Hu : Forall (munitary (S:=S) n) es). { apply Forall_forall. intros P HP. apply is_unitary_m, Hn. now apply in_map. }
  assert (Hw : Forall (wfm (S:=S) n n) es). { eapply Forall_impl; [|exact Hu]. intros P HP. now apply munitary_wf. }
  apply (rev_of_val Hw) in B3. subst rs. destruct (In_nth _ _ dop Hin) as (i & Hi' & <-). apply is_unitary_m.
  apply rprods_unitary; auto; [now apply Forall_rev|apply munitary_id|]. pose proof (rprods_length (rev es) (mid (S:=S) n)) as X. cbn in Hi', X. lia.
Qed.
End Used.
