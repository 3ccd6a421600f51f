(** What statements on one operator compute (C06). *)
Require Import List Arith Lia Bool Ring Field.
From Verif Require Import LibBase LibRing LibArr LibCplx LibMat M_Matrix M_OpHeap S_Linear P_Linear S_OpHeap P_OpHeap.
Import ListNotations.
Set Implicit Arguments.

Section P.
Variable F : OField.
Add Field Cfield_oph2 : (c_field F).
Notation S := (CStar F).
Notation heap := (heap F).
Notation instr := (instr F).

Lemma buf_mtr_entries (A : op F) : has_entries (nc A) (nr A) (fun k l => mg A l k) (mtr (S:=S) A).
Proof. unfold mtr. split; [apply nr_mk2|]. split; [apply nc_mk2|]. intros i j Hi Hj. now rewrite mg_mk2. Qed.
Lemma mk_entries m n f : has_entries (F:=F) m n f (mk2 m n f).
Proof. split; [apply (@nr_mk2 S)|]. split; [apply (@nc_mk2 S)|]. intros i j Hi Hj. now apply (@mg_mk2 S). Qed.
Lemma entries_ext m n f g B : (forall i j, i < m -> j < n -> f i j = g i j) -> has_entries (F:=F) m n f B -> has_entries m n g B.
Proof. intros E (A1 & A2 & A3). split; auto. split; auto. intros. rewrite A3; auto. Qed.
Lemma buf_scale_entries c (A : op F) : has_entries (nr A) (nc A) (fun k l => cmul c (mg A k l)) (mscale (S:=S) c A).
Proof. apply mk_entries. Qed.
Lemma buf_conj_entries (A : op F) : has_entries (nr A) (nc A) (fun k l => cconj (mg A k l)) (op_conj A).
Proof. apply mk_entries. Qed.
Lemma self_entries (A : op F) : has_entries (nr A) (nc A) (fun k l => mg A k l) A.
Proof. repeat split. Qed.
Lemma buf_tr_entries m n f (B : op F) : has_entries m n f B -> has_entries n m (fun k l => f l k) (mtr (S:=S) B).
Proof. intros (<- & <- & E). eapply entries_ext; [|apply buf_mtr_entries]. intros. cbn. auto. Qed.

(** the value of an object on a new buffer *)
Lemma new_value (h : heap) M b : valof (mkheap (bufs h ++ [M]) (objs h ++ [mkobj (length (bufs h)) b])) (length (objs h)) = Ok (if b then mtr (S:=S) M else M).
Proof. unfold valof, getobj. cbn [objs]. rewrite nth_error_app2, Nat.sub_diag by auto. cbn [nth_error bind]. unfold view, getbuf. cbn [o_buf o_tr bufs]. now rewrite nth_middle. Qed.
Lemma store_view (h : heap) o M m n f : o_buf o < length (bufs h) -> wfm m n M -> has_entries m n f M -> has_entries m n f (view (store h o M) o).
Proof. intros L W E. rewrite (@mtr_mtr_view F h o M m n); auto. now apply nth_error_Some. Qed.
Lemma nth_lset {T} (l : list T) i x d : i < length l -> nth i (lset l i x) d = x.
Proof. intros H. erewrite nth_error_nth; [reflexivity|]. now apply lset_nth_error_eq. Qed.

Lemma statement_effect (h : heap) a A m n i : wfheap h -> valof h a = Ok A -> is_matrix (S:=S) m n A -> acts_on a m n i ->
  exists h' B, step h i = Ok h' /\ valof h' (result_of i (length (objs h))) = Ok B /\ effect m n A i B.
Proof.
  intros W V WA AC. apply is_matrix_wfm in WA. pose proof (wfm_nr WA) as NR. pose proof (wfm_nc WA) as NC.
  pose proof V as V0. unfold valof in V0. destruct (getobj h a) as [o|] eqn:G; [|discriminate]. cbn [bind] in V0. injection V0 as VA.
  pose proof G as Gn. apply getobj_nth in Gn. pose proof (W _ _ Gn) as L.
  assert (EN : forall i M, out_val h i = Some (Ok M) -> step h i = Ok (alloc h M)) by (intros i0 M E; unfold step; rewrite E; reflexivity).
  assert (NV : forall M, valof (alloc h M) (length (objs h)) = Ok M) by (intros M; apply (new_value h M false)).
  assert (SV : forall M f, wfm m n M -> has_entries m n f M -> valof (store h o M) a = Ok (view (store h o M) o) /\ has_entries m n f (view (store h o M) o)).
  { intros M f WM HM. split; [unfold valof, getobj, store; cbn [objs]; now rewrite Gn|eapply store_view; eauto]. }
  destruct i; cbn [acts_on] in AC; try tauto; try (match type of AC with _ /\ _ => destruct AC as [AX AC] | _ => rename AC into AX end; rewrite AX in *; clear AX); cbn [result_of effect].
  - (* wrap *) eexists _, A. split; [unfold step; cbn [out_val]; rewrite G; reflexivity|]. split.
    + unfold valof, getobj. cbn [objs]. rewrite nth_error_app2, Nat.sub_diag by auto. cbn [nth_error bind]. f_equal. exact VA.
    + rewrite <- NR, <- NC. apply self_entries.
  - (* copy *) eexists _, A. split; [apply EN; cbn [out_val]; rewrite V; reflexivity|]. split; [apply NV|]. rewrite <- NR, <- NC. apply self_entries.
  - (* scale *) eexists _, _. split; [apply EN; cbn [out_val]; rewrite V; reflexivity|]. split; [apply NV|]. unfold op_copy. rewrite <- NR, <- NC. apply buf_scale_entries.
  - (* div *) assert (Z : ceqb c c0 = false) by (destruct (ceqb c c0) eqn:E; auto; apply ceqb_eq in E; contradiction).
    eexists _, _. split; [apply EN; cbn [out_val]; rewrite V; cbn [bind op_truediv]; rewrite Z; reflexivity|]. split; [apply NV|]. rewrite <- NR, <- NC.
    eapply entries_ext; [|apply buf_scale_entries]. intros k l _ _. cbn. unfold cdiv. ring.
  - (* dag *) eexists _, _. split; [apply EN; cbn [out_val]; rewrite V; reflexivity|]. split; [apply NV|]. rewrite <- NR, <- NC. unfold op_dag. apply (buf_tr_entries (buf_conj_entries A)).
  - (* conj *) eexists _, _. split; [apply EN; cbn [out_val]; rewrite V; reflexivity|]. split; [apply NV|]. rewrite <- NR, <- NC. apply buf_conj_entries.
  - (* transpose *) eexists _, _. split; [unfold step; cbn [out_val]; rewrite V; reflexivity|]. split; [apply new_value|]. rewrite <- NR, <- NC. apply buf_mtr_entries.
  - (* scale in place *) destruct (SV (mscale (S:=S) c A) (fun k l => cmul c (mg A k l))) as [X Y]; [apply wfm_mscale; auto|rewrite <- NR, <- NC; apply buf_scale_entries|].
    eexists _, _. split; [unfold step; cbn [out_val]; rewrite G; cbn [bind op_imul]; rewrite VA; reflexivity|]. split; [exact X|exact Y].
  - (* dag in place *) eexists _, _. split; [unfold step; cbn [out_val]; rewrite G; cbn [bind]; rewrite VA; reflexivity|].
    assert (La : a < length (objs h)) by (apply nth_error_Some; congruence).
    split; [unfold valof, getobj, store; cbn [objs]; rewrite lset_nth_error_eq by auto; reflexivity|].
    unfold view, getbuf, store. cbn [bufs o_buf o_tr]. rewrite nth_lset by auto. rewrite <- NR, <- NC.
    destruct (o_tr o); cbn [negb]; apply (buf_tr_entries (buf_conj_entries A)).
  - (* conj in place *) destruct (SV (op_conj A) (fun k l => cconj (mg A k l))) as [X Y]; [apply wfm_mconj; auto|rewrite <- NR, <- NC; apply buf_conj_entries|].
    eexists _, _. split; [unfold step; cbn [out_val]; rewrite G; cbn [bind]; rewrite VA; reflexivity|]. split; [exact X|exact Y].
  - (* transpose in place *) eexists _, _. split; [unfold step; cbn [out_val]; rewrite G; reflexivity|].
    assert (La : a < length (objs h)) by (apply nth_error_Some; congruence).
    split; [unfold valof, getobj; cbn [objs]; rewrite lset_nth_error_eq by auto; reflexivity|].
    unfold view, getbuf in *. cbn [bufs o_buf o_tr]. destruct (o_tr o); cbn [negb].
    + destruct (buf_mtr_entries (nth (o_buf o) (bufs h) (no_op F))) as (E1 & E2 & E3). rewrite VA in E1, E2, E3. rewrite <- NR, <- NC, E1, E2.
      split; [reflexivity|]. split; [reflexivity|]. intros k l Hk Hl. rewrite E3; auto.
    + rewrite VA. rewrite <- NR, <- NC. apply buf_mtr_entries.
  - (* item *) destruct AC as [Hi Hj].
    destruct (SV (mk2 m n (fun i' j' => if Nat.eqb i' i && Nat.eqb j' j then c else mg A i' j')) (fun k' l' => if Nat.eqb k' i && Nat.eqb l' j then c else mg A k' l')) as [X Y]; [apply (@wfm_mk2 S)|apply mk_entries|].
    eexists _, _. split; [unfold step; cbn [out_val]; rewrite G; cbn [bind]; rewrite VA, NR, NC; apply Nat.ltb_lt in Hi; apply Nat.ltb_lt in Hj; rewrite Hi, Hj; reflexivity|]. split; [exact X|exact Y].
Qed.
Lemma reach_effect (p : list instr) a A m n i : valof (run (heap0 F) p) a = Ok A -> is_matrix (S:=S) m n A -> acts_on a m n i ->
  exists h' B, step (run (heap0 F) p) i = Ok h' /\ valof h' (result_of i (length (objs (run (heap0 F) p)))) = Ok B /\ effect m n A i B.
Proof. intros V WA AC. eapply statement_effect; eauto. apply run_wf, heap0_wf. Qed.
End P.
