(** The gradient of the fidelity of a part of a composite system is its derivative. *)
Require Import List Arith Lia Bool Permutation Reals Lra.
From Verif Require Import LibBase LibRing LibArr LibCplx LibMat LibNorm LibDeriv M_Matrix S_Linear S_Deriv P_Linear P_Matrix M_Solver M_Cost M_CostSub S_Cost S_CostGrad P_Loops P_Cost P_Cost2 P_CostGrad P_CostGrad2
  S_PTrace P_PTrace S_CostSub P_CostSub.
Import ListNotations.
Set Implicit Arguments.
Add Field Kfield_cs2 : (k_field RField).
Add Ring Cring_cs2 : (c_ring RField).

(** there are such positions *)
Definition place (dims removed : list nat) (r x : nat) : nat :=
  ravel dims (merge (length dims) removed (kept (length dims) removed) (unravel (select dims removed) r) (unravel (select dims (kept (length dims) removed)) x)).
Lemma index_nth l a : NoDup l -> a < length l -> index_of (nth a l 0) l = a.
Proof.
  revert a. induction l as [|x l IH]; intros a N Ha; cbn in *; [lia|]. inversion N; subst. destruct a; [now rewrite Nat.eqb_refl|].
  destruct (Nat.eqb_spec x (nth a l 0)) as [->|Ne]; [exfalso; apply H1; apply nth_In; lia|]. rewrite IH; auto. lia.
Qed.
Lemma select_merge_removed n removed keep ri kj : NoDup removed -> (forall q, In q removed -> q < n) -> length ri = length removed -> select (merge n removed keep ri kj) removed = ri.
Proof.
  intros ND H Lr. apply (nth_ext _ _ 0 0). { unfold select. now rewrite map_length. }
  intros a Ha. unfold select in Ha. rewrite map_length in Ha. rewrite nth_select by auto.
  assert (I : In (nth a removed 0) removed) by now apply nth_In. rewrite merge_nth by auto. replace (mem_nat (nth a removed 0) removed) with true by (symmetry; now apply mem_nat_In).
  now rewrite index_nth.
Qed.
Lemma select_merge_keep n removed keep ri kj : NoDup keep -> (forall q, In q keep -> q < n /\ ~ In q removed) -> length kj = length keep -> select (merge n removed keep ri kj) keep = kj.
Proof.
  intros ND H Lr. apply (nth_ext _ _ 0 0). { unfold select. now rewrite map_length. }
  intros a Ha. unfold select in Ha. rewrite map_length in Ha. rewrite nth_select by auto.
  assert (I : In (nth a keep 0) keep) by now apply nth_In. destruct (H _ I) as [H1 H2]. rewrite merge_nth by auto.
  destruct (mem_nat (nth a keep 0) removed) eqn:E; [apply mem_nat_In in E; contradiction|]. now rewrite index_nth.
Qed.
Lemma place_ok dims removed : proper_part dims removed -> places dims removed (place dims removed).
Proof.
  intros H r x Hr Hx. pose proof (part_perm H) as HP. destruct H as (ND & Hq & _). set (keep := kept (length dims) removed) in *.
  assert (Vr : vidx (select dims removed) (unravel (select dims removed) r)) by now apply unravel_valid.
  assert (Vx : vidx (select dims keep) (unravel (select dims keep) x)) by now apply unravel_valid.
  exists (merge (length dims) removed keep (unravel (select dims removed) r) (unravel (select dims keep) x)).
  split; [now apply merge_valid|]. split; [reflexivity|]. split.
  - rewrite select_merge_keep; [now apply ravel_unravel|apply kept_NoDup|intros q Hk; now apply In_kept in Hk|]. rewrite (vidx_len Vx). apply map_length.
  - rewrite select_merge_removed; [now apply ravel_unravel|auto|auto|]. rewrite (vidx_len Vr). apply map_length.
Qed.

Section Grad.
Notation iter := (fun l : list nat => l).
Variables dims removed : list nat.
Hypothesis HPP : proper_part dims removed.
Notation D := (whole dims).
Notation m := (rest dims removed).
Notation k := (own dims removed).
Notation L := (place dims removed).

(** <t| psi_r> *)
Definition br (t : rop) (f : nat -> RC) (r : nat) : RC := braket k t (fun x => f (L r x)).
Lemma part_gradient (tol : RField) T Cn t fwd ders revs : is_matrix 1 k t -> propagator_lists D 1 T Cn fwd ders revs ->
  exists g, derivative_state_fidelity_subspace iter t fwd ders revs dims removed = Ok g /\
    is_gradient D 1 T Cn fwd ders revs (fun (U : rop) (v : R) => state_fidelity_subspace (F:=RField) iter tol t U dims removed = Ok v) g.
Proof.
  intros Ht HL. pose proof Ht as Wt. rewrite is_matrix_wfm in Wt. destruct (has_last HL) as (l & Hl & Wl). pose proof HL as (L1 & F1 & L2 & F2 & L3 & L4 & F3).
  pose proof (place_ok HPP) as PL.
  unfold derivative_state_fidelity_subspace. destruct ders as [|row0 ders']; [cbn in L3; lia|]. unfold idx at 1. cbn [nth_error bind].
  rewrite (idx_last_ok Hl). cbn [bind]. assert (Er : length row0 = T) by (inversion F3; tauto). rewrite Er, L3.
  apply (@fill_gradient D 1 T Cn fwd (row0 :: ders') revs _ _ (fun Z => kmul (two RField) (cre (sumn (S:=RS) m (fun r => cmul (cconj (br t (fun i => mg l i 0) r)) (br t (fun i => mg Z i 0) r)))))); auto.
  - intros c j Z Hc Hj E WZ. cbn beta. rewrite E. cbn [bind]. rewrite (op_dag_mdag Wl). assert (WD : wfm (S:=RS) 1 D (mdag (S:=RS) l)) by wf_solve.
    rewrite (mm_ok WZ WD). cbn [bind]. assert (WM : wfm (S:=RS) D D (mmul (S:=RS) Z (mdag (S:=RS) l))) by wf_solve.
    destruct (part_trace HPP PL WM) as (R & ER & WR & HR). rewrite ER. cbn [bind].
    destruct (@sandwich RField dims removed t R Wt WR) as (s & E1 & v & E2 & Wv & Ev).
    rewrite E1. cbn [bind]. rewrite E2. cbn [bind]. rewrite (wfm_nr Wv), (wfm_nc Wv). cbn [Nat.ltb Nat.leb andb]. f_equal. f_equal. f_equal. rewrite Ev.
    transitivity (sumn (S:=RS) k (fun y => sumn (S:=RS) k (fun x => sumn (S:=RS) m (fun r => cmul (cmul (mg t 0 x) (mg Z (L r x) 0)) (cconj (cmul (mg t 0 y) (mg l (L r y) 0))))))).
    + apply sumn_ext. intros y Hy. apply sumn_ext. intros x Hx. rewrite HR by auto. etransitivity; [apply f_equal; exact (csumn_mul_r _ _ _)|]. etransitivity; [exact (csumn_mul_l _ _ _)|].
      apply sumn_ext. intros r Hr. pose proof (places_lt PL Hr Hx). pose proof (places_lt PL Hr Hy).
      rewrite (@mg_mmul RS D 1 D) by auto. cbn [sumn]. rewrite (@mg_mdag RS D 1) by auto. rewrite cconj_mul. tocplx. ring.
    + etransitivity; [apply sumn_ext; intros y Hy; apply (@sumn_swap RS)|]. etransitivity; [apply (@sumn_swap RS)|].
      apply sumn_ext. intros r Hr. unfold br, braket. rewrite csumn_conj. rewrite csumn_mul_r. apply sumn_ext. intros y Hy. rewrite csumn_mul_l.
      apply sumn_ext. intros x Hx. tocplx. ring.
  - intros Y a v Z WY HYa WZ HD Hq. assert (Y a = l) by (eapply last_inj; eauto). subst l.
    apply (@derivable_pt_lim_ext (fun h => sumn (S:=KStar RField) m (fun r => cnorm2 (br t (fun i => mg (Y h) i 0) r)))).
    + intros h. specialize (Hq h). cbv beta in Hq. rewrite (ket_value HPP PL tol Ht) in Hq by (apply is_matrix_wfm; auto). injection Hq as Hq. rewrite <- Hq. reflexivity.
    + match goal with |- derivable_pt_lim _ _ ?x => replace x with (sumn (S:=KStar RField) m (fun r => kmul (two RField) (cre (cmul (cconj (br t (fun i => mg (Y a) i 0) r)) (br t (fun i => mg Z i 0) r))))) end.
      * apply (@deriv_sum m (fun r h => cnorm2 (br t (fun i => mg (Y h) i 0) r))). intros r Hr. apply (@deriv_two (fun h => br t (fun i => mg (Y h) i 0) r)).
        apply (@braket_deriv k t (fun h x => mg (Y h) (L r x) 0)). intros x Hx. apply HD; [exact (places_lt PL Hr Hx)|lia].
      * rewrite csumn_re. apply (@sumn_mul_l (KStar RField)).
  - apply rlin_re. apply clin_sumn. intros r Hr. apply clin_mul. unfold br, braket. apply clin_sumn. intros x Hx. apply clin_mul. apply clin_mg; [exact (places_lt PL Hr Hx)|lia].
Qed.
Lemma part_infidelity_gradient (tol : RField) T Cn r phi : is_matrix k 1 phi -> 1 < k -> propagator_lists D 1 T Cn (r_fwd r) (r_der r) (r_rev r) ->
  exists g, state_infidelity_part_grad iter r phi dims removed = Ok g /\
    is_gradient D 1 T Cn (r_fwd r) (r_der r) (r_rev r) (cost_at (fun r => state_infidelity_part iter tol r phi dims removed)) g.
Proof.
  intros HV Hn HL. destruct (@as_bra_ket k phi HV) as [HB _]; try lia. destruct (@part_gradient tol T Cn _ _ _ _ HB HL) as (g & E & HG). unfold state_infidelity_part_grad. rewrite E. cbn [bind].
  eexists; split; [reflexivity|]. eapply neg_gradient; [exact HG|]. intros U v HU Hc. cbv beta. specialize (Hc (one_read U) (one_read_last U)).
  unfold state_infidelity_part in Hc. rewrite (idx_last_ok (one_read_last U)) in Hc. cbn [bind] in Hc. destruct (state_fidelity_subspace iter tol (as_bra phi) U dims removed); cbn [bind] in Hc; [|discriminate]. injection Hc as Hc. now rewrite (unneg Hc).
Qed.
End Grad.
