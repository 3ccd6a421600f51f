(** The gradients of the fidelities and of the leakage are their derivatives (C38). *)
Require Import List Arith Lia Bool Reals Lra.
From Verif Require Import LibBase LibRing LibArr LibCplx LibMat LibNorm LibDeriv M_Matrix S_Linear P_Linear P_Matrix S_Deriv M_Solver M_Cost S_Cost S_CostGrad P_Loops P_Cost P_Cost2.
Import ListNotations.
Set Implicit Arguments.
Notation K := (KStar RField).
Add Field Kfield_cg : (k_field RField).
Add Field Cfield_cg : (c_field RField).

Lemma nth_err_in {A} (l : list A) i x : nth_error l i = Some x -> In x l.
Proof. apply nth_error_In. Qed.
Lemma nth_err_ex {A} (l : list A) i : i < length l -> exists x, nth_error l i = Some x.
Proof. intros H. destruct (nth_error l i) eqn:E; eauto. apply nth_error_None in E. lia. Qed.

Section Grad.
Variable la : LinAlg RField.

Lemma total_ok n k T Cn fwd ders revs c t : propagator_lists n k T Cn fwd ders revs -> c < Cn -> t < T ->
  exists row D Rt f, nth_error ders c = Some row /\ nth_error row t = Some D /\ nth_error (rev revs) (S t) = Some Rt /\ nth_error fwd t = Some f /\
    wfm (S:=RS) n n D /\ wfm (S:=RS) n n Rt /\ wfm (S:=RS) n k f /\
    total_derivative fwd ders revs c t = Ok (mmul (S:=RS) Rt (mmul (S:=RS) D f)).
Proof.
  intros (L1 & F1 & L2 & F2 & L3 & L4 & F3) Hc Ht.
  destruct (@nth_err_ex _ ders c) as [row E1]; [lia|]. rewrite Forall_forall in F3. destruct (F3 row (nth_err_in _ _ E1)) as [L5 F5].
  destruct (@nth_err_ex _ row t) as [D E2]; [lia|]. destruct (@nth_err_ex _ (rev revs) (S t)) as [Rt E3]; [rewrite rev_length; lia|].
  destruct (@nth_err_ex _ fwd t) as [f E4]; [lia|].
  rewrite Forall_forall in F1, F2, F5.
  assert (W1 : wfm (S:=RS) n n D) by (apply is_matrix_wfm; apply F5; eapply nth_err_in; eauto).
  assert (W2 : wfm (S:=RS) n n Rt) by (apply is_matrix_wfm; apply F2; apply in_rev; eapply nth_err_in; eauto).
  assert (W3 : wfm (S:=RS) n k f) by (apply is_matrix_wfm; apply F1; eapply nth_err_in; eauto).
  exists row, D, Rt, f. do 7 (split; auto). unfold total_derivative, rev_at, idx. rewrite E3. cbn [bind]. rewrite E1. cbn [bind]. rewrite E2. cbn [bind].
  rewrite (@mm_ok RField n n n) by auto. cbn [bind]. rewrite E4. cbn [bind]. rewrite (@mm_ok RField n n k) by wf_solve. f_equal.
  symmetry. apply (@mmul_assoc RS n n n k); auto.
Qed.

Lemma fill_ok T Cn (f : nat -> nat -> res (kcar RField)) (g : nat -> nat -> R) : (forall c t, c < Cn -> t < T -> f c t = Ok (g c t)) ->
  fill_derivative T Cn f = Ok (mk2 T Cn (fun t c => g c t)).
Proof.
  intros H. unfold fill_derivative.
  rewrite (@mapM_seq_of _ _ 0 Cn (map (fun c => map (g c) (seq 0 T)) (seq 0 Cn)) []).
  - cbn [bind]. f_equal. apply mk2_ext. intros t c Ht Hc. rewrite nth_map_seq by auto. now rewrite nth_map_seq.
  - now rewrite map_length, seq_length.
  - intros c Hc. rewrite nth_map_seq by auto. apply (@mapM_seq_of _ _ 0 T _ 0%R).
    + now rewrite map_length, seq_length.
    + intros t Ht. rewrite nth_map_seq by auto. cbn. now apply H.
Qed.

(** ---- linear functionals ---- *)
Definition wsum (T C : nat) (v : nat -> nat -> R) (z : nat -> nat -> RC) : RC :=
  sumn (S:=RS) T (fun t => sumn (S:=RS) C (fun c => cmul (cofk (v t c : RField)) (z t c))).
Lemma wsum_ext T C v z z' : (forall t c, t < T -> c < C -> z t c = z' t c) -> wsum T C v z = wsum T C v z'.
Proof. intros H. apply sumn_ext. intros t Ht. apply sumn_ext. intros c Hc. now rewrite H. Qed.
Lemma wsum_add T C v z z' : wsum T C v (fun t c => cadd (z t c) (z' t c)) = cadd (wsum T C v z) (wsum T C v z').
Proof.
  unfold wsum. etransitivity; [|apply (@sumn_add RS)]. apply sumn_ext. intros t Ht. etransitivity; [|apply (@sumn_add RS)]. apply sumn_ext. intros c Hc. simpl. cring.
Qed.
Lemma wsum_mul T C v a z : wsum T C v (fun t c => cmul a (z t c)) = cmul a (wsum T C v z).
Proof.
  unfold wsum. etransitivity; [|apply (@sumn_mul_l RS)]. apply sumn_ext. intros t Ht. etransitivity; [|apply (@sumn_mul_l RS)]. apply sumn_ext. intros c Hc. simpl. cring.
Qed.
Lemma wsum_zero T C v : wsum T C v (fun _ _ => c0) = c0.
Proof. apply (@sumn_0 RS). intros t Ht. apply (@sumn_0 RS). intros c Hc. simpl. cring. Qed.
Lemma wsum_sumn T C v m (f : nat -> nat -> nat -> RC) : wsum T C v (fun t c => sumn (S:=RS) m (fun l => f l t c)) = sumn (S:=RS) m (fun l => wsum T C v (f l)).
Proof. induction m; cbn [sumn]. apply wsum_zero. rewrite <- IHm. apply (wsum_add T C v (fun t c => sumn (S:=RS) m (fun l => f l t c))). Qed.
Lemma wsum_re T C v z : cre (wsum T C v z) = Rsum T (fun t => Rsum C (fun c => (cre (z t c) * v t c)%R)).
Proof.
  unfold wsum. assert (E : forall n f, cre (sumn (S:=RS) n f) = Rsum n (fun i => cre (f i))) by (intros n f; induction n; cbn [sumn Rsum]; [reflexivity|rewrite <- IHn; reflexivity]).
  rewrite E. assert (X : forall n f g, (forall i, i < n -> f i = g i) -> Rsum n f = Rsum n g) by (intros n f g H; induction n; cbn [Rsum]; [reflexivity|rewrite H by lia; rewrite IHn; auto]).
  apply X. intros t Ht. rewrite E. apply X. intros c Hc. unfold cmul, cofk, cre. cbn. rring.
Qed.
(** Z is the combination of the Zs with weights v *)
Definition combines n k T C (v : nat -> nat -> R) (Zs : nat -> nat -> rop) (Z : rop) : Prop := forall i j, i < n -> j < k -> mg Z i j = wsum T C v (fun t c => mg (Zs t c) i j).
Definition clin n k (psi : rop -> RC) : Prop := forall T C v Zs Z, combines n k T C v Zs Z -> psi Z = wsum T C v (fun t c => psi (Zs t c)).
Definition rlin n k (phi : rop -> R) : Prop := forall T C v Zs Z, combines n k T C v Zs Z -> phi Z = Rsum T (fun t => Rsum C (fun c => (phi (Zs t c) * v t c)%R)).
Lemma clin_mg n k i j : i < n -> j < k -> clin n k (fun Z => mg Z i j).
Proof. intros Hi Hj T C v Zs Z H. now apply H. Qed.
Lemma clin_mul n k a psi : clin n k psi -> clin n k (fun Z => cmul a (psi Z)).
Proof. intros H T C v Zs Z HZ. rewrite (H T C v Zs Z HZ). symmetry. apply wsum_mul. Qed.
Lemma clin_sumn n k m (psi : nat -> rop -> RC) : (forall l, l < m -> clin n k (psi l)) -> clin n k (fun Z => sumn (S:=RS) m (fun l => psi l Z)).
Proof. intros H T C v Zs Z HZ. etransitivity; [|symmetry; apply wsum_sumn]. apply sumn_ext. intros l Hl. now apply H. Qed.
Lemma Rsum_scale n a f : Rsum n (fun i => (a * f i)%R) = (a * Rsum n f)%R.
Proof. induction n; cbn [Rsum]; [now rewrite Rmult_0_r|]. rewrite IHn. now rewrite Rmult_plus_distr_l. Qed.
Lemma Rsum_eq n f g : (forall i, i < n -> f i = g i) -> Rsum n f = Rsum n g.
Proof. intros H. induction n; cbn [Rsum]; [reflexivity|]. rewrite H by lia. rewrite IHn; auto. Qed.
Lemma rlin_re n k (a : R) psi : clin n k psi -> rlin n k (fun Z => (a * cre (psi Z))%R).
Proof.
  intros H T C v Zs Z HZ. rewrite (H T C v Zs Z HZ), wsum_re. rewrite <- Rsum_scale. apply Rsum_eq. intros t Ht. rewrite <- Rsum_scale. apply Rsum_eq. intros c Hc. ring.
Qed.
Lemma rlin_ext n k phi phi' : (forall Z, phi Z = phi' Z) -> rlin n k phi -> rlin n k phi'.
Proof. intros E H T C v Zs Z HZ. rewrite <- E, (H T C v Zs Z HZ). apply Rsum_eq. intros t Ht. apply Rsum_eq. intros c Hc. now rewrite E. Qed.
Lemma clin_overlap n k d V (f : rop -> rop) : (forall i j, i < d -> j < d -> clin n k (fun Z => mg (f Z) i j)) -> clin n k (fun Z => mat_overlap d V (f Z)).
Proof. intros H. unfold mat_overlap. apply clin_sumn. intros i Hi. apply clin_sumn. intros j Hj. apply clin_mul. now apply H. Qed.

Lemma Rsum_pick n (f : nat -> R) j : j < n -> (forall i, i < n -> i <> j -> f i = 0%R) -> Rsum n f = f j.
Proof.
  induction n; intros Hj H; [lia|]. cbn [Rsum]. destruct (Nat.eq_dec j n) as [->|Hn].
  - rewrite (@Rsum_eq n f (fun _ => 0%R)) by (intros; apply H; lia). assert (E : Rsum n (fun _ => 0%R) = 0%R) by (clear; induction n; cbn [Rsum]; [reflexivity|rewrite IHn; ring]). rewrite E. ring.
  - rewrite IHn by (lia || (intros; apply H; lia)). rewrite (H n) by lia. ring.
Qed.
Lemma Rsum_only T C g t c : t < T -> c < C -> Rsum T (fun t' => Rsum C (fun c' => (g t' c' * only t c t' c')%R)) = g t c.
Proof.
  intros Ht Hc. rewrite (@Rsum_pick T _ t Ht), (@Rsum_pick C _ c Hc).
  - unfold only. rewrite !Nat.eqb_refl. cbn. ring.
  - intros i Hi Hn. unfold only. rewrite (proj2 (Nat.eqb_neq i c) Hn), andb_false_r. ring.
  - intros i Hi Hn. rewrite (@Rsum_eq C _ (fun _ => (0 * 0)%R)); [rewrite Rsum_scale; ring|]. intros j Hj. unfold only. rewrite (proj2 (Nat.eqb_neq i t) Hn). cbn. ring.
Qed.

Lemma fill_gradient n k T Cn fwd ders revs (q : rop -> R -> Prop) (f : nat -> nat -> res (kcar RField)) (phi : rop -> R) :
  propagator_lists n k T Cn fwd ders revs ->
  (forall c t Z, c < Cn -> t < T -> total_derivative fwd ders revs c t = Ok Z -> wfm (S:=RS) n k Z -> f c t = Ok (phi Z)) ->
  (forall Y a v Z, (forall h, wfm (S:=RS) n k (Y h)) -> is_last fwd (Y a) -> wfm (S:=RS) n k Z ->
     (forall i j, i < n -> j < k -> cderiv (fun h => mg (Y h) i j) a (mg Z i j)) -> (forall h, q (Y h) (v h)) -> derivable_pt_lim v a (phi Z)) ->
  rlin n k phi ->
  exists g, fill_derivative T Cn f = Ok g /\ is_gradient n k T Cn fwd ders revs q g.
Proof.
  intros HL Hf Hd Hlin.
  set (tot := fun t c => match total_derivative fwd ders revs c t with Ok Z => Z | Err _ => mzero (S:=RS) n k end).
  exists (mk2 T Cn (fun t c => phi (tot t c))). split.
  - apply fill_ok. intros c t Hc Ht. unfold tot. destruct (total_ok HL Hc Ht) as (row & D & Rt & f0 & _ & _ & _ & _ & W1 & W2 & W3 & E).
    rewrite E. apply Hf; auto. wf_solve.
  - split; [apply wfa_mk2|]. intros v Y a w (HY & HYa & Zs & HZ & HD) Hq.
    assert (EZ : forall t c, t < T -> c < Cn -> Zs t c = tot t c).
    { intros t c Ht Hc. destruct (HZ t c Ht Hc) as (row' & D' & Rt' & f' & W & E1 & E2 & E3 & E4 & PW & PZ).
      destruct (total_ok HL Hc Ht) as (row & D & Rt & f0 & G1 & G2 & G3 & G4 & W1 & W2 & W3 & E). unfold tot. rewrite E.
      assert (row' = row) by congruence. subst row'. assert (D' = D) by congruence. subst D'. assert (Rt' = Rt) by congruence. subst Rt'. assert (f' = f0) by congruence. subst f'.
      apply is_product_eq in PW; auto. apply is_product_eq in PZ; auto; [|subst W; wf_solve]. now subst W. }
    set (Z := mk2 n k (fun i j => wsum T Cn v (fun t c => mg (Zs t c) i j)) : rop).
    assert (HC : combines n k T Cn v Zs Z) by (intros i j Hi Hj; unfold Z; now rewrite mg_mk2).
    replace (Rsum T (fun t => Rsum Cn (fun c => get2 0%R (mk2 T Cn (fun t0 c0 => phi (tot t0 c0))) t c * v t c)%R)) with (phi Z).
    + apply (Hd Y a w Z); auto; [intros h; apply is_matrix_wfm; apply HY|apply wfm_mk2|]. intros i j Hi Hj. rewrite (HC i j Hi Hj). now apply HD.
    + rewrite (Hlin T Cn v Zs Z HC). apply Rsum_eq. intros t Ht. apply Rsum_eq. intros c Hc. rewrite get2_mk2 by auto. now rewrite EZ.
Qed.

(** derivative of |z|^2 *)
Lemma deriv_norm2 z a l : cderiv z a l -> derivable_pt_lim (fun h => cnorm2 (z h)) a (2 * cre (cmul (cconj (z a)) l))%R.
Proof.
  intros [H1 H2]. pose proof (derivable_pt_lim_plus _ _ _ _ _ (derivable_pt_lim_mult _ _ _ _ _ H1 H1) (derivable_pt_lim_mult _ _ _ _ _ H2 H2)) as H.
  eapply derivable_pt_lim_ext; [|replace (2 * cre (cmul (cconj (z a)) l))%R with (cre l * cre (z a) + cre (z a) * cre l + (cim l * cim (z a) + cim (z a) * cim l))%R; [exact H|]].
  - intros s. unfold mult_fct, plus_fct. unfold cnorm2. reflexivity.
  - unfold cmul, cconj, cre, cim. destruct (z a) as [x y], l as [u v]. cbn [fst snd]. change (kcar RField) with R in *. cbn. ring.
Qed.
Lemma deriv_scale f a l c : derivable_pt_lim f a l -> derivable_pt_lim (fun h => (c * f h)%R) a (c * l)%R.
Proof. intros H. exact (derivable_pt_lim_scal _ _ _ _ H). Qed.
Lemma two_R : (two RField : R) = 2%R.
Proof. unfold two. cbn. ring. Qed.
Lemma kofnat_R n : (kofnat (F:=RField) n : R) <> 0%R \/ n = 0.
Proof. destruct n; [now right|left]. apply (@kofnat_neq0 RField). lia. Qed.
(** derivative of a fidelity |z|^2/d^2 *)
Lemma deriv_fid d z a l : cderiv z a l -> derivable_pt_lim (fun h => fid (F:=RField) d (z h)) a
   (kmul (kdiv (kdiv (two RField) (kofnat d)) (kofnat d)) (cre (cmul (cconj (z a)) l))).
Proof.
  intros H. eapply derivable_pt_lim_ext; [|apply (@derivable_pt_lim_ext (fun h => (/ kofnat (F:=RField) d * / kofnat (F:=RField) d) * cnorm2 (z h))%R); [reflexivity|]].
  2:{ pose proof (@deriv_scale _ a _ (/ kofnat (F:=RField) d * / kofnat (F:=RField) d)%R (deriv_norm2 H)) as G.
      match goal with |- derivable_pt_lim _ _ ?x => match type of G with derivable_pt_lim _ _ ?y => replace x with y; [exact G|] end end.
      change (kcar RField) with R. set (w := cre (cmul (cconj (z a)) l)). pose proof two_R as E2. change (kmul (kdiv (kdiv (two RField) (kofnat d)) (kofnat d)) w) with (((two RField : R) * / (kofnat (F:=RField) d) * / (kofnat (F:=RField) d)) * w)%R. rewrite E2. change (kcar RField) with R. ring. }
  intros s. unfold fid. change (kdiv (kdiv (cnorm2 (z s)) (kofnat d)) (kofnat d)) with ((cnorm2 (z s) * / kofnat (F:=RField) d) * / kofnat (F:=RField) d)%R. change (kcar RField) with R. ring.
Qed.

Lemma overlap_deriv d V Y a Z : (forall i j, i < d -> j < d -> cderiv (fun h => mg (Y h) i j) a (mg Z i j)) ->
  cderiv (fun h => mat_overlap d V (Y h)) a (mat_overlap d V Z).
Proof. intros H. unfold mat_overlap. apply cderiv_sumn. intros i Hi. apply cderiv_sumn. intros j Hj. apply cderiv_scale. now apply H. Qed.

Lemma overlap_tr d V U : wfm (S:=RS) d d V -> wfm (S:=RS) d d U -> mtrace (S:=RS) (mmul (S:=RS) U (mdag (S:=RS) V)) = mat_overlap d V U.
Proof.
  intros HV HU. rewrite overlap_hs, <- (hs_trace HV HU). rewrite (@mtrace_comm RS d d) by wf_solve. reflexivity.
Qed.

Lemma ent_gradient d T Cn V fwd ders revs b b' : is_matrix d d V -> propagator_lists d d T Cn fwd ders revs ->
  exists g, derivative_entanglement_fidelity la V fwd ders revs None b = Ok g /\ is_gradient d d T Cn fwd ders revs (fun (U : rop) (v : R) => entanglement_fidelity (F:=RField) la V U None b' = Ok v) g.
Proof.
  intros HV HL. pose proof HV as WV. rewrite is_matrix_wfm in WV. pose proof HL as (L1 & F1 & L2 & F2 & L3 & L4 & F3).
  assert (exists l, is_last fwd l /\ wfm (S:=RS) d d l) as (l & Hl & Wl).
  { destruct (@exists_last _ fwd) as (fwd' & l & El). { intros ->; discriminate. } subst fwd. exists l. split. now exists fwd'.
    rewrite Forall_forall in F1. apply is_matrix_wfm, F1. apply in_or_app. right. now left. }
  unfold derivative_entanglement_fidelity. rewrite (idx_last_ok Hl). cbn [bind trunc_if]. rewrite (op_dag_mdag WV). rewrite (@mm_ok RField d d d) by wf_solve. cbn [bind].
  destruct ders as [|row0 ders']; [cbn in L3; lia|]. unfold idx at 1. cbn [nth_error bind].
  assert (Er : length row0 = T) by (inversion F3; tauto). rewrite Er, L3. cbn [bind].
  unfold op_tr at 1. rewrite (overlap_tr WV Wl). rewrite (wfm_nr WV).
  apply (@fill_gradient d d T Cn fwd (row0 :: ders') revs _ _ (fun Z => kmul (kdiv (kdiv (two RField) (kofnat d)) (kofnat d)) (cre (cmul (cconj (mat_overlap d V l)) (mat_overlap d V Z))))); auto.
  - intros c t Z Hc Ht E WZ. cbn beta. rewrite E. cbn [bind trunc_if]. rewrite (@mm_ok RField d d d) by wf_solve. cbn [bind]. unfold op_tr. now rewrite (overlap_tr WV WZ).
  - intros Y a v Z WY HYa WZ HD Hq. assert (Y a = l) by (eapply last_inj; eauto). subst l.
    apply (@derivable_pt_lim_ext (fun h => fid (F:=RField) d (mat_overlap d V (Y h)))).
    + intros h. specialize (Hq h). cbv beta in Hq. rewrite (@ent_fid_val RField la d V (Y h)) in Hq; auto. now injection Hq. apply is_matrix_wfm; auto.
    + apply (@deriv_fid d (fun h => mat_overlap d V (Y h))). now apply overlap_deriv.
  - apply rlin_re. apply clin_mul. apply (@clin_overlap d d d V (fun Z => Z)). intros i j Hi Hj. now apply clin_mg.
Qed.

(** with computational states *)
Lemma ent_gradient_sub n T Cn V fwd ders revs cs : is_matrix (length cs) (length cs) V -> cs <> [] -> (forall i, In i cs -> i < n) -> propagator_lists n n T Cn fwd ders revs ->
  exists g, derivative_entanglement_fidelity la V fwd ders revs (Some cs) false = Ok g /\ is_gradient n n T Cn fwd ders revs (fun (U : rop) (v : R) => entanglement_fidelity (F:=RField) la V U (Some cs) false = Ok v) g.
Proof.
  intros HV Hne Hcs HL. pose proof HV as WV. rewrite is_matrix_wfm in WV. pose proof HL as (L1 & F1 & L2 & F2 & L3 & L4 & F3).
  assert (exists l, is_last fwd l /\ wfm (S:=RS) n n l) as (l & Hl & Wl).
  { destruct (@exists_last _ fwd) as (fwd' & l & El). { intros ->; discriminate. } subst fwd. exists l. split. now exists fwd'.
    rewrite Forall_forall in F1. apply is_matrix_wfm, F1. apply in_or_app. right. now left. }
  assert (TI : forall A, trunc_if (F:=RField) la A (Some cs) false = op_truncate la A (Some cs) false) by (intros; destruct cs; [congruence|reflexivity]).
  set (d := length cs) in *.
  destruct (@block_of RField la n l cs) as (Tl & [HTl ETl] & El); auto. { now apply is_matrix_wfm. } rewrite is_matrix_wfm in HTl.
  unfold derivative_entanglement_fidelity. rewrite (idx_last_ok Hl). cbn [bind]. rewrite TI, El. cbn [bind]. rewrite (op_dag_mdag WV). rewrite (@mm_ok RField d d d) by wf_solve. cbn [bind].
  destruct ders as [|row0 ders']; [cbn in L3; lia|]. unfold idx at 1. cbn [nth_error bind].
  assert (Er : length row0 = T) by (inversion F3; tauto). rewrite Er, L3. cbn [bind].
  unfold op_tr at 1. rewrite (overlap_tr WV HTl). rewrite (wfm_nr WV).
  set (blk := fun Z : rop => mk2 d d (fun a b => mg Z (nth a cs 0) (nth b cs 0)) : rop).
  assert (Wb : forall Z, wfm (S:=RS) d d (blk Z)) by (intros; apply wfm_mk2).
  assert (Eb : forall Z, wfm (S:=RS) n n Z -> op_truncate la Z (Some cs) false = Ok (blk Z)).
  { intros Z WZ. destruct (@block_of RField la n Z cs) as (B & [HB EB] & ->); auto. now apply is_matrix_wfm. f_equal. rewrite is_matrix_wfm in HB.
    apply (@mat_ext RS d d); auto. intros i j Hi Hj. unfold blk. rewrite mg_mk2 by auto. now apply EB. }
  assert (ETb : Tl = blk l) by (pose proof (Eb l Wl); congruence).
  apply (@fill_gradient n n T Cn fwd (row0 :: ders') revs _ _ (fun Z => kmul (kdiv (kdiv (two RField) (kofnat d)) (kofnat d)) (cre (cmul (cconj (mat_overlap d V Tl)) (mat_overlap d V (blk Z)))))); auto.
  - intros c t Z Hc Ht E WZ. cbn beta. rewrite E. cbn [bind]. rewrite TI, (Eb Z WZ). cbn [bind]. rewrite (@mm_ok RField d d d) by wf_solve. cbn [bind]. unfold op_tr. now rewrite (overlap_tr WV (Wb Z)).
  - intros Y a v Z WY HYa WZ HD Hq. assert (Y a = l) by (eapply last_inj; eauto). subst l. rewrite ETb.
    apply (@derivable_pt_lim_ext (fun h => fid (F:=RField) d (mat_overlap d V (blk (Y h))))).
    + intros h. specialize (Hq h). cbv beta in Hq. rewrite (@ent_fid_sub RField la n V (Y h) cs false (blk (Y h))) in Hq; auto.
      * rewrite (@ent_fid_val RField la d V (blk (Y h))) in Hq; auto. now injection Hq. now apply is_matrix_wfm.
      * now apply is_matrix_wfm.
      * split. now apply is_matrix_wfm. intros i j Hi Hj. unfold blk. now rewrite mg_mk2.
    + apply (@deriv_fid d (fun h => mat_overlap d V (blk (Y h)))). apply overlap_deriv. intros i j Hi Hj. unfold blk.
      apply (@cderiv_ext (fun h => mg (Y h) (nth i cs 0) (nth j cs 0))). intros h; now rewrite mg_mk2. rewrite mg_mk2 by auto. apply HD; apply Hcs; apply nth_In; auto.
  - apply rlin_re. apply clin_mul. apply clin_overlap. intros i j Hi Hj T0 C0 v0 Zs Z HZ. unfold blk. rewrite mg_mk2 by auto. rewrite HZ by (apply Hcs; apply nth_In; auto). apply wsum_ext. intros t c _ _. now rewrite mg_mk2.
Qed.

(** ---- state fidelity ---- *)
Definition braket (n : nat) (t : rop) (f : nat -> RC) : RC := sumn (S:=RS) n (fun i => cmul (mg t 0 i) (f i)).
Lemma braket_deriv n t (y : R -> nat -> RC) a z : (forall i, i < n -> cderiv (fun h => y h i) a (z i)) ->
  cderiv (fun h => braket n t (y h)) a (braket n t z).
Proof. intros H. unfold braket. apply cderiv_sumn. intros i Hi. apply cderiv_scale. now apply H. Qed.
Lemma deriv_two z a l : cderiv z a l -> derivable_pt_lim (fun h => cnorm2 (z h)) a (kmul (two RField) (cre (cmul (cconj (z a)) l))).
Proof. intros H. pose proof (deriv_norm2 H) as G. rewrite <- two_R in G. exact G. Qed.
Lemma bra_mul n t p : wfm (S:=RS) 1 n t -> wfm (S:=RS) n 1 p -> mg (mmul (S:=RS) t p) 0 0 = braket n t (fun i => mg p i 0).
Proof. intros Ht Hp. now rewrite (@mg_mmul RS 1 n 1) by auto. Qed.
Lemma scalar_prod x z : wfm (S:=RS) 1 1 x -> wfm (S:=RS) 1 1 z ->
  wfm (S:=RS) 1 1 (op_conj x) /\ mg (mmul (S:=RS) (op_conj x) z) 0 0 = cmul (cconj (mg x 0 0)) (mg z 0 0).
Proof.
  intros Hx Hz. rewrite op_conj_mconj. assert (W : wfm (S:=RS) 1 1 (mconj (S:=RS) x)) by wf_solve. split; auto.
  rewrite (@mg_mmul RS 1 1 1) by auto. cbn [sumn]. rewrite (@mg_mconj RS 1 1) by auto. tocplx. ring.
Qed.
Lemma has_last n k T Cn fwd ders revs : propagator_lists n k T Cn fwd ders revs -> exists l, is_last fwd l /\ wfm (S:=RS) n k l.
Proof.
  intros (L1 & F1 & _). destruct (@exists_last _ fwd) as (fwd' & l & El). { intros ->; discriminate. } subst fwd. exists l. split. now exists fwd'.
  rewrite Forall_forall in F1. apply is_matrix_wfm, F1. apply in_or_app. right. now left.
Qed.

Lemma state_gradient n T Cn t fwd ders revs b b' : is_matrix 1 n t -> propagator_lists n 1 T Cn fwd ders revs ->
  exists g, derivative_state_fidelity la t fwd ders revs None b = Ok g /\ is_gradient n 1 T Cn fwd ders revs (fun (U : rop) (v : R) => state_fidelity (F:=RField) la t U None b' = Ok v) g.
Proof.
  intros Ht HL. pose proof Ht as Wt. rewrite is_matrix_wfm in Wt. destruct (has_last HL) as (l & Hl & Wl). pose proof HL as (L1 & F1 & L2 & F2 & L3 & L4 & F3).
  unfold derivative_state_fidelity. rewrite (idx_last_ok Hl). cbn [bind trunc_opt]. rewrite (mm_ok Wt Wl). cbn [bind].
  destruct ders as [|row0 ders']; [cbn in L3; lia|]. unfold idx at 1. cbn [nth_error bind].
  assert (Er : length row0 = T) by (inversion F3; tauto). rewrite Er, L3.
  apply (@fill_gradient n 1 T Cn fwd (row0 :: ders') revs _ _ (fun Z => kmul (two RField) (cre (cmul (cconj (braket n t (fun i => mg l i 0))) (braket n t (fun i => mg Z i 0)))))); auto.
  - intros c j Z Hc Hj E WZ. cbn beta. destruct (total_ok HL Hc Hj) as (row & D & Rt & f0 & E1 & E2 & E3 & E4 & W1 & W2 & W3 & E5).
    unfold rev_at, idx. rewrite E3. cbn [bind]. rewrite (@mm_ok RField 1 n n) by auto. cbn [bind]. rewrite E1. cbn [bind]. rewrite E2. cbn [bind].
    rewrite (@mm_ok RField 1 n n) by wf_solve. cbn [bind]. rewrite E4. cbn [bind]. rewrite (@mm_ok RField 1 n 1) by wf_solve. cbn [bind].
    assert (EZ : mmul (S:=RS) (mmul (S:=RS) (mmul (S:=RS) t Rt) D) f0 = mmul (S:=RS) t Z).
    { assert (Z = mmul (S:=RS) Rt (mmul (S:=RS) D f0)) by congruence. subst Z. rewrite (@mmul_assoc RS 1 n n 1 t Rt (mmul (S:=RS) D f0)) by wf_solve.
      now rewrite (@mmul_assoc RS 1 n n 1 (mmul (S:=RS) t Rt) D f0) by wf_solve. }
    rewrite EZ. destruct (@scalar_prod (mmul (S:=RS) t l) (mmul (S:=RS) t Z)) as [S1 S2]; try wf_solve.
    assert (S3 : wfm (S:=RS) 1 1 (mmul (S:=RS) t Z)) by wf_solve.
    rewrite (mm_ok S1 S3). cbn [bind]. pose proof (wfm_mmul S1 S3) as S4. rewrite (wfm_nr S4), (wfm_nc S4). cbn [Nat.ltb Nat.leb andb bind].
    rewrite S2, (bra_mul Wt Wl), (bra_mul Wt WZ). reflexivity.
  - intros Y a v Z WY HYa WZ HD Hq. assert (Y a = l) by (eapply last_inj; eauto). subst l.
    apply (@derivable_pt_lim_ext (fun h => cnorm2 (braket n t (fun i => mg (Y h) i 0)))).
    + intros h. specialize (Hq h). cbv beta in Hq. rewrite (@state_fid_val RField la n t (Y h)) in Hq; auto. now injection Hq. apply is_matrix_wfm; auto.
    + apply (@deriv_two (fun h => braket n t (fun i => mg (Y h) i 0))). apply (@braket_deriv n t (fun h i => mg (Y h) i 0)). intros i Hi. apply HD; auto.
  - apply rlin_re. apply clin_mul. unfold braket. apply clin_sumn. intros i Hi. apply clin_mul. apply clin_mg; auto.
Qed.
Lemma state_gradient_sub n T Cn t fwd ders revs cs b : is_matrix 1 (length cs) t -> cs <> [] -> n <> 1 -> (forall i, In i cs -> i < n) -> propagator_lists n 1 T Cn fwd ders revs ->
  exists g, derivative_state_fidelity la t fwd ders revs (Some cs) b = Ok g /\ is_gradient n 1 T Cn fwd ders revs (fun (U : rop) (v : R) => state_fidelity (F:=RField) la t U (Some cs) b = Ok v) g.
Proof.
  intros Ht Hne Hn Hcs HL. pose proof Ht as Wt. rewrite is_matrix_wfm in Wt. destruct (has_last HL) as (l & Hl & Wl). pose proof HL as (L1 & F1 & L2 & F2 & L3 & L4 & F3).
  set (d := length cs) in *.
  assert (TK : forall Z, wfm (S:=RS) n 1 Z -> exists B, op_truncate la Z (Some cs) b = Ok B /\ wfm (S:=RS) d 1 B /\ mg (mmul (S:=RS) t B) 0 0 = braket d t (fun i => mg Z (nth i cs 0) 0)).
  { intros Z WZ. destruct (@truncate_ket RField la n Z cs b) as (B & E1 & E2 & E3); auto. exists B. rewrite is_matrix_wfm in E2. do 2 (split; auto).
    rewrite (bra_mul Wt E2). apply sumn_ext. intros i Hi. now rewrite E3. }
  destruct (TK l Wl) as (Bl & El & WBl & Vl).
  unfold derivative_state_fidelity. rewrite (idx_last_ok Hl). cbn [bind trunc_opt]. rewrite El. cbn [bind]. rewrite (mm_ok Wt WBl). cbn [bind].
  destruct ders as [|row0 ders']; [cbn in L3; lia|]. unfold idx at 1. cbn [nth_error bind].
  assert (Er : length row0 = T) by (inversion F3; tauto). rewrite Er, L3.
  apply (@fill_gradient n 1 T Cn fwd (row0 :: ders') revs _ _ (fun Z => kmul (two RField) (cre (cmul (cconj (braket d t (fun i => mg l (nth i cs 0) 0))) (braket d t (fun i => mg Z (nth i cs 0) 0)))))); auto.
  - intros c j Z Hc Hj E WZ. cbn beta. destruct (TK Z WZ) as (BZ & EZ & WBZ & VZ). destruct cs as [|c0' cs']; [congruence|].
    rewrite E. cbn [bind]. rewrite EZ. cbn [bind]. rewrite (mm_ok Wt WBZ). cbn [bind].
    destruct (@scalar_prod (mmul (S:=RS) t Bl) (mmul (S:=RS) t BZ)) as [S1 S2]; try wf_solve.
    assert (S3 : wfm (S:=RS) 1 1 (mmul (S:=RS) t BZ)) by wf_solve.
    rewrite (mm_ok S1 S3). cbn [bind]. pose proof (wfm_mmul S1 S3) as S4. rewrite (wfm_nr S4), (wfm_nc S4). cbn [Nat.ltb Nat.leb andb bind].
    rewrite S2, Vl, VZ. reflexivity.
  - intros Y a v Z WY HYa WZ HD Hq. assert (Y a = l) by (eapply last_inj; eauto). subst l.
    apply (@derivable_pt_lim_ext (fun h => cnorm2 (braket d t (fun i => mg (Y h) (nth i cs 0) 0)))).
    + intros h. specialize (Hq h). cbv beta in Hq. rewrite (@state_fid_sub RField la n t (Y h)) in Hq; auto. now injection Hq. apply is_matrix_wfm; auto.
    + apply (@deriv_two (fun h => braket d t (fun i => mg (Y h) (nth i cs 0) 0))). apply (@braket_deriv d t (fun h i => mg (Y h) (nth i cs 0) 0)). intros i Hi. apply HD; auto. apply Hcs. now apply nth_In.
  - apply rlin_re. apply clin_mul. unfold braket. apply clin_sumn. intros i Hi. apply clin_mul. apply clin_mg; auto. apply Hcs. now apply nth_In.
Qed.

(** ---- super operators: the fidelity is linear ---- *)
Definition sup_fid (d m : nat) (M X : rop) : R := @kdiv RField (kdiv (cre (sumn (S:=RS) m (fun i => sumn (S:=RS) m (fun j => cmul (mg M i j) (mg X j i))))) (kofnat d)) (kofnat d).
Lemma kdiv_R (x y : R) : @kdiv RField x y = (x * / y)%R.
Proof. reflexivity. Qed.
Lemma sup_fid_deriv d m M Y a Z : (forall i j, i < m -> j < m -> cderiv (fun h => mg (Y h) i j) a (mg Z i j)) ->
  derivable_pt_lim (fun h => sup_fid d m M (Y h)) a (sup_fid d m M Z).
Proof.
  intros H.
  assert (G : cderiv (fun h => sumn (S:=RS) m (fun i => sumn (S:=RS) m (fun j => cmul (mg M i j) (mg (Y h) j i)))) a (sumn (S:=RS) m (fun i => sumn (S:=RS) m (fun j => cmul (mg M i j) (mg Z j i))))).
  { apply cderiv_sumn. intros i Hi. apply cderiv_sumn. intros j Hj. apply cderiv_scale. now apply H. }
  destruct G as [G _]. pose proof (@deriv_scale _ a _ (/ kofnat (F:=RField) d * / kofnat (F:=RField) d)%R G) as G'.
  unfold sup_fid.
  match goal with |- derivable_pt_lim _ _ ?x => match type of G' with derivable_pt_lim _ _ ?y => replace x with y end end.
  - eapply derivable_pt_lim_ext; [|exact G']. intros s. cbv beta. rewrite !kdiv_R. rring.
  - rewrite !kdiv_R. rring.
Qed.
Lemma sup_fid_lin d m M : rlin m m (sup_fid d m M).
Proof.
  apply (@rlin_ext m m (fun Z => (/ kofnat (F:=RField) d * / kofnat (F:=RField) d * cre (sumn (S:=RS) m (fun i => sumn (S:=RS) m (fun j => cmul (mg M i j) (mg Z j i)))))%R)).
  - intros Z. unfold sup_fid. rewrite !kdiv_R. rring.
  - apply rlin_re. apply clin_sumn. intros i Hi. apply clin_sumn. intros j Hj. apply clin_mul. now apply clin_mg.
Qed.
Lemma sup_val d X V : is_matrix d d V -> wfm (S:=RS) (d*d) (d*d) X -> entanglement_fidelity_super V X None = Ok (sup_fid d (d*d) (op_to_super (op_dag V)) X).
Proof.
  intros HV WX. rewrite is_matrix_wfm in HV. unfold entanglement_fidelity_super. rewrite (op_dag_mdag HV).
  assert (W : wfm (S:=RS) (d*d) (d*d) (op_to_super (mdag (S:=RS) V))) by (apply super_wf; wf_solve).
  rewrite (mm_ok W WX). cbn [bind]. rewrite (wfm_nr HV). unfold sup_fid, op_tr. rewrite (@mtrace_mmul RS (d*d) (d*d)) by auto. reflexivity.
Qed.
Lemma sup_val_sub n V cs : is_matrix (length cs) (length cs) V -> levels n cs -> exists M, forall X, wfm (S:=RS) (n*n) (n*n) X ->
  entanglement_fidelity_super V X (Some cs) = Ok (sup_fid (length cs) (n*n) M X).
Proof.
  intros HV Hcs. rewrite is_matrix_wfm in HV. destruct (@embed_ok RField n (mdag (S:=RS) V) cs) as (B & EB & HB & _); auto. wf_solve.
  set (Pr := mk2 n n (fun i j => if Nat.eqb i j && inb i cs then c1 else c0) : rop). assert (HP : wfm (S:=RS) n n Pr) by (apply wfm_mk2).
  exists (mmul (S:=RS) (op_to_super Pr) (op_to_super B)). intros X WX. unfold entanglement_fidelity_super. rewrite (op_dag_mdag HV), (wfm_nr WX), isqrt_sq, EB. cbn [bind].
  rewrite (@projector_ok RField n cs Hcs). cbn [bind]. fold Pr. pose proof (super_wf HP) as W1. pose proof (super_wf HB) as W2. rewrite (mm_ok W1 W2). cbn [bind].
  rewrite (mm_ok (wfm_mmul W1 W2) WX). cbn [bind]. rewrite (wfm_nr HV). unfold sup_fid, op_tr. rewrite (@mtrace_mmul RS (n*n) (n*n)) by wf_solve. reflexivity.
Qed.
Lemma super_gradient d T Cn V fwd ders revs : is_matrix d d V -> propagator_lists (d*d) (d*d) T Cn fwd ders revs ->
  exists g, derivative_fidelity_super V fwd ders revs None = Ok g /\ is_gradient (d*d) (d*d) T Cn fwd ders revs (fun (U : rop) (v : R) => entanglement_fidelity_super (F:=RField) V U None = Ok v) g.
Proof.
  intros HV HL. pose proof HL as (L1 & F1 & L2 & F2 & L3 & L4 & F3). unfold derivative_fidelity_super.
  destruct ders as [|row0 ders']; [cbn in L3; lia|]. unfold idx at 1. cbn [nth_error bind].
  assert (Er : length row0 = T) by (inversion F3; tauto). rewrite Er, L3.
  apply (@fill_gradient (d*d) (d*d) T Cn fwd (row0 :: ders') revs _ _ (sup_fid d (d*d) (op_to_super (op_dag V)))); auto.
  - intros c t Z Hc Ht E WZ. rewrite E. cbn [bind]. now apply sup_val.
  - intros Y a v Z WY HYa WZ HD Hq. apply (@derivable_pt_lim_ext (fun h => sup_fid d (d*d) (op_to_super (op_dag V)) (Y h))).
    + intros h. specialize (Hq h). cbv beta in Hq. rewrite (@sup_val d (Y h) V HV (WY h)) in Hq. now injection Hq.
    + now apply sup_fid_deriv.
  - apply sup_fid_lin.
Qed.
Lemma super_gradient_sub n T Cn V fwd ders revs cs : is_matrix (length cs) (length cs) V -> levels n cs -> propagator_lists (n*n) (n*n) T Cn fwd ders revs ->
  exists g, derivative_fidelity_super V fwd ders revs (Some cs) = Ok g /\ is_gradient (n*n) (n*n) T Cn fwd ders revs (fun (U : rop) (v : R) => entanglement_fidelity_super (F:=RField) V U (Some cs) = Ok v) g.
Proof.
  intros HV Hcs HL. pose proof HL as (L1 & F1 & L2 & F2 & L3 & L4 & F3). unfold derivative_fidelity_super.
  destruct ders as [|row0 ders']; [cbn in L3; lia|]. unfold idx at 1. cbn [nth_error bind].
  assert (Er : length row0 = T) by (inversion F3; tauto). rewrite Er, L3.
  destruct (sup_val_sub HV Hcs) as [M HM].
  apply (@fill_gradient (n*n) (n*n) T Cn fwd (row0 :: ders') revs _ _ (sup_fid (length cs) (n*n) M)); auto.
  - intros c t Z Hc Ht E WZ. rewrite E. cbn [bind]. now apply HM.
  - intros Y a v Z WY HYa WZ HD Hq. apply (@derivable_pt_lim_ext (fun h => sup_fid (length cs) (n*n) M (Y h))).
    + intros h. specialize (Hq h). cbv beta in Hq. rewrite (HM (Y h) (WY h)) in Hq. now injection Hq.
    + now apply sup_fid_deriv.
  - apply sup_fid_lin.
Qed.
End Grad.
