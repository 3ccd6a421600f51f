(** Gradients of the cost functions built on the fidelities, for a solver's propagators (C38). *)
Require Import List Arith Lia Bool Reals Lra.
From Verif Require Import LibBase LibRing LibArr LibCplx LibMat LibNorm LibDeriv M_Matrix S_Linear S_Deriv P_Linear P_Matrix P_Svd P_Frechet P_Total M_OpHeap M_Transfer S_Transfer M_Amplitude M_Solver S_Solver M_Cost S_Cost S_CostGrad P_Loops P_Solver P_Solver2 P_Solver3 P_Solver4 P_Solver5 P_Solver6 P_Solver7 P_SolverTotal P_Cost P_Cost2 P_CostGrad.
Import ListNotations.
Set Implicit Arguments.
Add Field Kfield_cg2 : (k_field RField).
Add Field Cfield_cg2 : (c_field RField).

Section Cost.
Variable la : LinAlg RField.

Lemma ksub_R (x y : R) : @ksub RField x y = (x - y)%R.
Proof. reflexivity. Qed.
Lemma leak_form (s c : R) : (1 - / c * s)%R = @ksub RField (k1 : RField) (@kdiv RField s c).
Proof. change (1 - / c * s = 1 - s * / c)%R. ring. Qed.
Lemma leak_grad_form (s c : R) : (0 - / c * (2 * s))%R = @kmul RField (@kdiv RField (kopp (two RField)) c) s.
Proof. rewrite kdiv_R. change (0 - / c * (2 * s) = (- (two RField : R)) * / c * s)%R. rewrite two_R. ring. Qed.
(** ---- leakage ---- *)
Lemma deriv_sum n (f : nat -> R -> R) a (l : nat -> R) : (forall k, k < n -> derivable_pt_lim (f k) a (l k)) ->
  derivable_pt_lim (fun h => sumn (S:=KStar RField) n (fun k => f k h)) a (sumn (S:=KStar RField) n l).
Proof.
  induction n; intros H; cbn [sumn]. apply derivable_pt_lim_const. apply (@derivable_pt_lim_plus (fun h => sumn (S:=KStar RField) n (fun k => f k h)) (f n)).
  apply IHn. intros; apply H; lia. apply H; lia.
Qed.
Lemma csumn_re n (f : nat -> RC) : cre (sumn (S:=RS) n f) = sumn (S:=KStar RField) n (fun i => cre (f i)).
Proof. induction n; cbn [sumn]; auto. rewrite <- IHn. reflexivity. Qed.

Lemma leakage_gradient n T Cn r cs : cs <> [] -> levels n cs -> propagator_lists n n T Cn (r_fwd r) (r_der r) (r_rev r) ->
  exists g, leakage_grad la r cs = Ok g /\
    is_gradient n n T Cn (r_fwd r) (r_der r) (r_rev r) (fun U v => is_unitary n U /\ forall r', is_last (r_fwd r') U -> leakage la r' cs = Ok v) g.
Proof.
  intros Hne Hcs HL. destruct (has_last HL) as (l & Hl & Wl). pose proof HL as (L1 & F1 & L2 & F2 & L3 & L4 & F3). set (d := length cs).
  set (blk := fun Z : rop => mk2 d d (fun a b => mg Z (nth a cs 0) (nth b cs 0)) : rop).
  assert (Wb : forall Z, wfm (S:=RS) d d (blk Z)) by (intros; apply wfm_mk2).
  assert (Hlt : forall i, i < d -> nth i cs 0 < n) by (intros; apply Hcs; now apply nth_In).
  assert (Eb : forall Z, wfm (S:=RS) n n Z -> op_truncate la Z (Some cs) false = Ok (blk Z)).
  { intros Z WZ. destruct (@block_of RField la n Z cs) as (B & [HB EB] & ->); auto. now apply is_matrix_wfm. apply Hcs. f_equal. rewrite is_matrix_wfm in HB.
    apply (@mat_ext RS d d); auto. intros i j Hi Hj. unfold blk. rewrite mg_mk2 by auto. now apply EB. }
  assert (Ed : op_truncate la (op_dag l) (Some cs) false = Ok (mdag (S:=RS) (blk l))).
  { rewrite (op_dag_mdag Wl), Eb by wf_solve. f_equal. apply (@mat_ext RS d d); auto; try wf_solve. intros i j Hi Hj. unfold blk at 1. rewrite mg_mk2 by auto. mgsimp; auto. unfold blk. now mgsimp. }
  unfold leakage_grad. destruct (r_der r) as [|row0 ders'] eqn:Eder; [cbn in L3; lia|]. unfold idx at 1. cbn [nth_error bind].
  assert (Er : length row0 = T) by (inversion F3; tauto). rewrite Er, L3. rewrite (idx_last_ok Hl). cbn [bind]. rewrite Ed. cbn [bind].
  rewrite (@wfm_nr RS d d) by wf_solve. rewrite <- Eder in *.
  apply (@fill_gradient n n T Cn (r_fwd r) (r_der r) (r_rev r) _ _ (fun Z => kmul (kdiv (kopp (two RField)) (kofnat d)) (cre (mat_overlap d (blk l) (blk Z))))); auto.
  - intros c t Z Hc Ht E WZ. cbn beta. destruct (total_ok HL Hc Ht) as (row & D & Rt & f0 & E1 & E2 & E3 & E4 & W1 & W2 & W3 & E5).
    unfold rev_at, idx. rewrite E3. cbn [bind]. rewrite E1. cbn [bind]. rewrite E2. cbn [bind]. rewrite (mm_ok W2 W1). cbn [bind]. rewrite E4. cbn [bind].
    cbn [op_imul]. unfold np_matmul_out. rewrite (@mm_ok RField n n n) by wf_solve. cbn [bind].
    rewrite (@wfm_nc RS n n (mmul (S:=RS) (mmul (S:=RS) Rt D) f0)), (@wfm_nc RS n n (mmul (S:=RS) Rt D)) by wf_solve. rewrite Nat.eqb_refl. cbn [bind].
    assert (EZ : mmul (S:=RS) (mmul (S:=RS) Rt D) f0 = Z).
    { assert (Z = mmul (S:=RS) Rt (mmul (S:=RS) D f0)) by congruence. subst Z. symmetry. apply (@mmul_assoc RS n n n n); auto. }
    rewrite EZ, (Eb Z WZ). cbn [bind op_imul]. unfold np_matmul_out. rewrite (@mm_ok RField d d d) by wf_solve. cbn [bind].
    rewrite (@wfm_nc RS d d (mmul (S:=RS) (blk Z) (mdag (S:=RS) (blk l)))), (@wfm_nc RS d d (blk Z)) by wf_solve. rewrite Nat.eqb_refl. cbn [bind].
    unfold op_tr. rewrite (@overlap_tr d (blk l) (blk Z)) by auto. reflexivity.
  - intros Y a v Z WY HYa WZ HD Hq. assert (Y a = l) by (eapply last_inj; eauto). subst l.
    apply (@derivable_pt_lim_ext (fun h => (1 - / kofnat (F:=RField) d * sumn (S:=KStar RField) d (fun i => sumn (S:=KStar RField) d (fun j => cnorm2 (mg (Y h) (nth i cs 0%nat) (nth j cs 0%nat)))))%R)).
    + intros h. destruct (Hq h) as [HU HV]. destruct (@leakage_val RField la n (mkreads [Y h] [] [] [] [] [] 0 0 0) (Y h) cs) as [G _]; auto. now exists [].
      rewrite (HV (mkreads [Y h] [] [] [] [] [] 0 0 0)) in G by now exists []. injection G as ->. unfold staying. fold d. apply leak_form.
    + replace (kmul (kdiv (kopp (two RField)) (kofnat d)) (cre (mat_overlap d (blk (Y a)) (blk Z)))) with
        (0 - / kofnat (F:=RField) d * sumn (S:=KStar RField) d (fun i => sumn (S:=KStar RField) d (fun j => 2 * cre (cmul (cconj (mg (Y a) (nth i cs 0%nat) (nth j cs 0%nat))) (mg Z (nth i cs 0%nat) (nth j cs 0%nat))))))%R.
      * apply (@derivable_pt_lim_minus (fun _ => 1%R)); [apply derivable_pt_lim_const|]. apply deriv_scale. apply deriv_sum. intros i Hi. apply deriv_sum. intros j Hj.
        apply (@deriv_norm2 (fun h => mg (Y h) (nth i cs 0) (nth j cs 0))). apply HD; auto.
      * unfold mat_overlap. rewrite csumn_re.
        assert (E : sumn (S:=KStar RField) d (fun i => sumn (S:=KStar RField) d (fun j => 2 * cre (cmul (cconj (mg (Y a) (nth i cs 0%nat) (nth j cs 0%nat))) (mg Z (nth i cs 0%nat) (nth j cs 0%nat))))%R)
          = kmul (two RField) (sumn (S:=KStar RField) d (fun i => cre (sumn (S:=RS) d (fun j => cmul (cconj (mg (blk (Y a)) i j)) (mg (blk Z) i j)))))).
        { etransitivity; [|exact (@sumn_mul_l (KStar RField) d (two RField) _)]. apply sumn_ext. intros i Hi. rewrite csumn_re.
          etransitivity; [|exact (@sumn_mul_l (KStar RField) d (two RField) _)]. apply sumn_ext. intros j Hj. unfold blk. rewrite !mg_mk2 by auto. rewrite <- two_R. reflexivity. }
        etransitivity; [apply (f_equal (fun x : R => 0 - / kofnat (F:=RField) d * x)%R); exact E|]. etransitivity; [|apply leak_grad_form]. rewrite <- two_R. reflexivity.
  - apply rlin_re. apply clin_overlap. intros i j Hi Hj T0 C0 v0 Zs Z HZ. unfold blk. rewrite mg_mk2 by auto. rewrite HZ by auto. apply wsum_ext. intros t c _ _. now rewrite mg_mk2.
Qed.

(** ---- the infidelities ---- *)
Lemma neg_gradient n k T Cn fwd ders revs (q q' : rop -> R -> Prop) g : is_gradient n k T Cn fwd ders revs q g -> (forall U v, is_matrix n k U -> q' U v -> q U (1 - v)%R) ->
  is_gradient n k T Cn fwd ders revs q' (neg_arr (F:=RField) g).
Proof.
  intros [W H] Hq. unfold neg_arr. destruct (dim_wfa2 W) as (D0 & D1 & _). rewrite D0, D1. split; [apply wfa_mk2|].
  intros v Y a w HY Hw. specialize (H v Y a (fun h => 1 - w h)%R HY).
  assert (G : derivable_pt_lim (fun h => 1 - w h)%R a (Rsum T (fun t => Rsum Cn (fun c => get2 0%R g t c * v t c)%R))). { apply H. intros h. apply Hq; auto. apply HY. }
  apply (@derivable_pt_lim_ext (fun h => 1 - (1 - w h))%R). intros; ring.
  match goal with |- derivable_pt_lim _ _ ?x => replace x with (0 - Rsum T (fun t => Rsum Cn (fun c => get2 0%R g t c * v t c)%R))%R end.
  apply (@derivable_pt_lim_minus (fun _ => 1%R)); [apply derivable_pt_lim_const|exact G].
  replace (0 - Rsum T (fun t => Rsum Cn (fun c => get2 0%R g t c * v t c)%R))%R with (-1 * Rsum T (fun t => Rsum Cn (fun c => get2 0%R g t c * v t c)%R))%R by ring.
  rewrite <- Rsum_scale. apply Rsum_eq. intros t Ht. rewrite <- Rsum_scale. apply Rsum_eq. intros c Hc. rewrite get2_mk2 by auto.
  change (-1 * (get2 0 g t c * v t c) = (- (1) * get2 0 g t c) * v t c)%R. ring.
Qed.

Definition one_read (U : rop) : reads RField := mkreads [U] [] [] [] [] [] 0 0 0.
Lemma one_read_last U : is_last (r_fwd (one_read U)) U.
Proof. now exists []. Qed.
Lemma unneg (x v : R) : ksub (k1 : RField) x = v -> x = (1 - v)%R.
Proof. intros <-. change (x = 1 - (1 - x))%R. ring. Qed.

Lemma infidelity_gradient d T Cn r V b b' : is_matrix d d V -> propagator_lists d d T Cn (r_fwd r) (r_der r) (r_rev r) ->
  exists g, operation_infidelity_grad la r V false None b = Ok g /\ is_gradient d d T Cn (r_fwd r) (r_der r) (r_rev r) (cost_at (fun r => operation_infidelity la r V false None b')) g.
Proof.
  intros HV HL. destruct (@ent_gradient la d T Cn V _ _ _ false b' HV HL) as (g & E & HG). unfold operation_infidelity_grad. rewrite E. cbn [bind].
  eexists; split; [reflexivity|]. eapply neg_gradient; [exact HG|]. intros U v HU Hc. cbv beta. specialize (Hc (one_read U) (one_read_last U)).
  unfold operation_infidelity in Hc. rewrite (idx_last_ok (one_read_last U)) in Hc. cbn [bind] in Hc. destruct (entanglement_fidelity la V U None b'); cbn [bind] in Hc; [|discriminate]. injection Hc as Hc. now rewrite (unneg Hc).
Qed.
Lemma infidelity_gradient_sub n T Cn r V cs b : is_matrix (length cs) (length cs) V -> cs <> [] -> (forall i, In i cs -> i < n) -> propagator_lists n n T Cn (r_fwd r) (r_der r) (r_rev r) ->
  exists g, operation_infidelity_grad la r V false (Some cs) b = Ok g /\ is_gradient n n T Cn (r_fwd r) (r_der r) (r_rev r) (cost_at (fun r => operation_infidelity la r V false (Some cs) false)) g.
Proof.
  intros HV Hne Hcs HL. destruct (@ent_gradient_sub la n T Cn V _ _ _ cs HV Hne Hcs HL) as (g & E & HG). unfold operation_infidelity_grad. rewrite E. cbn [bind].
  eexists; split; [reflexivity|]. eapply neg_gradient; [exact HG|]. intros U v HU Hc. cbv beta. specialize (Hc (one_read U) (one_read_last U)).
  unfold operation_infidelity in Hc. rewrite (idx_last_ok (one_read_last U)) in Hc. cbn [bind] in Hc. destruct (entanglement_fidelity la V U (Some cs) false); cbn [bind] in Hc; [|discriminate]. injection Hc as Hc. now rewrite (unneg Hc).
Qed.
Lemma infidelity_gradient_super d T Cn r V b b' : is_matrix d d V -> propagator_lists (d*d) (d*d) T Cn (r_fwd r) (r_der r) (r_rev r) ->
  exists g, operation_infidelity_grad la r V true None b = Ok g /\ is_gradient (d*d) (d*d) T Cn (r_fwd r) (r_der r) (r_rev r) (cost_at (fun r => operation_infidelity la r V true None b')) g.
Proof.
  intros HV HL. destruct (@super_gradient d T Cn V _ _ _ HV HL) as (g & E & HG). unfold operation_infidelity_grad. rewrite E. cbn [bind].
  eexists; split; [reflexivity|]. eapply neg_gradient; [exact HG|]. intros U v HU Hc. cbv beta. specialize (Hc (one_read U) (one_read_last U)).
  unfold operation_infidelity in Hc. rewrite (idx_last_ok (one_read_last U)) in Hc. cbn [bind] in Hc. destruct (entanglement_fidelity_super V U None); cbn [bind] in Hc; [|discriminate]. injection Hc as Hc. now rewrite (unneg Hc).
Qed.
Lemma infidelity_gradient_super_sub n T Cn r V cs b b' : is_matrix (length cs) (length cs) V -> levels n cs -> propagator_lists (n*n) (n*n) T Cn (r_fwd r) (r_der r) (r_rev r) ->
  exists g, operation_infidelity_grad la r V true (Some cs) b = Ok g /\ is_gradient (n*n) (n*n) T Cn (r_fwd r) (r_der r) (r_rev r) (cost_at (fun r => operation_infidelity la r V true (Some cs) b')) g.
Proof.
  intros HV Hcs HL. destruct (@super_gradient_sub n T Cn V _ _ _ cs HV Hcs HL) as (g & E & HG). unfold operation_infidelity_grad. rewrite E. cbn [bind].
  eexists; split; [reflexivity|]. eapply neg_gradient; [exact HG|]. intros U v HU Hc. cbv beta. specialize (Hc (one_read U) (one_read_last U)).
  unfold operation_infidelity in Hc. rewrite (idx_last_ok (one_read_last U)) in Hc. cbn [bind] in Hc. destruct (entanglement_fidelity_super V U (Some cs)); cbn [bind] in Hc; [|discriminate]. injection Hc as Hc. now rewrite (unneg Hc).
Qed.
Lemma as_bra_bra n (t : rop) : is_matrix 1 n t -> n <> 0 -> as_bra t = t.
Proof. intros H Hn. rewrite is_matrix_wfm in H. unfold as_bra. rewrite (wfm_nr H), (wfm_nc H). destruct (Nat.ltb_spec n 1); auto. lia. Qed.
Lemma as_bra_ket n (t : rop) : is_matrix n 1 t -> n <> 1 -> n <> 0 -> is_bra_of n (as_bra t) t.
Proof.
  intros H H1 H0. rewrite is_matrix_wfm in H. unfold as_bra. rewrite (wfm_nr H), (wfm_nc H). destruct (Nat.ltb_spec 1 n); [|lia]. rewrite (op_dag_mdag H).
  split. apply is_matrix_wfm. wf_solve. intros i Hi. now mgsimp.
Qed.
(** the target given as a ket *)
Lemma state_infidelity_gradient n T Cn r phi b b' : is_matrix n 1 phi -> 1 < n -> propagator_lists n 1 T Cn (r_fwd r) (r_der r) (r_rev r) ->
  exists g, state_infidelity_grad la r phi None b = Ok g /\ is_gradient n 1 T Cn (r_fwd r) (r_der r) (r_rev r) (cost_at (fun r => state_infidelity la r phi None b')) g.
Proof.
  intros HV Hn HL. destruct (@as_bra_ket n phi HV) as [HB _]; try lia. destruct (@state_gradient la n T Cn _ _ _ _ b b' HB HL) as (g & E & HG). unfold state_infidelity_grad. rewrite E. cbn [bind].
  eexists; split; [reflexivity|]. eapply neg_gradient; [exact HG|]. intros U v HU Hc. cbv beta. specialize (Hc (one_read U) (one_read_last U)).
  unfold state_infidelity in Hc. rewrite (idx_last_ok (one_read_last U)) in Hc. cbn [bind] in Hc. destruct (state_fidelity la (as_bra phi) U None b'); cbn [bind] in Hc; [|discriminate]. injection Hc as Hc. now rewrite (unneg Hc).
Qed.
Lemma state_infidelity_gradient_sub n T Cn r phi cs b : is_matrix (length cs) 1 phi -> 1 < length cs -> n <> 1 -> (forall i, In i cs -> i < n) -> propagator_lists n 1 T Cn (r_fwd r) (r_der r) (r_rev r) ->
  exists g, state_infidelity_grad la r phi (Some cs) b = Ok g /\ is_gradient n 1 T Cn (r_fwd r) (r_der r) (r_rev r) (cost_at (fun r => state_infidelity la r phi (Some cs) b)) g.
Proof.
  intros HV Hn Hn1 Hcs HL. destruct (@as_bra_ket (length cs) phi HV) as [HB _]; try lia. assert (Hne : cs <> []) by (intros ->; cbn in Hn; lia). destruct (@state_gradient_sub la n T Cn _ _ _ _ cs b HB Hne Hn1 Hcs HL) as (g & E & HG). unfold state_infidelity_grad. rewrite E. cbn [bind].
  eexists; split; [reflexivity|]. eapply neg_gradient; [exact HG|]. intros U v HU Hc. cbv beta. specialize (Hc (one_read U) (one_read_last U)).
  unfold state_infidelity in Hc. rewrite (idx_last_ok (one_read_last U)) in Hc. cbn [bind] in Hc. destruct (state_fidelity la (as_bra phi) U (Some cs) b); cbn [bind] in Hc; [|discriminate]. injection Hc as Hc. now rewrite (unneg Hc).
Qed.
End Cost.

(** ---- the propagators of a solver ---- *)
Section Solver.
Notation op := (op RField).
Notation dop := (Arr [] [] : op).
Variable rexp : kcar RField -> kcar RField.
Variable la : LinAlg RField.
Variable eps : cplx RField.

Lemma lset_same {A} (l : list A) i x : nth_error l i = Some x -> lset l i x = l.
Proof. revert i. induction l as [|y l IH]; intros [|i] H; cbn in *; try discriminate; auto. congruence. f_equal; auto. Qed.

Lemma prods_Fw (es : list op) x t : t <= length es -> nth t (x :: prods es x) dop = Fw (fun i => nth i es dop) x t.
Proof. induction t; intros Ht; [reflexivity|]. rewrite prods_step by lia. cbn [Fw]. now rewrite IHt by lia. Qed.
Lemma Fw_ext (E E' : nat -> op) x t : (forall i, i < t -> E i = E' i) -> Fw E x t = Fw E' x t.
Proof. intros H. induction t; [reflexivity|]. cbn [Fw]. rewrite H by lia. now rewrite IHt by (intros; apply H; lia). Qed.
Lemma mm_dsum n k C v (D : nat -> op) Rt f i j : wfm (S:=RS) n n Rt -> wfm (S:=RS) n k f -> (forall c, c < C -> wfm (S:=RS) n n (D c)) -> i < n -> j < k ->
  mg (mmul (S:=RS) Rt (mmul (S:=RS) (dsum n C v D) f)) i j = sumn (S:=RS) C (fun c => cmul (cofk (v c : RField)) (mg (mmul (S:=RS) Rt (mmul (S:=RS) (D c) f)) i j)).
Proof.
  intros WR Wf WD Hi Hj. assert (Ws : wfm (S:=RS) n n (dsum n C v D)) by now apply wfm_dsum.
  rewrite (@mg_mmul RS n n k) by (auto; wf_solve).
  transitivity (sumn (S:=RS) n (fun l => sumn (S:=RS) C (fun c => cmul (cofk (v c : RField)) (cmul (mg Rt i l) (mg (mmul (S:=RS) (D c) f) l j))))).
  - apply sumn_ext. intros l Hl. rewrite (@mg_mmul RS n n k) by auto.
    transitivity (cmul (mg Rt i l) (sumn (S:=RS) C (fun c => cmul (cofk (v c : RField)) (mg (mmul (S:=RS) (D c) f) l j)))).
    + simpl. f_equal. transitivity (sumn (S:=RS) n (fun m => sumn (S:=RS) C (fun c => cmul (cofk (v c : RField)) (cmul (mg (D c) l m) (mg f m j))))).
      * apply sumn_ext. intros m Hm. rewrite mg_dsum by auto. etransitivity; [symmetry; apply (@sumn_mul_r RS)|]. apply sumn_ext. intros c Hc. simpl. cring.
      * rewrite (@sumn_swap RS). apply sumn_ext. intros c Hc. rewrite (@mg_mmul RS n n k) by auto. apply (@sumn_mul_l RS).
    + etransitivity; [symmetry; apply (@sumn_mul_l RS)|]. apply sumn_ext. intros c Hc. simpl. cring.
  - rewrite (@sumn_swap RS). apply sumn_ext. intros c Hc. rewrite (@mg_mmul RS n n k) by (auto; apply (@wfm_mmul RS n n k); auto). apply (@sumn_mul_l RS).
Qed.

(** what a used solver returns, as products *)
Lemma solver_lists d (s0 s : st) (es : list op) fs rs n k :
  used rexp la eps d s0 s -> returns rexp la eps s SPropag (VProp (map Some es)) -> returns rexp la eps s SFwd (VOps fs) -> returns rexp la eps s SRev (VOps rs) ->
  all_square n (map Some es) -> is_matrix n k (c_init (s_conf s)) ->
  fs = c_init (s_conf s) :: prods es (c_init (s_conf s)) /\ rs = mid (S:=RS) n :: rprods (rev es) (mid (S:=RS) n).
Proof.
  intros HU Hp Hf Hr Hn Hi.
  destruct (@used_value RField rexp la eps d s0 s SPropag _ HU eq_refl Hp) as (g & es1 & A1 & A2 & A3).
  destruct (@used_value RField rexp la eps d s0 s SFwd _ HU eq_refl Hf) as (g' & es' & B1 & B2 & B3).
  destruct (@used_value RField rexp la eps d s0 s SRev _ HU eq_refl Hr) as (g2 & es2 & C1 & C2 & C3).
  assert (es1 = es). { clear - A3. revert es1 A3. induction es as [|e es IH]; intros [|e1 es1] H; try discriminate; auto. cbn in H. inversion H; subst. f_equal. auto. } subst es1.
  assert (g' = g) by congruence. subst g'. assert (es' = es) by congruence. subst es'. assert (g2 = g) by congruence. subst g2. assert (es2 = es) by congruence. subst es2.
  apply all_square_map in Hn. rewrite is_matrix_wfm in Hi.
  unfold fwd_of in B3. cbn [s_conf bare] in B3. change [c_init (s_conf s)] with ([] ++ [c_init (s_conf s)]) in B3.
  rewrite (@fwd_foldM RField n k) in B3 by auto. injection B3 as <-. split; [reflexivity|]. exact (@rev_of_val RField n es rs Hn C3).
Qed.
Lemma lists_lengths (es : list op) n (x : op) : length (x :: prods es x) = S (length es) /\ length (mid (S:=RS) n :: rprods (rev es) (mid (S:=RS) n)) = S (length es).
Proof. split; cbn [length]; apply f_equal; [apply prods_length|etransitivity; [apply rprods_length|apply rev_length]]. Qed.
Lemma rev_rec (es : list op) n i : i < length es ->
  nth i (rev (mid (S:=RS) n :: rprods (rev es) (mid (S:=RS) n))) dop = mmul (S:=RS) (nth (S i) (rev (mid (S:=RS) n :: rprods (rev es) (mid (S:=RS) n))) dop) (nth i es dop).
Proof.
  intros Hi. destruct (lists_lengths es n dop) as [_ L]. rewrite !rev_nth by (rewrite L; lia). rewrite L.
  replace (S (length es) - S i) with (S (length es - S i)) by lia. replace (S (length es) - S (S i)) with (length es - S i) by lia.
  etransitivity; [apply (@rprods_step RField (rev es) (mid (S:=RS) n) (length es - S i)); rewrite rev_length; lia|].
  f_equal. rewrite (@rev_nth _ es) by lia. f_equal. lia.
Qed.
Lemma value_propagator_lists (es : list op) ders n k (x : op) :
  Forall (wfm (S:=RS) n n : op -> Prop) es -> wfm (S:=RS) n k x ->
  ders <> [] -> Forall (fun row : list op => length row = length es /\ Forall (is_matrix n n) row) ders ->
  propagator_lists n k (length es) (length ders) (x :: prods es x) ders (mid (S:=RS) n :: rprods (rev es) (mid (S:=RS) n)).
Proof.
  intros Hn Hi Hne HD. destruct (lists_lengths es n x) as [L1 L2].
  split; [exact L1|]. split.
  { apply Forall_forall. intros y Hy. apply (In_nth _ _ dop) in Hy. destruct Hy as (i & Hi' & <-). rewrite L1 in Hi'. apply is_matrix_wfm. apply prods_wf; auto. lia. }
  split; [exact L2|]. split.
  { apply Forall_forall. intros y Hy. apply (In_nth _ _ dop) in Hy. destruct Hy as (i & Hi' & <-). assert (Hi2 : i < S (length es)) by (rewrite <- L2; exact Hi'). apply is_matrix_wfm. apply rprods_wf; [now apply Forall_rev|apply wfm_mid|]. rewrite rev_length. lia. }
  split; auto. split; auto. destruct ders; [congruence|discriminate].
Qed.
Lemma solver_propagator_lists d (s0 s : st) (es : list op) fs rs ders n k :
  used rexp la eps d s0 s -> returns rexp la eps s SPropag (VProp (map Some es)) -> returns rexp la eps s SFwd (VOps fs) -> returns rexp la eps s SRev (VOps rs) ->
  all_square n (map Some es) -> is_matrix n k (c_init (s_conf s)) ->
  ders <> [] -> Forall (fun row : list op => length row = length es /\ Forall (is_matrix n n) row) ders ->
  propagator_lists n k (length es) (length ders) fs ders rs.
Proof.
  intros HU Hp Hf Hr Hn Hi Hne HD. destruct (@solver_lists d s0 s es _ _ n k HU Hp Hf Hr Hn Hi) as [-> ->]. apply all_square_map in Hn. rewrite is_matrix_wfm in Hi.
  now apply value_propagator_lists.
Qed.

(** the curve of final propagators when all time step propagators move *)
Lemma lists_final (es : list op) ders n k (x : op) (X : nat -> R -> op) Y v a :
  Forall (wfm (S:=RS) n n : op -> Prop) es -> wfm (S:=RS) n k x ->
  Forall (fun row : list op => length row = length es /\ Forall (is_matrix n n) row) ders ->
  (forall t, t < length es -> nth_error es t = Some (X t a)) -> (forall t h, t < length es -> wfm (S:=RS) n n (X t h)) ->
  (forall t i j, t < length es -> i < n -> j < n -> cderiv (fun h => mg (X t h) i j) a
     (sumn (S:=RS) (length ders) (fun c => cmul (cofk (v t c : RField)) (mg (nth t (nth c ders []) dop) i j)))) ->
  (forall h, Y h = Fw (fun t => X t h) x (length es)) ->
  final_propagator n k (length es) (length ders) (x :: prods es x) ders (mid (S:=RS) n :: rprods (rev es) (mid (S:=RS) n)) v Y a.
Proof.
  intros Hn Hi HD EX WX Hd EY. set (T := length es) in *. destruct (lists_lengths es n x) as [L1 L2]. fold T in L1, L2.
  assert (Ee : forall t, t < T -> nth t es dop = X t a) by (intros t Ht; apply nth_error_nth, EX; auto).
  set (fwd := x :: prods es x) in *. set (revs := mid (S:=RS) n :: rprods (rev es) (mid (S:=RS) n)) in *.
  assert (EF : forall t, t <= T -> nth t fwd dop = Fw (fun t => X t a) x t).
  { intros t Ht. unfold fwd. rewrite prods_Fw by auto. apply Fw_ext. intros i Hi'. apply Ee. lia. }
  assert (WF : forall t h, t <= T -> wfm (S:=RS) n k (Fw (fun t => X t h) x t)) by (intros; apply wfm_Fw; auto; intros; apply WX; lia).
  assert (WR : forall t, t <= T -> wfm (S:=RS) n n (nth t (rev revs) dop)).
  { intros t Ht. rewrite rev_nth by lia. apply rprods_wf; [now apply Forall_rev|apply wfm_mid|]. rewrite rev_length. fold T. lia. }
  split; [intros h; rewrite EY; apply is_matrix_wfm; auto|]. split.
  - rewrite EY, <- EF by auto. destruct (@exists_last _ fwd) as (l' & y & El); [discriminate|]. exists l'. rewrite El. do 2 f_equal.
    assert (Ly : length l' = T) by (rewrite El, app_length in L1; cbn in L1; lia). rewrite <- Ly, nth_middle. reflexivity.
  - set (D := fun c t => nth t (nth c ders []) dop).
    assert (ED : forall c t, c < length ders -> t < T -> exists row, nth_error ders c = Some row /\ nth_error row t = Some (D c t) /\ wfm (S:=RS) n n (D c t)).
    { intros c t Hc Ht. rewrite Forall_forall in HD. destruct (HD (nth c ders []) (nth_In _ _ Hc)) as [Lr Fr]. exists (nth c ders []).
      split; [apply nth_error_nth'; auto|]. split; [apply nth_error_nth'; rewrite Lr; auto|]. rewrite Forall_forall in Fr. apply is_matrix_wfm, Fr. apply nth_In. now rewrite Lr. }
    assert (WD : forall t c, t < T -> c < length ders -> wfm (S:=RS) n n (D c t)) by (intros t c Ht Hc; destruct (ED c t Hc Ht) as (_ & _ & _ & W); auto).
    exists (fun t c => mmul (S:=RS) (nth (S t) (rev revs) dop) (mmul (S:=RS) (D c t) (nth t fwd dop))). split.
    + intros t c Ht Hc. destruct (ED c t Hc Ht) as (row & E1 & E2 & W).
      exists row, (D c t), (nth (S t) (rev revs) dop), (nth t fwd dop), (mmul (S:=RS) (D c t) (nth t fwd dop)).
      split; [exact E1|]. split; [exact E2|]. split; [apply nth_error_nth'; rewrite rev_length; lia|]. split; [apply nth_error_nth'; lia|].
      assert (Wf : wfm (S:=RS) n k (nth t fwd dop)) by (rewrite EF by lia; apply WF; lia). assert (Wr := WR (S t) ltac:(lia)).
      split; apply is_product_mmul; auto. wf_solve.
    + intros i j Hi' Hj. set (dE := fun t => dsum n (length ders) (v t) (fun c => D c t)).
      assert (WdE : forall t, t < T -> wfm (S:=RS) n n (dE t)) by (intros; apply wfm_dsum; auto).
      pose proof (@Fw_deriv n k (fun h t => X t h) dE x T a Hi (fun h i Hi0 => WX i h Hi0) WdE) as HF.
      apply (@cderiv_ext (fun h => mg (Fw (fun t => X t h) x T) i j)); [intros h; now rewrite EY|].
      eapply cderiv_eq; [|apply HF; auto; intros t Ht p q Hp' Hq; unfold dE; rewrite mg_dsum by auto; apply Hd; auto].
      pose proof (@dFw_telescope n k (fun t => X t a) dE (fun t => nth t (rev revs) dop) x T T Hi (fun i Hi0 => WX i a Hi0) WdE WR) as HT.
      assert (ER : nth T (rev revs) dop = mid (S:=RS) n). { rewrite rev_nth by lia. rewrite L2. replace (S T - S T) with 0 by lia. reflexivity. }
      assert (HR : forall t, t < T -> nth t (rev revs) dop = mmul (S:=RS) (nth (S t) (rev revs) dop) (X t a)) by (intros t Ht; unfold revs; rewrite rev_rec by auto; now rewrite Ee).
      specialize (HT HR (le_n T) i j Hi' Hj). etransitivity; [|etransitivity; [exact HT|]].
      * cbv beta. rewrite ER. f_equal. symmetry. apply (@mmul_1_l RS n k). apply wfm_dFw; auto.
      * apply sumn_ext. intros t Ht. unfold dE. assert (Wr := WR (S t) ltac:(lia)). assert (Wf := WF t a ltac:(lia)). etransitivity; [apply (@mm_dsum n k); auto|].
        apply sumn_ext. intros c Hc. now rewrite EF by lia.
Qed.
Lemma solver_final d (s0 s : st) (es : list op) fs rs ders n k (X : nat -> R -> op) Y v a :
  used rexp la eps d s0 s -> returns rexp la eps s SPropag (VProp (map Some es)) -> returns rexp la eps s SFwd (VOps fs) -> returns rexp la eps s SRev (VOps rs) ->
  all_square n (map Some es) -> is_matrix n k (c_init (s_conf s)) ->
  Forall (fun row : list op => length row = length es /\ Forall (is_matrix n n) row) ders ->
  (forall t, t < length es -> nth_error es t = Some (X t a)) -> (forall t h, t < length es -> is_matrix n n (X t h)) ->
  (forall t i j, t < length es -> i < n -> j < n -> cderiv (fun h => mg (X t h) i j) a
     (sumn (S:=RS) (length ders) (fun c => cmul (cofk (v t c : RField)) (mg (nth t (nth c ders []) dop) i j)))) ->
  (forall h, chain n k (map (fun t => X t h) (seq 0 (length es))) (c_init (s_conf s)) (Y h)) ->
  final_propagator n k (length es) (length ders) fs ders rs v Y a.
Proof.
  intros HU Hp Hf Hr Hn Hi HD EX HX Hd HY. destruct (@solver_lists d s0 s es _ _ n k HU Hp Hf Hr Hn Hi) as [-> ->]. apply all_square_map in Hn. rewrite is_matrix_wfm in Hi.
  apply (@lists_final es ders n k (c_init (s_conf s)) X); auto; [intros; now apply is_matrix_wfm, HX|].
  set (x := c_init (s_conf s)) in *. set (T := length es) in *.
  intros h. assert (He : Forall (wfm (S:=RS) n n : op -> Prop) (map (fun t => X t h) (seq 0 T))).
  { apply Forall_forall. intros y Hy. apply in_map_iff in Hy. destruct Hy as (t & <- & Ht). apply in_seq in Ht. apply is_matrix_wfm, HX. unfold T. lia. }
  pose proof (HY h) as H. apply (@chain_prods RField n k _ x (Y h)) in H; auto. rewrite H. rewrite map_length, seq_length.
  rewrite prods_Fw by (rewrite map_length, seq_length; lia). apply Fw_ext. intros i Hi'. now rewrite nth_map_seq.
Qed.

(** the gradient of the infidelity a solver's propagators give, for any dependence of the time step propagators on the amplitudes *)
Lemma solver_gradient d (s0 s : st) (es : list op) fs rs ders n (X : nat -> R -> op) Y v a V b b' r w :
  used rexp la eps d s0 s -> returns rexp la eps s SPropag (VProp (map Some es)) -> returns rexp la eps s SFwd (VOps fs) -> returns rexp la eps s SRev (VOps rs) ->
  all_square n (map Some es) -> is_matrix n n (c_init (s_conf s)) ->
  r_fwd r = fs -> r_rev r = rs -> r_der r = ders -> ders <> [] -> Forall (fun row : list op => length row = length es /\ Forall (is_matrix n n) row) ders ->
  (forall t, t < length es -> nth_error es t = Some (X t a)) -> (forall t h, t < length es -> is_matrix n n (X t h)) ->
  (forall t i j, t < length es -> i < n -> j < n -> cderiv (fun h => mg (X t h) i j) a
     (sumn (S:=RS) (length ders) (fun c => cmul (cofk (v t c : RField)) (mg (nth t (nth c ders []) dop) i j)))) ->
  (forall h, chain n n (map (fun t => X t h) (seq 0 (length es))) (c_init (s_conf s)) (Y h)) -> is_matrix n n V ->
  (forall h r', is_last (r_fwd r') (Y h) -> operation_infidelity la r' V false None b' = Ok (w h)) ->
  exists g, operation_infidelity_grad la r V false None b = Ok g /\
    derivable_pt_lim w a (Rsum (length es) (fun t => Rsum (length ders) (fun c => (get2 0%R g t c * v t c)%R))).
Proof.
  intros HU Hp Hf Hr Hn Hi E1 E2 E3 Hne HD EX HX Hd HY HV Hw. subst.
  pose proof (@solver_final d s0 s es _ _ (r_der r) n n X Y v a HU Hp Hf Hr Hn Hi HD EX HX Hd HY) as HF.
  pose proof (@solver_propagator_lists d s0 s es _ _ (r_der r) n n HU Hp Hf Hr Hn Hi Hne HD) as HL.
  destruct (@infidelity_gradient la n (length es) (length (r_der r)) r V b b' HV HL) as (g & Eg & [_ HG]). exists g. split; auto. now apply (HG v Y a w).
Qed.
End Solver.

(** ---- map_to_closest_unitary: the gradient is not the derivative ---- *)
Section Refute.
Variable la : LinAlg RField.
Definition rr (x : R) : RC := cofk (x : RField).
Definition rot (h : R) : rop := mk2 2 2 (fun i j => match i, j with 0, 0 => rr (cos h) | 0, _ => rr (- sin h) | S _, 0 => rr (sin h) | _, _ => rr (cos h) end).
Definition drot (h : R) : rop := mk2 2 2 (fun i j => match i, j with 0, 0 => rr (- sin h) | 0, _ => rr (- cos h) | S _, 0 => rr (cos h) | _, _ => rr (- sin h) end).
Definition rid : rop := mid (S:=RS) 2.
Definition rone : rop := mid (S:=RS) 1.
Definition rot_reads (a : R) : reads RField := mkreads [rid; rot a] [rid; rot a] [[drot a]] [] [] [] 0 1 1.
Lemma rr_deriv f a l : derivable_pt_lim f a l -> cderiv (fun h => rr (f h)) a (rr l).
Proof. intros H. split; cbn; auto. apply derivable_pt_lim_const. Qed.
Lemma rot_final a : final_propagator 2 2 1 1 (r_fwd (rot_reads a)) (r_der (rot_reads a)) (r_rev (rot_reads a)) (only 0 0) rot a.
Proof.
  assert (W : forall h, wfm (S:=RS) 2 2 (rot h)) by (intros; apply wfm_mk2). assert (Wd : wfm (S:=RS) 2 2 (drot a)) by apply wfm_mk2.
  split; [intros h; apply is_matrix_wfm; auto|]. split; [now exists [rid]|].
  exists (fun _ _ => drot a). split.
  { intros t c Ht Hc. destruct t, c; try lia. exists [drot a], (drot a), rid, rid, (drot a). do 4 (split; [reflexivity|]).
    split. { pose proof (@is_product_mmul RS 2 2 2 (drot a) rid) as P. unfold rid in *. rewrite (@mmul_1_r RS 2 2 (drot a) Wd) in P. apply P; auto; apply wfm_mid. }
    pose proof (@is_product_mmul RS 2 2 2 rid (drot a)) as P. unfold rid in *. rewrite (@mmul_1_l RS 2 2 (drot a) Wd) in P. apply P; auto; apply wfm_mid. }
  intros i j Hi Hj. apply (@cderiv_eq _ _ (mg (drot a) i j)). { cbn [sumn]. unfold only. cbn [Nat.eqb andb]. change (cofk (1%R : RField)) with (c1 : RC). simpl. cring. }
  unfold rot, drot. rewrite mg_mk2 by auto. apply (@cderiv_ext (fun h => match i, j with 0, 0 => rr (cos h) | 0, _ => rr (- sin h) | S _, 0 => rr (sin h) | _, _ => rr (cos h) end)).
  { intros h. now rewrite mg_mk2. }
  destruct i as [|i], j as [|j]; apply rr_deriv; try apply derivable_pt_lim_cos; try apply derivable_pt_lim_sin.
  apply derivable_pt_lim_opp. apply derivable_pt_lim_sin.
Qed.
Lemma rot_lists a : propagator_lists 2 2 1 1 (r_fwd (rot_reads a)) (r_der (rot_reads a)) (r_rev (rot_reads a)).
Proof.
  assert (W : forall h, is_matrix 2 2 (rot h)) by (intros; apply is_matrix_wfm; apply wfm_mk2). assert (Wd : is_matrix 2 2 (drot a)) by (apply is_matrix_wfm; apply wfm_mk2).
  assert (Wi : is_matrix 2 2 rid) by (apply is_matrix_wfm; apply wfm_mid).
  do 7 (try split; cbn; auto).
Qed.
(** fidelity of a 1 x 1 unitary with the 1 x 1 identity *)
Lemma one_fid U b : is_unitary 1 U -> entanglement_fidelity la rone U None b = Ok (k1 : RField).
Proof.
  intros HU. rewrite (@ent_fid_one RField la 1 rone U b); auto.
  - pose proof HU as HU'. apply is_unitary_m in HU'. exists (mg U 0 0). split.
    + pose proof (@unitary_col RField 1 U 0 HU') as E. cbn [sumn] in E. specialize (E Nat.lt_0_1). rewrite <- E. tok. ring.
    + split. apply HU. intros i j Hi Hj. assert (i = 0) by lia. assert (j = 0) by lia. subst. unfold rone. rewrite mg_mid by auto. cbn [Nat.eqb]. set (z := mg U 0 0 : RC). clearbody z. change (z = cmul z c1). ring.
  - apply is_unitary_m. apply munitary_id.
Qed.
Lemma grad_ignores_map (svd_ok : forall h, exists U s W, la_svd la (mk2 1 1 (fun _ _ => rr (cos h))) = (U, s, W) /\ is_svd 1 (mk2 1 1 (fun _ _ => rr (cos h))) U s W) :
  exists g, operation_infidelity_grad la (rot_reads (PI/4)) rone false (Some [0]) true = Ok g /\ get2 0%R g 0 0 = 1%R /\
   (forall h r', is_last (r_fwd r') (rot h) -> operation_infidelity la r' rone false (Some [0]) true = Ok 0%R).
Proof.
  assert (W : forall h, is_matrix 2 2 (rot h)) by (intros; apply is_matrix_wfm; apply wfm_mk2).
  assert (H1 : is_matrix (length [0]) (length [0]) rone) by (apply is_matrix_wfm; apply wfm_mid).
  destruct (@infidelity_gradient_sub la 2 1 1 (rot_reads (PI/4)) rone [0] true H1) as (g & E & [_ HG]); [discriminate| |apply rot_lists|].
  { intros i [<-|[]]. lia. }
  exists g. split; auto. split.
  - specialize (HG (only 0 0) rot (PI/4)%R (fun h => 1 - cos h * cos h)%R (rot_final _)). rewrite (@Rsum_only 1 1 (fun t c => get2 0%R g t c) 0 0 Nat.lt_0_1 Nat.lt_0_1) in HG.
    assert (G : derivable_pt_lim (fun h => 1 - cos h * cos h)%R (PI/4) (get2 0%R g 0 0)).
    { apply HG. intros h r Hr. unfold operation_infidelity. rewrite (idx_last_ok Hr). cbn [bind].
      set (B := mk2 1 1 (fun _ _ => rr (cos h)) : rop).
      rewrite (@ent_fid_sub RField la 2 rone (rot h) [0] false B H1 (W h)).
      - rewrite (@ent_fid_val RField la 1 rone B false). 2: apply is_matrix_wfm; apply wfm_mid. 2: apply is_matrix_wfm; apply wfm_mk2. cbn [bind]. f_equal.
        unfold fid, mat_overlap. cbn [sumn]. unfold B, rone. rewrite mg_mid, mg_mk2 by auto. cbn [Nat.eqb]. change (ksub k1 ?x) with (1 - x)%R.
        rewrite !kdiv_R. unfold rr, cofk, cmul, cconj, cnorm2, cre, cim, kofnat. cbn. field.
      - intros i [<-|[]]. lia.
      - split. apply is_matrix_wfm; apply wfm_mk2. intros i j Hi Hj. cbn in Hi, Hj. assert (i = 0) by lia. assert (j = 0) by lia. subst. unfold B, rot. now rewrite !mg_mk2 by auto. }
    assert (G2 : derivable_pt_lim (fun h => 1 - cos h * cos h)%R (PI/4) (0 - ((- sin (PI/4)) * cos (PI/4) + cos (PI/4) * (- sin (PI/4))))%R).
    { apply (@derivable_pt_lim_minus (fun _ => 1%R)); [apply derivable_pt_lim_const|]. apply (@derivable_pt_lim_mult cos cos); apply derivable_pt_lim_cos. }
    rewrite (uniqueness_limite _ _ _ _ G G2). rewrite sin_PI4, cos_PI4. assert (S2 : (sqrt 2 * sqrt 2 = 2)%R) by (apply sqrt_sqrt; lra).
    assert (sqrt 2 <> 0)%R by (intros E0; rewrite E0 in S2; lra). transitivity (2 * / (sqrt 2 * sqrt 2))%R; [field; auto|rewrite S2; field].
  - intros h r' Hr. unfold operation_infidelity. rewrite (idx_last_ok Hr). cbn [bind]. unfold entanglement_fidelity, trunc_opt.
    assert (Hin : forall i, In i [0] -> i < 2) by (intros i [<-|[]]; lia).
    destruct (@truncate_closest RField la 2 (rot h) [0] (W h) Hin) as (B & EB & ET). rewrite ET. cbn [bind].
    destruct (@truncate_square RField la 2 (rot h) [0] (W h) Hin) as (B' & EB' & WB & VB). assert (B' = B) by congruence. subst B'. cbn [length] in WB, VB.
    assert (B = mk2 1 1 (fun _ _ => rr (cos h))).
    { rewrite is_matrix_wfm in WB. apply (@mat_ext RS 1 1); auto. intros i j Hi Hj. rewrite VB by auto. assert (i = 0) by lia. assert (j = 0) by lia. subst. unfold rot. now rewrite !mg_mk2 by auto. }
    subst B. destruct (svd_ok h) as (U & sg & Wv & E1 & E2). pose proof (closest_is_unitary la E1 E2) as HU.
    pose proof (one_fid true HU) as F1. unfold entanglement_fidelity, trunc_opt in F1. cbn [bind] in F1. rewrite F1. cbn [bind]. f_equal. change (1 - 1 = 0)%R. ring.
Qed.
End Refute.
