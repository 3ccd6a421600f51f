(** Proofs about the fidelity of a part of a composite system: values. *)
Require Import List Arith Lia Ring Field Bool Permutation.
From Verif Require Import LibBase LibRing LibArr LibCplx LibMat LibNorm M_Matrix M_Solver M_Cost S_Linear P_Linear P_Matrix S_PTrace P_PTrace S_Cost P_Cost S_CostSub.
Import ListNotations.
Set Implicit Arguments.

(** ---- positions ---- *)
Section Pos.
Variables dims removed : list nat.
Notation keep := (kept (length dims) removed).
Hypothesis HP : Permutation (removed ++ keep) (seq 0 (length dims)).

Lemma select_vidx z qs : vidx dims z -> (forall q, In q qs -> q < length dims) -> vidx (select dims qs) (select z qs).
Proof.
  intros V H. apply vidx_of_nth. { unfold select. now rewrite !map_length. }
  intros a Ha. unfold select in Ha. rewrite map_length in Ha. rewrite !nth_select by auto. apply vidx_nth; auto. apply H. now apply nth_In.
Qed.
Lemma in_part q : In q removed -> q < length dims.
Proof. intros H. assert (I : In q (seq 0 (length dims))) by (apply (Permutation_in _ HP), in_or_app; now left). apply in_seq in I. lia. Qed.
Lemma in_keep q : In q keep -> q < length dims.
Proof. intros H. apply In_kept in H. tauto. Qed.
Lemma merge_select z : vidx dims z -> merge (length dims) removed keep (select z removed) (select z keep) = z.
Proof.
  intros V. apply (nth_ext _ _ 0 0). { rewrite merge_len. symmetry. now apply vidx_len. }
  intros p Hp. rewrite merge_len in Hp. rewrite merge_nth by auto.
  destruct (mem_nat p removed) eqn:E.
  - apply mem_nat_In in E. rewrite nth_select by now apply index_of_lt. now rewrite index_of_nth.
  - assert (K : In p keep). { apply In_kept. split; auto. intros I. apply mem_nat_In in I. congruence. }
    rewrite nth_select by now apply index_of_lt. now rewrite index_of_nth.
Qed.
Lemma places_merge L r x : places dims removed L -> r < rest dims removed -> x < own dims removed ->
  L r x = ravel dims (merge (length dims) removed keep (unravel (select dims removed) r) (unravel (select dims keep) x)).
Proof.
  intros H Hr Hx. destruct (H r x Hr Hx) as (z & V & -> & Ex & Er). f_equal. rewrite <- (merge_select V) at 1. f_equal.
  - rewrite <- Er. symmetry. apply unravel_ravel. apply select_vidx; auto. intros q. apply in_part.
  - rewrite <- Ex. symmetry. apply unravel_ravel. apply select_vidx; auto. intros q. apply in_keep.
Qed.
Lemma rest_own : rest dims removed * own dims removed = whole dims.
Proof. apply (@prod_select dims removed keep HP). Qed.
Lemma places_lt L r x : places dims removed L -> r < rest dims removed -> x < own dims removed -> L r x < whole dims.
Proof. intros H Hr Hx. destruct (H r x Hr Hx) as (z & V & -> & _). now apply ravel_lt. Qed.
Lemma places_inj L r x r' x' : places dims removed L -> r < rest dims removed -> x < own dims removed -> r' < rest dims removed -> x' < own dims removed ->
  L r x = L r' x' -> r = r' /\ x = x'.
Proof.
  intros H Hr Hx Hr' Hx' E. destruct (H r x Hr Hx) as (z & V & E1 & E2 & E3). destruct (H r' x' Hr' Hx') as (z' & V' & E1' & E2' & E3').
  assert (z = z'). { rewrite <- (unravel_ravel V), <- (unravel_ravel V'). congruence. }
  subst z'. split; congruence.
Qed.
End Pos.
Lemma part_perm dims removed : proper_part dims removed -> Permutation (removed ++ kept (length dims) removed) (seq 0 (length dims)).
Proof. intros (ND & Hr & _). now apply removed_kept_perm. Qed.

(** ---- the order of the traced out subsystems does not matter ---- *)
Section Ord.
Variable F : OField.
Notation S := (CStar F).
Notation C := (cplx F).
Definition reorder (r1 r2 ri : list nat) : list nat := map (fun q => nth (index_of q r1) ri 0) r2.
Lemma reorder_nth r1 r2 ri p : In p r2 -> nth (index_of p r2) (reorder r1 r2 ri) 0 = nth (index_of p r1) ri 0.
Proof.
  intros H. unfold reorder. rewrite (nth_indep _ 0 (nth (index_of 0 r1) ri 0)) by (rewrite map_length; now apply index_of_lt).
  rewrite (map_nth (fun q => nth (index_of q r1) ri 0)). now rewrite index_of_nth.
Qed.
Lemma merge_reorder n r1 r2 keep ri kj : Permutation r1 r2 -> merge n r2 keep (reorder r1 r2 ri) kj = merge n r1 keep ri kj.
Proof.
  intros P. unfold merge. apply map_ext. intros p.
  assert (E : mem_nat p r2 = mem_nat p r1).
  { apply eq_true_iff_eq. rewrite !mem_nat_In. split; apply Permutation_in; [now symmetry|auto]. }
  rewrite E. destruct (mem_nat p r1) eqn:M; auto. apply reorder_nth. apply mem_nat_In. congruence.
Qed.
Lemma reorder_vidx dims r1 r2 ri : Permutation r1 r2 -> vidx (select dims r1) ri -> vidx (select dims r2) (reorder r1 r2 ri).
Proof.
  intros P V. apply vidx_of_nth. { unfold reorder, select. now rewrite !map_length. }
  intros a Ha. unfold select in Ha. rewrite map_length in Ha. rewrite nth_select by auto.
  unfold reorder. rewrite (nth_indep _ 0 (nth (index_of 0 r1) ri 0)) by now rewrite map_length.
  rewrite (map_nth (fun q => nth (index_of q r1) ri 0)).
  assert (I : In (nth a r2 0) r1) by (apply (Permutation_in _ (Permutation_sym P)); now apply nth_In).
  pose proof (index_of_lt _ _ I) as Li. pose proof (@vidx_nth _ _ (index_of (nth a r2 0) r1) V) as V2. unfold select in V2 at 1. rewrite map_length in V2.
  specialize (V2 Li). rewrite nth_select in V2 by auto. now rewrite index_of_nth in V2.
Qed.
Lemma prodn_perm l l' : Permutation l l' -> prodn l = prodn l'.
Proof. induction 1; cbn; nia. Qed.
Lemma ptrace_order dims r1 r2 keep (M : op F) : Permutation r1 r2 -> Permutation (r1 ++ keep) (seq 0 (length dims)) -> wfm (S:=S) (prodn dims) (prodn dims) M ->
  ptrace_array dims r1 keep M = ptrace_array dims r2 keep M.
Proof.
  intros P H1 W. assert (H2 : Permutation (r2 ++ keep) (seq 0 (length dims))) by (rewrite <- P; exact H1).
  assert (N : prodn (select dims r1) = prodn (select dims r2)) by (apply prodn_perm; unfold select; now apply Permutation_map).
  apply (@mat_ext S (prodn (select dims keep)) (prodn (select dims keep))); try apply ptrace_wf.
  intros j k Hj Hk. rewrite !ptrace_entry by auto.
  set (s := fun i => ravel (select dims r2) (reorder r1 r2 (unravel (select dims r1) i))).
  assert (Hs : forall i, i < prodn (select dims r1) -> unravel (select dims r2) (s i) = reorder r1 r2 (unravel (select dims r1) i)).
  { intros i Hi. unfold s. apply unravel_ravel. apply reorder_vidx; auto. now apply unravel_valid. }
  assert (B : forall i, i < prodn (select dims r1) -> s i < prodn (select dims r1)).
  { intros i Hi. rewrite N. apply ravel_lt. apply reorder_vidx; auto. now apply unravel_valid. }
  set (f := fun i => mg M (ravel dims (merge (length dims) r2 keep (unravel (select dims r2) i) (unravel (select dims keep) j)))
                     (ravel dims (merge (length dims) r2 keep (unravel (select dims r2) i) (unravel (select dims keep) k)))).
  transitivity (sumn (S:=S) (prodn (select dims r1)) (fun i => f (s i))).
  - apply sumn_ext. intros i Hi. unfold f. rewrite Hs by auto. now rewrite !merge_reorder by auto.
  - rewrite (@sumn_bij F (prodn (select dims r1)) s f).
    + now rewrite N.
    + exact B.
    + intros a b Ha Hb E. assert (E' : reorder r1 r2 (unravel (select dims r1) a) = reorder r1 r2 (unravel (select dims r1) b)).
      { rewrite <- !Hs by auto. now rewrite E. }
      assert (Lr : forall i, i < prodn (select dims r1) -> length (unravel (select dims r1) i) = length r1).
      { intros i Hi. rewrite (vidx_len (unravel_valid _ Hi)). apply map_length. }
      assert (E2 : unravel (select dims r1) a = unravel (select dims r1) b).
      { eapply (@merge_inj dims r1 keep H1 _ _ (repeat 0 (length keep)) (repeat 0 (length keep))); auto using repeat_length.
        rewrite <- !(@merge_reorder (length dims) r1 r2 keep) by auto. now rewrite E'. }
      rewrite <- (ravel_unravel _ Ha), <- (ravel_unravel _ Hb). now rewrite E2.
Qed.
End Ord.

(** ---- values ---- *)
Section Val.
Variable F : OField.
Add Field Kfield_cs : (k_field F).
Add Ring Cring_cs : (c_ring F).
Notation S := (CStar F).
Notation K := (KStar F).
Notation C := (cplx F).
Notation op := (op F).
Notation iter := (fun l : list nat => l).
Variables (dims removed : list nat) (L : nat -> nat -> nat).
Hypothesis HPP : proper_part dims removed.
Hypothesis HL : places dims removed L.
Notation D := (whole dims).
Notation m := (rest dims removed).
Notation k := (own dims removed).

(** the partial trace by entries *)
Lemma part_trace (M : op) : wfm (S:=S) D D M -> exists R, op_ptrace iter M dims removed = Ok R /\ wfm (S:=S) k k R /\
  forall x y, x < k -> y < k -> mg R x y = sumn (S:=S) m (fun r => mg M (L r x) (L r y)).
Proof.
  intros W. pose proof (part_perm HPP) as HP. destruct HPP as (ND & Hr & Ne & Hl & H1).
  destruct (@op_ptrace_ok F dims removed M) as [E _]; auto; try lia. { now apply is_matrix_wfm. }
  eexists; split; [exact E|]. rewrite <- (@ptrace_order F dims removed (sort_nat removed)); auto.
  2: { symmetry. apply sort_perm. }
  split; [apply ptrace_wf|]. intros x y Hx Hy. rewrite ptrace_entry by auto. apply sumn_ext. intros r Hm.
  now rewrite !(@places_merge dims removed HP L) by auto.
Qed.
Lemma sandwich (t R : op) : wfm (S:=S) 1 k t -> wfm (S:=S) k k R -> exists s, np_matmul t R = Ok s /\ exists v, np_matmul s (op_dag t) = Ok v /\ wfm (S:=S) 1 1 v /\
  mg v 0 0 = sumn (S:=S) k (fun y => sumn (S:=S) k (fun x => cmul (mg t 0 x) (cmul (mg R x y) (cconj (mg t 0 y))))).
Proof.
  intros Wt WR. exists (mmul (S:=S) t R). split; [exact (mm_ok Wt WR)|]. rewrite (op_dag_mdag Wt).
  assert (WD : wfm (S:=S) k 1 (mdag (S:=S) t)) by (apply wfm_mdag; exact Wt). pose proof (wfm_mmul Wt WR) as W2.
  exists (mmul (S:=S) (mmul (S:=S) t R) (mdag (S:=S) t)). split; [exact (mm_ok W2 WD)|]. split; [apply (wfm_mmul W2 WD)|].
  rewrite (@mg_mmul S 1 k 1) by auto. apply sumn_ext. intros y Hy. rewrite (@mg_mdag S 1 k) by auto.
  rewrite (@mg_mmul S 1 k k) by auto. etransitivity; [symmetry; apply (@sumn_mul_r S)|]. apply sumn_ext. intros x Hx. cbn. cring.
Qed.
Lemma leak_ok : foldM (fun a i => bind (idx dims i) (fun d => Ok (a * d))) removed 1 = Ok m.
Proof.
  assert (G : forall l a, (forall q, In q l -> q < length dims) -> foldM (fun a i => bind (idx dims i) (fun d => Ok (a * d))) l a = Ok (a * prodn (select dims l))).
  { induction l as [|q l IH]; intros a H; cbn [foldM]; [cbn; f_equal; lia|]. unfold idx at 1. destruct (nth_error dims q) as [d|] eqn:E.
    - cbn [bind]. rewrite IH by (intros; apply H; now right). cbn [select map prodn]. f_equal. rewrite (nth_error_nth _ _ _ E). fold (select dims l). lia.
    - apply nth_error_None in E. specialize (H q (or_introl eq_refl)). lia. }
  rewrite G; [f_equal; unfold rest; lia|]. destruct HPP as (_ & H & _). exact H.
Qed.
Lemma large : 1 < D. Proof. destruct HPP as (_ & _ & _ & _ & H). exact H. Qed.
Lemma mk_D : k * m = D. Proof. rewrite Nat.mul_comm. apply rest_own. now apply part_perm. Qed.
(** the density matrix p is handed to the partial trace *)
Definition traced (psi p : op) : Prop :=
  op_ptrace iter (if Nat.leb ((1 * k * m) * (1 * k * m)) (nr psi * nc psi) && Nat.eqb (nc psi) 1 then (match op_unvec psi with Ok q => q | Err _ => psi end) else psi) dims removed = op_ptrace iter p dims removed /\
  (Nat.leb ((1 * k * m) * (1 * k * m)) (nr psi * nc psi) && Nat.eqb (nc psi) 1 = true -> exists q, op_unvec psi = Ok q).
Lemma value_of (tol : F) (t psi p : op) : is_matrix 1 k t -> traced psi p -> is_matrix D D p ->
  state_fidelity_subspace iter tol t psi dims removed =
  (let z := found_mixed dims removed L t p in if kleb (kmul (cim z) (cim z)) (kmul tol tol) then Ok (cre z) else Err IndexError).
Proof.
  intros Ht [TP TU] Hp. rewrite is_matrix_wfm in Ht, Hp. destruct (@part_trace p Hp) as (R & E & WR & HR). destruct (@sandwich t R Ht WR) as (s & E1 & v & E2 & Wv & Ev).
  unfold state_fidelity_subspace. rewrite leak_ok. cbn [bind]. rewrite (wfm_nr Ht), (wfm_nc Ht).
  assert (G : bind (if Nat.leb ((1 * k * m) * (1 * k * m)) (nr psi * nc psi) && Nat.eqb (nc psi) 1 then op_unvec psi else Ok psi)
     (fun p0 => op_ptrace iter p0 dims removed) = Ok R).
  { destruct (Nat.leb ((1 * k * m) * (1 * k * m)) (nr psi * nc psi) && Nat.eqb (nc psi) 1) eqn:B.
    - destruct (TU eq_refl) as [q Eq]. rewrite Eq in TP |- *. cbn [bind]. now rewrite TP.
    - cbn [bind]. now rewrite TP. }
  destruct (if Nat.leb ((1 * k * m) * (1 * k * m)) (nr psi * nc psi) && Nat.eqb (nc psi) 1 then op_unvec psi else Ok psi) as [p0|]; cbn [bind] in *; [|discriminate].
  rewrite G. cbn [bind]. rewrite E1. cbn [bind]. rewrite E2. cbn [bind]. rewrite (wfm_nr Wv), (wfm_nc Wv). cbn [Nat.eqb andb].
  assert (EZ : mg v 0 0 = found_mixed dims removed L t p).
  { rewrite Ev. unfold found_mixed.
    transitivity (sumn (S:=S) k (fun y => sumn (S:=S) k (fun x => sumn (S:=S) m (fun r => cmul (mg t 0 x) (cmul (mg p (L r x) (L r y)) (cconj (mg t 0 y))))))).
    - apply sumn_ext. intros y Hy. apply sumn_ext. intros x Hx. rewrite HR by auto.
      etransitivity; [|symmetry; apply (@sumn_mul_l S)]. cbn. f_equal. etransitivity; [|symmetry; apply (@sumn_mul_r S)]. reflexivity.
    - etransitivity; [apply (@sumn_swap S)|]. etransitivity; [apply sumn_ext; intros x Hx; apply (@sumn_swap S)|]. apply (@sumn_swap S). }
  rewrite EZ. reflexivity.
Qed.

Lemma small_ket (psi : op) : is_matrix D 1 psi -> Nat.leb ((1 * k * m) * (1 * k * m)) (nr psi * nc psi) = false.
Proof. rewrite is_matrix_wfm. intros W. rewrite (wfm_nr W), (wfm_nc W). pose proof large. pose proof mk_D. apply Nat.leb_gt. rewrite Nat.mul_1_l, H0. nia. Qed.
Lemma ket_traced (psi : op) : is_matrix D 1 psi -> exists rho, is_matrix D D rho /\ traced psi rho /\
  forall i j, i < D -> j < D -> rho.[i,j] = cmul psi.[i,0] (cconj psi.[j,0]).
Proof.
  intros W. pose proof large. destruct (@op_ptrace_ket F iter dims removed D psi W) as (rho & H1 & H2 & H3); [lia|].
  exists rho. split; auto. split; auto. unfold traced. rewrite (small_ket W). cbn [andb]. split; [exact H3|discriminate].
Qed.
Lemma mixed_pure (t psi rho : op) : is_matrix D 1 psi -> (forall i j, i < D -> j < D -> rho.[i,j] = cmul psi.[i,0] (cconj psi.[j,0])) ->
  found_mixed dims removed L t rho = cofk (found dims removed L t psi).
Proof.
  intros W E. unfold found_mixed, found. rewrite cofk_sumn. apply sumn_ext. intros r Hr.
  set (a := sumn (S:=S) k (fun x => cmul t.[0,x] psi.[L r x, 0])).
  transitivity (cmul a (cconj a)).
  - unfold a at 2. rewrite csumn_conj. etransitivity; [|symmetry; unfold a; exact (csumn_mul_r _ _ _)].
    apply sumn_ext. intros x Hx. etransitivity; [|symmetry; exact (csumn_mul_l _ _ _)].
    apply sumn_ext. intros y Hy. pose proof (part_perm HPP) as HP. pose proof (places_lt HL Hr Hx). pose proof (places_lt HL Hr Hy).
    rewrite E by auto. rewrite cconj_mul. cring.
  - destruct a as [u v]. unfold cmul, cconj, cofk, cnorm2. cbn. f_equal; ring.
Qed.
Lemma kopp_self (x : F) : kopp x = x -> x = k0.
Proof.
  intros E. assert (A : kmul (kadd k1 k1) x = k0). { replace (kmul (kadd k1 k1) x) with (ksub x (kopp x)) by ring. rewrite E. ring. }
  assert (N : kadd k1 k1 <> (k0 : F)). { pose proof (@kofnat_S_neq0 F 1) as H. cbn in H. intros B. apply H. etransitivity; [|exact B]. ring. }
  transitivity (kmul (kinv (kadd k1 k1)) (kmul (kadd k1 k1) x)); [field; exact N|]. rewrite A. ring.
Qed.
Lemma ksumn_le_eq n (f g : nat -> F) : (forall i, i < n -> kle (f i) (g i)) -> sumn (S:=K) n f = sumn (S:=K) n g -> forall i, i < n -> f i = g i.
Proof.
  intros H E i Hi. assert (A : ksub (g i) (f i) = k0).
  { apply (@ksumn_eq0 F n (fun i => ksub (g i) (f i))); auto.
    - intros j Hj. apply ksub_nonneg. now apply H.
    - transitivity (ksub (sumn (S:=K) n g) (sumn (S:=K) n f)); [|rewrite E; generalize (sumn (S:=K) n g); cbn; intros u; ring]. clear. induction n; cbn in *; [ring|]. rewrite IHn. ring. }
  transitivity (ksub (g i) (ksub (g i) (f i))); [ring|]. rewrite A. ring.
Qed.
Lemma zero_tol (tol : F) : kleb (kmul k0 k0) (kmul tol tol) = true.
Proof.
  change (kle (kmul k0 k0 : F) (kmul tol tol)). replace (kmul k0 k0 : F) with (k0 : F) by ring. apply ksqr_nonneg.
Qed.
Lemma ket_value (tol : F) (t psi : op) : is_matrix 1 k t -> is_matrix D 1 psi ->
  state_fidelity_subspace iter tol t psi dims removed = Ok (found dims removed L t psi).
Proof.
  intros Ht W. destruct (ket_traced W) as (rho & Hr & TR & E). rewrite (@value_of tol t psi rho Ht TR Hr). rewrite (mixed_pure t rho W E).
  cbn [cofk cim cre fst snd]. unfold cim, cre, cofk. cbn [fst snd]. now rewrite zero_tol.
Qed.
Lemma mixed_real (t rho : op) : is_hermitian (S:=S) D rho -> cim (found_mixed dims removed L t rho) = k0.
Proof.
  intros [W H]. assert (E : cconj (found_mixed dims removed L t rho) = found_mixed dims removed L t rho).
  { unfold found_mixed. rewrite csumn_conj. apply sumn_ext. intros r Hr. rewrite csumn_conj.
    etransitivity; [apply sumn_ext; intros x Hx; apply csumn_conj|]. etransitivity; [apply (@sumn_swap S)|].
    apply sumn_ext. intros y Hy. apply sumn_ext. intros x Hx. cbv beta. rewrite !cconj_mul, cconj_cconj.
    pose proof (places_lt HL Hr Hx). pose proof (places_lt HL Hr Hy). rewrite (H (L r x) (L r y)) by auto. cbn [sconj CStar]. cring. }
  destruct (found_mixed dims removed L t rho) as [u v]. unfold cconj in E. cbn in E. injection E as E. unfold cim. cbn [snd].
  apply kopp_self. exact E.
Qed.
Lemma density_value (tol : F) (t rho : op) : is_matrix 1 k t -> is_hermitian (S:=S) D rho ->
  state_fidelity_subspace iter tol t rho dims removed = Ok (cre (found_mixed dims removed L t rho)).
Proof.
  intros Ht H. pose proof (proj1 H) as W. pose proof large.
  assert (TR : traced rho rho).
  { unfold traced. rewrite is_matrix_wfm in W. rewrite (wfm_nc W). replace (Nat.eqb D 1) with false by (symmetry; apply Nat.eqb_neq; lia).
    rewrite Bool.andb_false_r. split; [reflexivity|discriminate]. }
  rewrite (@value_of tol t rho rho Ht TR W). cbv zeta. rewrite mixed_real by auto. now rewrite zero_tol.
Qed.
Lemma stacked_value (tol : F) (t rho v : op) : is_matrix 1 k t -> is_hermitian (S:=S) D rho -> stacked D rho v ->
  state_fidelity_subspace iter tol t v dims removed = Ok (cre (found_mixed dims removed L t rho)).
Proof.
  intros Ht H [Wv Ev]. pose proof (proj1 H) as W. pose proof large. destruct (@unvec_vec F D rho W) as (v' & E1 & W' & E2).
  destruct (@vec_entries F D rho W) as (v2 & E3 & _ & E4). assert (v2 = v') by congruence. subst v2.
  assert (v = v').
  { rewrite is_matrix_wfm in Wv, W'. apply (@mat_ext S (D*D) 1); auto. intros i j Hi Hj. assert (j = 0) by lia. subst j.
    assert (D <> 0) by lia. rewrite (Nat.div_mod i D) by auto. rewrite (Nat.mul_comm D).
    assert (i / D < D) by (apply Nat.div_lt_upper_bound; auto). assert (i mod D < D) by now apply Nat.mod_upper_bound.
    rewrite Ev, E4 by auto. reflexivity. }
  subst v'.
  assert (TR : traced v rho).
  { unfold traced. rewrite is_matrix_wfm in Wv. rewrite E2. rewrite (wfm_nr Wv), (wfm_nc Wv). rewrite Nat.mul_1_l, mk_D, Nat.mul_1_r, Nat.leb_refl. cbn [andb Nat.eqb].
    split; [reflexivity|eauto]. }
  rewrite (@value_of tol t v rho Ht TR W). cbv zeta. rewrite mixed_real by auto. now rewrite zero_tol.
Qed.

(** ---- bounds and invariances ---- *)
Local Open Scope k_scope.
Lemma total_norm (psi : op) : is_matrix D 1 psi ->
  sumn (S:=K) m (fun r => sumn (S:=K) k (fun x => cnorm2 psi.[L r x, 0%nat])) = sumn (S:=K) D (fun i => cnorm2 psi.[i,0%nat]).
Proof.
  intros W. apply cofk_inj. destruct (ket_traced W) as (rho & Hr & _ & E). pose proof HPP as (ND & Hq & Ne & Hl & H1).
  destruct (@op_ptrace_trace F dims removed rho Hr) as (R & E1 & E2); auto; [lia|].
  rewrite is_matrix_wfm in Hr. destruct (part_trace Hr) as (R' & E1' & WR & ER). assert (R' = R) by congruence. subst R'.
  transitivity (trace_of D rho).
  - change (trace_of D rho) with (trace_of (prodn dims) rho). rewrite <- E2. unfold trace_of. rewrite cofk_sumn.
    transitivity (sumn (S:=S) m (fun r => sumn (S:=S) k (fun x => cofk (cnorm2 psi.[L r x, 0%nat])))). { apply sumn_ext. intros r Hm. apply cofk_sumn. }
    rewrite (@sumn_swap S). apply sumn_ext. intros x Hx. rewrite ER by auto. apply sumn_ext. intros r Hm.
    pose proof (places_lt HL Hm Hx). rewrite E by auto. rewrite <- cconj_mul_norm2. cring.
  - unfold trace_of. rewrite cofk_sumn. apply sumn_ext. intros i Hi. rewrite E by auto. rewrite <- cconj_mul_norm2. cring.
Qed.
Lemma found_bra (t phi psi : op) : is_bra_of k t phi -> found dims removed L t psi =
  sumn (S:=K) m (fun r => cnorm2 (vinner k (fun x => phi.[x,0%nat]) (fun x => psi.[L r x, 0%nat]))).
Proof. intros [_ E]. unfold found. apply sumn_ext. intros r Hr. f_equal. unfold vinner. apply sumn_ext. intros x Hx. now rewrite E. Qed.
Lemma part_range (tol : F) (t phi psi : op) : is_state k phi -> is_bra_of k t phi -> is_state D psi ->
  exists f, state_fidelity_subspace iter tol t psi dims removed = Ok f /\ 0 <= f /\ f <= 1.
Proof.
  intros [Hp Np] Ht [W N]. rewrite (ket_value tol (proj1 Ht) W). eexists; split; [reflexivity|]. split.
  - unfold found. apply (@ksumn_nonneg F). intros. apply cnorm2_nonneg.
  - rewrite (found_bra psi Ht). rewrite <- N, <- (total_norm W). apply (@ksumn_le F). intros r Hr.
    eapply kle_tr; [apply cauchy_schwarz|]. unfold vnorm2 at 1. apply kle_eq. etransitivity; [apply f_equal2; [exact Np|reflexivity]|]. unfold vnorm2. ring.
Qed.
Lemma part_product (la : LinAlg F) (tol : F) (t phi chi psi : op) b : is_matrix 1 k t -> is_matrix k 1 phi -> is_state m chi -> is_product_state dims removed L phi chi psi ->
  state_fidelity_subspace iter tol t psi dims removed = state_fidelity la t phi None b.
Proof.
  intros Ht Hp [Hc Nc] [W E]. rewrite (ket_value tol Ht W), (state_fid_val la b Ht Hp). f_equal. unfold found.
  set (a := sumn (S:=S) k (fun i => cmul t.[0%nat,i] phi.[i,0%nat])).
  transitivity (sumn (S:=K) m (fun r => cnorm2 a * cnorm2 chi.[r,0%nat])).
  - apply sumn_ext. intros r Hr. rewrite <- cnorm2_mul. f_equal. unfold a. etransitivity; [|symmetry; exact (csumn_mul_r _ _ _)].
    apply sumn_ext. intros x Hx. rewrite E by auto. cring.
  - etransitivity; [apply (@sumn_mul_l K)|]. cbn. etransitivity; [apply f_equal; exact Nc|]. ring.
Qed.
Lemma part_rest (tol : F) (t psi psi' : op) V : is_matrix 1 k t -> is_matrix D 1 psi -> is_unitary (S:=S) m V -> acted_on_rest dims removed L V psi psi' ->
  state_fidelity_subspace iter tol t psi' dims removed = state_fidelity_subspace iter tol t psi dims removed.
Proof.
  intros Ht W [WV [HV _]] [W' E]. rewrite (ket_value tol Ht W), (ket_value tol Ht W'). f_equal. unfold found.
  set (a := fun r => sumn (S:=S) k (fun x => cmul t.[0%nat,x] psi.[L r x, 0%nat])).
  assert (A : forall r, (r < m)%nat -> sumn (S:=S) k (fun x => cmul t.[0%nat,x] psi'.[L r x, 0%nat]) = sumn (S:=S) m (fun s => cmul V.[r,s] (a s))).
  { intros r Hr. transitivity (sumn (S:=S) k (fun x => sumn (S:=S) m (fun s => cmul V.[r,s] (cmul t.[0%nat,x] psi.[L s x, 0%nat])))).
    - apply sumn_ext. intros x Hx. rewrite E by auto. rewrite csumn_mul_l. apply sumn_ext. intros s Hs. cring.
    - rewrite (@sumn_swap S). apply sumn_ext. intros s Hs. unfold a. now rewrite csumn_mul_l. }
  apply cofk_inj. rewrite !cofk_sumn.
  transitivity (sumn (S:=S) m (fun r => sumn (S:=S) m (fun s => sumn (S:=S) m (fun s' => cmul (cmul (cconj V.[r,s]) V.[r,s']) (cmul (cconj (a s)) (a s')))))).
  - apply sumn_ext. intros r Hr. rewrite A by auto. rewrite <- cconj_mul_norm2. rewrite csumn_conj.
    etransitivity; [exact (csumn_mul_r _ _ _)|]. apply sumn_ext. intros s Hs. etransitivity; [exact (csumn_mul_l _ _ _)|].
    apply sumn_ext. intros s' Hs'. rewrite cconj_mul. cring.
  - etransitivity; [apply (@sumn_swap S)|]. apply sumn_ext. intros s Hs. etransitivity; [apply (@sumn_swap S)|].
    transitivity (sumn (S:=S) m (fun s' => cmul (delta s s') (cmul (cconj (a s)) (a s')))).
    + apply sumn_ext. intros s' Hs'. rewrite <- (HV s s') by auto. symmetry. exact (csumn_mul_r _ _ _).
    + rewrite (@sumn_single S m s); auto.
      * unfold delta. rewrite Nat.eqb_refl. fold (a s). rewrite <- cconj_mul_norm2. cbn. cring.
      * intros i Hi Ni. unfold delta. replace (Nat.eqb s i) with false by (symmetry; apply Nat.eqb_neq; lia). cbn. cring.
Qed.
Lemma part_one (tol : F) (t phi psi : op) : is_state k phi -> is_bra_of k t phi -> is_state D psi ->
  (state_fidelity_subspace iter tol t psi dims removed = Ok 1 <-> exists chi, is_matrix m 1 chi /\ is_product_state dims removed L phi chi psi).
Proof.
  intros [Hp Np] Ht [W N]. rewrite (ket_value tol (proj1 Ht) W). rewrite (found_bra psi Ht). split.
  - intros E. assert (E' : sumn (S:=K) m (fun r => cnorm2 (vinner k (fun x => phi.[x,0%nat]) (fun x => psi.[L r x, 0%nat]))) = 1) by congruence.
    exists (mk2 m 1 (fun r _ => vinner k (fun x => phi.[x,0%nat]) (fun x => psi.[L r x, 0%nat]))). split; [apply is_matrix_wfm, wfm_mk2|].
    split; auto. intros r x Hr Hx. rewrite mg_mk2 by lia.
    assert (G : forall r, (r < m)%nat -> cnorm2 (vinner k (fun x => phi.[x,0%nat]) (fun x => psi.[L r x, 0%nat])) = sumn (S:=K) k (fun x => cnorm2 psi.[L r x,0%nat])).
    { apply ksumn_le_eq.
      - intros i Hi. eapply kle_tr; [apply cauchy_schwarz|]. unfold vnorm2 at 1. apply kle_eq. etransitivity; [apply f_equal2; [exact Np|reflexivity]|]. unfold vnorm2. ring.
      - rewrite E'. rewrite (total_norm W). now symmetry. }
    pose proof (@cauchy_schwarz_eq F k (fun x => phi.[x,0%nat]) (fun x => psi.[L r x,0%nat])) as CE.
    assert (CP : cnorm2 (vinner k (fun x => phi.[x,0%nat]) (fun x => psi.[L r x,0%nat])) = vnorm2 k (fun x => phi.[x,0%nat]) * vnorm2 k (fun x => psi.[L r x,0%nat])).
    { rewrite (G r Hr). unfold vnorm2. transitivity ((1 : F) * sumn (S:=K) k (fun x0 => cnorm2 psi.[L r x0,0%nat])); [generalize (sumn (S:=K) k (fun x0 => cnorm2 psi.[L r x0,0%nat])); cbn; intros u; ring|].
      apply f_equal2; [now symmetry|reflexivity]. }
    specialize (CE CP x Hx).
    cbv beta in CE. replace (vnorm2 k (fun x0 => phi.[x0,0%nat])) with (1 : F) in CE by (symmetry; exact Np).
    transitivity (cmul (cofk 1) psi.[L r x,0%nat]); [destruct (psi.[L r x,0%nat]); unfold cmul, cofk; cbn; f_equal; ring|]. rewrite CE. cring.
  - intros (chi & Hc & _ & E). f_equal. rewrite <- N, <- (total_norm W). apply sumn_ext. intros r Hr.
    assert (A : vinner k (fun x => phi.[x,0%nat]) (fun x => psi.[L r x,0%nat]) = chi.[r,0%nat]).
    { apply (@vin_mult F k); [exact Np|]. intros x Hx. rewrite E by auto. cring. }
    rewrite A. etransitivity; [|apply sumn_ext; intros x Hx; rewrite E by auto; symmetry; apply cnorm2_mul].
    etransitivity; [|symmetry; apply (@sumn_mul_r K)]. cbn. change (sumn (S:=K) k (fun x => cnorm2 phi.[x,0%nat])) with (sumn (S:=K) k (fun i => cnorm2 phi.[i,0%nat]) : F).
    transitivity (kmul (1 : F) (cnorm2 chi.[r,0%nat])); [ring|]. now rewrite <- Np.
Qed.
End Val.
