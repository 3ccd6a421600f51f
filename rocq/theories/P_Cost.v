(** Proofs about the fidelities of M_Cost.v: values, bounds, invariances, super operators *)
Require Import List Arith Lia Ring Field Bool.
From Verif Require Import LibBase LibRing LibArr LibCplx LibMat LibNorm M_Matrix M_Solver M_Cost S_Linear P_Linear P_Matrix S_Cost.
Import ListNotations.
Set Implicit Arguments.

Section Lev.
Variable S : StarRing.
Add Ring Sring_lev : (s_ring S).
Definition inb (i : nat) (l : list nat) : bool := existsb (Nat.eqb i) l.
Lemma inb_In i l : inb i l = true <-> In i l.
Proof.
  unfold inb. rewrite existsb_exists. split.
  - intros (x & H & E). apply Nat.eqb_eq in E. now subst.
  - intros H. exists i. split; auto. apply Nat.eqb_refl.
Qed.
Lemma sum_levels n cs (f : nat -> S) : levels n cs ->
  sumn n (fun i => if inb i cs then f i else s0) = sumn (length cs) (fun a => f (nth a cs 0)).
Proof.
  revert f. induction cs as [|c cs IH]; intros f [ND Hlt]; cbn [length].
  - apply sumn_0. auto.
  - rewrite (sumn_S_l (S:=S)). cbn [nth]. inversion ND; subst.
    rewrite <- IH by (split; [auto|intros; apply Hlt; now right]).
    assert (G : sumn n (fun i => if Nat.eqb i c then f i else s0) = f c).
    { rewrite (@sumn_single S n c); [now rewrite Nat.eqb_refl|apply Hlt; now left|].
      intros i Hi N. apply Nat.eqb_neq in N. now rewrite N. }
    rewrite <- G. rewrite <- sumn_add. apply sumn_ext. intros i Hi. unfold inb. cbn [existsb].
      destruct (Nat.eqb_spec i c) as [->|N]; cbn [orb].
    + fold (inb c cs). destruct (inb c cs) eqn:E; [apply inb_In in E; contradiction|]. ring.
    + fold (inb i cs). destruct (inb i cs); ring.
Qed.
End Lev.

Section PC.
Variable F : OField.
Variable la : LinAlg F.
Add Field Kfield_pc : (k_field F).
Add Field Cfield_pc : (c_field F).
Notation S := (CStar F).
Notation K := (KStar F).
Notation C := (cplx F).
Implicit Types A B D P U V W : op F.
Local Open Scope k_scope.

Lemma sum_levels_le n cs (f : nat -> F) : levels n cs -> (forall i, (i < n)%nat -> 0 <= f i) ->
  sumn (S:=K) (length cs) (fun a => f (nth a cs 0%nat)) <= sumn (S:=K) n f.
Proof.
  intros H Hf. rewrite <- (@sum_levels K n cs f H). apply (@ksumn_le F). intros i Hi.
  destruct (inb i cs); [apply kle_refl|apply Hf; auto].
Qed.

Lemma mm_ok m n p A B : wfm m n A -> wfm n p B -> np_matmul A B = Ok (mmul (S:=S) A B).
Proof. exact (@op_mul_dense F m n p A B). Qed.

(** ---- C35 ---- *)
Lemma state_fid_val n (t psi : op F) b : is_matrix 1 n t -> is_matrix n 1 psi ->
  state_fidelity la t psi None b = Ok (cnorm2 (sumn (S:=S) n (fun i => cmul t.[0,i] psi.[i,0]))).
Proof.
  rewrite !is_matrix_wfm. intros Ht Hp. unfold state_fidelity, trunc_opt. cbn [bind]. rewrite (mm_ok Ht Hp). cbn [bind].
  pose proof (wfm_mmul Ht Hp) as W. rewrite (wfm_nr W), (wfm_nc W). cbn [Nat.eqb andb]. f_equal. f_equal.
  rewrite (@mg_mmul S 1 n 1) by auto. reflexivity.
Qed.
Lemma state_fid_ket n (t phi psi : op F) b : is_bra_of n t phi -> is_matrix n 1 psi ->
  state_fidelity la t psi None b = Ok (cnorm2 (vinner n (fun i => phi.[i,0]) (fun i => psi.[i,0]))).
Proof.
  intros [Ht E] Hp. rewrite (state_fid_val b Ht Hp). f_equal. f_equal. unfold vinner. apply sumn_ext. intros i Hi. now rewrite E.
Qed.
Lemma state_fid_range n (t phi psi : op F) b : is_state n phi -> is_state n psi -> is_bra_of n t phi ->
  exists f, state_fidelity la t psi None b = Ok f /\ 0 <= f /\ f <= 1.
Proof.
  intros [Hf Nf] [Hp Np] Ht. rewrite (state_fid_ket b Ht Hp). eexists; split; [reflexivity|]. split. apply cnorm2_nonneg.
  eapply kle_tr; [apply cauchy_schwarz|]. unfold vnorm2. apply kle_eq. etransitivity. apply f_equal2; [exact Nf|exact Np]. ring.
Qed.
Lemma state_fid_sym n (t s phi psi : op F) b : is_matrix n 1 phi -> is_matrix n 1 psi -> is_bra_of n t phi -> is_bra_of n s psi ->
  state_fidelity la t psi None b = state_fidelity la s phi None b.
Proof.
  intros Hf Hp Ht Hs. rewrite (state_fid_ket b Ht Hp), (state_fid_ket b Hs Hf). f_equal.
  rewrite <- (cnorm2_conj (vinner n (fun i => psi.[i,0]) (fun i => phi.[i,0]))). now rewrite vinner_conj.
Qed.
Lemma state_fid_phase n (t t' psi psi' : op F) c d b : is_matrix 1 n t -> is_matrix n 1 psi -> cnorm2 c = 1 -> cnorm2 d = 1 ->
  is_multiple 1 n d t t' -> is_multiple n 1 c psi psi' ->
  state_fidelity la t' psi' None b = state_fidelity la t psi None b.
Proof.
  intros Ht Hp Hc Hd [Ht' Et] [Hp' Ep]. rewrite (state_fid_val b Ht' Hp'), (state_fid_val b Ht Hp). f_equal.
  rewrite (sumn_ext (S:=S) _ (fun i => cmul (cmul d c) (cmul t.[0,i] psi.[i,0]))).
  - rewrite <- csumn_mul_l, !cnorm2_mul, Hc, Hd. ring.
  - intros i Hi. rewrite Et, Ep by lia. tocplx. ring.
Qed.
Lemma state_fid_unitary n (t t' phi phi' psi psi' W : op F) b : is_matrix n 1 phi -> is_matrix n 1 psi -> is_unitary n W ->
  is_product n n 1 W phi phi' -> is_product n n 1 W psi psi' -> is_bra_of n t phi -> is_bra_of n t' phi' ->
  state_fidelity la t' psi' None b = state_fidelity la t psi None b.
Proof.
  rewrite is_unitary_m. intros Hf Hp [HW [H1 H2]] Pf Pp Ht Ht'.
  pose proof (proj1 Pp) as Hp'. rewrite (state_fid_ket b Ht' Hp'), (state_fid_ket b Ht Hp). f_equal. f_equal.
  rewrite is_matrix_wfm in Hf. rewrite is_matrix_wfm in Hp. apply is_product_eq in Pf; auto. apply is_product_eq in Pp; auto. subst.
  assert (E : forall X Y : op F, wfm n 1 X -> wfm n 1 Y -> vinner n (fun i => X.[i,0]) (fun i => Y.[i,0]) = mg (mmul (S:=S) (mdag (S:=S) X) Y) 0 0).
  { intros X Y HX HY. rewrite (@mg_mmul S 1 n 1) by wf_solve. unfold vinner. apply sumn_ext. intros i Hi. mgsimp. reflexivity. }
  rewrite !E by wf_solve. f_equal. rewrite (@mdag_mmul S n n 1) by wf_solve.
  rewrite <- (@mmul_assoc S 1 n n 1), (@mmul_assoc S n n n 1 (mdag (S:=S) W)) by wf_solve. rewrite H1, (@mmul_1_l S n 1) by wf_solve. reflexivity.
Qed.
Lemma vin_mult n (a b : nat -> C) c : vnorm2 n a = 1 -> (forall i, (i < n)%nat -> b i = cmul c (a i)) -> vinner n a b = c.
Proof.
  intros N E. transitivity (cmul c (cofk (vnorm2 n a))).
  - rewrite vnorm2_inner. unfold vinner. rewrite csumn_mul_l. apply sumn_ext. intros i Hi. rewrite E by auto. tocplx. ring.
  - rewrite N. destruct c. unfold cmul, cofk. cbn. f_equal; ring.
Qed.
Lemma state_fid_one n (t phi psi : op F) b : is_state n phi -> is_state n psi -> is_bra_of n t phi ->
  (state_fidelity la t psi None b = Ok 1 <-> same_up_to_phase n 1 phi psi).
Proof.
  intros [Hf Nf] [Hp Np] Ht. rewrite (state_fid_ket b Ht Hp).
  set (a := fun i => phi.[i,0]). set (p := fun i => psi.[i,0]).
  assert (Na : vnorm2 n a = 1) by exact Nf. assert (Npp : vnorm2 n p = 1) by exact Np. split.
  - intros H. injection H as H. exists (vinner n a p). split; auto. split; auto. intros i j Hi Hj. assert (j = 0)%nat by lia. subst j.
    assert (E : cnorm2 (vinner n a p) = vnorm2 n a * vnorm2 n p) by (rewrite Na, Npp, H; ring).
    pose proof (cauchy_schwarz_eq _ _ E Hi) as G. rewrite Na in G. etransitivity; [|exact G]. unfold p.
    destruct (mg psi i 0). unfold cmul, cofk. cbn. f_equal; ring.
  - intros (c & Hc & _ & E). f_equal. rewrite (@vin_mult n a p c Na); auto. intros i Hi. apply E; auto.
Qed.
Lemma state_fid_not_scalar m n k (t psi : op F) b : is_matrix m n t -> is_matrix n k psi -> (m <> 1 \/ k <> 1)%nat ->
  state_fidelity la t psi None b = Err ValueError.
Proof.
  rewrite !is_matrix_wfm. intros Ht Hp H. unfold state_fidelity, trunc_opt. cbn [bind]. rewrite (mm_ok Ht Hp). cbn [bind].
  pose proof (wfm_mmul Ht Hp) as W. rewrite (wfm_nr W), (wfm_nc W).
  destruct (Nat.eqb_spec m 1), (Nat.eqb_spec k 1); cbn; auto. lia.
Qed.
(** on the computational states *)
Lemma state_fid_sub n (t psi : op F) cs b : is_matrix 1 (length cs) t -> is_matrix n 1 psi -> (n <> 1)%nat -> (forall i, In i cs -> (i < n)%nat) ->
  state_fidelity la t psi (Some cs) b = Ok (cnorm2 (sumn (S:=S) (length cs) (fun a => cmul t.[0,a] psi.[nth a cs 0%nat, 0]))).
Proof.
  intros Ht Hp Hn Hcs. unfold state_fidelity, trunc_opt.
  destruct (@truncate_ket F la n psi cs b Hp Hn Hcs) as (T & -> & HT & ET). cbn [bind].
  pose proof (state_fid_val b Ht HT) as E. unfold state_fidelity, trunc_opt in E. cbn [bind] in E. rewrite E. f_equal. f_equal.
  apply sumn_ext. intros a Ha. now rewrite ET.
Qed.
Lemma state_fid_sub_range n (t phi psi : op F) cs b : is_bra_of (length cs) t phi -> is_state (length cs) phi -> is_state n psi -> (n <> 1)%nat -> levels n cs ->
  exists f, state_fidelity la t psi (Some cs) b = Ok f /\ 0 <= f /\ f <= 1.
Proof.
  intros [Ht Et] [Hf Nf] [Hp Np] Hn Hcs. rewrite (@state_fid_sub n t psi cs b) by (auto; apply Hcs).
  eexists; split; [reflexivity|]. split. apply cnorm2_nonneg.
  rewrite (sumn_ext (S:=S) _ (fun a => cmul (cconj phi.[a,0]) psi.[nth a cs 0%nat,0])) by (intros; now rewrite Et).
  eapply kle_tr; [exact (@cauchy_schwarz F (length cs) (fun a => phi.[a,0]) (fun a => psi.[nth a cs 0%nat,0]))|].
  replace (vnorm2 (length cs) (fun a => phi.[a,0])) with (1:F) by (symmetry; exact Nf).
  replace (1 * vnorm2 (length cs) (fun a => psi.[nth a cs 0%nat,0])) with (vnorm2 (length cs) (fun a => psi.[nth a cs 0%nat,0])) by ring.
  eapply kle_tr; [|apply kle_eq; exact Np].
  apply (@sum_levels_le n cs (fun i => cnorm2 psi.[i,0])); auto. intros; apply cnorm2_nonneg.
Qed.

(** ---- C36 ---- *)
Definition fid d (z : C) : F := cnorm2 z / kofnat d / kofnat d.
Lemma overlap_hs n V U : mat_overlap n V U = hs n n V U.
Proof. reflexivity. Qed.
Lemma ent_fid_val d V U b : is_matrix d d V -> is_matrix d d U ->
  entanglement_fidelity la V U None b = Ok (fid d (mat_overlap d V U)).
Proof.
  rewrite !is_matrix_wfm. intros HV HU. unfold entanglement_fidelity, trunc_opt. cbn [bind].
  rewrite (op_dag_mdag HV), (@mm_ok d d d) by wf_solve. cbn [bind]. rewrite (wfm_nr HV). unfold op_tr. now rewrite (hs_trace HV HU).
Qed.
Lemma fid_nonneg d z : (d <> 0)%nat -> 0 <= fid d z.
Proof.
  intros Hd. unfold fid. pose proof (kofnat_neq0 F Hd). pose proof (kofnat_nonneg F d).
  apply kdiv_nonneg; auto. apply kdiv_nonneg; auto. apply cnorm2_nonneg.
Qed.
Lemma fid_le1 d z : (d <> 0)%nat -> cnorm2 z <= kofnat d * kofnat d -> fid d z <= 1.
Proof.
  intros Hd H. unfold fid. pose proof (kofnat_neq0 F Hd) as N. pose proof (kofnat_pos F Hd) as P.
  replace (1:F) with ((kofnat d : F) / kofnat d) by (field; auto). apply kle_div; auto.
  apply kle_cancel with (kofnat d); auto; replace (kofnat d * (cnorm2 z / kofnat d)) with (cnorm2 z) by (field; auto); auto.
Qed.
Lemma fid_one d z : (d <> 0)%nat -> (fid d z = 1 <-> cnorm2 z = kofnat d * kofnat d).
Proof.
  intros Hd. unfold fid. pose proof (kofnat_neq0 F Hd) as N. split; intros H.
  - replace (cnorm2 z) with (cnorm2 z / kofnat d / kofnat d * (kofnat d * kofnat d)) by (field; auto). rewrite H. ring.
  - rewrite H. field; auto.
Qed.
Lemma ent_fid_range d V U b : (d <> 0)%nat -> is_unitary d V -> is_unitary d U ->
  exists f, entanglement_fidelity la V U None b = Ok f /\ 0 <= f /\ f <= 1.
Proof.
  intros Hd HV HU. rewrite (@ent_fid_val d V U b (proj1 HV) (proj1 HU)). eexists; split; [reflexivity|].
  split. apply fid_nonneg; auto. apply fid_le1; auto. apply is_unitary_m in HV, HU.
  eapply kle_tr; [apply hs_cs|]. rewrite !hsnorm2_unitary by auto. apply kle_refl.
Qed.
Lemma ent_fid_sym d V U b : is_matrix d d V -> is_matrix d d U ->
  entanglement_fidelity la V U None b = entanglement_fidelity la U V None b.
Proof.
  intros HV HU. rewrite (ent_fid_val b HV HU), (ent_fid_val b HU HV). f_equal. unfold fid. f_equal. f_equal.
  rewrite !overlap_hs, !hs_flat. rewrite <- cnorm2_conj. now rewrite vinner_conj.
Qed.
Lemma ent_fid_phase d V U V' U' c e b : is_matrix d d V -> is_matrix d d U -> cnorm2 c = 1 -> cnorm2 e = 1 ->
  is_multiple d d c V V' -> is_multiple d d e U U' ->
  entanglement_fidelity la V' U' None b = entanglement_fidelity la V U None b.
Proof.
  intros HV HU Hc He [HV' EV] [HU' EU]. rewrite (ent_fid_val b HV HU), (ent_fid_val b HV' HU'). f_equal. unfold fid. f_equal. f_equal.
  transitivity (cnorm2 (cmul (cmul (cconj c) e) (mat_overlap d V U))).
  - f_equal. unfold mat_overlap. rewrite csumn_mul_l. apply sumn_ext. intros i Hi. rewrite csumn_mul_l. apply sumn_ext. intros j Hj.
    rewrite EV, EU, cconj_mul by auto. tocplx. ring.
  - rewrite !cnorm2_mul, cnorm2_conj, Hc, He. ring.
Qed.
Lemma ent_fid_unitary_l d V U V' U' W b : is_matrix d d V -> is_matrix d d U -> is_unitary d W ->
  is_product d d d W V V' -> is_product d d d W U U' ->
  entanglement_fidelity la V' U' None b = entanglement_fidelity la V U None b.
Proof.
  rewrite is_unitary_m. intros HV HU [HW [H1 H2]] PV PU. rewrite (ent_fid_val b HV HU), (ent_fid_val b (proj1 PV) (proj1 PU)).
  f_equal. f_equal. rewrite is_matrix_wfm in HV. rewrite is_matrix_wfm in HU. apply is_product_eq in PV; auto. apply is_product_eq in PU; auto. subst.
  rewrite !overlap_hs, <- !hs_trace by wf_solve. f_equal. rewrite (@mdag_mmul S d d d) by wf_solve.
  rewrite <- (@mmul_assoc S d d d d), (@mmul_assoc S d d d d (mdag (S:=S) W)) by wf_solve. rewrite H1, (@mmul_1_l S d d) by wf_solve. reflexivity.
Qed.
Lemma ent_fid_unitary_r d V U V' U' W b : is_matrix d d V -> is_matrix d d U -> is_unitary d W ->
  is_product d d d V W V' -> is_product d d d U W U' ->
  entanglement_fidelity la V' U' None b = entanglement_fidelity la V U None b.
Proof.
  rewrite is_unitary_m. intros HV HU [HW [H1 H2]] PV PU. rewrite (ent_fid_val b HV HU), (ent_fid_val b (proj1 PV) (proj1 PU)).
  f_equal. f_equal. rewrite is_matrix_wfm in HV. rewrite is_matrix_wfm in HU. apply is_product_eq in PV; auto. apply is_product_eq in PU; auto. subst.
  rewrite !overlap_hs, <- !hs_trace by wf_solve. rewrite (@mtrace_comm S d d (mdag (S:=S) (mmul V W))) by wf_solve.
  rewrite (@mdag_mmul S d d d) by wf_solve.
  rewrite <- (@mmul_assoc S d d d d), (@mmul_assoc S d d d d W) by wf_solve. rewrite H2, (@mmul_1_l S d d) by wf_solve.
  rewrite (@mtrace_comm S d d) by wf_solve. reflexivity.
Qed.
Lemma c_solve (c x y a : C) : c <> c0 -> cmul c x = cmul y a -> x = cmul (cdiv y c) a.
Proof. intros N E. transitivity (cdiv (cmul c x) c); [field; auto|]. rewrite E. field. auto. Qed.
Lemma ent_fid_one d V U b : (d <> 0)%nat -> is_unitary d V -> is_unitary d U ->
  (entanglement_fidelity la V U None b = Ok 1 <-> same_up_to_phase d d V U).
Proof.
  intros Hd HV HU. rewrite (@ent_fid_val d V U b (proj1 HV) (proj1 HU)). pose proof (proj1 HU) as WU. apply is_unitary_m in HV, HU.
  pose proof (kofnat_neq0 F Hd) as N.
  assert (Nc : cofk (kofnat d) <> (c0:C)) by (intros E; apply N; now injection E).
  split.
  - intros H. injection H as H. apply fid_one in H; auto. rewrite overlap_hs in H.
    assert (E : cnorm2 (hs d d V U) = hsnorm2 d d V * hsnorm2 d d U) by (rewrite !hsnorm2_unitary; auto).
    pose proof (@hs_cs_eq F _ _ _ _ E) as G. rewrite (hsnorm2_unitary HV) in G. exists (cdiv (hs d d V U) (cofk (kofnat d))). split.
    + transitivity (cnorm2 (hs d d V U) / (kofnat d * kofnat d)).
      * destruct (hs d d V U) as [x y]. unfold cdiv, cinv, cnorm2, cmul, cofk. cbn. field. auto.
      * rewrite H. field. auto.
    + split; auto. intros i j Hi Hj. specialize (G i j Hi Hj).
      now apply c_solve.
  - intros (c & Hc & _ & E). f_equal. apply fid_one; auto. rewrite overlap_hs.
    replace (hs d d V U) with (cmul c (cofk (kofnat d))).
    + rewrite cnorm2_mul, Hc. unfold cnorm2, cofk. cbn. ring.
    + rewrite <- (hsnorm2_unitary HV), hsnorm2_hs. unfold hs. rewrite csumn_mul_l. apply sumn_ext. intros i Hi. rewrite csumn_mul_l.
      apply sumn_ext. intros j Hj. rewrite E by auto. tocplx. ring.
Qed.
(** truncation to the computational states *)
Lemma ent_fid_sub n V U cs b T : is_matrix (length cs) (length cs) V -> is_matrix n n U -> (forall i, In i cs -> (i < n)%nat) -> is_block cs U T ->
  entanglement_fidelity la V U (Some cs) false = entanglement_fidelity la V T None b.
Proof.
  intros HV HU Hcs [HT ET]. unfold entanglement_fidelity, trunc_opt.
  destruct (@truncate_square F la n U cs HU Hcs) as (T' & -> & HT' & ET'). cbn [bind].
  replace T' with T; [reflexivity|]. rewrite is_matrix_wfm in HT. rewrite is_matrix_wfm in HT'. apply (@mat_ext S (length cs) (length cs)); auto.
  intros i j Hi Hj. now rewrite ET, ET'.
Qed.
Lemma unitary_row n U i : munitary n U -> (i < n)%nat -> sumn (S:=K) n (fun j => cnorm2 (mg U i j)) = 1.
Proof.
  intros H Hi. pose proof (unitary_col (munitary_dag H) Hi) as E. rewrite <- E. apply sumn_ext. intros j Hj.
  pose proof (munitary_wf H). rewrite (@mg_mdag S n n) by auto. exact (eq_sym (cnorm2_conj _)).
Qed.
Lemma block_col n U cs b : is_unitary n U -> levels n cs -> (b < length cs)%nat ->
  sumn (S:=K) (length cs) (fun a => cnorm2 U.[nth a cs 0%nat, nth b cs 0%nat]) <= 1.
Proof.
  intros HU Hcs Hb. apply is_unitary_m in HU.
  assert (L : (nth b cs 0 < n)%nat) by (apply Hcs; apply nth_In; auto).
  rewrite <- (unitary_col HU L). apply (@sum_levels_le n cs (fun i => cnorm2 U.[i, nth b cs 0%nat])); auto. intros; apply cnorm2_nonneg.
Qed.
Lemma block_hsnorm n U T cs : is_unitary n U -> levels n cs -> is_block cs U T ->
  hsnorm2 (length cs) (length cs) T <= kofnat (length cs).
Proof.
  intros HU Hcs [_ ET]. unfold hsnorm2. rewrite (sumn_swap (S:=K)).
  rewrite (sumn_ext (S:=K) _ (fun b => sumn (S:=K) (length cs) (fun a => cnorm2 U.[nth a cs 0%nat, nth b cs 0%nat]))).
  - assert (G : sumn (S:=K) (length cs) (fun _ => 1:F) = kofnat (length cs)) by (rewrite (@ksumn_const F); tok; ring). rewrite <- G.
    apply (@ksumn_le F). intros b Hb. eapply block_col; eauto.
  - intros b Hb. apply sumn_ext. intros a Ha. now rewrite ET.
Qed.
Lemma block_of n U cs : is_matrix n n U -> (forall i, In i cs -> (i < n)%nat) -> exists T, is_block cs U T /\ op_truncate la U (Some cs) false = Ok T.
Proof. intros H1 H2. destruct (@truncate_square F la n U cs H1 H2) as (T & H3 & H4 & H5). exists T. repeat split; auto; apply H4. Qed.
Lemma ent_fid_sub_range n V U cs : cs <> [] -> is_unitary (length cs) V -> is_unitary n U -> levels n cs ->
  exists f, entanglement_fidelity la V U (Some cs) false = Ok f /\ 0 <= f /\ f <= 1.
Proof.
  intros Hne HV HU Hcs. destruct (@block_of n U cs (proj1 HU) (proj2 Hcs)) as (T & HT & _).
  assert (Hd : (length cs <> 0)%nat) by (destruct cs; cbn; congruence).
  rewrite (@ent_fid_sub n V U cs false T (proj1 HV) (proj1 HU) (proj2 Hcs) HT), (@ent_fid_val _ V T false (proj1 HV) (proj1 HT)).
  eexists; split; [reflexivity|]. split. apply fid_nonneg; auto. apply fid_le1; auto. pose proof (block_hsnorm HU Hcs HT) as G.
  apply is_unitary_m in HV. eapply kle_tr; [apply hs_cs|]. rewrite (hsnorm2_unitary HV). apply kle_mul_l; auto. apply kofnat_nonneg.
Qed.

(** ---- C37 ---- *)
Lemma op_conj_mconj A : op_conj A = mconj (S:=S) A. Proof. reflexivity. Qed.
Lemma super_wf n U : wfm n n U -> wfm (n * n) (n * n) (op_to_super U).
Proof. intros H. unfold op_to_super. rewrite op_conj_mconj. wf_solve. Qed.
Lemma super_is n U : is_matrix n n U -> is_super_of n U (op_to_super U).
Proof.
  intros H. rewrite is_matrix_wfm in H. split. apply is_matrix_wfm. now apply super_wf. intros a b c d Ha Hb Hc Hd.
  unfold op_to_super. rewrite op_conj_mconj. rewrite (@mg_mkron' S n n n n) by wf_solve. now mgsimp.
Qed.
Lemma super_unique n U Q : is_matrix n n U -> is_super_of n U Q -> Q = op_to_super U.
Proof.
  intros H [HQ EQ]. destruct (super_is H) as [H' E']. rewrite is_matrix_wfm in HQ. rewrite is_matrix_wfm in H'.
  apply (@mkron_ext S n n n n); auto. intros. rewrite EQ, E' by auto. reflexivity.
Qed.
Lemma super_mul n A B : wfm n n A -> wfm n n B -> mmul (S:=S) (op_to_super A) (op_to_super B) = op_to_super (mmul (S:=S) A B).
Proof.
  intros HA HB. unfold op_to_super. rewrite !op_conj_mconj. rewrite (@mkron_mmul S n n n n n n) by wf_solve.
  now rewrite (@mconj_mmul S n n n) by wf_solve.
Qed.
Lemma super_trace n A : wfm n n A -> mtrace (S:=S) (op_to_super A) = cofk (cnorm2 (mtrace (S:=S) A)).
Proof.
  intros HA. unfold op_to_super. rewrite op_conj_mconj. rewrite (@mtrace_mkron S n n) by wf_solve. rewrite (@mtrace_mconj S n) by wf_solve.
  apply cconj_mul_norm2.
Qed.
Lemma super_fid d V U Q b : is_matrix d d V -> is_matrix d d U -> is_super_of d U Q ->
  entanglement_fidelity_super V Q None = entanglement_fidelity la V U None b.
Proof.
  intros HV HU HQ. rewrite (super_unique HU HQ). rewrite (ent_fid_val b HV HU). rewrite is_matrix_wfm in HV. rewrite is_matrix_wfm in HU.
  unfold entanglement_fidelity_super. rewrite (op_dag_mdag HV). rewrite (@mm_ok (d*d) (d*d) (d*d)) by (apply super_wf; wf_solve). cbn [bind].
  rewrite (@super_mul d) by wf_solve. unfold op_tr. rewrite (@super_trace d) by wf_solve. rewrite (hs_trace HV HU), (wfm_nr HV). reflexivity.
Qed.

(** loops writing entries *)
Lemma set_entry_ok m n A i j v : wfm m n A -> (i < m)%nat -> (j < n)%nat ->
  set_entry A i j v = Ok (mk2 m n (fun a b => if Nat.eqb a i && Nat.eqb b j then v else mg A a b)).
Proof. intros HA Hi Hj. unfold set_entry. rewrite (wfm_nr HA), (wfm_nc HA). apply Nat.ltb_lt in Hi, Hj. now rewrite Hi, Hj. Qed.
Lemma get_entry_ok m n A i j : wfm m n A -> (i < m)%nat -> (j < n)%nat -> get_entry A i j = Ok A.[i,j].
Proof. intros HA Hi Hj. unfold get_entry. rewrite (wfm_nr HA), (wfm_nc HA). apply Nat.ltb_lt in Hi, Hj. now rewrite Hi, Hj. Qed.
(** the effect of writing v_k to distinct places (r_k, c_k) *)
Lemma write_all {I : Type} (l : list I) n (A : op F) (r c : I -> nat) (v : I -> res C) (w : I -> C) (step : op F -> I -> res (op F)) :
  wfm n n A -> (forall x, In x l -> (r x < n)%nat /\ (c x < n)%nat /\ v x = Ok (w x)) ->
  (forall B x, step B x = bind (v x) (fun z => set_entry B (r x) (c x) z)) ->
  exists B, foldM step l A = Ok B /\ wfm n n B /\
   (forall i j, (i < n)%nat -> (j < n)%nat -> (forall x, In x l -> ~ (r x = i /\ c x = j)) -> B.[i,j] = A.[i,j]) /\
   (forall x, In x l -> (forall y, In y l -> r y = r x -> c y = c x -> w y = w x) -> B.[r x, c x] = w x).
Proof.
  revert A. induction l as [|x l IH]; intros A HA Hl Hs.
  - exists A. cbn. repeat split; auto; try apply HA. intros x [].
  - cbn [foldM]. destruct (Hl x (or_introl eq_refl)) as (Hr & Hc & Hv). rewrite Hs, Hv. cbn [bind]. rewrite (@set_entry_ok n n) by auto. cbn [bind].
    edestruct (IH (mk2 n n (fun a b => if Nat.eqb a (r x) && Nat.eqb b (c x) then w x else mg A a b))) as (B & E1 & E2 & E3 & E4).
    + wf_solve. + intros y Hy. apply Hl. now right. + exact Hs.
    + exists B. split; auto. split; auto. split.
      * intros i j Hi Hj N. rewrite E3; auto. 2: intros y Hy; apply N; now right.
        rewrite mg_mk2 by auto. destruct (Nat.eqb_spec i (r x)), (Nat.eqb_spec j (c x)); cbn; auto. subst. exfalso. apply (N x); auto. now left.
      * intros y Hy Heq. destruct (existsb (fun z => Nat.eqb (r z) (r y) && Nat.eqb (c z) (c y)) l) eqn:X.
        -- apply existsb_exists in X. destruct X as (z & Hz & Ez). apply andb_true_iff in Ez. destruct Ez as [Z1 Z2].
           apply Nat.eqb_eq in Z1, Z2. rewrite <- Z1, <- Z2. rewrite E4; auto.
           ++ apply Heq; auto. now right.
           ++ intros u Hu U1 U2. rewrite (Heq u), (Heq z); auto; try (now right); congruence.
        -- destruct Hy as [<-|Hy].
           ++ rewrite E3; auto. rewrite mg_mk2 by auto. now rewrite !Nat.eqb_refl. intros z Hz [Z1 Z2].
              assert (existsb (fun z => Nat.eqb (r z) (r x) && Nat.eqb (c z) (c x)) l = true); [|congruence].
              apply existsb_exists. exists z. split; auto. now rewrite Z1, Z2, !Nat.eqb_refl.
           ++ exfalso. assert (existsb (fun z => Nat.eqb (r z) (r y) && Nat.eqb (c z) (c y)) l = true); [|congruence].
              apply existsb_exists. exists y. split; auto. now rewrite !Nat.eqb_refl.
Qed.
Lemma foldM_nested {A B D : Type} (f : A -> B -> D -> res A) (l : list B) (l' : list D) a :
  foldM (fun x b => foldM (fun x d => f x b d) l' x) l a = foldM (fun x p => f x (fst p) (snd p)) (list_prod l l') a.
Proof.
  assert (App : forall (g : A -> B * D -> res A) l1 l2 a, foldM g (l1 ++ l2) a = bind (foldM g l1 a) (foldM g l2)).
  { intros g l1 l2. induction l1 as [|x l1 IH]; intros a0; cbn; auto. destruct (g a0 x); cbn; auto. }
  revert a. induction l as [|b l IH]; intros a; [reflexivity|]. cbn [foldM list_prod]. rewrite App.
  assert (E : forall a, foldM (fun x d => f x b d) l' a = foldM (fun x p => f x (fst p) (snd p)) (map (fun y => (b, y)) l') a).
  { clear. induction l' as [|d l' IH]; intros a; cbn; auto. destruct (f a b d); cbn; auto. }
  rewrite E. destruct (foldM _ (map _ l') a); cbn; auto.
Qed.
Lemma enum_nth (cs : list nat) x : In x (enum cs) -> (fst x < length cs)%nat /\ snd x = nth (fst x) cs 0%nat.
Proof.
  unfold enum. intros H. apply (In_nth _ _ (0,0)%nat) in H. destruct H as (k & Hk & E).
  rewrite combine_length, seq_length, Nat.min_id in Hk. rewrite combine_nth in E by apply seq_length. rewrite seq_nth in E by auto. subst. cbn. auto.
Qed.
Lemma enum_in (cs : list nat) a : (a < length cs)%nat -> In (a, nth a cs 0%nat) (enum cs).
Proof.
  intros H. unfold enum. replace (a, nth a cs 0%nat) with (nth a (combine (seq 0 (length cs)) cs) (0,0)%nat).
  - apply nth_In. now rewrite combine_length, seq_length, Nat.min_id.
  - rewrite combine_nth by apply seq_length. now rewrite seq_nth.
Qed.
Lemma embed_ok n (T : op F) cs : wfm (length cs) (length cs) T -> levels n cs -> exists B, embed T cs n = Ok B /\ wfm n n B /\
  (forall a b, (a < length cs)%nat -> (b < length cs)%nat -> B.[nth a cs 0%nat, nth b cs 0%nat] = T.[a,b]) /\
  (forall i j, (i < n)%nat -> (j < n)%nat -> ~ In j cs -> B.[i,j] = c0).
Proof.
  intros HT [ND Hlt]. unfold embed.
  rewrite (foldM_nested (fun A (ir kc : nat * nat) => bind (get_entry T (fst ir) (fst kc)) (fun v => set_entry A (snd ir) (snd kc) v))).
  destruct (@write_all _ (list_prod (enum cs) (enum cs)) n (mzero (S:=S) n n) (fun x => snd (fst x)) (fun x => snd (snd x))
    (fun x => get_entry T (fst (fst x)) (fst (snd x))) (fun x => T.[fst (fst x), fst (snd x)])
    (fun A p => bind (get_entry T (fst (fst p)) (fst (snd p))) (fun v => set_entry A (snd (fst p)) (snd (snd p)) v))) as (B & E1 & E2 & E3 & E4).
  - wf_solve.
  - intros [x y] H. apply in_prod_iff in H. destruct H as [Hx Hy]. apply enum_nth in Hx, Hy. destruct Hx as [X1 X2], Hy as [Y1 Y2]. cbn [fst snd].
    rewrite X2, Y2. repeat split; try (apply Hlt; apply nth_In; auto). apply (@get_entry_ok (length cs) (length cs)); auto.
  - reflexivity.
  - exists B. split; auto. split; auto. split.
    2:{ intros i j Hi Hj N. rewrite E3; auto. now mgsimp. intros [x y] H. apply in_prod_iff in H. destruct H as [Hx Hy].
        apply enum_nth in Hy. destruct Hy as [Y1 Y2]. cbn [fst snd]. intros [_ Q]. apply N. rewrite <- Q, Y2. apply nth_In; auto. }
    intros a b Ha Hb.
    apply (E4 ((a, nth a cs 0%nat), (b, nth b cs 0%nat))). apply in_prod; apply enum_in; auto.
    intros [x y] H. apply in_prod_iff in H. destruct H as [Hx Hy]. apply enum_nth in Hx, Hy. cbn [fst snd]. destruct Hx as [X1 X2], Hy as [Y1 Y2].
    rewrite X2, Y2. intros Q1 Q2. rewrite (NoDup_nth cs 0%nat) in ND. assert (fst x = a) by (apply ND; auto). assert (fst y = b) by (apply ND; auto). now subst.
Qed.
Lemma projector_ok n cs : levels n cs -> projector F cs n = Ok (mk2 n n (fun i j => if Nat.eqb i j && inb i cs then c1 else c0)).
Proof.
  intros [ND Hlt]. unfold projector.
  destruct (@write_all _ cs n (mscale (S:=S) c0 (mid (S:=S) n)) (fun x => x) (fun x => x) (fun _ => Ok c1) (fun _ => c1)
    (fun A s => set_entry A s s c1)) as (B & E1 & E2 & E3 & E4).
  - wf_solve. - intros x Hx. auto. - reflexivity.
  - rewrite E1. f_equal. apply (@mat_ext S n n); auto. wf_solve. intros i j Hi Hj. rewrite mg_mk2 by auto.
    destruct (Nat.eqb_spec i j) as [<-|N]; cbn [andb].
    + destruct (inb i cs) eqn:I.
      * apply E4; auto. now apply inb_In.
      * rewrite E3; auto. mgsimp. cbn. destruct (kd i i : S). unfold cmul, c0. cbn. f_equal; ring. intros x Hx [<- _]. apply inb_In in Hx. congruence.
    + rewrite E3; auto. mgsimp. cbn. destruct (kd i j : S). unfold cmul, c0. cbn. f_equal; ring. intros x Hx [<- E]. auto.
Qed.
Lemma isqrt_sq n : isqrt (n * n) = n.
Proof. unfold isqrt. apply Nat.sqrt_square. Qed.
Lemma super_fid_sub n V U Q cs : is_matrix (length cs) (length cs) V -> is_matrix n n U -> levels n cs -> is_super_of n U Q ->
  entanglement_fidelity_super V Q (Some cs) = entanglement_fidelity la V U (Some cs) false.
Proof.
  intros HV HU Hcs HQ. rewrite (super_unique HU HQ).
  destruct (@block_of n U cs HU (proj2 Hcs)) as (T & HT & _).
  rewrite (@ent_fid_sub n V U cs false T HV HU (proj2 Hcs) HT), (@ent_fid_val _ V T false HV (proj1 HT)).
  rewrite is_matrix_wfm in HV. rewrite is_matrix_wfm in HU. unfold entanglement_fidelity_super.
  pose proof (super_wf HU) as HS. rewrite (wfm_nr HS), isqrt_sq, (op_dag_mdag HV).
  destruct (@embed_ok n (mdag (S:=S) V) cs) as (B & -> & HB & EB & ZB); auto. wf_solve. cbn [bind].
  rewrite (projector_ok Hcs). cbn [bind]. set (Pr := mk2 n n _). assert (HP : wfm (S:=S) n n Pr) by (apply wfm_mk2).
  rewrite (@mm_ok (n*n) (n*n) (n*n)) by (apply super_wf; auto). cbn [bind]. rewrite (@super_mul n) by auto.
  rewrite (@mm_ok (n*n) (n*n) (n*n)) by (apply super_wf; wf_solve). cbn [bind]. rewrite (@super_mul n) by wf_solve.
  unfold op_tr. rewrite (@super_trace n) by wf_solve. rewrite (wfm_nr HV). unfold fid. cbn [cre cofk fst]. do 4 f_equal.
  rewrite <- (@mmul_assoc S n n n n) by wf_solve. rewrite (@mtrace_mmul S n n) by wf_solve.
  transitivity (sumn (S:=S) n (fun i => if inb i cs then mg (mmul (S:=S) B U) i i else c0)).
  - apply sumn_ext. intros i Hi. rewrite (@sumn_single S n i); auto.
    + unfold Pr. rewrite mg_mk2 by auto. rewrite Nat.eqb_refl. cbn [andb]. destruct (inb i cs); tocplx; ring.
    + intros j Hj N. unfold Pr. rewrite mg_mk2 by auto. apply Nat.eqb_neq in N. rewrite Nat.eqb_sym in N. rewrite N. cbn [andb]. tocplx. ring.
  - rewrite (@sum_levels S n cs _ Hcs). unfold mat_overlap. rewrite (sumn_swap (S:=S)). apply sumn_ext. intros a Ha.
    assert (La : (nth a cs 0 < n)%nat) by (apply Hcs; apply nth_In; auto). rewrite (@mg_mmul S n n n) by auto.
    transitivity (sumn (S:=S) n (fun j => if inb j cs then cmul B.[nth a cs 0%nat, j] U.[j, nth a cs 0%nat] else c0)).
    + apply sumn_ext. intros j Hj. destruct (inb j cs) eqn:I; [reflexivity|]. rewrite ZB; auto. tocplx. ring.
      intros H. apply inb_In in H. congruence.
    + etransitivity; [exact (@sum_levels S n cs (fun j => cmul B.[nth a cs 0%nat, j] U.[j, nth a cs 0%nat]) Hcs)|]. apply sumn_ext. intros b Hb.
      rewrite EB by auto. destruct HT as [_ ET]. rewrite ET by auto. mgsimp. reflexivity.
Qed.
End PC.
