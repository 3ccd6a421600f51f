(** Proofs about the leakage, noise averages, average gate fidelity and angle-axis parts of M_Cost.v *)
Require Import List Arith Lia Ring Field Bool.
From Verif Require Import LibBase LibRing LibArr LibCplx LibMat LibNorm M_Matrix M_Solver M_Cost S_Linear P_Linear P_Matrix P_Loops P_Svd S_Cost P_Cost.
Import ListNotations.
Set Implicit Arguments.

Definition grads {F : OField} (la : LinAlg F) (r : reads F) V cs (g : nat -> arr F) : Prop :=
  forall i, (i < r_traces r)%nat -> exists fs ds rs, nth_error (r_nfwd r) i = Some fs /\ nth_error (r_nder r) i = Some ds /\ nth_error (r_nrev r) i = Some rs /\
    derivative_entanglement_fidelity la V fs ds rs cs false = Ok (g i).
Section PC2.
Variable F : OField.
Variable la : LinAlg F.
Add Field Kfield_pc2 : (k_field F).
Add Field Cfield_pc2 : (c_field F).
Notation S := (CStar F).
Notation K := (KStar F).
Notation C := (cplx F).
Notation op := (op F).
Implicit Types A B D P U V W T Q : op.
Local Open Scope k_scope.

Lemma idx_last_ok {X} (l : list X) y : is_last l y -> idx_last l = Ok y.
Proof. intros [l' ->]. unfold idx_last, idx. now rewrite rev_unit. Qed.
Lemma last_inj {X} (l : list X) y z : is_last l y -> is_last l z -> y = z.
Proof. intros H1 H2. apply idx_last_ok in H1, H2. congruence. Qed.

(** ---- C39 ---- *)
Lemma staying_hs U T cs : is_block cs U T -> staying cs U = hsnorm2 (length cs) (length cs) T / kofnat (length cs).
Proof.
  intros [_ E]. unfold staying, hsnorm2. f_equal. apply sumn_ext. intros a Ha. apply sumn_ext. intros b Hb. now rewrite E.
Qed.
Lemma kmax_pos (x : F) : 0 <= x -> kmax 0 x = x.
Proof. intros H. unfold kmax. destruct (kleb x 0) eqn:E; auto. apply kle_antisym; auto. Qed.
Lemma staying_range n U cs : cs <> [] -> is_unitary n U -> levels n cs -> 0 <= staying cs U /\ staying cs U <= 1.
Proof.
  intros Hne HU Hcs. destruct (@block_of F la n U cs (proj1 HU) (proj2 Hcs)) as (T & HT & _). rewrite (staying_hs HT).
  assert (Hd : (length cs <> 0)%nat) by (destruct cs; cbn; congruence).
  split. apply kdiv_nonneg. apply hsnorm2_nonneg. apply kofnat_nonneg. now apply kofnat_neq0.
  apply kle_div_1. apply kofnat_nonneg. now apply kofnat_neq0. eapply block_hsnorm; eauto.
Qed.
Lemma trace_dag_mul d T : wfm d d T -> cre (mtrace (S:=S) (mmul (S:=S) (mdag (S:=S) T) T)) = hsnorm2 d d T.
Proof. intros H. now rewrite <- (hsnorm2_trace H). Qed.
Lemma leakage_clip n r U cs : is_last (r_fwd r) U -> is_matrix n n U -> (forall i, In i cs -> (i < n)%nat) ->
  leakage la r cs = Ok (kmax 0 (1 - staying cs U)).
Proof.
  intros HL HU Hcs. unfold leakage. rewrite (idx_last_ok HL). cbn [bind].
  destruct (@block_of F la n U cs HU Hcs) as (T & HT & ->). cbn [bind]. rewrite (staying_hs HT). destruct HT as [HT _]. rewrite is_matrix_wfm in HT.
  rewrite (op_dag_mdag HT). cbn [op_imul]. unfold np_matmul_out. rewrite (@mm_ok F (length cs) (length cs) (length cs)) by wf_solve. cbn [bind].
  rewrite (@wfm_nc S (length cs) (length cs)) by wf_solve. rewrite (@wfm_nc S (length cs) (length cs)) by wf_solve. rewrite Nat.eqb_refl. cbn [bind].
  unfold op_tr. rewrite (trace_dag_mul HT), (wfm_nr HT). reflexivity.
Qed.
Lemma leakage_val n r U cs : is_last (r_fwd r) U -> is_unitary n U -> cs <> [] -> levels n cs ->
  leakage la r cs = Ok (1 - staying cs U) /\ 0 <= 1 - staying cs U /\ 1 - staying cs U <= 1.
Proof.
  intros HL HU Hne Hcs. destruct (staying_range Hne HU Hcs) as [H0 H1]. rewrite (@leakage_clip n r U cs HL (proj1 HU) (proj2 Hcs)).
  rewrite kmax_pos by now apply ksub_nonneg. split; auto. split. now apply ksub_nonneg.
  apply kle_of_sub. now replace (1 - (1 - staying cs U)) with (staying cs U) by ring.
Qed.
Lemma all_one n (f : nat -> F) : (forall i, (i < n)%nat -> f i <= 1) -> sumn (S:=K) n f = kofnat n -> forall i, (i < n)%nat -> f i = 1.
Proof.
  intros H E i Hi. assert (G : 1 - f i = 0).
  { revert i Hi. apply (@ksumn_eq0 F n (fun i => 1 - f i)).
    - intros i Hi. apply ksub_nonneg. auto.
    - change (sumn (S:=K) n (fun i => ssub (s:=K) (1:F) (f i)) = 0). rewrite (sumn_sub (S:=K)). rewrite (@ksumn_const F n 1), E. tok. ring. }
  replace (f i) with (1 - (1 - f i)) by ring. rewrite G. ring.
Qed.
(** a column of the block of norm one: the rest of the column is zero *)
Lemma col_rest n U cs b : munitary n U -> levels n cs -> (b < n)%nat ->
  sumn (S:=K) (length cs) (fun a => cnorm2 U.[nth a cs 0%nat, b]) = 1 -> forall i, (i < n)%nat -> ~ In i cs -> U.[i,b] = c0.
Proof.
  intros HU Hcs Hb E i Hi N. pose proof (unitary_col HU Hb) as G.
  pose proof (@sum_levels K n cs (fun i => cnorm2 U.[i,b]) Hcs) as L. cbv beta in L. rewrite E in L.
  assert (Z : sumn (S:=K) n (fun i => cnorm2 U.[i,b] - (if inb i cs then cnorm2 U.[i,b] else 0)) = 0).
  { change (sumn (S:=K) n (fun i => ssub (s:=K) (cnorm2 U.[i,b]) (if inb i cs then cnorm2 U.[i,b] else 0)) = 0). rewrite (sumn_sub (S:=K)).
    etransitivity; [apply f_equal2; [exact G|exact L]|]. tok. ring. }
  apply cnorm2_eq0.
  pose proof (@ksumn_eq0 F n (fun i => cnorm2 U.[i,b] - (if inb i cs then cnorm2 U.[i,b] else 0))) as Q. cbv beta in Q.
  assert (R : cnorm2 U.[i,b] - (if inb i cs then cnorm2 U.[i,b] else 0) = 0).
  { apply Q; auto. intros k Hk. destruct (inb k cs).
    - replace (cnorm2 U.[k,b] - cnorm2 U.[k,b]) with (0:F) by ring. apply kle_refl.
    - replace (cnorm2 U.[k,b] - 0) with (cnorm2 U.[k,b]) by ring. apply cnorm2_nonneg. }
  destruct (inb i cs) eqn:I. apply inb_In in I. contradiction. rewrite <- R. ring.
Qed.
Lemma block_dag cs U T n : is_matrix n n U -> (forall i, In i cs -> (i < n)%nat) -> is_block cs U T -> is_block cs (mdag (S:=S) U) (mdag (S:=S) T).
Proof.
  intros HU Hlt [HT E]. rewrite is_matrix_wfm in HT. rewrite is_matrix_wfm in HU. split. apply is_matrix_wfm. wf_solve.
  intros a b Ha Hb. rewrite (@mg_mdag S (length cs) (length cs)), (@mg_mdag S n n) by (auto; apply Hlt; apply nth_In; auto). now rewrite E.
Qed.
Lemma delta_levels n cs a b : levels n cs -> (a < length cs)%nat -> (b < length cs)%nat ->
  (kd (nth a cs 0%nat) (nth b cs 0%nat) : S) = kd a b.
Proof.
  intros [ND _] Ha Hb. unfold kd. destruct (Nat.eqb_spec a b) as [->|N]; [now rewrite Nat.eqb_refl|].
  destruct (Nat.eqb_spec (nth a cs 0%nat) (nth b cs 0%nat)) as [E|]; auto. exfalso. apply N. rewrite (NoDup_nth cs 0%nat) in ND. apply ND; auto.
Qed.
Lemma block_isometry n U T cs : munitary n U -> levels n cs -> is_block cs U T -> hsnorm2 (length cs) (length cs) T = kofnat (length cs) ->
  mmul (S:=S) (mdag (S:=S) T) T = mid (S:=S) (length cs).
Proof.
  intros HU Hcs HB H. pose proof HB as [HT E]. rewrite is_matrix_wfm in HT. set (d := length cs) in *.
  assert (Col : forall b, (b < d)%nat -> sumn (S:=K) d (fun a => cnorm2 U.[nth a cs 0%nat, nth b cs 0%nat]) = 1).
  { apply all_one. intros b Hb. apply (@block_col F n U cs b); auto. now apply is_unitary_m. rewrite <- H. unfold hsnorm2. rewrite (sumn_swap (S:=K) d d).
    apply sumn_ext. intros b Hb. apply sumn_ext. intros a Ha. now rewrite E. }
  apply (@mat_ext S d d); [wf_solve|wf_solve|]. intros a b Ha Hb. mgsimp.
  assert (La : (nth a cs 0 < n)%nat) by (apply Hcs; apply nth_In; auto). assert (Lb : (nth b cs 0 < n)%nat) by (apply Hcs; apply nth_In; auto).
  rewrite <- (@delta_levels n cs a b Hcs Ha Hb). destruct HU as [WU [U1 U2]].
  transitivity (mg (mmul (S:=S) (mdag (S:=S) U) U) (nth a cs 0%nat) (nth b cs 0%nat)). 2: rewrite U1; now mgsimp.
  mgsimp. transitivity (sumn (S:=S) n (fun k => if inb k cs then cmul (cconj U.[k, nth a cs 0%nat]) U.[k, nth b cs 0%nat] else c0)).
  - symmetry. etransitivity; [exact (@sum_levels S n cs (fun k => cmul (cconj U.[k, nth a cs 0%nat]) U.[k, nth b cs 0%nat]) Hcs)|].
    apply sumn_ext. intros k Hk. mgsimp. rewrite !E by auto. reflexivity.
  - apply sumn_ext. intros k Hk. mgsimp. destruct (inb k cs) eqn:I; [reflexivity|].
    rewrite (@col_rest n U cs (nth b cs 0%nat)); auto. tocplx. ring. split; auto. intros G. apply inb_In in G. congruence.
Qed.
Lemma hsnorm2_dag d T : wfm d d T -> hsnorm2 d d (mdag (S:=S) T) = hsnorm2 d d T.
Proof.
  intros H. unfold hsnorm2. rewrite (sumn_swap (S:=K)). apply sumn_ext. intros i Hi. apply sumn_ext. intros j Hj.
  rewrite (@mg_mdag S d d) by auto. apply cnorm2_conj.
Qed.
Lemma leakage_zero n r U T cs : is_last (r_fwd r) U -> is_unitary n U -> cs <> [] -> levels n cs -> is_block cs U T ->
  (leakage la r cs = Ok 0 <-> is_unitary (length cs) T).
Proof.
  intros HL HU Hne Hcs HT. destruct (leakage_val r HL HU Hne Hcs) as (-> & _ & _). rewrite (staying_hs HT).
  assert (Hd : (length cs <> 0)%nat) by (destruct cs; cbn; congruence). pose proof (kofnat_neq0 F Hd) as N.
  pose proof (proj1 HT) as WT. rewrite is_matrix_wfm in WT. split.
  - intros H. injection H as H.
    assert (E : hsnorm2 (length cs) (length cs) T = kofnat (length cs)).
    { transitivity ((1 - (1 - hsnorm2 (length cs) (length cs) T / kofnat (length cs))) * kofnat (length cs)); [field; auto|]. rewrite H. ring. }
    apply is_unitary_m. pose proof HU as HU'. apply is_unitary_m in HU'. split; auto. split.
    + eapply block_isometry; eauto.
    + pose proof (@block_isometry n (mdag (S:=S) U) (mdag (S:=S) T) cs (munitary_dag HU') Hcs (block_dag (proj1 HU) (proj2 Hcs) HT)) as G.
      rewrite (hsnorm2_dag WT) in G. specialize (G E). now rewrite (@mdag_mdag S (length cs) (length cs)) in G by auto.
  - intros H. apply is_unitary_m in H. rewrite (hsnorm2_unitary H). f_equal. field. auto.
Qed.

(** ---- C40 ---- *)
Lemma leak_proj_ok n cs : levels n cs ->
  exists PL PC, leak_projectors F n cs = Ok (op_transpose (mvec n PL), mvec n PC) /\ wfm n n PL /\ wfm n n PC /\
   (forall i j, (i < n)%nat -> (j < n)%nat -> PL.[i,j] = (if Nat.eqb i j && negb (inb i cs) then c1 else c0)) /\
   (forall i j, (i < n)%nat -> (j < n)%nat -> PC.[i,j] = (if Nat.eqb i j && inb i cs then c1 else c0)).
Proof.
  intros Hcs. unfold leak_projectors.
  destruct (@write_all F _ cs n (mid (S:=S) n) (fun x => x) (fun x => x) (fun _ => Ok c0) (fun _ => c0)
    (fun A s => set_entry A s s c0)) as (PL & E1 & E2 & E3 & E4).
  - wf_solve. - intros x Hx. destruct Hcs. auto. - reflexivity.
  - rewrite E1. cbn [bind op_isub]. rewrite (@bcast_ok_same F n n), (@bcast_same F n n) by wf_solve. cbn [bind].
    rewrite (op_vec_ok E2). cbn [bind]. rewrite (@op_vec_ok F n) by wf_solve. cbn [bind].
    assert (EL : forall i j, (i < n)%nat -> (j < n)%nat -> PL.[i,j] = (if Nat.eqb i j && negb (inb i cs) then c1 else c0)).
    { intros i j Hi Hj. destruct (Nat.eqb_spec i j) as [<-|N]; cbn [andb].
      - destruct (inb i cs) eqn:I; cbn [negb]. apply E4; auto. now apply inb_In. rewrite E3; auto. mgsimp. unfold kd. now rewrite Nat.eqb_refl.
        intros x Hx [<- _]. apply inb_In in Hx. congruence.
      - rewrite E3; auto. mgsimp. unfold kd. apply Nat.eqb_neq in N. now rewrite N. intros x Hx [<- E]. auto. }
    exists PL, (msub (S:=S) (mid (S:=S) n) PL). split; [reflexivity|]. split; [auto|]. split; [wf_solve|]. split; [auto|].
    intros i j Hi Hj. mgsimp. rewrite EL by auto. unfold kd. destruct (Nat.eqb i j), (inb i cs); cbn [andb negb]; tocplx; ring.
Qed.
(** <PL| Q |PC> summed out for any super operator *)
Lemma liouville_sum n PL PC Q cs : wfm n n PL -> wfm n n PC -> wfm (n * n) (n * n) Q -> levels n cs ->
   (forall i j, (i < n)%nat -> (j < n)%nat -> PL.[i,j] = (if Nat.eqb i j && negb (inb i cs) then c1 else c0)) ->
   (forall i j, (i < n)%nat -> (j < n)%nat -> PC.[i,j] = (if Nat.eqb i j && inb i cs then c1 else c0)) ->
   mg (mmul (S:=S) (mmul (S:=S) (op_transpose (mvec n PL)) Q) (mvec n PC)) 0 0 =
   sumn (S:=S) (length cs) (fun b => sumn (S:=S) n (fun i => if inb i cs then c0 else Q.[i * n + i, nth b cs 0%nat * n + nth b cs 0%nat])).
Proof.
  intros HL HC HQ Hcs EL EC. pose proof (wfm_mvec HL) as VL. pose proof (wfm_mvec HC) as VC.
  assert (VT : wfm 1 (n*n) (op_transpose (mvec n PL))) by (unfold op_transpose, op_copy; wf_solve).
  rewrite (@mg_mmul S 1 (n*n) 1) by wf_solve. rewrite (sumn_mul_split (S:=S)).
  transitivity (sumn (S:=S) n (fun k => if inb k cs then sumn (S:=S) n (fun i => if inb i cs then c0 else Q.[i * n + i, k * n + k]) else c0)).
  2: exact (@sum_levels S n cs (fun k => sumn (S:=S) n (fun i => if inb i cs then c0 else Q.[i * n + i, k * n + k])) Hcs).
  apply sumn_ext. intros k Hk.
  rewrite (@sumn_single S n k); auto.
  - rewrite (@mg_mvec F n PC k k) by auto. rewrite EC by auto. rewrite Nat.eqb_refl. cbn [andb]. destruct (inb k cs); [|tocplx; ring].
    assert (LK : (k * n + k < n * n)%nat) by now apply join_lt.
    rewrite (@mg_mmul S 1 (n*n) (n*n)) by auto. rewrite (sumn_mul_split (S:=S)). tocplx. rewrite csumn_mul_r. apply sumn_ext. intros i Hi.
    rewrite (@sumn_single S n i); auto.
    + unfold op_transpose, op_copy. rewrite (@mg_mtr S (n*n) 1) by (auto; now apply join_lt). rewrite (@mg_mvec F n PL i i) by auto. rewrite EL by auto.
      rewrite Nat.eqb_refl. cbn [andb]. destruct (inb i cs); cbn [negb]; tocplx; ring.
    + intros j Hj N. unfold op_transpose, op_copy. rewrite (@mg_mtr S (n*n) 1) by (auto; now apply join_lt). rewrite (@mg_mvec F n PL j i) by auto. rewrite EL by auto.
      destruct (Nat.eqb_spec j i); [congruence|]. cbn [andb]. tocplx. ring.
  - intros j Hj N. rewrite (@mg_mvec F n PC j k) by auto. rewrite EC by auto. destruct (Nat.eqb_spec j k); [congruence|]. cbn [andb]. tocplx. ring.
Qed.
Definition liou n cs Q : F := cre (sumn (S:=S) (length cs) (fun b => sumn (S:=S) n (fun i => if inb i cs then c0 else Q.[i * n + i, nth b cs 0%nat * n + nth b cs 0%nat])))
  / kofnat (length cs).
Lemma liouville_val n Q cs iu mc r : levels n cs -> cs <> [] -> wfm (n * n) (n * n) Q ->
  (match iu, mc with
   | true, true => average_super (r_nfwd r)
   | true, false => bind (idx_last (r_fwd r)) (fun l => Ok (op_to_super l))
   | false, true => average_op (r_nfwd r)
   | false, false => idx_last (r_fwd r) end) = Ok Q ->
  leakage_liouville r n cs iu mc = Ok (liou n cs Q).
Proof.
  intros Hcs Hne HQ E. unfold leakage_liouville. destruct (leak_proj_ok Hcs) as (PL & PC & -> & HL & HC & EL & EC). cbn [bind fst snd].
  pose proof (wfm_mvec HL) as VL. pose proof (wfm_mvec HC) as VC.
  assert (VT : wfm 1 (n*n) (op_transpose (mvec n PL))) by (unfold op_transpose, op_copy; wf_solve).
  assert (G : (match iu with
     | true => match mc with true => average_super (r_nfwd r) | false => bind (idx_last (r_fwd r)) (fun l => Ok (op_to_super l)) end
     | false => match mc with true => average_op (r_nfwd r) | false => idx_last (r_fwd r) end end) = Ok Q) by (destruct iu, mc; exact E).
  rewrite G. cbn [bind]. rewrite (@mm_ok F 1 (n*n) (n*n)) by auto. cbn [bind]. rewrite (@mm_ok F 1 (n*n) 1) by wf_solve. cbn [bind op_rmul op_imul op_copy]. unfold op_copy.
  rewrite (@mg_mscale S 1 1) by wf_solve. rewrite (liouville_sum HL HC HQ Hcs EL EC). unfold liou. f_equal.
  assert (Hd : (length cs <> 0)%nat) by (destruct cs; cbn; congruence). pose proof (kofnat_neq0 F Hd) as N.
  set (z := sumn (S:=S) (length cs) _). tocplx. destruct z as [x y]. unfold cmul, cofk, cre. cbn. field. auto.
Qed.
Lemma liou_super n U cs : is_unitary n U -> levels n cs -> cs <> [] -> liou n cs (op_to_super U) = 1 - staying cs U.
Proof.
  intros HU Hcs Hne. unfold liou, staying. assert (Hd : (length cs <> 0)%nat) by (destruct cs; cbn; congruence). pose proof (kofnat_neq0 F Hd) as N.
  set (s := sumn (S:=K) (length cs) _).
  assert (E : cre (sumn (S:=S) (length cs) (fun b => sumn (S:=S) n (fun i => if inb i cs then c0 else mg (op_to_super U) (i * n + i) (nth b cs 0%nat * n + nth b cs 0%nat)))) = kofnat (length cs) - s).
  { rewrite cre_sumn. unfold s. rewrite (sumn_swap (S:=K)). transitivity (sumn (S:=K) (length cs) (fun b => 1 - sumn (S:=K) (length cs) (fun a => cnorm2 U.[nth a cs 0%nat, nth b cs 0%nat]))).
    2:{ change (sumn (S:=K) (length cs) (fun b => ssub (s:=K) (1:F) (sumn (S:=K) (length cs) (fun a => cnorm2 U.[nth a cs 0%nat, nth b cs 0%nat]))) =
          kofnat (length cs) - sumn (S:=K) (length cs) (fun b => sumn (S:=K) (length cs) (fun a => cnorm2 U.[nth a cs 0%nat, nth b cs 0%nat]))).
        rewrite (sumn_sub (S:=K)), (@ksumn_const F). tok. ring. }
    apply sumn_ext. intros b Hb. assert (Lb : (nth b cs 0 < n)%nat) by (apply Hcs; apply nth_In; auto). rewrite cre_sumn.
    pose proof (proj1 (is_unitary_m n U) HU) as MU.
    rewrite <- (unitary_col MU Lb). rewrite <- (@sum_levels K n cs (fun i => cnorm2 U.[i, nth b cs 0%nat]) Hcs).
    change (sumn (S:=K) n (fun i => cre (if inb i cs then c0 else mg (op_to_super U) (i * n + i) (nth b cs 0%nat * n + nth b cs 0%nat))) =
      ssub (s:=K) (sumn (S:=K) n (fun i => cnorm2 U.[i, nth b cs 0%nat])) (sumn (S:=K) n (fun i => if inb i cs then cnorm2 U.[i, nth b cs 0%nat] else 0))).
    rewrite <- (sumn_sub (S:=K)). apply sumn_ext. intros i Hi. destruct (inb i cs).
    - tok. cbn. ring.
    - destruct (super_is (proj1 HU)) as [_ G]. rewrite G by auto. rewrite cconj_mul_norm2. tok. cbn. ring. }
  rewrite E. field. auto.
Qed.
Lemma liouville_agrees n r U cs : is_last (r_fwd r) U -> is_unitary n U -> cs <> [] -> levels n cs ->
  leakage_liouville r n cs true false = leakage la r cs.
Proof.
  intros HL HU Hne Hcs. rewrite (@liouville_val n (op_to_super U) cs true false r); auto.
  - rewrite liou_super by auto. destruct (leakage_val r HL HU Hne Hcs) as (-> & _). reflexivity.
  - apply super_wf. destruct HU as [HU _]. now rewrite is_matrix_wfm in HU.
  - now rewrite (idx_last_ok HL).
Qed.
Lemma liouville_agrees_super n r r' U Q cs : is_last (r_fwd r) U -> is_last (r_fwd r') Q -> is_super_of n U Q -> is_unitary n U -> cs <> [] -> levels n cs ->
  leakage_liouville r' n cs false false = leakage la r cs.
Proof.
  intros HL HL' HQ HU Hne Hcs. pose proof (super_unique (proj1 HU) HQ) as ->. rewrite (@liouville_val n (op_to_super U) cs false false r'); auto.
  - rewrite liou_super by auto. destruct (leakage_val r HL HU Hne Hcs) as (-> & _). reflexivity.
  - apply super_wf. destruct HU as [HU _]. now rewrite is_matrix_wfm in HU.
  - now rewrite (idx_last_ok HL').
Qed.

(** ---- averages ---- *)
Lemma mean_nth (l : list F) n (f : nat -> F) : length l = n -> (forall i, (i < n)%nat -> nth i l 0 = f i) -> mean l = average n f.
Proof.
  intros HL H. unfold mean, average. rewrite HL. f_equal. etransitivity; [exact (@lsum_nth K l)|]. etransitivity; [|apply sumn_ext; exact H]. now rewrite <- HL.
Qed.
Lemma average_eq n (f g : nat -> F) : (forall i, (i < n)%nat -> f i = g i) -> average n f = average n g.
Proof. intros H. unfold average. f_equal. now apply sumn_ext. Qed.
Lemma average_const n (c : F) : (n <> 0)%nat -> average n (fun _ => c) = c.
Proof. intros H. unfold average. rewrite (@ksumn_const F). field. now apply kofnat_neq0. Qed.

(** ---- C41 ---- *)
(** the final propagators of the noise traces *)
Definition finals (r : reads F) (us : nat -> op) : Prop :=
  forall i, (i < r_traces r)%nat -> exists fs, nth_error (r_nfwd r) i = Some fs /\ is_last fs (us i).
Lemma mapM_total {X} (g : nat -> res X) n (f : nat -> X) (d : X) : (forall i, (i < n)%nat -> g i = Ok (f i)) -> mapM g (seq 0 n) = Ok (map f (seq 0 n)).
Proof.
  intros H. rewrite (@mapM_seq_of _ g 0 n (map f (seq 0 n)) d); auto. now rewrite map_length, seq_length.
  intros i Hi. rewrite nth_map_seq by auto. cbn [plus]. auto.
Qed.
Lemma noise_mean r (V : op) cs b us f : finals r us ->
  (forall i, (i < r_traces r)%nat -> entanglement_fidelity la V (us i) cs b = Ok (f i)) ->
  noise_infidelity la r (Some V) cs b false = Ok (average (r_traces r) (fun i => 1 - f i)).
Proof.
  intros HF Hf. unfold noise_infidelity, effective_target. cbn [bind].
  rewrite (@mapM_total _ _ (r_traces r) (fun i => 1 - f i) 0).
  - cbn [bind]. f_equal. apply mean_nth. now rewrite map_length, seq_length. intros i Hi. now rewrite nth_map_seq.
  - intros i Hi. destruct (HF i Hi) as (fs & E1 & E2). unfold idx at 1. rewrite E1. cbn [bind]. rewrite (idx_last_ok E2). cbn [bind]. rewrite (Hf i Hi). reflexivity.
Qed.
Lemma noise_mean_neglect r tgt cs b neglect us f U T : (tgt = None \/ neglect = true) -> finals r us -> is_last (r_fwd r) U ->
  op_truncate la U cs b = Ok T ->
  (forall i, (i < r_traces r)%nat -> entanglement_fidelity la T (us i) cs b = Ok (f i)) ->
  noise_infidelity la r tgt cs b neglect = Ok (average (r_traces r) (fun i => 1 - f i)).
Proof.
  intros Hn HF HL HT Hf. unfold noise_infidelity, effective_target.
  assert (E : match tgt with Some t => match neglect with true => bind (idx_last (r_fwd r)) (fun l => trunc_opt la l cs b) | false => Ok t end
              | None => bind (idx_last (r_fwd r)) (fun l => trunc_opt la l cs b) end = Ok T).
  { assert (G : bind (idx_last (r_fwd r)) (fun l => trunc_opt la l cs b) = Ok T).
    { rewrite (idx_last_ok HL). cbn [bind]. unfold trunc_opt. destruct cs; auto. }
    destruct tgt, neglect; auto. destruct Hn; discriminate. }
  rewrite E. cbn [bind].
  rewrite (@mapM_total _ _ (r_traces r) (fun i => 1 - f i) 0).
  - cbn [bind]. f_equal. apply mean_nth. now rewrite map_length, seq_length. intros i Hi. now rewrite nth_map_seq.
  - intros i Hi. destruct (HF i Hi) as (fs & E1 & E2). unfold idx at 1. rewrite E1. cbn [bind]. rewrite (idx_last_ok E2). cbn [bind]. rewrite (Hf i Hi). reflexivity.
Qed.
(** no noise: every trace ends in the noiseless propagator *)
Lemma noise_zero n r tgt b neglect U : (tgt = None \/ neglect = true) -> finals r (fun _ => U) -> is_last (r_fwd r) U ->
  is_unitary n U -> (n <> 0)%nat -> (r_traces r <> 0)%nat ->
  noise_infidelity la r tgt None b neglect = Ok 0.
Proof.
  intros Hn HF HL HU H0 Ht. rewrite (@noise_mean_neglect r tgt None b neglect (fun _ => U) (fun _ => 1) U U); auto.
  - f_equal. replace (1 - 1) with (0:F) by ring. now apply average_const.
  - intros i Hi. apply (@ent_fid_one F la n); auto. exists c1. split. unfold cnorm2, c1. cbn. ring. split. apply HU. intros. destruct (U.[i0,j]). unfold cmul, c1. cbn. f_equal; ring.
Qed.
(** the same with leakage: the truncated noiseless propagator is not unitary, and the cost is not zero *)
Lemma noise_identical_sub n r tgt neglect U cs : (tgt = None \/ neglect = true) -> finals r (fun _ => U) -> is_last (r_fwd r) U ->
  is_matrix n n U -> levels n cs -> cs <> [] -> (r_traces r <> 0)%nat ->
  noise_infidelity la r tgt (Some cs) false neglect = Ok (1 - staying cs U * staying cs U).
Proof.
  intros Hn HF HL HU Hcs Hne Ht. destruct (@block_of F la n U cs HU (proj2 Hcs)) as (T & HT & ET).
  assert (Hd : (length cs <> 0)%nat) by (destruct cs; cbn; congruence). pose proof (kofnat_neq0 F Hd) as N.
  rewrite (@noise_mean_neglect r tgt (Some cs) false neglect (fun _ => U) (fun _ => staying cs U * staying cs U) U T); auto.
  - f_equal. now apply average_const.
  - intros i Hi. rewrite (@ent_fid_sub F la n T U cs false T (proj1 HT) HU (proj2 Hcs) HT), (@ent_fid_val F la _ T T false (proj1 HT) (proj1 HT)).
    rewrite overlap_hs, <- hsnorm2_hs, (staying_hs HT). f_equal. unfold fid, cnorm2, cofk. cbn [fst snd]. field. auto.
Qed.
(** mapping to the closest unitary restores the zero *)
Lemma noise_zero_mapped n r tgt neglect U cs T X s Y : (tgt = None \/ neglect = true) -> finals r (fun _ => U) -> is_last (r_fwd r) U ->
  is_matrix n n U -> levels n cs -> cs <> [] -> (r_traces r <> 0)%nat -> is_block cs U T -> la_svd la T = (X, s, Y) -> is_svd (length cs) T X s Y ->
  noise_infidelity la r tgt (Some cs) true neglect = Ok 0.
Proof.
  intros Hn HF HL HU Hcs Hne Ht HT ES Hsvd.
  assert (Hd : (length cs <> 0)%nat) by (destruct cs; cbn; congruence).
  destruct (@truncate_closest F la n U cs HU (proj2 Hcs)) as (T' & E1 & E2).
  assert (T' = T). { destruct (@block_of F la n U cs HU (proj2 Hcs)) as (T2 & [H2 B2] & E3). rewrite E3 in E1. injection E1 as <-.
    destruct HT as [HT BT]. rewrite is_matrix_wfm in H2. rewrite is_matrix_wfm in HT. apply (@mat_ext S (length cs) (length cs)); auto. intros. now rewrite BT, B2. }
  subst T'. set (Z := op_closest_unitary la T) in *. pose proof (closest_is_unitary la ES Hsvd) as HZ. fold Z in HZ.
  rewrite (@noise_mean_neglect r tgt (Some cs) true neglect (fun _ => U) (fun _ => 1) U Z); auto.
  - f_equal. replace (1 - 1) with (0:F) by ring. now apply average_const.
  - intros i Hi. unfold entanglement_fidelity, trunc_opt. rewrite E2. cbn [bind]. 
    change (bind (np_matmul (op_dag Z) Z) (fun x => Ok (cnorm2 (op_tr x) / kofnat (nr Z) / kofnat (nr Z))) = Ok 1).
    assert (G : entanglement_fidelity la Z Z None true = Ok 1).
    { apply (@ent_fid_one F la (length cs)); auto. exists c1. split. unfold cnorm2, c1. cbn. ring. split. apply HZ. intros. destruct (Z.[i0,j]). unfold cmul, c1. cbn. f_equal; ring. }
    exact G.
Qed.
(** gradient *)
Lemma fit_same (T C0 : nat) (a : arr F) : wfa [T; C0] a -> fit T C0 a = Ok a.
Proof.
  intros H. unfold fit. destruct (dim_wfa2 H) as (E1 & E2 & _). rewrite E1, E2, !Nat.eqb_refl. cbn [orb andb]. f_equal.
  apply (@arr2_ext _ 0 T C0); auto. apply wfa_mk2. intros i j Hi Hj. rewrite get2_mk2 by auto. unfold bidx.
  destruct (Nat.eqb_spec T 1), (Nat.eqb_spec C0 1); f_equal; lia.
Qed.
Lemma noise_grad r V cs b g : grads la r V cs g -> (forall i, (i < r_traces r)%nat -> wfa [r_steps r; r_ctrls r] (g i)) ->
  exists a, noise_infidelity_grad la r (Some V) cs b false = Ok a /\ shape a = [r_steps r; r_ctrls r] /\
   forall t c, (t < r_steps r)%nat -> (c < r_ctrls r)%nat -> get2 0 a t c = average (r_traces r) (fun i => - get2 0 (g i) t c).
Proof.
  intros Hg Hw. unfold noise_infidelity_grad, effective_target. cbn [bind].
  rewrite (@mapM_total _ _ (r_traces r) g (g 0%nat)).
  - cbn [bind]. eexists; split; [reflexivity|]. split; [reflexivity|]. intros t c Ht Hc. rewrite get2_mk2 by auto. apply mean_nth.
    now rewrite !map_length, seq_length. intros i Hi. rewrite map_map. now rewrite nth_map_seq.
  - intros i Hi. destruct (Hg i Hi) as (fs & ds & rs & E1 & E2 & E3 & E4). unfold idx at 1 2 3. rewrite E1, E2, E3. cbn [bind]. rewrite E4. cbn [bind]. apply fit_same. auto.
Qed.
Lemma arr_plus_ok (T C0 : nat) (a b : arr F) : wfa [T; C0] a -> wfa [T; C0] b ->
  arr_plus a b = Ok (mk2 T C0 (fun t c => get2 0 a t c + get2 0 b t c)).
Proof. intros Ha Hb. unfold arr_plus. destruct (dim_wfa2 Ha) as (E1 & E2 & _). rewrite E1, E2, (fit_same Hb). reflexivity. Qed.
Lemma noise_grad_neglect r tgt cs b neglect g h us U T : (tgt = None \/ neglect = true) -> is_last (r_fwd r) U -> op_truncate la U cs b = Ok T ->
  finals r us -> grads la r T cs g ->
  (forall i, (i < r_traces r)%nat -> exists T', op_truncate la (us i) cs b = Ok T' /\ derivative_entanglement_fidelity la T' (r_fwd r) (r_der r) (r_rev r) cs false = Ok (h i)) ->
  (forall i, (i < r_traces r)%nat -> wfa [r_steps r; r_ctrls r] (g i) /\ wfa [r_steps r; r_ctrls r] (h i)) ->
  exists a, noise_infidelity_grad la r tgt cs b neglect = Ok a /\ shape a = [r_steps r; r_ctrls r] /\
   forall t c, (t < r_steps r)%nat -> (c < r_ctrls r)%nat -> get2 0 a t c = average (r_traces r) (fun i => - (get2 0 (g i) t c + get2 0 (h i) t c)).
Proof.
  intros Hn HL HT HF Hg Hh Hw. unfold noise_infidelity_grad, effective_target.
  assert (E : match tgt with Some t => match neglect with true => bind (idx_last (r_fwd r)) (fun l => trunc_opt la l cs b) | false => Ok t end
              | None => bind (idx_last (r_fwd r)) (fun l => trunc_opt la l cs b) end = Ok T).
  { assert (G : bind (idx_last (r_fwd r)) (fun l => trunc_opt la l cs b) = Ok T).
    { rewrite (idx_last_ok HL). cbn [bind]. unfold trunc_opt. destruct cs; auto. }
    destruct tgt, neglect; auto. destruct Hn; discriminate. }
  rewrite E. cbn [bind]. clear E.
  rewrite (@mapM_total _ _ (r_traces r) (fun i => mk2 (r_steps r) (r_ctrls r) (fun t c => get2 0 (g i) t c + get2 0 (h i) t c)) (g 0%nat)).
  - cbn [bind]. eexists; split; [reflexivity|]. split; [reflexivity|]. intros t c Ht Hc. rewrite get2_mk2 by auto. apply mean_nth.
    now rewrite !map_length, seq_length. intros i Hi. rewrite map_map. rewrite nth_map_seq by auto. now rewrite get2_mk2.
  - intros i Hi. destruct (Hg i Hi) as (fs & ds & rs & E1 & E2 & E3 & E4). unfold idx at 1 2 3. rewrite E1, E2, E3. cbn [bind]. rewrite E4. cbn [bind].
    destruct (HF i Hi) as (fs' & F1 & F2). rewrite E1 in F1. injection F1 as <-. destruct (Hh i Hi) as (T' & T1 & T2). destruct (Hw i Hi) as [W1 W2].
    assert (G : bind (bind (idx_last fs) (fun l => bind (trunc_opt la l cs b) (fun t' => bind (derivative_entanglement_fidelity la t' (r_fwd r) (r_der r) (r_rev r) cs false) (fun h0 => arr_plus (g i) h0))))
      (fun g' => fit (r_steps r) (r_ctrls r) g') = Ok (mk2 (r_steps r) (r_ctrls r) (fun t c => get2 0 (g i) t c + get2 0 (h i) t c))).
    { rewrite (idx_last_ok F2). cbn [bind]. replace (trunc_opt la (us i) cs b) with (Ok T' : res op) by (rewrite <- T1; unfold trunc_opt; destruct cs; auto). cbn [bind]. rewrite T2. cbn [bind].
      rewrite (arr_plus_ok W1 W2). cbn [bind]. apply fit_same. apply wfa_mk2. }
    destruct tgt, neglect; try exact G. destruct Hn; discriminate.
Qed.

(** ---- C42 ---- *)
Definition quad (p q r s a b c d : C) : C :=
  let m00 := cadd (cmul (cconj p) (cconj a)) (cmul (cconj r) (cconj b)) in
  let m01 := cadd (cmul (cconj p) (cconj c)) (cmul (cconj r) (cconj d)) in
  let m10 := cadd (cmul (cconj q) (cconj a)) (cmul (cconj s) (cconj b)) in
  let m11 := cadd (cmul (cconj q) (cconj c)) (cmul (cconj s) (cconj d)) in
  cadd (cadd (cmul (cadd (cmul m00 p) (cmul m01 r)) a) (cmul (cadd (cmul m00 q) (cmul m01 s)) c))
       (cadd (cmul (cadd (cmul m10 p) (cmul m11 r)) b) (cmul (cadd (cmul m10 q) (cmul m11 s)) d)).
Lemma sum2 (g : nat -> C) : sumn (S:=S) 2 g = cadd (g 0%nat) (g 1%nat).
Proof. cbn [sumn]. tocplx. ring. Qed.
Lemma trace_quad A P : wfm 2 2 A -> wfm 2 2 P -> mtrace (S:=S) (mmul (S:=S) (mmul (S:=S) (mmul (S:=S) (mdag (S:=S) P) (mdag (S:=S) A)) P) A) =
  quad P.[0,0] P.[0,1] P.[1,0] P.[1,1] A.[0,0] A.[0,1] A.[1,0] A.[1,1].
Proof.
  intros HA HP. rewrite (@mtrace_sq S 2) by wf_solve. rewrite sum2.
  set (M := mmul (S:=S) (mdag (S:=S) P) (mdag (S:=S) A)). assert (HM : wfm 2 2 M) by (unfold M; wf_solve).
  set (N := mmul (S:=S) M P). assert (HN : wfm 2 2 N) by (unfold N; wf_solve).
  assert (EM : forall i j, (i < 2)%nat -> (j < 2)%nat -> M.[i,j] = cadd (cmul (cconj P.[0,i]) (cconj A.[j,0])) (cmul (cconj P.[1,i]) (cconj A.[j,1]))).
  { intros i j Hi Hj. unfold M. rewrite (@mg_mmul S 2 2 2) by wf_solve. rewrite sum2. rewrite !(@mg_mdag S 2 2) by (auto; lia). reflexivity. }
  assert (EN : forall i j, (i < 2)%nat -> (j < 2)%nat -> N.[i,j] = cadd (cmul M.[i,0] P.[0,j]) (cmul M.[i,1] P.[1,j])).
  { intros i j Hi Hj. unfold N. rewrite (@mg_mmul S 2 2 2) by auto. now rewrite sum2. }
  rewrite !(@mg_mmul S 2 2 2 N A) by (auto; lia). rewrite !sum2. rewrite !EN by lia. rewrite !EM by lia. reflexivity.
Qed.
Ltac qtac a b c d := destruct a as [a a'], b as [b b'], c as [c c'], d as [d d']; unfold quad, cmul, cadd, csub, cconj, c0, c1, ci, copp; cbn [fst snd]; f_equal; ring.
Lemma qX (a b c d : C) : quad c0 c1 c1 c0 a b c d = cadd (cadd (cmul (cconj d) a) (cmul (cconj b) c)) (cadd (cmul (cconj c) b) (cmul (cconj a) d)).
Proof. qtac a b c d. Qed.
Lemma qY (a b c d : C) : quad c0 (copp ci) ci c0 a b c d = cadd (csub (cmul (cconj d) a) (cmul (cconj b) c)) (csub (cmul (cconj a) d) (cmul (cconj c) b)).
Proof. qtac a b c d. Qed.
Lemma qZ (a b c d : C) : quad c1 c0 c0 (copp c1) a b c d = cadd (csub (cmul (cconj a) a) (cmul (cconj c) c)) (csub (cmul (cconj d) d) (cmul (cconj b) b)).
Proof. qtac a b c d. Qed.
Lemma qI (a b c d : C) : quad c1 c0 c0 c1 a b c d = cadd (cadd (cmul (cconj a) a) (cmul (cconj c) c)) (cadd (cmul (cconj d) d) (cmul (cconj b) b)).
Proof. qtac a b c d. Qed.
Lemma q_sum (a b c d : C) :
  cadd (cadd (cadd (cadd (cadd (cmul (cconj d) a) (cmul (cconj b) c)) (cadd (cmul (cconj c) b) (cmul (cconj a) d)))
    (cadd (csub (cmul (cconj a) a) (cmul (cconj c) c)) (csub (cmul (cconj d) d) (cmul (cconj b) b))))
    (cadd (csub (cmul (cconj d) a) (cmul (cconj b) c)) (csub (cmul (cconj a) d) (cmul (cconj c) b))))
    (cadd (cadd (cmul (cconj a) a) (cmul (cconj c) c)) (cadd (cmul (cconj d) d) (cmul (cconj b) b)))
  = cmul (cofk (kofnat 2)) (cofk (cnorm2 (cadd (cadd c0 a) d))).
Proof. destruct a, b, c, d; unfold cmul, cadd, csub, cconj, cnorm2, cofk, c0; cbn [fst snd kofnat]; f_equal; ring. Qed.
Lemma agf_val U V b : is_matrix 2 2 U -> is_matrix 2 2 V ->
  exists f, entanglement_fidelity la V U None b = Ok f /\
    average_gate_fidelity U V = Ok (cofk ((kofnat 2 * f + 1) / kofnat 3)).
Proof.
  intros HU HV. rewrite (ent_fid_val la b HV HU). eexists; split; [reflexivity|].
  rewrite is_matrix_wfm in HU. rewrite is_matrix_wfm in HV. unfold average_gate_fidelity. rewrite (wfm_nr HU). cbn [orthogonal_set Nat.eqb bind].
  unfold orthogonal_set. cbn [Nat.eqb bind]. rewrite (op_dag_mdag HU). rewrite (@mm_ok F 2 2 2) by wf_solve. cbn [bind].
  set (A := mmul (S:=S) (mdag (S:=S) U) V). assert (HA : wfm 2 2 A) by (unfold A; wf_solve).
  rewrite (op_dag_mdag HA).
  assert (HP : forall P, wfm 2 2 P -> (bind (np_matmul (op_dag P) (mdag (S:=S) A)) (fun a => bind (np_matmul a P) (fun b => np_matmul b A)))
    = Ok (mmul (S:=S) (mmul (S:=S) (mmul (S:=S) (mdag (S:=S) P) (mdag (S:=S) A)) P) A)).
  { intros P WP. rewrite (op_dag_mdag WP). rewrite (@mm_ok F 2 2 2) by wf_solve. cbn [bind]. rewrite (@mm_ok F 2 2 2) by wf_solve. cbn [bind]. now rewrite (@mm_ok F 2 2 2) by wf_solve. }
  assert (WX : wfm 2 2 (pauli_x F)) by apply wfm_mk2. assert (WY : wfm 2 2 (pauli_y F)) by apply wfm_mk2. assert (WZ : wfm 2 2 (pauli_z F)) by apply wfm_mk2.
  assert (WI : wfm 2 2 (mid (S:=S) 2)) by wf_solve.
  cbn [mapM]. rewrite (HP _ WX), (HP _ WZ), (HP _ WY), (HP _ WI). cbn [bind idx nth_error]. unfold idx. cbn [nth_error bind Nat.mul Nat.add Nat.sub seq foldM].
  set (f := fun P => mmul (S:=S) (mmul (S:=S) (mmul (S:=S) (mdag (S:=S) P) (mdag (S:=S) A)) P) A).
  assert (Wf : forall P, wfm 2 2 P -> wfm 2 2 (f P)) by (intros; unfold f; wf_solve).
  assert (IA : forall X Y : op, wfm 2 2 X -> wfm 2 2 Y -> op_iadd X (ODense Y) = Ok (madd (S:=S) X Y)).
  { intros X Y HX HY. exact (@op_add_dense F 2 2 X Y HX HY). }
  fold (f (pauli_x F)) (f (pauli_z F)) (f (pauli_y F)) (f (mid (S:=S) 2)).
  assert (Ef : forall P, wfm 2 2 P -> mtrace (S:=S) (f P) = quad P.[0,0] P.[0,1] P.[1,0] P.[1,1] A.[0,0] A.[0,1] A.[1,0] A.[1,1]) by (intros; now apply trace_quad).
  clearbody f. pose proof (Wf _ WX) as W1. pose proof (Wf _ WZ) as W2. pose proof (Wf _ WY) as W3. pose proof (Wf _ WI) as W4.
  pose proof (@wfm_madd S 2 2 _ (f (pauli_z F)) W1) as W12. pose proof (@wfm_madd S 2 2 _ (f (pauli_y F)) W12) as W123.
  rewrite (IA _ _ W1 W2). cbn [bind]. rewrite (IA _ _ W12 W3). cbn [bind]. rewrite (IA _ _ W123 W4). cbn [bind].
  assert (TR : op_tr (madd (S:=S) (madd (S:=S) (madd (S:=S) (f (pauli_x F)) (f (pauli_z F))) (f (pauli_y F))) (f (mid (S:=S) 2))) = cmul (cofk (kofnat 2)) (cofk (cnorm2 (mtrace (S:=S) A)))).
  { unfold op_tr. rewrite (@mtrace_madd S 2 _ _ W123 W4), (@mtrace_madd S 2 _ _ W12 W3), (@mtrace_madd S 2 _ _ W1 W2).
    rewrite (Ef _ WX), (Ef _ WY), (Ef _ WZ), (Ef _ WI). rewrite (@mtrace_sq S 2 A) by auto. cbn [sumn].
    change (mg (pauli_x F) 0 0) with (c0 : C). change (mg (pauli_x F) 0 1) with (c1 : C). change (mg (pauli_x F) 1 0) with (c1 : C). change (mg (pauli_x F) 1 1) with (c0 : C).
    change (mg (pauli_y F) 0 0) with (c0 : C). change (mg (pauli_y F) 0 1) with (copp ci : C). change (mg (pauli_y F) 1 0) with (ci : C). change (mg (pauli_y F) 1 1) with (c0 : C).
    change (mg (pauli_z F) 0 0) with (c1 : C). change (mg (pauli_z F) 0 1) with (c0 : C). change (mg (pauli_z F) 1 0) with (c0 : C). change (mg (pauli_z F) 1 1) with (copp c1 : C).
    change (mg (mid (S:=S) 2) 0 0) with (c1 : C). change (mg (mid (S:=S) 2) 0 1) with (c0 : C). change (mg (mid (S:=S) 2) 1 0) with (c0 : C). change (mg (mid (S:=S) 2) 1 1) with (c1 : C).
    rewrite qX, qY, qZ, qI. tocplx. apply q_sum. }
  rewrite TR. f_equal.
  assert (EO : cnorm2 (mtrace (S:=S) A) = cnorm2 (mat_overlap 2 V U)).
  { unfold A. rewrite (hs_trace HU HV). rewrite overlap_hs, !hs_flat. rewrite <- cnorm2_conj. now rewrite vinner_conj. }
  rewrite EO. unfold fid. set (z := cnorm2 _). clearbody z.
  pose proof (@kofnat_neq0 F 2 ltac:(discriminate)) as N2. pose proof (@kofnat_neq0 F 3 ltac:(discriminate)) as N3. pose proof (@kofnat_neq0 F 12 ltac:(discriminate)) as N12.
  assert (E4 : kofnat 4 = kofnat 2 * kofnat 2 :> F) by exact (@kofnat_mul F 2 2). assert (E12 : kofnat 12 = kofnat 2 * kofnat 2 * kofnat 3 :> F) by (change 12%nat with (2 * 2 * 3)%nat; rewrite !kofnat_mul; reflexivity).
  rewrite E4, E12. rewrite <- cofk_mul, <- cofk_add. rewrite <- cofk_div.
  - f_equal. field. repeat split; auto.
  - intros Z. apply kmul_eq0 in Z. destruct Z as [Z|Z]; auto. apply kmul_eq0 in Z. destruct Z; auto.
Qed.
Lemma agf_dim U V n m : is_matrix n m U -> n <> 2%nat -> average_gate_fidelity U V = Err NotImplementedError.
Proof. rewrite is_matrix_wfm. intros HU N. unfold average_gate_fidelity, orthogonal_set. rewrite (wfm_nr HU). apply Nat.eqb_neq in N. rewrite N. reflexivity. Qed.
End PC2.
