(** The generator of the Lindblad solver implements the master equation. *)
Require Import List Arith Lia Bool Ring Field.
From Verif Require Import LibBase LibRing LibArr LibCplx LibNorm LibMat M_Matrix S_Linear P_Linear P_Matrix M_OpHeap M_Transfer S_Transfer M_Amplitude P_Transfer M_Solver S_Solver S_Lindblad P_Loops P_Solver P_Solver2 P_Solver3 P_Solver4 P_Solver5 P_Solver6 P_Solver7 P_Solver8 P_Solver9.
Import ListNotations.
Open Scope res_scope.
Set Implicit Arguments.

Section Lind.
Variable F : OField.
Notation S := (CStar F).
Notation C := (cplx F).
Notation op := (op F).
Notation Sg := (sumn (S:=CStar F)).
Notation dop := (Arr [] [] : op).
Notation wfs n := (Forall (wfm (S:=S) n n : op -> Prop)).
Add Field Kfield_pl : (k_field F).
Add Field Cfield_pl : (c_field F).

Lemma Sg_ext n (f g : nat -> C) : (forall i, i < n -> f i = g i) -> Sg n f = Sg n g.
Proof. apply (@sumn_ext S). Qed.
Lemma Sg_kd_l n j (f : nat -> C) : j < n -> Sg n (fun b => cmul (kd (S:=S) j b) (f b)) = f j.
Proof. intros H. exact (@sumn_kd_l S n j f H). Qed.
Lemma Sg_swap n m (f : nat -> nat -> C) : Sg n (fun i => Sg m (fun j => f i j)) = Sg m (fun j => Sg n (fun i => f i j)).
Proof. apply (@sumn_swap S). Qed.

(** ---- linearity of the action ---- *)
Lemma app_madd n (M N : op) rho i j : wfm (S:=S) (n * n) (n * n) M -> i < n -> j < n -> apply_super n (madd (S:=S) M N) rho i j = cadd (apply_super n M rho i j) (apply_super n N rho i j).
Proof.
  intros W Hi Hj. unfold apply_super. rewrite csumn_add. apply Sg_ext. intros b Hb. rewrite csumn_add. apply Sg_ext. intros a Ha.
  rewrite (@mg_madd S (n * n) (n * n)) by (auto; now apply join_lt). cring.
Qed.
Lemma app_msub n (M N : op) rho i j : wfm (S:=S) (n * n) (n * n) M -> i < n -> j < n -> apply_super n (msub (S:=S) M N) rho i j = csub (apply_super n M rho i j) (apply_super n N rho i j).
Proof.
  intros W Hi Hj. unfold apply_super. rewrite csumn_sub. apply Sg_ext. intros b Hb. rewrite csumn_sub. apply Sg_ext. intros a Ha.
  rewrite (@mg_msub S (n * n) (n * n)) by (auto; now apply join_lt). cring.
Qed.
Lemma app_mscale n c (M : op) rho i j : wfm (S:=S) (n * n) (n * n) M -> i < n -> j < n -> apply_super n (mscale (S:=S) c M) rho i j = cmul c (apply_super n M rho i j).
Proof.
  intros W Hi Hj. unfold apply_super. rewrite csumn_mul_l. apply Sg_ext. intros b Hb. rewrite csumn_mul_l. apply Sg_ext. intros a Ha.
  rewrite (@mg_mscale S (n * n) (n * n)) by (auto; now apply join_lt). cring.
Qed.
Lemma app_mkron n (X Y : op) rho i j : wfm (S:=S) n n X -> wfm (S:=S) n n Y -> i < n -> j < n ->
  apply_super n (mkron (S:=S) X Y) rho i j = Sg n (fun b => Sg n (fun a => cmul (cmul (mg X j b) (mg Y i a)) (rho a b))).
Proof.
  intros WX WY Hi Hj. unfold apply_super. apply Sg_ext. intros b Hb. apply Sg_ext. intros a Ha. now rewrite (@mg_mkron' S n n n n) by auto.
Qed.
Lemma app_left n (Y : op) rho i j : wfm (S:=S) n n Y -> i < n -> j < n -> apply_super n (mkron (S:=S) (mid (S:=S) n) Y) rho i j = Sg n (fun a => cmul (mg Y i a) (rho a j)).
Proof.
  intros W Hi Hj. rewrite app_mkron by (auto; apply wfm_mid). 
  rewrite (@Sg_ext n _ (fun b => cmul (kd (S:=S) j b) (Sg n (fun a => cmul (mg Y i a) (rho a b))))).
  - now rewrite (@Sg_kd_l n j (fun b => Sg n (fun a => cmul (mg Y i a) (rho a b)))).
  - intros b Hb. rewrite csumn_mul_l. apply Sg_ext. intros a Ha. rewrite (@mg_mid S) by auto. cring.
Qed.
Lemma app_right n (X : op) rho i j : wfm (S:=S) n n X -> i < n -> j < n -> apply_super n (mkron (S:=S) X (mid (S:=S) n)) rho i j = Sg n (fun b => cmul (mg X j b) (rho i b)).
Proof.
  intros W Hi Hj. rewrite app_mkron by (auto; apply wfm_mid). apply Sg_ext. intros b Hb.
  rewrite (@Sg_ext n _ (fun a => cmul (kd (S:=S) i a) (cmul (mg X j b) (rho a b)))).
  - now rewrite (@Sg_kd_l n i (fun a => cmul (mg X j b) (rho a b))).
  - intros a Ha. rewrite (@mg_mid S) by auto. cring.
Qed.

(** ---- in place addition of arrays of one shape ---- *)
Lemma iadd_same m n (A B : op) : wfm (S:=S) m n A -> wfm (S:=S) m n B -> op_iadd A (ODense B) = Ok (madd (S:=S) A B).
Proof. intros WA WB. cbn [op_iadd]. now rewrite (bcast_ok_same WA WB), (bcast_same WA WB). Qed.
Lemma isub_same m n (A B : op) : wfm (S:=S) m n A -> wfm (S:=S) m n B -> op_isub A (ODense B) = Ok (msub (S:=S) A B).
Proof. intros WA WB. cbn [op_isub]. now rewrite (bcast_ok_same WA WB), (bcast_same WA WB). Qed.

(** ---- the dissipator ---- *)
Lemma dissipator_acts n (L : op) : wfm (S:=S) n n L -> exists D, dissipator (mid (S:=S) n) L = Ok D /\ acts_as n D (dissipation n L).
Proof.
  intros W.
  assert (Wc : wfm (S:=S) n n (op_conj L)) by now apply wfm_mconj.
  assert (Wd : wfm (S:=S) n n (op_dag L)) by (apply wfm_mtr; exact Wc).
  assert (Wt : wfm (S:=S) n n (op_transpose L)) by now apply wfm_mtr.
  assert (WN : wfm (S:=S) n n (mmul (S:=S) (op_dag L) L)) by (eapply wfm_mmul; eauto).
  assert (WM : wfm (S:=S) n n (mmul (S:=S) (op_transpose L) (op_conj L))) by (eapply wfm_mmul; eauto).
  assert (Wi : wfm (S:=S) n n (mid (S:=S) n : op)) by apply wfm_mid.
  assert (WK : forall A B : op, wfm (S:=S) n n A -> wfm (S:=S) n n B -> wfm (S:=S) (n * n) (n * n) (mkron (S:=S) A B)) by (intros; now apply wfm_mkron).
  set (d0 := mkron (S:=S) (op_conj L) L). set (a' := mkron (S:=S) (mid (S:=S) n) (mmul (S:=S) (op_dag L) L)). set (b' := mkron (S:=S) (mmul (S:=S) (op_transpose L) (op_conj L)) (mid (S:=S) n)).
  assert (W0 : wfm (S:=S) (n * n) (n * n) d0) by now apply WK. assert (Wa : wfm (S:=S) (n * n) (n * n) a') by now apply WK. assert (Wb : wfm (S:=S) (n * n) (n * n) b') by now apply WK.
  exists (msub (S:=S) (msub (S:=S) d0 (half_op a')) (half_op b')). split.
  - unfold dissipator. cbn [op_kron bind]. fold d0. rewrite (@op_mul_wf F n n n (op_dag L) L) by auto. cbn [bind]. fold a'.
    rewrite (@isub_same (n * n) (n * n) d0 (half_op a')) by (auto; now apply wfm_mscale). cbn [bind].
    rewrite (@op_mul_wf F n n n (op_transpose L) (op_conj L)) by auto. cbn [bind]. fold b'.
    apply (@isub_same (n * n) (n * n)); [now apply wfm_msub|now apply wfm_mscale].
  - split; [apply is_matrix_wfm; now apply wfm_msub, wfm_msub|]. intros rho i j Hi Hj.
    rewrite app_msub by (auto; now apply wfm_msub). rewrite app_msub by auto. unfold half_op. rewrite !app_mscale by auto. unfold d0, a', b'.
    rewrite app_mkron, app_left, app_right by auto. unfold dissipation, chalf.
    assert (E1 : Sg n (fun b => Sg n (fun a => cmul (cmul (mg (op_conj L) j b) (mg L i a)) (rho a b))) = Sg n (fun b => Sg n (fun a => cmul (cmul (mg L i a) (rho a b)) (cconj (mg L j b))))).
    { apply Sg_ext. intros b Hb. apply Sg_ext. intros a Ha. unfold op_conj, op_copy. rewrite (@mg_mconj S n n) by auto. cring. }
    assert (E2 : Sg n (fun a => cmul (mg (mmul (S:=S) (op_dag L) L) i a) (rho a j)) = Sg n (fun a => cmul (number_op n L i a) (rho a j))).
    { apply Sg_ext. intros a Ha. f_equal. rewrite (@mg_mmul S n n n) by auto. unfold number_op. apply Sg_ext. intros l Hl. unfold op_dag, op_copy. rewrite (@mg_mtr S n n), (@mg_mconj S n n) by (auto; now apply wfm_mconj). reflexivity. }
    assert (E3 : Sg n (fun b => cmul (mg (mmul (S:=S) (op_transpose L) (op_conj L)) j b) (rho i b)) = Sg n (fun b => cmul (rho i b) (number_op n L b j))).
    { apply Sg_ext. intros b Hb. rewrite (@mg_mmul S n n n) by auto. unfold number_op. etransitivity; [|apply f_equal; apply Sg_ext; intros l Hl; unfold op_transpose, op_conj, op_copy; reflexivity].
      rewrite csumn_mul_l, csumn_mul_r. apply Sg_ext. intros l Hl. unfold op_transpose, op_conj, op_copy. rewrite (@mg_mtr S n n), (@mg_mconj S n n) by auto. cring. }
    rewrite E1, E2, E3. cring.
Qed.

(** ---- the generator ---- *)
Lemma lind_gen_acts n (g d : op) (h : nat -> nat -> C) (f : (nat -> nat -> C) -> nat -> nat -> C) :
  wfm (S:=S) n n g -> acts_as n d f -> (forall i j, i < n -> j < n -> mg g i j = cmul (copp ci) (h i j)) -> hermitian_fun n h ->
  exists G, lind_gen (mid (S:=S) n) g d = Ok G /\ acts_as n G (fun rho i j => cadd (commutation n h rho i j) (f rho i j)).
Proof.
  intros Wg [Wd Hd] Hg Hh. apply is_matrix_wfm in Wd.
  assert (Wi : wfm (S:=S) n n (mid (S:=S) n : op)) by apply wfm_mid. assert (Wc : wfm (S:=S) n n (op_conj g)) by now apply wfm_mconj.
  assert (Wa : wfm (S:=S) (n * n) (n * n) (mkron (S:=S) (mid (S:=S) n) g)) by now apply wfm_mkron.
  assert (Wb : wfm (S:=S) (n * n) (n * n) (mkron (S:=S) (op_conj g) (mid (S:=S) n))) by now apply wfm_mkron.
  exists (madd (S:=S) (madd (S:=S) (mkron (S:=S) (mid (S:=S) n) g) (mkron (S:=S) (op_conj g) (mid (S:=S) n))) d). split.
  - unfold lind_gen. cbn [op_kron bind]. rewrite (@iadd_same (n * n) (n * n)) by auto. cbn [bind]. apply (@iadd_same (n * n) (n * n)); auto. now apply wfm_madd.
  - split; [apply is_matrix_wfm; now apply wfm_madd, wfm_madd|]. intros rho i j Hi Hj. rewrite app_madd by (auto; now apply wfm_madd). rewrite app_madd by auto.
    rewrite app_left, app_right, Hd by auto. f_equal. unfold commutation.
    rewrite (@Sg_ext n (fun a => cmul (mg g i a) (rho a j)) (fun a => cmul (copp ci) (cmul (h i a) (rho a j)))) by (intros a Ha; rewrite Hg by auto; cring).
    rewrite (@Sg_ext n (fun b => cmul (mg (op_conj g) j b) (rho i b)) (fun b => cmul ci (cmul (rho i b) (h b j)))).
    2: { intros b Hb. unfold op_conj, op_copy. rewrite (@mg_mconj S n n) by auto. rewrite Hg by auto. rewrite (Hh j b) by auto. tocplx. rewrite cconj_mul, cconj_opp, cconj_ci. cring. }
    rewrite <- !csumn_mul_l. cring.
Qed.

(** ---- sums of dissipation super operators ---- *)
Lemma sum_acts n (rest : list op) (c0' d : op) e : wfs (n * n) (c0' :: rest) ->
  foldE (fun acc o => op_iadd acc (ODense o)) rest c0' = (d, e) ->
  e = None /\ acts_as n d (fun rho i j => Sg (length (c0' :: rest)) (fun k => cmul (cofk k1) (apply_super n (nth k (c0' :: rest) dop) rho i j))).
Proof.
  revert c0'. induction rest as [|o rest IH]; intros c0' H E; cbn [foldE] in E.
  - inversion E; subst. split; auto. inversion H; subst. split; [now apply is_matrix_wfm|]. intros rho i j Hi Hj. cbn [length sumn nth]. tocplx. destruct (apply_super n d rho i j). unfold cofk, cmul, cadd, c0. cbn [fst snd]. apply (f_equal2 pair); ring.
  - inversion H as [|? ? W0 H1]; subst. inversion H1 as [|? ? W1 H2]; subst. rewrite (iadd_same W0 W1) in E.
    destruct (IH (madd (S:=S) c0' o)) as [-> [I1 I2]]; [constructor; auto; now apply wfm_madd|exact E|]. split; auto. split; auto.
    intros rho i j Hi Hj. rewrite I2 by auto. cbn [length]. rewrite !(@sumn_S_l S). cbn [nth]. rewrite app_madd by auto. cring.
Qed.
Lemma mapM_dissipator n (ls : list op) : wfs n ls -> exists ds, mapM (dissipator (mid (S:=S) n)) ls = Ok ds /\ length ds = length ls /\ wfs (n * n) ds /\
  forall k rho i j, k < length ls -> i < n -> j < n -> apply_super n (nth k ds dop) rho i j = dissipation n (nth k ls dop) rho i j.
Proof.
  induction 1 as [|L ls W H IH]; cbn [mapM].
  - exists []. repeat split; auto. intros; cbn in *; lia.
  - destruct (dissipator_acts W) as (D & E & A1 & A2). destruct IH as (ds & E2 & L2 & W2 & A3). rewrite E, E2. exists (D :: ds). split; auto. split; [cbn; now rewrite L2|].
    split; [constructor; auto; now apply is_matrix_wfm|]. intros k rho i j Hk Hi Hj. destruct k; cbn [nth]; auto. apply A3; auto. cbn in Hk. lia.
Qed.

Lemma weighted_acts n (const : list op) (fs : list F) D : wfs (n * n) const -> weighted const fs = Ok D -> length fs = length const ->
  acts_as n D (fun rho i j => Sg (length const) (fun k => cmul (cofk (nth k fs k0)) (apply_super n (nth k const dop) rho i j))).
Proof.
  intros W H L. unfold weighted in H. destruct const as [|c0' rest]; [discriminate|]. destruct fs as [|f0 fs]; [discriminate|]. cbn [idx nth_error bind tl] in H.
  inversion W as [|? ? W0 W1]; subst. cbn [length] in L. apply Nat.succ_inj in L.
  assert (G : forall (rest : list op) (fs : list F) (acc D : op), wfs (n * n) rest -> wfm (S:=S) (n * n) (n * n) acc -> length fs = length rest ->
    foldM (fun acc (p : op * F) => op_iadd acc (ODense (mscale (S:=S) (cofk (snd p)) (fst p)))) (combine rest fs) acc = Ok D ->
    wfm (S:=S) (n * n) (n * n) D /\ forall rho i j, i < n -> j < n -> apply_super n D rho i j = cadd (apply_super n acc rho i j) (Sg (length rest) (fun k => cmul (cofk (nth k fs k0)) (apply_super n (nth k rest dop) rho i j)))).
  { clear. induction rest as [|o rest IH]; intros [|f fs] acc D Wr Wa L H; try discriminate; cbn [combine foldM] in H.
    - inversion H; subst. split; auto. intros. cbn. cring.
    - inversion Wr as [|? ? Wo Wr']; subst. cbn [fst snd] in H. assert (Ws : wfm (S:=S) (n * n) (n * n) (mscale (S:=S) (cofk f) o)) by now apply wfm_mscale.
      rewrite (iadd_same Wa Ws) in H. destruct (IH fs (madd (S:=S) acc (mscale (S:=S) (cofk f) o)) D Wr') as [D1 D2]; auto; [now apply wfm_madd|].
      split; auto. intros rho i j Hi Hj. rewrite D2 by auto. rewrite app_madd, app_mscale by auto. cbn [length]. rewrite (@sumn_S_l S). cbn [nth]. cring. }
  destruct (G rest fs _ D W1 (wfm_mscale _ W0) L H) as [D1 D2]. split; [now apply is_matrix_wfm|]. intros rho i j Hi Hj. rewrite D2 by auto. rewrite app_mscale by auto.
  cbn [length]. rewrite (@sumn_S_l S). cbn [nth]. cring.
Qed.

(** ---- trace and Hermiticity ---- *)
Lemma commutation_trace n h rho : Sg n (fun i => commutation (F:=F) n h rho i i) = c0.
Proof.
  unfold commutation. rewrite <- csumn_mul_l, <- csumn_sub.
  rewrite (Sg_swap n n (fun i b => cmul (rho i b) (h b i))).
  rewrite (@Sg_ext n (fun j => Sg n (fun i => cmul (rho i j) (h j i))) (fun i => Sg n (fun a => cmul (h i a) (rho a i)))); [cring|].
  intros i Hi. apply Sg_ext. intros a Ha. cring.
Qed.
Lemma two_halves (x : C) : cmul (cofk (kdiv k1 (kofnat 2))) (cadd x x) = x.
Proof.
  assert (N2 : @kofnat F 2 <> k0). { apply kofnat_neq0. lia. }
  assert (Hh : kadd (kdiv k1 (@kofnat F 2)) (kdiv k1 (@kofnat F 2)) = k1).
  { transitivity (kmul (kdiv k1 (@kofnat F 2)) (kadd k1 k1)); [ring|]. replace (kadd (@k1 F) k1) with (@kofnat F 2) by (cbn; ring). field. exact N2. }
  set (h := kdiv k1 (@kofnat F 2)) in *. clearbody h. destruct x as [a b]. unfold cofk, cmul, cadd; cbn [fst snd]. apply (f_equal2 pair).
  - transitivity (kmul a (kadd h h)); [ring|rewrite Hh; ring].
  - transitivity (kmul b (kadd h h)); [ring|rewrite Hh; ring].
Qed.
Lemma dissipation_trace n (L : op) rho : Sg n (fun i => dissipation n L rho i i) = c0.
Proof.
  unfold dissipation. rewrite <- csumn_sub, <- csumn_mul_l, <- csumn_add.
  assert (E1 : Sg n (fun i => Sg n (fun b => Sg n (fun a => cmul (cmul (mg L i a) (rho a b)) (cconj (mg L i b))))) = Sg n (fun b => Sg n (fun a => cmul (number_op n L b a) (rho a b)))).
  { rewrite Sg_swap. apply Sg_ext. intros b Hb. rewrite Sg_swap. apply Sg_ext. intros a Ha. unfold number_op. rewrite csumn_mul_r. apply Sg_ext. intros i Hi. cring. }
  assert (E2 : Sg n (fun i => Sg n (fun b => cmul (rho i b) (number_op n L b i))) = Sg n (fun i => Sg n (fun a => cmul (number_op n L i a) (rho a i)))).
  { rewrite Sg_swap. apply Sg_ext. intros i Hi. apply Sg_ext. intros a Ha. cring. }
  rewrite E1, E2, two_halves. cring.
Qed.
Lemma Sg_0 n (f : nat -> C) : (forall i, i < n -> f i = c0) -> Sg n f = c0.
Proof. intros H. apply (@sumn_0 S). exact H. Qed.
Lemma master_trace n h (Ls : list op) w rho : Sg n (fun i => master n h Ls w rho i i) = c0.
Proof.
  unfold master. rewrite <- csumn_add, commutation_trace, Sg_swap. rewrite (@Sg_0 (length Ls)); [cring|]. intros k Hk. rewrite <- csumn_mul_l, dissipation_trace. cring.
Qed.

Lemma number_conj n (L : op) i j : cconj (number_op n L i j) = number_op n L j i.
Proof. unfold number_op. rewrite csumn_conj. apply Sg_ext. intros l Hl. rewrite cconj_mul, cconj_cconj. cring. Qed.
Lemma commutation_herm n h rho : hermitian_fun n h -> hermitian_fun n rho -> hermitian_fun (F:=F) n (commutation n h rho).
Proof.
  intros Hh Hr i j Hi Hj. unfold commutation. rewrite cconj_mul, cconj_opp, cconj_ci.
  assert (E : forall x y : C, cconj (csub x y) = csub (cconj x) (cconj y)) by (intros [] []; unfold cconj, csub; cbn; apply (f_equal2 pair); ring). rewrite E, !csumn_conj.
  rewrite (@Sg_ext n (fun a => cconj (cmul (h i a) (rho a j))) (fun b => cmul (rho j b) (h b i))) by (intros a Ha; rewrite cconj_mul, <- (Hh i a), <- (Hr a j) by auto; cring).
  rewrite (@Sg_ext n (fun a => cconj (cmul (rho i a) (h a j))) (fun b => cmul (h j b) (rho b i))) by (intros a Ha; rewrite cconj_mul, <- (Hh a j), <- (Hr i a) by auto; cring).
  cring.
Qed.
Lemma dissipation_herm n (L : op) rho : hermitian_fun n rho -> hermitian_fun (F:=F) n (dissipation n L rho).
Proof.
  intros Hr i j Hi Hj. unfold dissipation.
  assert (E : forall x y : C, cconj (csub x y) = csub (cconj x) (cconj y)) by (intros [] []; unfold cconj, csub; cbn; apply (f_equal2 pair); ring). rewrite E, cconj_mul, cconj_add, cconj_cofk, !csumn_conj.
  f_equal.
  - rewrite Sg_swap. apply Sg_ext. intros b Hb. rewrite csumn_conj. apply Sg_ext. intros a Ha. rewrite !cconj_mul, cconj_cconj, <- (Hr a b) by auto. cring.
  - f_equal. rewrite (@Sg_ext n (fun a => cconj (cmul (number_op n L i a) (rho a j))) (fun b => cmul (rho j b) (number_op n L b i))) by (intros a Ha; rewrite cconj_mul, number_conj, <- (Hr a j) by auto; cring).
    rewrite (@Sg_ext n (fun a => cconj (cmul (rho i a) (number_op n L a j))) (fun b => cmul (number_op n L j b) (rho b i))) by (intros a Ha; rewrite cconj_mul, number_conj, <- (Hr i a) by auto; cring).
    cring.
Qed.
Lemma master_herm n h (Ls : list op) w rho : hermitian_fun n h -> hermitian_fun n rho -> hermitian_fun n (master n h Ls w rho).
Proof.
  intros Hh Hr i j Hi Hj. unfold master. rewrite cconj_add, csumn_conj. rewrite (@commutation_herm n h rho Hh Hr i j) by auto. f_equal. apply Sg_ext. intros k Hk.
  rewrite cconj_mul, cconj_cofk. f_equal. now apply dissipation_herm.
Qed.
Lemma hamiltonian_herm n (h : op) (hs : list op) u : is_hermitian (S:=S) n h -> Forall (is_hermitian (S:=S) n : op -> Prop) hs -> hermitian_fun (F:=F) n (hamiltonian h hs u).
Proof.
  intros [_ Hh] Hs i j Hi Hj. unfold hamiltonian. rewrite cconj_add, csumn_conj, (Hh i j) by auto. f_equal. apply Sg_ext. intros c Hc. rewrite cconj_mul, cconj_cofk. f_equal.
  rewrite Forall_forall in Hs. destruct (Hs (nth c hs dop)) as [_ Hx]; [now apply nth_In|]. apply (Hx i j Hi Hj).
Qed.

(** ---- what the solver propagates ---- *)
Lemma foldE_app {A B} (f : B -> res A) (l : list B) (acc r : list A) : foldE (fun acc t => d <- f t ;; Ok (acc ++ [d])) l acc = (r, None) ->
  exists r', r = acc ++ r' /\ mapM f l = Ok r'.
Proof.
  revert acc. induction l as [|x l IH]; intros acc H; cbn [foldE mapM] in *.
  - inversion H; subst. exists []. now rewrite app_nil_r.
  - destruct (f x) as [y|e]; cbn [bind] in *; [|discriminate]. destruct (IH _ H) as (r' & -> & ->). exists (y :: r'). now rewrite <- app_assoc.
Qed.

Lemma pdiss_acts n (l : @liconf F) (b : @st F) u const ds w : li_func l = None -> const_diss l (s_udiss b) = Ok (Some const) -> wfs (n * n) const -> s_amps b = Some u ->
  rates l u (s_tpars b) (length const) w -> pdiss l b = Ok ds ->
  forall t, t < length ds -> acts_as n (nth t ds dop) (fun rho i j => Sg (length const) (fun k => cmul (cofk (w t k)) (apply_super n (nth k const dop) rho i j))).
Proof.
  intros Hf Hc W Hu Hw H t Ht. unfold pdiss, calc_diss in H. unfold rates in Hw. rewrite Hf, Hc in H. destruct (li_pref l) as [f|].
  - rewrite Hu in H. destruct Hw as (p & Hp & Dp & Hw). rewrite Hp in H.
    destruct (foldE _ (seq 0 (dim0 p)) []) as [ds' [e|]] eqn:E; cbn [snd] in H; [discriminate|]. inversion H; subst ds'.
    apply foldE_app in E. destruct E as (r' & E1 & E). cbn [app] in E1. subst r'.
    assert (L : length ds = dim0 p) by (apply mapM_length in E; now rewrite E, seq_length).
    assert (Q : weighted const (row2 p t) = Ok (nth t ds dop)). { apply (@mapM_seq _ _ _ _ _ dop E). lia. }
    destruct (@weighted_acts n const (row2 p t) (nth t ds dop) W Q) as [A1 A2].
    { unfold row2. now rewrite map_length, seq_length. }
    split; auto. intros rho i j Hi Hj. rewrite A2 by auto. apply Sg_ext. intros k Hk. rewrite Hw. unfold row2. rewrite nth_map_seq by lia. reflexivity.
  - destruct const as [|c0' rest]; [discriminate|]. destruct (foldE _ rest c0') as [d e] eqn:E. destruct (@sum_acts n rest c0' d e W E) as [-> [A1 A2]]. cbn [snd] in H. inversion H; subst ds.
    rewrite repeat_length in Ht. rewrite nth_repeat_lt by auto. split; auto. intros rho i j Hi Hj. rewrite A2 by auto. apply Sg_ext. intros k Hk. now rewrite Hw.
Qed.

Lemma const_ops n (l : @liconf F) U ls const : li_ops l = Some ls -> wfs n ls -> const_diss l U = Ok (Some const) ->
  length const = length ls /\ wfs (n * n) const /\ forall k rho i j, k < length ls -> i < n -> j < n -> apply_super n (nth k const dop) rho i j = dissipation n (nth k ls dop) rho i j.
Proof.
  intros Hl W H. unfold const_diss in H. rewrite Hl in H. destruct ls as [|L0 ls]; [discriminate|]. cbn [idx nth_error bind] in H.
  assert (W0 : wfm (S:=S) n n L0) by now inversion W. unfold op_identity_like in H. rewrite (wfm_nr W0), (wfm_nc W0), Nat.eqb_refl in H. cbn [bind] in H.
  destruct (mapM_dissipator W) as (ds & E & L & Wd & A). rewrite E in H. cbn [bind] in H. inversion H; subst. auto.
Qed.

Variable rexp : F -> F.
Variable la : LinAlg F.
Variable eps : cplx F.

Lemma pgens_lind n (l : @liconf F) (b : @st F) u const ds g w : c_class (s_conf b) = CLindblad l -> li_func l = None -> const_diss l (s_udiss b) = Ok (Some const) -> wfs (n * n) const ->
  Forall (is_hermitian (S:=S) n : op -> Prop) (s_drift b) -> Forall (is_hermitian (S:=S) n : op -> Prop) (c_ctrl (s_conf b)) -> s_amps b = Some u -> dim0 u = length (s_time b) ->
  rates l u (s_tpars b) (length const) w -> pdiss l b = Ok ds -> pgens b = Ok g ->
  forall t, t < length (s_time b) -> t < length g ->
   acts_as n (nth t g dop) (master_super n (hamiltonian (nth t (s_drift b) dop) (c_ctrl (s_conf b)) (fun c => get2 k0 u t c)) const (w t)).
Proof.
  intros Hcl Hf Hc W Hd Hh Hu Du Hw Hds H t Ht Hg. unfold pgens in H. destruct (schr_dyn b) as [g' [e|]] eqn:Es; [discriminate|]. rewrite Hcl, Hds in H. cbn [bind] in H.
  assert (Wd : wfs n (s_drift b)) by (eapply Forall_impl; [|exact Hd]; intros A [HA _]; now apply is_matrix_wfm).
  assert (Wc : wfs n (c_ctrl (s_conf b))) by (eapply Forall_impl; [|exact Hh]; intros A [HA _]; now apply is_matrix_wfm).
  destruct (@schr_dyn_gen F n b u g' Wd Wc Hu Es) as (L & Wg & E). destruct g' as [|g0 g']; [discriminate|]. cbn [idx nth_error bind] in H.
  assert (W0 : wfm (S:=S) n n g0) by now inversion Wg. unfold op_identity_like in H. rewrite (wfm_nr W0), (wfm_nc W0), Nat.eqb_refl in H. cbn [bind] in H.
  set (gs := g0 :: g') in *. destruct (Nat.eqb_spec (length gs) (length ds)) as [L2|]; cbn [bind] in H; [|discriminate].
  assert (L3 : length g = length gs) by (apply mapM_length in H; rewrite combine_length in H; lia).
  assert (Q : lind_gen (mid (S:=S) n) (nth t gs dop) (nth t ds dop) = Ok (nth t g dop)).
  { pose proof (@mapM_nth _ _ _ _ _ (dop, dop) dop H t ltac:(rewrite combine_length; lia)) as K. rewrite combine_nth in K by auto. exact K. }
  pose proof (@pdiss_acts n l b u const ds w Hf Hc W Hu Hw Hds t ltac:(lia)) as Ad.
  assert (Gt : is_generator n (nth t (s_drift b) dop) (c_ctrl (s_conf b)) (fun c => get2 k0 u t c) (nth t gs dop)) by (apply E; lia). destruct Gt as [G1 G2]. apply is_matrix_wfm in G1.
  destruct (@lind_gen_acts n (nth t gs dop) (nth t ds dop) (hamiltonian (nth t (s_drift b) dop) (c_ctrl (s_conf b)) (fun c => get2 k0 u t c)) _ G1 Ad) as (G & EG & AG).
  - intros i j Hi Hj. apply G2; auto.
  - apply hamiltonian_herm; auto. rewrite Forall_forall in Hd. apply Hd, nth_In. lia.
  - assert (G = nth t g dop) by congruence. subst G. exact AG.
Qed.

Lemma pgens_pdiss (l : @liconf F) (b : @st F) g : c_class (s_conf b) = CLindblad l -> pgens b = Ok g -> exists ds, pdiss l b = Ok ds.
Proof.
  intros Hcl A. unfold pgens in A. destruct (schr_dyn b) as [g' [e|]]; [discriminate|]. rewrite Hcl in A. destruct (pdiss l b) as [ds|]; [eauto|discriminate].
Qed.
Lemma used_lindblad_super d (s0 s : @st F) n l Ds u w ps : used rexp la eps d s0 s -> c_class (s_conf s) = CLindblad l -> li_func l = None -> li_ops l = None -> s_udiss s0 = Some Ds ->
  Forall (is_matrix (S:=S) (n * n) (n * n) : op -> Prop) Ds ->
  Forall (is_hermitian (S:=S) n : op -> Prop) (s_drift s) -> Forall (is_hermitian (S:=S) n : op -> Prop) (c_ctrl (s_conf s)) -> amplitudes s u -> rates l u (s_tpars s) (length Ds) w ->
  returns rexp la eps s SPropag (VProp ps) ->
  propagates la s (fun t G => acts_as n G (master_super n (hamiltonian (nth t (s_drift s) dop) (c_ctrl (s_conf s)) (fun c => get2 k0 u t c)) Ds (w t))) ps.
Proof.
  intros HU Hcl Hf Ho HD WD Hd Hh [Hu Du] Hw Hp. destruct (@used_value F rexp la eps d s0 s SPropag _ HU eq_refl Hp) as (g & es & A1 & A2 & ->).
  apply wfs_matrix in WD. apply (@pexps_propagates F la (bare (s_udiss s0) s) g es _ A2). intros t Ht Hg.
  assert (Q : exists ds, pdiss l (bare (s_udiss s0) s) = Ok ds).
  { apply (@pgens_pdiss l (bare (s_udiss s0) s) g); auto. }
  destruct Q as [ds Q]. apply (@pgens_lind n l (bare (s_udiss s0) s) u Ds ds g w); auto. unfold const_diss. rewrite Ho. cbn [s_udiss bare]. now rewrite HD.
Qed.

Lemma acts_as_ext n G f f' : (forall rho i j, i < n -> j < n -> f rho i j = f' rho i j) -> acts_as (F:=F) n G f -> acts_as n G f'.
Proof. intros H [A B]. split; auto. intros. rewrite B; auto. Qed.
Lemma used_lindblad_ops d (s0 s : @st F) n l Ls u w ps : used rexp la eps d s0 s -> c_class (s_conf s) = CLindblad l -> li_func l = None -> li_ops l = Some Ls ->
  Forall (is_matrix (S:=S) n n : op -> Prop) Ls ->
  Forall (is_hermitian (S:=S) n : op -> Prop) (s_drift s) -> Forall (is_hermitian (S:=S) n : op -> Prop) (c_ctrl (s_conf s)) -> amplitudes s u -> rates l u (s_tpars s) (length Ls) w ->
  returns rexp la eps s SPropag (VProp ps) ->
  propagates la s (fun t G => acts_as n G (master n (hamiltonian (nth t (s_drift s) dop) (c_ctrl (s_conf s)) (fun c => get2 k0 u t c)) Ls (w t))) ps.
Proof.
  intros HU Hcl Hf Ho WL Hd Hh [Hu Du] Hw Hp. destruct (@used_value F rexp la eps d s0 s SPropag _ HU eq_refl Hp) as (g & es & A1 & A2 & ->).
  apply wfs_matrix in WL. apply (@pexps_propagates F la (bare (s_udiss s0) s) g es _ A2). intros t Ht Hg.
  assert (Q : exists ds, pdiss l (bare (s_udiss s0) s) = Ok ds).
  { apply (@pgens_pdiss l (bare (s_udiss s0) s) g); auto. }
  destruct Q as [ds Q].
  assert (R : exists const, const_diss l (s_udiss s0) = Ok (Some const)).
  { unfold pdiss, calc_diss in Q. rewrite Hf in Q. cbn [s_udiss bare] in Q. destruct (const_diss l (s_udiss s0)) as [[const|]|]; [eauto|discriminate|discriminate]. }
  destruct R as [const R]. destruct (@const_ops n l (s_udiss s0) Ls const Ho WL R) as (Lc & Wc & Ac).
  eapply acts_as_ext; [|apply (@pgens_lind n l (bare (s_udiss s0) s) u const ds g w); auto; cbn [s_tpars bare]; now rewrite Lc].
  intros rho i j Hi Hj. unfold master_super, master. f_equal. etransitivity; [apply (f_equal (fun m => Sg m _)); exact Lc|]. apply Sg_ext. intros k Hk. now rewrite Ac.
Qed.

(** generators that act like a master equation preserve trace and Hermiticity *)
Lemma acts_trace n G h (Ls : list op) w rho : acts_as n G (master n h Ls w) -> Sg n (fun i => apply_super n G rho i i) = c0.
Proof. intros [_ A]. rewrite (@Sg_ext n _ (fun i => master n h Ls w rho i i)) by (intros; auto). apply master_trace. Qed.
Lemma acts_herm n G h (Ls : list op) w rho : acts_as n G (master n h Ls w) -> hermitian_fun n h -> hermitian_fun n rho -> hermitian_fun n (apply_super n G rho).
Proof. intros [_ A] Hh Hr i j Hi Hj. rewrite !A by auto. now apply master_herm. Qed.
End Lind.
