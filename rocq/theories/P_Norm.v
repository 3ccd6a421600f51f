(** Proofs for C88: norms of operators. *)
Require Import List Arith Lia Bool ZArith Reals Lra.
From Verif Require Import LibBase LibRing LibArr LibCplx LibMat LibNorm LibDeriv LibSeries M_Matrix S_Linear P_Linear P_Matrix P_Svd M_Norm S_Norm
  M_Transfer S_Transfer M_Amplitude M_Solver S_Solver S_Sensitive P_Solver7 P_Sensitive P_Sensitive3.
Import ListNotations.
Local Open Scope res_scope.
Set Implicit Arguments.

Section Norm.
Add Field Cfield_no : (c_field RField).
Variable la : LinAlg RField.
Notation op := (op RField).
Notation mm := (mmul (S:=RS)).
Notation md := (mdag (S:=RS)).
Notation hsn := (hsnorm2 (F:=RField)).
Notation fz m n A := (sqrt (hsn m n A)).

(** ---- sums of reals ---- *)
Lemma rsum_le n (f g : nat -> R) : (forall i, i < n -> (f i <= g i)%R) -> (RSum n f <= RSum n g)%R.
Proof. intros H. induction n; cbn [sumn]; [cbn; lra|]. assert (H1 := IHn (fun i Hi => H i ltac:(lia))). assert (H2 := H n ltac:(lia)). cbn in *. lra. Qed.
Lemma rsum_ext n (f g : nat -> R) : (forall i, i < n -> f i = g i) -> RSum n f = RSum n g.
Proof. exact (@sumn_ext (KStar RField) n f g). Qed.
Lemma rsum_plus n (f g : nat -> R) : RSum n (fun i => f i + g i)%R = (RSum n f + RSum n g)%R.
Proof. induction n; cbn [sumn]; [cbn; lra|]. rewrite IHn. cbn. lra. Qed.
Lemma rsum_scale n (c : R) (f : nat -> R) : RSum n (fun i => c * f i)%R = (c * RSum n f)%R.
Proof. induction n; cbn [sumn]; [cbn; lra|]. rewrite IHn. cbn. lra. Qed.
Lemma rsum_term n (f : nat -> R) k : (forall i, i < n -> (0 <= f i)%R) -> k < n -> (f k <= RSum n f)%R.
Proof.
  intros H Hk. induction n; [lia|]. cbn [sumn]. assert (P : (0 <= RSum n f)%R) by (apply rsum_pos; intros; apply H; lia).
  assert (Q := H n ltac:(lia)). destruct (Nat.eq_dec k n) as [->|N]; [cbn in *; lra|]. assert (G := IHn (fun i Hi => H i ltac:(lia)) ltac:(lia)). cbn in *. lra.
Qed.
Lemma rsum_zero n (f : nat -> R) : (forall i, i < n -> (0 <= f i)%R) -> RSum n f = 0%R -> forall i, i < n -> f i = 0%R.
Proof. intros H E i Hi. pose proof (@rsum_term n f i H Hi). pose proof (H i Hi). lra. Qed.
Lemma mod_pos z : (0 <= modulus z)%R.
Proof. apply sqrt_pos. Qed.
Lemma mod_sq z : (modulus z * modulus z)%R = cnorm2 z.
Proof. exact (cabs_sq z). Qed.
Lemma mod_mul z w : modulus (cmul z w) = (modulus z * modulus w)%R.
Proof. change (sqrt (cnorm2 (cmul z w)) = sqrt (cnorm2 z) * sqrt (cnorm2 w))%R. rewrite cnorm2_mul. apply sqrt_mult; destruct z, w; unfold cnorm2; cbn; nra. Qed.
Lemma mod_conj z : modulus (cconj z) = modulus z.
Proof. change (sqrt (cnorm2 (cconj z)) = sqrt (cnorm2 z)). now rewrite cnorm2_conj. Qed.
Lemma mod_0 : modulus c0 = 0%R.
Proof. unfold modulus. cbn. replace (0 * 0 + 0 * 0)%R with 0%R by ring. apply sqrt_0. Qed.
Lemma mod_eq0 z : modulus z = 0%R -> z = c0.
Proof. intros H. apply (@cnorm2_eq0 RField). rewrite <- mod_sq, H. cbn. ring. Qed.
Lemma mod_sum n (f : nat -> RC) : (modulus (sumn (S:=RS) n f) <= RSum n (fun i => modulus (f i)))%R.
Proof. induction n; cbn [sumn]; [right; apply mod_0|]. eapply Rle_trans; [apply (cabs_tri (sumn (S:=RS) n f) (f n))|]. apply Rplus_le_compat; [exact IHn|]. right. reflexivity. Qed.

(** ---- largest and smallest ---- *)
Lemma fold_max (l : list R) : forall x, (forall y, In y (x :: l) -> (y <= fold_left Rmax l x)%R) /\ In (fold_left Rmax l x) (x :: l).
Proof.
  induction l as [|a l IH]; intros x; [cbn; split; [intros y [<-|[]]; lra|auto]|]. cbn [fold_left]. destruct (IH (Rmax x a)) as [H1 H2]. split.
  - intros y [<-|[<-|Hy]]; [|..|apply H1; now right]; (eapply Rle_trans; [|apply H1; now left]); [apply Rmax_l|apply Rmax_r].
  - destruct H2 as [H2|H2]; [|right; right; exact H2]. rewrite <- H2. unfold Rmax. destruct (Rle_dec x a); [right; now left|now left].
Qed.
Lemma fold_min (l : list R) : forall x, (forall y, In y (x :: l) -> (fold_left Rmin l x <= y)%R) /\ In (fold_left Rmin l x) (x :: l).
Proof.
  induction l as [|a l IH]; intros x; [cbn; split; [intros y [<-|[]]; lra|auto]|]. cbn [fold_left]. destruct (IH (Rmin x a)) as [H1 H2]. split.
  - intros y [<-|[<-|Hy]]; [|..|apply H1; now right]; (eapply Rle_trans; [apply H1; now left|]); [apply Rmin_l|apply Rmin_r].
  - destruct H2 as [H2|H2]; [|right; right; exact H2]. rewrite <- H2. unfold Rmin. destruct (Rle_dec x a); [now left|right; now left].
Qed.
Lemma np_max_ok n (f : nat -> R) : 0 < n -> exists x, np_max (map f (seq 0 n)) = Ok x /\ largest n f x.
Proof.
  intros Hn. destruct n; [lia|]. cbn [seq map np_max]. eexists. split; [reflexivity|]. destruct (fold_max (map f (seq 1 n)) (f 0)) as [H1 H2]. split.
  - change (In (fold_left Rmax (map f (seq 1 n)) (f 0)) (map f (seq 0 (S n)))) in H2. apply in_map_iff in H2. destruct H2 as (k & E & Hk). exists k. split; auto. apply in_seq in Hk. lia.
  - intros k Hk. apply H1. change (In (f k) (map f (seq 0 (S n)))). apply in_map. apply in_seq. lia.
Qed.
Lemma np_min_ok n (f : nat -> R) : 0 < n -> exists x, np_min (map f (seq 0 n)) = Ok x /\ smallest n f x.
Proof.
  intros Hn. destruct n; [lia|]. cbn [seq map np_min]. eexists. split; [reflexivity|]. destruct (fold_min (map f (seq 1 n)) (f 0)) as [H1 H2]. split.
  - change (In (fold_left Rmin (map f (seq 1 n)) (f 0)) (map f (seq 0 (S n)))) in H2. apply in_map_iff in H2. destruct H2 as (k & E & Hk). exists k. split; auto. apply in_seq in Hk. lia.
  - intros k Hk. apply H1. change (In (f k) (map f (seq 0 (S n)))). apply in_map. apply in_seq. lia.
Qed.

(** ---- what is computed ---- *)
Lemma fro_ok m n (A : op) : wfm m n A -> op_norm la NFro A = Ok (fz m n A).
Proof.
  intros W. pose proof W as [W1 W2]. unfold op_norm. f_equal. f_equal. replace (length (data A)) with (m * n) by (rewrite W2; cbn; lia). rewrite (@sumn_mul_split (KStar RField) m n). unfold hsnorm2. apply rsum_ext. intros i Hi. apply rsum_ext. intros j Hj.
  f_equal. unfold mg, get2, getn. rewrite W1. simpl. f_equal. lia.
Qed.
Lemma one_list m n (A : op) : wfm m n A -> op_norm la (NInt 1) A = np_max (map (column_sum m A) (seq 0 n)).
Proof. intros W. cbn [op_norm]. unfold col_sums. rewrite (wfm_nc W), (wfm_nr W). reflexivity. Qed.
Lemma inf_list m n (A : op) : wfm m n A -> op_norm la NInf A = np_max (map (row_sum n A) (seq 0 m)).
Proof. intros W. cbn [op_norm]. unfold row_sums. rewrite (wfm_nc W), (wfm_nr W). reflexivity. Qed.
Lemma row_dag m n (A : op) j : wfm m n A -> j < n -> row_sum m (md A) j = column_sum m A j.
Proof. intros W Hj. unfold row_sum, column_sum. apply rsum_ext. intros i Hi. rewrite (@mg_mdag RS m n) by auto. apply mod_conj. Qed.
Lemma col_dag m n (A : op) i : wfm m n A -> i < m -> column_sum n (md A) i = row_sum n A i.
Proof. intros W Hi. unfold row_sum, column_sum. apply rsum_ext. intros j Hj. rewrite (@mg_mdag RS m n) by auto. apply mod_conj. Qed.
Lemma inf_one m n (A : op) : wfm m n A -> op_norm la NInf A = op_norm la (NInt 1) (md A).
Proof.
  intros W. rewrite (inf_list W), (@one_list n m) by wf_solve. f_equal. apply map_ext_in. intros i Hi. apply in_seq in Hi. symmetry. apply (col_dag W). lia.
Qed.
Lemma one_inf m n (A : op) : wfm m n A -> op_norm la (NInt 1) A = op_norm la NInf (md A).
Proof.
  intros W. rewrite (one_list W), (@inf_list n m) by wf_solve. f_equal. apply map_ext_in. intros i Hi. apply in_seq in Hi. symmetry. apply (row_dag W). lia.
Qed.
Lemma one_ok m n (A : op) x : wfm m n A -> op_norm la (NInt 1) A = Ok x -> largest n (column_sum m A) x.
Proof.
  intros W H. rewrite (one_list W) in H. destruct n; [discriminate|]. destruct (@np_max_ok (S n) (column_sum m A)) as (y & E & L); [lia|]. rewrite E in H. injection H as <-. exact L.
Qed.
Lemma one_ex m n (A : op) : wfm m n A -> 0 < n -> exists x, op_norm la (NInt 1) A = Ok x /\ largest n (column_sum m A) x.
Proof. intros W Hn. rewrite (one_list W). now apply np_max_ok. Qed.

Lemma frobenius_value m n (A : op) : is_matrix (S:=RS) m n A -> exists x, op_norm la NFro A = Ok x /\ op_norm la NDefault A = Ok x /\ frobenius_norm m n A x.
Proof.
  intros W. apply is_matrix_wfm in W. exists (fz m n A). split; [now apply fro_ok|]. split; [exact (fro_ok W)|]. split; [apply sqrt_pos|]. rewrite sqrt_sqrt by (apply r_leb_le; exact (@hsnorm2_nonneg RField m n A)).
  unfold hsnorm2. apply rsum_ext. intros i Hi. apply rsum_ext. intros j Hj. symmetry. apply mod_sq.
Qed.
Lemma sums_value m n (A : op) : is_matrix (S:=RS) m n A -> 0 < m -> 0 < n ->
  (exists x, op_norm la (NInt 1) A = Ok x /\ largest n (column_sum m A) x) /\ (exists x, op_norm la (NInt (-1)) A = Ok x /\ smallest n (column_sum m A) x) /\
  (exists x, op_norm la NInf A = Ok x /\ largest m (row_sum n A) x) /\ (exists x, op_norm la NMinf A = Ok x /\ smallest m (row_sum n A) x).
Proof.
  intros W Hm Hn. apply is_matrix_wfm in W. cbn [op_norm]. unfold col_sums, row_sums. rewrite (wfm_nc W), (wfm_nr W).
  split; [exact (np_max_ok _ Hn)|]. split; [exact (np_min_ok _ Hn)|]. split; [exact (np_max_ok _ Hm)|exact (np_min_ok _ Hm)].
Qed.

(** ---- zero ---- *)
Lemma hs_zero m n (A : op) : hsn m n A = 0%R -> forall i j, i < m -> j < n -> mg (A : mat RS) i j = c0.
Proof.
  intros H i j Hi Hj. unfold hsnorm2 in H. assert (P : forall i j, (0 <= cnorm2 (mg (A : mat RS) i j))%R) by (intros; rewrite <- mod_sq; apply Rmult_le_pos; apply mod_pos).
  assert (H1 := @rsum_zero m (fun i => RSum n (fun j => cnorm2 (mg (A : mat RS) i j))) (fun i _ => @rsum_pos n _ (fun j _ => P i j)) H i Hi). cbn beta in H1.
  apply (@cnorm2_eq0 RField). exact (@rsum_zero n (fun j => cnorm2 (mg (A : mat RS) i j)) (fun j _ => P i j) H1 j Hj).
Qed.
Lemma one_zero m n (A : op) x : wfm m n A -> op_norm la (NInt 1) A = Ok x -> (x = 0%R <-> forall i j, i < m -> j < n -> mg (A : mat RS) i j = c0).
Proof.
  intros W H. pose proof (one_ok W H) as ((k & Hk & E) & M). split.
  - intros -> i j Hi Hj. assert (Q : column_sum m A j = 0%R). { apply Rle_antisym; [now apply M|]. apply rsum_pos. intros; apply mod_pos. }
    apply mod_eq0. exact (@rsum_zero m (fun i => modulus (mg (A : mat RS) i j)) (fun i _ => mod_pos _) Q i Hi).
  - intros Z. rewrite <- E. unfold column_sum. transitivity (RSum m (fun _ => 0%R)); [apply rsum_ext; intros i Hi; rewrite Z by auto; apply mod_0|]. clear. induction m; cbn [sumn]; auto. rewrite IHm. cbn. lra.
Qed.
Lemma zero_iff o m n (A : op) x : simple_ord o -> is_matrix (S:=RS) m n A -> op_norm la o A = Ok x -> (0 <= x)%R /\ (x = 0%R <-> forall i j, i < m -> j < n -> A.[i,j] = c0).
Proof.
  assert (P1 : forall m n (A : op) x, wfm m n A -> op_norm la (NInt 1) A = Ok x -> (0 <= x)%R).
  { intros m' n' A' x' W H. destruct (one_ok W H) as ((k & Hk & <-) & _). apply rsum_pos. intros; apply mod_pos. }
  intros [->|[->| ->]] W H; apply is_matrix_wfm in W.
  - rewrite (fro_ok W) in H. injection H as <-. split; [apply sqrt_pos|]. split.
    + intros E. apply hs_zero. apply sqrt_eq_0; auto. apply r_leb_le. exact (@hsnorm2_nonneg RField m n A).
    + intros Z. assert (E : hsn m n A = 0%R); [|rewrite E; apply sqrt_0]. unfold hsnorm2. transitivity (RSum m (fun _ => 0%R)).
      { apply rsum_ext. intros i Hi. transitivity (RSum n (fun _ => 0%R)); [apply rsum_ext; intros j Hj; rewrite Z by auto; unfold cnorm2; cbn; ring|]. clear. induction n; cbn [sumn]; auto. rewrite IHn. cbn. lra. }
      clear. induction m; cbn [sumn]; auto. rewrite IHm. cbn. lra.
  - split; [eapply P1; eauto|]. now apply one_zero.
  - rewrite (inf_one W) in H. split; [eapply P1; [|exact H]; wf_solve|]. rewrite (@one_zero n m (md A)) by (auto; wf_solve). split; intros Z i j Hi Hj.
    + specialize (Z j i Hj Hi). rewrite (@mg_mdag RS m n) in Z by auto. apply (f_equal (fun z : RC => cconj z)) in Z. cbn in Z. rewrite cconj_cconj in Z. rewrite Z. unfold cconj, c0. cbn. f_equal. ring.
    + rewrite (@mg_mdag RS m n) by auto. rewrite Z by auto. cbn. unfold cconj, c0. cbn. f_equal. ring.
Qed.
(** ---- multiples ---- *)
Lemma fz_size m n (A : op) : fz m n A = size (m * n) (flat (F:=RField) n A).
Proof. rewrite hsnorm2_flat. reflexivity. Qed.
Lemma kmn m n k : k < m * n -> k / n < m /\ k mod n < n.
Proof. intros H. assert (n <> 0) by (intros ->; lia). split; [apply Nat.div_lt_upper_bound; lia|now apply Nat.mod_upper_bound]. Qed.
Lemma fro_scale m n c (A : op) : wfm m n A -> fz m n (mscale (S:=RS) c A) = (modulus c * fz m n A)%R.
Proof.
  intros W. rewrite !fz_size. change (modulus c) with (sqrt (cnorm2 c)). rewrite <- size_scale. apply size_ext. intros k Hk. apply kmn in Hk. unfold flat. now rewrite (@mg_mscale RS m n) by (auto; apply Hk).
Qed.
Lemma largest_scale n f x c : (0 <= c)%R -> largest n f x -> largest n (fun k => c * f k)%R (c * x)%R.
Proof. intros Hc ((k & Hk & E) & M). split; [exists k; split; [auto|now rewrite E]|]. intros i Hi. apply Rmult_le_compat_l; auto. Qed.
Lemma largest_unique n f g x y : (forall k, k < n -> f k = g k) -> largest n f x -> largest n g y -> x = y.
Proof.
  intros H ((k & Hk & E) & M) ((k' & Hk' & E') & M'). apply Rle_antisym; [rewrite <- E, (H k Hk); now apply M'|rewrite <- E', <- (H k' Hk'); now apply M].
Qed.
Lemma one_scale m n c (A : op) x : wfm m n A -> op_norm la (NInt 1) A = Ok x -> op_norm la (NInt 1) (mscale (S:=RS) c A) = Ok (modulus c * x)%R.
Proof.
  intros W H. pose proof (one_ok W H) as L. assert (Hn : 0 < n) by (destruct L as ((k & Hk & _) & _); lia).
  assert (W' : wfm m n (mscale (S:=RS) c A)) by wf_solve. destruct (one_ex W' Hn) as (y & E & L'). rewrite E. f_equal. refine (largest_unique _ L' (largest_scale (mod_pos c) L)).
  intros k Hk. cbn beta. unfold column_sum. rewrite <- rsum_scale. apply rsum_ext. intros i Hi. rewrite (@mg_mscale RS m n) by auto. apply mod_mul.
Qed.
Lemma md_scale m n c (A : op) : wfm m n A -> md (mscale (S:=RS) c A) = mscale (S:=RS) (cconj c) (md A).
Proof. intros W. apply (@mat_ext RS n m); [wf_solve|wf_solve|]. intros i j Hi Hj. rewrite (@mg_mdag RS m n), (@mg_mscale RS m n), (@mg_mscale RS n m), (@mg_mdag RS m n) by (auto; wf_solve). exact (cconj_mul _ _). Qed.
Lemma scaled o m n c (A B : op) x : simple_ord o -> is_matrix (S:=RS) m n A -> op_norm la o A = Ok x -> op_mul (F:=RField) A (OScal c) = Ok B -> op_norm la o B = Ok (modulus c * x)%R.
Proof.
  intros P W H E. apply is_matrix_wfm in W. cbn in E. injection E as <-. destruct P as [->|[->| ->]].
  - rewrite (fro_ok W) in H. injection H as <-. rewrite (@fro_ok m n) by wf_solve. f_equal. now apply fro_scale.
  - now apply (one_scale c W).
  - rewrite (inf_one W) in H. rewrite (@inf_one m n) by wf_solve. rewrite (md_scale _ W). rewrite <- (mod_conj c). apply (@one_scale n m); auto. wf_solve.
Qed.
(** ---- triangle ---- *)
Lemma md_add m n (A B : op) : wfm m n A -> wfm m n B -> md (madd (S:=RS) A B) = madd (S:=RS) (md A) (md B).
Proof. intros W W'. apply (@mat_ext RS n m); [wf_solve|wf_solve|]. intros i j Hi Hj. rewrite (@mg_mdag RS m n), (@mg_madd RS m n), (@mg_madd RS n m), !(@mg_mdag RS m n) by (auto; wf_solve). exact (cconj_add _ _). Qed.
Lemma one_add m n (A B : op) x y : wfm m n A -> wfm m n B -> op_norm la (NInt 1) A = Ok x -> op_norm la (NInt 1) B = Ok y -> exists z, op_norm la (NInt 1) (madd (S:=RS) A B) = Ok z /\ (z <= x + y)%R.
Proof.
  intros WA WB HA HB. pose proof (one_ok WA HA) as [(k0 & Hk0 & _) MA]. pose proof (one_ok WB HB) as [_ MB]. assert (WC : wfm m n (madd (S:=RS) A B)) by wf_solve.
  destruct (one_ex WC ltac:(lia)) as (z & E & (k & Hk & <-) & _). exists (column_sum m (madd (S:=RS) A B) k). split; auto. eapply Rle_trans; [|apply Rplus_le_compat; [exact (MA k Hk)|exact (MB k Hk)]].
  unfold column_sum. rewrite <- rsum_plus. apply rsum_le. intros i Hi. rewrite (@mg_madd RS m n) by auto. exact (cabs_tri _ _).
Qed.
Lemma triangle o m n (A B P : op) x y : simple_ord o -> is_matrix (S:=RS) m n A -> is_matrix (S:=RS) m n B -> op_norm la o A = Ok x -> op_norm la o B = Ok y -> op_add (F:=RField) A (ODense B) = Ok P ->
  exists z, op_norm la o P = Ok z /\ (z <= x + y)%R.
Proof.
  intros O WA WB HA HB E. apply is_matrix_wfm in WA, WB. rewrite (op_add_dense WA WB) in E. injection E as <-. destruct O as [->|[->| ->]].
  - rewrite (fro_ok WA) in HA. rewrite (fro_ok WB) in HB. injection HA as <-. injection HB as <-. rewrite (@fro_ok m n) by wf_solve. eexists. split; [reflexivity|]. rewrite !fz_size.
    eapply Rle_trans; [|apply size_add]. right. apply size_ext. intros k Hk. apply kmn in Hk. unfold flat. now rewrite (@mg_madd RS m n) by (auto; apply Hk).
  - eapply one_add; eauto.
  - rewrite (inf_one WA) in HA. rewrite (inf_one WB) in HB. rewrite (@inf_one m n) by wf_solve. rewrite (md_add WA WB). apply (@one_add n m); auto; wf_solve.
Qed.
(** ---- products ---- *)
Lemma fro_mul m n p (A B : op) : wfm m n A -> wfm n p B -> (fz m p (mm A B) <= fz m n A * fz n p B)%R.
Proof.
  intros WA WB. rewrite <- sqrt_mult by (apply r_leb_le; exact (@hsnorm2_nonneg RField _ _ _)). apply sqrt_le_1_alt. unfold hsnorm2 at 1 3.
  rewrite (@sumn_swap (KStar RField) m p), (@sumn_swap (KStar RField) n p). rewrite <- rsum_scale. apply rsum_le. intros j Hj.
  eapply Rle_trans; [|apply (rows_le n m (fun i k => mg (A : mat RS) i k) (fun k => mg (B : mat RS) k j))]. right. apply rsum_ext. intros i Hi. now rewrite (@mg_mmul RS m n p) by auto.
Qed.
Lemma one_mul m n p (A B : op) x y : wfm m n A -> wfm n p B -> op_norm la (NInt 1) A = Ok x -> op_norm la (NInt 1) B = Ok y -> exists z, op_norm la (NInt 1) (mm A B) = Ok z /\ (z <= x * y)%R.
Proof.
  intros WA WB HA HB. pose proof (one_ok WA HA) as [(q & Hq & EQ) MA]. pose proof (one_ok WB HB) as [(k0 & Hk0 & _) MB]. assert (WC : wfm m p (mm A B)) by wf_solve.
  destruct (one_ex WC ltac:(lia)) as (z & E & (k & Hk & <-) & _). exists (column_sum m (mm A B) k). split; auto.
  assert (Px : (0 <= x)%R) by (rewrite <- EQ; apply rsum_pos; intros; apply mod_pos).
  apply Rle_trans with (x * column_sum n B k)%R; [|apply Rmult_le_compat_l; [exact Px|exact (MB k Hk)]].
  apply Rle_trans with (RSum m (fun i => RSum n (fun l => modulus (mg (A : mat RS) i l) * modulus (mg (B : mat RS) l k))%R)).
  - apply rsum_le. intros i Hi. rewrite (@mg_mmul RS m n p) by auto. eapply Rle_trans; [apply mod_sum|]. right. apply rsum_ext. intros l Hl. apply mod_mul.
  - rewrite (@sumn_swap (KStar RField) m n). unfold column_sum. rewrite <- rsum_scale. apply rsum_le. intros l Hl.
    rewrite (@rsum_ext m _ (fun i => modulus (mg (B : mat RS) l k) * modulus (mg (A : mat RS) i l))%R) by (intros; apply Rmult_comm). rewrite rsum_scale, Rmult_comm. apply Rmult_le_compat_r; [apply mod_pos|exact (MA l Hl)].
Qed.
Lemma product o m n p (A B P : op) x y : simple_ord o -> is_matrix (S:=RS) m n A -> is_matrix (S:=RS) n p B -> op_norm la o A = Ok x -> op_norm la o B = Ok y -> op_mul (F:=RField) A (ODense B) = Ok P ->
  exists z, op_norm la o P = Ok z /\ (z <= x * y)%R.
Proof.
  intros O WA WB HA HB E. apply is_matrix_wfm in WA, WB. rewrite (op_mul_dense WA WB) in E. injection E as <-. destruct O as [->|[->| ->]].
  - rewrite (fro_ok WA) in HA. rewrite (fro_ok WB) in HB. injection HA as <-. injection HB as <-. rewrite (@fro_ok m p) by wf_solve. eexists. split; [reflexivity|]. now apply fro_mul.
  - eapply one_mul; eauto.
  - rewrite (inf_one WA) in HA. rewrite (inf_one WB) in HB. rewrite (@inf_one m p) by wf_solve. rewrite (@mdag_mmul RS m n p) by auto.
    destruct (@one_mul p n m (md B) (md A) y x) as (z & E & L); auto; try wf_solve. exists z. split; auto. now rewrite Rmult_comm.
Qed.
(** ---- adjoint, conjugate, transpose ---- *)
Lemma hs_dag m n (A : op) : wfm m n A -> hsn n m (md A) = hsn m n A.
Proof. intros W. unfold hsnorm2. rewrite (@sumn_swap (KStar RField) n m). apply rsum_ext. intros i Hi. apply rsum_ext. intros j Hj. rewrite (@mg_mdag RS m n) by auto. exact (@cnorm2_conj RField _). Qed.
Lemma adjoint m n (A : op) : is_matrix (S:=RS) m n A ->
  op_norm la NFro (op_dag (F:=RField) A) = op_norm la NFro A /\ op_norm la (NInt 1) (op_dag (F:=RField) A) = op_norm la NInf A /\ op_norm la NInf (op_dag (F:=RField) A) = op_norm la (NInt 1) A.
Proof.
  intros W. apply is_matrix_wfm in W. rewrite (op_dag_mdag W). split; [|split].
  - rewrite (fro_ok W), (@fro_ok n m) by wf_solve. now rewrite (hs_dag W).
  - symmetry. exact (inf_one W).
  - symmetry. exact (one_inf W).
Qed.
(** ---- Kronecker products ---- *)
Lemma kron_norm m n p q (A B P : op) x y : is_matrix (S:=RS) m n A -> is_matrix (S:=RS) p q B -> op_norm la NFro A = Ok x -> op_norm la NFro B = Ok y -> op_kron (F:=RField) A (ODense B) = Ok P -> op_norm la NFro P = Ok (x * y)%R.
Proof.
  intros WA WB HA HB E. apply is_matrix_wfm in WA, WB. cbn in E. injection E as <-. rewrite (fro_ok WA) in HA. rewrite (fro_ok WB) in HB. injection HA as <-. injection HB as <-.
  rewrite (@fro_ok (m * p) (n * q)) by wf_solve. f_equal. rewrite <- sqrt_mult by (apply r_leb_le; exact (@hsnorm2_nonneg RField _ _ _)). f_equal. unfold hsnorm2.
  rewrite (@sumn_mul_split (KStar RField) m p). transitivity (RSum m (fun a => RSum n (fun c => cnorm2 (mg (A : mat RS) a c)) * RSum p (fun b => RSum q (fun d => cnorm2 (mg (B : mat RS) b d))))%R).
  - apply rsum_ext. intros a Ha. rewrite <- rsum_scale. apply rsum_ext. intros b Hb. rewrite (@sumn_mul_split (KStar RField) n q). rewrite Rmult_comm, <- rsum_scale. apply rsum_ext. intros c Hc.
    rewrite Rmult_comm, <- rsum_scale. apply rsum_ext. intros d Hd. rewrite (@mg_mkron' RS m n p q) by auto. exact (@cnorm2_mul RField _ _).
  - rewrite (@rsum_ext m _ (fun a => RSum p (fun b => RSum q (fun d => cnorm2 (mg (B : mat RS) b d))) * RSum n (fun c => cnorm2 (mg (A : mat RS) a c)))%R) by (intros; apply Rmult_comm). rewrite rsum_scale. apply Rmult_comm.
Qed.
(** ---- unitary operators ---- *)
Lemma hs_unitary_l n p (U B : op) : munitary (S:=RS) n U -> wfm n p B -> hsn n p (mm U B) = hsn n p B.
Proof.
  intros (WU & U1 & _) WB. apply (@cofk_inj RField). rewrite !(@hsnorm2_trace RField n p) by wf_solve. f_equal. rewrite (@mdag_mmul RS n n p) by auto.
  rewrite <- (@mmul_assoc RS p n n p (md B) (md U) (mm U B)) by wf_solve. f_equal. rewrite (@mmul_assoc RS n n n p (md U) U B) by wf_solve. rewrite U1. apply (@mmul_1_l RS n p). exact WB.
Qed.
Lemma hs_unitary_r m n (A U : op) : munitary (S:=RS) n U -> wfm m n A -> hsn m n (mm A U) = hsn m n A.
Proof.
  intros (WU & U1 & U2) WA. rewrite <- (@hs_dag m n (mm A U)) by wf_solve. rewrite (@mdag_mmul RS m n n) by auto. rewrite hs_unitary_l; [now apply hs_dag| |wf_solve].
  split; [wf_solve|]. rewrite (@mdag_mdag RS n n) by auto. now split.
Qed.
Lemma unitary_norms n p (U B : op) : is_unitary (S:=RS) n U -> is_matrix (S:=RS) n p B ->
  (forall P, op_mul (F:=RField) U (ODense B) = Ok P -> op_norm la NFro P = op_norm la NFro B) /\
  (forall P, op_mul (F:=RField) (op_dag (F:=RField) B) (ODense U) = Ok P -> op_norm la NFro P = op_norm la NFro B) /\
  op_norm la NFro U = Ok (sqrt (INR n)).
Proof.
  intros HU WB. apply is_unitary_m in HU. apply is_matrix_wfm in WB. pose proof (proj1 HU) as WU. split; [|split].
  - intros P E. rewrite (op_mul_dense WU WB) in E. injection E as <-. rewrite (fro_ok WB), (@fro_ok n p) by wf_solve. now rewrite (hs_unitary_l HU WB).
  - intros P E. rewrite (op_dag_mdag WB) in E. rewrite (@op_mul_dense RField p n n) in E by wf_solve. injection E as <-. rewrite (fro_ok WB), (@fro_ok p n) by wf_solve. rewrite hs_unitary_r by (auto; wf_solve). now rewrite (hs_dag WB).
  - rewrite (fro_ok WU). f_equal. f_equal. rewrite (hsnorm2_unitary HU). clear. induction n; [reflexivity|]. rewrite S_INR. cbn [kofnat]. rewrite <- IHn. cbn. lra.
Qed.
(** ---- traces ---- *)
Lemma trace_bound m n (A B P : op) x y : is_matrix (S:=RS) m n A -> is_matrix (S:=RS) m n B -> op_norm la NFro A = Ok x -> op_norm la NFro B = Ok y ->
  op_mul (F:=RField) (op_dag (F:=RField) A) (ODense B) = Ok P -> (modulus (op_tr (F:=RField) P) <= x * y)%R /\ (A = B -> op_tr (F:=RField) P = cofk ((x * x)%R : RField)).
Proof.
  intros WA WB HA HB E. apply is_matrix_wfm in WA, WB. rewrite (op_dag_mdag WA) in E. rewrite (@op_mul_dense RField n m n) in E by wf_solve. injection E as <-. rewrite (fro_ok WA) in HA. rewrite (fro_ok WB) in HB. injection HA as <-. injection HB as <-.
  unfold op_tr. rewrite (hs_trace WA WB). split.
  - rewrite hs_flat, !fz_size. exact (cs_abs _ _ _).
  - intros <-. rewrite <- hsnorm2_hs. f_equal. symmetry. apply sqrt_sqrt. apply r_leb_le. exact (@hsnorm2_nonneg RField m n A).
Qed.
Lemma vectorised_norm n (A v : op) : is_matrix (S:=RS) n n A -> op_vec (F:=RField) A = Ok v -> op_norm la NFro v = op_norm la NFro A.
Proof.
  intros W E. apply is_matrix_wfm in W. rewrite (op_vec_ok W) in E. injection E as <-. rewrite (fro_ok W), (fro_ok (wfm_mvec W)). f_equal. f_equal. unfold hsnorm2.
  rewrite (@sumn_mul_split (KStar RField) n n), (@sumn_swap (KStar RField) n n). apply rsum_ext. intros i Hi. apply rsum_ext. intros j Hj. cbn [sumn]. rewrite (mg_mvec W) by auto. cbn. lra.
Qed.
End Norm.
