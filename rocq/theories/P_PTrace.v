(** Partial trace (C04). *)
Require Import List Arith Lia Ring Field Bool Permutation Sorted.
From Verif Require Import LibBase LibRing LibArr LibCplx LibMat LibNorm M_Matrix S_Linear S_PTrace P_Linear P_Matrix.
Import ListNotations.
Set Implicit Arguments.

(** ---- lists ---- *)
Lemma ravel_app s1 s2 x y : length x = length s1 -> ravel (s1 ++ s2) (x ++ y) = ravel s1 x * prodn s2 + ravel s2 y.
Proof.
  revert x. induction s1 as [|d s1 IH]; intros [|a x] H; try discriminate; [reflexivity|].
  cbn [app ravel]. rewrite IH by (cbn in H; lia). rewrite prodn_app. lia.
Qed.
Lemma vidx_app s1 s2 x y : vidx s1 x -> vidx s2 y -> vidx (s1 ++ s2) (x ++ y).
Proof. unfold vidx. apply Forall2_app. Qed.
Lemma vidx_len s x : vidx s x -> length x = length s.
Proof. intros H. induction H; cbn; congruence. Qed.
Lemma vidx_nth s x q : vidx s x -> q < length s -> nth q x 0 < nth q s 0.
Proof.
  intros H. revert q. induction H; intros q Hq; cbn in *; [lia|]. destruct q; auto. apply IHForall2. lia.
Qed.
Lemma vidx_of_nth s x : length x = length s -> (forall q, q < length s -> nth q x 0 < nth q s 0) -> vidx s x.
Proof.
  revert x. induction s as [|d s IH]; intros [|a x] L H; try discriminate; constructor.
  - apply (H 0). cbn. lia.
  - apply IH; [cbn in L; lia|]. intros q Hq. apply (H (Datatypes.S q)). cbn. lia.
Qed.

Lemma index_of_lt p l : In p l -> index_of p l < length l.
Proof.
  induction l as [|a l IH]; cbn; [easy|]. intros [->|H]; [rewrite Nat.eqb_refl; lia|].
  destruct (Nat.eqb a p); [lia|]. specialize (IH H). lia.
Qed.
Lemma index_of_nth p l d : In p l -> nth (index_of p l) l d = p.
Proof.
  induction l as [|a l IH]; cbn; [easy|]. intros [->|H]; [now rewrite Nat.eqb_refl|].
  destruct (Nat.eqb_spec a p); auto. 
Qed.
Lemma index_of_app_l p l l' : In p l -> index_of p (l ++ l') = index_of p l.
Proof.
  induction l as [|a l IH]; cbn; [easy|]. intros H. destruct (Nat.eqb_spec a p); auto.
  destruct H; [contradiction|]. now rewrite IH.
Qed.
Lemma index_of_app_r p l l' : ~ In p l -> index_of p (l ++ l') = length l + index_of p l'.
Proof.
  induction l as [|a l IH]; cbn; [easy|]. intros H. destruct (Nat.eqb_spec a p); [subst; tauto|].
  rewrite IH by tauto. lia.
Qed.
Lemma index_of_map_add n p l : index_of (n + p) (map (fun q => n + q) l) = index_of p l.
Proof.
  induction l as [|a l IH]; cbn; auto. rewrite IH.
  destruct (Nat.eqb_spec (n + a) (n + p)), (Nat.eqb_spec a p); auto; lia.
Qed.
Lemma mem_nat_In p l : mem_nat p l = true <-> In p l.
Proof.
  unfold mem_nat. rewrite existsb_exists. split.
  - intros (x & H & E). apply Nat.eqb_eq in E. now subst.
  - intros H. exists p. now rewrite Nat.eqb_refl.
Qed.
Lemma nodup_nat_NoDup l : nodup_nat l = true <-> NoDup l.
Proof.
  induction l as [|a l IH]; cbn; [split; auto; constructor|]. rewrite andb_true_iff, IH, negb_true_iff. split.
  - intros [H1 H2]. constructor; auto. intros H. apply mem_nat_In in H. congruence.
  - intros H. inversion H; subst. split; auto. destruct (mem_nat a l) eqn:E; auto. apply mem_nat_In in E. contradiction.
Qed.
Lemma insert_perm x l : Permutation (insert_nat x l) (x :: l).
Proof.
  induction l as [|a l IH]; cbn; auto. destruct (Nat.leb x a); auto.
  rewrite IH. apply perm_swap.
Qed.
Lemma sort_perm l : Permutation (sort_nat l) l.
Proof. induction l as [|a l IH]; cbn; auto. rewrite insert_perm. now constructor. Qed.

Lemma kept_keep n removed : kept n removed = ptrace_keep (fun l => l) n removed.
Proof. reflexivity. Qed.
Lemma In_kept n removed q : In q (kept n removed) <-> q < n /\ ~ In q removed.
Proof.
  unfold kept. rewrite filter_In, in_seq, negb_true_iff. split; intros [H1 H2]; (split; [lia|]).
  - intros H. apply mem_nat_In in H. unfold mem_nat in H. congruence.
  - fold (mem_nat q removed). destruct (mem_nat q removed) eqn:E; auto. apply mem_nat_In in E. contradiction.
Qed.
Lemma kept_perm n l l' : Permutation l l' -> kept n l = kept n l'.
Proof.
  intros H. unfold kept. apply filter_ext. intros q. f_equal. fold (mem_nat q l) (mem_nat q l').
  destruct (mem_nat q l) eqn:E, (mem_nat q l') eqn:E'; auto.
  - apply mem_nat_In in E. apply (Permutation_in _ H) in E. apply mem_nat_In in E. congruence.
  - apply mem_nat_In in E'. symmetry in H. apply (Permutation_in _ H) in E'. apply mem_nat_In in E'. congruence.
Qed.
Lemma kept_NoDup n l : NoDup (kept n l).
Proof. apply NoDup_filter, seq_NoDup. Qed.
Lemma removed_kept_perm n removed : NoDup removed -> (forall q, In q removed -> q < n) ->
  Permutation (removed ++ kept n removed) (seq 0 n).
Proof.
  intros H1 H2. apply NoDup_Permutation; [|apply seq_NoDup|].
  - assert (G : forall l1 l2 : list nat, NoDup l1 -> NoDup l2 -> (forall x, In x l1 -> In x l2 -> False) -> NoDup (l1 ++ l2)).
    { induction l1 as [|a l1 IH]; cbn; auto. intros l2 D1 D2 X. inversion D1; subst. constructor.
      - rewrite in_app_iff. intros [H|H]; [auto|]. apply (X a); auto.
      - apply IH; auto. intros x Hx. apply X. auto. }
    apply G; auto using kept_NoDup. intros x Hx Hk. apply In_kept in Hk. tauto.
  - intros x. rewrite in_app_iff, In_kept, in_seq. split.
    + intros [H|H]; [apply H2 in H|]; lia.
    + intros H. destruct (in_dec Nat.eq_dec x removed); [auto|right; split; [lia|auto]].
Qed.

Section P.
Variable F : OField.
Notation C := (cplx F).
Notation S := (CStar F).
Add Field Cfield : (c_field F).

(** ---- sums and products ---- *)
Lemma lprod_app (l l' : list S) : lprod (l ++ l') = cmul (lprod l) (lprod l').
Proof. induction l; cbn [app lprod]; [cring|]. rewrite IHl. cring. Qed.
Lemma lprod_perm (l l' : list S) : Permutation l l' -> lprod l = lprod l'.
Proof.
  induction 1; cbn [lprod]; auto; tocplx; try congruence. ring.
Qed.
Definition lsum (l : list C) : C := fold_right cadd c0 l.
Lemma lsum_perm l l' : Permutation l l' -> lsum l = lsum l'.
Proof.
  unfold lsum. induction 1; cbn [fold_right]; auto; try congruence. ring.
Qed.
Lemma lsum_app l l' : lsum (l ++ l') = cadd (lsum l) (lsum l').
Proof. unfold lsum in *. induction l; cbn [app fold_right]; [ring|]. rewrite IHl. ring. Qed.
Lemma sumn_lsum n (f : nat -> C) : sumn (S:=S) n f = lsum (map f (seq 0 n)).
Proof.
  induction n; [reflexivity|]. rewrite seq_S, map_app, lsum_app. cbn [sumn]. rewrite IHn. unfold lsum at 3. cbn [map fold_right Nat.add]. cring.
Qed.
(** reindexing a sum along a bijection *)
Lemma sumn_bij n (s : nat -> nat) (f : nat -> C) : (forall i, i < n -> s i < n) ->
  (forall i j, i < n -> j < n -> s i = s j -> i = j) ->
  sumn (S:=S) n (fun i => f (s i)) = sumn (S:=S) n f.
Proof.
  intros H1 H2. rewrite !sumn_lsum. rewrite <- (map_map s f). apply lsum_perm. apply Permutation_map.
  apply NoDup_Permutation_bis.
  - apply NoDup_nth with (d := 0). rewrite map_length, seq_length. intros i j Hi Hj.
    rewrite !nth_map_seq by auto. now apply H2.
  - now rewrite map_length, !seq_length.
  - intros x Hx. apply in_map_iff in Hx. destruct Hx as (i & <- & Hi). apply in_seq in Hi. apply in_seq.
    specialize (H1 i). lia.
Qed.
(** sum over a product range *)
Lemma sumn_prod m n (f : nat -> nat -> C) :
  sumn (S:=S) m (fun i => sumn (S:=S) n (fun j => f i j)) = sumn (S:=S) (m * n) (fun k => f (k / n) (k mod n)).
Proof.
  induction m; [reflexivity|]. cbn [sumn]. rewrite IHm. cbn [Nat.mul]. rewrite Nat.add_comm.
  assert (G : forall p, p <= n -> sumn (S:=S) (m * n + p) (fun k => f (k / n) (k mod n)) =
     cadd (sumn (S:=S) (m * n) (fun k => f (k / n) (k mod n))) (sumn (S:=S) p (fun j => f m j))).
  { induction p; intros Hp.
    - rewrite Nat.add_0_r. cbn. cring.
    - rewrite Nat.add_succ_r. cbn [sumn]. rewrite IHp by lia. rewrite div_join, mod_join by lia. cring. }
  now rewrite G by lia.
Qed.
(** the sum over all multi indices of a product is the product of the sums *)
Lemma sumn_multi (dl : list nat) (f : nat -> nat -> C) :
  sumn (S:=S) (prodn dl) (fun i => lprod (S:=S) (map (fun q => f q (nth q (unravel dl i) 0)) (seq 0 (length dl)))) =
  lprod (S:=S) (map (fun q => sumn (S:=S) (nth q dl 0) (f q)) (seq 0 (length dl))).
Proof.
  revert f. induction dl as [|d dl IH]; intros f.
  - cbn. cring.
  - cbn [prodn]. transitivity (sumn (S:=S) (d * prodn dl) (fun k => cmul (f 0 (k / prodn dl))
       (lprod (S:=S) (map (fun q => f (Datatypes.S q) (nth q (unravel dl (k mod prodn dl)) 0)) (seq 0 (length dl)))))).
    + apply sumn_ext. intros k Hk. cbn [length seq map lprod unravel nth]. tocplx. f_equal.
      rewrite <- seq_shift, map_map. reflexivity.
    + rewrite <- (@sumn_prod d (prodn dl) (fun a b => cmul (f 0 a) (lprod (S:=S) (map (fun q => f (Datatypes.S q) (nth q (unravel dl b) 0)) (seq 0 (length dl)))))).
      cbn [length seq map lprod nth]. rewrite <- seq_shift, map_map.
      rewrite <- (IH (fun q => f (Datatypes.S q))).
      tocplx. rewrite csumn_mul_r. apply sumn_ext. intros a Ha. now rewrite csumn_mul_l.
Qed.

(** ---- the entries of the partial trace ---- *)
Definition merge n (removed keep ri kj : list nat) : list nat :=
  map (fun p => if mem_nat p removed then nth (index_of p removed) ri 0 else nth (index_of p keep) kj 0) (seq 0 n).

Lemma nth_select l qs a : a < length qs -> nth a (select l qs) 0 = nth (nth a qs 0) l 0.
Proof.
  intros H. unfold select. rewrite (nth_indep _ 0 (nth 0 l 0)) by now rewrite map_length.
  apply (map_nth (fun q => nth q l 0)).
Qed.
Lemma merge_nth n removed keep ri kj p : p < n ->
  nth p (merge n removed keep ri kj) 0 = if mem_nat p removed then nth (index_of p removed) ri 0 else nth (index_of p keep) kj 0.
Proof. intros H. unfold merge. now rewrite nth_map_seq. Qed.
Lemma merge_len n removed keep ri kj : length (merge n removed keep ri kj) = n.
Proof. unfold merge. now rewrite map_length, seq_length. Qed.
Lemma merge_valid dims removed keep ri kj :
  Permutation (removed ++ keep) (seq 0 (length dims)) ->
  vidx (select dims removed) ri -> vidx (select dims keep) kj -> vidx dims (merge (length dims) removed keep ri kj).
Proof.
  intros P Hr Hk. apply vidx_of_nth; [apply merge_len|]. intros p Hp. rewrite merge_nth by auto.
  assert (I : In p (removed ++ keep)). { apply (Permutation_in _ (Permutation_sym P)). apply in_seq. lia. }
  destruct (mem_nat p removed) eqn:E.
  - apply mem_nat_In in E. pose proof (index_of_lt _ _ E) as L.
    pose proof (@vidx_nth _ _ (index_of p removed) Hr) as V. unfold select in V at 1. rewrite map_length in V. specialize (V L).
    rewrite nth_select in V by auto. now rewrite index_of_nth in V.
  - assert (K : In p keep). { apply in_app_or in I. destruct I as [I|I]; auto. apply mem_nat_In in I. congruence. }
    pose proof (index_of_lt _ _ K) as L.
    pose proof (@vidx_nth _ _ (index_of p keep) Hk) as V. unfold select in V at 1. rewrite map_length in V. specialize (V L).
    rewrite nth_select in V by auto. now rewrite index_of_nth in V.
Qed.

Lemma np_trace4_mg (a : arr C) m n p q j k : shape a = [m; n; p; q] -> j < p -> k < q ->
  mg (np_trace4 a) j k = sumn (S:=S) (Nat.min m n) (fun i => getn c0 a [i; i; j; k]).
Proof. intros H Hj Hk. unfold np_trace4. rewrite H. cbn [nth]. now rewrite mg_mk2. Qed.

Section Entry.
Variables (dims removed keep : list nat).
Let n := length dims.
Hypothesis HP : Permutation (removed ++ keep) (seq 0 n).
Let perm := removed ++ map (fun q => n + q) removed ++ keep ++ map (fun q => n + q) keep.

Lemma HP_In p : p < n <-> In p removed \/ In p keep.
Proof.
  split.
  - intros H. apply in_app_or. apply (Permutation_in _ (Permutation_sym HP)). apply in_seq. lia.
  - intros H. apply in_or_app in H. apply (Permutation_in _ HP) in H. apply in_seq in H. lia.
Qed.
Lemma HP_disj p : In p removed -> In p keep -> False.
Proof.
  intros H1 H2. assert (D : NoDup (removed ++ keep)) by (apply (Permutation_NoDup (Permutation_sym HP)), seq_NoDup).
  revert D. clear HP. clear perm. induction removed as [|a l IH]; [easy|].
  cbn. intros D. inversion D; subst. destruct H1 as [->|H1]; [|auto]. apply H3. apply in_or_app. auto.
Qed.
Lemma HP_len : length removed + length keep = n.
Proof. rewrite <- app_length. rewrite (Permutation_length HP). apply seq_length. Qed.
Lemma perm_len : length perm = n + n.
Proof. unfold perm. rewrite !app_length, !map_length. pose proof HP_len. lia. Qed.

Lemma perm_low p ri1 ri2 kj kl : p < n -> length ri1 = length removed -> length ri2 = length removed -> length kj = length keep ->
  nth (index_of p perm) (ri1 ++ ri2 ++ kj ++ kl) 0 = if mem_nat p removed then nth (index_of p removed) ri1 0 else nth (index_of p keep) kj 0.
Proof.
  intros Hp L1 L2 L3. unfold perm. destruct (mem_nat p removed) eqn:E.
  - apply mem_nat_In in E. rewrite index_of_app_l by auto. pose proof (index_of_lt _ _ E). now rewrite app_nth1 by lia.
  - assert (NI : ~ In p removed) by (intros H; apply mem_nat_In in H; congruence).
    assert (K : In p keep). { apply HP_In in Hp. tauto. }
    rewrite index_of_app_r by auto. rewrite index_of_app_r.
    2: { intros H. apply in_map_iff in H. destruct H as (q & Hq & _). lia. }
    rewrite index_of_app_l by auto. rewrite map_length. pose proof (index_of_lt _ _ K).
    rewrite app_nth2 by lia. rewrite L1. replace (length removed + (length removed + index_of p keep) - length removed) with (length removed + index_of p keep) by lia.
    rewrite app_nth2 by lia. rewrite L2. rewrite app_nth1 by lia. f_equal. lia.
Qed.
Lemma perm_high p ri1 ri2 kj kl : p < n -> length ri1 = length removed -> length ri2 = length removed -> length kj = length keep ->
  nth (index_of (n + p) perm) (ri1 ++ ri2 ++ kj ++ kl) 0 = if mem_nat p removed then nth (index_of p removed) ri2 0 else nth (index_of p keep) kl 0.
Proof.
  intros Hp L1 L2 L3. unfold perm.
  assert (N1 : ~ In (n + p) removed) by (intros H; assert (n + p < n) by (apply HP_In; auto); lia).
  assert (N2 : ~ In (n + p) keep) by (intros H; assert (n + p < n) by (apply HP_In; auto); lia).
  rewrite index_of_app_r by auto. rewrite app_nth2 by lia. rewrite L1.
  replace (length removed + index_of (n + p) (map (fun q => n + q) removed ++ keep ++ map (fun q => n + q) keep) - length removed)
    with (index_of (n + p) (map (fun q => n + q) removed ++ keep ++ map (fun q => n + q) keep)) by lia.
  destruct (mem_nat p removed) eqn:E.
  - apply mem_nat_In in E. rewrite index_of_app_l by (apply in_map_iff; eauto). rewrite index_of_map_add.
    pose proof (index_of_lt _ _ E). now rewrite app_nth1 by lia.
  - assert (NI : ~ In p removed) by (intros H; apply mem_nat_In in H; congruence).
    rewrite index_of_app_r.
    2: { intros H. apply in_map_iff in H. destruct H as (q & Hq & H). assert (q = p) by lia. now subst. }
    rewrite map_length. rewrite app_nth2 by lia. rewrite L2.
    replace (length removed + index_of (n + p) (keep ++ map (fun q => n + q) keep) - length removed) with (index_of (n + p) (keep ++ map (fun q => n + q) keep)) by lia.
    rewrite index_of_app_r by auto. rewrite index_of_map_add. rewrite app_nth2 by lia. rewrite L3. f_equal. lia.
Qed.

Lemma select_len l qs : length (select l qs) = length qs.
Proof. unfold select. apply map_length. Qed.
Lemma select_app l a b : select l (a ++ b) = select l a ++ select l b.
Proof. apply map_app. Qed.
Lemma select_hi qs : (forall q, In q qs -> q < n) -> select (dims ++ dims) (map (fun q => n + q) qs) = select dims qs.
Proof.
  intros H. unfold select. rewrite map_map. apply map_ext_in. intros q Hq. rewrite app_nth2 by (unfold n; lia). f_equal. unfold n. lia.
Qed.
Lemma select_lo qs : (forall q, In q qs -> q < n) -> select (dims ++ dims) qs = select dims qs.
Proof. intros H. apply map_ext_in. intros q Hq. rewrite app_nth1 by now apply H. reflexivity. Qed.
Lemma perm_dims : map (fun p => nth p (dims ++ dims) 0) perm =
  select dims removed ++ select dims removed ++ select dims keep ++ select dims keep.
Proof.
  change (map (fun p => nth p (dims ++ dims) 0) perm) with (select (dims ++ dims) perm). unfold perm. rewrite !select_app.
  rewrite !select_hi, !select_lo; auto; intros q Hq; apply HP_In; auto.
Qed.

Lemma ravel4 i i' j k : let pr := prodn (select dims removed) in let pk := prodn (select dims keep) in
  i < pr -> i' < pr -> j < pk -> k < pk ->
  ravel [pr; pr; pk; pk] [i; i'; j; k] =
  ravel (select dims removed ++ select dims removed ++ select dims keep ++ select dims keep)
    (unravel (select dims removed) i ++ unravel (select dims removed) i' ++ unravel (select dims keep) j ++ unravel (select dims keep) k).
Proof.
  intros pr pk Hi Hi' Hj Hk.
  rewrite !ravel_app by (now apply vidx_len, unravel_valid). rewrite !ravel_unravel by auto. rewrite !prodn_app.
  cbn [ravel prodn]. fold pr pk. lia.
Qed.

(** entry formula *)
Lemma ptrace_entry (M : op F) j k : wfm (prodn dims) (prodn dims) M ->
  j < prodn (select dims keep) -> k < prodn (select dims keep) ->
  mg (ptrace_array dims removed keep M) j k =
  sumn (S:=S) (prodn (select dims removed)) (fun i =>
    mg M (ravel dims (merge n removed keep (unravel (select dims removed) i) (unravel (select dims keep) j)))
         (ravel dims (merge n removed keep (unravel (select dims removed) i) (unravel (select dims keep) k)))).
Proof.
  intros WM Hj Hk. unfold ptrace_array. fold n perm. fold (select dims removed) (select dims keep).
  set (pr := prodn (select dims removed)). set (pk := prodn (select dims keep)).
  rewrite (@np_trace4_mg _ pr pr pk pk) by auto. rewrite Nat.min_id. apply sumn_ext. intros i Hi.
  unfold getn at 1. cbn [shape reshape data].
  set (T := np_transpose c0 perm (reshape (dims ++ dims) M)).
  set (ix := unravel (select dims removed) i ++ unravel (select dims removed) i ++ unravel (select dims keep) j ++ unravel (select dims keep) k).
  assert (ST : shape T = select dims removed ++ select dims removed ++ select dims keep ++ select dims keep).
  { unfold T, np_transpose. cbn [mkn shape reshape]. apply perm_dims. }
  unfold pr, pk. rewrite (ravel4 Hi Hi Hj Hk). fold ix. rewrite <- ST.
  change (nth (ravel (shape T) ix) (data T) c0) with (getn c0 T ix).
  unfold T, np_transpose. cbn [shape reshape]. rewrite perm_dims. rewrite getn_mkn.
  2: { unfold ix. repeat apply vidx_app; now apply unravel_valid. }
  assert (EI : map (fun p => nth (index_of p perm) ix 0) (seq 0 (length perm)) =
    merge n removed keep (unravel (select dims removed) i) (unravel (select dims keep) j) ++
    merge n removed keep (unravel (select dims removed) i) (unravel (select dims keep) k)).
  { assert (Lr : length (unravel (select dims removed) i) = length removed) by (rewrite (vidx_len (unravel_valid _ Hi)); apply select_len).
    assert (Lk : length (unravel (select dims keep) j) = length keep) by (rewrite (vidx_len (unravel_valid _ Hj)); apply select_len).
    rewrite perm_len, seq_app, map_app. cbn [Nat.add]. f_equal.
    - unfold merge. apply map_ext_in. intros p Hp. apply in_seq in Hp. unfold ix. now rewrite perm_low by lia.
    - replace (seq n n) with (map (fun p => n + p) (seq 0 n)).
      + rewrite map_map. unfold merge. apply map_ext_in. intros p Hp. apply in_seq in Hp. unfold ix. now rewrite perm_high by lia.
      + clear. generalize n. intros m. rewrite <- (Nat.add_0_r m) at 2. generalize m at 2 4. intros b. generalize 0. induction b; intros a; cbn; auto.
        f_equal. rewrite IHb. f_equal. lia. }
  rewrite EI. unfold getn. cbn [shape data reshape]. rewrite ravel_app by apply merge_len.
  destruct WM as [WM1 WM2]. unfold mg, get2, getn. rewrite WM1. cbn [ravel prodn]. f_equal. lia.
Qed.

Lemma ptrace_wf (M : op F) : wfm (prodn (select dims keep)) (prodn (select dims keep)) (ptrace_array dims removed keep M).
Proof. unfold ptrace_array, np_trace4. cbn [shape reshape nth]. apply wfm_mk2. Qed.

(** the full trace is preserved *)
Lemma merge_inj ri ri' kj kj' : length ri = length removed -> length ri' = length removed -> length kj = length keep -> length kj' = length keep ->
  merge n removed keep ri kj = merge n removed keep ri' kj' -> ri = ri' /\ kj = kj'.
Proof.
  intros L1 L2 L3 L4 E.
  assert (D : NoDup (removed ++ keep)) by (apply (Permutation_NoDup (Permutation_sym HP)), seq_NoDup).
  assert (IO : forall l a, NoDup l -> a < length l -> index_of (nth a l 0) l = a).
  { clear. induction l as [|x l IH]; intros a D Ha; cbn in *; [lia|]. inversion D; subst. destruct a; [now rewrite Nat.eqb_refl|].
    destruct (Nat.eqb_spec x (nth a l 0)) as [->|N].
    - exfalso. apply H1. apply nth_In. lia.
    - rewrite IH; auto. lia. }
  assert (D1 : NoDup removed) by (clear -D; induction removed; [constructor|]; inversion D; subst; constructor; [intros H; apply H1; apply in_or_app; auto|auto]).
  assert (D2 : NoDup keep) by (clear -D; induction removed; [auto|]; inversion D; subst; auto).
  split.
  - apply (nth_ext ri ri' 0 0); [congruence|]. intros a Ha. rewrite L1 in Ha.
    assert (I : In (nth a removed 0) removed) by now apply nth_In.
    pose proof (f_equal (fun l => nth (nth a removed 0) l 0) E) as H. cbn beta in H.
    rewrite !merge_nth in H by (apply HP_In; auto). replace (mem_nat (nth a removed 0) removed) with true in H by (symmetry; now apply mem_nat_In).
    now rewrite !IO in H by auto.
  - apply (nth_ext kj kj' 0 0); [congruence|]. intros a Ha. rewrite L3 in Ha.
    assert (I : In (nth a keep 0) keep) by now apply nth_In.
    pose proof (f_equal (fun l => nth (nth a keep 0) l 0) E) as H. cbn beta in H.
    rewrite !merge_nth in H by (apply HP_In; auto). replace (mem_nat (nth a keep 0) removed) with false in H.
    + now rewrite !IO in H by auto.
    + destruct (mem_nat (nth a keep 0) removed) eqn:Em; auto. apply mem_nat_In in Em. exfalso. eapply HP_disj; eauto.
Qed.
Lemma prod_select : prodn (select dims removed) * prodn (select dims keep) = prodn dims.
Proof.
  rewrite <- prodn_app, <- select_app. transitivity (prodn (select dims (seq 0 n))).
  - unfold select. assert (G : forall l l', Permutation l l' -> prodn l = prodn l') by (induction 1; cbn; lia).
    apply G. now apply Permutation_map.
  - f_equal. unfold select, n. clear. apply (nth_ext _ _ 0 0); [now rewrite map_length, seq_length|].
    intros i Hi. rewrite map_length, seq_length in Hi. now rewrite nth_map_seq.
Qed.
Lemma ptrace_trace (M : op F) : wfm (prodn dims) (prodn dims) M ->
  trace_of (prodn (select dims keep)) (ptrace_array dims removed keep M) = trace_of (prodn dims) M.
Proof.
  intros WM. unfold trace_of. set (pr := prodn (select dims removed)). set (pk := prodn (select dims keep)).
  transitivity (sumn (S:=S) pk (fun j => sumn (S:=S) pr (fun i =>
     let x := ravel dims (merge n removed keep (unravel (select dims removed) i) (unravel (select dims keep) j)) in mg M x x))).
  - apply sumn_ext. intros j Hj. now rewrite ptrace_entry.
  - rewrite sumn_prod. cbn zeta.
    assert (EP : pk * pr = prodn dims) by (rewrite Nat.mul_comm; apply prod_select). rewrite EP.
    assert (B : forall k, k < prodn dims -> k mod pr < pr /\ k / pr < pk).
    { intros k Hk. assert (pr <> 0) by (intros Z; rewrite <- EP, Z in Hk; lia). split; [now apply Nat.mod_upper_bound|].
      apply Nat.div_lt_upper_bound; auto. lia. }
    apply (@sumn_bij (prodn dims) (fun k => ravel dims (merge n removed keep (unravel (select dims removed) (k mod pr)) (unravel (select dims keep) (k / pr))))
       (fun x => mg M x x)).
    + intros k Hk. destruct (B k Hk). apply ravel_lt. apply merge_valid; auto; now apply unravel_valid.
    + intros a b Ha Hb E. destruct (B a Ha) as [A1 A2]. destruct (B b Hb) as [B1 B2].
      assert (V : forall i j, i < pr -> j < pk -> vidx dims (merge n removed keep (unravel (select dims removed) i) (unravel (select dims keep) j)))
        by (intros; apply merge_valid; auto; now apply unravel_valid).
      apply (f_equal (unravel dims)) in E. rewrite !unravel_ravel in E by auto.
      assert (Lr : forall i, i < pr -> length (unravel (select dims removed) i) = length removed).
      { intros i Hi. rewrite (vidx_len (unravel_valid _ Hi)). apply select_len. }
      assert (Lk : forall i, i < pk -> length (unravel (select dims keep) i) = length keep).
      { intros i Hi. rewrite (vidx_len (unravel_valid _ Hi)). apply select_len. }
      apply merge_inj in E; auto.
      destruct E as [E1 E2].
      apply (f_equal (ravel (select dims removed))) in E1. rewrite !ravel_unravel in E1 by auto.
      apply (f_equal (ravel (select dims keep))) in E2. rewrite !ravel_unravel in E2 by auto.
      rewrite (Nat.div_mod a pr), (Nat.div_mod b pr) by lia. now rewrite E1, E2.
Qed.

(** product operators *)
Lemma ptrace_product (As : list (op F)) (M : op F) : is_product_operator dims As M ->
  forall x y, vidx (select dims keep) x -> vidx (select dims keep) y ->
  mg (ptrace_array dims removed keep M) (ravel (select dims keep) x) (ravel (select dims keep) y) =
  cmul (lprod (S:=S) (map (fun q => trace_of (nth q dims 0) (nth q As (Arr [] []))) removed))
       (lprod (S:=S) (map (fun a => mg (nth (nth a keep 0) As (Arr [] [])) (nth a x 0) (nth a y 0)) (seq 0 (length keep)))).
Proof.
  intros [WM HM] x y Hx Hy. apply is_matrix_wfm in WM. rewrite ptrace_entry by (auto; now apply ravel_lt).
  rewrite !unravel_ravel by auto.
  assert (D : NoDup (removed ++ keep)) by (apply (Permutation_NoDup (Permutation_sym HP)), seq_NoDup).
  assert (IO : forall l a, NoDup l -> a < length l -> index_of (nth a l 0) l = a).
  { clear. induction l as [|z l IH]; intros a D Ha; cbn in *; [lia|]. inversion D; subst. destruct a; [now rewrite Nat.eqb_refl|].
    destruct (Nat.eqb_spec z (nth a l 0)) as [->|N].
    - exfalso. apply H1. apply nth_In. lia.
    - rewrite IH; auto. lia. }
  assert (D1 : NoDup removed) by (clear -D; induction removed; [constructor|]; inversion D; subst; constructor; [intros H; apply H1; apply in_or_app; auto|auto]).
  assert (D2 : NoDup keep) by (clear -D; induction removed; [auto|]; inversion D; subst; auto).
  assert (RL : forall (T : Type) (f : nat -> T) l, map f l = map (fun a => f (nth a l 0)) (seq 0 (length l))).
  { clear. intros T f l. induction l as [|a l IH]; [reflexivity|]. cbn [map length seq]. f_equal.
    rewrite <- seq_shift, map_map. exact IH. }
  transitivity (sumn (S:=S) (prodn (select dims removed)) (fun i =>
    cmul (lprod (S:=S) (map (fun a => (fun q v => mg (nth (nth q removed 0) As (Arr [] [])) v v) a (nth a (unravel (select dims removed) i) 0)) (seq 0 (length (select dims removed)))))
       (lprod (S:=S) (map (fun a => mg (nth (nth a keep 0) As (Arr [] [])) (nth a x 0) (nth a y 0)) (seq 0 (length keep)))))).
  - apply sumn_ext. intros i Hi. rewrite HM by (apply merge_valid; auto; now apply unravel_valid).
    fold n. rewrite (lprod_perm (l' := map (fun q => mg (nth q As (Arr [] [])) (nth q (merge n removed keep (unravel (select dims removed) i) x) 0)
        (nth q (merge n removed keep (unravel (select dims removed) i) y) 0)) (removed ++ keep))).
    2: { apply Permutation_map. now symmetry. }
    rewrite map_app, lprod_app. rewrite select_len. f_equal; f_equal.
    + rewrite RL. apply map_ext_in. intros a Ha. apply in_seq in Ha.
      assert (I : In (nth a removed 0) removed) by (apply nth_In; lia).
      rewrite !merge_nth by (apply HP_In; auto). replace (mem_nat (nth a removed 0) removed) with true by (symmetry; now apply mem_nat_In).
      now rewrite !IO by (auto; lia).
    + rewrite RL. apply map_ext_in. intros a Ha. apply in_seq in Ha.
      assert (I : In (nth a keep 0) keep) by (apply nth_In; lia).
      rewrite !merge_nth by (apply HP_In; auto). replace (mem_nat (nth a keep 0) removed) with false.
      * now rewrite !IO by (auto; lia).
      * destruct (mem_nat (nth a keep 0) removed) eqn:Em; auto. apply mem_nat_In in Em. exfalso. eapply HP_disj; eauto.
  - rewrite <- csumn_mul_r. f_equal. etransitivity; [exact (sumn_multi (select dims removed) (fun q v => mg (nth (nth q removed 0) As (Arr [] [])) v v))|]. f_equal.
    rewrite select_len. rewrite (RL _ _ removed). apply map_ext_in. intros a Ha. apply in_seq in Ha. rewrite nth_select by lia. reflexivity.
Qed.
(** linearity *)
Lemma ptrace_array_linear (A B : op F) c : wfm (prodn dims) (prodn dims) A -> wfm (prodn dims) (prodn dims) B ->
  ptrace_array dims removed keep (madd (S:=S) A (mscale (S:=S) c B)) =
  madd (S:=S) (ptrace_array dims removed keep A) (mscale (S:=S) c (ptrace_array dims removed keep B)).
Proof.
  intros WA WB. pose proof (ptrace_wf A) as W1. pose proof (ptrace_wf B) as W2.
  pose proof (ptrace_wf (madd (S:=S) A (mscale (S:=S) c B))) as W3.
  apply (@mat_ext S (prodn (select dims keep)) (prodn (select dims keep))); [auto|wf_solve|].
  intros j k Hj Hk. mglin. rewrite !ptrace_entry by (auto; wf_solve). tocplx.
  rewrite csumn_mul_l, csumn_add. apply sumn_ext. intros i Hi.
  assert (Lx : forall z, z < prodn (select dims keep) -> ravel dims (merge n removed keep (unravel (select dims removed) i) (unravel (select dims keep) z)) < prodn dims).
  { intros z Hz. apply ravel_lt. apply merge_valid; auto; now apply unravel_valid. }
  pose proof (Lx j Hj). pose proof (Lx k Hk). mglin. reflexivity.
Qed.
End Entry.

(** ---- op_ptrace ---- *)
Lemma op_ptrace_ok dims remove0 (M : op F) : is_matrix (prodn dims) (prodn dims) M -> prodn dims <> 1 ->
  NoDup remove0 -> (forall q, In q remove0 -> q < length dims) -> remove0 <> [] -> length remove0 < length dims ->
  op_ptrace (fun l => l) M dims remove0 = Ok (ptrace_array dims (sort_nat remove0) (kept (length dims) remove0) M) /\
  Permutation (sort_nat remove0 ++ kept (length dims) remove0) (seq 0 (length dims)).
Proof.
  intros W N1 ND Hr Ne Hl. apply is_matrix_wfm in W.
  assert (P : Permutation (sort_nat remove0 ++ kept (length dims) remove0) (seq 0 (length dims))).
  { rewrite sort_perm. now apply removed_kept_perm. }
  split; auto. unfold op_ptrace, ptrace_mat. rewrite (wfm_nc W). apply Nat.eqb_neq in N1. rewrite N1. cbn [bind].
  rewrite (wfm_nr W), (wfm_nc W), !Nat.eqb_refl. cbn [negb].
  replace (forallb (fun q => Nat.ltb q (length dims)) (sort_nat remove0)) with true.
  2: { symmetry. apply forallb_forall. intros q Hq. apply (Permutation_in _ (sort_perm remove0)) in Hq. apply Nat.ltb_lt. auto. }
  replace (nodup_nat (sort_nat remove0)) with true.
  2: { symmetry. apply nodup_nat_NoDup. apply (Permutation_NoDup (Permutation_sym (sort_perm remove0))). auto. }
  assert (EK : ptrace_keep (fun l => l) (length dims) (sort_nat remove0) = kept (length dims) remove0).
  { rewrite <- kept_keep. apply kept_perm, sort_perm. }
  rewrite EK. destruct (sort_nat remove0) as [|a l] eqn:E.
  { exfalso. apply Ne. apply Permutation_nil. rewrite <- (sort_perm remove0), E. auto. }
  destruct (kept (length dims) remove0) as [|b l'] eqn:E'; [|reflexivity].
  exfalso. apply Permutation_length in P. rewrite app_nil_r, seq_length in P.
  pose proof (Permutation_length (sort_perm remove0)) as L. rewrite E in L. lia.
Qed.
Lemma op_ptrace_product dims remove0 As (M : op F) : is_product_operator dims As M -> prodn dims <> 1 ->
  NoDup remove0 -> (forall q, In q remove0 -> q < length dims) -> remove0 <> [] -> length remove0 < length dims ->
  let keep := kept (length dims) remove0 in let dk := select dims keep in
  exists R, op_ptrace (fun l => l) M dims remove0 = Ok R /\ is_matrix (prodn dk) (prodn dk) R /\
    forall x y, vidx dk x -> vidx dk y ->
      mg R (ravel dk x) (ravel dk y) =
      cmul (lprod (S:=S) (map (fun q => trace_of (nth q dims 0) (nth q As (Arr [] []))) remove0))
           (lprod (S:=S) (map (fun a => mg (nth (nth a keep 0) As (Arr [] [])) (nth a x 0) (nth a y 0)) (seq 0 (length keep)))).
Proof.
  intros HM N1 ND Hr Ne Hl keep dk. destruct (@op_ptrace_ok dims remove0 M (proj1 HM) N1 ND Hr Ne Hl) as [E P].
  eexists. split; [exact E|]. split; [apply is_matrix_wfm, ptrace_wf|]. intros x y Hx Hy.
  unfold dk, keep in *. rewrite (@ptrace_product dims (sort_nat remove0) (kept (length dims) remove0) P As M HM x y Hx Hy). f_equal. apply lprod_perm. apply Permutation_map, sort_perm.
Qed.
Lemma op_ptrace_trace dims remove0 (M : op F) : is_matrix (prodn dims) (prodn dims) M -> prodn dims <> 1 ->
  NoDup remove0 -> (forall q, In q remove0 -> q < length dims) -> remove0 <> [] -> length remove0 < length dims ->
  exists R, op_ptrace (fun l => l) M dims remove0 = Ok R /\
    trace_of (prodn (select dims (kept (length dims) remove0))) R = trace_of (prodn dims) M.
Proof.
  intros HM N1 ND Hr Ne Hl. destruct (@op_ptrace_ok dims remove0 M HM N1 ND Hr Ne Hl) as [E P]. eexists. split; [exact E|].
  apply (@ptrace_trace dims (sort_nat remove0) (kept (length dims) remove0) P). now apply is_matrix_wfm.
Qed.
Lemma op_ptrace_linear dims remove0 (A B Z : op F) c : is_matrix (prodn dims) (prodn dims) A -> is_matrix (prodn dims) (prodn dims) B ->
  is_matrix (prodn dims) (prodn dims) Z ->
  (forall i j, i < prodn dims -> j < prodn dims -> Z.[i,j] = cadd A.[i,j] (cmul c B.[i,j])) ->
  prodn dims <> 1 ->
  NoDup remove0 -> (forall q, In q remove0 -> q < length dims) -> remove0 <> [] -> length remove0 < length dims ->
  let d := prodn (select dims (kept (length dims) remove0)) in
  exists RA RB RZ, op_ptrace (fun l => l) A dims remove0 = Ok RA /\ op_ptrace (fun l => l) B dims remove0 = Ok RB /\
    op_ptrace (fun l => l) Z dims remove0 = Ok RZ /\
    forall i j, i < d -> j < d -> RZ.[i,j] = cadd RA.[i,j] (cmul c RB.[i,j]).
Proof.
  intros HA HB HZ EZ N1 ND Hr Ne Hl d. destruct (@op_ptrace_ok dims remove0 A HA N1 ND Hr Ne Hl) as [E1 P].
  destruct (@op_ptrace_ok dims remove0 B HB N1 ND Hr Ne Hl) as [E2 _]. destruct (@op_ptrace_ok dims remove0 Z HZ N1 ND Hr Ne Hl) as [E3 _].
  do 3 eexists. split; [exact E1|split; [exact E2|split; [exact E3|]]]. apply is_matrix_wfm in HA, HB, HZ.
  assert (EE : Z = madd (S:=S) A (mscale (S:=S) c B)).
  { apply (@mat_ext S (prodn dims) (prodn dims)); [auto|wf_solve|]. intros i j Hi Hj. rewrite EZ by auto. mglin. reflexivity. }
  intros i j Hi Hj. rewrite EE, (@ptrace_array_linear dims (sort_nat remove0) (kept (length dims) remove0) P) by auto.
  pose proof (ptrace_wf dims (sort_nat remove0) (kept (length dims) remove0) A).
  pose proof (ptrace_wf dims (sort_nat remove0) (kept (length dims) remove0) B). fold d in H, H0. mglin. reflexivity.
Qed.
Lemma op_ptrace_mismatch set_iter dims remove0 (M : op F) m : is_matrix m m M -> m <> 1 -> m <> prodn dims ->
  op_ptrace set_iter M dims remove0 = Err AssertionError.
Proof.
  intros W N1 N. apply is_matrix_wfm in W. unfold op_ptrace, ptrace_mat. rewrite (wfm_nc W). apply Nat.eqb_neq in N1. rewrite N1. cbn [bind].
  rewrite (wfm_nr W). apply Nat.eqb_neq in N. now rewrite N.
Qed.
Lemma op_ptrace_all_or_none dims (M : op F) : is_matrix (prodn dims) (prodn dims) M -> prodn dims <> 1 ->
  op_ptrace (fun l => l) M dims [] = Err TypeError /\ op_ptrace (fun l => l) M dims (seq 0 (length dims)) = Err TypeError.
Proof.
  intros W N1. apply is_matrix_wfm in W. unfold op_ptrace, ptrace_mat. rewrite (wfm_nc W). apply Nat.eqb_neq in N1. rewrite N1. cbn [bind].
  rewrite (wfm_nr W), (wfm_nc W), !Nat.eqb_refl. cbn [negb sort_nat forallb nodup_nat]. split; [reflexivity|].
  set (l := seq 0 (length dims)).
  replace (forallb (fun q => Nat.ltb q (length dims)) (sort_nat l)) with true.
  2: { symmetry. apply forallb_forall. intros q Hq. apply (Permutation_in _ (sort_perm l)) in Hq. apply in_seq in Hq. apply Nat.ltb_lt. lia. }
  replace (nodup_nat (sort_nat l)) with true.
  2: { symmetry. apply nodup_nat_NoDup. apply (Permutation_NoDup (Permutation_sym (sort_perm l))). apply seq_NoDup. }
  rewrite <- kept_keep. rewrite (kept_perm _ (sort_perm l)).
  replace (kept (length dims) l) with (@nil nat); [now destruct (sort_nat l)|].
  destruct (kept (length dims) l) as [|a k] eqn:E; auto. exfalso.
  assert (I : In a (kept (length dims) l)) by (rewrite E; left; auto). apply In_kept in I. destruct I as [I1 I2]. apply I2. apply in_seq. lia.
Qed.
(** kets are traced through their density matrix *)
Lemma op_ptrace_ket set_iter dims remove0 n (psi : op F) : is_matrix n 1 psi -> n <> 1 ->
  exists rho, is_matrix n n rho /\ (forall i j, i < n -> j < n -> rho.[i,j] = cmul psi.[i,0] (cconj psi.[j,0])) /\
    op_ptrace set_iter psi dims remove0 = op_ptrace set_iter rho dims remove0.
Proof.
  intros W N. apply is_matrix_wfm in W.
  exists (mmul (S:=S) psi (mdag (S:=S) psi)). assert (WR : wfm n n (mmul (S:=S) psi (mdag (S:=S) psi))) by (apply wfm_mmul with 1; [exact W|apply wfm_mdag; exact W]).
  split; [now apply is_matrix_wfm|split].
  - intros i j Hi Hj. rewrite (@mg_mmul S n 1 n) by (auto; apply wfm_mdag; exact W). cbn [sumn]. rewrite (@mg_mdag S n 1) by auto. cring.
  - unfold op_ptrace, ptrace_mat. rewrite (wfm_nc W), (wfm_nc WR). cbn [Nat.eqb]. apply Nat.eqb_neq in N. rewrite N.
    unfold op_mul, np_matmul. rewrite (op_dag_mdag W).
    assert (WD : wfm 1 n (mdag (S:=S) psi)) by (apply wfm_mdag; exact W). rewrite (wfm_nc W), (wfm_nr WD). reflexivity.
Qed.
End P.

(** nine subsystems: python's set difference enumerates {7, 8} as 8, 7 *)
Definition cpython_9 (l : list nat) : list nat := if list_eq_dec Nat.eq_dec l [7; 8] then [8; 7] else l.
Definition w9_dims := [1; 1; 1; 1; 1; 1; 1; 2; 3].
Definition w9_one : op QcField := mk2 1 1 (fun _ _ => c1).
Definition w9_A : op QcField := mk2 2 2 (fun i j => if Nat.eqb i 0 && Nat.eqb j 0 then c1 else c0).
Definition w9_B : op QcField := mk2 3 3 (fun i j => if Nat.eqb i j then cofk (F:=QcField) (kofnat (F:=QcField) (i + 1)) else c0).
Definition w9_As := repeat w9_one 7 ++ [w9_A; w9_B].
Definition w9_M : op QcField := mkron (S:=CStar QcField) w9_A w9_B.
Lemma product_by_enumeration dims As (M : op QcField) : is_matrix (prodn dims) (prodn dims) M ->
  forallb (fun k => forallb (fun l => ceqb (mg M k l)
     (lprod (S:=CStar QcField) (map (fun q => mg (nth q As (Arr [] [])) (nth q (unravel dims k) 0) (nth q (unravel dims l) 0)) (seq 0 (length dims)))))
     (seq 0 (prodn dims))) (seq 0 (prodn dims)) = true -> is_product_operator dims As M.
Proof.
  intros W H. split; auto. intros x y Hx Hy. rewrite forallb_forall in H.
  specialize (H (ravel dims x)). rewrite forallb_forall in H.
  assert (I1 : In (ravel dims x) (seq 0 (prodn dims))) by (apply in_seq; pose proof (ravel_lt Hx); lia).
  assert (I2 : In (ravel dims y) (seq 0 (prodn dims))) by (apply in_seq; pose proof (ravel_lt Hy); lia).
  specialize (H I1 _ I2). apply ceqb_eq in H. rewrite !unravel_ravel in H by auto. exact H.
Qed.
Lemma op_ptrace_nine : exists (set_iter : list nat -> list nat) (dims removed : list nat) (As : list (op QcField)) (M R : op QcField) x,
  (forall l, Permutation (set_iter l) l) /\ is_product_operator dims As M /\
  NoDup removed /\ (forall q, In q removed -> q < length dims) /\
  let keep := kept (length dims) removed in let dk := select dims keep in
  op_ptrace set_iter M dims removed = Ok R /\ vidx dk x /\
  mg R (ravel dk x) (ravel dk x) <>
    cmul (lprod (S:=CStar QcField) (map (fun q => trace_of (nth q dims 0) (nth q As (Arr [] []))) removed))
         (lprod (S:=CStar QcField) (map (fun a => mg (nth (nth a keep 0) As (Arr [] [])) (nth a x 0) (nth a x 0)) (seq 0 (length keep)))).
Proof.
  exists cpython_9, w9_dims, (seq 0 7), w9_As, w9_M. eexists. exists [0; 1].
  split; [|split; [|split; [apply seq_NoDup|split]]].
  - intros l. unfold cpython_9. destruct (list_eq_dec Nat.eq_dec l [7; 8]) as [->|]; auto. apply perm_swap.
  - apply product_by_enumeration; [split; reflexivity|]. vm_compute. reflexivity.
  - intros q Hq. apply in_seq in Hq. cbn. lia.
  - cbn zeta. split; [vm_compute; reflexivity|split].
    + cbn. apply vidx2; lia.
    + intros H. apply ceqb_eq in H. vm_compute in H. discriminate.
Qed.

(** iterated Kronecker products are product operators *)
Section K.
Variable F : OField.
Notation S := (CStar F).
Add Field Cfield2 : (c_field F).
Lemma kron_product_operator d dims (A : op F) As M : is_matrix d d A -> is_product_operator dims As M ->
  exists K, op_kron A (ODense M) = Ok K /\ is_product_operator (d :: dims) (A :: As) K.
Proof.
  intros WA [WM HM]. exists (mkron (S:=S) A M). split; [reflexivity|]. apply is_matrix_wfm in WA, WM. split.
  - apply is_matrix_wfm. cbn [prodn]. wf_solve.
  - intros x y Hx Hy. inversion Hx as [|a d' x' dims' Ha Hx']; subst. inversion Hy as [|b d' y' dims' Hb Hy']; subst.
    cbn [ravel]. rewrite (@mg_mkron' S d d (prodn dims) (prodn dims)) by (auto; now apply ravel_lt).
    rewrite HM by auto. cbn [length seq map lprod nth]. rewrite <- seq_shift, map_map. reflexivity.
Qed.
Lemma single_product_operator d (A : op F) : is_matrix d d A -> is_product_operator [d] [A] A.
Proof.
  intros [W1 W2]. split; [cbn [prodn]; rewrite Nat.mul_1_r; split; auto|].
  intros x y Hx Hy. apply vidx1_inv in Hx, Hy. destruct Hx as (i & -> & Hi), Hy as (j & -> & Hj).
  cbn [ravel prodn length seq map lprod nth]. rewrite !Nat.mul_1_r, !Nat.add_0_r. cring.
Qed.
End K.
