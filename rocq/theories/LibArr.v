(** numpy arrays: shape plus data in C (row major) order.  Library file: the semantics of the numpy
    primitives that the python code uses (np.reshape, np.transpose, indexing, np.zeros ...).
    Element type is arbitrary; [getn] needs a default for out-of-range indices (python raises
    IndexError there; all model functions index inside the shape). *)
Require Import List Arith Lia.
Import ListNotations.
Set Implicit Arguments.

Record arr (T : Type) := Arr { shape : list nat; data : list T }.
Arguments Arr {T}. Arguments shape {T}. Arguments data {T}.

(** number of elements of an array of given shape (np.prod of the shape) *)
Fixpoint prodn (sh : list nat) : nat :=
  match sh with [] => 1 | d :: sh' => d * prodn sh' end.

(** multi index -> flat C-order index *)
Fixpoint ravel (sh idx : list nat) : nat :=
  match sh, idx with
  | _ :: sh', i :: idx' => i * prodn sh' + ravel sh' idx'
  | _, _ => 0
  end.

(** flat index -> multi index *)
Fixpoint unravel (sh : list nat) (k : nat) : list nat :=
  match sh with
  | [] => []
  | _ :: sh' => (k / prodn sh') :: unravel sh' (k mod prodn sh')
  end.

(** multi index inside the shape *)
Definition vidx (sh idx : list nat) : Prop := Forall2 (fun i d => i < d) idx sh.

(** array from an index function (np.empty + filling all entries) *)
Definition mkn {T} (sh : list nat) (f : list nat -> T) : arr T :=
  Arr sh (map (fun k => f (unravel sh k)) (seq 0 (prodn sh))).

(** a[idx] *)
Definition getn {T} (d : T) (a : arr T) (idx : list nat) : T :=
  nth (ravel (shape a) idx) (data a) d.

(** numpy arrays always carry as many elements as the shape says *)
Definition wfa {T} (sh : list nat) (a : arr T) : Prop :=
  shape a = sh /\ length (data a) = prodn sh.

(** np.reshape: same data, new shape (legal only if the sizes agree) *)
Definition reshape {T} (sh : list nat) (a : arr T) : arr T := Arr sh (data a).

(** rank 1, 2, 3 specialisations *)
Definition mk1 {T} (m : nat) (f : nat -> T) : arr T := mkn [m] (fun ix => f (nth 0 ix 0)).
Definition mk2 {T} (m n : nat) (f : nat -> nat -> T) : arr T :=
  mkn [m; n] (fun ix => f (nth 0 ix 0) (nth 1 ix 0)).
Definition mk3 {T} (m n p : nat) (f : nat -> nat -> nat -> T) : arr T :=
  mkn [m; n; p] (fun ix => f (nth 0 ix 0) (nth 1 ix 0) (nth 2 ix 0)).
Definition get1 {T} (d : T) (a : arr T) i := getn d a [i].
Definition get2 {T} (d : T) (a : arr T) i j := getn d a [i; j].
Definition get3 {T} (d : T) (a : arr T) i j k := getn d a [i; j; k].
(** a.shape[0], a.shape[1], a.shape[2] *)
Definition dim0 {T} (a : arr T) := nth 0 (shape a) 0.
Definition dim1 {T} (a : arr T) := nth 1 (shape a) 0.
Definition dim2 {T} (a : arr T) := nth 2 (shape a) 0.
(** len(a.shape) *)
Definition rank {T} (a : arr T) := length (shape a).

Lemma prodn_app s1 s2 : prodn (s1 ++ s2) = prodn s1 * prodn s2.
Proof. induction s1; simpl; [lia|]. rewrite IHs1. lia. Qed.

Lemma ravel_lt sh idx : vidx sh idx -> ravel sh idx < prodn sh.
Proof.
  revert idx. induction sh; intros idx H; inversion H; subst; simpl; [lia|].
  specialize (IHsh _ H4). nia.
Qed.

Lemma unravel_valid sh k : k < prodn sh -> vidx sh (unravel sh k).
Proof.
  revert k. induction sh; intros k H; simpl; constructor.
  - simpl in H. apply Nat.div_lt_upper_bound; lia.
  - apply IHsh. simpl in H. apply Nat.mod_upper_bound. lia.
Qed.

Lemma ravel_unravel sh k : k < prodn sh -> ravel sh (unravel sh k) = k.
Proof.
  revert k. induction sh; intros k H; simpl in *; [lia|].
  rewrite IHsh.
  - rewrite (Nat.div_mod k (prodn sh)) at 3 by lia. lia.
  - apply Nat.mod_upper_bound. lia.
Qed.

Lemma unravel_ravel sh idx : vidx sh idx -> unravel sh (ravel sh idx) = idx.
Proof.
  revert idx. induction sh; intros idx H; inversion H; subst; simpl; auto.
  specialize (IHsh _ H4). pose proof (ravel_lt H4).
  rewrite Nat.div_add_l by lia. rewrite (Nat.div_small (ravel sh l)) by lia.
  rewrite (Nat.add_comm (x * _)), Nat.mod_add by lia. rewrite Nat.mod_small by lia.
  rewrite IHsh. f_equal. lia.
Qed.

Lemma nth_map_seq {T} (d : T) f n k : k < n -> nth k (map f (seq 0 n)) d = f k.
Proof.
  intros H. rewrite (nth_indep _ d (f 0)).
  - rewrite map_nth. rewrite seq_nth by lia. reflexivity.
  - rewrite map_length, seq_length. lia.
Qed.

Lemma getn_mkn {T} (d : T) sh f idx : vidx sh idx -> getn d (mkn sh f) idx = f idx.
Proof.
  intros H. unfold getn, mkn. simpl. rewrite nth_map_seq.
  - now rewrite unravel_ravel.
  - now apply ravel_lt.
Qed.

Lemma wfa_mkn {T} sh (f : list nat -> T) : wfa sh (mkn sh f).
Proof. split; simpl; auto. now rewrite map_length, seq_length. Qed.

Lemma list_nth_ext {T} (d : T) (l1 l2 : list T) :
  length l1 = length l2 -> (forall k, k < length l1 -> nth k l1 d = nth k l2 d) -> l1 = l2.
Proof. intros H1 H2. now apply (nth_ext l1 l2 d d). Qed.

Lemma arr_ext {T} (d : T) sh (a b : arr T) :
  wfa sh a -> wfa sh b -> (forall idx, vidx sh idx -> getn d a idx = getn d b idx) -> a = b.
Proof.
  intros [Ha1 Ha2] [Hb1 Hb2] H. destruct a as [sa da], b as [sb db]. simpl in *. subst sa sb.
  f_equal. apply (list_nth_ext d). congruence.
  intros k Hk. rewrite Ha2 in Hk. specialize (H (unravel sh k) (unravel_valid _ Hk)).
  unfold getn in H. simpl in H. rewrite ravel_unravel in H by auto. exact H.
Qed.

Lemma mkn_ext {T} sh (f g : list nat -> T) :
  (forall idx, vidx sh idx -> f idx = g idx) -> mkn sh f = mkn sh g.
Proof.
  intros H. unfold mkn. f_equal. apply map_ext_in. intros k Hk. apply in_seq in Hk.
  apply H. apply unravel_valid. lia.
Qed.

Lemma mkn_getn {T} (d : T) sh (a : arr T) : wfa sh a -> a = mkn sh (getn d a).
Proof.
  intros H. apply (@arr_ext _ d sh); auto. apply wfa_mkn.
  intros. now rewrite getn_mkn.
Qed.

(** rank 1 *)
Lemma vidx1 m i : i < m -> vidx [m] [i].
Proof. repeat constructor; auto. Qed.
Lemma vidx2 m n i j : i < m -> j < n -> vidx [m; n] [i; j].
Proof. repeat constructor; auto. Qed.
Lemma vidx3 m n p i j k : i < m -> j < n -> k < p -> vidx [m; n; p] [i; j; k].
Proof. repeat constructor; auto. Qed.
Lemma vidx1_inv m ix : vidx [m] ix -> exists i, ix = [i] /\ i < m.
Proof. intros H. inversion H; subst. inversion H4; subst. eauto. Qed.
Lemma vidx2_inv m n ix : vidx [m; n] ix -> exists i j, ix = [i; j] /\ i < m /\ j < n.
Proof. intros H. inversion H; subst. apply vidx1_inv in H4. destruct H4 as (j & -> & ?). eauto. Qed.
Lemma vidx3_inv m n p ix : vidx [m; n; p] ix -> exists i j k, ix = [i; j; k] /\ i < m /\ j < n /\ k < p.
Proof.
  intros H. inversion H; subst. apply vidx2_inv in H4. destruct H4 as (j & k & -> & ? & ?).
  exists x, j, k. auto.
Qed.

Lemma get1_mk1 {T} (d : T) m f i : i < m -> get1 d (mk1 m f) i = f i.
Proof. intros. unfold get1, mk1. rewrite getn_mkn; auto using vidx1. Qed.
Lemma get2_mk2 {T} (d : T) m n f i j : i < m -> j < n -> get2 d (mk2 m n f) i j = f i j.
Proof. intros. unfold get2, mk2. rewrite getn_mkn; auto using vidx2. Qed.
Lemma get3_mk3 {T} (d : T) m n p f i j k :
  i < m -> j < n -> k < p -> get3 d (mk3 m n p f) i j k = f i j k.
Proof. intros. unfold get3, mk3. rewrite getn_mkn; auto using vidx3. Qed.

Lemma wfa_mk1 {T} m (f : nat -> T) : wfa [m] (mk1 m f).
Proof. apply wfa_mkn. Qed.
Lemma wfa_mk2 {T} m n (f : nat -> nat -> T) : wfa [m; n] (mk2 m n f).
Proof. apply wfa_mkn. Qed.
Lemma wfa_mk3 {T} m n p (f : nat -> nat -> nat -> T) : wfa [m; n; p] (mk3 m n p f).
Proof. apply wfa_mkn. Qed.
#[global] Hint Resolve wfa_mk1 wfa_mk2 wfa_mk3 wfa_mkn : wfa.

Lemma arr1_ext {T} (d : T) m (a b : arr T) :
  wfa [m] a -> wfa [m] b -> (forall i, i < m -> get1 d a i = get1 d b i) -> a = b.
Proof.
  intros Ha Hb H. apply (@arr_ext _ d [m]); auto.
  intros ix Hix. apply vidx1_inv in Hix. destruct Hix as (i & -> & ?). now apply H.
Qed.
Lemma arr2_ext {T} (d : T) m n (a b : arr T) :
  wfa [m; n] a -> wfa [m; n] b ->
  (forall i j, i < m -> j < n -> get2 d a i j = get2 d b i j) -> a = b.
Proof.
  intros Ha Hb H. apply (@arr_ext _ d [m; n]); auto.
  intros ix Hix. apply vidx2_inv in Hix. destruct Hix as (i & j & -> & ? & ?). now apply H.
Qed.
Lemma arr3_ext {T} (d : T) m n p (a b : arr T) :
  wfa [m; n; p] a -> wfa [m; n; p] b ->
  (forall i j k, i < m -> j < n -> k < p -> get3 d a i j k = get3 d b i j k) -> a = b.
Proof.
  intros Ha Hb H. apply (@arr_ext _ d [m; n; p]); auto.
  intros ix Hix. apply vidx3_inv in Hix. destruct Hix as (i & j & k & -> & ? & ? & ?). now apply H.
Qed.
Lemma mk1_ext {T} m (f g : nat -> T) :
  (forall i, i < m -> f i = g i) -> mk1 m f = mk1 m g.
Proof.
  intros H. apply mkn_ext. intros ix Hix. apply vidx1_inv in Hix. destruct Hix as (i & -> & ?). now apply H.
Qed.
Lemma mk2_ext {T} m n (f g : nat -> nat -> T) :
  (forall i j, i < m -> j < n -> f i j = g i j) -> mk2 m n f = mk2 m n g.
Proof.
  intros H. apply mkn_ext. intros ix Hix. apply vidx2_inv in Hix. destruct Hix as (i & j & -> & ? & ?).
  now apply H.
Qed.
Lemma mk3_ext {T} m n p (f g : nat -> nat -> nat -> T) :
  (forall i j k, i < m -> j < n -> k < p -> f i j k = g i j k) -> mk3 m n p f = mk3 m n p g.
Proof.
  intros H. apply mkn_ext. intros ix Hix. apply vidx3_inv in Hix. destruct Hix as (i & j & k & -> & ? & ? & ?).
  now apply H.
Qed.
Lemma dim_wfa2 {T} m n (a : arr T) : wfa [m; n] a -> dim0 a = m /\ dim1 a = n /\ rank a = 2.
Proof. intros [H _]. unfold dim0, dim1, rank. rewrite H. auto. Qed.
Lemma dim_wfa3 {T} m n p (a : arr T) : wfa [m; n; p] a -> dim0 a = m /\ dim1 a = n /\ dim2 a = p /\ rank a = 3.
Proof. intros [H _]. unfold dim0, dim1, dim2, rank. rewrite H. auto. Qed.
