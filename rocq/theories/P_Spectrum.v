(** Proofs about the colours of eigenvectors and the energy spectrum (C82). *)
Require Import List Arith Lia Bool Reals Lra.
From Verif Require Import LibBase LibRing LibArr LibCplx LibMat M_Matrix S_Linear P_Linear S_Deriv P_Amplitude M_Spectrum S_Spectrum.
Import ListNotations.
Local Open Scope res_scope.
Set Implicit Arguments.

Lemma Rsum_nonneg n f : (forall i, i < n -> (0 <= f i)%R) -> (0 <= Rsum n f)%R.
Proof. induction n as [|n IH]; intros H; cbn; [lra|]. pose proof (H n ltac:(lia)). assert (0 <= Rsum n f)%R by (apply IH; intros; apply H; lia). lra. Qed.
Lemma Rsum_positive n f k : (forall i, i < n -> (0 <= f i)%R) -> k < n -> (0 < f k)%R -> (0 < Rsum n f)%R.
Proof.
  induction n as [|n IH]; intros H Hk P; [lia|]. cbn. pose proof (H n ltac:(lia)).
  assert (0 <= Rsum n f)%R by (apply Rsum_nonneg; intros; apply H; lia). destruct (Nat.eq_dec k n) as [->|N]; [lra|].
  assert (0 < Rsum n f)%R by (apply IH; [intros; apply H; lia|lia|exact P]). lra.
Qed.
Lemma rabs_modulus z : rabs z = modulus z. Proof. reflexivity. Qed.
Lemma modulus_nonneg z : (0 <= modulus z)%R. Proof. apply sqrt_pos. Qed.
Lemma modulus_positive (z : RC) : z <> c0 -> (0 < modulus z)%R.
Proof.
  intros N. apply sqrt_lt_R0. pose proof (cnorm2_neq0 (F:=RField) N) as Q. change (cnorm2 (F:=RField) z <> 0%R) in Q. assert (P : (0 <= cnorm2 (F:=RField) z)%R) by (destruct z as [a b]; unfold cnorm2; cbn; pose proof (Rle_0_sqr a); pose proof (Rle_0_sqr b); unfold Rsqr in *; lra). lra.
Qed.

Section P.
Variable cmap : R -> list R.
Hypothesis CM : color_map cmap.

Lemma lin01_range k i : i < k -> (0 <= lin01 k i <= 1)%R.
Proof.
  intros Hi. unfold lin01. destruct (Nat.leb_spec k 1) as [L|L]; [lra|].
  assert (0 < INR (k - 1))%R by (apply lt_0_INR; lia). split.
  - apply Rmult_le_pos; [apply pos_INR|]. now apply Rlt_le, Rinv_0_lt_compat.
  - apply Rmult_le_reg_r with (INR (k - 1)); auto. unfold Rdiv. rewrite Rmult_assoc, Rinv_l by lra. rewrite Rmult_1_l, Rmult_1_r. apply le_INR. lia.
Qed.
Lemma lin01_spec k i : lin01 k i = (match k with 0 | 1 => 0 | S k' => INR i / INR k' end)%R.
Proof. unfold lin01. destruct k as [|[|k]]; reflexivity. Qed.
Lemma basis_color_spec k i j : i < k -> j < 3 -> nth j (basis_color cmap k i) 0%R = basis_colors cmap k i j.
Proof.
  intros Hi Hj. unfold basis_color, basis_colors. rewrite <- lin01_spec. destruct (CM (lin01_range Hi)) as (r & g & b & a & -> & _).
  destruct j as [|[|[|j]]]; auto; lia.
Qed.
Lemma basis_colors_range k i j : i < k -> j < 3 -> (0 <= basis_colors cmap k i j <= 1)%R.
Proof.
  intros Hi Hj. unfold basis_colors. rewrite <- lin01_spec. destruct (CM (lin01_range Hi)) as (r & g & b & a & -> & A & B & C & _).
  destruct j as [|[|[|j]]]; cbn; auto; lia.
Qed.
Lemma basis_colors_bright k i : i < k -> exists j, j < 3 /\ (0 < basis_colors cmap k i j)%R.
Proof.
  intros Hi. unfold basis_colors. rewrite <- lin01_spec. destruct (CM (lin01_range Hi)) as (r & g & b & a & -> & _ & _ & _ & [H|[H|H]]); [exists 0|exists 1|exists 2]; cbn; auto.
Qed.
Lemma mixed_spec (v : arr RC) n j : j < 3 -> mixed_color cmap v n j = Rsum (dim1 v) (fun i => (modulus (get2 (c0 : RC) v n i) * basis_colors cmap (dim1 v) i j)%R).
Proof. intros Hj. unfold mixed_color. apply Rsum_ext. intros i Hi. rewrite basis_color_spec by auto. rewrite rabs_modulus. ring. Qed.
Lemma mixed_nonneg (v : arr RC) n j : j < 3 -> (0 <= mixed_color cmap v n j)%R.
Proof.
  intros Hj. rewrite mixed_spec by auto. apply Rsum_nonneg. intros i Hi. apply Rmult_le_pos; [apply modulus_nonneg|]. now apply basis_colors_range.
Qed.
Lemma brightest_le (v : arr RC) n j : j < 3 -> (mixed_color cmap v n j <= brightest cmap v n)%R.
Proof.
  intros Hj. unfold brightest. destruct j as [|[|[|j]]]; [apply Rmax_l| | |lia]; (eapply Rle_trans; [|apply Rmax_r]); [apply Rmax_l|apply Rmax_r].
Qed.
Lemma brightest_is (v : arr RC) n : exists j, j < 3 /\ brightest cmap v n = mixed_color cmap v n j.
Proof.
  unfold brightest. destruct (Rmax_case_strong (mixed_color cmap v n 0) (Rmax (mixed_color cmap v n 1) (mixed_color cmap v n 2)) (fun m => exists j, j < 3 /\ m = mixed_color cmap v n j)) as (j & A & B).
  - exists 0; auto.
  - intros _. apply Rmax_case_strong; [exists 1|exists 2]; auto.
  - eauto.
Qed.
Lemma brightest_positive (v : arr RC) n i : i < dim1 v -> get2 (c0 : RC) v n i <> c0 -> (0 < brightest cmap v n)%R.
Proof.
  intros Hi N. destruct (basis_colors_bright Hi) as (j & Hj & P). eapply Rlt_le_trans; [|exact (brightest_le v n Hj)]. rewrite mixed_spec by auto.
  apply Rsum_positive with i; auto.
  - intros k Hk. apply Rmult_le_pos; [apply modulus_nonneg|]. now apply basis_colors_range.
  - apply Rmult_lt_0_compat; auto. now apply modulus_positive.
Qed.
(** colours of vectors that are not zero *)
Theorem colors_ok (v : arr RC) n k : wfa [n; k] v -> (forall r, r < n -> exists i, i < k /\ get2 (c0 : RC) v r i <> c0) ->
  exists c, vector_color_map cmap v = Ok c /\ wfa [n; 3] c /\
  forall r, r < n -> is_mixture k (basis_colors cmap k) (fun i => modulus (get2 (c0 : RC) v r i)) (fun j => get2 0%R c r j).
Proof.
  intros [SH LD] NZ. assert (D1 : dim1 v = k) by (unfold dim1; now rewrite SH). assert (D0 : dim0 v = n) by (unfold dim0; now rewrite SH).
  assert (PB : forall r, r < n -> (0 < brightest cmap v r)%R).
  { intros r Hr. destruct (NZ r Hr) as (i & Hi & N). eapply brightest_positive; [|exact N]. now rewrite D1. }
  unfold vector_color_map, rank. rewrite SH, D0. cbn [length Nat.eqb].
  destruct (existsb _ _) eqn:EX.
  { exfalso. apply existsb_exists in EX. destruct EX as (r & Hr & Z). apply in_seq in Hr. unfold is_zero in Z. destruct (Req_EM_T (brightest cmap v r) 0); [|discriminate]. specialize (PB r ltac:(lia)). lra. }
  eexists. split; [reflexivity|]. split; [apply wfa_mk2|]. intros r Hr. specialize (PB r Hr).
  assert (G : forall j, j < 3 -> get2 0%R (mk2 n 3 (fun n0 j0 => (mixed_color cmap v n0 j0 / brightest cmap v n0)%R)) r j = (mixed_color cmap v r j / brightest cmap v r)%R) by (intros j Hj; now rewrite get2_mk2).
  split; [|split].
  - exists (brightest cmap v r). split; [auto|]. intros j Hj. rewrite G by auto. rewrite <- D1, <- mixed_spec by auto. field. lra.
  - intros j Hj. rewrite G by auto. split.
    + apply Rmult_le_pos; [now apply mixed_nonneg|]. now apply Rlt_le, Rinv_0_lt_compat.
    + apply Rmult_le_reg_r with (brightest cmap v r); auto. unfold Rdiv. rewrite Rmult_assoc, Rinv_l by lra. rewrite Rmult_1_l, Rmult_1_r. now apply brightest_le.
  - destruct (brightest_is v r) as (j & Hj & E). exists j. split; auto. rewrite G by auto. rewrite E. field. rewrite <- E. lra.
Qed.
(** the mixture is determined by the ratios of the weights *)
Lemma mixture_unique k b w w' c c' l : (0 < l)%R -> (forall i, i < k -> w' i = (l * w i)%R) -> is_mixture k b w c -> is_mixture k b w' c' -> forall j, j < 3 -> c' j = c j.
Proof.
  intros Pl W ((s & Ps & E) & R & (m & Hm & M)) ((s' & Ps' & E') & R' & (m' & Hm' & M')).
  assert (X : forall j, j < 3 -> (s' * c' j = l * s * c j)%R).
  { intros j Hj. rewrite E' by auto. rewrite Rmult_assoc, E by auto. rewrite <- Rsum_mul_l. apply Rsum_ext. intros i Hi. rewrite W by auto. ring. }
  assert (Pls : (0 < l * s)%R) by now apply Rmult_lt_0_compat.
  assert (Q : (s' = l * s)%R).
  { apply Rle_antisym.
    - pose proof (X m' Hm') as Y. rewrite M' in Y. pose proof (R m' Hm') as [_ B]. assert (l * s * c m' <= l * s * 1)%R by (apply Rmult_le_compat_l; lra). lra.
    - pose proof (X m Hm) as Y. rewrite M in Y. pose proof (R' m Hm) as [_ B]. assert (s' * c' m <= s' * 1)%R by (apply Rmult_le_compat_l; lra). lra. }
  intros j Hj. pose proof (X j Hj) as Y. rewrite Q in Y. apply Rmult_eq_reg_l with (l * s)%R; lra.
Qed.
(** only the ratios of the moduli matter *)
Theorem colors_scale (v v' : arr RC) n k : wfa [n; k] v -> wfa [n; k] v' -> (forall r, r < n -> exists i, i < k /\ get2 (c0 : RC) v r i <> c0) ->
  (forall r, r < n -> exists l, (0 < l)%R /\ forall i, i < k -> modulus (get2 (c0 : RC) v' r i) = (l * modulus (get2 (c0 : RC) v r i))%R) ->
  vector_color_map cmap v' = vector_color_map cmap v.
Proof.
  intros W W' NZ SC.
  assert (NZ' : forall r, r < n -> exists i, i < k /\ get2 (c0 : RC) v' r i <> c0).
  { intros r Hr. destruct (NZ r Hr) as (i & Hi & N). destruct (SC r Hr) as (l & Pl & E). exists i. split; auto. intros Z. specialize (E i Hi). rewrite Z in E.
    assert (modulus c0 = 0%R) by (unfold modulus, cnorm2, c0; cbn; rewrite Rmult_0_l, Rplus_0_l; apply sqrt_0). pose proof (modulus_positive N). assert (0 < l * modulus (get2 (c0 : RC) v r i))%R by now apply Rmult_lt_0_compat. lra. }
  destruct (colors_ok W NZ) as (c & E & WC & M). destruct (colors_ok W' NZ') as (c' & E' & WC' & M'). rewrite E, E'. f_equal.
  apply (arr2_ext 0%R WC' WC). intros r j Hr Hj. destruct (SC r Hr) as (l & Pl & S). exact (mixture_unique Pl S (M r Hr) (M' r Hr) Hj).
Qed.
(** a row of zeros *)
Theorem colors_zero (v : arr RC) n k r : wfa [n; k] v -> r < n -> (forall i, i < k -> get2 (c0 : RC) v r i = c0) -> vector_color_map cmap v = Err FloatNaN.
Proof.
  intros [SH LD] Hr Z. assert (D1 : dim1 v = k) by (unfold dim1; now rewrite SH). assert (D0 : dim0 v = n) by (unfold dim0; now rewrite SH).
  assert (M0 : forall j, j < 3 -> mixed_color cmap v r j = 0%R).
  { intros j Hj. rewrite mixed_spec by auto. apply Rsum_0. intros i Hi. rewrite Z by congruence. assert (modulus c0 = 0%R) by (unfold modulus, cnorm2, c0; cbn; rewrite Rmult_0_l, Rplus_0_l; apply sqrt_0). rewrite H. ring. }
  unfold vector_color_map, rank. rewrite SH, D0. cbn [length Nat.eqb].
  destruct (existsb _ _) eqn:EX; auto. exfalso. assert (X : existsb (fun n0 => is_zero (brightest cmap v n0)) (seq 0 n) = true); [|congruence].
  apply existsb_exists. exists r. split; [apply in_seq; lia|]. unfold is_zero, brightest. rewrite !M0 by lia. rewrite !(Rmax_left 0 0) by lra. now destruct (Req_EM_T 0 0).
Qed.
End P.

Lemma classic_c0 (z : RC) : z = c0 \/ z <> c0.
Proof. destruct z as [a b]. destruct (Req_EM_T a 0) as [->|N]; [destruct (Req_EM_T b 0) as [->|N]; [now left|right; intros Q; injection Q; auto]|right; intros Q; injection Q; auto]. Qed.
Section Eig.
Variable S : StarRing.
Add Ring Sr : (s_ring S).
Local Open Scope sr_scope.
Lemma columns_eigen n (A V : nat -> nat -> S) (w : nat -> S) :
  (forall i j, i < n -> j < n -> sumn n (fun k => sconj (V k i) * V k j) = delta i j) ->
  (forall i j, i < n -> j < n -> A i j = sumn n (fun k => V i k * w k * sconj (V j k))) ->
  forall i a, i < n -> a < n -> sumn n (fun b => A a b * V b i) = w i * V a i.
Proof.
  intros U E i a Hi Ha. transitivity (sumn n (fun k => V a k * w k * delta k i)).
  - transitivity (sumn n (fun b => sumn n (fun k => V a k * w k * (sconj (V b k) * V b i)))).
    + apply sumn_ext. intros b Hb. rewrite E by auto. rewrite <- sumn_mul_r. apply sumn_ext. intros k Hk. ring.
    + rewrite sumn_swap. apply sumn_ext. intros k Hk. rewrite sumn_mul_l. now rewrite U.
  - rewrite (sumn_single (k:=i)); auto.
    + unfold delta. rewrite Nat.eqb_refl. ring.
    + intros k Hk N. unfold delta. apply Nat.eqb_neq in N. rewrite N. ring.
Qed.
Lemma column_nonzero n (V : nat -> nat -> S) i : (1 : S) <> 0 -> i < n -> sumn n (fun k => sconj (V k i) * V k i) = delta i i -> ~ forall k, k < n -> V k i = 0.
Proof.
  intros N Hi E Z. apply N. transitivity (delta (S:=S) i i); [unfold delta; now rewrite Nat.eqb_refl|]. rewrite <- E. apply sumn_0. intros k Hk. rewrite (Z k Hk). ring.
Qed.
End Eig.

Lemma exists_nonzero n (f : nat -> RC) : (~ forall k, k < n -> f k = c0) -> exists k, k < n /\ f k <> c0.
Proof.
  induction n as [|n IH]; intros H; [exfalso; apply H; lia|]. destruct (classic_c0 (f n)) as [Z|N]; [|exists n; split; [lia|auto]].
  destruct IH as (k & Hk & P); [|exists k; split; [lia|auto]]. intros G. apply H. intros k Hk. destruct (Nat.eq_dec k n) as [->|Q]; auto. apply G; lia.
Qed.
Lemma modulus_modulus z : modulus (cofk (modulus z : RField)) = modulus z.
Proof.
  unfold modulus at 1. unfold cnorm2, cofk; cbn. rewrite Rmult_0_l, Rplus_0_r. apply sqrt_square. apply modulus_nonneg.
Qed.
(** the lines of an energy spectrum *)
Theorem spectrum cmap eigh (hams : list (op RField)) x_val d : color_map cmap -> eigh_ok eigh d hams -> hams <> [] -> Forall (is_hermitian (S:=CStar RField) d : op RField -> Prop) hams ->
  length x_val = length hams ->
  exists ls, plot_energy_spectrum cmap eigh hams x_val true = Ok ls /\ length ls = d /\
  forall i, i < d -> exists y c, nth_error ls i = Some (x_val, y, Some c) /\ length y = length hams /\ wfa [length hams; 3] c /\
  forall n H, nth_error hams n = Some H -> exists V, is_unitary d V /\ eigenpair d H V i (nth n y 0%R) /\
    is_mixture d (basis_colors cmap d) (fun a => modulus (V.[a,i])) (fun j => get2 0%R c n j).
Proof.
  intros CM EO NE FH LX. unfold plot_energy_spectrum. destruct hams as [|h0 hs] eqn:EH; [congruence|]. rewrite <- EH in *. clear NE.
  assert (D : nr h0 = d).
  { rewrite EH in FH. inversion FH as [|? ? HH _]; subst. destruct HH as [[SH _] _]. unfold nr, dim0. now rewrite SH. }
  rewrite D.
  assert (CK : forallb (fun h => Nat.eqb (nr h) d && Nat.eqb (nc h) d) hams = true).
  { apply forallb_forall. intros h Hh. rewrite Forall_forall in FH. destruct (FH h Hh) as [[SH _] _]. unfold nr, nc, dim0, dim1. rewrite SH. cbn. now rewrite !Nat.eqb_refl. }
  rewrite CK. clear CK.
  set (W n := snd (eigh (nth n hams (Arr [] [])))). set (w n := fst (eigh (nth n hams (Arr [] [])))).
  assert (EG : forall n, n < length hams -> is_eigendecomposition (F:=RField) d (nth n hams (Arr [] [])) (map (fun e => cofk (e : RField)) (w n)) (W n)).
  { intros n Hn. apply EO; [now apply nth_In|]. rewrite Forall_forall in FH. apply FH. now apply nth_In. }
  set (N := length hams) in *.
  set (v i := mk2 N d (fun n a => (cofk (rabs (mg (S:=CStar RField) (W n) a i) : RField) : RC))).
  assert (CO : forall i, i < d -> exists c, vector_color_map cmap (v i) = Ok c /\ wfa [N; 3] c /\
    forall r, r < N -> is_mixture d (basis_colors cmap d) (fun a => modulus (get2 (c0 : RC) (v i) r a)) (fun j => get2 0%R c r j)).
  { intros i Hi. apply colors_ok; auto; [apply wfa_mk2|]. intros r Hr. destruct (EG r Hr) as (_ & _ & (_ & U & _) & _).
    destruct (@exists_nonzero d (fun a => mg (S:=CStar RField) (W r) a i)) as (a & Ha & NZ).
    - apply (@column_nonzero (CStar RField) d (fun a b => mg (S:=CStar RField) (W r) a b) i); auto. intros Q. injection Q as Q. lra.
    - exists a. split; auto. unfold v. rewrite get2_mk2 by auto. intros Q. apply modulus_positive in NZ. assert (rabs (mg (S:=CStar RField) (W r) a i) = 0%R) by (injection Q; auto). rewrite rabs_modulus in H. lra. }
  set (y i := map (fun n => nth i (w n) 0%R) (seq 0 N)).
  assert (LY : forall i, length (y i) = N) by (intros i; unfold y; now rewrite map_length, seq_length).
  rewrite (@mapM_Ok _ _ _ (fun i => (x_val, y i, Some (match vector_color_map cmap (v i) with Ok c => c | Err _ => Arr [] [] end)))).
  2:{ intros i Hi. apply in_seq in Hi. destruct (CO i ltac:(lia)) as (c & E & _). change (mk2 N d _) with (v i). rewrite E. cbn [bind]. change (map _ _) with (y i). unfold draw. rewrite LY, LX. unfold N. rewrite Nat.eqb_refl. reflexivity. }
  eexists. split; [reflexivity|]. split; [now rewrite map_length, seq_length|]. intros i Hi. destruct (CO i Hi) as (c & E & WC & M).
  exists (y i), c. split; [|split; [apply LY|split; [exact WC|]]].
  { rewrite (map_nth_error _ _ _ (d:=i)); [now rewrite E|]. rewrite (nth_error_nth' _ 0) by now rewrite seq_length. now rewrite seq_nth. }
  intros n H EN. assert (Hn : n < N) by (apply nth_error_Some; congruence). exists (W n). destruct (EG n Hn) as (_ & L & U & EE). rewrite map_length in L.
  assert (EHn : nth n hams (Arr [] []) = H) by now apply nth_error_nth.
  split; [exact U|]. split.
  - unfold y. rewrite (nth_indep _ 0%R (nth i (w 0) 0%R)) by now rewrite map_length, seq_length. rewrite (map_nth (fun n => nth i (w n) 0%R)), seq_nth by auto. cbn [plus].
    intros a Ha. rewrite <- EHn. destruct U as (_ & U & _).
    etransitivity; [exact (@columns_eigen (CStar RField) d (fun a b => mg (S:=CStar RField) (nth n hams (Arr [] [])) a b) (fun a b => mg (S:=CStar RField) (W n) a b) (fun k => nth k (map (fun e => cofk (e : RField)) (w n)) c0) U EE i a Hi Ha)|].
    cbn beta. apply (f_equal (fun z => cmul z _)). rewrite (nth_indep _ c0 (cofk (0%R : RField))) by now rewrite map_length, L. now rewrite (map_nth (fun e => cofk (e : RField))).
  - destruct (M n Hn) as ((s & Ps & Es) & R1 & R2). split; [|split; auto]. exists s. split; auto. intros j Hj. rewrite Es by auto. apply Rsum_ext. intros a Ha.
    unfold v. rewrite get2_mk2 by auto. apply (f_equal (fun z => Rmult z _)). exact (modulus_modulus _).
Qed.
(** the same without colours *)
Theorem spectrum_black cmap eigh (hams : list (op RField)) x_val d : eigh_ok eigh d hams -> hams <> [] -> Forall (is_hermitian (S:=CStar RField) d : op RField -> Prop) hams ->
  length x_val = length hams ->
  exists ls, plot_energy_spectrum cmap eigh hams x_val false = Ok ls /\ length ls = d /\
  forall i, i < d -> exists y, nth_error ls i = Some (x_val, y, None) /\ length y = length hams /\
  forall n H, nth_error hams n = Some H -> exists V, is_unitary d V /\ eigenpair d H V i (nth n y 0%R).
Proof.
  intros EO NE FH LX. unfold plot_energy_spectrum. destruct hams as [|h0 hs] eqn:EH; [congruence|]. rewrite <- EH in *. clear NE.
  assert (D : nr h0 = d).
  { rewrite EH in FH. inversion FH as [|? ? HH _]; subst. destruct HH as [[SH _] _]. unfold nr, dim0. now rewrite SH. }
  rewrite D.
  assert (CK : forallb (fun h => Nat.eqb (nr h) d && Nat.eqb (nc h) d) hams = true).
  { apply forallb_forall. intros h Hh. rewrite Forall_forall in FH. destruct (FH h Hh) as [[SH _] _]. unfold nr, nc, dim0, dim1. rewrite SH. cbn. now rewrite !Nat.eqb_refl. }
  rewrite CK. clear CK.
  set (W n := snd (eigh (nth n hams (Arr [] [])))). set (w n := fst (eigh (nth n hams (Arr [] [])))).
  assert (EG : forall n, n < length hams -> is_eigendecomposition (F:=RField) d (nth n hams (Arr [] [])) (map (fun e => cofk (e : RField)) (w n)) (W n)).
  { intros n Hn. apply EO; [now apply nth_In|]. rewrite Forall_forall in FH. apply FH. now apply nth_In. }
  set (N := length hams) in *.
  set (y i := map (fun n => nth i (w n) 0%R) (seq 0 N)).
  assert (LY : forall i, length (y i) = N) by (intros i; unfold y; now rewrite map_length, seq_length).
  rewrite (@mapM_Ok _ _ _ (fun i => (x_val, y i, None) : scatter)).
  2:{ intros i Hi. change (map _ _) with (y i). unfold draw. rewrite LY, LX. unfold N. rewrite Nat.eqb_refl. reflexivity. }
  eexists. split; [reflexivity|]. split; [now rewrite map_length, seq_length|]. intros i Hi.
  exists (y i). split; [|split; [apply LY|]].
  { rewrite (map_nth_error _ _ _ (d:=i)); [reflexivity|]. rewrite (nth_error_nth' _ 0) by now rewrite seq_length. now rewrite seq_nth. }
  intros n H EN. assert (Hn : n < N) by (apply nth_error_Some; congruence). exists (W n). destruct (EG n Hn) as (_ & L & U & EE). rewrite map_length in L.
  assert (EHn : nth n hams (Arr [] []) = H) by now apply nth_error_nth.
  split; [exact U|].
  unfold y. rewrite (nth_indep _ 0%R (nth i (w 0) 0%R)) by now rewrite map_length, seq_length. rewrite (map_nth (fun n => nth i (w n) 0%R)), seq_nth by auto. cbn [plus].
  intros a Ha. rewrite <- EHn. destruct U as (_ & U & _).
  etransitivity; [exact (@columns_eigen (CStar RField) d (fun a b => mg (S:=CStar RField) (nth n hams (Arr [] [])) a b) (fun a b => mg (S:=CStar RField) (W n) a b) (fun k => nth k (map (fun e => cofk (e : RField)) (w n)) c0) U EE i a Hi Ha)|].
  cbn beta. apply (f_equal (fun z => cmul z _)). rewrite (nth_indep _ c0 (cofk (0%R : RField))) by now rewrite map_length, L. now rewrite (map_nth (fun e => cofk (e : RField))).
Qed.

Theorem spectrum_errors cmap eigh (hams : list (op RField)) x_val b : (hams = [] -> plot_energy_spectrum cmap eigh hams x_val b = Err IndexError) /\
  (forall d, d <> 0 -> color_map cmap -> eigh_ok eigh d hams -> hams <> [] -> Forall (is_hermitian (S:=CStar RField) d : op RField -> Prop) hams -> length x_val <> length hams ->
    plot_energy_spectrum cmap eigh hams x_val b = Err ValueError).
Proof.
  split; [intros ->; reflexivity|]. intros d Hd CM EO NE FH LX.
  set (x' := repeat 0%R (length hams)). assert (LX' : length x' = length hams) by apply repeat_length.
  destruct b.
  - destruct (spectrum x' CM EO NE FH LX') as (ls & E & L & P).
    unfold plot_energy_spectrum in *. destruct hams as [|h0 hs] eqn:EH; [congruence|]. rewrite <- EH in *. destruct (forallb _ _); [|discriminate].
    destruct (nr h0) as [|k] eqn:K; [cbn in E; injection E as <-; cbn in L; congruence|]. cbn [seq mapM] in *.
    destruct (vector_color_map cmap _) as [c|]; cbn [bind] in *; [|discriminate]. unfold draw at 1. rewrite map_length, seq_length. now rewrite (proj2 (Nat.eqb_neq _ _) LX).
  - destruct (spectrum_black cmap x' EO NE FH LX') as (ls & E & L & P).
    unfold plot_energy_spectrum in *. destruct hams as [|h0 hs] eqn:EH; [congruence|]. rewrite <- EH in *. destruct (forallb _ _); [|discriminate].
    destruct (nr h0) as [|k] eqn:K; [cbn in E; injection E as <-; cbn in L; congruence|]. cbn [seq mapM] in *. unfold draw at 1. rewrite map_length, seq_length. now rewrite (proj2 (Nat.eqb_neq _ _) LX).
Qed.
