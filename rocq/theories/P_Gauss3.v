(** Proofs for C85: the two-dimensional samples. *)
Require Import List Arith Reals Lra Lia ZArith.
From Verif Require Import LibBase S_Gauss LibGauss LibGauss2 P_Gauss M_Bell P_Gauss2.
Import ListNotations.
Local Open Scope R_scope.
Set Implicit Arguments.

(** ---- the selection ---- *)
Lemma weight_S {A} (c : R * A) cells k : weight (c :: cells) (S k) = fst c + weight cells k. Proof. reflexivity. Qed.
Lemma weight_0 {A} (cells : list (R * A)) : weight cells 0 = 0. Proof. destruct cells; reflexivity. Qed.
Lemma weight_nonneg {A} (cells : list (R * A)) : Forall (fun c => 0 <= fst c) cells -> forall k, 0 <= weight cells k.
Proof. induction 1; intros [|k]; try (rewrite weight_0; lra); [unfold weight; simpl; lra|]. rewrite weight_S. specialize (IHForall k). lra. Qed.
Section Select.
Variable n : nat.
Let d := / (INR n + 1).
Lemma d_pos : 0 < d. Proof. unfold d. apply Rinv_0_lt_compat. pose proof (pos_INR n). lra. Qed.
Lemma select_spec : forall cells cum it, Forall (fun c => 0 <= fst c <= d) cells -> cum <= INR it * d ->
  (forall k, (k < length (select n cells cum it))%nat <-> INR (it + k) * d < cum + weight cells (length cells))
  /\ (forall k xy, nth_error (select n cells cum it) k = Some xy -> exists i p, nth_error cells i = Some (p, xy) /\ INR (it + k) * d < cum + weight cells (S i) /\ forall j, (j <= i)%nat -> cum + weight cells j <= INR (it + k) * d).
Proof.
  pose proof d_pos as D. induction cells as [|[p xy] rest IH]; intros cum it F C.
  - split.
    + intros k. simpl. rewrite plus_INR. unfold weight. simpl. split; [lia|]. intros H. pose proof (pos_INR k). nra.
    + intros [|k] xy; discriminate.
  - inversion F as [|? ? P F']; subst. cbn [fst] in P. cbn [select]. change (INR it / (INR n + 1)) with (INR it * d). destruct (Rlt_dec (INR it * d) (cum + p)) as [L|L].
    + destruct (IH (cum + p) (S it) F') as [A B]. { rewrite S_INR. lra. }
      split.
      * intros [|k]; cbn [length].
        -- rewrite Nat.add_0_r, weight_S. cbn [fst]. split; [|lia]. intros _. assert (0 <= weight rest (length rest)) by (apply weight_nonneg; eapply Forall_impl; [|exact F']; cbv beta; intros; lra). lra.
        -- rewrite weight_S. cbn [fst]. rewrite <- Nat.succ_lt_mono, A. replace (S it + k)%nat with (it + S k)%nat by lia. rewrite Rplus_assoc. reflexivity.
      * intros [|k] xy' E; cbn [nth_error] in E.
        -- injection E as <-. exists 0%nat, p. split; [reflexivity|]. rewrite Nat.add_0_r, weight_S, weight_0. cbn [fst]. split; [lra|]. intros j Hj. replace j with 0%nat by lia. rewrite weight_0. lra.
        -- destruct (B k xy' E) as (i & p' & E1 & E2 & E3). exists (S i), p'. split; [exact E1|]. replace (S it + k)%nat with (it + S k)%nat in * by lia. rewrite weight_S. cbn [fst]. split; [lra|]. intros [|j] Hj.
           ++ rewrite weight_0, plus_INR. pose proof (pos_INR (S k)). nra.
           ++ rewrite weight_S. cbn [fst]. specialize (E3 j ltac:(lia)). lra.
    + destruct (IH (cum + p) it F') as [A B]; [lra|]. split.
      * intros k. cbn [length]. rewrite weight_S. cbn [fst]. rewrite A. rewrite Rplus_assoc. reflexivity.
      * intros k xy' E. destruct (B k xy' E) as (i & p' & E1 & E2 & E3). exists (S i), p'. split; [exact E1|]. rewrite weight_S. cbn [fst]. split; [lra|]. intros [|j] Hj.
        -- rewrite weight_0, plus_INR. pose proof (pos_INR k). nra.
        -- rewrite weight_S. cbn [fst]. specialize (E3 j ltac:(lia)). lra.
Qed.
Lemma select_length cells : forall cum it, (length (select n cells cum it) <= length cells)%nat.
Proof. induction cells as [|[p xy] rest IH]; intros; [auto|]. cbn [select length]. destruct (Rlt_dec _ _); cbn [length]; [specialize (IH (cum + p) (S it))|specialize (IH (cum + p) it)]; lia. Qed.
Lemma select_all cells : Forall (fun c => 0 <= fst c <= d) cells -> INR n * d < weight cells (length cells) -> weight cells (length cells) <= 1 ->
  length (select n cells 0 1) = n /\ forall k xy, nth_error (select n cells 0 1) k = Some xy -> exists i p, nth_error cells i = Some (p, xy) /\ first_above cells ((INR k + 1) / (INR n + 1)) i.
Proof.
  intros F T1 T2. pose proof d_pos as D. destruct (@select_spec cells 0 1%nat F) as [A B]. { simpl. lra. } split.
  - set (l := length (select n cells 0 1)) in *. assert (U : (l <= n)%nat).
    { destruct (le_lt_dec l n) as [|L]; auto. apply A in L. rewrite plus_INR in L. change (INR 1) with 1 in L. assert (X : (1 + INR n) * d = 1) by (unfold d; field; pose proof (pos_INR n); lra). lra. }
    destruct n as [|n'] eqn:En; [lia|]. assert (V : (n' < l)%nat). { apply A. rewrite Nat.add_1_l. lra. } lia.
  - intros k xy E. destruct (B k xy E) as (i & p & E1 & E2 & E3). exists i, p. split; auto. rewrite plus_INR in E2. change (INR 1) with 1 in *. split; [apply nth_error_Some; congruence|]. change ((INR k + 1) / (INR n + 1)) with ((INR k + 1) * d). split; [lra|].
    intros j Hj. specialize (E3 j Hj). rewrite plus_INR in E3. change (INR 1) with 1 in E3. lra.
Qed.
End Select.

(** ---- the cells ---- *)
Section Grid.
Variables (A : Type) (f : nat -> nat -> A) (m : nat).
Let row (i : nat) := map (f i) (seq 0 m).
Lemma row_len i : length (row i) = m. Proof. unfold row. now rewrite map_length, seq_length. Qed.
Lemma flat_len l : length (flat_map row l) = (length l * m)%nat.
Proof. induction l; simpl; auto. now rewrite app_length, row_len, IHl. Qed.
Lemma flat_nth l i j x : (j < m)%nat -> nth_error l i = Some x -> nth_error (flat_map row l) (i * m + j) = Some (f x j).
Proof.
  intros J. revert i. induction l as [|a l IH]; intros [|i] E; try discriminate.
  - injection E as ->. cbn [flat_map]. rewrite Nat.mul_0_l, Nat.add_0_l. rewrite nth_error_app1 by (rewrite row_len; auto). unfold row. rewrite nth_error_map. rewrite (nth_error_nth' (seq 0 m) 0%nat) by (now rewrite seq_length). cbn [option_map]. now rewrite seq_nth.
  - cbn [flat_map]. rewrite nth_error_app2 by (rewrite row_len; lia). rewrite row_len. replace (S i * m + j - m)%nat with (i * m + j)%nat by lia. now apply IH.
Qed.
Lemma flat_in l x : In x (flat_map row l) -> exists i j, In i l /\ (j < m)%nat /\ x = f i j.
Proof. intros H. apply in_flat_map in H. destruct H as (i & Hi & Hx). apply in_map_iff in Hx. destruct Hx as (j & E & Hj). apply in_seq in Hj. exists i, j. repeat split; auto. lia. Qed.
End Grid.
Definition wsum {A} (l : list (R * A)) : R := fold_right (fun c a => fst c + a) 0 l.
Lemma weight_all {A} (l : list (R * A)) : weight l (length l) = wsum l. Proof. unfold weight. now rewrite firstn_all. Qed.
Lemma wsum_app {A} (l l' : list (R * A)) : wsum (l ++ l') = wsum l + wsum l'.
Proof. induction l; simpl; [ring|]. rewrite IHl. ring. Qed.
Lemma wsum_seq {A} (h : nat -> R * A) n : wsum (map h (seq 0 n)) = rs n (fun i => fst (h i)).
Proof. induction n; [reflexivity|]. rewrite seq_S, map_app, wsum_app, IHn. cbn [map wsum fold_right add_up Nat.add]. ring. Qed.
Lemma wsum_flat {A} (h : nat -> list (R * A)) n : wsum (flat_map h (seq 0 n)) = rs n (fun i => wsum (h i)).
Proof. induction n; [reflexivity|]. rewrite seq_S, flat_map_app, wsum_app, IHn. cbn [flat_map add_up Nat.add]. rewrite app_nil_r. reflexivity. Qed.
Lemma np_sum_rs n f : np_sum n f = rs n f.
Proof. unfold np_sum. induction n; [reflexivity|]. rewrite seq_S, fold_left_app, IHn. reflexivity. Qed.

(** ---- the shares ---- *)
Definition e_ (i : nat) : R := exp (- ((INR i / 1000 - 5) * (INR i / 1000 - 5) / 2)).
Lemma e_pos i : 0 < e_ i. Proof. apply exp_pos. Qed.
Lemma e_le i : e_ i <= 1. Proof. rewrite <- exp_0. unfold e_. destruct (Req_dec (INR i / 1000 - 5) 0) as [->|N]; [right; f_equal; field|left; apply exp_increasing; nra]. Qed.
Lemma rs_pos f n : (forall i, 0 < f i) -> n <> 0%nat -> 0 < rs n f.
Proof. intros H N. replace 0 with (rs n (fun _ => 0)) by (clear; induction n; simpl; [auto|rewrite IHn; ring]). apply rs_lt; auto. Qed.
Lemma rs_nonneg f n : (forall i, 0 <= f i) -> 0 <= rs n f.
Proof. intros H. induction n; simpl; [lra|]. specialize (H n). lra. Qed.
Lemma rs_const_le c f a k n : (forall i, 0 <= f i) -> (forall i, (a <= i < a + k)%nat -> c <= f i) -> (a + k <= n)%nat -> INR k * c <= rs n f.
Proof.
  intros P H L. assert (B : INR k * c <= rs (a + k) f).
  { clear L. induction k. { simpl. pose proof (rs_nonneg f (a + 0) P). lra. } rewrite S_INR, Nat.add_succ_r. cbn [add_up]. specialize (IHk ltac:(intros; apply H; lia)). specialize (H (a + k)%nat ltac:(lia)). lra. }
  eapply Rle_trans; [exact B|]. clear - P L. induction L; [lra|]. cbn [add_up]. specialize (P m). lra.
Qed.
Definition Es : R := rs (S side) e_.
Lemma inr_Z z : (0 <= z)%Z -> INR (Z.to_nat z) = IZR z. Proof. intros H. now rewrite INR_IZR_INZ, Z2Nat.id. Qed.
Lemma Es_ge : 2000 * exp (- (1 / 2)) <= Es.
Proof.
  replace 2000 with (INR (Z.to_nat 2000)) by (rewrite inr_Z; [reflexivity|lia]). apply rs_const_le with (a := Z.to_nat 4000).
  - intros i. left. apply e_pos.
  - intros i [L U]. apply le_INR in L. rewrite inr_Z in L by lia. assert (U' : (i <= Z.to_nat 6000)%nat) by lia. apply le_INR in U'. rewrite inr_Z in U' by lia. unfold e_.
    set (x := INR i / 1000 - 5). assert (X : -1 <= x <= 1) by (unfold x; lra). destruct (Req_dec (x * x) 1) as [->|N]; [lra|]. left. apply exp_increasing. nra.
  - unfold side. lia.
Qed.
Lemma Es_pos : 0 < Es. Proof. apply rs_pos; [apply e_pos|discriminate]. Qed.
Lemma density_e std i : std <> 0 -> normal_density (Rabs std) 0 (grid_point std i) = / (Rabs std * sqrt (2 * PI)) * e_ i.
Proof.
  intros H. unfold normal_density, e_, grid_point. f_equal. f_equal. f_equal. rewrite <- Rabs_mult. rewrite (Rabs_right (std * std)) by nra. field. auto.
Qed.
Lemma share_e std i : std <> 0 -> grid_share std i = e_ i / Es.
Proof.
  intros H. unfold grid_share, Es. pose proof (Rabs_pos_lt std H). pose proof sqrt_2pi_pos. rewrite (rs_ext _ (fun i => / (Rabs std * sqrt (2 * PI)) * e_ i)) by (intros; now apply density_e). rewrite rs_scal, density_e by auto. pose proof Es_pos as P. unfold Es in P. field. repeat split; lra.
Qed.
Lemma mgrid_point std i : mgrid std i = grid_point std i. Proof. unfold mgrid, grid_point. field. Qed.
Lemma distribution_share s1 s2 i j : s1 <> 0 -> s2 <> 0 -> distribution s1 s2 i j = grid_share s1 i * grid_share s2 j.
Proof.
  intros H1 H2. assert (B : forall i j, bell2 (mgrid s1 i) s1 (mgrid s2 j) s2 = 1 / 2 / PI / s1 / s2 * e_ i * e_ j).
  { intros a b. rewrite !mgrid_point. unfold bell2, grid_point, e_. rewrite Rmult_assoc, <- exp_plus. f_equal. f_equal. field. auto. }
  unfold distribution. rewrite B. rewrite np_sum_rs. rewrite (rs_ext _ (fun a => 1 / 2 / PI / s1 / s2 * Es * e_ a)).
  - rewrite rs_scal. replace npoints with (S side) by (unfold npoints, side; lia). fold Es. rewrite !share_e by auto. pose proof Es_pos. pose proof pi_pos. field. repeat split; lra.
  - intros a Ha. rewrite np_sum_rs. rewrite (rs_ext _ (fun b => 1 / 2 / PI / s1 / s2 * e_ a * e_ b)) by (intros; apply B). rewrite rs_scal. replace npoints with (S side) by (unfold npoints, side; lia). fold Es. ring.
Qed.
Lemma cells_grid s1 s2 : s1 <> 0 -> s2 <> 0 -> is_grid s1 s2 (loop_cells s1 s2).
Proof.
  intros H1 H2. unfold loop_cells. fold side. split.
  - rewrite (flat_len (fun i j => (distribution s1 s2 i j, (mgrid s1 i, mgrid s2 j))) side). now rewrite seq_length.
  - intros i j Hi Hj. rewrite (flat_nth (fun i j => (distribution s1 s2 i j, (mgrid s1 i, mgrid s2 j))) (seq 0 side) i (x := i) Hj).
    + now rewrite distribution_share, !mgrid_point.
    + rewrite (nth_error_nth' (seq 0 side) 0%nat) by (now rewrite seq_length). now rewrite seq_nth.
Qed.
Lemma exp_half : exp (- (1 / 2)) * exp (- (1 / 2)) * 3 >= 1.
Proof. rewrite <- exp_plus. replace (- (1 / 2) + - (1 / 2)) with (Ropp 1) by lra. rewrite exp_Ropp. pose proof exp_le_3. pose proof (exp_pos 1). assert (/ 3 <= / exp 1) by (apply Rinv_le_contravar; lra). lra. Qed.
Lemma cells_small s1 s2 n : s1 <> 0 -> s2 <> 0 -> INR n + 1 <= 1000000 -> Forall (fun c => 0 <= fst c <= / (INR n + 1)) (loop_cells s1 s2).
Proof.
  intros H1 H2 N. apply Forall_forall. intros c Hc. unfold loop_cells in Hc. fold side in Hc. apply (flat_in (fun i j => (distribution s1 s2 i j, (mgrid s1 i, mgrid s2 j))) side) in Hc. destruct Hc as (i & j & _ & _ & ->). cbn [fst]. rewrite distribution_share, !share_e by auto.
  pose proof Es_pos as P. pose proof Es_ge as G. pose proof exp_half as X. set (t := exp (- (1 / 2))) in *. assert (T : 0 < t) by apply exp_pos. pose proof (e_pos i). pose proof (e_pos j). pose proof (e_le i). pose proof (e_le j).
  replace (e_ i / Es * (e_ j / Es)) with (e_ i * e_ j * / (Es * Es)) by (field; lra). assert (I : 0 < / (Es * Es)) by (apply Rinv_0_lt_compat; nra). assert (M : 0 < e_ i * e_ j <= 1) by (split; nra). split; [nra|].
  apply Rle_trans with (/ (Es * Es)); [nra|]. apply Rinv_le_contravar; [pose proof (pos_INR n); lra|]. apply Rle_trans with (2000 * t * (2000 * t)); [nra|]. apply Rmult_le_compat; nra.
Qed.
Lemma cells_total s1 s2 : s1 <> 0 -> s2 <> 0 -> weight (loop_cells s1 s2) (length (loop_cells s1 s2)) = (1 - e_ side / Es) * (1 - e_ side / Es).
Proof.
  intros H1 H2. rewrite weight_all. unfold loop_cells. fold side. rewrite wsum_flat. rewrite (rs_ext _ (fun i => (1 - e_ side / Es) / Es * e_ i)).
  - rewrite rs_scal. assert (E : rs side e_ = Es - e_ side) by (unfold Es; cbn [add_up]; ring). rewrite E. pose proof Es_pos. field. lra.
  - intros i Hi. rewrite wsum_seq. cbn [fst]. rewrite (rs_ext _ (fun j => e_ i / Es / Es * e_ j)).
    + rewrite rs_scal. assert (E : rs side e_ = Es - e_ side) by (unfold Es; cbn [add_up]; ring). rewrite E. pose proof Es_pos. field. lra.
    + intros j Hj. rewrite distribution_share, !share_e by auto. pose proof Es_pos. field. lra.
Qed.
Lemma exp_12 : 4096 < exp 12.
Proof.
  pose proof (exp_ineq1 1 ltac:(lra)) as X. assert (E2 : exp 2 = exp 1 * exp 1) by (rewrite <- exp_plus; f_equal; ring). assert (E4 : exp 4 = exp 2 * exp 2) by (rewrite <- exp_plus; f_equal; ring). assert (E8 : exp 8 = exp 4 * exp 4) by (rewrite <- exp_plus; f_equal; ring).
  assert (E12 : exp 12 = exp 8 * exp 4) by (rewrite <- exp_plus; f_equal; ring). assert (4 < exp 2) by nra. assert (16 < exp 4) by nra. assert (256 < exp 8) by nra. nra.
Qed.
Lemma last_small : 0 < e_ side / Es <= / 4096000.
Proof.
  pose proof Es_pos as P. split; [apply Rdiv_lt_0_compat; [apply e_pos|auto]|]. pose proof Es_ge as G. pose proof exp_12 as X. set (t := exp (- (1 / 2))) in *. assert (T : 0 < t) by apply exp_pos.
  assert (E : e_ side = t * / exp 12). { unfold e_, t, side. rewrite inr_Z by lia. rewrite <- exp_Ropp, <- exp_plus. f_equal. lra. }
  assert (I : / exp 12 <= / 4096) by (apply Rinv_le_contravar; lra). apply Rmult_le_reg_r with Es; auto. replace (e_ side / Es * Es) with (e_ side) by (field; lra). rewrite E. nra.
Qed.

Theorem two_dim s1 s2 n : s1 <> 0 -> s2 <> 0 -> (n < Z.to_nat 1000000)%nat ->
  exists xs ys cells, sample_2dim s1 s2 n = Ok (xs, ys) /\ length xs = n /\ length ys = n /\ is_grid s1 s2 cells /\
   forall k, (k < n)%nat -> exists i p, first_above cells ((INR k + 1) / (INR n + 1)) i /\ nth_error cells i = Some (p, (nth k xs 0, nth k ys 0)).
Proof.
  intros H1 H2 Hn. assert (N : INR n + 1 <= 1000000). { rewrite <- S_INR. rewrite <- (@inr_Z 1000000) by lia. apply le_INR. lia. }
  unfold sample_2dim. destruct (Req_EM_T s1 0); [contradiction|]. destruct (Req_EM_T s2 0); [contradiction|]. set (cells := loop_cells s1 s2).
  pose proof last_small as L. set (al := e_ side / Es) in *. pose proof (cells_total H1 H2) as T. fold cells al in T. pose proof (pos_INR n) as Pn.
  destruct (@select_all n cells (@cells_small s1 s2 n H1 H2 N)) as [S1 S2].
  { rewrite T. assert (X : / 1000000 <= / (INR n + 1)) by (apply Rinv_le_contravar; lra). replace (INR n * / (INR n + 1)) with (1 - / (INR n + 1)) by (field; lra). nra. }
  { rewrite T. nra. }
  set (l := select n cells 0 1) in *. exists (map fst l), (map snd l), cells. split; [reflexivity|]. rewrite !map_length. split; auto. split; auto. split; [now apply cells_grid|].
  intros k Hk. assert (E : nth_error l k = Some (nth k l (0, 0))) by (apply nth_error_nth'; lia). destruct (S2 _ _ E) as (i & p & E1 & E2). exists i, p. split; auto. rewrite E1. do 2 f_equal.
  rewrite (map_nth fst l (0, 0) k : nth k (map fst l) 0 = _), (map_nth snd l (0, 0) k : nth k (map snd l) 0 = _). now destruct (nth k l (0, 0)).
Qed.
Theorem two_dim_few s1 s2 n : s1 <> 0 -> s2 <> 0 -> (side * side < n)%nat -> exists xs ys, sample_2dim s1 s2 n = Ok (xs, ys) /\ (length xs < n)%nat.
Proof.
  intros H1 H2 Hn. unfold sample_2dim. destruct (Req_EM_T s1 0); [contradiction|]. destruct (Req_EM_T s2 0); [contradiction|]. eexists _, _. split; [reflexivity|]. rewrite map_length.
  pose proof (select_length n (loop_cells s1 s2) 0 1) as L. rewrite (proj1 (cells_grid H1 H2)) in L. lia.
Qed.
