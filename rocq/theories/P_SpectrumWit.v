(** Concrete cases for C82: matplotlib's map brg, two Hamiltonians of a qubit, and vectors given as columns. *)
Require Import List Arith Lia Bool Reals Lra.
From Verif Require Import LibBase LibRing LibArr LibCplx LibMat M_Matrix S_Linear P_Linear S_Deriv P_Amplitude M_Spectrum S_Spectrum P_Spectrum.
Import ListNotations.
Local Open Scope res_scope.
Set Implicit Arguments.

(** 'brg' of matplotlib: blue, red, green, linear in between *)
Definition brg (x : R) : list R := [1 - Rabs (2 * x - 1); Rmax 0 (2 * x - 1); Rmax 0 (1 - 2 * x); 1]%R.
Lemma brg_map : color_map brg.
Proof.
  intros x [A B]. exists (1 - Rabs (2 * x - 1))%R, (Rmax 0 (2 * x - 1))%R, (Rmax 0 (1 - 2 * x))%R, 1%R. split; [reflexivity|].
  destruct (Rle_or_lt (2 * x - 1) 0) as [L|L].
  - rewrite (Rabs_left1 _ L). rewrite (Rmax_left 0 (2 * x - 1)) by lra. rewrite (Rmax_right 0 (1 - 2 * x)) by lra. repeat split; try lra.
  - rewrite (Rabs_pos_eq (2 * x - 1)) by lra. rewrite (Rmax_right 0 (2 * x - 1)) by lra. rewrite (Rmax_left 0 (1 - 2 * x)) by lra. repeat split; try lra.
Qed.
Lemma brg0 : brg 0 = [0; 0; 1; 1]%R.
Proof. unfold brg. rewrite (Rabs_left1 (2 * 0 - 1)) by lra. rewrite (Rmax_left 0 (2 * 0 - 1)) by lra. rewrite (Rmax_right 0 (1 - 2 * 0)) by lra. repeat f_equal; lra. Qed.
Lemma brgh : brg (1/2) = [1; 0; 0; 1]%R.
Proof. unfold brg. replace (2 * (1/2) - 1)%R with 0%R by lra. replace (1 - 2 * (1/2))%R with 0%R by lra. rewrite Rabs_R0. rewrite (Rmax_left 0 0) by lra. repeat f_equal; lra. Qed.
Lemma brg1 : brg 1 = [0; 1; 0; 1]%R.
Proof. unfold brg. rewrite (Rabs_pos_eq (2 * 1 - 1)) by lra. rewrite (Rmax_right 0 (2 * 1 - 1)) by lra. rewrite (Rmax_left 0 (1 - 2 * 1)) by lra. repeat f_equal; lra. Qed.
Lemma modulus_real (x : R) : (0 <= x)%R -> modulus ((x, 0%R) : RC) = x.
Proof. intros H. unfold modulus, cnorm2. cbn. rewrite Rmult_0_l, Rplus_0_r. now apply sqrt_square. Qed.
Lemma modulus_neg (x : R) : (x <= 0)%R -> modulus ((x, 0%R) : RC) = (- x)%R.
Proof. intros H. unfold modulus, cnorm2. cbn. rewrite Rmult_0_l, Rplus_0_r. replace (x * x)%R with ((- x) * (- x))%R by ring. apply sqrt_square. lra. Qed.

(** a cyclic permutation: every row and every column is a basis vector *)
Definition cyc : arr RC := mk2 3 3 (fun i j => if Nat.eqb j ((i + 1) mod 3) then (1%R, 0%R) else (0%R, 0%R)).
Lemma cyc_entry i j : i < 3 -> j < 3 -> modulus (get2 (c0 : RC) cyc i j) = if Nat.eqb j ((i + 1) mod 3) then 1%R else 0%R.
Proof. intros Hi Hj. unfold cyc. rewrite get2_mk2 by auto. destruct (Nat.eqb _ _); apply modulus_real; lra. Qed.
Lemma cyc_row i : i < 3 -> exists j, j < 3 /\ get2 (c0 : RC) cyc i j <> c0.
Proof.
  intros Hi. exists ((i + 1) mod 3). split; [apply Nat.mod_upper_bound; lia|]. unfold cyc. rewrite get2_mk2; [|lia|apply Nat.mod_upper_bound; lia]. rewrite Nat.eqb_refl. intros Q. injection Q. lra.
Qed.
Lemma cyc_col j : j < 3 -> exists i, i < 3 /\ get2 (c0 : RC) cyc i j <> c0.
Proof.
  intros Hj. exists ((j + 2) mod 3). split; [apply Nat.mod_upper_bound; lia|]. destruct j as [|[|[|j]]]; try lia; cbn; intros Q; injection Q; lra.
Qed.
Lemma brg3 i j : i < 3 -> basis_colors brg 3 i j = nth j (nth i [[0;0;1;1]; [1;0;0;1]; [0;1;0;1]]%R []) 0%R.
Proof.
  intros Hi. unfold basis_colors. destruct i as [|[|[|i]]]; try lia; cbn [nth].
  - replace (INR 0 / INR 2)%R with 0%R by (cbn; lra). now rewrite brg0.
  - replace (INR 1 / INR 2)%R with (1/2)%R by (cbn; lra). now rewrite brgh.
  - replace (INR 2 / INR 2)%R with 1%R by (cbn; lra). now rewrite brg1.
Qed.
(** the documentation says that the vectors are the columns and so are the colours *)
Theorem columns_wrong : exists c, vector_color_map brg cyc = Ok c /\ wfa [3; 3] c /\
  (forall q, q < 3 -> ~ is_mixture 3 (basis_colors brg 3) (fun i => modulus (get2 (c0 : RC) cyc i q)) (fun j => get2 0%R c j q)).
Proof.
  destruct (colors_ok brg_map (v:=cyc) (n:=3) (k:=3) (wfa_mk2 _ _ _) cyc_row) as (c & E & W & M). exists c. split; auto. split; auto.
  intros q Hq ((s & Ps & Es) & _).
  destruct q as [|[|[|q]]]; try lia.
  - pose proof (Es 0 ltac:(lia)) as A. destruct (M 0 ltac:(lia)) as ((s' & Ps' & Es') & _). pose proof (Es' 0 ltac:(lia)) as B.
    cbn [Rsum] in A, B. rewrite !cyc_entry, !brg3 in A, B by lia. cbn in A, B. assert (get2 0%R c 0 0 = 0)%R by (apply Rmult_eq_reg_l with s; lra). rewrite H in B. lra.
  - pose proof (Es 2 ltac:(lia)) as A. destruct (M 2 ltac:(lia)) as ((s' & Ps' & Es') & _). pose proof (Es' 1 ltac:(lia)) as B.
    cbn [Rsum] in A, B. rewrite !cyc_entry, !brg3 in A, B by lia. cbn in A, B. assert (get2 0%R c 2 1 = 0)%R by (apply Rmult_eq_reg_l with s'; lra). rewrite H in A. lra.
  - pose proof (Es 0 ltac:(lia)) as A. destruct (M 0 ltac:(lia)) as ((s' & Ps' & Es') & _). pose proof (Es' 2 ltac:(lia)) as B.
    cbn [Rsum] in A, B. rewrite !cyc_entry, !brg3 in A, B by lia. cbn in A, B. assert (get2 0%R c 0 2 = 0)%R by (apply Rmult_eq_reg_l with s'; lra). rewrite H in A. lra.
Qed.

(** a qubit: 25 |v><v| with v = (4/5, -3/5), and diag(1, 2) *)
Definition rr (x : R) : RC := (x, 0%R).
Definition m22 (a b c d : R) : op RField := Arr [2; 2] [rr a; rr b; rr c; rr d].
Definition hA : op RField := m22 16 (-12) (-12) 9.
Definition hB : op RField := m22 1 0 0 2.
Definition eighAB (h : op RField) : list R * op RField :=
  if Req_EM_T (fst (mg (S:=CStar RField) h 0 1)) 0 then ([1; 2]%R, m22 1 0 0 1) else ([0; 25]%R, m22 (3/5) (4/5) (4/5) (-3/5)).
Lemma eighA : eighAB hA = ([0; 25]%R, m22 (3/5) (4/5) (4/5) (-3/5)).
Proof. unfold eighAB. cbn. destruct (Req_EM_T (-12) 0); [lra|reflexivity]. Qed.
Lemma eighB : eighAB hB = ([1; 2]%R, m22 1 0 0 1).
Proof. unfold eighAB. cbn. destruct (Req_EM_T 0 0); [reflexivity|lra]. Qed.
Lemma two (i : nat) : i < 2 -> i = 0 \/ i = 1. Proof. lia. Qed.
Ltac two22 := intros; repeat match goal with H : ?i < 2 |- _ => destruct (two H); clear H; subst end; unfold m22, rr, mg, get2, delta; cbn; unfold rr, cadd, cmul, cconj, cofk, c0, c1; cbn; f_equal; lra.
Lemma hAB_herm : Forall (is_hermitian (S:=CStar RField) 2 : op RField -> Prop) [hA; hB].
Proof. apply Forall_cons; [|apply Forall_cons; [|apply Forall_nil]]; (split; [split; reflexivity|]); two22. Qed.
Lemma eighAB_ok : eigh_ok eighAB 2 [hA; hB].
Proof.
  intros H [<-|[<-|[]]] _; [rewrite eighA|rewrite eighB]; (split; [split; reflexivity|]); (split; [reflexivity|]); (split; [split; [split; reflexivity|split; two22]|two22]).
Qed.
Lemma brg2 i j : i < 2 -> basis_colors brg 2 i j = nth j (nth i [[0;0;1;1]; [0;1;0;1]]%R []) 0%R.
Proof.
  intros Hi. unfold basis_colors. destruct (two Hi); subst; cbn [nth].
  - replace (INR 0 / INR 1)%R with 0%R by (cbn; lra). now rewrite brg0.
  - replace (INR 1 / INR 1)%R with 1%R by (cbn; lra). now rewrite brg1.
Qed.
(** weights 3 : 4 of blue and green *)
Lemma mix_case (w c : nat -> R) : w 0 = (3/5)%R -> w 1 = (4/5)%R -> is_mixture 2 (basis_colors brg 2) w c -> c 0 = 0%R /\ c 1 = 1%R /\ c 2 = (3/4)%R.
Proof.
  intros W0 W1 M. assert (M' : is_mixture 2 (basis_colors brg 2) w (fun j => nth j [0; 1; 3/4]%R 0%R)).
  { split; [|split].
    - exists (4/5)%R. split; [lra|]. intros j Hj. cbn [Rsum]. rewrite W0, W1, !brg2 by lia. destruct j as [|[|[|j]]]; try lia; cbn; lra.
    - intros j Hj. destruct j as [|[|[|j]]]; try lia; cbn; lra.
    - exists 1. split; auto. }
  pose proof (fun j => mixture_unique (l:=1%R) ltac:(lra) (fun i (_ : i < 2) => eq_sym (Rmult_1_l (w i))) M' M (j:=j)) as Q.
  repeat split; [exact (Q 0 ltac:(lia))|exact (Q 1 ltac:(lia))|exact (Q 2 ltac:(lia))].
Qed.
Definition vcase : arr RC := Arr [2; 2] [rr (3/5); (0, 4/5)%R; rr 30; (-40, 0)%R].
Lemma vcase_rows r : r < 2 -> exists i, i < 2 /\ get2 (c0 : RC) vcase r i <> c0.
Proof. intros Hr. exists 0. split; [lia|]. destruct (two Hr); subst; intros Q; injection Q; lra. Qed.
Lemma modulus_i (x : R) : (0 <= x)%R -> modulus ((0%R, x) : RC) = x.
Proof. intros H. unfold modulus, cnorm2. cbn. rewrite Rmult_0_l, Rplus_0_l. now apply sqrt_square. Qed.
Theorem vcase_colors : exists c, vector_color_map brg vcase = Ok c /\ forall r, r < 2 -> (get2 0 c r 0 = 0 /\ get2 0 c r 1 = 1 /\ get2 0 c r 2 = 3/4)%R.
Proof.
  destruct (colors_ok brg_map (v:=vcase) (n:=2) (k:=2) (conj eq_refl eq_refl) vcase_rows) as (c & E & W & M). exists c. split; auto. intros r Hr. specialize (M r Hr).
  destruct (two Hr); subst.
  - apply (mix_case (w:=fun i => modulus (get2 (c0 : RC) vcase 0 i))); auto; [exact (modulus_real (x:=3/5) ltac:(lra))|exact (modulus_i (x:=4/5) ltac:(lra))].
  - assert (M' : is_mixture 2 (basis_colors brg 2) (fun i => nth i [3/5; 4/5]%R 0%R) (fun j => nth j [0; 1; 3/4]%R 0%R)).
    { split; [|split].
      - exists (4/5)%R. split; [lra|]. intros j Hj. cbn [Rsum]. rewrite !brg2 by lia. destruct j as [|[|[|j]]]; try lia; cbn; lra.
      - intros j Hj. destruct j as [|[|[|j]]]; try lia; cbn; lra.
      - exists 1. split; auto. }
    assert (SC : forall i, i < 2 -> modulus (get2 (c0 : RC) vcase 1 i) = (50 * nth i [3/5; 4/5] 0)%R).
    { intros i Hi. destruct (two Hi); subst; unfold vcase, get2; cbn; unfold rr; [rewrite modulus_real by lra|rewrite modulus_neg by lra]; lra. }
    pose proof (fun j => mixture_unique (l:=50%R) ltac:(lra) SC M' M (j:=j)) as Q.
    repeat split; [exact (Q 0 ltac:(lia))|exact (Q 1 ltac:(lia))|exact (Q 2 ltac:(lia))].
Qed.
Theorem spectrum_case : plot_energy_spectrum brg eighAB [hA; hB] [0; 1]%R false = Ok [([0; 1]%R, [0; 1]%R, None); ([0; 1]%R, [25; 2]%R, None)].
Proof.
  unfold plot_energy_spectrum. cbn [length seq mapM map nth]. rewrite eighA, eighB. cbn [fst snd nth]. reflexivity.
Qed.
(** a basis vector gets its basis colour, as bright as possible *)
Theorem colors_basis cmap (v : arr RC) n k c r i : color_map cmap -> wfa [n; k] v -> (forall r', r' < n -> exists i', i' < k /\ get2 (c0 : RC) v r' i' <> c0) ->
  vector_color_map cmap v = Ok c -> r < n -> i < k -> (forall i', i' < k -> i' <> i -> get2 (c0 : RC) v r i' = c0) ->
  exists s, (0 < s)%R /\ forall j, j < 3 -> basis_colors cmap k i j = (s * get2 0%R c r j)%R.
Proof.
  intros CM W NZ E Hr Hi Z. destruct (colors_ok CM W NZ) as (c' & E' & _ & M). rewrite E in E'. injection E' as <-.
  destruct (M r Hr) as ((s & Ps & Es) & _). set (m := modulus (get2 (c0 : RC) v r i)).
  assert (Pm : (0 < m)%R).
  { apply modulus_positive. intros Q. destruct (NZ r Hr) as (i' & Hi' & N). apply N. destruct (Nat.eq_dec i' i) as [->|D]; auto. }
  exists (s / m)%R. split; [apply Rdiv_lt_0_compat; auto|]. intros j Hj. specialize (Es j Hj).
  rewrite (Rsum_single (n:=k) (k:=i)) in Es; auto.
  - fold m in Es. replace (s / m * get2 0%R c r j)%R with (s * get2 0%R c r j / m)%R by (field; lra). rewrite Es. field. lra.
  - intros i' Hi' D. rewrite (Z i' Hi' D). assert (Q : modulus c0 = 0%R) by (exact (modulus_real (x:=0%R) (Rle_refl 0))). rewrite Q. ring.
Qed.
