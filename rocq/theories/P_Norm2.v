(** Proofs for C88, part 2: singular values, the evolution. *)
Require Import List Arith Lia Bool ZArith Reals Lra.
From Verif Require Import LibBase LibRing LibArr LibCplx LibMat LibNorm LibDeriv LibSeries M_Matrix S_Linear P_Linear P_Matrix P_Svd M_Norm S_Norm
  M_OpHeap M_Transfer S_Transfer M_Amplitude M_Solver S_Solver S_Sensitive P_Solver7 P_Solver9 P_Sensitive P_Sensitive3 P_Sensitive2 S_Invariance P_Invariance2 P_Norm.
Import ListNotations.
Local Open Scope res_scope.
Set Implicit Arguments.

Section Norm.
Add Field Cfield_no2 : (c_field RField).
Variable la : LinAlg RField.
Notation op := (op RField).
Notation mm := (mmul (S:=RS)).
Notation md := (mdag (S:=RS)).
Notation hsn := (hsnorm2 (F:=RField)).
Notation fz m n A := (sqrt (hsn m n A)).

Lemma vl_size n v : vector_length n v = size n v.
Proof. unfold vector_length, size. f_equal. apply rsum_ext. intros i Hi. apply mod_sq. Qed.
Lemma list_map (s : list R) : s = map (fun k => nth k s 0%R) (seq 0 (length s)).
Proof.
  induction s as [|x s IH]; [reflexivity|]. cbn [length seq map nth]. f_equal. rewrite IH at 1. rewrite <- seq_shift, map_map. reflexivity.
Qed.
Lemma fold_sum (s : list R) : fold_left Rplus s 0%R = RSum (length s) (fun k => nth k s 0%R).
Proof.
  assert (G : forall a, fold_left Rplus s a = (a + RSum (length s) (fun k => nth k s 0%R))%R).
  { induction s as [|x s IH]; intros a; cbn [fold_left length]; [cbn; lra|]. rewrite IH. rewrite (@sumn_S_l (KStar RField)). cbn [nth]. cbn. lra. }
  rewrite G. lra.
Qed.
Lemma sq_sum n (f : nat -> R) : (forall k, k < n -> (0 <= f k)%R) -> (RSum n (fun k => f k * f k) <= RSum n f * RSum n f)%R.
Proof.
  intros H. induction n; cbn [sumn]; [cbn; lra|]. assert (H1 := IHn (fun i Hi => H i ltac:(lia))). assert (H2 := H n ltac:(lia)). assert (H3 := @rsum_pos n f (fun i Hi => H i ltac:(lia))). cbn in *.
  set (a := RSum n f) in *. set (b := RSum n (fun k => (f k * f k)%R)) in *. clearbody a b. nra.
Qed.
Section Svd.
Variables (n : nat) (A U : op) (s : list R) (W : op).
Hypothesis SV : is_svd (F:=RField) n A U s W.
Notation D := (@sdiag RField n s).
Notation sk k := (nth k s 0%R).

Lemma sv_pos k : k < n -> (0 <= sk k)%R.
Proof. intros Hk. destruct SV as (_ & _ & _ & _ & H & _). apply r_leb_le. exact (H k Hk). Qed.
Lemma sv_hs : hsn n n A = RSum n (fun k => sk k * sk k)%R.
Proof.
  destruct (svd_m SV) as (HA & HU & HW & E & _). assert (WD : wfm n n D) by (unfold sdiag; wf_solve). assert (WU := proj1 HU). assert (WW := proj1 HW). rewrite E at 1.
  rewrite hs_unitary_r by (auto; wf_solve). rewrite hs_unitary_l by auto. unfold hsnorm2. apply rsum_ext. intros i Hi. rewrite (@rsum_ext n _ (fun j => if Nat.eqb i j then sk i * sk i else 0)%R).
  - clear - Hi. assert (G : forall m, RSum m (fun j => if Nat.eqb i j then sk i * sk i else 0)%R = if Nat.ltb i m then (sk i * sk i)%R else 0%R).
    { induction m; [reflexivity|]. cbn [sumn]. rewrite IHm. destruct (Nat.ltb_spec i m), (Nat.ltb_spec i (S m)), (Nat.eqb_spec i m); try lia; cbn; lra. }
    rewrite G. destruct (Nat.ltb_spec i n); [reflexivity|lia].
  - intros j Hj. unfold sdiag. rewrite mg_mdiag by auto. unfold kd. destruct (Nat.eqb_spec i j) as [<-|N]; unfold cnorm2, cofk; cbn; ring.
Qed.
Lemma image_svd v i : i < n -> image n A v i = mv n U (fun k => cmul (cofk (sk k : RField)) (mv n W v k)) i.
Proof.
  intros Hi. destruct (svd_m SV) as (HA & HU & HW & E & _). assert (WD : wfm n n D) by (unfold sdiag; wf_solve). assert (WU := proj1 HU). assert (WW := proj1 HW).
  change (image n A v i) with (mv n A v i). rewrite E. rewrite mv_mm by (auto; wf_solve). rewrite mv_mm by auto. apply mv_ext. intros j Hj. unfold mv at 1.
  rewrite (@sumn_ext RS n _ (fun l => smul (kd (S:=RS) j l) (smul (cofk (sk j : RField)) (mv n W v l)))).
  - rewrite (@sumn_kd_l RS) by auto. reflexivity.
  - intros l Hl. unfold sdiag. rewrite mg_mdiag by auto. cbn. tocplx. cring.
Qed.
Lemma image_size v : size n (image n A v) = size n (fun k => cmul (cofk (sk k : RField)) (mv n W v k)).
Proof. destruct (svd_m SV) as (_ & HU & _). rewrite (size_ext _ (mv n U (fun k => cmul (cofk (sk k : RField)) (mv n W v k)))) by (intros; now apply image_svd). now apply size_unitary. Qed.
Lemma cn_scale (x : R) (z : RC) : cnorm2 (cmul (cofk (x : RField)) z) = (x * x * cnorm2 z)%R.
Proof. rewrite cnorm2_mul. f_equal. unfold cnorm2, cofk. cbn. ring. Qed.
Lemma spectral_bound x v : largest n (fun k => sk k) x -> (size n (image n A v) <= x * size n v)%R.
Proof.
  intros ((k & Hk & Ex) & M). destruct (svd_m SV) as (_ & _ & HW & _). rewrite image_size, <- (size_unitary v HW). assert (Px : (0 <= x)%R) by (rewrite <- Ex; now apply sv_pos).
  apply size_le; [apply Rmult_le_pos; [exact Px|apply size_pos]|]. replace (x * size n (mv n W v) * (x * size n (mv n W v)))%R with (x * x * (size n (mv n W v) * size n (mv n W v)))%R by ring. rewrite size_sq.
  unfold vnorm2. rewrite <- rsum_scale. apply rsum_le. intros i Hi. rewrite cn_scale. apply Rmult_le_compat_r; [rewrite <- mod_sq; apply Rmult_le_pos; apply mod_pos|].
  pose proof (sv_pos Hi). pose proof (M i Hi). cbn beta in *. nra.
Qed.
Lemma stretch_attained x k : k < n -> sk k = x -> exists v, size n v = 1%R /\ size n (image n A v) = x.
Proof.
  intros Hk Ex. destruct (svd_m SV) as (_ & _ & HW & _). pose proof HW as (WW & W1 & W2).
  set (e := fun i => if Nat.eqb i k then c1 else c0 : RC). assert (UD : munitary (S:=RS) n (md W)) by (split; [wf_solve|]; rewrite (@mdag_mdag RS n n) by auto; now split).
  assert (one : forall m (c : R), RSum m (fun i => if Nat.eqb i k then c else 0)%R = if Nat.ltb k m then c else 0%R).
  { clear. induction m; intros c; [reflexivity|]. cbn [sumn]. rewrite IHm. destruct (Nat.ltb_spec k m), (Nat.ltb_spec k (S m)), (Nat.eqb_spec m k); try lia; cbn; lra. }
  exists (mv n (md W) e). split.
  - rewrite (size_unitary e UD). unfold size. rewrite (@rsum_ext n _ (fun i => if Nat.eqb i k then 1 else 0)%R).
    + rewrite one. destruct (Nat.ltb_spec k n); [apply sqrt_1|lia].
    + intros i Hi. unfold e. destruct (Nat.eqb i k); unfold cnorm2, c1, c0; cbn; ring.
  - rewrite image_size. assert (B : forall i, i < n -> mv n W (mv n (md W) e) i = e i).
    { intros i Hi. rewrite <- mv_mm by (auto; wf_solve). rewrite W2. unfold mv. rewrite (@sumn_ext RS n _ (fun j => smul (kd (S:=RS) i j) (e j))) by (intros j Hj; now rewrite mg_mid). now rewrite (@sumn_kd_l RS) by auto. }
    unfold size. rewrite (@rsum_ext n _ (fun i => if Nat.eqb i k then x * x else 0)%R).
    + rewrite one. destruct (Nat.ltb_spec k n); [|lia]. apply sqrt_square. rewrite <- Ex. now apply sv_pos.
    + intros i Hi. rewrite B by auto. rewrite cn_scale. unfold e. destruct (Nat.eqb_spec i k) as [->|N]; [rewrite <- Ex|]; unfold cnorm2, c1, c0; cbn; ring.
Qed.
Lemma spectral_attained x : largest n (fun k => sk k) x -> exists v, size n v = 1%R /\ size n (image n A v) = x.
Proof. intros ((k & Hk & Ex) & _). now apply stretch_attained with k. Qed.
Lemma smallest_bound x v : smallest n (fun k => sk k) x -> (x * size n v <= size n (image n A v))%R.
Proof.
  intros ((k & Hk & Ex) & M). destruct (svd_m SV) as (_ & _ & HW & _). rewrite image_size, <- (size_unitary v HW). assert (Px : (0 <= x)%R) by (rewrite <- Ex; now apply sv_pos).
  rewrite <- (sqrt_square (x * size n (mv n W v))) by (apply Rmult_le_pos; [exact Px|apply size_pos]). unfold size at 3. apply sqrt_le_1_alt.
  replace (x * size n (mv n W v) * (x * size n (mv n W v)))%R with (x * x * (size n (mv n W v) * size n (mv n W v)))%R by ring. rewrite size_sq.
  unfold vnorm2. rewrite <- rsum_scale. apply rsum_le. intros i Hi. rewrite cn_scale. apply Rmult_le_compat_r; [rewrite <- mod_sq; apply Rmult_le_pos; apply mod_pos|].
  pose proof (sv_pos Hi). pose proof (M i Hi). cbn beta in *. nra.
Qed.
Hypothesis LS : la_svd la A = (U, s, W).
Lemma smallest_value : 0 < n -> exists x, op_norm la (NInt (-2)) A = Ok x /\ (forall v, (x * vector_length n v <= vector_length n (image n A v))%R) /\
  exists v, vector_length n v = 1%R /\ vector_length n (image n A v) = x.
Proof.
  intros Hn. assert (L : length s = n) by apply SV. destruct (@np_min_ok n (fun k => sk k) Hn) as (x & E & G). exists x.
  split; [cbn [op_norm]; rewrite LS; cbn [fst snd]; rewrite (list_map s); rewrite L; exact E|]. split.
  - intros v. rewrite !vl_size. now apply smallest_bound.
  - destruct G as ((k & Hk & Ex) & _). destruct (stretch_attained Hk Ex) as (v & H1 & H2). exists v. rewrite !vl_size. now split.
Qed.
Lemma two_ok x : op_norm la (NInt 2) A = Ok x -> largest n (fun k => sk k) x.
Proof.
  intros H. assert (L : length s = n) by apply SV. cbn [op_norm] in H. rewrite LS in H. cbn [fst snd] in H. rewrite (list_map s) in H. rewrite L in H. destruct n; [discriminate|].
  destruct (@np_max_ok (S n0) (fun k => sk k)) as (y & E & G); [lia|]. rewrite E in H. injection H as <-. exact G.
Qed.
Lemma spectral_value : 0 < n -> exists x y z, op_norm la (NInt 2) A = Ok x /\ op_norm la NFro A = Ok y /\ op_norm la NNuc A = Ok z /\ (x <= y <= z)%R /\ (y <= sqrt (INR n) * x)%R /\
  (forall v, (vector_length n (image n A v) <= x * vector_length n v)%R) /\ exists v, vector_length n v = 1%R /\ vector_length n (image n A v) = x.
Proof.
  intros Hn. assert (L : length s = n) by apply SV. assert (HA : wfm n n A) by apply (svd_m SV).
  destruct (@np_max_ok n (fun k => sk k) Hn) as (x & E & G). exists x, (fz n n A), (RSum n (fun k => sk k)).
  assert (E2 : op_norm la (NInt 2) A = Ok x). { cbn [op_norm]. rewrite LS. cbn [fst snd]. rewrite (list_map s). rewrite L. exact E. }
  assert (P : forall k, k < n -> (0 <= sk k)%R) by (intros; now apply sv_pos). assert (P2 : forall k, k < n -> (0 <= sk k * sk k)%R) by (intros; apply Rmult_le_pos; now apply P).
  split; [exact E2|]. split; [now apply fro_ok|]. split; [cbn [op_norm]; rewrite LS; cbn [fst snd]; rewrite fold_sum; now rewrite L|]. rewrite sv_hs. destruct G as ((k & Hk & Ex) & M).
  assert (Px : (0 <= x)%R) by (rewrite <- Ex; now apply P). split; [split|split; [|split]].
  - rewrite <- (sqrt_square x Px). apply sqrt_le_1_alt. rewrite <- Ex. exact (@rsum_term n (fun k => sk k * sk k)%R k P2 Hk).
  - rewrite <- (sqrt_square (RSum n (fun k => sk k))) by (now apply rsum_pos). apply sqrt_le_1_alt. now apply sq_sum.
  - rewrite <- (sqrt_square x Px) at 1. rewrite <- sqrt_mult by (auto using pos_INR; nra). apply sqrt_le_1_alt. apply Rle_trans with (RSum n (fun _ => x * x)%R).
    + apply rsum_le. intros i Hi. pose proof (P i Hi). pose proof (M i Hi). cbn beta in *. nra.
    + right. clear. induction n; [cbn; ring|]. rewrite S_INR. cbn [sumn]. rewrite IHn0. cbn. ring.
  - intros v. rewrite !vl_size. apply spectral_bound. split; eauto.
  - destruct (@spectral_attained x) as (v & H1 & H2); [split; eauto|]. exists v. rewrite !vl_size. now split.
Qed.
End Svd.
Lemma spectral_product n (A B P UA WA UB WB UP WP : op) sA sB sP x y z : is_svd (F:=RField) n A UA sA WA -> la_svd la A = (UA, sA, WA) -> is_svd (F:=RField) n B UB sB WB -> la_svd la B = (UB, sB, WB) ->
  is_svd (F:=RField) n P UP sP WP -> la_svd la P = (UP, sP, WP) -> op_mul (F:=RField) A (ODense B) = Ok P ->
  op_norm la (NInt 2) A = Ok x -> op_norm la (NInt 2) B = Ok y -> op_norm la (NInt 2) P = Ok z -> (z <= x * y)%R.
Proof.
  intros SA LA SB LB SP LP E HA HB HP. assert (WWA : wfm n n A) by apply (svd_m SA). assert (WWB : wfm n n B) by apply (svd_m SB). rewrite (op_mul_dense WWA WWB) in E. injection E as <-.
  pose proof (two_ok SA LA HA) as GA. pose proof (two_ok SB LB HB) as GB. destruct (spectral_attained SP (two_ok SP LP HP)) as (v & H1 & H2). rewrite <- H2.
  rewrite (size_ext _ (image n A (image n B v))) by (intros i Hi; exact (@mv_mm n A B v i WWA WWB Hi)).
  eapply Rle_trans; [apply (spectral_bound SA _ GA)|]. apply Rmult_le_compat_l; [destruct GA as ((k & Hk & <-) & _); apply (sv_pos SA Hk)|]. eapply Rle_trans; [apply (spectral_bound SB _ GB)|]. rewrite H1. lra.
Qed.
(** ---- the evolution ---- *)
Lemma col_norm n k (f : op) : hsn n k f = RSum k (fun x => size n (fun i => mg (f : mat RS) i x) * size n (fun i => mg (f : mat RS) i x))%R.
Proof. unfold hsnorm2. rewrite (@sumn_swap (KStar RField) n k). apply rsum_ext. intros x Hx. rewrite size_sq. reflexivity. Qed.
Lemma evolution_norm (rexp : R -> R) (la' : LinAlg RField) eps (s : @st RField) n k u ps fs t f : evolution rexp la' eps s n k u ps fs -> hermitian_system n s -> nth_error fs t = Some f ->
  op_norm la NFro f = op_norm la NFro (c_init (s_conf s)).
Proof.
  intros E HS Hf. destruct (steps E) as (_ & L & N0 & WF & _). assert (Ht : t <= length (s_time s)) by (assert (t < length fs) by (apply nth_error_Some; congruence); lia).
  rewrite (fro_ok _ (WF t f Hf)), (fro_ok _ (WF 0 _ N0)). f_equal. f_equal. rewrite !col_norm. apply rsum_ext. intros x Hx.
  rewrite (path_size (evolution_path E HS Ht) N0 Hf Hx). reflexivity.
Qed.
End Norm.
