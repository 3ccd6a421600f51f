(** Oversampling (C14, C15), shapes, and the gradient as the transposed linear map (C16). *)
Require Import List Arith Lia Ring Field Bool.
From Verif Require Import LibBase LibRing LibArr LibCplx LibSum M_Transfer S_Transfer P_Transfer P_Transfer2.
Import ListNotations.
Open Scope res_scope.
Set Implicit Arguments.

Section P.
Variable F : OField.
Variable rexp : F -> F.
Add Field Kfield_pt3 : (k_field F).
Notation K := (KStar F).
Notation arrF := (arr (kcar F)).
Notation base := (base F).
Notation tf := (tf F).
Implicit Types (t : tf) (b : base) (y g : arrF).

Lemma bi_lt d i : i < d -> bi d i = i.
Proof. unfold bi. destruct (Nat.eqb_spec d 1); lia. Qed.
Lemma lab_same a : lab a a = Ok a.
Proof. unfold lab. now rewrite Nat.eqb_refl. Qed.
Lemma einsum_call_ok m n p (T y : arrF) : wfa [m; n; p] T -> wfa [n; p] y ->
  einsum_call T y = Ok (mk2 m p (fun i k => sumn (S:=K) n (fun j => kmul (get3 k0 T i j k) (get2 k0 y j k)))).
Proof.
  intros HT Hy. destruct (dim_wfa3 HT) as [T0 [T1 [T2 T3]]], (dim_wfa2 Hy) as [Y0 [Y1 Y2]].
  unfold einsum_call. rewrite T0, T1, T2, T3, Y0, Y1, Y2, !lab_same. cbn [Nat.eqb andb bind]. apply (f_equal Ok). apply mk2_ext. intros i k Hi Hk.
  apply sumn_ext. intros j Hj. now rewrite !bi_lt.
Qed.
Lemma einsum_grad_ok m n p f (T g : arrF) : wfa [m; n; p] T -> wfa [m; f; p] g ->
  einsum_grad T g = Ok (mk3 n f p (fun j q k => sumn (S:=K) m (fun i => kmul (get3 k0 T i j k) (get3 k0 g i q k)))).
Proof.
  intros HT Hg. destruct (dim_wfa3 HT) as [T0 [T1 [T2 T3]]], (dim_wfa3 Hg) as [G0 [G1 [G2 G3]]].
  unfold einsum_grad. rewrite T0, T1, T2, T3, G0, G1, G2, G3, !lab_same. cbn [Nat.eqb andb bind]. apply (f_equal Ok). apply mk3_ext. intros i q k Hi Hq Hk.
  apply sumn_ext. intros j Hj. now rewrite !bi_lt.
Qed.
Lemma einsum_mat_ok m n l p (T2 T1 : arrF) : wfa [m; n; p] T2 -> wfa [n; l; p] T1 ->
  einsum_mat T2 T1 = Ok (mk3 m l p (fun i q k => sumn (S:=K) n (fun j => kmul (get3 k0 T2 i j k) (get3 k0 T1 j q k)))).
Proof.
  intros HT Hg. destruct (dim_wfa3 HT) as [A0 [A1 [A2 A3]]], (dim_wfa3 Hg) as [G0 [G1 [G2 G3]]].
  unfold einsum_mat. rewrite A0, A1, A2, A3, G0, G1, G2, G3, !lab_same. cbn [Nat.eqb andb bind]. apply (f_equal Ok). apply mk3_ext. intros i q k Hi Hq Hk.
  apply sumn_ext. intros j Hj. now rewrite !bi_lt.
Qed.
Lemma concat3_ok m n p q (A B : arrF) : wfa [m; n; p] A -> wfa [m; n; q] B ->
  concat3 A B = Ok (mk3 m n (p + q) (fun i j k => if Nat.ltb k p then get3 k0 A i j k else get3 k0 B i j (k - p))).
Proof.
  intros HA HB. destruct (dim_wfa3 HA) as [A0 [A1 [A2 A3]]], (dim_wfa3 HB) as [B0 [B1 [B2 B3]]].
  unfold concat3. rewrite A0, A1, A2, A3, B0, B1, B2, B3, !Nat.eqb_refl. reflexivity.
Qed.
Lemma concat3_inv m n p m' n' q (A B C : arrF) : wfa [m; n; p] A -> wfa [m'; n'; q] B -> concat3 A B = Ok C -> m' = m /\ n' = n.
Proof.
  intros HA HB. destruct (dim_wfa3 HA) as [A0 [A1 [A2 A3]]], (dim_wfa3 HB) as [B0 [B1 [B2 B3]]].
  unfold concat3. rewrite A0, A1, A3, B0, B1, B3. destruct (Nat.eqb_spec m m'), (Nat.eqb_spec n n'); cbn; try discriminate. auto.
Qed.
Lemma concat2_ok m p q (A B : arrF) : wfa [m; p] A -> wfa [m; q] B ->
  concat2 A B = Ok (mk2 m (p + q) (fun i k => if Nat.ltb k p then get2 k0 A i k else get2 k0 B i (k - p))).
Proof.
  intros HA HB. destruct (dim_wfa2 HA) as [A0 [A1 A3]], (dim_wfa2 HB) as [B0 [B1 B3]].
  unfold concat2. rewrite A0, A1, A3, B0, B1, B3, !Nat.eqb_refl. reflexivity.
Qed.
Lemma concat2_inv m p m' q (A B C : arrF) : wfa [m; p] A -> wfa [m'; q] B -> concat2 A B = Ok C -> m' = m.
Proof.
  intros HA HB. destruct (dim_wfa2 HA) as [A0 [A1 A3]], (dim_wfa2 HB) as [B0 [B1 B3]].
  unfold concat2. rewrite A0, A3, B0, B3. destruct (Nat.eqb_spec m m'); cbn; try discriminate. auto.
Qed.
Lemma cols_lo_wf m p q (y : arrF) : wfa [m; p + q] y -> wfa [m; p] (cols_lo p y).
Proof. intros H. destruct (dim_wfa2 H) as [A0 [A1 _]]. unfold cols_lo. rewrite A0, A1, Nat.min_l by lia. apply wfa_mk2. Qed.
Lemma cols_hi_wf m p q (y : arrF) : wfa [m; p + q] y -> wfa [m; q] (cols_hi p y).
Proof. intros H. destruct (dim_wfa2 H) as [A0 [A1 _]]. unfold cols_hi. rewrite A0, A1. replace (p + q - p) with q by lia. apply wfa_mk2. Qed.
Lemma cols_lo_get m p q (y : arrF) i k : wfa [m; p + q] y -> i < m -> k < p -> get2 k0 (cols_lo p y) i k = get2 k0 y i k.
Proof. intros H Hi Hk. destruct (dim_wfa2 H) as [A0 [A1 _]]. unfold cols_lo. rewrite A0, A1, Nat.min_l by lia. rewrite get2_mk2 by auto; reflexivity. Qed.
Lemma cols_hi_get m p q (y : arrF) i k : wfa [m; p + q] y -> i < m -> k < q -> get2 k0 (cols_hi p y) i k = get2 k0 y i (p + k).
Proof. intros H Hi Hk. destruct (dim_wfa2 H) as [A0 [A1 _]]. unfold cols_hi. rewrite A0, A1. replace (p + q - p) with q by lia. rewrite get2_mk2 by auto; reflexivity. Qed.
Lemma cols3_lo_wf m f p q (y : arrF) : wfa [m; f; p + q] y -> wfa [m; f; p] (cols3_lo p y).
Proof. intros H. destruct (dim_wfa3 H) as [A0 [A1 [A2 _]]]. unfold cols3_lo. rewrite A0, A1, A2, Nat.min_l by lia. apply wfa_mk3. Qed.
Lemma cols3_hi_wf m f p q (y : arrF) : wfa [m; f; p + q] y -> wfa [m; f; q] (cols3_hi p y).
Proof. intros H. destruct (dim_wfa3 H) as [A0 [A1 [A2 _]]]. unfold cols3_hi. rewrite A0, A1, A2. replace (p + q - p) with q by lia. apply wfa_mk3. Qed.
Lemma cols3_lo_get m f p q (y : arrF) i j k : wfa [m; f; p + q] y -> i < m -> j < f -> k < p -> get3 k0 (cols3_lo p y) i j k = get3 k0 y i j k.
Proof. intros H Hi Hj Hk. destruct (dim_wfa3 H) as [A0 [A1 [A2 _]]]. unfold cols3_lo. rewrite A0, A1, A2, Nat.min_l by lia. rewrite get3_mk3 by auto; reflexivity. Qed.
Lemma cols3_hi_get m f p q (y : arrF) i j k : wfa [m; f; p + q] y -> i < m -> j < f -> k < q -> get3 k0 (cols3_hi p y) i j k = get3 k0 y i j (p + k).
Proof. intros H Hi Hj Hk. destruct (dim_wfa3 H) as [A0 [A1 [A2 _]]]. unfold cols3_hi. rewrite A0, A1, A2. replace (p + q - p) with q by lia. rewrite get3_mk3 by auto; reflexivity. Qed.

(** ---- what build and set_times establish ---- *)
Fixpoint sane t : Prop :=
  match t with
  | Leaf KId b | Leaf (KConv _ _ _ _) b => b_bound b = None /\ b_os b = 1
  | Leaf KCustom _ => False
  | Leaf _ _ => True
  | Conc b x y | ConcM b x y => b_ctrls b = b_ctrls (tbase x) /\ b_ctrls (tbase x) = b_ctrls (tbase y) /\ sane x /\ sane y
  | Par b x y | ParM b x y => b_ctrls b = b_ctrls (tbase x) + b_ctrls (tbase y) /\ sane x /\ sane y
  end.
Lemma build_ctrls d t : build d = Ok t -> b_ctrls (tbase t) = ctrls d.
Proof.
  revert t. induction d; cbn [build ctrls]; intros t E; try (injection E as <-; reflexivity);
  destruct (build d1) as [x|]; try discriminate; cbn [bind] in E; destruct (build d2) as [y|]; try discriminate; cbn [bind] in E;
  unfold mk_par, mk_parM in E; repeat match type of E with (if ?c then _ else _) = _ => destruct c; [|discriminate] end; injection E as <-; cbn; rewrite ?(IHd1 x), ?(IHd2 y) by auto; auto.
Qed.
Lemma build_sane d t : build d = Ok t -> no_custom d -> matched d -> sane t.
Proof.
  revert t. induction d; cbn [build no_custom matched]; intros t E N M; try (injection E as <-; cbn; auto; fail); try tauto;
  destruct (build d1) as [x|] eqn:E1; try discriminate; cbn [bind] in E; destruct (build d2) as [y|] eqn:E2; try discriminate; cbn [bind] in E;
  unfold mk_par, mk_parM in E; repeat match type of E with (if ?c then _ else _) = _ => destruct c; [|discriminate] end; injection E as <-; cbn;
  rewrite ?(@build_ctrls _ _ E1), ?(@build_ctrls _ _ E2); repeat split; try tauto; try (apply IHd1; tauto); try (apply IHd2; tauto).
Qed.
Definition has_times b : Prop := exists ys, b_yt b = Some ys /\ b_ny b = length ys.
Fixpoint fits t : Prop :=
  match t with
  | Leaf KId b | Leaf (KConv _ _ _ _) b => has_times b /\ b_nx b = b_ny b
  | Leaf KOver b | Leaf KOverM b => has_times b /\ exists ps pe, padding b = Ok (ps, pe) /\ b_nx b = ps + b_os b * b_ny b + pe
  | Leaf (KExp _) b => has_times b
  | Leaf KCustom _ => False
  | Conc b x y | ConcM b x y => has_times b /\ b_ctrls b = b_ctrls (tbase x) /\ b_ctrls (tbase x) = b_ctrls (tbase y) /\
      b_ny b = b_ny (tbase x) /\ b_nx b = b_nx (tbase y) /\ b_nx (tbase x) = b_ny (tbase y) /\ fits x /\ fits y
  | Par b x y | ParM b x y => has_times b /\ b_ctrls b = b_ctrls (tbase x) + b_ctrls (tbase y) /\
      b_ny b = b_ny (tbase x) /\ b_ny b = b_ny (tbase y) /\ b_nx b = b_nx (tbase x) /\ fits x /\ fits y
  end.
Lemma sane_nc t : sane t -> t_no_custom t.
Proof. induction t; cbn; try tauto. destruct k; auto. Qed.
Lemma set_times_ctrls t ys t' r : t_no_custom t -> set_times t ys = (t', r) -> b_ctrls (tbase t') = b_ctrls (tbase t).
Proof. intros N E. pose proof (@set_times_skel F t ys N) as S. rewrite E in S. apply skel_base in S. symmetry. apply S. Qed.
Lemma set_times_fits t ys t' : sane t -> set_times t ys = (t', Ok tt) -> fits t'.
Proof.
  revert ys t'. induction t as [k b|b t1 IH1 t2 IH2|b t1 IH1 t2 IH2|b t1 IH1 t2 IH2|b t1 IH1 t2 IH2]; intros ys t' S.
  - rewrite set_times_leaf by (destruct k; cbn in S; congruence). destruct (set_times_base b ys) as [b' r] eqn:E. cbn [fst snd].
    intros [= <- ->]. destruct (set_times_base_ok _ _ E) as [ps [pe [xs [Hp [-> [Hg Hl]]]]]].
    assert (HT : has_times (set_tm b (length ys) (Some ys) (ps + b_os b * length ys + pe) (Some xs))) by (exists ys; auto).
    destruct k; cbn [fits]; try exact HT; cbn in S; try tauto.
    + split; [exact HT|]. cbn. destruct S as [S1 S2]. rewrite S1 in Hp. injection Hp as <- <-. lia.
    + split; [exact HT|]. exists ps, pe. split; [|reflexivity]. unfold pads, padding in *. cbn. destruct (b_bound b) as [[[] p]|]; congruence.
    + split; [exact HT|]. cbn. destruct S as [S1 S2]. rewrite S1 in Hp. injection Hp as <- <-. lia.
    + split; [exact HT|]. exists ps, pe. split; [|reflexivity]. unfold pads, padding in *. cbn. destruct (b_bound b) as [[[] p]|]; congruence.
  - destruct S as [S1 [S2 [S3 S4]]]. cbn [set_times]. destruct (set_times t1 ys) as [t1' [[]|e]] eqn:E1; [|discriminate].
    destruct (@set_times_grid F rexp t1 ys t1' (sane_nc _ S3) E1) as [A [B [xs [X [Y _]]]]]. rewrite X.
    destruct (set_times t2 xs) as [t2' [[]|e]] eqn:E2; [|discriminate]. intros [= <-].
    destruct (@set_times_grid F rexp t2 xs t2' (sane_nc _ S4) E2) as [A2 [B2 _]]. cbn.
    rewrite (@set_times_ctrls _ _ _ _ (sane_nc _ S3) E1), (@set_times_ctrls _ _ _ _ (sane_nc _ S4) E2).
    repeat split; auto; try congruence; try (eapply IH1; eassumption); try (eapply IH2; eassumption). exists ys. auto.
  - destruct S as [S2 [S3 S4]]. cbn [set_times]. destruct (set_times t1 ys) as [t1' [[]|e]] eqn:E1; [|discriminate].
    destruct (@set_times_grid F rexp t1 ys t1' (sane_nc _ S3) E1) as [A [B [xs [X [Y _]]]]].
    destruct (set_times t2 ys) as [t2' [[]|e]] eqn:E2; [|discriminate]. intros [= <-].
    destruct (@set_times_grid F rexp t2 ys t2' (sane_nc _ S4) E2) as [A2 [B2 _]]. cbn.
    rewrite (@set_times_ctrls _ _ _ _ (sane_nc _ S3) E1), (@set_times_ctrls _ _ _ _ (sane_nc _ S4) E2).
    repeat split; auto; try congruence; try (eapply IH1; eassumption); try (eapply IH2; eassumption). exists ys. auto.
  - destruct S as [S1 [S2 [S3 S4]]]. cbn [set_times]. destruct (set_times t1 ys) as [t1' [[]|e]] eqn:E1; [|discriminate].
    destruct (@set_times_grid F rexp t1 ys t1' (sane_nc _ S3) E1) as [A [B [xs [X [Y _]]]]]. rewrite X.
    destruct (set_times t2 xs) as [t2' [[]|e]] eqn:E2; [|discriminate]. intros [= <-].
    destruct (@set_times_grid F rexp t2 xs t2' (sane_nc _ S4) E2) as [A2 [B2 _]]. cbn.
    rewrite (@set_times_ctrls _ _ _ _ (sane_nc _ S3) E1), (@set_times_ctrls _ _ _ _ (sane_nc _ S4) E2).
    repeat split; auto; try congruence; try (eapply IH1; eassumption); try (eapply IH2; eassumption). exists ys. auto.
  - destruct S as [S2 [S3 S4]]. cbn [set_times]. destruct (set_times t1 ys) as [t1' [[]|e]] eqn:E1; [|discriminate].
    destruct (@set_times_grid F rexp t1 ys t1' (sane_nc _ S3) E1) as [A [B [xs [X [Y _]]]]].
    destruct (set_times t2 ys) as [t2' [[]|e]] eqn:E2; [|discriminate]. intros [= <-].
    destruct (@set_times_grid F rexp t2 ys t2' (sane_nc _ S4) E2) as [A2 [B2 _]]. cbn.
    rewrite (@set_times_ctrls _ _ _ _ (sane_nc _ S3) E1), (@set_times_ctrls _ _ _ _ (sane_nc _ S4) E2).
    repeat split; auto; try congruence; try (eapply IH1; eassumption); try (eapply IH2; eassumption). exists ys. auto.
Qed.

Lemma check_dims_ok b y : has_times b -> wfa [b_ny b; b_ctrls b] y -> check_dims b y = Ok tt.
Proof.
  intros [ys [E _]] H. destruct (dim_wfa2 H) as [A [B C]]. unfold check_dims. rewrite E, A, B, C, !Nat.eqb_refl. reflexivity.
Qed.
Lemma check_dims_bad b y sh : has_times b -> wfa sh y -> sh <> [b_ny b; b_ctrls b] -> check_dims b y = Err IndexError.
Proof.
  intros [ys [E _]] [H _] Hne. unfold check_dims, rank, dim0, dim1. rewrite E, H. destruct sh as [|a [|c [|d l]]]; try reflexivity. cbn [length Nat.eqb nth bind].
  destruct (Nat.eqb_spec a (b_ny b)); [|reflexivity]. destruct (Nat.eqb_spec c (b_ctrls b)); [|reflexivity]. congruence.
Qed.
Lemma check_grad_ok b g f : wfa [b_nx b; f; b_ctrls b] g -> check_grad b g = Ok tt.
Proof. intros H. destruct (dim_wfa3 H) as [A [B [C D]]]. unfold check_grad. now rewrite A, C, D, !Nat.eqb_refl. Qed.

(** ---- oversampling ---- *)
Lemma over_call_eq b y ps pe : has_times b -> padding b = Ok (ps, pe) -> wfa [b_ny b; b_ctrls b] y ->
  over_call b y = Ok (mk2 (ps + b_os b * b_ny b + pe) (b_ctrls b) (fun i k =>
        if Nat.ltb i ps then k0 else if Nat.ltb (i - ps) (b_os b * b_ny b) then get2 k0 y ((i - ps) / b_os b) k else k0)).
Proof.
  intros Ht Hp Hy. destruct (dim_wfa2 Hy) as [A _]. unfold over_call. rewrite (@check_dims_ok _ _ Ht Hy), Hp, A. reflexivity.
Qed.
Lemma over_grad_eq b g ps pe f : padding b = Ok (ps, pe) -> b_nx b = ps + b_os b * b_ny b + pe -> wfa [b_nx b; f; b_ctrls b] g ->
  over_grad b g = Ok (mk3 (b_ny b) f (b_ctrls b) (fun i q k => sumn (S:=K) (b_os b) (fun j => get3 k0 g (ps + (i * b_os b + j)) q k))).
Proof.
  intros Hp Hx Hg. pose proof (@check_grad_ok _ _ _ Hg) as E. destruct (dim_wfa3 Hg) as [A [B [C _]]]. unfold over_grad. rewrite E, Hp, A, B, C, Hx. cbn [bind].
  replace (ps + b_os b * b_ny b + pe - pe - ps) with (b_os b * b_ny b) by lia. rewrite (Nat.mul_comm (b_os b) (b_ny b)), Nat.eqb_refl. reflexivity.
Qed.
Lemma over_matrix_eq b ps pe : padding b = Ok (ps, pe) ->
  over_matrix b = Ok (mk3 (ps + b_os b * b_ny b + pe) (b_ny b) (b_ctrls b) (fun i j _ =>
        if Nat.ltb i ps then k0
        else if Nat.ltb (i - ps) (b_os b * b_ny b) then (if Nat.eqb ((i - ps) / b_os b) j then k1 else k0)
        else k0)).
Proof. intros Hp. unfold over_matrix. rewrite Hp. reflexivity. Qed.
Lemma over_div b i : i < b_os b * b_ny b -> i / b_os b < b_ny b.
Proof. intros H. apply Nat.div_lt_upper_bound; nia. Qed.

(** the sum of the entries selected by an indicator *)
Lemma sumn_indicator n i (f : nat -> F) : i < n -> sumn (S:=K) n (fun j => kmul (if Nat.eqb i j then k1 else k0) (f j)) = f i.
Proof.
  intros H. rewrite (@sumn_single K n i).
  - rewrite Nat.eqb_refl. keq F. ring.
  - auto.
  - intros j Hj Hne. destruct (Nat.eqb_spec i j); [congruence|]. keq F. ring.
Qed.
Lemma over_matrix_call b y ps pe T : has_times b -> padding b = Ok (ps, pe) -> wfa [b_ny b; b_ctrls b] y -> over_matrix b = Ok T ->
  einsum_call T y = over_call b y.
Proof.
  intros Ht Hp Hy E. rewrite (over_matrix_eq _ Hp) in E. injection E as <-. rewrite (over_call_eq Ht Hp Hy).
  rewrite (einsum_call_ok (wfa_mk3 _ _ _ _) Hy). apply (f_equal Ok). apply mk2_ext. intros i k Hi Hk.
  destruct (Nat.ltb_spec i ps) as [L|L]; [|destruct (Nat.ltb_spec (i - ps) (b_os b * b_ny b)) as [L2|L2]].
  - apply sumn_0. intros j Hj. rewrite get3_mk3 by lia. rewrite (proj2 (Nat.ltb_lt _ _) L). keq F. ring.
  - etransitivity; [|apply (@sumn_indicator (b_ny b) ((i - ps) / b_os b) (fun j => get2 k0 y j k)); now apply over_div].
    apply sumn_ext. intros j Hj. rewrite get3_mk3 by lia. rewrite (proj2 (Nat.ltb_ge _ _) L), (proj2 (Nat.ltb_lt _ _) L2). reflexivity.
  - apply sumn_0. intros j Hj. rewrite get3_mk3 by lia. rewrite (proj2 (Nat.ltb_ge _ _) L), (proj2 (Nat.ltb_ge _ _) L2). keq F. ring.
Qed.
Lemma over_matrix_grad b g ps pe f T : padding b = Ok (ps, pe) -> b_nx b = ps + b_os b * b_ny b + pe -> wfa [b_nx b; f; b_ctrls b] g -> over_matrix b = Ok T ->
  einsum_grad T g = over_grad b g.
Proof.
  intros Hp Hx Hg E. rewrite (over_matrix_eq _ Hp) in E. injection E as <-. rewrite (@over_grad_eq b g ps pe f Hp Hx Hg).
  assert (Hg' := Hg). rewrite Hx in Hg'. rewrite (einsum_grad_ok (wfa_mk3 _ _ _ _) Hg'). apply (f_equal Ok). apply mk3_ext. intros j q k Hj Hq Hk.
  rewrite !sumn_app. rewrite (@sumn_0 K ps), (@sumn_0 K pe).
  - rewrite (Nat.mul_comm (b_os b) (b_ny b)). rewrite (@sumn_mul_split K (b_ny b) (b_os b)). rewrite (@sumn_single K (b_ny b) j).
    + keq F. replace (sumn (S:=K) (b_os b) (fun j0 => get3 k0 g (ps + (j * b_os b + j0)) q k)) with
       (sumn (S:=K) (b_os b) (fun j0 : nat => kmul (get3 k0 (mk3 (ps + b_ny b * b_os b + pe) (b_ny b) (b_ctrls b)
          (fun i j1 _ : nat => if i <? ps then k0 else if i - ps <? b_ny b * b_os b then if (i - ps) / b_os b =? j1 then k1 else k0 else k0)) (ps + (j * b_os b + j0)) j k) (get3 k0 g (ps + (j * b_os b + j0)) q k))).
      * tok. ring.
      * apply sumn_ext. intros i Hi. assert (j * b_os b + i < b_ny b * b_os b) by nia. rewrite get3_mk3 by lia.
        destruct (Nat.ltb_spec (ps + (j * b_os b + i)) ps); [lia|]. replace (ps + (j * b_os b + i) - ps) with (j * b_os b + i) by lia.
        rewrite (proj2 (Nat.ltb_lt _ _) H), divn_join, Nat.eqb_refl by lia. keq F. ring.
    + auto.
    + intros l Hl Hne. apply sumn_0. intros i Hi. assert (l * b_os b + i < b_ny b * b_os b) by nia. rewrite get3_mk3 by lia.
      destruct (Nat.ltb_spec (ps + (l * b_os b + i)) ps); [lia|]. replace (ps + (l * b_os b + i) - ps) with (l * b_os b + i) by lia.
      rewrite (proj2 (Nat.ltb_lt _ _) H), divn_join by lia. destruct (Nat.eqb_spec l j); [congruence|]. keq F. ring.
  - intros i Hi. rewrite get3_mk3 by lia. destruct (Nat.ltb_spec (ps + b_os b * b_ny b + i) ps); [lia|].
    destruct (Nat.ltb_spec (ps + b_os b * b_ny b + i - ps) (b_os b * b_ny b)); [lia|]. keq F. ring.
  - intros i Hi. rewrite get3_mk3 by lia. rewrite (proj2 (Nat.ltb_lt _ _) Hi). keq F. ring.
Qed.

(** C14 *)
Lemma ready_over n bt os ys t : ready rexp (DOver n bt os) ys t ->
  exists t0 b, build (DOver n bt os) = Ok t0 /\ set_times t0 ys = (Leaf KOver b, Ok tt) /\
    b_ctrls b = n /\ b_os b = os /\ b_bound b = bt /\ b_ny b = length ys /\ fits (Leaf KOver b) /\ timed_eq (Leaf KOver b) t.
Proof.
  intros H. assert (N : no_custom (F:=F) (DOver n bt os)) by exact I.
  destruct (@ready_fresh F rexp (DOver n bt os) ys t N H) as [t0 [t1 [A [B [C [D [D' [E G]]]]]]]].
  assert (M : matched (F:=F) (DOver n bt os)) by exact I.
  pose proof (@build_sane _ _ A N M) as Sn. pose proof (@set_times_fits _ _ _ Sn B) as Ft.
  pose proof (@set_times_skel F t0 ys (sane_nc _ Sn)) as Sk. rewrite B in Sk. injection A as <-. cbn [fst] in Sk.
  destruct t1 as [k b| | | |]; cbn [skel mk_over] in Sk; try tauto. destruct Sk as [<- [S1 [S2 [S3 S4]]]]. cbn in S1, S2, S3.
  exists (mk_over n bt os), b. do 5 (split; [solve [auto]|]). split; [|split; [exact Ft|exact E]].
  destruct (@set_times_grid F rexp (mk_over n bt os) ys (Leaf KOver b) I B) as [X _]. exact X.
Qed.
Lemma padding_of b ps pe : pads (b_bound b) (b_os b) = Some (ps, pe) -> padding b = Ok (ps, pe).
Proof. unfold pads, padding. destruct (b_bound b) as [[[] p]|]; congruence. Qed.

Lemma oversampling_call n bt os ys t y ps pe : os <> 0 -> ready rexp (DOver n bt os) ys t -> pads bt os = Some (ps, pe) -> wfa [length ys; n] y ->
  b_nx (tbase t) = ps + os * length ys + pe /\
  exists x, snd (call rexp t y) = Ok x /\ wfa [ps + os * length ys + pe; n] x /\
    (forall i k, i < ps -> k < n -> get2 k0 x i k = k0) /\
    (forall i j k, i < length ys -> j < os -> k < n -> get2 k0 x (ps + (i * os + j)) k = get2 k0 y i k) /\
    (forall i k, i < pe -> k < n -> get2 k0 x (ps + os * length ys + i) k = k0).
Proof.
  intros Ho Hr Hp Hy. destruct (@ready_over n bt os ys t Hr) as [t0 [b [A [B [C1 [C2 [C3 [C4 [[Ft [ps' [pe' [Hp' Hx]]]] Te]]]]]]]]].
  rewrite <- C2, <- C3 in Hp. apply padding_of in Hp. rewrite Hp in Hp'. injection Hp' as <- <-.
  split. { apply timed_base in Te. cbn in Te. apply (f_equal (@b_nx F)) in Te. cbn in Te. rewrite <- Te, Hx, C2, C4. reflexivity. }
  rewrite (@ready_call F rexp (DOver n bt os) ys t t0 (Leaf KOver b) y I Hr A B). cbn [cv].
  rewrite <- C1, <- C4 in Hy. rewrite (over_call_eq Ft Hp Hy). rewrite C1, C2, C4. eexists. split; [reflexivity|]. split; [apply wfa_mk2|].
  split; [|split].
  - intros i k Hi Hk. rewrite get2_mk2 by lia. now rewrite (proj2 (Nat.ltb_lt _ _) Hi).
  - intros i j k Hi Hj Hk. assert (i * os + j < os * length ys) by nia. rewrite get2_mk2 by lia.
    destruct (Nat.ltb_spec (ps + (i * os + j)) ps); [lia|]. replace (ps + (i * os + j) - ps) with (i * os + j) by lia.
    rewrite (proj2 (Nat.ltb_lt _ _) H), divn_join by lia. reflexivity.
  - intros i k Hi Hk. rewrite get2_mk2 by lia. destruct (Nat.ltb_spec (ps + os * length ys + i) ps); [lia|].
    destruct (Nat.ltb_spec (ps + os * length ys + i - ps) (os * length ys)); [lia|]. reflexivity.
Qed.
Lemma oversampling_wrong_shape n bt os ys t y sh : ready rexp (DOver n bt os) ys t -> wfa sh y -> sh <> [length ys; n] ->
  snd (call rexp t y) = Err IndexError.
Proof.
  intros Hr Hy Hs. destruct (@ready_over n bt os ys t Hr) as [t0 [b [A [B [C1 [C2 [C3 [C4 [[Ft _] Te]]]]]]]]].
  rewrite (@ready_call F rexp (DOver n bt os) ys t t0 (Leaf KOver b) y I Hr A B). cbn [cv]. unfold over_call.
  rewrite (@check_dims_bad b y sh); auto. now rewrite C1, C4.
Qed.
Lemma oversampling_no_times n bt os y t : build (DOver n bt os) = Ok t -> call rexp t y = (t, Err RuntimeError).
Proof. intros [= <-]. reflexivity. Qed.
(** gradient: the entries of the os samples of an interval are added, padding is dropped *)
Lemma oversampling_grad n bt os ys t g f ps pe : os <> 0 -> ready rexp (DOver n bt os) ys t -> pads bt os = Some (ps, pe) ->
  wfa [ps + os * length ys + pe; f; n] g ->
  exists h, snd (grad rexp t g) = Ok h /\ wfa [length ys; f; n] h /\
    forall i q k, i < length ys -> q < f -> k < n -> get3 k0 h i q k = sumn (S:=K) os (fun j => get3 k0 g (ps + (i * os + j)) q k).
Proof.
  intros Ho Hr Hp Hg. destruct (@ready_over n bt os ys t Hr) as [t0 [b [A [B [C1 [C2 [C3 [C4 [[Ft [ps' [pe' [Hp' Hx]]]] Te]]]]]]]]].
  rewrite <- C2, <- C3 in Hp. apply padding_of in Hp. rewrite Hp in Hp'. injection Hp' as <- <-.
  rewrite (@ready_grad F rexp (DOver n bt os) ys t t0 (Leaf KOver b) g I Hr A B). cbn [gv].
  rewrite <- C1, <- C2, <- C4, <- Hx in Hg. rewrite (@over_grad_eq b g ps pe f Hp Hx Hg). rewrite C1, C2, C4. eexists. split; [reflexivity|]. split; [apply wfa_mk3|].
  intros i q k Hi Hq Hk. now rewrite get3_mk3.
Qed.

(** C15 *)
Lemma ready_overM n bt os off ys t : ready rexp (DOverM os bt n off) ys t ->
  exists t0 b, build (DOverM os bt n off) = Ok t0 /\ set_times t0 ys = (Leaf KOverM b, Ok tt) /\
    b_ctrls b = n /\ b_os b = os /\ b_bound b = bt /\ b_off b = off /\ b_ny b = length ys /\ fits (Leaf KOverM b) /\ timed_eq (Leaf KOverM b) t.
Proof.
  intros H. assert (N : no_custom (F:=F) (DOverM os bt n off)) by exact I.
  destruct (@ready_fresh F rexp (DOverM os bt n off) ys t N H) as [t0 [t1 [A [B [C [D [D' [E G]]]]]]]].
  assert (M : matched (F:=F) (DOverM os bt n off)) by exact I.
  pose proof (@build_sane _ _ A N M) as Sn. pose proof (@set_times_fits _ _ _ Sn B) as Ft.
  pose proof (@set_times_skel F t0 ys (sane_nc _ Sn)) as Sk. rewrite B in Sk. injection A as <-. cbn [fst] in Sk.
  destruct t1 as [k b| | | |]; cbn [skel mk_overM] in Sk; try tauto. destruct Sk as [<- [S1 [S2 [S3 S4]]]]. cbn in S1, S2, S3, S4.
  exists (mk_overM os bt n off), b. do 6 (split; [solve [auto]|]). split; [|split; [exact Ft|exact E]].
  destruct (@set_times_grid F rexp (mk_overM os bt n off) ys (Leaf KOverM b) I B) as [X _]. exact X.
Qed.
Lemma oversampling_matrix_call n bt os off ys t tm y sh : ready rexp (DOver n bt os) ys t -> ready rexp (DOverM os bt n off) ys tm -> wfa sh y ->
  match snd (call rexp t y), snd (call rexp tm y) with
  | Ok x, Ok xm => exists m, wfa [m; n] x /\ wfa [m; n] xm /\ forall i k, i < m -> k < n -> get2 k0 xm i k = with_offset off (get2 k0 x i k)
  | Err e, Err em => e = em
  | _, _ => False
  end.
Proof.
  intros Hr Hm Hy. destruct (@ready_over n bt os ys t Hr) as [t0 [b [A [B [C1 [C2 [C3 [C4 [[Ft [ps [pe [Hp Hx]]]] Te]]]]]]]]].
  destruct (@ready_overM n bt os off ys tm Hm) as [t0m [bm [Am [Bm [M1 [M2 [M3 [M4 [M5 [[Ftm [psm [pem [Hpm Hxm]]]] Tem]]]]]]]]]].
  rewrite (@ready_call F rexp (DOver n bt os) ys t t0 (Leaf KOver b) y I Hr A B).
  rewrite (@ready_call F rexp (DOverM os bt n off) ys tm t0m (Leaf KOverM bm) y I Hm Am Bm). cbn [cv]. unfold pmcall. cbn [tbase pown pm].
  assert (EP : (psm, pem) = (ps, pe)). { unfold padding in Hp, Hpm. rewrite M3, M2 in Hpm. rewrite C3, C2 in Hp. destruct bt as [[[] q]|]; congruence. }
  injection EP as -> ->.
  destruct (list_eq_dec Nat.eq_dec sh [length ys; n]) as [->|Hne].
  - assert (Hy1 : wfa [b_ny b; b_ctrls b] y) by now rewrite C1, C4. assert (Hy2 : wfa [b_ny bm; b_ctrls bm] y) by now rewrite M1, M5.
    rewrite (@check_dims_ok _ _ Ftm Hy2). cbn [bind leaf_matrix]. destruct (over_matrix bm) as [T|e] eqn:ET; [|rewrite (over_matrix_eq _ Hpm) in ET; discriminate]. cbn [bind].
    rewrite (over_matrix_call Ftm Hpm Hy2 ET). rewrite (over_call_eq Ftm Hpm Hy2), (over_call_eq Ft Hp Hy1). rewrite C1, C2, C4, M1, M2, M4, M5. cbn [bind].
    set (a := mk2 _ _ _). exists (ps + os * length ys + pe). assert (W : wfa [ps + os * length ys + pe; n] a) by apply wfa_mk2. split; auto.
    destruct off as [c|]; cbn [add_offset with_offset]; [|auto]. destruct (dim_wfa2 W) as [-> [-> _]]. split; [apply wfa_mk2|]. intros i k Hi Hk. now rewrite get2_mk2.
  - rewrite (@check_dims_bad bm y sh); auto; [|now rewrite M1, M5]. unfold over_call. rewrite (@check_dims_bad b y sh); auto; [|now rewrite C1, C4]. reflexivity.
Qed.
Lemma oversampling_matrix_grad n bt os off ys t tm g f : ready rexp (DOver n bt os) ys t -> ready rexp (DOverM os bt n off) ys tm ->
  wfa [b_nx (tbase t); f; n] g -> snd (grad rexp tm g) = snd (grad rexp t g) /\ snd (grad rexp t g) <> Err ValueError.
Proof.
  intros Hr Hm Hg. destruct (@ready_over n bt os ys t Hr) as [t0 [b [A [B [C1 [C2 [C3 [C4 [[Ft [ps [pe [Hp Hx]]]] Te]]]]]]]]].
  destruct (@ready_overM n bt os off ys tm Hm) as [t0m [bm [Am [Bm [M1 [M2 [M3 [M4 [M5 [[Ftm [psm [pem [Hpm Hxm]]]] Tem]]]]]]]]]].
  rewrite (@ready_grad F rexp (DOver n bt os) ys t t0 (Leaf KOver b) g I Hr A B).
  rewrite (@ready_grad F rexp (DOverM os bt n off) ys tm t0m (Leaf KOverM bm) g I Hm Am Bm). cbn [gv]. unfold pmgrad. cbn [tbase pown pm is_exp].
  assert (EP : (psm, pem) = (ps, pe)). { unfold padding in Hp, Hpm. rewrite M3, M2 in Hpm. rewrite C3, C2 in Hp. destruct bt as [[[] q]|]; congruence. }
  injection EP as -> ->.
  assert (Xt : b_nx (tbase t) = b_nx b). { apply timed_base in Te. cbn in Te. apply (f_equal (@b_nx F)) in Te. cbn in Te. auto. }
  rewrite Xt in Hg. assert (Xm : b_nx bm = b_nx b) by (rewrite Hx, Hxm, M2, M5, C2, C4; reflexivity).
  assert (Hg1 : wfa [b_nx b; f; b_ctrls b] g) by now rewrite C1. assert (Hg2 : wfa [b_nx bm; f; b_ctrls bm] g) by now rewrite M1, Xm.
  rewrite (@check_grad_ok _ _ _ Hg2). cbn [bind leaf_matrix]. destruct (over_matrix bm) as [T|e] eqn:ET; [|rewrite (over_matrix_eq _ Hpm) in ET; discriminate]. cbn [bind].
  rewrite (@over_matrix_grad _ _ _ _ _ _ Hpm Hxm Hg2 ET). rewrite (@over_grad_eq bm g ps pe f Hpm Hxm Hg2), (@over_grad_eq b g ps pe f Hp Hx Hg1). rewrite C1, C2, C4, M1, M2, M5.
  split; [reflexivity|discriminate].
Qed.

(** ---- shapes of matrices ---- *)
Lemma pm_shape t T : fits t -> pm rexp t = Ok T -> wfa [b_nx (tbase t); b_ny (tbase t); b_ctrls (tbase t)] T.
Proof.
  revert T. induction t as [k b|b t1 IH1 t2 IH2|b t1 IH1 t2 IH2|b t1 IH1 t2 IH2|b t1 IH1 t2 IH2]; intros T Ft E; try discriminate.
  - destruct k; cbn [pm leaf_matrix] in E; try discriminate; cbn [fits] in Ft; try tauto.
    + destruct Ft as [_ [ps [pe [Hp Hx]]]]. rewrite (over_matrix_eq _ Hp) in E. injection E as <-. cbn [tbase]. rewrite Hx. apply wfa_mk3.
    + unfold exp_matrix in E. destruct (padding b) as [[ps pe]|]; [|discriminate]. cbn [bind] in E. destruct (Nat.leb_spec ps (b_nx b)); [|discriminate]. cbn [bind] in E.
      destruct (b_yt b) as [[|x0 r]|]; try discriminate. destruct (keqb rise k0); [discriminate|].
      destruct (_ || _); [|discriminate]. cbn [bind] in E. destruct (_ || _); [|discriminate]. cbn [bind] in E. injection E as <-. cbn [tbase].
      replace (ps + (b_nx b - ps)) with (b_nx b) by lia. apply wfa_mk3.
  - cbn [fits] in Ft. destruct Ft as [_ [F1 [F2 [F3 [F4 [F5 [F6 F7]]]]]]]. cbn [pm] in E.
    destruct (pm rexp t2) as [T2|] eqn:E2; [|discriminate]. cbn [bind] in E. destruct (pm rexp t1) as [T1|] eqn:E1; [|discriminate]. cbn [bind] in E.
    pose proof (IH1 _ F6 eq_refl) as W1. pose proof (IH2 _ F7 eq_refl) as W2. rewrite <- F5, <- F2 in W2.
    rewrite (einsum_mat_ok W2 W1) in E. injection E as <-. cbn [tbase]. rewrite F1, F3, F4. apply wfa_mk3.
  - cbn [fits] in Ft. destruct Ft as [_ [F1 [F2 [F3 [F4 [F6 F7]]]]]]. cbn [pm] in E.
    destruct (pm rexp t1) as [T1|] eqn:E1; [|discriminate]. cbn [bind] in E. destruct (pm rexp t2) as [T2|] eqn:E2; [|discriminate]. cbn [bind] in E.
    pose proof (IH1 _ F6 eq_refl) as W1. pose proof (IH2 _ F7 eq_refl) as W2. destruct (concat3_inv W1 W2 E) as [E3 E4]. rewrite E3, E4 in W2.
    rewrite (concat3_ok W1 W2) in E. injection E as <-. cbn [tbase]. rewrite F1, F2, F4. apply wfa_mk3.
Qed.

(** ---- adjoint ---- *)
Definition good_conv (ker : list F) (m mg : cmode) (cval : F) (n c : nat) : Prop :=
  forall (a v v' : nat -> F), 
    ksub (sumn (S:=K) n (fun i => kmul (a i) (conv_at ker m cval n v' i))) (sumn (S:=K) n (fun i => kmul (a i) (conv_at ker m cval n v i))) =
    ksub (sumn (S:=K) n (fun i => kmul (conv_at ker mg cval n a i) (v' i))) (sumn (S:=K) n (fun i => kmul (conv_at ker mg cval n a i) (v i))).
Fixpoint convs_ok t : Prop :=
  match t with
  | Leaf (KConv ker m mg cval) b => good_conv ker m mg cval (b_ny b) (b_ctrls b)
  | Leaf _ _ => True
  | Conc _ x y | Par _ x y | ConcM _ x y | ParM _ x y => convs_ok x /\ convs_ok y
  end.
Notation pair m n g a := (pairing m n g a).
Lemma pairing_swap m n (g a : nat -> nat -> F) : pair m n g a = sumn (S:=K) n (fun k => sumn (S:=K) m (fun i => kmul (g i k) (a i k))).
Proof. unfold pairing. apply (@sumn_swap K). Qed.
Lemma pairing_ext m n (g a g' a' : nat -> nat -> F) : (forall i k, i < m -> k < n -> g i k = g' i k /\ a i k = a' i k) -> pair m n g a = pair m n g' a'.
Proof. intros H. unfold pairing. apply sumn_ext. intros i Hi. apply sumn_ext. intros k Hk. destruct (H i k Hi Hk) as [-> ->]. reflexivity. Qed.
Lemma pairing_cols m p q (g a : nat -> nat -> F) : pair m (p + q) g a = kadd (pair m p g a) (pair m q (fun i k => g i (p + k)) (fun i k => a i (p + k))).
Proof. unfold pairing. rewrite ksumn_add. apply sumn_ext. intros i Hi. now rewrite sumn_app. Qed.
Lemma pairing_sub m n (g a a' : nat -> nat -> F) : ksub (pair m n g a') (pair m n g a) = pair m n g (fun i k => ksub (a' i k) (a i k)).
Proof. unfold pairing. rewrite ksumn_sub. apply sumn_ext. intros i Hi. rewrite ksumn_sub. apply sumn_ext. intros k Hk. keq F. ring. Qed.
Lemma pairing_transpose m n c (T : nat -> nat -> nat -> F) (g a : nat -> nat -> F) :
  pair m c g (fun i k => sumn (S:=K) n (fun j => kmul (T i j k) (a j k))) = pair n c (fun j k => sumn (S:=K) m (fun i => kmul (T i j k) (g i k))) a.
Proof.
  rewrite !pairing_swap. apply sumn_ext. intros k Hk.
  etransitivity; [|etransitivity; [apply (@sumn_swap K m n (fun i j => kmul (kmul (T i j k) (g i k)) (a j k)))|]].
  - apply sumn_ext. intros i Hi. rewrite ksumn_mul_l. apply sumn_ext. intros j Hj. keq F. ring.
  - apply sumn_ext. intros j Hj. now rewrite ksumn_mul_r.
Qed.
Definition adjoint t : Prop := forall y y' g x x' h f,
  wfa [b_ny (tbase t); b_ctrls (tbase t)] y -> wfa [b_ny (tbase t); b_ctrls (tbase t)] y' -> wfa [b_nx (tbase t); f; b_ctrls (tbase t)] g ->
  cv rexp t y = Ok x -> cv rexp t y' = Ok x' -> gv rexp t g = Ok h ->
  wfa [b_nx (tbase t); b_ctrls (tbase t)] x /\ wfa [b_nx (tbase t); b_ctrls (tbase t)] x' /\ wfa [b_ny (tbase t); f; b_ctrls (tbase t)] h /\
  forall q, q < f ->
    ksub (pair (b_nx (tbase t)) (b_ctrls (tbase t)) (fun i k => get3 k0 g i q k) (get2 k0 x'))
         (pair (b_nx (tbase t)) (b_ctrls (tbase t)) (fun i k => get3 k0 g i q k) (get2 k0 x)) =
    ksub (pair (b_ny (tbase t)) (b_ctrls (tbase t)) (fun i k => get3 k0 h i q k) (get2 k0 y'))
         (pair (b_ny (tbase t)) (b_ctrls (tbase t)) (fun i k => get3 k0 h i q k) (get2 k0 y)).

Lemma matrix_adjoint t : fits t -> has_times (tbase t) -> (forall y, cv rexp t y = pmcall rexp t y) -> (forall g, gv rexp t g = pmgrad rexp t g) ->
  (forall T, pown rexp t = Ok T -> wfa [b_nx (tbase t); b_ny (tbase t); b_ctrls (tbase t)] T) -> adjoint t.
Proof.
  intros Ft Ht E1 E2 HT y y' g x x' h f Hy Hy' Hg Ex Ex' Eh. rewrite E1 in Ex, Ex'. rewrite E2 in Eh.
  set (nx := b_nx (tbase t)) in *. set (ny := b_ny (tbase t)) in *. set (c := b_ctrls (tbase t)) in *.
  unfold pmcall in Ex, Ex'. unfold pmgrad in Eh.
  rewrite (@check_dims_ok _ _ Ht Hy) in Ex. rewrite (@check_dims_ok _ _ Ht Hy') in Ex'. rewrite (@check_grad_ok _ _ _ Hg) in Eh.
  assert (Eh2 : _ <- Ok tt;; T <- pown rexp t;; einsum_grad T g = Ok h) by (destruct (is_exp t); exact Eh). clear Eh. rename Eh2 into Eh.
  destruct (pown rexp t) as [T|] eqn:EP; [|discriminate]. cbn [bind] in *. specialize (HT T eq_refl).
  rewrite (einsum_call_ok HT Hy) in Ex. rewrite (einsum_call_ok HT Hy') in Ex'. rewrite (einsum_grad_ok HT Hg) in Eh. cbn [bind] in *.
  injection Ex as <-. injection Ex' as <-. injection Eh as <-.
  assert (W : forall a : arrF, wfa [nx; c] a -> wfa [nx; c] (add_offset (b_off (tbase t)) a)).
  { intros a Ha. unfold add_offset. destruct (b_off (tbase t)); auto. destruct (dim_wfa2 Ha) as [-> [-> _]]. apply wfa_mk2. }
  split; [apply W, wfa_mk2|]. split; [apply W, wfa_mk2|]. split; [apply wfa_mk3|]. intros q Hq.
  rewrite !pairing_sub.
  transitivity (pair nx c (fun i k => get3 k0 g i q k) (fun i k => sumn (S:=K) ny (fun j => kmul (get3 k0 T i j k) (ksub (get2 k0 y' j k) (get2 k0 y j k))))).
  - apply pairing_ext. intros i k Hi Hk. split; [reflexivity|].
    assert (G : forall u : nat -> nat -> F, get2 k0 (add_offset (b_off (tbase t)) (mk2 nx c u)) i k = with_offset (b_off (tbase t)) (u i k)).
    { intros u. unfold add_offset, with_offset. destruct (b_off (tbase t)); [|now apply get2_mk2].
      destruct (dim_wfa2 (wfa_mk2 nx c u)) as [-> [-> _]]. rewrite get2_mk2 by auto. now rewrite get2_mk2. }
    rewrite !G. transitivity (ksub (sumn (S:=K) ny (fun j => kmul (get3 k0 T i j k) (get2 k0 y' j k))) (sumn (S:=K) ny (fun j => kmul (get3 k0 T i j k) (get2 k0 y j k)))).
    + unfold with_offset. destruct (b_off (tbase t)); [|reflexivity]. keq F. ring.
    + rewrite ksumn_sub. apply sumn_ext. intros j Hj. keq F. ring.
  - rewrite (@pairing_transpose nx ny c (fun i j k => get3 k0 T i j k) (fun i k => get3 k0 g i q k) (fun j k => ksub (get2 k0 y' j k) (get2 k0 y j k))).
    apply pairing_ext. intros j k Hj Hk. split; [|reflexivity]. now rewrite get3_mk3.
Qed.
Lemma over_adjoint b : fits (Leaf KOver b) -> adjoint (Leaf KOver b).
Proof.
  intros Ft y y' g x x' h f Hy Hy' Hg Ex Ex' Eh. cbn [tbase cv gv] in *. cbn [fits] in Ft. destruct Ft as [Ht [ps [pe [Hp Hx]]]].
  pose proof (over_matrix_eq b Hp) as EM. set (T := mk3 _ _ _ _) in EM.
  rewrite <- (over_matrix_call Ht Hp Hy EM) in Ex. rewrite <- (over_matrix_call Ht Hp Hy' EM) in Ex'. rewrite <- (@over_matrix_grad _ _ _ _ _ _ Hp Hx Hg EM) in Eh.
  assert (HT : wfa [b_nx b; b_ny b; b_ctrls b] T) by (rewrite Hx; apply wfa_mk3). clearbody T.
  set (nx := b_nx b) in *. set (ny := b_ny b) in *. set (c := b_ctrls b) in *.
  rewrite (einsum_call_ok HT Hy) in Ex. rewrite (einsum_call_ok HT Hy') in Ex'. rewrite (einsum_grad_ok HT Hg) in Eh.
  injection Ex as <-. injection Ex' as <-. injection Eh as <-. split; [apply wfa_mk2|]. split; [apply wfa_mk2|]. split; [apply wfa_mk3|]. intros q Hq.
  rewrite !pairing_sub.
  transitivity (pair nx c (fun i k => get3 k0 g i q k) (fun i k => sumn (S:=K) ny (fun j => kmul (get3 k0 T i j k) (ksub (get2 k0 y' j k) (get2 k0 y j k))))).
  - apply pairing_ext. intros i k Hi Hk. split; [reflexivity|]. rewrite !get2_mk2 by auto.
    rewrite ksumn_sub. apply sumn_ext. intros j Hj. keq F. ring.
  - rewrite (@pairing_transpose nx ny c (fun i j k => get3 k0 T i j k) (fun i k => get3 k0 g i q k) (fun j k => ksub (get2 k0 y' j k) (get2 k0 y j k))).
    apply pairing_ext. intros j k Hj Hk. split; [|reflexivity]. now rewrite get3_mk3.
Qed.
Lemma conv_adjoint ker m mg cval b : fits (Leaf (KConv ker m mg cval) b) -> good_conv ker m mg cval (b_ny b) (b_ctrls b) -> adjoint (Leaf (KConv ker m mg cval) b).
Proof.
  intros [Ht Hx] Gc y y' g x x' h f Hy Hy' Hg Ex Ex' Eh. cbn [tbase cv gv] in *.
  unfold conv_call in Ex, Ex'. unfold conv_grad in Eh. rewrite (@check_dims_ok _ _ Ht Hy) in Ex. rewrite (@check_dims_ok _ _ Ht Hy') in Ex'. rewrite (@check_grad_ok _ _ _ Hg) in Eh. cbn [bind] in *.
  destruct (dim_wfa2 Hy) as [D0 [D1 _]], (dim_wfa2 Hy') as [D0' [D1' _]], (dim_wfa3 Hg) as [G0 [G1 [G2 _]]].
  rewrite D0, D1 in Ex. rewrite D0', D1' in Ex'. rewrite G0, G1, G2 in Eh. injection Ex as <-. injection Ex' as <-. injection Eh as <-. rewrite Hx in *.
  set (n := b_ny b) in *. set (c := b_ctrls b) in *. split; [apply wfa_mk2|]. split; [apply wfa_mk2|]. split; [apply wfa_mk3|]. intros q Hq.
  rewrite !pairing_swap. rewrite !ksumn_sub. apply sumn_ext. intros k Hk.
  etransitivity; [|etransitivity; [exact (Gc (fun i => get3 k0 g i q k) (fun i => get2 k0 y i k) (fun i => get2 k0 y' i k))|]].
  - f_equal; apply sumn_ext; intros i Hi; now rewrite get2_mk2.
  - f_equal; apply sumn_ext; intros i Hi; now rewrite get3_mk3.
Qed.
Lemma off_wf t m c (a : arrF) : wfa [m; c] a -> wfa [m; c] (add_offset (b_off (tbase t)) a).
Proof. intros Ha. unfold add_offset. destruct (b_off (tbase t)); auto. destruct (dim_wfa2 Ha) as [-> [-> _]]. apply wfa_mk2. Qed.
Lemma pmcall_shape t y x : has_times (tbase t) -> (forall T, pown rexp t = Ok T -> wfa [b_nx (tbase t); b_ny (tbase t); b_ctrls (tbase t)] T) ->
  wfa [b_ny (tbase t); b_ctrls (tbase t)] y -> pmcall rexp t y = Ok x -> wfa [b_nx (tbase t); b_ctrls (tbase t)] x.
Proof.
  intros Ht HT Hy Ex. unfold pmcall in Ex. rewrite (@check_dims_ok _ _ Ht Hy) in Ex. destruct (pown rexp t) as [T|]; [|discriminate]. cbn [bind] in *. specialize (HT T eq_refl).
  rewrite (einsum_call_ok HT Hy) in Ex. cbn [bind] in Ex. injection Ex as <-. apply off_wf, wfa_mk2.
Qed.
Lemma pmgrad_shape t g h f : (forall T, pown rexp t = Ok T -> wfa [b_nx (tbase t); b_ny (tbase t); b_ctrls (tbase t)] T) ->
  wfa [b_nx (tbase t); f; b_ctrls (tbase t)] g -> pmgrad rexp t g = Ok h -> wfa [b_ny (tbase t); f; b_ctrls (tbase t)] h.
Proof.
  intros HT Hg Eh. unfold pmgrad in Eh. rewrite (@check_grad_ok _ _ _ Hg) in Eh.
  assert (Eh2 : _ <- Ok tt;; T <- pown rexp t;; einsum_grad T g = Ok h) by (destruct (is_exp t); exact Eh). clear Eh. rename Eh2 into Eh.
  destruct (pown rexp t) as [T|]; [|discriminate]. cbn [bind] in *. specialize (HT T eq_refl).
  rewrite (einsum_grad_ok HT Hg) in Eh. injection Eh as <-. apply wfa_mk3.
Qed.
Lemma cv_shape t : fits t -> forall y x, wfa [b_ny (tbase t); b_ctrls (tbase t)] y -> cv rexp t y = Ok x -> wfa [b_nx (tbase t); b_ctrls (tbase t)] x.
Proof.
  induction t as [k b|b t1 IH1 t2 IH2|b t1 IH1 t2 IH2|b t1 IH1 t2 IH2|b t1 IH1 t2 IH2]; intros Ft y x Hy E.
  - destruct k as [| |ker m mg cval| | |rise]; cbn [cv] in E.
    + injection E as <-. cbn [fits] in Ft. destruct Ft as [_ Hx]. cbn [tbase] in *. now rewrite Hx.
    + cbn [fits] in Ft. destruct Ft as [Ht [ps [pe [Hp Hx]]]]. rewrite (over_call_eq Ht Hp Hy) in E. injection E as <-. cbn [tbase]. rewrite Hx. apply wfa_mk2.
    + cbn [fits] in Ft. destruct Ft as [Ht Hx]. unfold conv_call in E. rewrite (@check_dims_ok _ _ Ht Hy) in E. destruct (dim_wfa2 Hy) as [D0 [D1 _]].
      rewrite D0, D1 in E. injection E as <-. cbn [tbase]. rewrite Hx. apply wfa_mk2.
    + apply (@pmcall_shape (Leaf KOverM b) y x); auto; [apply Ft|]. intros T. apply (pm_shape (Leaf KOverM b)). exact Ft.
    + destruct Ft.
    + apply (@pmcall_shape (Leaf (KExp rise) b) y x); auto. intros T. apply (pm_shape (Leaf (KExp rise) b)). exact Ft.
  - cbn [fits] in Ft. destruct Ft as [F0 [F1 [F2 [F3 [F4 [F5 [F6 F7]]]]]]]. cbn [tbase cv] in *. rewrite (@check_dims_ok _ _ F0 Hy) in E. cbn [bind] in E.
    destruct (cv rexp t1 y) as [u|] eqn:E1; [|discriminate]. cbn [bind] in E. rewrite F3, F1 in Hy. pose proof (IH1 F6 y u Hy E1) as W. rewrite F5, F2 in W.
    rewrite F4, F1, F2. exact (IH2 F7 u x W E).
  - cbn [fits] in Ft. destruct Ft as [F0 [F1 [F2 [F3 [F4 [F6 F7]]]]]]. cbn [tbase cv] in *. rewrite (@check_dims_ok _ _ F0 Hy) in E. cbn [bind] in E.
    rewrite F1 in Hy. pose proof (@cols_lo_wf _ _ _ _ Hy) as H1. pose proof (@cols_hi_wf _ _ _ _ Hy) as H2.
    destruct (cv rexp t1 _) as [x1|] eqn:E1; [|discriminate]. cbn [bind] in E. destruct (cv rexp t2 _) as [x2|] eqn:E2; [|discriminate]. cbn [bind] in E.
    rewrite F2 in H1. rewrite F3 in H2. pose proof (IH1 F6 _ _ H1 E1) as W1. pose proof (IH2 F7 _ _ H2 E2) as W2.
    rewrite (concat2_inv W1 W2 E) in W2. rewrite (concat2_ok W1 W2) in E. injection E as <-. rewrite F4, F1. apply wfa_mk2.
  - apply (@pmcall_shape (ConcM b t1 t2) y x); auto; [apply Ft|]. intros T. unfold pown. destruct (pcalc rexp (ConcM b t1 t2)); discriminate.
  - apply (@pmcall_shape (ParM b t1 t2) y x); auto; [apply Ft|]. intros T. apply (pm_shape (ParM b t1 t2)). exact Ft.
Qed.
Lemma tree_adjoint t : fits t -> convs_ok t -> adjoint t.
Proof.
  induction t as [k b|b t1 IH1 t2 IH2|b t1 IH1 t2 IH2|b t1 IH1 t2 IH2|b t1 IH1 t2 IH2]; intros Ft Cv.
  - destruct k as [| |ker m mg cval| | |rise].
    + intros y y' g x x' h f Hy Hy' Hg [= <-] [= <-] [= <-]. cbn [tbase fits] in *. destruct Ft as [_ Hx]. rewrite Hx in *. auto.
    + now apply over_adjoint.
    + now apply conv_adjoint.
    + apply matrix_adjoint; auto; [apply Ft|]. intros T. apply (pm_shape (Leaf KOverM b)). exact Ft.
    + destruct Ft.
    + apply matrix_adjoint; auto. intros T. apply (pm_shape (Leaf (KExp rise) b)). exact Ft.
  - cbn [fits convs_ok] in Ft, Cv. destruct Ft as [F0 [F1 [F2 [F3 [F4 [F5 [F6 F7]]]]]]], Cv as [Cv1 Cv2].
    intros y y' g x x' h f Hy Hy' Hg Ex Ex' Eh. cbn [tbase] in *. cbn [cv gv] in *.
    rewrite (@check_dims_ok _ _ F0 Hy) in Ex. rewrite (@check_dims_ok _ _ F0 Hy') in Ex'. cbn [bind] in *.
    destruct (cv rexp t1 y) as [u|] eqn:E1; [|discriminate]. destruct (cv rexp t1 y') as [u'|] eqn:E1'; [|discriminate]. destruct (gv rexp t2 g) as [v|] eqn:E2; [|discriminate].
    cbn [bind] in *. rewrite F1, F3 in Hy, Hy'. rewrite F4, F1, F2 in Hg.
    pose proof (@cv_shape t1 F6 y u Hy E1) as W2. pose proof (@cv_shape t1 F6 y' u' Hy' E1') as W3.
    rewrite F5, F2 in W2, W3. destruct (IH2 F7 Cv2 u u' g x x' v f W2 W3 Hg Ex Ex' E2) as [Q1 [Q2 [W1 Q4]]].
    rewrite <- F5, <- F2 in W1. destruct (IH1 F6 Cv1 y y' v u u' h f Hy Hy' W1 E1 E1' Eh) as [_ [_ [P3 P4]]].
    rewrite F4, F1, F3. rewrite F2 in *. split; auto. split; auto. split; [exact P3|]. intros q Hq. rewrite (Q4 q Hq), <- F5. apply P4; auto.
  - cbn [fits convs_ok] in Ft, Cv. destruct Ft as [F0 [F1 [F2 [F3 [F4 [F6 F7]]]]]], Cv as [Cv1 Cv2].
    intros y y' g x x' h f Hy Hy' Hg Ex Ex' Eh. cbn [tbase] in *. cbn [cv gv] in *.
    rewrite (@check_dims_ok _ _ F0 Hy) in Ex. rewrite (@check_dims_ok _ _ F0 Hy') in Ex'. cbn [bind] in *. destruct (dim_wfa3 Hg) as [_ [_ [_ R]]]. rewrite R in Eh. cbn [Nat.eqb bind] in Eh.
    rewrite F1 in Hy, Hy', Hg.
    pose proof (@cols_lo_wf _ _ _ _ Hy) as L1. pose proof (@cols_hi_wf _ _ _ _ Hy) as L2. pose proof (@cols_lo_wf _ _ _ _ Hy') as L1'. pose proof (@cols_hi_wf _ _ _ _ Hy') as L2'.
    pose proof (@cols3_lo_wf _ _ _ _ _ Hg) as G1. pose proof (@cols3_hi_wf _ _ _ _ _ Hg) as G2.
    set (c1 := b_ctrls (tbase t1)) in *. set (c2 := b_ctrls (tbase t2)) in *.
    destruct (cv rexp t1 (cols_lo c1 y)) as [x1|] eqn:E1; [|discriminate]. destruct (cv rexp t2 (cols_hi c1 y)) as [x2|] eqn:E2; [|discriminate].
    destruct (cv rexp t1 (cols_lo c1 y')) as [x1'|] eqn:E1'; [|discriminate]. destruct (cv rexp t2 (cols_hi c1 y')) as [x2'|] eqn:E2'; [|discriminate].
    destruct (gv rexp t1 (cols3_lo c1 g)) as [h1|] eqn:E3; [|discriminate]. destruct (gv rexp t2 (cols3_hi c1 g)) as [h2|] eqn:E4; [|discriminate]. cbn [bind] in *.
    pose proof L1 as L1s. pose proof L2 as L2s. rewrite F2 in L1s. rewrite F3 in L2s.
    pose proof (@cv_shape t1 F6 _ _ L1s E1) as W1. pose proof (@cv_shape t2 F7 _ _ L2s E2) as W2. pose proof (concat2_inv W1 W2 Ex) as En.
    rewrite F2 in L1, L1'. rewrite F3 in L2, L2'. rewrite F4 in G1, G2. rewrite <- En in G2.
    destruct (IH1 F6 Cv1 _ _ _ _ _ _ f L1 L1' G1 E1 E1' E3) as [A1 [A2 [A3 A4]]].
    destruct (IH2 F7 Cv2 _ _ _ _ _ _ f L2 L2' G2 E2 E2' E4) as [B1 [B2 [B3 B4]]].
    fold c1 in A1, A2, A3, A4, W1. fold c2 in B1, B2, B3, B4, W2.
    assert (Eny : b_ny (tbase t2) = b_ny (tbase t1)) by congruence.
    rewrite En in B1, B2, B4. rewrite Eny in B3, B4. rewrite F2 in Hy, Hy'. rewrite F4 in Hg.
    rewrite (concat2_ok A1 B1) in Ex. rewrite (concat2_ok A2 B2) in Ex'. rewrite (concat3_ok A3 B3) in Eh. injection Ex as <-. injection Ex' as <-. injection Eh as <-.
    rewrite F1, F2, F4. set (nx := b_nx (tbase t1)) in *. set (ny := b_ny (tbase t1)) in *.
    split; [apply wfa_mk2|]. split; [apply wfa_mk2|]. split; [apply wfa_mk3|]. intros q Hq. specialize (A4 q Hq). specialize (B4 q Hq).
    rewrite !pairing_cols.
    assert (PL : forall (a1 a2 : arrF), wfa [nx; c1] a1 -> wfa [nx; c2] a2 ->
       pair nx c1 (fun i k => get3 k0 g i q k) (get2 k0 (mk2 nx (c1 + c2) (fun i k => if k <? c1 then get2 k0 a1 i k else get2 k0 a2 i (k - c1)))) =
       pair nx c1 (fun i k => get3 k0 (cols3_lo c1 g) i q k) (get2 k0 a1)).
    { intros a1 a2 _ _. apply pairing_ext. intros i k Hi Hk. rewrite (@cols3_lo_get _ _ _ _ _ _ _ _ Hg) by auto. rewrite get2_mk2 by lia. now rewrite (proj2 (Nat.ltb_lt _ _) Hk). }
    assert (PH : forall (a1 a2 : arrF), wfa [nx; c1] a1 -> wfa [nx; c2] a2 ->
       pair nx c2 (fun i k => get3 k0 g i q (c1 + k)) (fun i k => get2 k0 (mk2 nx (c1 + c2) (fun i k => if k <? c1 then get2 k0 a1 i k else get2 k0 a2 i (k - c1))) i (c1 + k)) =
       pair nx c2 (fun i k => get3 k0 (cols3_hi c1 g) i q k) (get2 k0 a2)).
    { intros a1 a2 _ _. apply pairing_ext. intros i k Hi Hk. rewrite (@cols3_hi_get _ _ _ _ _ _ _ _ Hg) by auto. rewrite get2_mk2 by lia. destruct (Nat.ltb_spec (c1 + k) c1); [lia|]. now replace (c1 + k - c1) with k by lia. }
    assert (HL : forall (z : arrF), wfa [ny; c1 + c2] z ->
       pair ny c1 (fun i k => get3 k0 (mk3 ny f (c1 + c2) (fun i j k => if k <? c1 then get3 k0 h1 i j k else get3 k0 h2 i j (k - c1))) i q k) (get2 k0 z) =
       pair ny c1 (fun i k => get3 k0 h1 i q k) (get2 k0 (cols_lo c1 z))).
    { intros z Hz. apply pairing_ext. intros i k Hi Hk. rewrite (@cols_lo_get _ _ _ _ _ _ Hz) by auto. rewrite get3_mk3 by lia. now rewrite (proj2 (Nat.ltb_lt _ _) Hk). }
    assert (HH : forall (z : arrF), wfa [ny; c1 + c2] z ->
       pair ny c2 (fun i k => get3 k0 (mk3 ny f (c1 + c2) (fun i j k => if k <? c1 then get3 k0 h1 i j k else get3 k0 h2 i j (k - c1))) i q (c1 + k)) (fun i k => get2 k0 z i (c1 + k)) =
       pair ny c2 (fun i k => get3 k0 h2 i q k) (get2 k0 (cols_hi c1 z))).
    { intros z Hz. apply pairing_ext. intros i k Hi Hk. rewrite (@cols_hi_get _ _ _ _ _ _ Hz) by auto. rewrite get3_mk3 by lia. destruct (Nat.ltb_spec (c1 + k) c1); [lia|]. now replace (c1 + k - c1) with k by lia. }
    rewrite !PL, !PH, !HL, !HH by auto. clear PL PH HL HH.
    transitivity (kadd (ksub (pair nx c1 (fun i k => get3 k0 (cols3_lo c1 g) i q k) (get2 k0 x1')) (pair nx c1 (fun i k => get3 k0 (cols3_lo c1 g) i q k) (get2 k0 x1)))
                       (ksub (pair nx c2 (fun i k => get3 k0 (cols3_hi c1 g) i q k) (get2 k0 x2')) (pair nx c2 (fun i k => get3 k0 (cols3_hi c1 g) i q k) (get2 k0 x2)))); [ring|].
    rewrite A4, B4. ring.
  - apply matrix_adjoint; auto; [apply Ft|]. intros T. unfold pown. destruct (pcalc rexp (ConcM b t1 t2)); discriminate.
  - apply matrix_adjoint; auto; [apply Ft|]. intros T. apply (pm_shape (ParM b t1 t2)). exact Ft.
Qed.
End P.
