(** CustomMTF, objects composed of arbitrary parts, and the gradient of ParallelMTF (C13, C16, C18, C19). *)
Require Import List Arith Lia Ring Field Bool ZArith.
From Verif Require Import LibBase LibRing LibArr LibCplx LibSum M_Transfer S_Transfer P_Transfer P_Transfer2 P_Transfer3 P_Transfer4.
Import ListNotations.
Open Scope res_scope.
Set Implicit Arguments.

Section P.
Variable F : OField.
Variable rexp : F -> F.
Add Field Kfield_pt7 : (k_field F).
Notation K := (KStar F).
Notation arrF := (arr (kcar F)).
Notation base := (base F).
Notation tf := (tf F).
Implicit Types (t : tf) (b : base) (y g : arrF).
Notation pair := (@pairing F).

(** ---- CustomMTF ---- *)
Lemma custom_os bt nx ny os ps pe : ny <> 0 -> os <> 0 -> pads bt os = Some (ps, pe) -> nx = ps + os * ny + pe ->
  match bt with
  | None => nx / ny = os /\ nx mod ny = 0
  | Some (BN, p) => (nx - 2 * p) / ny = os
  | Some (BX, p) => nx / (2 * p + ny) = os
  | Some (BRight, p) => (nx - p) / ny = os
  | Some (BUnknown, _) => False
  end.
Proof.
  intros Hn Ho Hp ->. destruct bt as [[[] p]|]; cbn in Hp; try discriminate; injection Hp as <- <-.
  - replace (p + os * ny + p - 2 * p) with (os * ny) by lia. now apply Nat.div_mul.
  - replace (p * os + os * ny + p * os) with (os * (2 * p + ny)) by lia. apply Nat.div_mul. lia.
  - replace (0 + os * ny + p - p) with (os * ny) by lia. now apply Nat.div_mul.
  - replace (0 + os * ny + 0) with (os * ny) by lia. split; [now apply Nat.div_mul|now apply Nat.mod_mul].
Qed.
Lemma custom_set T nx ny n bt os0 off os ps pe (ys : list F) t0 :
  wfa [nx; ny; n] T -> ny <> 0 -> os <> 0 -> pads bt os = Some (ps, pe) -> nx = ps + os * ny + pe -> length ys = ny ->
  build (DCustom T None bt os0 off n) = Ok t0 ->
  set_times t0 ys = (fst (set_times (Leaf KCustom (@mkb F n bt os off (Some T) ny None nx None)) ys), Ok tt) /\
  exists xs, fst (set_times t0 ys) = Leaf KCustom (@mkb F n bt os off (Some T) ny (Some ys) nx (Some xs)) /\
    set_times_base (@mkb F n bt os off (Some T) ny None nx None) ys = (@mkb F n bt os off (Some T) ny (Some ys) nx (Some xs), Ok tt).
Proof.
  intros WT Hn Ho Hp Ex Hl Hb. injection Hb as <-. pose proof (@custom_os bt nx ny os ps pe Hn Ho Hp Ex) as HO.
  destruct (dim_wfa3 WT) as [D0 [D1 [D2 _]]].
  assert (E : forall o, set_times (mk_custom T None bt o off n) ys =
     (let '(b', r) := set_times_base (@mkb F n bt os off (Some T) ny None nx None) ys in (Leaf KCustom b', r))).
  { intros o. unfold mk_custom. cbn [set_times]. unfold set_times_custom. cbn [b_xt b_ny b_bound b_nx]. rewrite D0, D1.
    rewrite (proj2 (Nat.eqb_neq _ _) Hn). destruct bt as [[[] p]|]; try tauto; unfold set_os; cbn [b_ctrls b_bound b_os b_off b_mat b_ny b_yt b_nx b_xt].
    - rewrite HO. reflexivity.
    - rewrite HO. reflexivity.
    - rewrite HO. reflexivity.
    - destruct HO as [-> ->]. cbn [Nat.eqb negb]. reflexivity. }
  assert (SB : exists xs, set_times_base (@mkb F n bt os off (Some T) ny None nx None) ys = (@mkb F n bt os off (Some T) ny (Some ys) nx (Some xs), Ok tt)).
  { unfold set_times_base, set_tm. cbn [b_ctrls b_bound b_os b_off b_mat b_ny b_yt b_nx b_xt]. rewrite Hl.
    destruct ys as [|y0 ys]; [cbn in Hl; congruence|]. rewrite (proj2 (Nat.eqb_neq _ _) Ho).
    destruct bt as [[[] p]|]; cbn in Hp; try discriminate; injection Hp as <- <-; eexists; (f_equal; f_equal; lia). }
  destruct SB as [xs SB]. split.
  - rewrite (E os0). pose proof (E os) as E'. unfold mk_custom in E'. rewrite D0, D1 in E'. rewrite E', SB. reflexivity.
  - exists xs. split; [|exact SB]. rewrite (E os0), SB. reflexivity.
Qed.
Lemma custom_grid T nx ny n bt os0 off os ps pe (ys : list F) t0 :
  wfa [nx; ny; n] T -> ny <> 0 -> os <> 0 -> pads bt os = Some (ps, pe) -> nx = ps + os * ny + pe -> length ys = ny ->
  build (DCustom T None bt os0 off n) = Ok t0 ->
  exists t xs, set_times t0 ys = (t, Ok tt) /\ b_ny (tbase t) = ny /\ b_nx (tbase t) = nx /\ b_xt (tbase t) = Some xs /\ is_split_grid os ps pe ys xs.
Proof.
  intros WT Hn Ho Hp Ex Hl Hb. destruct (@custom_set T nx ny n bt os0 off os ps pe ys t0 WT Hn Ho Hp Ex Hl Hb) as [E [xs [Et SB]]].
  exists (fst (set_times t0 ys)), xs. split; [rewrite E at 1; f_equal; now rewrite E|]. rewrite Et. cbn [tbase b_ny b_nx b_xt]. do 3 (split; [reflexivity|]).
  assert (R : exists bb, set_times (mk_overM os bt n off) ys = (Leaf KOverM bb, Ok tt) /\ b_xt bb = Some xs).
  { clear - SB. unfold mk_overM. cbn [set_times]. revert SB. unfold set_times_base, base0. cbn [b_bound b_os b_xt b_nx]. destruct bt as [[kd p]|].
    - destruct kd; try discriminate; destruct ys; try discriminate; destruct (Nat.eqb os 0); try discriminate; intros H; injection H; intros; subst xs; eexists; split; reflexivity.
    - intros H. injection H; intros; subst xs. eexists. split; reflexivity. }
  destruct R as [bb [R1 R2]].
  destruct (@plain_grid F rexp (DOverM os bt n off) bt os n (mk_overM os bt n off) [] ys (Leaf KOverM bb) eq_refl Ho eq_refl R1) as [ps' [pe' [xs' [A [_ [B [_ [C _]]]]]]]].
  rewrite Hp in A. injection A as <- <-. cbn [tbase] in B. rewrite R2 in B. injection B as <-. exact C.
Qed.
(** a second call of set_times needs the same number of times *)
Lemma custom_recount T nx ny n bt os0 off os ps pe (ys zs : list F) t0 t :
  wfa [nx; ny; n] T -> ny <> 0 -> os <> 0 -> pads bt os = Some (ps, pe) -> nx = ps + os * ny + pe -> length ys = ny ->
  build (DCustom T None bt os0 off n) = Ok t0 -> set_times t0 ys = (t, Ok tt) -> length zs <> ny ->
  snd (set_times t zs) = Err (if Nat.eqb (length zs) 1 then TypeError else ValueError).
Proof.
  intros WT Hn Ho Hp Ex Hl Hb HS N. destruct (@custom_set T nx ny n bt os0 off os ps pe ys t0 WT Hn Ho Hp Ex Hl Hb) as [_ [xs [Et _]]]. rewrite HS in Et. cbn [fst] in Et. subst t.
  cbn [set_times]. unfold set_times_custom. cbn [b_xt b_ny]. destruct (Nat.eqb (length zs) 1); [reflexivity|]. apply Nat.eqb_neq in N. rewrite N. reflexivity.
Qed.
Lemma custom_evals b T l : b_mat b = Some T -> Forall is_eval l -> do_ops rexp (Leaf KCustom b) l = Leaf KCustom b.
Proof.
  intros Hm. induction l as [|o l IH]; intros Hl; [reflexivity|]. inversion Hl; subst.
  cbn [do_ops fold_left]. assert (E : do_op rexp (Leaf KCustom b) o = Leaf KCustom b).
  { destruct o; cbn [is_eval] in *; try tauto; cbn [do_op call grad get_matrix]; unfold matrix_call, matrix_grad; cbn [is_exp own_matrix get_matrix tbase];
    rewrite ?Hm; try (destruct (check_dims b y)); try (destruct (check_grad b g)); reflexivity. }
  rewrite E. exact (IH H2).
Qed.
Lemma custom_adjoint T nx ny n bt os0 off os ps pe (ys : list F) t0 t evals :
  wfa [nx; ny; n] T -> ny <> 0 -> os <> 0 -> pads bt os = Some (ps, pe) -> nx = ps + os * ny + pe -> length ys = ny ->
  build (DCustom T None bt os0 off n) = Ok t0 -> set_times t0 ys = (t, Ok tt) -> Forall is_eval evals ->
  let u := do_ops rexp t evals in
  (forall y, wfa [ny; n] y -> exists x, snd (call rexp u y) = Ok x /\ wfa [nx; n] x /\
     forall i k, i < nx -> k < n -> get2 k0 x i k = with_offset off (sumn (S:=K) ny (fun j => kmul (get3 k0 T i j k) (get2 k0 y j k)))) /\
  (forall g f, wfa [nx; f; n] g -> exists h, snd (grad rexp u g) = Ok h /\ wfa [ny; f; n] h /\
     forall j q k, j < ny -> q < f -> k < n -> get3 k0 h j q k = sumn (S:=K) nx (fun i => kmul (get3 k0 T i j k) (get3 k0 g i q k))) /\
  transposes rexp u ny nx n.
Proof.
  intros WT Hn Ho Hp Ex Hl Hb Hs He. destruct (@custom_set T nx ny n bt os0 off os ps pe ys t0 WT Hn Ho Hp Ex Hl Hb) as [_ [xs [Et _]]].
  rewrite Hs in Et. cbn [fst] in Et. subst t. set (b := @mkb F n bt os off (Some T) ny (Some ys) nx (Some xs)).
  cbn zeta. rewrite (@custom_evals b T evals eq_refl He).
  assert (HT : has_times b) by (exists ys; subst b; cbn; auto).
  assert (C : forall y, wfa [ny; n] y -> snd (call rexp (Leaf KCustom b) y) = Ok (add_offset off (mk2 nx n (fun i k => sumn (S:=K) ny (fun j => kmul (get3 k0 T i j k) (get2 k0 y j k)))))).
  { intros y Hy. cbn [call]. unfold matrix_call. rewrite (@check_dims_ok F (tbase (Leaf KCustom b)) y HT Hy).
    cbn [own_matrix get_matrix tbase b_mat b snd]. cbn [bind]. rewrite (@einsum_call_ok F _ _ _ _ _ WT Hy). reflexivity. }
  assert (G : forall g f, wfa [nx; f; n] g -> snd (grad rexp (Leaf KCustom b) g) = Ok (mk3 ny f n (fun j q k => sumn (S:=K) nx (fun i => kmul (get3 k0 T i j k) (get3 k0 g i q k))))).
  { intros g f Hg. cbn [grad]. unfold matrix_grad. cbn [is_exp]. rewrite (@check_grad_ok F (tbase (Leaf KCustom b)) g f Hg).
    cbn [own_matrix get_matrix tbase b_mat b snd]. cbn [bind]. now rewrite (@einsum_grad_ok F _ _ _ _ _ _ WT Hg). }
  assert (AO : forall (u : nat -> nat -> F) i k, i < nx -> k < n -> get2 k0 (add_offset off (mk2 nx n u)) i k = with_offset off (u i k)).
  { intros u i k Hi Hk. unfold add_offset, with_offset. destruct off; [|now apply get2_mk2].
    destruct (dim_wfa2 (wfa_mk2 nx n u)) as [-> [-> _]]. rewrite get2_mk2 by auto. now rewrite get2_mk2. }
  assert (AW : forall (u : nat -> nat -> F), wfa [nx; n] (add_offset off (mk2 nx n u))).
  { intros u. unfold add_offset. destruct off; [|apply wfa_mk2]. destruct (dim_wfa2 (wfa_mk2 nx n u)) as [-> [-> _]]. apply wfa_mk2. }
  split; [|split; [|split]].
  - intros y Hy. eexists. split; [exact (C y Hy)|]. split; [apply AW|]. intros i k Hi Hk. now rewrite AO.
  - intros g f Hg. eexists. split; [exact (G g f Hg)|]. split; [apply wfa_mk3|]. intros j q k Hj Hq Hk. now rewrite get3_mk3.
  - intros y x Hy E. rewrite (C y Hy) in E. injection E as <-. apply AW.
  - intros f y y' g x x' h Hy Hy' Hg E1 E2 E3. rewrite (C y Hy) in E1. rewrite (C y' Hy') in E2. rewrite (G g f Hg) in E3.
    injection E1 as <-. injection E2 as <-. injection E3 as <-. split; [apply wfa_mk3|]. intros q Hq.
    rewrite !pairing_sub.
    transitivity (pair nx n (fun i k => get3 k0 g i q k) (fun i k => sumn (S:=K) ny (fun j => kmul (get3 k0 T i j k) (ksub (get2 k0 y' j k) (get2 k0 y j k))))).
    + apply pairing_ext. intros i k Hi Hk. split; [reflexivity|]. rewrite !AO by auto.
      transitivity (ksub (sumn (S:=K) ny (fun j => kmul (get3 k0 T i j k) (get2 k0 y' j k))) (sumn (S:=K) ny (fun j => kmul (get3 k0 T i j k) (get2 k0 y j k)))).
      * unfold with_offset. destruct off; [|reflexivity]. keq F. ring.
      * rewrite ksumn_sub. apply sumn_ext. intros j Hj. keq F. ring.
    + rewrite (@pairing_transpose F nx ny n (fun i j k => get3 k0 T i j k) (fun i k => get3 k0 g i q k) (fun j k => ksub (get2 k0 y' j k) (get2 k0 y j k))).
      apply pairing_ext. intros j k Hj Hk. split; [|reflexivity]. now rewrite get3_mk3.
Qed.

(** ---- the transposition of composed objects follows from that of the parts, whatever they are ---- *)
Lemma concat_transposes b t1 t2 ny m nx n : transposes rexp t1 ny m n -> transposes rexp t2 m nx n -> transposes rexp (Conc b t1 t2) ny nx n.
Proof.
  intros [S1 A1] [S2 A2].
  assert (C : forall y x, snd (call rexp (Conc b t1 t2) y) = Ok x -> exists z, snd (call rexp t1 y) = Ok z /\ snd (call rexp t2 z) = Ok x).
  { intros y x. cbn [call]. destruct (check_dims b y); [|discriminate]. destruct (call rexp t1 y) as [t1' [z|]]; [|discriminate].
    destruct (call rexp t2 z) as [t2' r2] eqn:E2. cbn [snd]. intros ->. exists z. now rewrite E2. }
  split.
  - intros y x Hy E. destruct (C y x E) as [z [E1 E2]]. eauto.
  - intros f y y' g x x' h Hy Hy' Hg E1 E2 E3. destruct (C y x E1) as [z [Z1 Z2]]. destruct (C y' x' E2) as [z' [Z1' Z2']].
    cbn [grad] in E3. destruct (grad rexp t2 g) as [t2' [w|]] eqn:G2; [|discriminate]. destruct (grad rexp t1 w) as [t1' r1] eqn:G1. cbn [snd] in E3. subst r1.
    assert (G2' : snd (grad rexp t2 g) = Ok w) by now rewrite G2. assert (G1' : snd (grad rexp t1 w) = Ok h) by now rewrite G1.
    destruct (A2 f z z' g x x' w (S1 _ _ Hy Z1) (S1 _ _ Hy' Z1') Hg Z2 Z2' G2') as [W I2].
    destruct (A1 f y y' w z z' h Hy Hy' W Z1 Z1' G1') as [W1 I1]. split; [exact W1|]. intros q Hq. rewrite (I2 q Hq). exact (I1 q Hq).
Qed.
Lemma parallel_transposes b t1 t2 ny nx n1 n2 : transposes rexp t1 ny nx n1 -> transposes rexp t2 ny nx n2 ->
  b_ctrls (tbase t1) = n1 -> transposes rexp (Par b t1 t2) ny nx (n1 + n2).
Proof.
  intros [S1 A1] [S2 A2] Hc.
  assert (C : forall y x, snd (call rexp (Par b t1 t2) y) = Ok x -> exists x1 x2, snd (call rexp t1 (cols_lo n1 y)) = Ok x1 /\ snd (call rexp t2 (cols_hi n1 y)) = Ok x2 /\ concat2 x1 x2 = Ok x).
  { intros y x. cbn [call]. rewrite Hc. destruct (check_dims b y); [|discriminate]. destruct (call rexp t1 (cols_lo n1 y)) as [t1' [x1|]]; [|discriminate].
    destruct (call rexp t2 (cols_hi n1 y)) as [t2' [x2|]]; [|discriminate]. cbn [snd bind]. intros E. exists x1, x2. auto. }
  assert (CW : forall y x, wfa [ny; n1 + n2] y -> snd (call rexp (Par b t1 t2) y) = Ok x -> exists x1 x2, snd (call rexp t1 (cols_lo n1 y)) = Ok x1 /\ snd (call rexp t2 (cols_hi n1 y)) = Ok x2 /\
     wfa [nx; n1] x1 /\ wfa [nx; n2] x2 /\ x = mk2 nx (n1 + n2) (fun i k => if Nat.ltb k n1 then get2 k0 x1 i k else get2 k0 x2 i (k - n1))).
  { intros y x Hy E. destruct (C y x E) as [x1 [x2 [E1 [E2 E3]]]]. exists x1, x2. split; [exact E1|]. split; [exact E2|].
    assert (W1 : wfa [nx; n1] x1) by (eapply S1; [|exact E1]; exact (@cols_lo_wf F _ _ _ _ Hy)). assert (W2 : wfa [nx; n2] x2) by (eapply S2; [|exact E2]; exact (@cols_hi_wf F _ _ _ _ Hy)).
    split; [exact W1|]. split; [exact W2|]. rewrite (@concat2_ok F _ _ _ _ _ W1 W2) in E3. now injection E3 as <-. }
  split.
  - intros y x Hy E. destruct (CW y x Hy E) as [x1 [x2 [_ [_ [_ [_ ->]]]]]]. apply wfa_mk2.
  - intros f y y' g x x' h Hy Hy' Hg E1 E2 E3.
    destruct (CW y x Hy E1) as [x1 [x2 [X1 [X2 [W1 [W2 ->]]]]]]. destruct (CW y' x' Hy' E2) as [x1' [x2' [X1' [X2' [W1' [W2' ->]]]]]].
    cbn [grad] in E3. destruct (dim_wfa3 Hg) as [_ [_ [_ R]]]. rewrite R in E3. cbn [Nat.eqb] in E3. rewrite Hc in E3.
    destruct (grad rexp t1 (cols3_lo n1 g)) as [t1' [h1|]] eqn:G1; [|discriminate]. destruct (grad rexp t2 (cols3_hi n1 g)) as [t2' [h2|]] eqn:G2; [|discriminate]. cbn [snd bind] in E3.
    assert (G1' : snd (grad rexp t1 (cols3_lo n1 g)) = Ok h1) by now rewrite G1. assert (G2' : snd (grad rexp t2 (cols3_hi n1 g)) = Ok h2) by now rewrite G2.
    destruct (A1 f _ _ _ _ _ _ (@cols_lo_wf F _ _ _ _ Hy) (@cols_lo_wf F _ _ _ _ Hy') (@cols3_lo_wf F _ _ _ _ _ Hg) X1 X1' G1') as [V1 I1].
    destruct (A2 f _ _ _ _ _ _ (@cols_hi_wf F _ _ _ _ Hy) (@cols_hi_wf F _ _ _ _ Hy') (@cols3_hi_wf F _ _ _ _ _ Hg) X2 X2' G2') as [V2 I2].
    rewrite (@concat3_ok F _ _ _ _ _ _ V1 V2) in E3. injection E3 as <-. split; [apply wfa_mk3|]. intros q Hq.
    rewrite !pairing_cols.
    assert (P1 : forall (z : arrF) (z1 z2 : arrF), z = mk2 nx (n1 + n2) (fun i k => if Nat.ltb k n1 then get2 k0 z1 i k else get2 k0 z2 i (k - n1)) ->
       pair nx n1 (fun i k => get3 k0 g i q k) (get2 k0 z) = pair nx n1 (fun i k => get3 k0 (cols3_lo n1 g) i q k) (get2 k0 z1) /\
       pair nx n2 (fun i k => get3 k0 g i q (n1 + k)) (fun i k => get2 k0 z i (n1 + k)) = pair nx n2 (fun i k => get3 k0 (cols3_hi n1 g) i q k) (get2 k0 z2)).
    { intros z z1 z2 ->. split; apply pairing_ext; intros i k Hi Hk.
      - split; [symmetry; eapply cols3_lo_get; eauto|]. rewrite get2_mk2 by lia. now rewrite (proj2 (Nat.ltb_lt _ _) Hk).
      - split; [symmetry; eapply cols3_hi_get; eauto|]. rewrite get2_mk2 by lia. rewrite (proj2 (Nat.ltb_ge _ _)) by lia. f_equal. lia. }
    set (hh := mk3 ny f (n1 + n2) (fun i j k => if Nat.ltb k n1 then get3 k0 h1 i j k else get3 k0 h2 i j (k - n1))).
    assert (P2 : forall z : arrF, wfa [ny; n1 + n2] z ->
       pair ny n1 (fun i k => get3 k0 hh i q k) (get2 k0 z) = pair ny n1 (fun i k => get3 k0 h1 i q k) (get2 k0 (cols_lo n1 z)) /\
       pair ny n2 (fun i k => get3 k0 hh i q (n1 + k)) (fun i k => get2 k0 z i (n1 + k)) = pair ny n2 (fun i k => get3 k0 h2 i q k) (get2 k0 (cols_hi n1 z))).
    { intros z Hz. split; apply pairing_ext; intros i k Hi Hk; unfold hh.
      - split; [|symmetry; eapply cols_lo_get; eauto]. rewrite get3_mk3 by lia. now rewrite (proj2 (Nat.ltb_lt _ _) Hk).
      - split; [|symmetry; eapply cols_hi_get; eauto]. rewrite get3_mk3 by lia. rewrite (proj2 (Nat.ltb_ge _ _)) by lia. f_equal. lia. }
    destruct (P1 _ x1 x2 eq_refl) as [-> ->]. destruct (P1 _ x1' x2' eq_refl) as [-> ->]. destruct (P2 y Hy) as [-> ->]. destruct (P2 y' Hy') as [-> ->].
    specialize (I1 q Hq). specialize (I2 q Hq).
    match goal with |- ksub (kadd ?a ?b) (kadd ?c ?d) = ksub (kadd ?a' ?b') (kadd ?c' ?d') =>
      transitivity (kadd (ksub a c) (ksub b d)); [keq F; ring|]; rewrite I1, I2; keq F; ring end.
Qed.
Lemma ready_transposes d ys t : no_custom d -> matched d -> sym_convs d -> ready rexp d ys t -> transposes rexp t (length ys) (b_nx (tbase t)) (ctrls d).
Proof.
  intros N M Sy R. split.
  - intros y x Hy E. destruct (@ready_fresh F rexp d ys t N R) as [t0 [t1 [A [B [_ [_ [_ [P3 _]]]]]]]].
    rewrite (@ready_call F rexp d ys t t0 t1 y N R A B) in E.
    pose proof (@set_times_fits F rexp t0 ys t1 (@build_sane F d t0 A N M) B) as F1.
    destruct (@set_times_grid F rexp t0 ys t1 (@build_no_custom F d t0 A N) B) as [N1 _].
    assert (EC1 : b_ctrls (tbase t1) = ctrls d) by (rewrite <- (@build_ctrls F d t0 A); eapply set_times_ctrls; [|exact B]; apply (@build_no_custom F d t0 A N)).
    apply timed_base in P3. apply (f_equal (@b_nx F)) in P3. cbn in P3. rewrite <- P3, <- EC1.
    eapply (@cv_shape F rexp t1 F1 y x); [|exact E]. rewrite N1, EC1. exact Hy.
  - intros f y y' g x x' h Hy Hy' Hg E1 E2 E3.
    destruct (@gradient_is_transpose F rexp d ys t y y' g x x' h f N M Sy R Hy Hy' Hg E1 E2 E3) as [_ [_ [W I]]]. auto.
Qed.

(** ---- setting the times of a concatenation of arbitrary objects ---- *)
Lemma concat_any t1 t2 (ys : list F) t : set_times (mk_conc t1 t2) ys = (t, Ok tt) ->
  exists u1 xs u2, set_times t1 ys = (u1, Ok tt) /\ b_xt (tbase u1) = Some xs /\ set_times t2 xs = (u2, Ok tt) /\
    b_xt (tbase t) = b_xt (tbase u2) /\ b_nx (tbase t) = b_nx (tbase u2) /\
    (forall y, b_yt (tbase u1) <> None -> wfa [b_ny (tbase u1); b_ctrls (tbase t1)] y ->
       snd (call rexp t y) = (x <- snd (call rexp u1 y) ;; snd (call rexp u2 x))) /\
    (forall g, snd (grad rexp t g) = (h <- snd (grad rexp u2 g) ;; snd (grad rexp u1 h))).
Proof.
  unfold mk_conc. cbn [set_times]. destruct (set_times t1 ys) as [u1 [[]|]] eqn:S1; [|discriminate].
  destruct (b_xt (tbase u1)) as [xs|] eqn:EX; [|discriminate]. destruct (set_times t2 xs) as [u2 [[]|]] eqn:S2; [|discriminate].
  intros H. injection H as <-. exists u1, xs, u2. cbn [tbase]. repeat (split; [first [reflexivity|assumption]|]). split.
  - intros y Hyt Hy. cbn [call]. set (b := set_tm _ _ _ _ _).
    assert (CD : check_dims b y = Ok tt).
    { unfold check_dims. subst b. cbn [set_tm b_yt b_ny b_ctrls conc_base]. destruct (b_yt (tbase u1)); [|congruence].
      destruct (dim_wfa2 Hy) as [-> [-> ->]]. now rewrite !Nat.eqb_refl. }
    rewrite CD. destruct (call rexp u1 y) as [u1' [x|]]; cbn [snd bind]; [|reflexivity]. destruct (call rexp u2 x) as [u2' r2]. reflexivity.
  - intros g. cbn [grad]. destruct (grad rexp u2 g) as [u2' [h|]]; cbn [snd bind]; [|reflexivity]. destruct (grad rexp u1 h) as [u1' r]. reflexivity.
Qed.

(** ---- the gradient of ParallelMTF ---- *)
Lemma parallelM_grad d1 d2 ys t t1 t2 g h f : no_custom d1 -> no_custom d2 -> matched d1 -> matched d2 -> no_offset d1 -> no_offset d2 ->
  ready rexp (DParM d1 d2) ys t -> ready rexp d1 ys t1 -> ready rexp d2 ys t2 -> wfa [b_nx (tbase t1); f; ctrls d1 + ctrls d2] g ->
  snd (grad rexp t g) = Ok h ->
  exists h1 h2,
    snd (grad rexp t1 (mk3 (b_nx (tbase t1)) f (ctrls d1) (fun i q k => get3 k0 g i q k))) = Ok h1 /\
    snd (grad rexp t2 (mk3 (b_nx (tbase t1)) f (ctrls d2) (fun i q k => get3 k0 g i q (ctrls d1 + k)))) = Ok h2 /\
    wfa [length ys; f; ctrls d1 + ctrls d2] h /\
    forall j q k, j < length ys -> q < f -> k < ctrls d1 + ctrls d2 ->
      get3 k0 h j q k = if Nat.ltb k (ctrls d1) then get3 k0 h1 j q k else get3 k0 h2 j q (k - ctrls d1).
Proof.
  intros H1 H2 M1 M2 O1 O2 Hr R1 R2 Hg Eh. destruct (@parM_parts F rexp d1 d2 ys t H1 H2 Hr) as [t0 [b [u1 [u2 [t01 [t02 [A [B [B1 [B2 [S1 [S2 Eb]]]]]]]]]]]].
  rewrite (@ready_grad F rexp (DParM d1 d2) ys t t0 (ParM b u1 u2) g (conj H1 H2) Hr A B) in Eh. cbn [gv] in Eh. unfold pmgrad in Eh. cbn [pown tbase pm is_exp] in Eh.
  destruct (@set_times_grid F rexp t01 ys u1 (@build_no_custom F d1 t01 B1 H1) S1) as [N1 _]. destruct (@set_times_grid F rexp t02 ys u2 (@build_no_custom F d2 t02 B2 H2) S2) as [N2 _].
  destruct (check_grad b g); [|discriminate]. cbn [bind] in Eh.
  destruct (pm rexp u1) as [T1|] eqn:P1; [|discriminate]. cbn [bind] in Eh. destruct (pm rexp u2) as [T2|] eqn:P2; [|discriminate]. cbn [bind] in Eh.
  pose proof (@set_times_fits F rexp t01 ys u1 (@build_sane F d1 t01 B1 H1 M1) S1) as F1. pose proof (@set_times_fits F rexp t02 ys u2 (@build_sane F d2 t02 B2 H2 M2) S2) as F2.
  pose proof (@pm_shape F rexp u1 T1 F1 P1) as W1. pose proof (@pm_shape F rexp u2 T2 F2 P2) as W2.
  assert (EC1 : b_ctrls (tbase u1) = ctrls d1) by (rewrite <- (@build_ctrls F d1 t01 B1); eapply set_times_ctrls; [|exact S1]; apply (@build_no_custom F d1 t01 B1 H1)).
  assert (EC2 : b_ctrls (tbase u2) = ctrls d2) by (rewrite <- (@build_ctrls F d2 t02 B2); eapply set_times_ctrls; [|exact S2]; apply (@build_no_custom F d2 t02 B2 H2)).
  destruct (@ready_fresh F rexp d1 ys t1 H1 R1) as [v0 [v1 [Q1 [Q2 [_ [_ [_ [Q3 _]]]]]]]]. assert (v1 = u1) by congruence. subst v1.
  apply timed_base in Q3. apply (f_equal (@b_nx F)) in Q3. cbn in Q3.
  destruct (concat3 T1 T2) as [T|] eqn:ET; [|discriminate]. cbn [bind] in Eh.
  destruct (@concat3_inv F _ _ _ _ _ _ _ _ _ W1 W2 ET) as [E3 E4]. rewrite E3, E4 in W2. rewrite (@concat3_ok F _ _ _ _ _ _ W1 W2) in ET. injection ET as <-.
  rewrite N1, EC1, EC2, Q3 in *. rewrite (@einsum_grad_ok F _ _ _ _ _ _ (wfa_mk3 _ _ _ _) Hg) in Eh. injection Eh as <-.
  destruct (@pown_pm F rexp d1 t01 u1 ys O1 B1 S1 H1) as [_ [C1 [C2 _]]]. destruct (@pown_pm F rexp d2 t02 u2 ys O2 B2 S2 H2) as [_ [C1' [C2' _]]].
  set (nx := b_nx (tbase t1)) in *.
  set (g1 := mk3 nx f (ctrls d1) (fun i q k => get3 k0 g i q k)). set (g2 := mk3 nx f (ctrls d2) (fun i q k => get3 k0 g i q (ctrls d1 + k))).
  assert (Y1 : wfa [nx; f; ctrls d1] g1) by apply wfa_mk3. assert (Y2 : wfa [nx; f; ctrls d2] g2) by apply wfa_mk3.
  do 2 eexists. split; [|split; [|split]].
  - rewrite (@ready_grad F rexp d1 ys t1 t01 u1 g1 H1 R1 B1 S1), C1. unfold pmgrad. rewrite (@check_grad_ok F (tbase u1) g1 f) by now rewrite Q3, EC1.
    rewrite C2, P1. cbn [bind]. rewrite (@einsum_grad_ok F _ _ _ _ _ _ W1 Y1). destruct (is_exp u1); reflexivity.
  - rewrite (@ready_grad F rexp d2 ys t2 t02 u2 g2 H2 R2 B2 S2), C1'. unfold pmgrad. rewrite (@check_grad_ok F (tbase u2) g2 f) by now rewrite E3, EC2.
    rewrite C2', P2. cbn [bind]. rewrite (@einsum_grad_ok F _ _ _ _ _ _ W2 Y2). destruct (is_exp u2); reflexivity.
  - apply wfa_mk3.
  - intros j q k Hj Hq Hk. rewrite get3_mk3 by auto. destruct (Nat.ltb_spec k (ctrls d1)) as [L|L].
    + rewrite get3_mk3 by auto. apply sumn_ext. intros i Hi. rewrite get3_mk3 by auto. rewrite (proj2 (Nat.ltb_lt _ _) L). unfold g1. now rewrite get3_mk3.
    + rewrite get3_mk3 by lia. apply sumn_ext. intros i Hi. rewrite get3_mk3 by auto. rewrite (proj2 (Nat.ltb_ge _ _) L). unfold g2. rewrite get3_mk3 by lia. now replace (ctrls d1 + (k - ctrls d1)) with k by lia.
Qed.
End P.
