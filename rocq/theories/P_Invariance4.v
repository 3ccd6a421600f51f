(** Proofs for C79, part 4: divided time steps, undoing a pulse, one pulse after the other. *)
Require Import List Arith Lia Bool Reals Lra.
From Verif Require Import LibBase LibRing LibArr LibCplx LibMat LibNorm LibDeriv LibSeries M_Matrix S_Linear S_Deriv S_Exp P_Linear P_Matrix P_Frechet P_Mexp P_Mexp2 M_OpHeap M_Transfer S_Transfer M_Amplitude S_Amplitude P_Amplitude M_Solver S_Solver P_Solver7 P_Solver8 P_Solver9 P_SolverMC M_Simulator S_Simulator S_Gradient P_Grad S_Cost S_Invariance P_Invariance P_Invariance2.
Import ListNotations.
Local Open Scope res_scope.
Set Implicit Arguments.

Section Inv.
Add Field Cfield_inv4 : (c_field RField).
Notation op := (op RField).
Notation st := (@st RField).
Notation mm := (mmul (S:=RS)).
Notation ma := (madd (S:=RS)).
Notation ms := (mscale (S:=RS)).
Hint Resolve wfm_mexp wfm_mpw : wfm.
Variable rexp : R -> R.
Variable la : LinAlg RField.
Variable eps : cplx RField.
Notation evolution := (evolution rexp la eps).
Notation gen n s u t G := (is_generator (F:=RField) n (Dr s t) (c_ctrl (s_conf s)) (fun c => get2 (k0 : RField) u t c) G).

Lemma gen_same n (s s' : st) u u' t t' G G' : gen n s u t G -> gen n s' u' t' G' -> c_ctrl (s_conf s) = c_ctrl (s_conf s') -> same_row (length (c_ctrl (s_conf s))) u t u' t' -> Dr s t = Dr s' t' -> G' = G.
Proof.
  intros [W HG] [W' HG'] EC SR ED. apply is_matrix_wfm in W. apply is_matrix_wfm in W'. apply (@mat_ext RS n n); auto. intros i j Hi Hj. rewrite HG, HG', <- EC, <- ED by auto. do 2 f_equal.
  apply sumn_ext. intros c Hc. do 2 f_equal. symmetry. exact (SR c Hc).
Qed.
Lemma step_at (s : st) n k u ps fs t G (W : wfm n n G) f : evolution s n k u ps fs -> t < length (s_time s) -> gen n s u t G -> nth_error fs t = Some f ->
  nth_error fs (S t) = Some (mm (mexp W (nth t (s_time s) (0%R : RField))) f) /\ nth_error ps t = Some (Some (mexp W (nth t (s_time s) (0%R : RField)))).
Proof.
  intros E Ht HG Hf. destruct (steps E) as (_ & _ & _ & _ & ST). destruct (ST t Ht) as (tau & G' & W' & f' & A1 & A2 & A3 & A4 & A5).
  assert (G' = G) by (eapply generator_unique; eauto). subst G'. rewrite Hf in A4. injection A4 as <-. rewrite (nth_error_nth _ _ (0%R : RField) A1). rewrite (mexp_ext W W' tau eq_refl). auto.
Qed.

(** ---- divided time steps ---- *)
Lemma divided (s s' : st) n k u u' ps ps' fs fs' (pos : nat -> nat) : evolution s n k u ps fs -> evolution s' n k u' ps' fs' ->
  c_ctrl (s_conf s) = c_ctrl (s_conf s') -> c_init (s_conf s) = c_init (s_conf s') -> pos 0 = 0 -> pos (length (s_time s)) <= length (s_time s') ->
  (forall t, t < length (s_time s) -> pos t <= pos (S t) /\ total (fun j => nth (pos t + j) (s_time s') 0%R) (pos (S t) - pos t) = nth t (s_time s) 0%R) ->
  (forall t j, t < length (s_time s) -> pos t <= j < pos (S t) -> same_row (length (c_ctrl (s_conf s))) u t u' j /\ Dr s t = Dr s' j) ->
  forall t f, nth_error fs t = Some f -> nth_error fs' (pos t) = Some f.
Proof.
  intros E E' EC EI P0 PT PS PH. destruct (steps E) as (_ & Lf & N0 & WF & ST). destruct (steps E') as (_ & Lf' & N0' & WF' & ST').
  assert (PM : forall t, t <= length (s_time s) -> pos t <= pos (length (s_time s))).
  { intros t Ht. remember (length (s_time s) - t) as d eqn:Ed. revert t Ht Ed. induction d; intros t Ht Ed; [replace t with (length (s_time s)) by lia; lia|].
    etransitivity; [apply (PS t); lia|]. apply IHd; lia. }
  intros t. induction t as [|t IH]; intros f Hf; [rewrite P0, N0', <- EI, <- N0; exact Hf|].
  assert (Ht : t < length (s_time s)) by (assert (S t < length fs) by (apply nth_error_Some; congruence); lia).
  destruct (ST t Ht) as (tau & G & W & g & A1 & A2 & _ & A4 & A5). rewrite A5 in Hf. injection Hf as <-. specialize (IH g A4). destruct (PS t Ht) as [PL PE].
  assert (Q : forall j, pos t + j <= pos (S t) -> nth_error fs' (pos t + j) = Some (mm (mexp W (total (fun j => nth (pos t + j) (s_time s') 0%R) j)) g)).
  { intros j. induction j as [|j IHj]; intros Hj.
    - rewrite Nat.add_0_r. cbn [total]. rewrite mexp_0. rewrite (@mmul_1_l RS n k); [exact IH|]. eauto.
    - assert (Hb : pos t + j < length (s_time s')) by (pose proof (PM (S t) ltac:(lia)); lia). specialize (IHj ltac:(lia)).
      destruct (ST' _ Hb) as (tau' & G' & W' & g' & B1 & B2 & _ & B4 & B5). destruct (PH t (pos t + j) Ht ltac:(lia)) as [H1 H2].
      assert (EG : G' = G) by (eapply gen_same; eauto). subst G'. rewrite IHj in B4. injection B4 as <-. replace (pos t + S j) with (S (pos t + j)) by lia. rewrite B5. f_equal.
      cbn [total]. cbv beta. rewrite (nth_error_nth _ _ (0%R : RField) B1). rewrite (mexp_ext W' W tau' eq_refl). set (x := total _ j). assert (Wg := WF _ _ A4). assert (W1 := wfm_mexp W x). assert (W2 := wfm_mexp W tau').
      rewrite (@mmul_assoc RS n n n k) by wf_solve. rewrite <- mexp_plus. now rewrite Rplus_comm. }
  specialize (Q (pos (S t) - pos t) ltac:(lia)). rewrite PE in Q. replace (pos t + (pos (S t) - pos t)) with (pos (S t)) in Q by lia. rewrite Q. f_equal. f_equal. f_equal. exact (nth_error_nth _ _ (0%R : RField) A1).
Qed.

(** ---- undoing a pulse ---- *)
Lemma gen_neg n (s s' : st) u u' t t' G G' : gen n s u t G -> gen n s' u' t' G' -> c_ctrl (s_conf s) = c_ctrl (s_conf s') ->
  (forall c, c < length (c_ctrl (s_conf s)) -> get2 0%R u' t' c = (- get2 0 u t c)%R) -> rescaled n (-1) (Dr s t) (Dr s' t') -> G' = ms (cofk ((-1)%R : RField)) G.
Proof.
  intros [W HG] [W' HG'] EC SR ED. apply is_matrix_wfm in W. apply is_matrix_wfm in W'. apply (@mat_ext RS n n); auto; [wf_solve|]. intros i j Hi Hj. rewrite (@mg_mscale RS n n) by auto. rewrite HG, HG', <- EC, ED by auto.
  transitivity (cmul (copp ci) (cadd (cmul (cofk ((-1)%R : RField)) (Dr s t).[i,j]) (cmul (cofk ((-1)%R : RField)) (sumn (S:=RS) (length (c_ctrl (s_conf s))) (fun c => cmul (cofk (get2 (k0 : RField) u t c)) (Ct s c).[i,j]))))).
  - do 2 f_equal. rewrite csumn_mul_l. apply sumn_ext. intros c Hc. change (get2 (k0 : RField) u' t' c) with (get2 0%R u' t' c). rewrite (SR c Hc). change (get2 (k0 : RField) u t c) with (get2 0%R u t c).
    set (x := get2 0%R u t c). clearbody x. destruct (Ct s c).[i,j] as [a b]. unfold cmul, cofk. cbn. f_equal; ring.
  - tocplx. cring.
Qed.
Lemma mexp_neg n X X' (W : wfm n n X) (W' : wfm n n X') t : X' = ms (cofk ((-1)%R : RField)) X -> mexp W' t = mexp W (- t)%R.
Proof.
  intros E. subst X'. rewrite <- (mexp_time W' (ms_real_wf t W')), <- (mexp_time W (ms_real_wf (- t)%R W)). apply mexp_ext. apply (@mat_ext RS n n); [wf_solve|wf_solve|]. intros i j Hi Hj.
  rewrite !(@mg_mscale RS n n) by (auto; wf_solve). tocplx. destruct (X.[i,j]) as [a b]. unfold cmul, cofk. cbn. f_equal; ring.
Qed.
Lemma undone (s s' : st) n k u u' ps ps' fs fs' : evolution s n k u ps fs -> evolution s' n k u' ps' fs' ->
  s_time s' = rev (s_time s) -> c_ctrl (s_conf s) = c_ctrl (s_conf s') ->
  (forall t c, t < length (s_time s) -> c < length (c_ctrl (s_conf s)) -> get2 0%R u' t c = (- get2 0 u (length (s_time s) - 1 - t) c)%R) ->
  (forall t, t < length (s_time s) -> rescaled n (-1) (Dr s (length (s_time s) - 1 - t)) (Dr s' t)) ->
  nth_error fs (length (s_time s)) = Some (c_init (s_conf s')) ->
  fs' = rev fs.
Proof.
  intros E E' ET EC ER ED EI. destruct (steps E) as (_ & Lf & N0 & WF & ST). destruct (steps E') as (_ & Lf' & N0' & WF' & ST').
  assert (LT : length (s_time s') = length (s_time s)) by (rewrite ET; apply rev_length).
  assert (H : forall t, t <= length (s_time s) -> nth_error fs' t = nth_error fs (length (s_time s) - t)).
  { intros t. induction t as [|t IH]; intros Ht; [rewrite Nat.sub_0_r; congruence|]. specialize (IH ltac:(lia)).
    assert (Hp : length (s_time s) - S t < length (s_time s)) by lia. destruct (ST _ Hp) as (tau & G & W & g & A1 & A2 & _ & A4 & A5).
    assert (Hq : t < length (s_time s')) by lia. destruct (ST' t Hq) as (tau' & G' & W' & g' & B1 & B2 & _ & B4 & B5).
    assert (Ev : tau' = tau).
    { rewrite ET in B1. apply (nth_error_nth _ _ (0%R : RField)) in B1. rewrite rev_nth in B1 by lia. replace (length (s_time s) - S t) with (length (s_time s) - S t) in B1 by lia. apply (nth_error_nth _ _ (0%R : RField)) in A1. congruence. }
    subst tau'. replace (S (length (s_time s) - S t)) with (length (s_time s) - t) in A5 by lia. rewrite <- IH, B4 in A5. injection A5 as ->. rewrite B5, A4. f_equal.
    replace (length (s_time s) - S t) with (length (s_time s) - 1 - t) in * by lia.
    assert (EG : G' = ms (cofk ((-1)%R : RField)) G) by (eapply gen_neg; eauto; intros; apply ER; lia || apply ED; lia).
    rewrite (mexp_neg W W' tau EG). assert (Wg := WF _ _ A4). assert (W1 := wfm_mexp W (- tau)%R). assert (W2 := wfm_mexp W tau).
    rewrite (@mmul_assoc RS n n n k) by wf_solve. rewrite mexp_inv. now apply (@mmul_1_l RS n k). }
  apply nth_error_ext. intros t. destruct (Nat.leb_spec t (length (s_time s))) as [Ht|Ht].
  - rewrite (H t Ht). rewrite (nth_error_nth' fs dop) by lia. rewrite (nth_error_nth' (rev fs) dop) by (rewrite rev_length; lia). rewrite rev_nth by lia. do 2 f_equal. lia.
  - rewrite (proj2 (nth_error_None fs' t)), (proj2 (nth_error_None (rev fs) t)) by (rewrite ?rev_length; lia). reflexivity.
Qed.

(** ---- one pulse after the other ---- *)
Lemma successive (s1 s2 s : st) n k u1 u2 u ps1 ps2 ps fs1 fs2 fs : evolution s1 n k u1 ps1 fs1 -> evolution s2 n k u2 ps2 fs2 -> evolution s n k u ps fs ->
  s_time s = s_time s1 ++ s_time s2 -> c_ctrl (s_conf s1) = c_ctrl (s_conf s) -> c_ctrl (s_conf s2) = c_ctrl (s_conf s) ->
  (forall t, t < length (s_time s1) -> same_row (length (c_ctrl (s_conf s))) u1 t u t /\ Dr s1 t = Dr s t) ->
  (forall t, t < length (s_time s2) -> same_row (length (c_ctrl (s_conf s))) u2 t u (length (s_time s1) + t) /\ Dr s2 t = Dr s (length (s_time s1) + t)) ->
  c_init (s_conf s1) = c_init (s_conf s) -> nth_error fs1 (length (s_time s1)) = Some (c_init (s_conf s2)) ->
  ps = ps1 ++ ps2 /\ fs = fs1 ++ tl fs2.
Proof.
  intros E1 E2 E ET C1 C2 H1 H2 I1 I2. destruct (steps E1) as (Lp1 & Lf1 & N1 & WF1 & ST1). destruct (steps E2) as (Lp2 & Lf2 & N2 & WF2 & ST2). destruct (steps E) as (Lp & Lf & N0 & WF & ST).
  assert (LT : length (s_time s) = length (s_time s1) + length (s_time s2)) by (rewrite ET; apply app_length).
  assert (Q1 : forall t, t <= length (s_time s1) -> nth_error fs t = nth_error fs1 t /\ (t < length (s_time s1) -> nth_error ps t = nth_error ps1 t)).
  { intros t. induction t as [|t IH]; intros Ht.
    - split; [rewrite N0, N1; congruence|]. intros Ht'. destruct (ST1 0 Ht') as (tau & G & W & g & A1 & A2 & A3 & A4 & A5). destruct (ST 0 ltac:(lia)) as (tau' & G' & W' & g' & B1 & B2 & B3 & B4 & B5).
      rewrite ET, nth_error_app1, A1 in B1 by lia. injection B1 as <-. destruct (H1 0 Ht') as [D1 D2]. assert (G' = G) by (eapply gen_same; eauto; now rewrite C1). subst G'. rewrite A3, B3. now rewrite (mexp_ext W W' tau eq_refl).
    - destruct (IH ltac:(lia)) as [IH1 IH2]. split.
      + destruct (ST1 t ltac:(lia)) as (tau & G & W & g & A1 & A2 & A3 & A4 & A5). destruct (ST t ltac:(lia)) as (tau' & G' & W' & g' & B1 & B2 & B3 & B4 & B5).
        rewrite ET, nth_error_app1, A1 in B1 by lia. injection B1 as <-. specialize (IH2 ltac:(lia)). rewrite A3, B3 in IH2. assert (IH3 : mexp W' tau = mexp W tau) by congruence. rewrite A4, B4 in IH1. injection IH1 as ->. now rewrite A5, B5, IH3.
      + intros Ht'. destruct (ST1 _ Ht') as (tau & G & W & g & A1 & A2 & A3 & A4 & A5). destruct (ST (S t) ltac:(lia)) as (tau' & G' & W' & g' & B1 & B2 & B3 & B4 & B5).
        rewrite ET, nth_error_app1, A1 in B1 by lia. injection B1 as <-. destruct (H1 _ Ht') as [D1 D2]. assert (G' = G) by (eapply gen_same; eauto; now rewrite C1). subst G'. rewrite A3, B3. now rewrite (mexp_ext W W' tau eq_refl). }
  assert (Q2 : forall t, t <= length (s_time s2) -> nth_error fs (length (s_time s1) + t) = nth_error fs2 t /\ (t < length (s_time s2) -> nth_error ps (length (s_time s1) + t) = nth_error ps2 t)).
  { assert (P2 : forall t, t < length (s_time s2) -> nth_error ps (length (s_time s1) + t) = nth_error ps2 t).
    { intros t Ht'. destruct (ST2 _ Ht') as (tau & G & W & g & A1 & A2 & A3 & A4 & A5). destruct (ST (length (s_time s1) + t) ltac:(lia)) as (tau' & G' & W' & g' & B1 & B2 & B3 & B4 & B5).
      rewrite ET, nth_error_app2 in B1 by lia. replace (length (s_time s1) + t - length (s_time s1)) with t in B1 by lia. rewrite A1 in B1. injection B1 as <-.
      destruct (H2 _ Ht') as [D1 D2]. assert (G' = G) by (eapply gen_same; eauto; now rewrite C2). subst G'. rewrite A3, B3. now rewrite (mexp_ext W W' tau eq_refl). }
    intros t. induction t as [|t IH]; intros Ht.
    - split; [|intros; now apply P2]. rewrite Nat.add_0_r. rewrite (proj1 (Q1 _ (le_n _))). congruence.
    - destruct (IH ltac:(lia)) as [IH1 IH2]. split; [|intros; now apply P2].
      destruct (ST2 t ltac:(lia)) as (tau & G & W & g & A1 & A2 & A3 & A4 & A5). destruct (ST (length (s_time s1) + t) ltac:(lia)) as (tau' & G' & W' & g' & B1 & B2 & B3 & B4 & B5).
      specialize (IH2 ltac:(lia)). rewrite A3, B3 in IH2. assert (IH3 : mexp W' tau' = mexp W tau) by congruence. rewrite A4, B4 in IH1. injection IH1 as ->. replace (length (s_time s1) + S t) with (S (length (s_time s1) + t)) by lia. now rewrite A5, B5, IH3. }
  split; apply nth_error_ext; intros t.
  - destruct (Nat.ltb_spec t (length (s_time s1))) as [Ht|Ht]; [rewrite nth_error_app1 by lia; now apply Q1; lia|]. rewrite nth_error_app2 by lia.
    destruct (Nat.ltb_spec t (length (s_time s))) as [Ht'|Ht'].
    + replace t with (length (s_time s1) + (t - length (s_time s1))) at 1 by lia. rewrite Lp1. apply Q2; lia.
    + rewrite (proj2 (nth_error_None ps t)), (proj2 (nth_error_None ps2 _)) by lia. reflexivity.
  - destruct (Nat.leb_spec t (length (s_time s1))) as [Ht|Ht]; [rewrite nth_error_app1 by lia; now apply Q1|]. rewrite nth_error_app2 by lia.
    destruct fs2 as [|f0 fs2']; [discriminate|]. cbn [tl]. cbn [length] in Lf2. destruct (Nat.leb_spec t (length (s_time s))) as [Ht'|Ht'].
    + replace t with (length (s_time s1) + S (t - length fs1)) at 1 by lia. rewrite (proj1 (Q2 (S (t - length fs1)) ltac:(lia))). reflexivity.
    + rewrite (proj2 (nth_error_None fs t)), (proj2 (nth_error_None fs2' _)) by lia. reflexivity.
Qed.
End Inv.
