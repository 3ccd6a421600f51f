(** Layout of the jacobian and the numeric gradient. *)
Require Import List Arith Lia Bool Field.
From Verif Require Import LibBase LibRing LibArr LibCplx LibMat M_Matrix M_OpHeap M_Transfer S_Transfer M_Amplitude M_Solver S_Solver
  M_Cost M_Simulator S_Simulator P_Simulator.
Import ListNotations.
Set Implicit Arguments.

(** ---- blocks of equal length ---- *)
Lemma flat_len {A} (f : nat -> list A) B n : (forall t, length (f t) = B) -> forall a, length (flat_map f (seq a n)) = n * B.
Proof. intros H. induction n; intros a; cbn; auto. rewrite app_length, H, IHn. lia. Qed.
Lemma flat_nth {A} (d : A) (f : nat -> list A) B n : (forall t, length (f t) = B) -> forall a t r, t < n -> r < B ->
  nth (t * B + r) (flat_map f (seq a n)) d = nth r (f (a + t)) d.
Proof.
  intros H. induction n; intros a t r Ht Hr; [lia|]. cbn [seq flat_map]. destruct t.
  - rewrite app_nth1 by (rewrite H; lia). cbn [Nat.mul Nat.add]. now rewrite Nat.add_0_r.
  - rewrite app_nth2 by (rewrite H; lia). rewrite H. replace (Datatypes.S t * B + r - B) with (t * B + r) by lia. rewrite IHn by lia. f_equal. f_equal. lia.
Qed.
Lemma offset_scale ns C i : offset (map (fun n => n * C) ns) i = offset ns i * C.
Proof.
  revert i. induction ns as [|n ns IH]; intros [|i]; unfold offset in *; cbn; auto. fold (list_sum (firstn i (map (fun n => n * C) ns))).
  fold (list_sum (firstn i ns)). rewrite IH. lia.
Qed.
Lemma sum_scale ns C : list_sum (map (fun n => n * C) ns) = list_sum ns * C.
Proof. unfold list_sum. induction ns; cbn; auto. rewrite IHns. lia. Qed.
Lemma offset_lt ns i n f : nth_error ns i = Some n -> f < n -> offset ns i + f < list_sum ns.
Proof.
  revert i. induction ns as [|a ns IH]; intros [|i] H Hf; try discriminate; unfold offset in *; cbn in *.
  - inversion H; subst. lia.
  - specialize (IH i H Hf). unfold list_sum in *. lia.
Qed.

Section Jac.
Variable F : OField.
Notation arrF := (arr (kcar F)).
Lemma sizes_dim1 (hs : list arrF) T C ns : Forall2 (fun (h : arrF) n => wfa [T; n; C] h) hs ns -> map dim1 hs = ns.
Proof. induction 1 as [|h n hs ns H _ IH]; cbn; auto. f_equal; auto. unfold dim1. now rewrite (proj1 H). Qed.
Lemma concat_axis1_ok (hs : list arrF) T C ns : hs <> [] -> Forall2 (fun (h : arrF) n => wfa [T; n; C] h) hs ns ->
  exists J, concat_axis1 hs = Ok J /\ wfa [T; list_sum ns; C] J /\
   forall i h n t f c, nth_error hs i = Some h -> nth_error ns i = Some n -> t < T -> f < n -> c < C ->
     get3 k0 J t (offset ns i + f) c = get3 k0 h t f c.
Proof.
  intros Hne H. destruct hs as [|a hs']; [congruence|].
  assert (Da : dim0 a = T /\ dim2 a = C).
  { inversion H as [|x n0 q q' Ha]; subst. unfold dim0, dim2. rewrite (proj1 Ha). auto. } destruct Da as [D0 D2].
  unfold concat_axis1. rewrite D0, D2. remember (a :: hs') as hs eqn:Eh. clear Eh Hne.
  assert (FA : forallb (fun b => Nat.eqb (rank b) 3 && Nat.eqb (dim0 b) T && Nat.eqb (dim2 b) C) hs = true).
  { apply forallb_forall. clear - H. induction H as [|h n l l' Hh _ IH]; [intros b []|]. intros b [<-|Hb]; [|auto]. unfold rank, dim0, dim2. rewrite (proj1 Hh).
    cbn. now rewrite !Nat.eqb_refl. }
  rewrite FA. cbn [bind]. rewrite (sizes_dim1 H).
  set (row := fun t (b : arrF) => flat_map (fun f => map (fun c => get3 k0 b t f c) (seq 0 C)) (seq 0 (dim1 b))).
  assert (RL : forall t b, length (row t b) = dim1 b * C).
  { intros. unfold row. apply flat_len. intros. now rewrite map_length, seq_length. }
  assert (ML : forall t, map (@length F) (map (row t) hs) = map (fun n => n * C) ns).
  { intros. rewrite <- (sizes_dim1 H), !map_map. apply map_ext. intros. apply RL. }
  assert (BL : forall t, length (flat_map (row t) hs) = list_sum ns * C).
  { intros. rewrite flat_map_concat_map. rewrite (proj1 (concat_blocks (map (row t) hs))), ML. apply sum_scale. }
  eexists. split; [reflexivity|]. split.
  - split; auto. cbn [data prodn]. rewrite (@flat_len _ (fun t => flat_map (row t) hs) (list_sum ns * C) T BL). lia.
  - intros i h n t f c Hi Hn Ht Hf Hc. pose proof (@offset_lt ns i n f Hn Hf) as LT.
    assert (Dh : dim1 h = n). { pose proof (sizes_dim1 H) as E. rewrite <- E in Hn. rewrite nth_error_map, Hi in Hn. cbn in Hn. congruence. }
    unfold get3 at 1. unfold getn. cbn [shape data ravel prodn].
    replace (t * (list_sum ns * (C * 1)) + ((offset ns i + f) * (C * 1) + (c * 1 + 0))) with (t * (list_sum ns * C) + ((offset ns i + f) * C + c)) by lia.
    change (flat_map _ (seq 0 T)) with (flat_map (fun t => flat_map (row t) hs) (seq 0 T)).
    rewrite (@flat_nth _ k0 (fun t => flat_map (row t) hs) (list_sum ns * C) T BL 0 t) by nia. cbn [Nat.add].
    destruct (concat_blocks (map (row t) hs)) as [_ CB].
    assert (Ez : nth_error (row t h) (f * C + c) = Some (get3 k0 h t f c)).
    { assert (L : f * C + c < length (row t h)) by (rewrite RL, Dh; nia). rewrite (nth_error_nth' _ k0 L). f_equal. unfold row.
      rewrite (@flat_nth _ k0 (fun f => map (fun c => get3 k0 h t f c) (seq 0 C)) C (dim1 h)) by (try lia; intros; now rewrite map_length, seq_length).
      cbn [Nat.add]. rewrite (nth_indep _ k0 (get3 k0 h t f 0)) by (now rewrite map_length, seq_length).
      rewrite (map_nth (fun c => get3 k0 h t f c)). now rewrite seq_nth. }
    specialize (CB i (row t h) (f * C + c) _ (map_nth_error (row t) i hs Hi) Ez). rewrite ML, offset_scale in CB.
    rewrite flat_map_concat_map. apply nth_error_nth with (d := k0) in CB. rewrite <- CB. f_equal. lia.
Qed.
End Jac.

Section Num.
Variable F : OField.
Variable rexp : F -> F.
Variable la : LinAlg F.
Variable eps : cplx F.
Notation arrF := (arr (kcar F)).
Notation world := (@world F).
Add Field Kfield_s2 : (k_field F).

(** the jacobian: function axis in the order of the cost vector *)
Theorem sim_jac_layout (m : @sim F) (w0 w : world) p y hs ns T C dl : set_up la eps m w0 -> simulated rexp la eps m w0 w -> sm_numeric m = false ->
  pulse_used m p y -> accepted rexp la eps m w0 y ->
  Forall2 (fun c h => exists s0, nth_error w0 (cf_solver c) = Some s0 /\ gradient_at rexp la eps s0 c y h) (sm_cfs m) hs ->
  Forall2 (fun (h : arrF) n => wfa [T; n; C] h) hs ns ->
  exists w' J, wrapped_jac rexp la eps m p dl w = (w', Ok J) /\ wfa [T; list_sum ns; C] J /\
   (forall i h n t f c, nth_error hs i = Some h -> nth_error ns i = Some n -> t < T -> f < n -> c < C -> get3 k0 J t (offset ns i + f) c = get3 k0 h t f c) /\
   (forall i, In i (sm_solvers m) -> exists s, nth_error w' i = Some s /\ s_opt s = Some y).
Proof.
  intros HS Hw Hn Hp Ha Hv Hd. apply simulated_winv in Hw; auto. destruct (wrapped_jac_ok dl HS Hn Hw Hp Ha Hv) as (w' & E & P).
  destruct (@concat_axis1_ok F hs T C ns) as (J & EJ & WJ & GJ); auto.
  { intros ->. destruct HS as (_ & _ & Hne & _). inversion Hv as [E0|]. now apply Hne. }
  exists w', J. rewrite EJ in E. split; auto. split; auto. split; auto. apply P.
Qed.

Lemma shifted_moved T C (y : arrF) t c d : wfa [T; C] y -> moved T C y t c d (shifted y t c d).
Proof.
  intros Hy. unfold shifted, dim0, dim1. rewrite (proj1 Hy). cbn [nth]. split; [apply wfa_mk2|]. intros i j Hi Hj. rewrite get2_mk2 by auto.
  destruct (Nat.eqb i t && Nat.eqb j c); auto. ring.
Qed.
Lemma moved_unique T C (y a b : arrF) t c d : moved T C y t c d a -> moved T C y t c d b -> a = b.
Proof. intros [A1 A2] [B1 B2]. eapply arr2_ext with (d := k0); eauto. intros. now rewrite A2, B2. Qed.

Lemma difference_ok n (f g : nat -> F) s : difference n (map f (seq 0 n)) (map g (seq 0 n)) s = Ok (map (fun k => kdiv (ksub (f k) (g k)) s) (seq 0 n)).
Proof.
  unfold difference. rewrite !map_length, seq_length, Nat.eqb_refl. cbn. f_equal. generalize 0. induction n; intros a; cbn; auto. now rewrite IHn.
Qed.
Lemma Forall2_seq {B} (P : nat -> B -> Prop) g a n : (forall i, i < n -> P (a + i) (g (a + i))) -> Forall2 P (seq a n) (map g (seq a n)).
Proof.
  revert a. induction n; intros a H; cbn; constructor. { rewrite <- (Nat.add_0_r a). apply H. lia. }
  apply IHn. intros i Hi. replace (Datatypes.S a + i) with (a + Datatypes.S i) by lia. apply H. lia.
Qed.

(** every entry is the difference quotient of the cost with that index *)
Theorem numeric_entries (m : @sim F) (w0 w : world) p y T C n f dl sym : set_up la eps m w0 -> simulated rexp la eps m w0 w -> pulse_used m p y ->
  wfa [T; C] y -> computes rexp la eps m w0 T C n f ->
  exists w' G, numeric_gradient rexp la eps m p dl sym w = (w', Ok G) /\ wfa [T; n; C] G /\
   forall t k c yp ym, t < T -> k < n -> c < C -> moved T C y t c dl yp -> moved T C y t c (kopp dl) ym ->
    get3 k0 G t k c = if sym then kdiv (ksub (f k yp) (f k ym)) (kmul (kofnat 2) dl) else kdiv (ksub (f k yp) (f k y)) dl.
Proof.
  intros HS Hw Hp Hy HC. apply simulated_winv in Hw; auto.
  assert (CC : forall z w, wfa [T; C] z -> winv rexp la eps w0 w -> exists w', wrapped_cost rexp la eps m (Some z) w = (w', Ok (map (fun k => f k z) (seq 0 n))) /\ winv rexp la eps w0 w').
  { intros z w1 Hz H1. destruct (HC z Hz) as (A & vals & V & E). destruct (wrapped_cost_ok HS H1 (or_introl eq_refl) A V) as (w2 & E2 & P). exists w2. rewrite <- E. split; auto. apply P. }
  unfold numeric_gradient. unfold wbind at 1. unfold wret at 1. rewrite (pulse_of Hp). destruct (CC y w Hy Hw) as (w1 & E1 & I1).
  unfold wbind at 1. rewrite E1. replace (rank y) with 2 by (unfold rank; now rewrite (proj1 Hy)). cbn [Nat.eqb negb].
  assert (D0 : dim0 y = T) by (unfold dim0; now rewrite (proj1 Hy)). assert (D1 : dim1 y = C) by (unfold dim1; now rewrite (proj1 Hy)).
  rewrite D0, D1, map_length, seq_length.
  set (col := fun t c => map (fun k => if sym then kdiv (ksub (f k (shifted y t c dl)) (f k (shifted y t c (kopp dl)))) (kmul (kofnat 2) dl) else kdiv (ksub (f k (shifted y t c dl)) (f k y)) dl) (seq 0 n)).
  match goal with |- context [wmap ?g (seq 0 T)] => set (body := g) end.
  destruct (@wmap_calls F _ _ body (winv rexp la eps w0) (fun t r => r = map (col t) (seq 0 C)) (seq 0 T) (map (fun t => map (col t) (seq 0 C)) (seq 0 T))) with (w := w1) as (w2 & E2 & I2); auto.
  { apply Forall2_seq. auto. }
  { intros t r u _ -> Iu. unfold body. apply wmap_calls with (P := fun c l => l = col t c); auto. { apply Forall2_seq. auto. }
    intros c l v _ -> Iv. destruct (CC (shifted y t c dl) v) as (v1 & F1 & J1); auto. { apply (shifted_moved t c dl Hy). }
    unfold wbind at 1. rewrite F1. unfold col. destruct sym.
    - destruct (CC (shifted y t c (kopp dl)) v1) as (v2 & F2 & J2); auto. { apply (shifted_moved t c (kopp dl) Hy). }
      exists v2. unfold wbind. rewrite F2. unfold wret. now rewrite difference_ok.
    - exists v1. unfold wret. now rewrite difference_ok. }
  unfold wbind at 1. rewrite E2. eexists w2, _. split; [reflexivity|]. split; [apply wfa_mk3|].
  intros t k c yp ym Ht Hk Hc Mp Mm. rewrite get3_mk3 by auto.
  rewrite nth_map_seq by auto. rewrite nth_map_seq by auto. unfold col. rewrite nth_map_seq by auto.
  now rewrite (moved_unique Mp (shifted_moved t c dl Hy)), (moved_unique Mm (shifted_moved t c (kopp dl) Hy)).
Qed.

(** ---- sums over the entries of a pulse ---- *)
Lemma over_ext T C (g h : nat -> nat -> F) : (forall t c, t < T -> c < C -> g t c = h t c) -> over T C g = over T C h.
Proof. intros H. unfold over. apply sumn_ext. intros. apply sumn_ext. auto. Qed.
Lemma over_add T C (g h : nat -> nat -> F) : over T C (fun t c => kadd (g t c) (h t c)) = kadd (over T C g) (over T C h).
Proof. unfold over. etransitivity; [apply sumn_ext; intros; apply (@sumn_add (KStar F))|]. apply (@sumn_add (KStar F)). Qed.
Lemma over_mul T C d (g : nat -> nat -> F) : over T C (fun t c => kmul d (g t c)) = kmul d (over T C g).
Proof. unfold over. etransitivity; [apply sumn_ext; intros; apply (@sumn_mul_l (KStar F))|]. apply (@sumn_mul_l (KStar F)). Qed.
(** the unit pulse *)
Definition e1 (t c i j : nat) : F := if Nat.eqb i t && Nat.eqb j c then k1 else k0.
Lemma over_unit T C t c (g : nat -> nat -> F) : t < T -> c < C -> over T C (fun i j => kmul (g i j) (e1 t c i j)) = g t c.
Proof.
  intros Ht Hc. unfold over. rewrite (@sumn_single (KStar F) T t); auto.
  - rewrite (@sumn_single (KStar F) C c); auto.
    + unfold e1. rewrite !Nat.eqb_refl. cbn. ring.
    + intros i _ Hi. unfold e1. apply Nat.eqb_neq in Hi. rewrite Hi, andb_false_r. cbn. ring.
  - intros i _ Hi. apply (@sumn_0 (KStar F)). intros j _. unfold e1. apply Nat.eqb_neq in Hi. rewrite Hi. cbn. ring.
Qed.
Lemma moved_unit T C (y y' : arrF) t c d : moved T C y t c d y' -> forall i j, i < T -> j < C -> get2 k0 y' i j = kadd (get2 k0 y i j) (kmul d (e1 t c i j)).
Proof. intros [_ H] i j Hi Hj. rewrite H by auto. unfold e1. destruct (Nat.eqb i t && Nat.eqb j c); ring. Qed.

Definition lin T C (A : nat -> nat -> F) (y : arrF) : F := over T C (fun t c => kmul (A t c) (get2 k0 y t c)).
Lemma lin_moved T C A (y y' : arrF) t c d : t < T -> c < C -> moved T C y t c d y' -> lin T C A y' = kadd (lin T C A y) (kmul d (A t c)).
Proof.
  intros Ht Hc M. unfold lin. rewrite <- (over_unit A Ht Hc). rewrite <- over_mul, <- over_add. apply over_ext. intros i j Hi Hj. rewrite (moved_unit M Hi Hj). ring.
Qed.
Definition quad T C (Q : nat -> nat -> nat -> nat -> F) (y : arrF) : F :=
  over T C (fun t c => over T C (fun t' c' => kmul (Q t c t' c') (kmul (get2 k0 y t c) (get2 k0 y t' c')))).
Lemma quad_moved T C Q (y y' : arrF) t c d : t < T -> c < C -> moved T C y t c d y' ->
  quad T C Q y' = kadd (kadd (quad T C Q y) (kmul d (over T C (fun i j => kmul (kadd (Q t c i j) (Q i j t c)) (get2 k0 y i j))))) (kmul (kmul d d) (Q t c t c)).
Proof.
  intros Ht Hc M.
  assert (I : forall i j, i < T -> j < C -> over T C (fun t' c' => kmul (Q i j t' c') (kmul (get2 k0 y' i j) (get2 k0 y' t' c')))
     = kmul (get2 k0 y' i j) (kadd (lin T C (Q i j) y) (kmul d (Q i j t c)))).
  { intros i j _ _. rewrite <- (lin_moved (Q i j) Ht Hc M). unfold lin. rewrite <- over_mul. apply over_ext. intros. ring. }
  assert (I0 : forall i j, over T C (fun t' c' => kmul (Q i j t' c') (kmul (get2 k0 y i j) (get2 k0 y t' c'))) = kmul (get2 k0 y i j) (lin T C (Q i j) y)).
  { intros i j. unfold lin. rewrite <- over_mul. apply over_ext. intros. ring. }
  unfold quad. rewrite (over_ext _ _ I).
  rewrite (@over_ext T C (fun t0 c0 => over T C (fun t' c' => kmul (Q t0 c0 t' c') (kmul (get2 k0 y t0 c0) (get2 k0 y t' c')))) _ (fun i j _ _ => I0 i j)).
  rewrite (@over_ext T C (fun i j => kmul (get2 k0 y' i j) (kadd (lin T C (Q i j) y) (kmul d (Q i j t c))))
    (fun i j => kadd (kmul (get2 k0 y i j) (lin T C (Q i j) y)) (kmul d (kadd (kmul (Q i j t c) (get2 k0 y i j)) (kmul (kadd (lin T C (Q i j) y) (kmul d (Q i j t c))) (e1 t c i j)))))).
  2:{ intros i j Hi Hj. rewrite (moved_unit M Hi Hj). ring. }
  rewrite over_add, over_mul, over_add, (over_unit (fun i j => kadd (lin T C (Q i j) y) (kmul d (Q i j t c))) Ht Hc).
  rewrite (@over_ext T C (fun i j => kmul (kadd (Q t c i j) (Q i j t c)) (get2 k0 y i j)) (fun i j => kadd (kmul (Q t c i j) (get2 k0 y i j)) (kmul (Q i j t c) (get2 k0 y i j)))).
  2:{ intros. ring. }
  rewrite over_add. unfold lin. ring.
Qed.

Theorem numeric_affine (m : @sim F) (w0 w : world) p y T C n f b A dl sym : set_up la eps m w0 -> simulated rexp la eps m w0 w -> pulse_used m p y ->
  wfa [T; C] y -> computes rexp la eps m w0 T C n f -> dl <> k0 ->
  (forall k z, k < n -> wfa [T; C] z -> f k z = kadd (b k) (over T C (fun t c => kmul (A k t c) (get2 k0 z t c)))) ->
  exists w' G, numeric_gradient rexp la eps m p dl sym w = (w', Ok G) /\ wfa [T; n; C] G /\
   forall t k c, t < T -> k < n -> c < C -> get3 k0 G t k c = A k t c.
Proof.
  intros HS Hw Hp Hy HC Hd Hf. destruct (numeric_entries dl sym HS Hw Hp Hy HC) as (w' & G & E & W & H). exists w', G. split; auto. split; auto.
  intros t k c Ht Hk Hc. pose proof (shifted_moved t c dl Hy) as Mp. pose proof (shifted_moved t c (kopp dl) Hy) as Mm.
  rewrite (H t k c _ _ Ht Hk Hc Mp Mm). rewrite !Hf by (auto; first [apply Mp | apply Mm]).
  pose proof (lin_moved (A k) Ht Hc Mp) as Lp. pose proof (lin_moved (A k) Ht Hc Mm) as Lm. unfold lin in Lp, Lm. rewrite Lp, Lm.
  assert (H2 : kadd k1 k1 <> k0 :> F) by (intros E2; apply (@kofnat_S_neq0 F 1); cbn [kofnat]; transitivity (kadd k1 k1 : F); [ring|exact E2]). cbn [kofnat]. destruct sym; field; auto.
Qed.
Theorem numeric_quadratic (m : @sim F) (w0 w : world) p y T C n f b A Q dl : set_up la eps m w0 -> simulated rexp la eps m w0 w -> pulse_used m p y ->
  wfa [T; C] y -> computes rexp la eps m w0 T C n f -> dl <> k0 ->
  (forall k z, k < n -> wfa [T; C] z -> f k z = kadd (kadd (b k) (over T C (fun t c => kmul (A k t c) (get2 k0 z t c))))
     (over T C (fun t c => over T C (fun t' c' => kmul (Q k t c t' c') (kmul (get2 k0 z t c) (get2 k0 z t' c')))))) ->
  exists w' G, numeric_gradient rexp la eps m p dl true w = (w', Ok G) /\ wfa [T; n; C] G /\
   forall t k c, t < T -> k < n -> c < C ->
    get3 k0 G t k c = kadd (A k t c) (over T C (fun i j => kmul (kadd (Q k t c i j) (Q k i j t c)) (get2 k0 y i j))).
Proof.
  intros HS Hw Hp Hy HC Hd Hf. destruct (numeric_entries dl true HS Hw Hp Hy HC) as (w' & G & E & W & H). exists w', G. split; auto. split; auto.
  intros t k c Ht Hk Hc. pose proof (shifted_moved t c dl Hy) as Mp. pose proof (shifted_moved t c (kopp dl) Hy) as Mm.
  rewrite (H t k c _ _ Ht Hk Hc Mp Mm). rewrite !Hf by (auto; first [apply Mp | apply Mm]).
  pose proof (lin_moved (A k) Ht Hc Mp) as Lp. pose proof (lin_moved (A k) Ht Hc Mm) as Lm. unfold lin in Lp, Lm. rewrite Lp, Lm.
  pose proof (quad_moved (Q k) Ht Hc Mp) as Qp. pose proof (quad_moved (Q k) Ht Hc Mm) as Qm. unfold quad in Qp, Qm. rewrite Qp, Qm.
  assert (H2 : kadd k1 k1 <> k0 :> F) by (intros E2; apply (@kofnat_S_neq0 F 1); cbn [kofnat]; transitivity (kadd k1 k1 : F); [ring|exact E2]). cbn [kofnat]. field; auto.
Qed.
Theorem numeric_jacobian (m : @sim F) (w0 w : world) p y T C n f dl : sm_numeric m = true -> set_up la eps m w0 -> simulated rexp la eps m w0 w -> pulse_used m p y ->
  wfa [T; C] y -> computes rexp la eps m w0 T C n f ->
  exists w' G, wrapped_jac rexp la eps m p dl w = (w', Ok G) /\ wfa [T; n; C] G /\
   forall t k c yp, t < T -> k < n -> c < C -> moved T C y t c dl yp -> get3 k0 G t k c = kdiv (ksub (f k yp) (f k y)) dl.
Proof.
  intros N HS Hw Hp Hy HC. destruct (numeric_entries dl false HS Hw Hp Hy HC) as (w' & G & E & W & H). exists w', G. unfold wrapped_jac. rewrite N. split; auto. split; auto.
  intros t k c yp Ht Hk Hc M. exact (H t k c yp _ Ht Hk Hc M (shifted_moved t c (kopp dl) Hy)).
Qed.
End Num.
