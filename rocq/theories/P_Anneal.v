(** Annealing moves, elapsed times, termination conditions. *)
Require Import List Arith ZArith QArith Qround Bool String Ascii DecimalString Decimal DecimalZ DecimalPos Lia Lqa Ring Field.
From Verif Require Import LibBase LibRing LibArr M_OpHeap P_OpHeap M_Anneal S_Anneal.
Import ListNotations.
Open Scope nat_scope.
Set Implicit Arguments.
Local Notation length := List.length.

(** ---- moves ---- *)
Section Move.
Variable F : OField.
Notation arrF := (arr (kcar F)).
Add Field Kfield_an : (k_field F).
Lemma kofz_bounds (a z : Z) : (- z <= a <= z)%Z -> kle (kopp (kofz z)) (kofz a : F) /\ kle (kofz a : F) (kofz z).
Proof.
  assert (M : forall n m : nat, n <= m -> kle (kofnat n : F) (kofnat m)).
  { intros n m H. replace m with (n + (m - n)) by lia. rewrite kofnat_add. pose proof (@kle_add2 F (kofnat n) (kofnat n) k0 (kofnat (m - n)) (kle_refl _ _) (kofnat_nonneg _ _)) as Q.
    replace (kadd (kofnat n) k0) with (kofnat n : F) in Q by ring. exact Q. }
  assert (O : forall x y : F, kle x y -> kle (kopp y) (kopp x)).
  { intros x y H. apply kle_of_sub. replace (ksub (kopp x) (kopp y)) with (ksub y x) by ring. now apply ksub_nonneg. }
  assert (N : forall n : nat, kle (kopp (kofnat n)) (k0 : F)). { intros n. replace (k0 : F) with (kopp (k0 : F)) by ring. apply O, kofnat_nonneg. }
  intros [H1 H2]. destruct z as [|p|p]; [assert (a = 0)%Z by lia; subst|..|lia].
  - cbn. split; [replace (kopp k0) with (k0 : F) by ring|]; apply kle_refl.
  - destruct a as [|q|q]; cbn [kofz].
    + split; [apply N|apply kofnat_nonneg].
    + split; [|apply M; lia]. eapply kle_trans; [apply N|apply kofnat_nonneg].
    + split; [apply O, M; lia|]. eapply kle_trans; [apply N|apply kofnat_nonneg].
Qed.
Lemma kadd_le_l (x y z : F) : kle x y -> kle (kadd z x) (kadd z y).
Proof. intros H. apply kle_add2; auto. apply kle_refl. Qed.
Lemma kltb_t (x y : F) : kltb x y = true <-> klt x y.
Proof. unfold kltb, klt. apply negb_true_iff. Qed.
Lemma kltb_f (x y : F) : kltb x y = false <-> kle y x.
Proof. unfold kltb, kle. apply negb_false_iff. Qed.
Lemma clamp (lo hi p x z : F) (cast : F -> F) : cast lo = lo -> cast hi = hi -> kle lo hi -> kle (kopp z) x -> kle x z ->
  let new := kadd p x in let r := if kltb hi new then cast hi else if kltb new lo then cast lo else new in
  (kle lo r /\ kle r hi) /\ (kle lo p -> kle p hi -> kle (ksub p z) r /\ kle r (kadd p z) /\ (x = k0 -> r = p)).
Proof.
  intros C1 C2 LH X1 X2 new r.
  assert (N1 : kle (ksub p z) new). { unfold new. replace (ksub p z) with (kadd p (kopp z)) by ring. now apply kadd_le_l. }
  assert (N2 : kle new (kadd p z)). { unfold new. now apply kadd_le_l. }
  unfold r. destruct (kltb hi new) eqn:E1; [|destruct (kltb new lo) eqn:E2].
  - rewrite C2. apply kltb_t in E1. split; [split; [auto|apply kle_refl]|]. intros P1 P2. split; [|split].
    + eapply kle_trans; [|exact P2]. apply kle_of_sub. replace (ksub p (ksub p z)) with z by ring.
      assert (kle (kopp z) z) by (eapply kle_trans; eauto). destruct (kle_dec (k0 : F) z) as [L|L]; auto. exfalso. apply klt_nle in L. apply L.
      apply kle_of_sub. (* 0 <= z - 0 *)
      destruct (kle_dec (k0 : F) z) as [L'|L']; [replace (ksub z k0) with z by ring; auto|]. exfalso.
      assert (kle (kopp z) (k0 : F)) by (eapply kle_trans; [exact H|now apply klt_le]). apply kopp_nonneg' in H0. contradiction.
    + eapply kle_trans; [apply klt_le; exact E1|exact N2].
    + intros ->. exfalso. apply klt_nle in E1. apply E1. unfold new. replace (kadd p k0) with p by ring. exact P2.
  - rewrite C1. apply kltb_t in E2. split; [split; [apply kle_refl|auto]|]. intros P1 P2. split; [|split].
    + eapply kle_trans; [exact N1|now apply klt_le].
    + eapply kle_trans; [exact P1|]. replace p with (kadd p k0) at 1 by ring. apply kadd_le_l.
      assert (kle (kopp z) z) by (eapply kle_trans; eauto). destruct (kle_dec (k0 : F) z) as [L'|L']; [auto|]. exfalso.
      assert (kle (kopp z) (k0 : F)) by (eapply kle_trans; [exact H|now apply klt_le]). apply kopp_nonneg' in H0. apply klt_nle in L'. contradiction.
    + intros ->. exfalso. apply klt_nle in E2. apply E2. unfold new. replace (kadd p k0) with p by ring. exact P1.
  - apply kltb_f in E1, E2.
    split; [auto|]. intros _ _. split; [auto|]. split; [auto|]. intros ->. unfold new. ring.
Qed.
Theorem move_ok T C z (a : @annealer F) rnd mask p : bounds_ok T C a -> an_step a = SInt z -> (0 < z)%Z -> drawn T C z rnd -> wfa [T; C] p ->
  exists p', move a rnd mask p = Ok p' /\ inside T C (an_lo a) (an_hi a) p' /\ (inside T C (an_lo a) (an_hi a) p -> steps T C z (an_ratio a) mask p p').
Proof.
  intros (B1 & B2 & B3) Hz Pz (R1 & R2) Wp. destruct (dim_wfa2 Wp) as (D0 & D1 & D2). destruct (dim_wfa2 B1) as (L0 & L1 & _). destruct (dim_wfa2 B2) as (U0 & U1 & _).
  unfold move. rewrite Hz. assert (Z.eqb z 0 = false) as -> by (apply Z.eqb_neq; lia). assert (Z.ltb (- z) (z + 1) = true) as -> by (apply Z.ltb_lt; lia).
  rewrite D0, D1, D2, L0, L1, U0, U1, !Nat.eqb_refl. cbn [negb andb]. cbv beta zeta. eexists. split; [reflexivity|].
  assert (K : forall t c, t < T -> c < C ->
    let x := kofz (if kltb (an_ratio a) (get2 k0 mask t c) then 0%Z else get2 0%Z rnd t c) : F in
    get2 k0 (mk2 T C (fun i j => if get2 false (mk2 T C (fun i0 j0 => kltb (get2 k0 (an_hi a) i0 j0) (get2 k0 (mk2 T C (fun i1 j1 => kadd (get2 k0 p i1 j1) (kofz (get2 0%Z (mk2 T C (fun i2 j2 => if kltb (an_ratio a) (get2 k0 mask i2 j2) then 0%Z else get2 0%Z rnd i2 j2)) i1 j1)))) i0 j0))) i j
       then an_cast a (get2 k0 (an_hi a) i j) else get2 k0 (mk2 T C (fun i0 j0 => if get2 false (mk2 T C (fun i1 j1 => kltb (get2 k0 (mk2 T C (fun i2 j2 => kadd (get2 k0 p i2 j2) (kofz (get2 0%Z (mk2 T C (fun i3 j3 => if kltb (an_ratio a) (get2 k0 mask i3 j3) then 0%Z else get2 0%Z rnd i3 j3)) i2 j2)))) i1 j1) (get2 k0 (an_lo a) i1 j1))) i0 j0 then an_cast a (get2 k0 (an_lo a) i0 j0) else get2 k0 (mk2 T C (fun i1 j1 => kadd (get2 k0 p i1 j1) (kofz (get2 0%Z (mk2 T C (fun i2 j2 => if kltb (an_ratio a) (get2 k0 mask i2 j2) then 0%Z else get2 0%Z rnd i2 j2)) i1 j1)))) i0 j0)) i j)) t c
     = if kltb (get2 k0 (an_hi a) t c) (kadd (get2 k0 p t c) x) then an_cast a (get2 k0 (an_hi a) t c) else if kltb (kadd (get2 k0 p t c) x) (get2 k0 (an_lo a) t c) then an_cast a (get2 k0 (an_lo a) t c) else kadd (get2 k0 p t c) x).
  { intros t c Ht Hc. repeat (rewrite get2_mk2 by auto). reflexivity. }
  assert (X : forall t c, t < T -> c < C -> (- z <= (if kltb (an_ratio a) (get2 k0 mask t c) then 0%Z else get2 0%Z rnd t c) <= z)%Z).
  { intros t c Ht Hc. destruct (kltb _ _); [lia|]. now apply R2. }
  split.
  - split; [apply wfa_mk2|]. intros t c Ht Hc. rewrite K by auto. destruct (kofz_bounds (X t c Ht Hc)) as [X1 X2]. destruct (B3 t c Ht Hc) as (Q1 & Q2 & Q3).
    apply (clamp (get2 k0 p t c) (an_cast a) Q2 Q3 Q1 X1 X2).
  - intros [_ Hp] t c Ht Hc. rewrite K by auto. destruct (kofz_bounds (X t c Ht Hc)) as [X1 X2]. destruct (B3 t c Ht Hc) as (Q1 & Q2 & Q3). destruct (Hp t c Ht Hc) as [P1 P2].
    destruct (clamp (get2 k0 p t c) (an_cast a) Q2 Q3 Q1 X1 X2) as [_ G]. destruct (G P1 P2) as (G1 & G2 & G3). split; [exact G1|]. split; [exact G2|].
    intros Hm. apply G3. apply kltb_t in Hm. now rewrite Hm.
Qed.
(** other step sizes are rejected *)
Theorem move_step (a : @annealer F) rnd mask p : (forall z, an_step a = SInt z -> (z <= 0)%Z) -> move a rnd mask p = Err ValueError.
Proof.
  intros H. unfold move. destruct (an_step a) as [z|]; auto. specialize (H z eq_refl). destruct (Z.eqb z 0) eqn:E; cbn; auto. apply Z.eqb_neq in E.
  assert (Z.ltb (- z) (z + 1) = false) as -> by (apply Z.ltb_ge; lia). reflexivity.
Qed.
(** a whole run *)
Theorem anneal_ok T C z (a : @annealer F) h : forall l, bounds_ok T C a -> an_step a = SInt z -> (0 < z)%Z -> draws_ok T C z h -> l <> [] -> Forall (inside T C (an_lo a) (an_hi a)) l ->
  forall l', anneal a l h = Ok l' -> Forall (inside T C (an_lo a) (an_hi a)) l'.
Proof.
  induction h as [|e h IH]; intros l Hb Hz Pz Hd Hl Hi l' E; cbn in E. { inversion E; subst; auto. } inversion Hd; subst.
  assert (exists p, inside T C (an_lo a) (an_hi a) p /\ anneal a (l ++ [p]) h = Ok l') as (p & Hp & E').
  { destruct e as [r m|k].
    - assert (Il : inside T C (an_lo a) (an_hi a) (last l (Arr [] []))). { rewrite Forall_forall in Hi. apply Hi. destruct (exists_last Hl) as (l0 & x & ->). rewrite last_last. apply in_or_app. right. now left. }
      destruct (@move_ok T C z a r m _ Hb Hz Pz H1 (proj1 Il)) as (p & E1 & E2 & _). rewrite E1 in E. cbn in E. eauto.
    - destruct (nth_error l k) as [p|] eqn:En; [|discriminate]. exists p. split; auto. rewrite Forall_forall in Hi. apply Hi. eapply nth_error_In; eauto. }
  apply (IH (l ++ [p])); auto. { destruct l; discriminate. } apply Forall_app. auto.
Qed.
(** without an exception *)
Theorem anneal_total T C z (a : @annealer F) h : forall l, bounds_ok T C a -> an_step a = SInt z -> (0 < z)%Z -> draws_ok T C z h -> l <> [] -> Forall (fun p => wfa [T; C] p) l ->
  Forall (fun e => match e with AMove _ _ => True | ABack k => k < length l end) h -> exists l', anneal a l h = Ok l' /\ length l' = length l + length h.
Proof.
  induction h as [|e h IH]; intros l Hb Hz Pz Hd Hl Hi Hk; cbn. { eexists. split; [reflexivity|]. lia. } inversion Hd; subst. inversion Hk; subst.
  assert (exists p, wfa [T; C] p /\ match e with AMove r m => bind (move a r m (last l (Arr [] []))) (fun p => anneal a (l ++ [p]) h) | ABack k => match nth_error l k with Some p => anneal a (l ++ [p]) h | None => Err IndexError end end = anneal a (l ++ [p]) h) as (p & Hp & ->).
  { destruct e as [r m|k].
    - assert (Il : wfa [T; C] (last l (Arr [] []))). { rewrite Forall_forall in Hi. apply Hi. destruct (exists_last Hl) as (l0 & x & ->). rewrite last_last. apply in_or_app. right. now left. }
      destruct (@move_ok T C z a r m _ Hb Hz Pz H1 Il) as (p & E1 & [E2 _] & _). exists p. split; auto. now rewrite E1.
    - destruct (nth_error l k) as [p|] eqn:En. { exists p. split; auto. rewrite Forall_forall in Hi. apply Hi. eapply nth_error_In; eauto. } apply nth_error_None in En. lia. }
  destruct (IH (l ++ [p])) as (l' & E & L); auto. { destruct l; discriminate. } { apply Forall_app. auto. }
  { eapply Forall_impl; [|exact H4]. intros [r m|k]; auto. rewrite app_length. cbn. lia. }
  exists l'. split; auto. rewrite L, app_length. cbn. lia.
Qed.
End Move.

(** ---- time_string ---- *)
Section Time.
Open Scope Z_scope.
Lemma py_round_ok q : rounded q (py_round q).
Proof.
  unfold py_round. pose proof (Qfloor_le q) as A. pose proof (Qlt_floor q) as B. set (f := Qfloor q) in *. rewrite inject_Z_plus in B.
  assert (I1 : (inject_Z 1 == 1)%Q) by reflexivity.
  destruct (Qcompare (q - inject_Z f) (1 # 2)) eqn:E.
  - apply Qeq_alt in E. destruct (Z.even f) eqn:V.
    + unfold rounded. repeat split; try lra. auto.
    + unfold rounded. rewrite inject_Z_plus. repeat split; try lra. intros _. rewrite Z.even_add, V. reflexivity.
  - apply Qlt_alt in E. unfold rounded. split; [lra|split; [lra|intros [H|H]; exfalso; lra]].
  - apply Qgt_alt in E. unfold rounded. rewrite inject_Z_plus. split; [lra|split; [lra|intros [H|H]; exfalso; lra]].
Qed.
Lemma rounded_unique q n m : rounded q n -> rounded q m -> n = m.
Proof.
  intros (A1 & A2 & A3) (B1 & B2 & B3).
  assert (H : forall a b, (inject_Z a - (1 # 2) <= q)%Q -> (q <= inject_Z b + (1 # 2))%Q -> a <= b + 1).
  { intros a b Ha Hb. assert ((inject_Z a <= inject_Z (b + 1))%Q) by (rewrite inject_Z_plus; change (inject_Z 1) with 1%Q; lra). now rewrite <- Zle_Qle in H. }
  pose proof (H n m A1 B2). pose proof (H m n B1 A2). destruct (Z.eq_dec n m) as [|N]; auto. exfalso.
  assert (X : n = m + 1 \/ m = n + 1) by lia. destruct X; subst.
  - rewrite inject_Z_plus in A1. change (inject_Z 1) with 1%Q in A1. assert (E1 : Z.even m = true) by (apply B3; left; lra). assert (E2 : Z.even (m + 1) = true) by (apply A3; right; rewrite inject_Z_plus; change (inject_Z 1) with 1%Q; lra).
    rewrite Z.even_add, E1 in E2. discriminate.
  - rewrite inject_Z_plus in B1. change (inject_Z 1) with 1%Q in B1. assert (E1 : Z.even n = true) by (apply A3; left; lra). assert (E2 : Z.even (n + 1) = true) by (apply B3; right; rewrite inject_Z_plus; change (inject_Z 1) with 1%Q; lra).
    rewrite Z.even_add, E1 in E2. discriminate.
Qed.
Lemma dec_reads z : reads (dec z) z.
Proof.
  unfold reads, dec. exists (Z.to_int z). split; [|apply DecimalZ.of_to].
  assert (E : strip (NilEmpty.string_of_int (Z.to_int z)) = NilEmpty.string_of_int (Z.to_int z)). { destruct (Z.to_int z) as [u|u]; [|reflexivity]. destruct u; reflexivity. }
  rewrite E. apply NilEmpty.isi.
Qed.
Lemma strip_pad n s : strip (pad " " n s) = strip s.
Proof. induction n; cbn; auto. Qed.
Lemma fmt4_reads z : reads (fmt4 z) z.
Proof. unfold reads, fmt4. rewrite strip_pad. apply dec_reads. Qed.
Lemma pad_length c n s : String.length (pad c n s) = (n + String.length s)%nat.
Proof. induction n; cbn; auto. Qed.
Lemma fmt4_length z : (4 <= String.length (fmt4 z))%nat.
Proof. unfold fmt4. rewrite pad_length. lia. Qed.
Lemma below60 (P : Z -> Prop) : Forall P (map Z.of_nat (seq 0 60)) -> forall z, 0 <= z < 60 -> P z.
Proof. intros H z Hz. rewrite Forall_forall in H. apply H. apply in_map_iff. exists (Z.to_nat z). split; [lia|]. apply in_seq. lia. Qed.
Lemma fmt02_ok z : 0 <= z < 60 -> two_digits (fmt02 z) /\ reads (fmt02 z) z.
Proof.
  revert z. apply below60. repeat (apply Forall_cons; [split; [eexists; eexists; split; [reflexivity|split; cbn; tauto]|eexists; split; [reflexivity|reflexivity]]|]). apply Forall_nil.
Qed.
Theorem time_string_ok q : exists hs ms ss h m s n, time_string q = (hs ++ ":" ++ ms ++ ":" ++ ss)%string /\ reads hs h /\ reads ms m /\ reads ss s /\
  (4 <= String.length hs)%nat /\ two_digits ms /\ two_digits ss /\ 0 <= m < 60 /\ 0 <= s < 60 /\ ((0 <= q)%Q -> 0 <= h) /\
  rounded q n /\ 3600 * h + 60 * m + s = n.
Proof.
  unfold time_string. set (n := py_round q). cbv zeta.
  pose proof (Z.div_mod n 3600 ltac:(lia)) as A1. pose proof (Z.mod_pos_bound n 3600 ltac:(lia)) as A2. set (h := n / 3600) in *. set (r := n mod 3600) in *.
  pose proof (Z.div_mod r 60 ltac:(lia)) as B1. pose proof (Z.mod_pos_bound r 60 ltac:(lia)) as B2. set (m := r / 60) in *. set (s := r mod 60) in *.
  assert (M : 0 <= m < 60) by lia. destruct (fmt02_ok M) as [M1 M2]. destruct (fmt02_ok B2) as [S1 S2].
  exists (fmt4 h), (fmt02 m), (fmt02 s), h, m, s, n. split; [reflexivity|]. split; [apply fmt4_reads|]. split; [auto|]. split; [auto|]. split; [apply fmt4_length|].
  split; [auto|]. split; [auto|]. split; [auto|]. split; [auto|]. split; [|split; [apply py_round_ok|lia]].
  intros Hq. assert (0 <= n); [|lia]. destruct (py_round_ok q) as (P1 & P2 & _). fold n in P1, P2. apply Z.lt_succ_r. assert ((inject_Z (-1) < inject_Z n)%Q) by (change (inject_Z (-1)) with (-1)%Q; lra). rewrite <- Zlt_Qlt in H. lia.
Qed.
End Time.

(** ---- termination conditions ---- *)
Section Term.
Variable V : Type.
Notation dict := (dict V).
Lemma dget_dset (d : dict) k v k' : dget (dset d k v) k' = if String.eqb k' k then Some v else dget d k'.
Proof.
  induction d as [|[k1 v1] d IH]; cbn; [reflexivity|]. destruct (String.eqb k k1) eqn:E; cbn.
  - apply String.eqb_eq in E. subst k1. destruct (String.eqb k' k); reflexivity.
  - rewrite IH. destruct (String.eqb k' k1) eqn:E1; auto. apply String.eqb_eq in E1. subst k'. rewrite String.eqb_sym, E. reflexivity.
Qed.
Lemma dget_notin (d : dict) k : ~ In k (map fst d) -> dget d k = None.
Proof. induction d as [|[k1 v1] d IH]; cbn; auto. intros H. destruct (String.eqb k k1) eqn:E; [apply String.eqb_eq in E; subst; tauto|]. apply IH. tauto. Qed.
Lemma dget_dupdate (e : dict) : forall d k, distinct_keys e -> dget (dupdate d e) k = match dget e k with Some v => Some v | None => dget d k end.
Proof.
  induction e as [|[k1 v1] e IH]; intros d k H; cbn; auto. inversion H; subst. unfold dupdate in *. cbn [fold_left fst snd]. rewrite IH by auto. rewrite dget_dset.
  destruct (String.eqb k k1) eqn:E; auto. apply String.eqb_eq in E. subst. now rewrite dget_notin.
Qed.
Lemma dset_keys (d : dict) k v k' : In k' (map fst (dset d k v)) <-> k' = k \/ In k' (map fst d).
Proof.
  induction d as [|[k1 v1] d IH]; cbn; [intuition|]. destruct (String.eqb k k1) eqn:E; cbn; [apply String.eqb_eq in E; subst; intuition|]. rewrite IH. intuition.
Qed.
Lemma dset_distinct (d : dict) k v : distinct_keys d -> distinct_keys (dset d k v).
Proof.
  unfold distinct_keys. induction d as [|[k1 v1] d IH]; cbn; intros H; [repeat constructor; auto|]. inversion H; subst. destruct (String.eqb k k1) eqn:E; cbn; constructor; auto.
  rewrite dset_keys. intros [->|Q]; [rewrite String.eqb_refl in E; discriminate|contradiction].
Qed.
Lemma dupdate_distinct (e : dict) : forall d, distinct_keys d -> distinct_keys (dupdate d e).
Proof. induction e as [|[k v] e IH]; intros d H; cbn; auto. apply IH. now apply dset_distinct. Qed.
Theorem conditions_shared long (defaults : dict) (evs : list (tev V)) : distinct_keys defaults -> Forall args_ok evs ->
  forall i k, i < length evs -> read_condition (fold_left (construct long) evs ([defaults], [])) i k =
   match overridden defaults (map (given long) evs) k with Some v => Ok v | None => Err KeyError end.
Proof.
  intros Hd He.
  assert (G : forall l, Forall args_ok evs -> forall d0 refs, distinct_keys d0 -> Forall (fun r => r = 0) refs -> fold_left (construct long) evs ([d0], refs) = l ->
     exists d, fst l = [d] /\ length (snd l) = length refs + length evs /\ Forall (fun r => r = 0) (snd l) /\ forall k, dget d k = overridden d0 (map (given long) evs) k).
  { clear He Hd. induction evs as [|e evs IH]; intros l He d0 refs Hd Hr E. { subst l. exists d0. cbn. repeat split; auto. }
    inversion He; subst. cbn [fold_left].
    assert (exists d1, construct long ([d0], refs) e = ([d1], refs ++ [0]) /\ distinct_keys d1 /\ forall k, dget d1 k = match dget (given long e) k with Some v => Some v | None => dget d0 k end) as (d1 & E1 & D1 & G1).
    { destruct e as [[a|]|].
      - exists (dupdate d0 a). split; [reflexivity|]. split; [now apply dupdate_distinct|]. intros k. now apply dget_dupdate.
      - exists d0. auto.
      - exists (dupdate d0 (dset d0 "max_wall_time"%string long)). split; [reflexivity|]. split; [now apply dupdate_distinct|]. intros k. rewrite dget_dupdate by now apply dset_distinct.
        rewrite dget_dset. cbn [given dget]. destruct (String.eqb k "max_wall_time"); auto. now destruct (dget d0 k). }
    rewrite E1. assert (R1 : Forall (fun r => r = 0) (refs ++ [0])) by (apply Forall_app; auto). destruct (IH _ H2 d1 (refs ++ [0]) D1 R1 eq_refl) as (d & A & B & C & D).
    exists d. split; auto. split. { rewrite B, app_length. cbn. lia. } split; auto. intros k. rewrite D. unfold overridden. cbn [map fold_left]. now rewrite G1. }
  intros i k Hi. destruct (G _ He defaults [] Hd (Forall_nil _) eq_refl) as (d & A & B & C & D). unfold read_condition. rewrite A. cbn in B.
  destruct (nth_error (snd _) i) as [r|] eqn:En; [|apply nth_error_None in En; lia]. rewrite Forall_forall in C. rewrite (C r) by (eapply nth_error_In; eauto). cbn [nth]. now rewrite D.
Qed.
(** the only optimiser of a process *)
Theorem conditions_alone long (defaults : dict) (e : tev V) : distinct_keys defaults -> args_ok e -> forall k,
  read_condition (fold_left (construct long) [e] ([defaults], [])) 0 k = match overridden defaults [given long e] k with Some v => Ok v | None => Err KeyError end.
Proof. intros. apply (@conditions_shared long defaults [e]); auto. Qed.
End Term.
