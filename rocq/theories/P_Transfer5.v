(** The exponential transfer function in closed form (C20). *)
Require Import List Arith Lia Ring Field Bool ZArith.
From Verif Require Import LibBase LibRing LibArr LibCplx LibSum M_Transfer S_Transfer P_Transfer P_Transfer2 P_Transfer3.
Import ListNotations.
Open Scope res_scope.
Set Implicit Arguments.

Section P.
Variable F : OField.
Variable rexp : F -> F.
Add Field Kfield_pt5 : (k_field F).
Notation K := (KStar F).
Notation arrF := (arr (kcar F)).
Notation base := (base F).
Notation tf := (tf F).
Implicit Types (t : tf) (b : base) (y g : arrF).

Definition blk (a : nat -> nat -> F) os (om ex : nat -> F) (i : nat) :=
  upd_col (upd_col a (i * os) os i om) ((i + 1) * os) os i ex.
Lemma upd_col_at (a : nat -> nat -> F) lo len c (v : nat -> F) i j :
  upd_col a lo len c v i j = if Nat.eq_dec j c then (if le_lt_dec lo i then (if le_lt_dec (lo + len) i then a i j else v (i - lo)) else a i j) else a i j.
Proof.
  unfold upd_col. destruct (Nat.eqb_spec j c), (Nat.eq_dec j c); try congruence; cbn [andb]; auto.
  destruct (le_lt_dec lo i) as [H|H].
  - rewrite (proj2 (Nat.leb_le _ _) H). cbn [andb]. destruct (le_lt_dec (lo + len) i) as [G|G].
    + now rewrite (proj2 (Nat.ltb_ge _ _) G).
    + now rewrite (proj2 (Nat.ltb_lt _ _) G).
  - now rewrite (proj2 (Nat.leb_gt _ _) H).
Qed.
(** inside, below and above a block *)
Lemma upd_in (a : nat -> nat -> F) lo len c (v : nat -> F) i : lo <= i < lo + len -> upd_col a lo len c v i c = v (i - lo).
Proof. intros H. rewrite upd_col_at. destruct (Nat.eq_dec c c), (le_lt_dec lo i), (le_lt_dec (lo + len) i); try lia; auto. Qed.
Lemma upd_out (a : nat -> nat -> F) lo len c (v : nat -> F) i j : j <> c \/ i < lo \/ lo + len <= i -> upd_col a lo len c v i j = a i j.
Proof. intros H. rewrite upd_col_at. destruct (Nat.eq_dec j c), (le_lt_dec lo i), (le_lt_dec (lo + len) i); try lia; auto. Qed.

Lemma main_fold (a : nat -> nat -> F) os (om ex : nat -> F) n i j :
  let r := fold_left (fun a i => blk a os om ex i) (seq 1 n) a in
  (j = 0 \/ n < j -> r i j = a i j) /\
  (1 <= j <= n -> (j * os <= i < (j + 1) * os -> r i j = om (i - j * os)) /\
                  ((j + 1) * os <= i < (j + 2) * os -> r i j = ex (i - (j + 1) * os)) /\
                  (i < j * os \/ (j + 2) * os <= i -> r i j = a i j)).
Proof.
  induction n as [|n IH]; cbn zeta in *.
  - cbn [seq fold_left]. split; [auto|lia].
  - rewrite seq_S, fold_left_app. cbn [fold_left]. set (r := fold_left (fun a i => blk a os om ex i) (seq 1 n) a) in *. unfold blk. replace (1 + n) with (S n) by lia.
    destruct IH as [I1 I2]. split.
    + intros H. rewrite !upd_out by lia. apply I1. lia.
    + intros H. destruct (Nat.eq_dec j (S n)) as [->|Hne].
      * split; [|split]; intros G.
        -- rewrite upd_out by lia. rewrite upd_in by lia. reflexivity.
        -- rewrite upd_in by lia. reflexivity.
        -- rewrite !upd_out by lia. apply I1. lia.
      * rewrite !upd_out by lia. apply I2. lia.
Qed.
Lemma pad_fold (a : nat -> nat -> F) lo c (v : nat -> F) p i j :
  let r := fold_left (fun a i => upd_col a (lo + i) 1 c (fun _ => v i)) (seq 0 p) a in
  (j <> c \/ i < lo \/ lo + p <= i -> r i j = a i j) /\ (j = c -> lo <= i < lo + p -> r i j = v (i - lo)).
Proof.
  induction p as [|p IH]; cbn zeta in *.
  - cbn [seq fold_left]. split; [auto|lia].
  - rewrite seq_S, fold_left_app. cbn [fold_left]. set (r := fold_left (fun a i => upd_col a (lo + i) 1 c (fun _ => v i)) (seq 0 p) a) in *. cbn [Nat.add]. destruct IH as [I1 I2]. split.
    + intros H. rewrite upd_out by lia. apply I1. lia.
    + intros -> H. destruct (Nat.eq_dec i (lo + p)) as [->|Hne].
      * rewrite upd_in by lia. f_equal. lia.
      * rewrite upd_out by lia. apply I2; lia.
Qed.

Definition edecay (tau rise : F) (os j : nat) : F := rexp (kopp (kdiv (kdivn (kmul (kofnat (j + 1)) tau) os) rise)).
Definition etail (tau rise : F) (os i : nat) : F := rexp (kopp (kdiv (kmul (kdivn (kofnat (i + 1)) os) tau) rise)).
Definition eentry (tau rise : F) (os ps ny i j : nat) : F :=
  if Nat.ltb i ps then k0 else
  let r := i - ps in
  if Nat.ltb r (os * ny) then
    if Nat.eqb j (r / os) then ksub k1 (edecay tau rise os (r mod os))
    else if Nat.eqb (j + 1) (r / os) then edecay tau rise os (r mod os) else k0
  else if Nat.eqb (j + 1) ny then etail tau rise os (r - os * ny) else k0.
Lemma exp_matrix_entries rise b ps pe tau l T : padding b = Ok (ps, pe) -> b_nx b = ps + b_os b * b_ny b + pe -> b_os b <> 0 ->
  b_yt b = Some (tau :: l) -> b_ny b = length (tau :: l) -> exp_matrix rexp rise b = Ok T ->
  wfa [b_nx b; b_ny b; b_ctrls b] T /\ rise <> k0 /\
  forall i j k, i < b_nx b -> j < b_ny b -> k < b_ctrls b -> get3 k0 T i j k = eentry tau rise (b_os b) ps (b_ny b) i j.
Proof.
  intros Hp Hx Ho Hy Hn. unfold exp_matrix. rewrite Hp, Hy. cbn [bind]. set (os := b_os b) in *. set (ny := b_ny b) in *. set (nx := b_nx b) in *.
  assert (Ny : 1 <= ny) by (cbn [length] in Hn; lia). clear Hn.
  rewrite (proj2 (Nat.leb_le ps nx)) by lia. destruct (keqb rise k0) eqn:Er; [discriminate|].
  fold (edecay tau rise os). set (ex := edecay tau rise os).
  change (fun j : nat => rexp (kopp (kdiv (kdivn (kmul (kofnat (j + 1)) tau) os) rise))) with ex.
  set (om := fun j => ksub k1 (ex j)). set (a0 := upd_col (fun _ _ => k0) 0 os 0 om).
  destruct (Nat.leb os (nx - ps) || Nat.eqb os 1) eqn:C1; [|discriminate]. cbn [bind].
  destruct (negb (Nat.ltb os nx) || Nat.leb (2 * os) (nx - ps) || Nat.eqb os 1) eqn:C2; [|discriminate]. cbn [bind].
  set (a1 := if Nat.ltb os nx then upd_col a0 os os 0 ex else a0).
  change (fun (a : nat -> nat -> F) (i : nat) => upd_col (upd_col a (i * os) os i om) ((i + 1) * os) os i ex) with (fun a i => blk a os om ex i).
  set (a2 := fold_left (fun a i => blk a os om ex i) (seq 1 (ny - 2)) a1). set (a3 := upd_col a2 ((ny - 1) * os) os (ny - 1) om).
  change (fun (a : nat -> nat -> F) (i : nat) => upd_col a (ny * os + i) 1 (ny - 1) (fun _ : nat => rexp (kopp (kdiv (kmul (kdivn (kofnat (i + 1)) os) tau) rise))))
    with (fun a i => upd_col a (ny * os + i) 1 (ny - 1) (fun _ => etail tau rise os i)).
  set (a4 := fold_left (fun a i => upd_col a (ny * os + i) 1 (ny - 1) (fun _ => etail tau rise os i)) (seq 0 pe) a3). intros [= <-]. replace (ps + (nx - ps)) with nx by lia.
  split; [apply wfa_mk3|]. split; [intros E0; apply keqb_eq in E0; congruence|].
  intros i j k Hi Hj Hk. rewrite get3_mk3 by auto. unfold eentry. destruct (Nat.ltb_spec i ps); [reflexivity|]. cbn zeta.
  set (r := i - ps). match goal with |- _ = ?R => change (a4 r j = R) end. assert (Hr : r < os * ny + pe) by lia.
  destruct (@pad_fold a3 (ny * os) (ny - 1) (etail tau rise os) pe r j) as [P1 P2]. fold a4 in P1, P2.
  destruct (Nat.ltb_spec r (os * ny)) as [Hl|Hl].
  - rewrite P1 by lia. pose proof (Nat.div_mod r os Ho) as Dm. pose proof (Nat.mod_upper_bound r os Ho) as Mb.
    set (q := r / os) in *. set (s := r mod os) in *. assert (Hq : q < ny) by nia.
    assert (A0 : forall r', a1 r' 0 = if Nat.ltb r' os then om r' else if Nat.ltb os nx && Nat.ltb r' (2 * os) then ex (r' - os) else k0).
    { intros r'. unfold a1, a0. destruct (Nat.ltb_spec r' os).
      - destruct (Nat.ltb os nx); [rewrite upd_out by lia|]; rewrite upd_in by lia; f_equal; lia.
      - destruct (Nat.ltb os nx); cbn [andb]; [destruct (Nat.ltb_spec r' (2 * os)); [rewrite upd_in by lia; reflexivity|rewrite !upd_out by lia; reflexivity]|rewrite upd_out by lia; reflexivity]. }
    assert (A1 : forall r' j', j' <> 0 -> a1 r' j' = k0).
    { intros r' j' H0. unfold a1, a0. destruct (Nat.ltb os nx); rewrite !upd_out by lia; reflexivity. }
    destruct (@main_fold a1 os om ex (ny - 2) r j) as [M1 M2]. fold a2 in M1, M2.
    assert (Eq0 : q * os + s = r) by nia.
    destruct (Nat.eqb_spec j q) as [->|Hjq].
    + change (ksub k1 (edecay tau rise os s)) with (om s). unfold a3. destruct (Nat.eq_dec q (ny - 1)) as [E|E].
      * rewrite <- E. rewrite upd_in by nia. f_equal. nia.
      * rewrite upd_out by lia. destruct (Nat.eq_dec q 0) as [Z|Z].
        -- rewrite M1 by lia. rewrite Z, A0. destruct (Nat.ltb_spec r os); [f_equal; nia|nia].
        -- destruct (M2 ltac:(lia)) as [M3 _]. rewrite M3 by nia. f_equal. nia.
    + destruct (Nat.eqb_spec (j + 1) q) as [Hj1|Hj1].
      * change (edecay tau rise os s) with (ex s). unfold a3. rewrite upd_out by nia. destruct (Nat.eq_dec j 0) as [Z|Z].
        -- rewrite M1 by lia. subst j. rewrite A0. destruct (Nat.ltb_spec r os); [nia|]. rewrite (proj2 (Nat.ltb_lt os nx)) by nia. rewrite (proj2 (Nat.ltb_lt r (2 * os))) by nia. cbn [andb]. f_equal. nia.
        -- destruct (M2 ltac:(lia)) as [_ [M3 _]]. rewrite M3 by nia. f_equal. nia.
      * assert (B : r < j * os \/ (j + 2) * os <= r) by (destruct (lt_eq_lt_dec j q) as [[]|]; nia).
        unfold a3. rewrite upd_out by (destruct (Nat.eq_dec j (ny - 1)); [right; subst j; nia|auto]).
        destruct (Nat.eq_dec j 0) as [Z|Z].
        -- rewrite M1 by lia. subst j. rewrite A0. rewrite (proj2 (Nat.ltb_ge r os)) by nia. rewrite (proj2 (Nat.ltb_ge r (2 * os))) by nia. now rewrite andb_false_r.
        -- destruct (le_lt_dec j (ny - 2)) as [L|L].
           ++ destruct (M2 ltac:(lia)) as [_ [_ M3]]. rewrite M3 by lia. now apply A1.
           ++ rewrite M1 by lia. now apply A1.
  - destruct (Nat.eqb_spec (j + 1) ny) as [E|E].
    + rewrite P2 by lia. f_equal. lia.
    + rewrite P1 by lia. unfold a3. rewrite upd_out by lia.
      destruct (@main_fold a1 os om ex (ny - 2) r j) as [M1 M2]. fold a2 in M1, M2.
      assert (J : (j + 2) * os <= r) by nia.
      destruct (Nat.eq_dec j 0) as [Z|Z].
      * rewrite M1 by lia. subst j. unfold a1, a0. destruct (Nat.ltb os nx); rewrite !upd_out by lia; reflexivity.
      * destruct (M2 ltac:(lia)) as [_ [_ M3]]. rewrite M3 by lia. unfold a1, a0. destruct (Nat.ltb os nx); rewrite !upd_out by lia; reflexivity.
Qed.
(** the matrix is defined exactly when every block fits *)
Lemma exp_matrix_defined rise b ps pe tau l : padding b = Ok (ps, pe) -> b_nx b = ps + b_os b * b_ny b + pe -> b_os b <> 0 ->
  b_yt b = Some (tau :: l) -> b_ny b = length (tau :: l) -> rise <> k0 ->
  (b_os b = 1 \/ 2 <= b_ny b \/ b_os b <= pe \/ (ps = 0 /\ pe = 0)) -> exists T, exp_matrix rexp rise b = Ok T.
Proof.
  intros Hp Hx Ho Hy Hn Hr Hc. unfold exp_matrix. rewrite Hp, Hy. cbn [bind]. cbn [length] in Hn. rewrite (proj2 (Nat.leb_le ps (b_nx b))) by lia.
  destruct (keqb rise k0) eqn:Er; [apply keqb_eq in Er; contradiction|].
  assert (C1 : Nat.leb (b_os b) (b_nx b - ps) = true) by (apply Nat.leb_le; nia). rewrite C1. cbn [orb bind].
  assert (C2 : negb (Nat.ltb (b_os b) (b_nx b)) || Nat.leb (2 * b_os b) (b_nx b - ps) || Nat.eqb (b_os b) 1 = true).
  { destruct Hc as [H|[H|[H|H]]].
    - rewrite H, Nat.eqb_refl, !orb_true_r. reflexivity.
    - rewrite (proj2 (Nat.leb_le (2 * b_os b) (b_nx b - ps))) by nia. now rewrite orb_true_r.
    - rewrite (proj2 (Nat.leb_le (2 * b_os b) (b_nx b - ps))) by nia. now rewrite orb_true_r.
    - destruct (Nat.eq_dec (b_ny b) 1) as [E|E].
      + rewrite (proj2 (Nat.ltb_ge (b_os b) (b_nx b))) by nia. reflexivity.
      + rewrite (proj2 (Nat.leb_le (2 * b_os b) (b_nx b - ps))) by nia. now rewrite orb_true_r. }
  rewrite C2. cbn [bind]. eauto.
Qed.

Lemma etail_decay tau rise os i : etail tau rise os i = decay rexp tau rise os i.
Proof. unfold etail, decay, kdivn. f_equal. f_equal. f_equal. rewrite !(Field_theory.Fdiv_def (k_field F)). ring. Qed.
Lemma two_point (n a : nat) (f : nat -> F) : a < n -> (forall j, j < n -> j <> a -> j + 1 <> a -> f j = k0) ->
  sumn (S:=K) n f = kadd (match a with 0 => k0 | S p => f p end) (f a).
Proof.
  intros Ha Hz. destruct a as [|p].
  - rewrite (@sumn_single K n 0 f); [keq F; ring|auto|]. intros j Hj Hne. apply Hz; lia.
  - transitivity (kadd (sumn (S:=K) n (fun j => if Nat.eqb j p then f j else k0)) (sumn (S:=K) n (fun j => if Nat.eqb j p then k0 else f j))).
    + rewrite ksumn_add. apply sumn_ext. intros j Hj. destruct (Nat.eqb j p); keq F; ring.
    + f_equal.
      * rewrite (@sumn_single K n p); [now rewrite Nat.eqb_refl|lia|]. intros j Hj Hne. now rewrite (proj2 (Nat.eqb_neq _ _) Hne).
      * rewrite (@sumn_single K n (S p)); [now rewrite (proj2 (Nat.eqb_neq (S p) p)) by lia|auto|]. intros j Hj Hne. destruct (Nat.eqb_spec j p); auto. apply Hz; lia.
Qed.
Lemma eentry_response tau rise os ps ny (y : nat -> F) i : os <> 0 -> 1 <= ny ->
  sumn (S:=K) ny (fun j => kmul (eentry tau rise os ps ny i j) (y j)) = exp_response rexp tau rise os ps ny y i.
Proof.
  intros Ho Hn. unfold eentry, exp_response. destruct (Nat.ltb i ps).
  { apply (@sumn_0 K). intros j Hj. keq F. ring. }
  cbn zeta. set (r := i - ps). destruct (Nat.ltb_spec r (os * ny)) as [L|L].
  - assert (Hq : r / os < ny) by (apply Nat.div_lt_upper_bound; auto). rewrite (@two_point ny (r / os)); auto.
    + rewrite Nat.eqb_refl. change (edecay tau rise os (r mod os)) with (decay rexp tau rise os (r mod os)). destruct (r / os) as [|p]; [keq F; ring|].
      rewrite (proj2 (Nat.eqb_neq p (S p))) by lia. rewrite (proj2 (Nat.eqb_eq (p + 1) (S p))) by lia. keq F. ring.
    + intros j Hj H1 H2. rewrite (proj2 (Nat.eqb_neq _ _) H1), (proj2 (Nat.eqb_neq _ _) H2). ring.
  - rewrite (@sumn_single K ny (ny - 1)); [|lia|].
    + rewrite (proj2 (Nat.eqb_eq (ny - 1 + 1) ny)) by lia. rewrite etail_decay. keq F. ring.
    + intros j Hj Hne. rewrite (proj2 (Nat.eqb_neq (j + 1) ny)) by lia. keq F. ring.
Qed.
Lemma ready_exp rise os bt off n ys t : ready rexp (DExp rise os bt off n) ys t -> os <> 0 ->
  exists t0 b ps pe, build (DExp rise os bt off n) = Ok t0 /\ set_times t0 ys = (Leaf (KExp rise) b, Ok tt) /\
    b_ctrls b = n /\ b_os b = os /\ b_off b = off /\ b_ny b = length ys /\ b_yt b = Some ys /\ has_times b /\
    pads bt os = Some (ps, pe) /\ padding b = Ok (ps, pe) /\ b_nx b = ps + os * length ys + pe /\ b_nx (tbase t) = b_nx b.
Proof.
  intros H Ho. assert (N : no_custom (F:=F) (DExp rise os bt off n)) by exact I.
  destruct (@ready_fresh F rexp (DExp rise os bt off n) ys t N H) as [t0 [t1 [A [B [C [D [D' [E G]]]]]]]].
  destruct (@plain_grid F rexp (DExp rise os bt off n) bt os n t0 [] ys t1 eq_refl Ho A B) as [ps [pe [xs [P1 [P2 [P3 [P4 [[P5 _] _]]]]]]]].
  pose proof A as A'. injection A as <-.
  pose proof (@set_times_skel F (mk_exp rise os bt off n) ys I) as Sk. rewrite B in Sk. cbn [fst] in Sk.
  destruct (@set_times_grid F rexp (mk_exp rise os bt off n) ys t1 I B) as [X1 [X2 _]].
  destruct t1 as [k b| | | |]; cbn [skel mk_exp] in Sk; try tauto. destruct Sk as [<- [S1 [S2 [S3 S4]]]]. cbn in S1, S2, S3, S4. cbn [tbase] in *.
  exists (mk_exp rise os bt off n), b, ps, pe. do 7 (split; [solve [auto]|]). split; [exists ys; auto|]. split; [auto|]. split.
  - unfold padding. rewrite <- S2, <- S3. destruct bt as [[[] q]|]; cbn in P1; congruence.
  - split; [congruence|]. apply timed_base in E. apply (f_equal (@b_nx F)) in E. cbn in E. auto.
Qed.
Lemma exponential_call rise os bt off n tau l t y x : ready rexp (DExp rise os bt off n) (tau :: l) t -> os <> 0 ->
  wfa [length (tau :: l); n] y -> snd (call rexp t y) = Ok x ->
  exists ps pe, pads bt os = Some (ps, pe) /\ wfa [ps + os * length (tau :: l) + pe; n] x /\
    forall i k, i < ps + os * length (tau :: l) + pe -> k < n ->
      get2 k0 x i k = with_offset off (exp_response rexp tau rise os ps (length (tau :: l)) (fun j => get2 k0 y j k) i).
Proof.
  intros Hr Ho Hy E. destruct (@ready_exp rise os bt off n (tau :: l) t Hr Ho) as [t0 [b [ps [pe [A [B [C1 [C2 [C3 [C4 [C5 [C6 [C7 [C8 [C9 _]]]]]]]]]]]]]]].
  exists ps, pe. split; [exact C7|]. rewrite (@ready_call F rexp (DExp rise os bt off n) (tau :: l) t t0 (Leaf (KExp rise) b) y I Hr A B) in E.
  cbn [cv] in E. unfold pmcall in E. cbn [tbase pown pm leaf_matrix] in E.
  rewrite (@check_dims_ok F b y C6) in E by (rewrite C1, C4; exact Hy). cbn [bind] in E.
  destruct (exp_matrix rexp rise b) as [T|] eqn:ET; [|discriminate]. cbn [bind] in E.
  destruct (@exp_matrix_entries rise b ps pe tau l T) as [W [_ En]]; auto; try (rewrite ?C2, ?C4; auto; fail).
  rewrite C9, C4, C1, C2 in *.
  rewrite (@einsum_call_ok F _ _ _ _ _ W Hy) in E. cbn [bind] in E. injection E as <-. rewrite C3.
  set (a := mk2 _ _ _). assert (Wa : wfa [ps + os * length (tau :: l) + pe; n] a) by apply wfa_mk2.
  assert (V : forall i k, i < ps + os * length (tau :: l) + pe -> k < n -> get2 k0 a i k = exp_response rexp tau rise os ps (length (tau :: l)) (fun j => get2 k0 y j k) i).
  { intros i k Hi Hk. unfold a. rewrite get2_mk2 by auto. rewrite <- eentry_response by (auto; cbn [length]; lia). apply (@sumn_ext K (length (tau :: l))). intros j Hj. rewrite En by auto. reflexivity. }
  destruct off as [c|]; cbn [add_offset with_offset]; [|auto]. destruct (dim_wfa2 Wa) as [-> [-> _]]. split; [apply wfa_mk2|]. intros i k Hi Hk. rewrite get2_mk2 by auto. now rewrite V.
Qed.
Lemma exponential_defined rise os bt off n tau l t y ps pe : ready rexp (DExp rise os bt off n) (tau :: l) t -> os <> 0 -> rise <> k0 ->
  pads bt os = Some (ps, pe) -> (os = 1 \/ l <> [] \/ os <= pe \/ (ps = 0 /\ pe = 0)) ->
  wfa [length (tau :: l); n] y -> exists x, snd (call rexp t y) = Ok x.
Proof.
  intros Hr Ho Hz Hp Hc Hy. destruct (@ready_exp rise os bt off n (tau :: l) t Hr Ho) as [t0 [b [ps' [pe' [A [B [C1 [C2 [C3 [C4 [C5 [C6 [C7 [C8 [C9 _]]]]]]]]]]]]]]].
  assert (EP : (ps', pe') = (ps, pe)) by congruence. injection EP as -> ->.
  rewrite (@ready_call F rexp (DExp rise os bt off n) (tau :: l) t t0 (Leaf (KExp rise) b) y I Hr A B).
  cbn [cv]. unfold pmcall. cbn [tbase pown pm leaf_matrix]. rewrite (@check_dims_ok F b y C6) by (rewrite C1, C4; exact Hy). cbn [bind].
  destruct (@exp_matrix_defined rise b ps pe tau l) as [T ET]; auto; try (rewrite ?C2, ?C4; auto; fail).
  { rewrite C2, C4. destruct Hc as [H|[H|[H|H]]]; auto. right; left. destruct l; [congruence|cbn [length]; lia]. }
  rewrite ET. cbn [bind]. destruct (@exp_matrix_entries rise b ps pe tau l T) as [W _]; auto; try (rewrite ?C2, ?C4; auto; fail).
  rewrite C9, C4, C1 in W. rewrite (@einsum_call_ok F _ _ _ _ _ W Hy). cbn [bind]. eauto.
Qed.
(** the response stays within any bounds that contain 0 and the input *)
Lemma convex (lo hi a c e : F) : kle k0 e -> kle e k1 -> kle lo a -> kle a hi -> kle lo c -> kle c hi ->
  kle lo (kadd (kmul a e) (kmul c (ksub k1 e))) /\ kle (kadd (kmul a e) (kmul c (ksub k1 e))) hi.
Proof.
  intros E0 E1 A0 A1 C0 C1. assert (G : kle k0 (ksub k1 e)) by (apply -> (@kle_sub0 F); exact E1). split.
  - replace lo with (kadd (kmul e lo) (kmul (ksub k1 e) lo)) at 1 by ring. replace (kadd (kmul a e) (kmul c (ksub k1 e))) with (kadd (kmul e a) (kmul (ksub k1 e) c)) by ring.
    apply kle_add2; apply kle_mul_l; auto.
  - replace hi with (kadd (kmul e hi) (kmul (ksub k1 e) hi)) by ring. replace (kadd (kmul a e) (kmul c (ksub k1 e))) with (kadd (kmul e a) (kmul (ksub k1 e) c)) by ring.
    apply kle_add2; apply kle_mul_l; auto.
Qed.
Lemma exponential_bounded tau rise os ps ny (y : nat -> F) i lo hi :
  (forall j, kle k0 (decay rexp tau rise os j) /\ kle (decay rexp tau rise os j) k1) -> os <> 0 -> 1 <= ny ->
  kle lo k0 -> kle k0 hi -> (forall j, j < ny -> kle lo (y j) /\ kle (y j) hi) ->
  kle lo (exp_response rexp tau rise os ps ny y i) /\ kle (exp_response rexp tau rise os ps ny y i) hi.
Proof.
  intros He Ho Hn Hlo Hhi Hy. unfold exp_response. destruct (Nat.ltb i ps); [auto|]. cbn zeta. set (r := i - ps). destruct (Nat.ltb_spec r (os * ny)) as [L|L].
  - assert (Hq : r / os < ny) by (apply Nat.div_lt_upper_bound; auto). destruct (He (r mod os)) as [E0 E1]. destruct (Hy _ Hq) as [Y0 Y1].
    apply convex; auto; destruct (r / os) as [|p]; auto; apply Hy; lia.
  - destruct (He (r - os * ny)) as [E0 E1]. destruct (Hy (ny - 1)) as [Y0 Y1]; [lia|]. set (e := decay _ _ _ _ _) in *.
    replace (kmul (y (ny - 1)) e) with (kadd (kmul (y (ny - 1)) e) (kmul k0 (ksub k1 e))) by ring. apply convex; auto.
Qed.
End P.
