(** Convolutions, composed transfer functions and the exponential transfer function (C16, C18, C19, C20). *)
Require Import List Arith Lia Ring Field Bool ZArith.
From Verif Require Import LibBase LibRing LibArr LibCplx LibSum M_Transfer S_Transfer P_Transfer P_Transfer2 P_Transfer3.
Import ListNotations.
Open Scope res_scope.
Set Implicit Arguments.

Section P.
Variable F : OField.
Variable rexp : F -> F.
Add Field Kfield_pt4 : (k_field F).
Notation K := (KStar F).
Notation arrF := (arr (kcar F)).
Notation base := (base F).
Notation tf := (tf F).
Implicit Types (t : tf) (b : base) (y g : arrF).

Notation good_conv := (@good_conv F).
Notation convs_ok := (@convs_ok F).
(** ---- convolutions with symmetric kernels are self adjoint ---- *)
Section Conv.
Variable ker : list F.
Variable m : cmode.
Variable n : nat.
Notation L := (length ker).
Notation h := (L / 2).
Hypothesis HS : sym_ker ker.
Hypothesis HM : m <> Nearest.
Definition cz (i q : nat) : Z := (Z.of_nat i + Z.of_nat h - Z.of_nat q)%Z.
Definition cidx (i q : nat) : option nat := ext_index m n (cz i q).
Lemma odd_len : L = 2 * h + 1.
Proof. destruct HS as [H _]. apply Nat.odd_spec in H. destruct H as [k Hk]. rewrite Hk. replace ((2 * k + 1) / 2) with k; auto. apply (Nat.div_unique _ _ _ 1); lia. Qed.
Definition csig (i q : nat) : nat * nat :=
  match m with
  | Reflect => let r := (cz i q mod (2 * Z.of_nat n))%Z in
               if (r <? Z.of_nat n)%Z then (Z.to_nat r, 2 * h - q) else (Z.to_nat (2 * Z.of_nat n - 1 - r), q)
  | Wrap => (Z.to_nat (cz i q mod Z.of_nat n), 2 * h - q)
  | _ => if ((0 <=? cz i q) && (cz i q <? Z.of_nat n))%Z then (Z.to_nat (cz i q), 2 * h - q) else (i, q)
  end.
Lemma csig_spec i q : i < n -> q < L ->
  match cidx i q with
  | Some j => exists q', csig i q = (j, q') /\ j < n /\ q' < L /\ nth q' ker k0 = nth q ker k0 /\ cidx j q' = Some i /\ csig j q' = (i, q)
  | None => csig i q = (i, q)
  end.
Proof.
  intros Hi Hq. pose proof odd_len as HL. destruct HS as [_ Hsym].
  assert (Hw : nth (2 * h - q) ker k0 = nth q ker k0) by (rewrite <- (Hsym q Hq); f_equal; lia).
  assert (Hn : (0 < Z.of_nat n)%Z) by lia.
  destruct m eqn:Em; [congruence| | |].
  - (* reflect *)
    assert (EI : forall i q, cidx i q = let r := (cz i q mod (2 * Z.of_nat n))%Z in Some (Z.to_nat (if (r <? Z.of_nat n)%Z then r else 2 * Z.of_nat n - 1 - r)%Z)).
    { intros i0 q0. unfold cidx, ext_index. rewrite Em. cbn zeta. destruct ((0 <=? cz i0 q0) && (cz i0 q0 <? Z.of_nat n))%Z eqn:B; auto.
      apply andb_prop in B. destruct B as [B1 B2]. apply Z.leb_le in B1. pose proof B2 as B2'. apply Z.ltb_lt in B2'. rewrite Z.mod_small by lia. now rewrite B2. }
    rewrite EI. cbn zeta. unfold csig. rewrite Em. cbn zeta.
    set (N := (2 * Z.of_nat n)%Z) in *. assert (HN : (0 < N)%Z) by lia.
    set (r := (cz i q mod N)%Z) in *. pose proof (Z.mod_pos_bound (cz i q) N HN) as Br. fold r in Br.
    pose proof (Z.div_mod (cz i q) N ltac:(lia)) as Dm. fold r in Dm. set (kk := (cz i q / N)%Z) in *.
    destruct (Z.ltb_spec r (Z.of_nat n)) as [C|C].
    + exists (2 * h - q). split; [reflexivity|]. split; [lia|]. split; [lia|]. split; [exact Hw|].
      assert (Er : (cz (Z.to_nat r) (2 * h - q) mod N = Z.of_nat i)%Z).
      { symmetry. apply (Z.mod_unique_pos _ _ (- kk)%Z); [lia|]. unfold cz in *. lia. }
      rewrite EI. cbn zeta. fold N. rewrite Er. destruct (Z.ltb_spec (Z.of_nat i) (Z.of_nat n)); [|lia].
      rewrite Nat2Z.id. split; [reflexivity|]. f_equal. lia.
    + exists q. split; [reflexivity|]. split; [lia|]. split; [lia|]. split; [reflexivity|].
      assert (Er : (cz (Z.to_nat (N - 1 - r)) q mod N = N - 1 - Z.of_nat i)%Z).
      { symmetry. apply (Z.mod_unique_pos _ _ (kk)%Z); [lia|]. unfold cz in *. rewrite Z2Nat.id by lia. lia. }
      rewrite EI. cbn zeta. fold N. rewrite Er. destruct (Z.ltb_spec (N - 1 - Z.of_nat i) (Z.of_nat n)); [lia|].
      split; f_equal; lia.
  - (* constant *)
    unfold cidx, ext_index. rewrite Em. unfold csig. rewrite Em. destruct ((0 <=? cz i q) && (cz i q <? Z.of_nat n))%Z eqn:B; [|reflexivity].
    apply andb_prop in B. destruct B as [B1 B2]. apply Z.leb_le in B1. apply Z.ltb_lt in B2.
    exists (2 * h - q). split; [reflexivity|]. split; [lia|]. split; [lia|]. split; [exact Hw|].
    assert (Ez : cz (Z.to_nat (cz i q)) (2 * h - q) = Z.of_nat i) by (unfold cz in *; lia).
    rewrite Ez. rewrite (proj2 (Z.leb_le 0 (Z.of_nat i))) by lia. rewrite (proj2 (Z.ltb_lt (Z.of_nat i) (Z.of_nat n))) by lia. cbn [andb]. rewrite Nat2Z.id.
    split; [reflexivity|]. f_equal. lia.
  - (* wrap *)
    assert (EI : forall i q, cidx i q = Some (Z.to_nat (cz i q mod Z.of_nat n))).
    { intros i0 q0. unfold cidx, ext_index. rewrite Em. destruct ((0 <=? cz i0 q0) && (cz i0 q0 <? Z.of_nat n))%Z eqn:B; auto.
      apply andb_prop in B. destruct B as [B1 B2]. apply Z.leb_le in B1. apply Z.ltb_lt in B2. now rewrite Z.mod_small by lia. }
    rewrite EI. unfold csig. rewrite Em. exists (2 * h - q). split; [reflexivity|].
    pose proof (Z.mod_pos_bound (cz i q) (Z.of_nat n) Hn) as Br. pose proof (Z.div_mod (cz i q) (Z.of_nat n) ltac:(lia)) as Dm.
    set (r := (cz i q mod Z.of_nat n)%Z) in *. set (kk := (cz i q / Z.of_nat n)%Z) in *.
    split; [lia|]. split; [lia|]. split; [exact Hw|].
    assert (Er : (cz (Z.to_nat r) (2 * h - q) mod Z.of_nat n = Z.of_nat i)%Z).
    { symmetry. apply (Z.mod_unique_pos _ _ (- kk)%Z); [lia|]. unfold cz in *. lia. }
    rewrite EI, Er, Nat2Z.id. split; [reflexivity|]. f_equal. lia.
Qed.
Definition cval0 (v : nat -> F) (o : option nat) : F := match o with Some j => v j | None => k0 end.
Lemma conv_selfadj (a v : nat -> F) :
  sumn (S:=K) n (fun i => kmul (a i) (sumn (S:=K) L (fun q => kmul (nth q ker k0) (cval0 v (cidx i q))))) =
  sumn (S:=K) n (fun i => kmul (sumn (S:=K) L (fun q => kmul (nth q ker k0) (cval0 a (cidx i q)))) (v i)).
Proof.
  transitivity (sumn (S:=K) n (fun i => sumn (S:=K) L (fun q => kmul (kmul (nth q ker k0) (a i)) (cval0 v (cidx i q))))).
  { apply sumn_ext. intros i Hi. rewrite ksumn_mul_l. apply sumn_ext. intros q Hq. keq F. ring. }
  rewrite <- (@gsumn_involution K n L csig (fun i q => kmul (kmul (nth q ker k0) (a i)) (cval0 v (cidx i q)))).
  - apply sumn_ext. intros i Hi. rewrite ksumn_mul_r. apply sumn_ext. intros q Hq. pose proof (csig_spec Hi Hq) as S. destruct (cidx i q) as [j|] eqn:E.
    + destruct S as [q' [E1 [_ [_ [E2 [E3 _]]]]]]. rewrite E1. cbn [fst snd]. rewrite E3, E2. cbn [cval0]. keq F. ring.
    + rewrite S. cbn [fst snd]. rewrite E. cbn [cval0]. keq F. ring.
  - intros i q Hi Hq. pose proof (csig_spec Hi Hq) as S. destruct (cidx i q) as [j|] eqn:E.
    + destruct S as [q' [E1 [B1 [B2 [_ [_ E4]]]]]]. rewrite E1. cbn [fst snd]. auto.
    + rewrite S. cbn [fst snd]. auto.
Qed.
End Conv.
Lemma conv_at_cval0 (ker : list F) m n (v : nat -> F) i : conv_at ker m k0 n v i = sumn (S:=K) (length ker) (fun q => kmul (nth q ker k0) (cval0 v (cidx ker m n i q))).
Proof. reflexivity. Qed.
Lemma good_sym (ker : list F) m c n : sym_ker ker -> m <> Nearest -> good_conv ker m m k0 n c.
Proof. intros HS HM a v v'. f_equal; exact (@conv_selfadj ker m n HS HM a _). Qed.
Lemma reflect_cval (ker : list F) (cval : F) n (v : nat -> F) i : conv_at ker Reflect cval n v i = conv_at ker Reflect k0 n v i.
Proof.
  unfold conv_at. apply sumn_ext. intros q Hq. f_equal. unfold ext_index. destruct (_ && _)%Z; reflexivity.
Qed.
Lemma good_reflect (ker : list F) (cval : F) c n : sym_ker ker -> good_conv ker Reflect Reflect cval n c.
Proof.
  intros HS a v v'. assert (HM : Reflect <> Nearest) by discriminate. pose proof (@good_sym ker Reflect c n HS HM a v v') as G.
  etransitivity; [|etransitivity; [exact G|]]; f_equal; apply sumn_ext; intros i Hi; now rewrite (reflect_cval ker cval).
Qed.
(** skeletons *)
Fixpoint t_sym t : Prop :=
  match t with
  | Leaf (KConv ker m mg cval) _ => sym_ker ker /\ mg = m /\ (m = Reflect \/ (m <> Nearest /\ cval = k0))
  | Leaf _ _ => True
  | Conc _ x y | Par _ x y | ConcM _ x y | ParM _ x y => t_sym x /\ t_sym y
  end.
Lemma build_sym d t : build d = Ok t -> sym_convs d -> t_sym t.
Proof.
  revert t. induction d; cbn [build sym_convs]; intros t E H; try (injection E as <-; cbn; auto; fail);
  try (destruct H as [H1 H2]; injection E as <-; cbn; subst; auto 10; fail);
  destruct (build d1) as [x|]; try discriminate; cbn [bind] in E; destruct (build d2) as [y|]; try discriminate; cbn [bind] in E;
  unfold mk_par, mk_parM in E; repeat match type of E with (if ?c then _ else _) = _ => destruct c; [|discriminate] end; injection E as <-; cbn; split; intuition.
Qed.
Lemma skel_sym_ok t t' : skel t t' -> t_sym t -> convs_ok t'.
Proof.
  revert t'. induction t; destruct t'; cbn [skel t_sym convs_ok]; try tauto; try (intuition eauto; fail).
  intros [<- _]. destruct k; auto. intros [H1 [-> [->|[H2 ->]]]]; [now apply good_reflect|now apply good_sym].
Qed.

(** C16 *)
Lemma gradient_is_transpose d ys t y y' g x x' h f : no_custom d -> matched d -> sym_convs d -> ready rexp d ys t ->
  wfa [length ys; ctrls d] y -> wfa [length ys; ctrls d] y' -> wfa [b_nx (tbase t); f; ctrls d] g ->
  snd (call rexp t y) = Ok x -> snd (call rexp t y') = Ok x' -> snd (grad rexp t g) = Ok h ->
  wfa [b_nx (tbase t); ctrls d] x /\ wfa [b_nx (tbase t); ctrls d] x' /\ wfa [length ys; f; ctrls d] h /\
  forall q, q < f ->
    ksub (pairing (b_nx (tbase t)) (ctrls d) (fun i k => get3 k0 g i q k) (get2 k0 x'))
         (pairing (b_nx (tbase t)) (ctrls d) (fun i k => get3 k0 g i q k) (get2 k0 x)) =
    ksub (pairing (length ys) (ctrls d) (fun i k => get3 k0 h i q k) (get2 k0 y'))
         (pairing (length ys) (ctrls d) (fun i k => get3 k0 h i q k) (get2 k0 y)).
Proof.
  intros Hd Hm Hs Hr Hy Hy' Hg Ex Ex' Eh. destruct (@ready_fresh F rexp d ys t Hd Hr) as [t0 [t1 [A [B [C [D [D' [E G]]]]]]]].
  rewrite (@ready_call F rexp d ys t t0 t1 y Hd Hr A B) in Ex. rewrite (@ready_call F rexp d ys t t0 t1 y' Hd Hr A B) in Ex'. rewrite (@ready_grad F rexp d ys t t0 t1 g Hd Hr A B) in Eh.
  pose proof (@build_sane F d t0 A Hd Hm) as Sn. pose proof (@set_times_fits F rexp t0 ys t1 Sn B) as Ft.
  pose proof (@set_times_skel F t0 ys (sane_nc _ Sn)) as Sk. rewrite B in Sk. cbn [fst] in Sk.
  pose proof (@skel_sym_ok t0 t1 Sk (@build_sym d t0 A Hs)) as Cv.
  destruct (@set_times_grid F rexp t0 ys t1 (sane_nc _ Sn) B) as [Ny _].
  assert (Ec : b_ctrls (tbase t1) = ctrls d) by (rewrite <- (@build_ctrls F d t0 A); symmetry; apply (skel_base _ _ Sk)).
  assert (En : b_nx (tbase t) = b_nx (tbase t1)) by (apply timed_base in E; apply (f_equal (@b_nx F)) in E; cbn in E; auto).
  rewrite En in *. rewrite <- Ec in *. rewrite <- Ny in *.
  exact (@tree_adjoint F rexp t1 Ft Cv y y' g x x' h f Hy Hy' Hg Ex Ex' Eh).
Qed.
(** the calls and gradients of simple transfer functions are defined *)
Fixpoint t_simple t : Prop :=
  match t with
  | Leaf (KExp _) _ | Leaf KCustom _ => False
  | Leaf _ _ => True
  | Conc _ x y => t_simple x /\ t_simple y
  | _ => False
  end.
Lemma simple_defined t : fits t -> t_simple t -> 
  (forall y, wfa [b_ny (tbase t); b_ctrls (tbase t)] y -> exists x, cv rexp t y = Ok x) /\
  (forall g f, wfa [b_nx (tbase t); f; b_ctrls (tbase t)] g -> exists h, gv rexp t g = Ok h /\ wfa [b_ny (tbase t); f; b_ctrls (tbase t)] h).
Proof.
  induction t as [k b|b t1 IH1 t2 IH2|b t1 IH1 t2 IH2|b t1 IH1 t2 IH2|b t1 IH1 t2 IH2]; intros Ft Si; cbn [t_simple] in Si; try tauto.
  - destruct k; try tauto; cbn [tbase fits] in *.
    + destruct Ft as [_ Hx]. split; [intros y Hy; exists y; reflexivity|]. intros g f Hg. exists g. split; [reflexivity|]. now rewrite <- Hx.
    + destruct Ft as [Ht [ps [pe [Hp Hx]]]]. split; intros.
      * eexists. cbn [cv]. now rewrite (over_call_eq Ht Hp H).
      * eexists. cbn [gv]. rewrite (@over_grad_eq F b g ps pe f Hp Hx H). split; [reflexivity|apply wfa_mk3].
    + destruct Ft as [Ht Hx]. split; intros.
      * eexists. cbn [cv]. unfold conv_call. rewrite (@check_dims_ok F b y Ht H). reflexivity.
      * eexists. cbn [gv]. unfold conv_grad. rewrite (@check_grad_ok F b g f H). destruct (dim_wfa3 H) as [-> [-> [-> _]]]. split; [reflexivity|]. rewrite Hx. apply wfa_mk3.
    + destruct Ft as [Ht [ps [pe [Hp Hx]]]]. split; intros.
      * cbn [cv]. unfold pmcall. cbn [tbase pown pm leaf_matrix]. rewrite (@check_dims_ok F b y Ht H). cbn [bind].
        destruct (over_matrix b) as [T|e] eqn:ET; [|rewrite (over_matrix_eq _ Hp) in ET; discriminate]. cbn [bind].
        rewrite (over_matrix_call Ht Hp H ET), (over_call_eq Ht Hp H). cbn [bind]. eauto.
      * cbn [gv]. unfold pmgrad. cbn [tbase pown pm leaf_matrix is_exp]. rewrite (@check_grad_ok F b g f H). cbn [bind].
        destruct (over_matrix b) as [T|e] eqn:ET; [|rewrite (over_matrix_eq _ Hp) in ET; discriminate]. cbn [bind].
        rewrite (@over_matrix_grad F b g ps pe f T Hp Hx H ET), (@over_grad_eq F b g ps pe f Hp Hx H). eexists. split; [reflexivity|apply wfa_mk3].
  - cbn [fits] in Ft. destruct Ft as [F0 [F1 [F2 [F3 [F4 [F5 [F6 F7]]]]]]], Si as [S1 S2]. cbn [tbase].
    destruct (IH1 F6 S1) as [A1 A2], (IH2 F7 S2) as [B1 B2]. split.
    + intros y Hy. cbn [cv]. rewrite (@check_dims_ok F b y F0 Hy). cbn [bind]. rewrite F1, F3 in Hy. destruct (A1 y Hy) as [u Eu]. rewrite Eu. cbn [bind].
      pose proof (@cv_shape F rexp t1 F6 y u Hy Eu) as W. rewrite F5, F2 in W. apply (B1 u W).
    + intros g f Hg. cbn [gv]. rewrite F4, F1, F2 in Hg. destruct (B2 g f Hg) as [u [Eu W]]. rewrite Eu. cbn [bind]. rewrite <- F5, <- F2 in W.
      destruct (A2 u f W) as [v [Ev Wv]]. exists v. rewrite F3, F1. auto.
Qed.
Lemma build_simple d t : build d = Ok t -> simple d -> t_simple t.
Proof.
  revert t. induction d; cbn [build simple]; intros t E H; try (injection E as <-; cbn; auto; fail); try tauto;
  destruct (build d1) as [x|]; try discriminate; cbn [bind] in E; destruct (build d2) as [y|]; try discriminate; cbn [bind] in E;
  injection E as <-; cbn; split; intuition.
Qed.
Lemma t_simple_skel t t' : skel t t' -> t_simple t -> t_simple t'.
Proof. revert t'. induction t; destruct t'; cbn; try tauto. intros [<- _]. auto. intuition eauto. Qed.
Lemma simple_nc d : simple d -> no_custom (F:=F) d.
Proof. induction d; cbn; tauto. Qed.
Lemma simple_call_defined d ys t : simple d -> matched d -> ready rexp d ys t ->
  (forall y, wfa [length ys; ctrls d] y -> exists x, snd (call rexp t y) = Ok x) /\
  (forall g f, wfa [b_nx (tbase t); f; ctrls d] g -> exists h, snd (grad rexp t g) = Ok h).
Proof.
  intros Hs Hm Hr. pose proof (@simple_nc d Hs) as Hd. destruct (@ready_fresh F rexp d ys t Hd Hr) as [t0 [t1 [A [B [C [D [D' [E G]]]]]]]].
  pose proof (@build_sane F d t0 A Hd Hm) as Sn. pose proof (@set_times_fits F rexp t0 ys t1 Sn B) as Ft.
  pose proof (@set_times_skel F t0 ys (sane_nc _ Sn)) as Sk. rewrite B in Sk. cbn [fst] in Sk.
  destruct (@set_times_grid F rexp t0 ys t1 (sane_nc _ Sn) B) as [Ny _].
  assert (Ec : b_ctrls (tbase t1) = ctrls d) by (rewrite <- (@build_ctrls F d t0 A); symmetry; apply (skel_base _ _ Sk)).
  assert (En : b_nx (tbase t) = b_nx (tbase t1)) by (apply timed_base in E; apply (f_equal (@b_nx F)) in E; cbn in E; auto).
  rewrite En. rewrite <- Ec. rewrite <- Ny.
  destruct (@simple_defined t1 Ft (@t_simple_skel t0 t1 Sk (@build_simple d t0 A Hs))) as [P Q]. split.
  - intros y Hy. rewrite (@ready_call F rexp d ys t t0 t1 y Hd Hr A B). auto.
  - intros g f Hg. rewrite (@ready_grad F rexp d ys t t0 t1 g Hd Hr A B). destruct (Q g f Hg) as [h0 [E0 _]]. eauto.
Qed.

(** C18: the concatenation is one after the other *)
Lemma conc_parts d1 d2 ys t : no_custom d1 -> no_custom d2 -> ready rexp (DConc d1 d2) ys t ->
  exists t0 b u1 u2 t01 t02 xs, build (DConc d1 d2) = Ok t0 /\ set_times t0 ys = (Conc b u1 u2, Ok tt) /\
   build d1 = Ok t01 /\ build d2 = Ok t02 /\ set_times t01 ys = (u1, Ok tt) /\ b_xt (tbase u1) = Some xs /\ set_times t02 xs = (u2, Ok tt) /\
   b = set_tm (conc_base t01 t02) (b_ny (tbase u1)) (b_yt (tbase u1)) (b_nx (tbase u2)) (b_xt (tbase u2)).
Proof.
  intros H1 H2 Hr. destruct (@ready_fresh F rexp (DConc d1 d2) ys t (conj H1 H2) Hr) as [t0 [t1 [A [B _]]]].
  cbn [build] in A. destruct (build d1) as [x|] eqn:E1; [|discriminate]. cbn [bind] in A. destruct (build d2) as [z|] eqn:E2; [|discriminate]. cbn [bind] in A.
  injection A as <-. unfold mk_conc in B. cbn [set_times] in B. destruct (set_times x ys) as [u1 [[]|]] eqn:S1; [|discriminate].
  destruct (b_xt (tbase u1)) as [xs|] eqn:EX; [|discriminate]. destruct (set_times z xs) as [u2 [[]|]] eqn:S2; [|discriminate]. injection B as <-.
  exists (mk_conc x z). do 6 eexists. split; [cbn [build]; rewrite E1, E2; reflexivity|]. split; [unfold mk_conc; cbn [set_times]; rewrite S1, EX, S2; reflexivity|]. repeat (split; [first [reflexivity|eassumption]|]). reflexivity.
Qed.
Lemma concat_call d1 d2 ys xs t t1 t2 y : no_custom d1 -> no_custom d2 -> ready rexp (DConc d1 d2) ys t ->
  ready rexp d1 ys t1 -> b_xt (tbase t1) = Some xs -> ready rexp d2 xs t2 -> wfa [length ys; ctrls d1] y ->
  snd (call rexp t y) = (x <- snd (call rexp t1 y) ;; snd (call rexp t2 x)).
Proof.
  intros H1 H2 Hr R1 Ex R2 Hy. destruct (@conc_parts d1 d2 ys t H1 H2 Hr) as [t0 [b [u1 [u2 [t01 [t02 [xs' [A [B [B1 [B2 [S1 [EX [S2 Eb]]]]]]]]]]]]]].
  destruct (@ready_fresh F rexp d1 ys t1 H1 R1) as [v0 [v1 [P1 [P2 [_ [_ [_ [P3 _]]]]]]]].
  assert (v1 = u1) by congruence. subst v1. apply timed_base in P3. apply (f_equal (@b_xt F)) in P3. cbn in P3. assert (xs' = xs) by congruence. subst xs'.
  rewrite (@ready_call F rexp (DConc d1 d2) ys t t0 (Conc b u1 u2) y (conj H1 H2) Hr A B). cbn [cv].
  rewrite (@ready_call F rexp d1 ys t1 t01 u1 y H1 R1 B1 S1).
  assert (CD : check_dims b y = Ok tt).
  { destruct (@set_times_grid F rexp t01 ys u1 (@build_no_custom F d1 t01 B1 H1) S1) as [N1 [N2 _]]. apply check_dims_ok.
    - exists ys. subst b. cbn. auto.
    - subst b. cbn. rewrite (@build_ctrls F d1 t01 B1), N1. exact Hy. }
  rewrite CD. cbn [bind]. destruct (cv rexp u1 y) as [x|]; cbn [bind]; [|reflexivity].
  now rewrite (@ready_call F rexp d2 xs t2 t02 u2 x H2 R2 B2 S2).
Qed.
Lemma concat_grad d1 d2 ys xs t t1 t2 g : no_custom d1 -> no_custom d2 -> ready rexp (DConc d1 d2) ys t ->
  ready rexp d1 ys t1 -> b_xt (tbase t1) = Some xs -> ready rexp d2 xs t2 ->
  snd (grad rexp t g) = (h <- snd (grad rexp t2 g) ;; snd (grad rexp t1 h)).
Proof.
  intros H1 H2 Hr R1 Ex R2. destruct (@conc_parts d1 d2 ys t H1 H2 Hr) as [t0 [b [u1 [u2 [t01 [t02 [xs' [A [B [B1 [B2 [S1 [EX [S2 Eb]]]]]]]]]]]]]].
  destruct (@ready_fresh F rexp d1 ys t1 H1 R1) as [v0 [v1 [P1 [P2 [_ [_ [_ [P3 _]]]]]]]].
  assert (v1 = u1) by congruence. subst v1. apply timed_base in P3. apply (f_equal (@b_xt F)) in P3. cbn in P3. assert (xs' = xs) by congruence. subst xs'.
  rewrite (@ready_grad F rexp (DConc d1 d2) ys t t0 (Conc b u1 u2) g (conj H1 H2) Hr A B). cbn [gv].
  rewrite (@ready_grad F rexp d2 xs t2 t02 u2 g H2 R2 B2 S2). destruct (gv rexp u2 g) as [h|]; cbn [bind]; [|reflexivity].
  now rewrite (@ready_grad F rexp d1 ys t1 t01 u1 h H1 R1 B1 S1).
Qed.
Lemma concat_times d1 d2 ys xs t t1 t2 : no_custom d1 -> no_custom d2 -> ready rexp (DConc d1 d2) ys t ->
  ready rexp d1 ys t1 -> b_xt (tbase t1) = Some xs -> ready rexp d2 xs t2 ->
  b_xt (tbase t) = b_xt (tbase t2) /\ b_nx (tbase t) = b_nx (tbase t2).
Proof.
  intros H1 H2 Hr R1 Ex R2. destruct (@conc_parts d1 d2 ys t H1 H2 Hr) as [t0 [b [u1 [u2 [t01 [t02 [xs' [A [B [B1 [B2 [S1 [EX [S2 Eb]]]]]]]]]]]]]].
  destruct (@ready_fresh F rexp d1 ys t1 H1 R1) as [v0 [v1 [P1 [P2 [_ [_ [_ [P3 _]]]]]]]].
  assert (v1 = u1) by congruence. subst v1. apply timed_base in P3. apply (f_equal (@b_xt F)) in P3. cbn in P3. assert (xs' = xs) by congruence. subst xs'.
  destruct (@ready_fresh F rexp d2 xs t2 H2 R2) as [w0 [w1 [Q1 [Q2 [_ [_ [_ [Q3 _]]]]]]]]. assert (w1 = u2) by congruence. subst w1.
  destruct (@ready_fresh F rexp (DConc d1 d2) ys t (conj H1 H2) Hr) as [z0 [z1 [Z1 [Z2 [_ [_ [_ [Z3 _]]]]]]]]. assert (z1 = Conc b u1 u2) by congruence. subst z1.
  apply timed_base in Q3. apply timed_base in Z3.
  pose proof (f_equal (@b_xt F) Q3) as Q3x. pose proof (f_equal (@b_nx F) Q3) as Q3n. pose proof (f_equal (@b_xt F) Z3) as Z3x. pose proof (f_equal (@b_nx F) Z3) as Z3n.
  cbn [set_mat b_xt b_nx tbase] in *. rewrite <- Z3x, <- Z3n, <- Q3x, <- Q3n, Eb. split; reflexivity.
Qed.
(** setting the times of a concatenation succeeds exactly when it succeeds for both parts in turn *)
Lemma concat_defined (d1 d2 : desc F) ys t t1 (u1 : tf) : no_custom d1 -> build (DConc d1 d2) = Ok t -> build d1 = Ok t1 -> set_times t1 ys = (u1, Ok tt) ->
  forall t2 : tf, build d2 = Ok t2 -> exists xs, b_xt (tbase u1) = Some xs /\ snd (set_times t ys) = snd (set_times t2 xs).
Proof.
  intros H1 Hb B1 S1 t2 B2. cbn [build] in Hb. rewrite B1, B2 in Hb. injection Hb as <-.
  destruct (@set_times_grid F rexp t1 ys u1 (@build_no_custom F d1 t1 B1 H1) S1) as [_ [_ [xs [X _]]]]. exists xs. split; auto.
  unfold mk_conc. cbn [set_times]. rewrite S1, X. destruct (set_times t2 xs) as [u2 [[]|]]; reflexivity.
Qed.

(** C19 *)
Lemma par_parts d1 d2 ys t : no_custom d1 -> no_custom d2 -> ready rexp (DPar d1 d2) ys t ->
  exists t0 b u1 u2 t01 t02, build (DPar d1 d2) = Ok t0 /\ set_times t0 ys = (Par b u1 u2, Ok tt) /\
   build d1 = Ok t01 /\ build d2 = Ok t02 /\ set_times t01 ys = (u1, Ok tt) /\ set_times t02 ys = (u2, Ok tt) /\
   b = set_tm (par_base t01 t02) (b_ny (tbase u1)) (b_yt (tbase u1)) (b_nx (tbase u1)) (b_xt (tbase u1)).
Proof.
  intros H1 H2 Hr. destruct (@ready_fresh F rexp (DPar d1 d2) ys t (conj H1 H2) Hr) as [t0 [t1 [A [B _]]]]. pose proof A as A'.
  cbn [build] in A. destruct (build d1) as [x|] eqn:E1; [|discriminate]. cbn [bind] in A. destruct (build d2) as [z|] eqn:E2; [|discriminate]. cbn [bind] in A.
  unfold mk_par in A. destruct (Nat.eqb _ _); [|discriminate]. cbn [bind] in A. destruct (Nat.eqb _ _); [|discriminate]. cbn [bind] in A.
  injection A as <-. pose proof B as B'. cbn [set_times] in B. destruct (set_times x ys) as [u1 [[]|]] eqn:S1; [|discriminate].
  destruct (set_times z ys) as [u2 [[]|]] eqn:S2; [|discriminate]. injection B as <-.
  do 6 eexists. split; [exact A'|]. split; [exact B'|]. repeat (split; [first [reflexivity|eassumption]|]). reflexivity.
Qed.
Lemma parallel_call d1 d2 ys t t1 t2 y x1 x2 : no_custom d1 -> no_custom d2 -> ready rexp (DPar d1 d2) ys t ->
  ready rexp d1 ys t1 -> ready rexp d2 ys t2 -> wfa [length ys; ctrls d1 + ctrls d2] y ->
  snd (call rexp t1 (mk2 (length ys) (ctrls d1) (fun i k => get2 k0 y i k))) = Ok x1 ->
  snd (call rexp t2 (mk2 (length ys) (ctrls d2) (fun i k => get2 k0 y i (ctrls d1 + k)))) = Ok x2 ->
  forall m1 m2 c1 c2, wfa [m1; c1] x1 -> wfa [m2; c2] x2 ->
  snd (call rexp t y) = (if Nat.eqb m1 m2 then Ok (mk2 m1 (c1 + c2) (fun i k => if Nat.ltb k c1 then get2 k0 x1 i k else get2 k0 x2 i (k - c1)))
                         else Err ValueError).
Proof.
  intros H1 H2 Hr R1 R2 Hy X1 X2 m1 m2 c1 c2 W1 W2. destruct (@par_parts d1 d2 ys t H1 H2 Hr) as [t0 [b [u1 [u2 [t01 [t02 [A [B [B1 [B2 [S1 [S2 Eb]]]]]]]]]]]].
  rewrite (@ready_call F rexp (DPar d1 d2) ys t t0 (Par b u1 u2) y (conj H1 H2) Hr A B). cbn [cv].
  rewrite (@ready_call F rexp d1 ys t1 t01 u1 _ H1 R1 B1 S1) in X1. rewrite (@ready_call F rexp d2 ys t2 t02 u2 _ H2 R2 B2 S2) in X2.
  destruct (@set_times_grid F rexp t01 ys u1 (@build_no_custom F d1 t01 B1 H1) S1) as [N1 [N2 _]].
  assert (CD : check_dims b y = Ok tt).
  { apply check_dims_ok.
    - exists ys. subst b. cbn. auto.
    - subst b. cbn. rewrite (@build_ctrls F d1 t01 B1), (@build_ctrls F d2 t02 B2), N1. exact Hy. }
  rewrite CD. cbn [bind].
  assert (EC : b_ctrls (tbase u1) = ctrls d1).
  { rewrite <- (@build_ctrls F d1 t01 B1). eapply set_times_ctrls; [|exact S1]. apply (@build_no_custom F d1 t01 B1 H1). }
  rewrite EC. unfold cols_lo, cols_hi. destruct (dim_wfa2 Hy) as [-> [-> _]]. rewrite Nat.min_l by lia. replace (ctrls d1 + ctrls d2 - ctrls d1) with (ctrls d2) by lia.
  rewrite X1, X2. cbn [bind]. destruct (Nat.eqb_spec m1 m2) as [<-|Hne].
  - now rewrite (@concat2_ok F _ _ _ _ _ W1 W2).
  - unfold concat2. destruct (dim_wfa2 W1) as [-> [_ ->]], (dim_wfa2 W2) as [-> [_ ->]]. rewrite (proj2 (Nat.eqb_neq _ _) Hne). reflexivity.
Qed.
Lemma parallel_grad d1 d2 ys t t1 t2 g f h1 h2 : no_custom d1 -> no_custom d2 -> ready rexp (DPar d1 d2) ys t ->
  ready rexp d1 ys t1 -> ready rexp d2 ys t2 -> forall nx, wfa [nx; f; ctrls d1 + ctrls d2] g ->
  snd (grad rexp t1 (mk3 nx f (ctrls d1) (fun i q k => get3 k0 g i q k))) = Ok h1 ->
  snd (grad rexp t2 (mk3 nx f (ctrls d2) (fun i q k => get3 k0 g i q (ctrls d1 + k)))) = Ok h2 ->
  forall c1 c2, wfa [length ys; f; c1] h1 -> wfa [length ys; f; c2] h2 ->
  snd (grad rexp t g) = Ok (mk3 (length ys) f (c1 + c2) (fun i q k => if Nat.ltb k c1 then get3 k0 h1 i q k else get3 k0 h2 i q (k - c1))).
Proof.
  intros H1 H2 Hr R1 R2 nx Hy X1 X2 c1 c2 W1 W2. destruct (@par_parts d1 d2 ys t H1 H2 Hr) as [t0 [b [u1 [u2 [t01 [t02 [A [B [B1 [B2 [S1 [S2 Eb]]]]]]]]]]]].
  rewrite (@ready_grad F rexp (DPar d1 d2) ys t t0 (Par b u1 u2) g (conj H1 H2) Hr A B). cbn [gv].
  rewrite (@ready_grad F rexp d1 ys t1 t01 u1 _ H1 R1 B1 S1) in X1. rewrite (@ready_grad F rexp d2 ys t2 t02 u2 _ H2 R2 B2 S2) in X2.
  assert (EC : b_ctrls (tbase u1) = ctrls d1).
  { rewrite <- (@build_ctrls F d1 t01 B1). eapply set_times_ctrls; [|exact S1]. apply (@build_no_custom F d1 t01 B1 H1). }
  rewrite EC. unfold cols3_lo, cols3_hi. destruct (dim_wfa3 Hy) as [-> [-> [-> ->]]]. cbn [Nat.eqb bind]. rewrite Nat.min_l by lia. replace (ctrls d1 + ctrls d2 - ctrls d1) with (ctrls d2) by lia.
  rewrite X1, X2. cbn [bind]. now rewrite (@concat3_ok F _ _ _ _ _ _ W1 W2).
Qed.
(** ParallelMTF: the matrix is block diagonal *)
Lemma parM_parts d1 d2 ys t : no_custom d1 -> no_custom d2 -> ready rexp (DParM d1 d2) ys t ->
  exists t0 b u1 u2 t01 t02, build (DParM d1 d2) = Ok t0 /\ set_times t0 ys = (ParM b u1 u2, Ok tt) /\
   build d1 = Ok t01 /\ build d2 = Ok t02 /\ set_times t01 ys = (u1, Ok tt) /\ set_times t02 ys = (u2, Ok tt) /\
   b = set_tm (par_base t01 t02) (b_ny (tbase u1)) (b_yt (tbase u1)) (b_nx (tbase u1)) (b_xt (tbase u1)).
Proof.
  intros H1 H2 Hr. destruct (@ready_fresh F rexp (DParM d1 d2) ys t (conj H1 H2) Hr) as [t0 [t1 [A [B _]]]]. pose proof A as A'.
  cbn [build] in A. destruct (build d1) as [x|] eqn:E1; [|discriminate]. cbn [bind] in A. destruct (build d2) as [z|] eqn:E2; [|discriminate]. cbn [bind] in A.
  unfold mk_parM in A. destruct (Nat.eqb _ _); [|discriminate]. cbn [bind] in A. destruct (bound_eqb _ _); [|discriminate]. cbn [bind] in A. destruct (Nat.eqb _ _); [|discriminate]. cbn [bind] in A.
  injection A as <-. pose proof B as B'. cbn [set_times] in B. destruct (set_times x ys) as [u1 [[]|]] eqn:S1; [|discriminate].
  destruct (set_times z ys) as [u2 [[]|]] eqn:S2; [|discriminate]. injection B as <-.
  do 6 eexists. split; [exact A'|]. split; [exact B'|]. repeat (split; [first [reflexivity|eassumption]|]). reflexivity.
Qed.
Lemma parallelM_matrix d1 d2 ys t t1 t2 T : no_custom d1 -> no_custom d2 -> matched d1 -> matched d2 -> ready rexp (DParM d1 d2) ys t ->
  ready rexp d1 ys t1 -> ready rexp d2 ys t2 -> snd (get_matrix rexp t) = Ok T ->
  exists T1 T2, snd (get_matrix rexp t1) = Ok T1 /\ snd (get_matrix rexp t2) = Ok T2 /\ wfa [b_nx (tbase t1); length ys; ctrls d1 + ctrls d2] T /\
    forall i j k, i < b_nx (tbase t1) -> j < length ys -> k < ctrls d1 + ctrls d2 ->
      get3 k0 T i j k = if Nat.ltb k (ctrls d1) then get3 k0 T1 i j k else get3 k0 T2 i j (k - ctrls d1).
Proof.
  intros H1 H2 M1 M2 Hr R1 R2 ET. destruct (@parM_parts d1 d2 ys t H1 H2 Hr) as [t0 [b [u1 [u2 [t01 [t02 [A [B [B1 [B2 [S1 [S2 Eb]]]]]]]]]]]].
  rewrite (@ready_matrix F rexp (DParM d1 d2) ys t t0 (ParM b u1 u2) (conj H1 H2) Hr A B) in ET. cbn [pm] in ET.
  destruct (pm rexp u1) as [T1|] eqn:P1; [|discriminate]. cbn [bind] in ET. destruct (pm rexp u2) as [T2|] eqn:P2; [|discriminate]. cbn [bind] in ET.
  exists T1, T2. rewrite (@ready_matrix F rexp d1 ys t1 t01 u1 H1 R1 B1 S1), (@ready_matrix F rexp d2 ys t2 t02 u2 H2 R2 B2 S2). split; [exact P1|]. split; [exact P2|].
  pose proof (@set_times_fits F rexp t01 ys u1 (@build_sane F d1 t01 B1 H1 M1) S1) as F1. pose proof (@set_times_fits F rexp t02 ys u2 (@build_sane F d2 t02 B2 H2 M2) S2) as F2.
  pose proof (@pm_shape F rexp u1 T1 F1 P1) as W1. pose proof (@pm_shape F rexp u2 T2 F2 P2) as W2.
  destruct (@set_times_grid F rexp t01 ys u1 (@build_no_custom F d1 t01 B1 H1) S1) as [N1 _]. destruct (@set_times_grid F rexp t02 ys u2 (@build_no_custom F d2 t02 B2 H2) S2) as [N2 _].
  assert (EC1 : b_ctrls (tbase u1) = ctrls d1) by (rewrite <- (@build_ctrls F d1 t01 B1); eapply set_times_ctrls; [|exact S1]; apply (@build_no_custom F d1 t01 B1 H1)).
  assert (EC2 : b_ctrls (tbase u2) = ctrls d2) by (rewrite <- (@build_ctrls F d2 t02 B2); eapply set_times_ctrls; [|exact S2]; apply (@build_no_custom F d2 t02 B2 H2)).
  destruct (@ready_fresh F rexp d1 ys t1 H1 R1) as [v0 [v1 [Q1 [Q2 [_ [_ [_ [Q3 _]]]]]]]]. assert (v1 = u1) by congruence. subst v1.
  apply timed_base in Q3. apply (f_equal (@b_nx F)) in Q3. cbn in Q3. rewrite <- Q3.
  destruct (@concat3_inv F _ _ _ _ _ _ _ _ _ W1 W2 ET) as [E3 E4]. rewrite E3, E4 in W2. rewrite (@concat3_ok F _ _ _ _ _ _ W1 W2) in ET. injection ET as <-. rewrite N1, EC1, EC2.
  split; [apply wfa_mk3|]. intros i j k Hi Hj Hk. now rewrite get3_mk3.
Qed.
(** matrix transfer functions without offset: ParallelMTF computes what ParallelTF computes *)
Lemma pown_pm d t u ys : no_offset d -> build d = Ok t -> set_times t ys = (u, Ok tt) -> no_custom d ->
  (forall y, cv rexp u y = pmcall rexp u y) /\ (forall g, gv rexp u g = pmgrad rexp u g) /\ pown rexp u = pm rexp u /\ b_off (tbase u) = None.
Proof.
  intros Hn Hb Hs Hc. pose proof (@set_times_skel F t ys (@build_no_custom F d t Hb Hc)) as Sk. rewrite Hs in Sk. cbn [fst] in Sk.
  pose proof (skel_base _ _ Sk) as [_ [_ [_ Ho]]].
  destruct d; cbn [no_offset] in Hn; try tauto.
  - injection Hb as <-. cbn in Ho. destruct off; [tauto|]. destruct u; cbn in Sk; try tauto. destruct Sk as [<- _]. auto.
  - injection Hb as <-. cbn in Ho. destruct off; [tauto|]. destruct u; cbn in Sk; try tauto. destruct Sk as [<- _]. auto.
  - cbn [build] in Hb. destruct (build d1); [|discriminate]. cbn [bind] in Hb. destruct (build d2); [|discriminate]. cbn [bind] in Hb. unfold mk_parM in Hb.
    repeat match type of Hb with context [if ?c then _ else _] => destruct c; [cbn [bind] in Hb|discriminate] end. injection Hb as <-.
    destruct u; cbn in Sk; try tauto. cbn in Ho. auto.
Qed.
Lemma parallelM_call d1 d2 ys t t1 t2 y x : no_custom d1 -> no_custom d2 -> matched d1 -> matched d2 -> no_offset d1 -> no_offset d2 ->
  ready rexp (DParM d1 d2) ys t -> ready rexp d1 ys t1 -> ready rexp d2 ys t2 -> wfa [length ys; ctrls d1 + ctrls d2] y ->
  snd (call rexp t y) = Ok x ->
  exists x1 x2,
    snd (call rexp t1 (mk2 (length ys) (ctrls d1) (fun i k => get2 k0 y i k))) = Ok x1 /\
    snd (call rexp t2 (mk2 (length ys) (ctrls d2) (fun i k => get2 k0 y i (ctrls d1 + k)))) = Ok x2 /\
    wfa [b_nx (tbase t1); ctrls d1 + ctrls d2] x /\
    forall i k, i < b_nx (tbase t1) -> k < ctrls d1 + ctrls d2 ->
      get2 k0 x i k = if Nat.ltb k (ctrls d1) then get2 k0 x1 i k else get2 k0 x2 i (k - ctrls d1).
Proof.
  intros H1 H2 M1 M2 O1 O2 Hr R1 R2 Hy Ex. destruct (@parM_parts d1 d2 ys t H1 H2 Hr) as [t0 [b [u1 [u2 [t01 [t02 [A [B [B1 [B2 [S1 [S2 Eb]]]]]]]]]]]].
  rewrite (@ready_call F rexp (DParM d1 d2) ys t t0 (ParM b u1 u2) y (conj H1 H2) Hr A B) in Ex. cbn [cv] in Ex. unfold pmcall in Ex. cbn [pown tbase pm] in Ex.
  destruct (@set_times_grid F rexp t01 ys u1 (@build_no_custom F d1 t01 B1 H1) S1) as [N1 [N1' _]]. destruct (@set_times_grid F rexp t02 ys u2 (@build_no_custom F d2 t02 B2 H2) S2) as [N2 [N2' _]].
  assert (CD : check_dims b y = Ok tt).
  { apply check_dims_ok.
    - exists ys. subst b. cbn. auto.
    - subst b. cbn. rewrite (@build_ctrls F d1 t01 B1), (@build_ctrls F d2 t02 B2), N1. exact Hy. }
  rewrite CD in Ex. cbn [bind] in Ex.
  destruct (pm rexp u1) as [T1|] eqn:P1; [|discriminate]. cbn [bind] in Ex. destruct (pm rexp u2) as [T2|] eqn:P2; [|discriminate]. cbn [bind] in Ex.
  pose proof (@set_times_fits F rexp t01 ys u1 (@build_sane F d1 t01 B1 H1 M1) S1) as F1. pose proof (@set_times_fits F rexp t02 ys u2 (@build_sane F d2 t02 B2 H2 M2) S2) as F2.
  pose proof (@pm_shape F rexp u1 T1 F1 P1) as W1. pose proof (@pm_shape F rexp u2 T2 F2 P2) as W2.
  assert (EC1 : b_ctrls (tbase u1) = ctrls d1) by (rewrite <- (@build_ctrls F d1 t01 B1); eapply set_times_ctrls; [|exact S1]; apply (@build_no_custom F d1 t01 B1 H1)).
  assert (EC2 : b_ctrls (tbase u2) = ctrls d2) by (rewrite <- (@build_ctrls F d2 t02 B2); eapply set_times_ctrls; [|exact S2]; apply (@build_no_custom F d2 t02 B2 H2)).
  destruct (@ready_fresh F rexp d1 ys t1 H1 R1) as [v0 [v1 [Q1 [Q2 [_ [_ [_ [Q3 _]]]]]]]]. assert (v1 = u1) by congruence. subst v1.
  apply timed_base in Q3. apply (f_equal (@b_nx F)) in Q3. cbn in Q3.
  destruct (concat3 T1 T2) as [T|] eqn:ET; [|discriminate]. cbn [bind] in Ex.
  destruct (@concat3_inv F _ _ _ _ _ _ _ _ _ W1 W2 ET) as [E3 E4]. rewrite E3, E4 in W2. rewrite (@concat3_ok F _ _ _ _ _ _ W1 W2) in ET. injection ET as <-.
  rewrite N1, EC1, EC2, Q3 in *. rewrite (@einsum_call_ok F _ _ _ _ _ (wfa_mk3 _ _ _ _) Hy) in Ex. cbn [bind] in Ex.
  assert (Eoff : b_off b = None) by (subst b; reflexivity). rewrite Eoff in Ex. cbn [add_offset] in Ex. injection Ex as <-.
  destruct (@pown_pm d1 t01 u1 ys O1 B1 S1 H1) as [C1 [_ [C2 C3]]]. destruct (@pown_pm d2 t02 u2 ys O2 B2 S2 H2) as [C1' [_ [C2' C3']]].
  set (y1 := mk2 (length ys) (ctrls d1) (fun i k => get2 k0 y i k)). set (y2 := mk2 (length ys) (ctrls d2) (fun i k => get2 k0 y i (ctrls d1 + k))).
  assert (Y1 : wfa [length ys; ctrls d1] y1) by apply wfa_mk2. assert (Y2 : wfa [length ys; ctrls d2] y2) by apply wfa_mk2.
  assert (HT1 : has_times (tbase u1)) by (exists ys; auto). assert (HT2 : has_times (tbase u2)) by (exists ys; auto).
  do 2 eexists. split; [|split; [|split]].
  - rewrite (@ready_call F rexp d1 ys t1 t01 u1 y1 H1 R1 B1 S1), C1. unfold pmcall. rewrite (@check_dims_ok F (tbase u1) y1); [|auto|now rewrite N1, EC1].
    rewrite C2, P1, C3. cbn [bind]. rewrite (@einsum_call_ok F _ _ _ _ _ W1 Y1). cbn [bind add_offset]. reflexivity.
  - rewrite (@ready_call F rexp d2 ys t2 t02 u2 y2 H2 R2 B2 S2), C1'. unfold pmcall. rewrite (@check_dims_ok F (tbase u2) y2); [|auto|now rewrite N2, EC2].
    rewrite C2', P2, C3'. cbn [bind]. rewrite (@einsum_call_ok F _ _ _ _ _ W2 Y2). cbn [bind add_offset]. reflexivity.
  - apply wfa_mk2.
  - intros i k Hi Hk. rewrite get2_mk2 by auto. destruct (Nat.ltb_spec k (ctrls d1)) as [L|L].
    + rewrite get2_mk2 by auto. apply sumn_ext. intros j Hj. rewrite get3_mk3 by auto. rewrite (proj2 (Nat.ltb_lt _ _) L). unfold y1. now rewrite get2_mk2.
    + rewrite get2_mk2 by lia. apply sumn_ext. intros j Hj. rewrite get3_mk3 by auto. rewrite (proj2 (Nat.ltb_ge _ _) L). unfold y2. rewrite get2_mk2 by lia. now replace (ctrls d1 + (k - ctrls d1)) with k by lia.
Qed.
End P.
