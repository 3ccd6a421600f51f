(** Monte Carlo propagation, the remaining caches and the reads. *)
Require Import List Arith Lia Bool.
From Verif Require Import LibBase LibRing LibArr LibCplx LibMat M_Matrix M_OpHeap M_Transfer M_Amplitude M_Solver S_Solver P_Loops P_Solver.
Import ListNotations.
Open Scope res_scope.
Set Implicit Arguments.

Lemma foldM_inv {A B} (P : A -> Prop) (f : A -> B -> res A) l a r : foldM f l a = Ok r -> P a ->
  (forall a x a', In x l -> P a -> f a x = Ok a' -> P a') -> P r.
Proof.
  revert a. induction l as [|x l IH]; simpl; intros a H Ha Hs; [inversion H; subst; auto|].
  destruct (f a x) eqn:E; [|discriminate]. apply (IH a0); eauto.
Qed.
Lemma lset_length {A} (l : list A) i x : length (lset l i x) = length l.
Proof. revert i. induction l; destruct i; simpl; auto. Qed.
Lemma idx_ok {A} (l : list A) i d : i < length l -> idx l i = Ok (nth i l d).
Proof.
  intros H. unfold idx. destruct (nth_error l i) eqn:E.
  - f_equal. symmetry. now apply nth_error_nth.
  - apply nth_error_None in E. lia.
Qed.
Lemma idx_inv {A} (l : list A) i x : idx l i = Ok x -> i < length l /\ forall d, nth i l d = x.
Proof.
  unfold idx. destruct (nth_error l i) eqn:E; [|discriminate]. intros H; inversion H; subst. split.
  - apply nth_error_Some. congruence.
  - intros d. now apply nth_error_nth.
Qed.
Lemma mapM_map {A B C0} (f : B -> res C0) (g : A -> B) l : mapM f (map g l) = mapM (fun x => f (g x)) l.
Proof. induction l; simpl; auto. now rewrite IHl. Qed.

Section Coherent2.
Variable F : OField.
Variable rexp : F -> F.
Variable la : LinAlg F.
Variable eps : cplx F.
Notation C := (cplx F).
Notation S := (CStar F).
Notation arrF := (arr (kcar F)).
Notation op := (op F).
Notation st := (@st F).
Implicit Types (s b f : st) (U : option (list op)) (m : @mcconf F).

Notation pexps := (pexps la).
Notation prows := (prows la eps).
Notation pprop := (pprop la eps).
Notation pnexps := (pnexps la).
Notation agrees := (agrees la eps).
Notation good := (good la eps).
Notation prop_val := (prop_val la).
Notation frechet_val := (frechet_val la eps).
Notation propagation := (propagation la eps).
Notation need_prop := (need_prop la eps).
Notation need_nprop := (need_nprop la eps).

Definition pnrows m b (ng : list (list op)) (dirs : list (list op)) : res (list (list (list (op * op)))) :=
  mapM (fun k => g <- idx ng k ;; prows b g dirs) (seq 0 (mc_traces m)).
Definition pmc m (flag : bool) b : res unit :=
  ng <- pngens m b ;; _ <- pprop flag b ;;
  match mc_procs m with
  | PSeq => if flag then dirs <- pdirs b ;; _ <- pnrows m b ng dirs ;; Ok tt else _ <- pnexps m b ng ;; Ok tt
  | PPool => if flag then Err NotImplementedError else _ <- pnexps m b ng ;; Ok tt
  | PInvalid => Err ValueError
  end.

Lemma pngens_lengths m b ng : pngens m b = Ok ng ->
  exists g, schr_dyn b = (g, None) /\ length ng = mc_traces m /\ forall k d, k < mc_traces m -> length (nth k ng d) = length g.
Proof.
  unfold pngens. destruct (schr_dyn b) as [g [e|]]; [discriminate|].
  destruct (noise_array m b) as [arr|]; cbn [bind]; [|discriminate]. intros H. exists g. split; auto.
  cut (length ng = mc_traces m /\ forall r, In r ng -> length r = length g).
  { intros [L Hin]. split; auto. intros k d Hk. apply Hin, nth_In. lia. }
  refine (@foldM_inv _ _ (fun ng => length ng = mc_traces m /\ forall r, In r ng -> length r = length g) _ _ _ _ H _ _).
  - rewrite repeat_length. split; auto. intros r Hr. apply repeat_spec in Hr. now subst.
  - intros a [[t k] o] a' _ [L Hin] E. unfold add_noise in E.
    destruct (idx a k) as [row|] eqn:Ek; cbn [bind] in E; [|discriminate].
    destruct (idx row t) as [A|] eqn:Et; cbn [bind] in E; [|discriminate].
    destruct (idx (mc_ops m) o) as [h|]; cbn [bind] in E; [|discriminate].
    destruct (op_iadd A _) as [A'|]; cbn [bind] in E; [|discriminate]. inversion E; subst.
    rewrite lset_length. split; auto. intros r Hr. apply idx_inv in Ek. destruct Ek as [Ek Er].
    destruct (In_nth _ _ [] Hr) as (j & Hj & Ej). rewrite lset_length in Hj. rewrite nth_lset in Ej by auto.
    destruct (Nat.eqb k j); subst r; [rewrite lset_length|]; apply Hin.
    + rewrite <- (Er []). now apply nth_In.
    + now apply nth_In.
Qed.
Lemma pexps_len b g es : pexps b g = Ok es -> numt b <= length g /\ length es = numt b.
Proof.
  intros H. destruct (@mapM_seq _ _ 0 (numt b) es (Arr [] []) H) as [L Hi]. split; auto.
  destruct (numt b) as [|n] eqn:En; [lia|]. specialize (Hi n ltac:(lia)). unfold exp_at in Hi.
  destruct (idx g (0 + n)) eqn:E; cbn [bind] in Hi; [|discriminate]. apply idx_inv in E. lia.
Qed.

Lemma exps_all m b (ng : list (list op)) : length ng = mc_traces m ->
  mapM (fun k => mapM (fun t => g <- idx ng k ;; exp_at la b g t) (seq 0 (numt b))) (seq 0 (mc_traces m)) = pnexps m b ng.
Proof.
  intros L. apply mapM_ext_in. intros k Hk. apply in_seq in Hk. rewrite (@idx_ok _ ng k []) by lia. cbn [bind].
  unfold P_Solver.pexps. apply mapM_ext_in. intros; reflexivity.
Qed.
Lemma rows_all m b (ng : list (list op)) (dirs : list (list op)) : length ng = mc_traces m ->
  mapM (fun k => mapM (fun t => mapM (fun c => g <- idx ng k ;; ds <- Ok dirs ;; dexp_at la eps b g ds t c) (seq 0 (numc b))) (seq 0 (numt b))) (seq 0 (mc_traces m))
    = pnrows m b ng dirs.
Proof.
  intros L. apply mapM_ext_in. intros k Hk. apply in_seq in Hk. rewrite (@idx_ok _ ng k []) by lia. cbn [bind].
  unfold P_Solver.prows. reflexivity.
Qed.
Lemma pool_all m b (ng : list (list op)) (g0 : list op) : pngens m b = Ok ng -> schr_dyn b = (g0, None) -> numt b <= length g0 ->
  mapM (fun k => g <- idx ng k ;; matrix_exponentials la b g) (seq 0 (mc_traces m)) = ess <- pnexps m b ng ;; Ok (map (map Some) ess).
Proof.
  intros H Hg Hn. destruct (pngens_lengths m b H) as (g & Hg' & L & Hl). rewrite Hg in Hg'. inversion Hg'; subst g0.
  assert (E : forall k, In k (seq 0 (mc_traces m)) -> (g1 <- idx ng k ;; matrix_exponentials la b g1) = (es <- (g1 <- idx ng k ;; pexps b g1) ;; Ok (map Some es))).
  { intros k Hk. apply in_seq in Hk. rewrite (@idx_ok _ ng k []) by lia. cbn [bind]. unfold matrix_exponentials.
    rewrite (Hl k [] ltac:(lia)). unfold P_Solver.pexps. fold (numt b). rewrite Nat.min_r by lia.
    replace (numt b - length g) with 0 by lia. destruct (mapM _ _); cbn [bind repeat]; auto. now rewrite app_nil_r. }
  rewrite (mapM_ext_in _ _ _ E). unfold P_Solver.pnexps. clear E. induction (seq 0 (mc_traces m)) as [|k ks IH]; cbn [mapM bind map]; auto.
  destruct (g1 <- idx ng k;; pexps b g1); cbn [bind]; auto. rewrite IH. destruct (mapM (fun k => g <- idx ng k ;; pexps b g) ks); cbn [bind]; auto.
Qed.
Lemma nrows_exps m b (ng : list (list op)) (dirs : list (list op)) rows : agrees (s_conf b) -> c_ctrl (s_conf b) <> [] -> pnrows m b ng dirs = Ok rows ->
  exists ess, pnexps m b ng = Ok ess /\ map (map last_fst) (map (map (map Some)) rows) = map (map Some) ess.
Proof.
  intros Ha Hm. unfold pnrows, P_Solver.pnexps. generalize (seq 0 (mc_traces m)) as ks. intros ks. revert rows.
  induction ks as [|k ks IH]; cbn [mapM]; intros rows H.
  - inversion H; subst. exists []. auto.
  - destruct (idx ng k) as [g|]; cbn [bind] in *; [|discriminate].
    destruct (prows b g dirs) as [r|] eqn:Er; [|discriminate].
    destruct (mapM _ ks) as [rs|] eqn:Ers; [|discriminate]. inversion H; subst.
    destruct (@rows_exps F la eps b g dirs r Ha Hm Er) as (es & E1 & E2). destruct (IH rs eq_refl) as (ess & E3 & E4).
    rewrite E1, E3. exists (es :: ess). split; auto. cbn [map]. now rewrite E2, E4.
Qed.

(** ---- values of the other caches ---- *)
Definition fwd_of (init : op) (es : list op) : res (list op) := foldM (times_last (F:=F)) (map Some es) [init].
Definition rev_of (es : list op) : res (list op) :=
  n <- first_dim (map Some es) ;; foldM (last_times (F:=F)) (rev (map Some es)) [mid (S:=S) n].
Definition grape_rows b (dirs : list (list op)) (es : list op) : res (list (list op)) :=
  mapM (fun t => mapM (grape_at b dirs (map Some es) t) (seq 0 (numc b))) (seq 0 (numt b)).
Definition fwd_val b (l : list op) : Prop := exists g es, pgens b = Ok g /\ pexps b g = Ok es /\ fwd_of (c_init (s_conf b)) es = Ok l.
Definition rev_val b (l : list op) : Prop := exists g es, pgens b = Ok g /\ pexps b g = Ok es /\ rev_of es = Ok l.
Definition grape_val b (d : list (list (option op))) : Prop :=
  exists g es dirs rows, pgens b = Ok g /\ pexps b g = Ok es /\ pdirs b = Ok dirs /\ grape_rows b dirs es = Ok rows /\ d = map (map Some) rows.
Definition der_val b d : Prop := match c_approx (s_conf b) with GGrape => grape_val b d | _ => frechet_val b d end.
Definition nprop_val m b (ps : list (list (option op))) : Prop :=
  exists ng ess, pngens m b = Ok ng /\ pnexps m b ng = Ok ess /\ ps = map (map Some) ess.
Definition nfwd_val m b (ls : list (list op)) : Prop :=
  exists ng ess, pngens m b = Ok ng /\ pnexps m b ng = Ok ess /\ mapM (fwd_of (c_init (s_conf b))) ess = Ok ls.
(** the identity each reversed product starts with is that of the first noiseless propagator *)
Definition nrev_val m b (ls : list (list op)) : Prop :=
  exists ng ess g es ident, pngens m b = Ok ng /\ pnexps m b ng = Ok ess /\ pgens b = Ok g /\ pexps b g = Ok es /\
    (p <- idx es 0 ;; op_identity_like p) = Ok ident /\
    mapM (fun es => foldM (last_times (F:=F)) (rev (map Some es)) [ident]) ess = Ok ls.
Definition nfrechet_val m b (d : list (list (list (option op)))) : Prop :=
  exists ng dirs rows, pngens m b = Ok ng /\ pdirs b = Ok dirs /\ pnrows m b ng dirs = Ok rows /\
    d = map (columns (numc b)) (map (map (map Some)) rows).
Definition ngrape_val m b (d : list (list (list (option op)))) : Prop :=
  exists ng ess dirs rows, pngens m b = Ok ng /\ pnexps m b ng = Ok ess /\ pdirs b = Ok dirs /\
    mapM (grape_rows b dirs) ess = Ok rows /\ d = map (grape_transpose (numc b)) (map (map (map Some)) rows).
Definition nder_val m b d : Prop := match c_approx (s_conf b) with GGrape => ngrape_val m b d | _ => nfrechet_val m b d end.

Record KInv U s : Prop := mkKI {
  i_l : IL U s;
  i_dyn : k_dyn_ok U s;
  i_prop : forall ps, k_prop (s_k s) = Some ps -> prop_val (bare U s) ps;
  i_fwd : forall l, k_fwd (s_k s) = Some l -> fwd_val (bare U s) l;
  i_rev : forall l, k_rev (s_k s) = Some l -> rev_val (bare U s) l;
  i_der : forall d, k_der (s_k s) = Some d -> der_val (bare U s) d }.
Record NInv m U s : Prop := mkNI {
  j_dyn : forall ng, n_dyn (s_n s) = Some ng -> pngens m (bare U s) = Ok ng;
  j_prop : forall ps, n_prop (s_n s) = Some ps -> nprop_val m (bare U s) ps;
  j_both : k_prop (s_k s) = None <-> n_prop (s_n s) = None;
  j_fwd : forall l, n_fwd (s_n s) = Some l -> nfwd_val m (bare U s) l;
  j_rev : forall l, n_rev (s_n s) = Some l -> nrev_val m (bare U s) l;
  j_der : forall d, n_der (s_n s) = Some d -> nder_val m (bare U s) d }.
Definition Inv U s : Prop := KInv U s /\ match c_class (s_conf s) with CMonteCarlo m => NInv m U s | _ => s_n s = n_none (F:=F) end.

Definition pp (flag : bool) b : res unit :=
  match c_class (s_conf b) with CMonteCarlo m => pmc m flag b | _ => pprop flag b end.

Lemma dyn_gen_noise_bare U m s s' r : c_class (s_conf s) = CMonteCarlo m -> dyn_gen_noise m s = (s', r) ->
  keeps U s s' /\ r = (ng <- pngens m (bare U s) ;; Ok tt) /\
  (forall x, r = Ok x -> exists g ng, pngens m (bare U s) = Ok ng /\ pgens (bare U s) = Ok g /\
     s_k s' = mkk (Some g) (k_prop (s_k s)) (k_fwd (s_k s)) (k_rev (s_k s)) (k_der (s_k s)) /\
     s_n s' = mkn_ (Some ng) (n_prop (s_n s)) (n_fwd (s_n s)) (n_rev (s_n s)) (n_der (s_n s)) /\ s_l s' = s_l s /\ s_udiss s' = s_udiss s).
Proof.
  intros Hc. unfold dyn_gen_noise, pngens, pgens.
  replace (schr_dyn (bare U s)) with (schr_dyn s) by reflexivity. cbn [s_conf bare]. rewrite Hc.
  destruct (schr_dyn s) as [g [e|]].
  { intros E; inversion E; subst. split; [split; auto|]. split; auto. discriminate. }
  set (s1 := set_dyn s (Some g)).
  replace (noise_array m (bare U s)) with (noise_array m s1) by reflexivity.
  destruct (noise_array m s1) as [arr|e]; cbn [bind].
  2: { intros E; inversion E; subst. split; [split; auto|]. split; auto. discriminate. }
  destruct (foldE _ _ (repeat g (mc_traces m))) as [ng e] eqn:Ef.
  intros E; inversion E; subst. split; [split; auto|].
  destruct e as [e|].
  - split; [|discriminate].
    destruct (foldM _ _ _) as [ng'|e'] eqn:Em.
    + apply foldE_None in Em. congruence.
    + cbn [bind of_exn]. f_equal. clear - Ef Em. revert Ef Em. generalize (repeat g (mc_traces m)) as a.
      induction (noise_triples _ _ _) as [|x l IH]; simpl; intros a; [discriminate|].
      destruct (add_noise arr (mc_ops m) a x); [apply IH|]. intros H1 H2. inversion H1; inversion H2; subst; auto.
  - apply foldE_None in Ef. rewrite Ef. split; auto. intros _ _. exists g, ng. repeat split; auto.
Qed.

Lemma IL_eq U s s' : s_conf s' = s_conf s -> s_l s' = s_l s -> s_udiss s' = s_udiss s -> bare U s' = bare U s -> IL U s -> IL U s'.
Proof. unfold IL. intros -> -> -> ->. auto. Qed.
Lemma IL_mc U s m : c_class (s_conf s) = CMonteCarlo m -> IL U s.
Proof. unfold IL. now intros ->. Qed.

Lemma mc_prop_bare U m s s' r calc : c_class (s_conf s) = CMonteCarlo m -> good (s_conf s) ->
  k_dyn_ok U s -> (forall ng, n_dyn (s_n s) = Some ng -> pngens m (bare U s) = Ok ng) ->
  mc_propagation la eps m calc s = (s', r) ->
  keeps U s s' /\ r = pmc m (calc_flag s calc) (bare U s) /\
  (forall x, r = Ok x -> k_dyn_ok U s' /\ (forall ng, n_dyn (s_n s') = Some ng -> pngens m (bare U s) = Ok ng) /\
     k_fwd (s_k s') = k_fwd (s_k s) /\ k_rev (s_k s') = k_rev (s_k s) /\ n_fwd (s_n s') = n_fwd (s_n s) /\ n_rev (s_n s') = n_rev (s_n s) /\
     (exists ps, k_prop (s_k s') = Some ps /\ prop_val (bare U s) ps) /\
     (exists ps, n_prop (s_n s') = Some ps /\ nprop_val m (bare U s) ps) /\
     (if calc_flag s calc then exists d d', k_der (s_k s') = Some d /\ frechet_val (bare U s) d /\ n_der (s_n s') = Some d' /\ nfrechet_val m (bare U s) d'
      else k_der (s_k s') = k_der (s_k s) /\ n_der (s_n s') = n_der (s_n s))).
Proof.
  intros Hc G Kd Nd. unfold mc_propagation, pmc.
  assert (Hdyn : exists s1 r1, (match n_dyn (s_n s) with Some _ => (s, Ok tt) | None => dyn_gen_noise m s end) = (s1, r1) /\
     keeps U s s1 /\ r1 = (ng <- pngens m (bare U s) ;; Ok tt) /\
     (forall x, r1 = Ok x -> k_dyn_ok U s1 /\ exists ng, pngens m (bare U s) = Ok ng /\ k_fwd (s_k s1) = k_fwd (s_k s) /\ k_rev (s_k s1) = k_rev (s_k s) /\ k_der (s_k s1) = k_der (s_k s) /\
        s_n s1 = mkn_ (Some ng) (n_prop (s_n s)) (n_fwd (s_n s)) (n_rev (s_n s)) (n_der (s_n s)))).
  { destruct (n_dyn (s_n s)) as [ng|] eqn:Eg.
    - exists s, (Ok tt). split; auto. split; [apply keeps_refl|]. rewrite (Nd ng eq_refl). split; auto. intros _ _. split; auto.
      exists ng. repeat split; auto. destruct (s_n s); cbn in *; subst; auto.
    - destruct (dyn_gen_noise m s) as [s1 r1] eqn:Ec. exists s1, r1. split; auto.
      destruct (@dyn_gen_noise_bare U m s s1 r1 Hc Ec) as (K & R & H). split; auto. split; auto. intros x Hx.
      destruct (H x Hx) as (g & ng & P1 & P2 & P3 & P4 & _). split.
      + intros g' Hg'. rewrite P3 in Hg'. cbn in Hg'. inversion Hg'; subst. destruct K as [_ K]. now rewrite K.
      + exists ng. rewrite P3, P4. cbn. auto. }
  destruct Hdyn as (s1 & r1 & E1 & K1 & R1 & H1). rewrite E1. clear E1.
  destruct r1 as [x1|e1].
  2: { intros E; inversion E; subst. split; auto. destruct (pngens m (bare U s)); cbn [bind] in *; [discriminate|].
       split; [congruence|discriminate]. }
  destruct (H1 x1 eq_refl) as (Kd1 & ng & Hng & Ef1 & Er1 & Ed1 & En1). clear H1.
  rewrite Hng. cbn [bind]. rewrite En1. cbn [n_dyn]. cbn zeta.
  set (s2 := nset_prop s1 _). set (s3 := if calc_flag s calc then _ else _).
  assert (K3 : keeps U s s3) by (eapply keeps_trans; [exact K1|]; unfold s3; destruct (calc_flag s calc); split; auto).
  assert (S3 : s_k s3 = s_k s1 /\ n_dyn (s_n s3) = Some ng /\ n_fwd (s_n s3) = n_fwd (s_n s) /\ n_rev (s_n s3) = n_rev (s_n s) /\
               (calc_flag s calc = false -> n_der (s_n s3) = n_der (s_n s))).
  { unfold s3. destruct (calc_flag s calc); cbn; rewrite En1; cbn; repeat split; auto; discriminate. }
  destruct S3 as (S3k & S3d & S3f & S3r & S3e).
  destruct (conf_keeps K3) as (C3 & T3 & A3 & _).
  assert (Kd3 : k_dyn_ok U s3).
  { intros g Hg. rewrite S3k in Hg. destruct K3 as [_ K3]. rewrite K3. destruct K1 as [_ K1]. rewrite <- K1. apply Kd1. exact Hg. }
  destruct (schr_propagation la eps (Some (calc_flag s calc)) s3) as [s4 r4] eqn:E4.
  assert (HS : exists h1 : derivs_ok (s_conf s3), exists h2 : agrees (s_conf s3), c_ctrl (s_conf s3) <> [] /\ IL U s3).
  { rewrite C3. exists (g_derivs G), (g_agrees G). split; [apply (g_ctrl G)|]. apply IL_mc with m. now rewrite C3. }
  destruct HS as (D3 & Ha3 & Hm3 & I3).
  destruct (@schr_prop_bare F la eps U s3 s4 r4 _ D3 Ha3 Hm3 I3 Kd3 E4) as (K4 & R4 & H4).
  assert (B3 : bare U s3 = bare U s) by (destruct K3; auto). rewrite B3 in *.
  cbn [calc_flag] in R4, H4.
  assert (K4' : keeps U s s4) by (eapply keeps_trans; eauto).
  destruct r4 as [x4|e4].
  2: { intros E; inversion E; subst. split; auto. rewrite <- R4. split; [reflexivity|discriminate]. }
  rewrite <- R4. cbn [bind].
  destruct (H4 x4 eq_refl) as (_ & Kd4 & N4 & F4 & V4 & (ps & P4 & PV) & D4). clear H4.
  destruct (conf_keeps K4') as (C4 & T4 & A4 & _).
  assert (Tm : forall d : list nat, True) by auto. clear Tm.
  destruct (conf_keeps K1) as (C1 & T1 & A1 & _).
  assert (L : length ng = mc_traces m) by (destruct (pngens_lengths m _ Hng) as (?&?&?&?); auto).
  assert (X4 : forall g t, exp_at la s4 g t = exp_at la (bare U s) g t).
  { intros. unfold exp_at. cbn [s_time s_conf bare]. now rewrite C4, T4. }
  assert (Y4 : forall g ds t c, dexp_at la eps s4 g ds t c = dexp_at la eps (bare U s) g ds t c).
  { intros. unfold dexp_at. cbn [s_time s_conf bare]. now rewrite C4, T4. }
  assert (Dirs : snd (directions s4) = pdirs (bare U s)).
  { destruct (directions s4) as [s5 r5] eqn:E5. cbn [snd].
    assert (D4' : derivs_ok (s_conf s4)) by (rewrite C4; apply (g_derivs G)).
    assert (I4 : IL U s4) by (apply IL_mc with m; now rewrite C4).
    destruct (@directions_bare F U s4 s5 r5 D4' I4 E5) as (_ & R5 & _). destruct K4' as [_ K4']. now rewrite K4' in R5. }
  destruct (mc_procs m) eqn:Ep.
  - destruct (calc_flag s calc) eqn:Ec.
    + rewrite Dirs.
      pose proof (fill3_mapM (fun k t c => g <- idx ng k;; ds <- pdirs (bare U s);; dexp_at la eps s4 g ds t c) 0 (mc_traces m) (length (s_time s1)) (length (c_ctrl (s_conf s1)))) as HF.
      pose proof (fill3_exn (fun k t c => g <- idx ng k;; ds <- pdirs (bare U s);; dexp_at la eps s4 g ds t c) 0 (mc_traces m) (length (s_time s1)) (length (c_ctrl (s_conf s1)))) as HX.
      rewrite C1, T1 in HF, HX. rewrite C1, T1.
      change (length (s_time s)) with (numt (bare U s)) in *. change (length (c_ctrl (s_conf s))) with (numc (bare U s)) in *.
      (* the directions must have been computable *)
      destruct D4 as (d4 & Ed4 & (g & dirs & rows & G1 & G2 & G3 & G4)). rewrite G2 in *. cbn [bind] in *.
      assert (ER : mapM (fun k => mapM (fun t => mapM (fun c => g <- idx ng k;; dexp_at la eps s4 g dirs t c) (seq 0 (numc (bare U s)))) (seq 0 (numt (bare U s)))) (seq 0 (mc_traces m))
         = pnrows m (bare U s) ng dirs).
      { rewrite <- rows_all by auto. apply mapM_ext_in; intros k _; apply mapM_ext_in; intros t _; apply mapM_ext_in; intros c _.
        destruct (idx ng k); cbn [bind]; auto. }
      cbn [bind] in HF, HX. rewrite ER in HF, HX.
      destruct (fill3 _ 0 _ _ _) as [rws e]. cbn [snd] in HX. intros E; inversion E; subst s' r. clear E.
      assert (K5 : keeps U s (nset_der (nset_prop s4 (Some (map (map last_fst) rws))) (Some (map (columns (numc (bare U s))) rws)))).
      { eapply keeps_trans; [exact K4'|split; auto]. }
      split; [exact K5|]. split; [exact HX|]. intros x Hx. rewrite HX in Hx.
      destruct (pnrows m (bare U s) ng dirs) as [vs|] eqn:Ev; cbn [bind] in Hx; [|discriminate].
      inversion HF; subst rws e.
      assert (Hab : agrees (s_conf (bare U s))) by apply (g_agrees G).
      assert (Hmb : c_ctrl (s_conf (bare U s)) <> []) by apply (g_ctrl G).
      destruct (@nrows_exps m (bare U s) ng dirs vs Hab Hmb Ev) as (ess & Ee & Em).
      split. { intros g' Hg'. destruct K5 as [_ K5]. rewrite K5. destruct K4 as [_ K4]. rewrite B3 in K4. rewrite <- K4. apply Kd4. exact Hg'. }
      cbn [nset_der nset_prop set_n s_k s_n n_dyn n_fwd n_rev n_prop n_der].
      rewrite N4, F4, V4, S3k. repeat split; auto.
      * intros ng' E'. rewrite S3d in E'. congruence.
      * exists ps. auto.
      * eexists. split; [reflexivity|]. exists ng, ess. auto.
      * exists d4. eexists. split; [exact Ed4|]. split. { exists g, dirs, rows. auto. } split; [reflexivity|].
        exists ng, dirs, vs. auto.
    + pose proof (fill2_mapM (fun k t => g <- idx ng k;; exp_at la s4 g t) 0 (mc_traces m) (length (s_time s1))) as HF.
      pose proof (fill2_exn (fun k t => g <- idx ng k;; exp_at la s4 g t) 0 (mc_traces m) (length (s_time s1))) as HX.
      rewrite T1 in HF, HX. rewrite T1. change (length (s_time s)) with (numt (bare U s)) in *.
      assert (ER : mapM (fun k => mapM (fun t => g <- idx ng k;; exp_at la s4 g t) (seq 0 (numt (bare U s)))) (seq 0 (mc_traces m))
         = pnexps m (bare U s) ng).
      { rewrite <- exps_all by auto. apply mapM_ext_in; intros k _; apply mapM_ext_in; intros t _.
        destruct (idx ng k); cbn [bind]; auto. }
      rewrite ER in HF, HX.
      destruct (fill2 _ 0 _ _) as [rws e]. cbn [snd] in HX. intros E; inversion E; subst s' r. clear E.
      assert (K5 : keeps U s (nset_prop s4 (Some rws))) by (eapply keeps_trans; [exact K4'|split; auto]).
      split; [exact K5|]. split; [exact HX|]. intros x Hx. rewrite HX in Hx.
      destruct (pnexps m (bare U s) ng) as [ess|] eqn:Ev; cbn [bind] in Hx; [|discriminate].
      inversion HF; subst rws e.
      split. { intros g' Hg'. destruct K5 as [_ K5]. rewrite K5. destruct K4 as [_ K4]. rewrite B3 in K4. rewrite <- K4. apply Kd4. exact Hg'. }
      cbn [nset_der nset_prop set_n s_k s_n n_dyn n_fwd n_rev n_prop n_der].
      rewrite N4, F4, V4, D4, S3k. repeat split; auto.
      * intros ng' E'. rewrite S3d in E'. congruence.
      * exists ps. auto.
      * eexists. split; [reflexivity|]. exists ng, ess. auto.
  - destruct (calc_flag s calc) eqn:Ec.
    { intros E; inversion E; subst. split; auto. split; [reflexivity|discriminate]. }
    assert (HN : exists g0, schr_dyn (bare U s) = (g0, None) /\ numt (bare U s) <= length g0).
    { destruct PV as (g & es & P1 & P2 & _). unfold pgens in P1. destruct (schr_dyn (bare U s)) as [g0 [e|]]; [discriminate|].
      cbn [s_conf bare] in P1. rewrite Hc in P1. inversion P1; subst. exists g. split; auto. now apply pexps_len in P2. }
    destruct HN as (g0 & Hg0 & Hn0).
    assert (EP : mapM (fun k => g <- idx ng k;; matrix_exponentials la s4 g) (seq 0 (mc_traces m)) =
                 ess <- pnexps m (bare U s) ng ;; Ok (map (map Some) ess)).
    { rewrite <- (pool_all m (bare U s) Hng Hg0 Hn0). apply mapM_ext_in. intros k _. destruct (idx ng k) as [g|]; cbn [bind]; auto.
      unfold matrix_exponentials. rewrite T4. cbn [s_time bare].
      rewrite (mapM_ext_in _ (fun i => exp_at la (bare U s) g i)); auto. }
    rewrite EP. destruct (pnexps m (bare U s) ng) as [ess|e] eqn:Ev; cbn [bind].
    2: { intros E; inversion E; subst. split; auto. split; [reflexivity|discriminate]. }
    intros E; inversion E; subst s' r. clear E.
    assert (K5 : keeps U s (nset_prop s4 (Some (map (map Some) ess)))) by (eapply keeps_trans; [exact K4'|split; auto]).
    split; [exact K5|]. split; [reflexivity|]. intros x Hx.
    split. { intros g' Hg'. destruct K5 as [_ K5]. rewrite K5. destruct K4 as [_ K4]. rewrite B3 in K4. rewrite <- K4. apply Kd4. exact Hg'. }
    cbn [nset_der nset_prop set_n s_k s_n n_dyn n_fwd n_rev n_prop n_der].
    rewrite N4, F4, V4, D4, S3k. repeat split; auto.
    + intros ng' E'. rewrite S3d in E'. congruence.
    + exists ps. auto.
    + eexists. split; [reflexivity|]. exists ng, ess. auto.
  - intros E; inversion E; subst. split; auto. split; [reflexivity|discriminate].
Qed.
End Coherent2.
