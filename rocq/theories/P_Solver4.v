(** Forward, reversed and derivative caches; every read agrees with that of a fresh solver. *)
Require Import List Arith Lia Bool.
From Verif Require Import LibBase LibRing LibArr LibCplx LibMat M_Matrix M_OpHeap M_Transfer M_Amplitude M_Solver S_Solver P_Loops P_Solver P_Solver2 P_Solver3.
Import ListNotations.
Open Scope res_scope.
Set Implicit Arguments.

Section Coherent4.
Variable F : OField.
Variable rexp : F -> F.
Variable la : LinAlg F.
Variable eps : cplx F.
Notation C := (cplx F).
Notation S := (CStar F).
Notation arrF := (arr (kcar F)).
Notation op := (op F).
Notation st := (@st F).
Implicit Types (s b f : st) (U : option (list op)) (m : @mcconf F).

Notation pexps := (pexps la).
Notation prows := (prows la eps).
Notation pnexps := (pnexps la).
Notation pnrows := (pnrows la eps).
Notation prop_val := (prop_val la).
Notation propagation := (propagation la eps).
Notation need_prop := (need_prop la eps).
Notation need_nprop := (need_nprop la eps).
Notation Inv := (Inv la eps).
Notation good := (good la eps).
Notation pp := (pp la eps).
Notation fwd_val := (fwd_val la).
Notation rev_val := (rev_val la).
Notation der_val := (der_val la eps).
Notation nprop_val := (nprop_val la).
Notation nfwd_val := (nfwd_val la).
Notation nrev_val := (nrev_val la).
Notation nder_val := (nder_val la eps).
Notation pflag b := (c_calc (s_conf b)).

(** the propagators are cached, or computing them works *)
Definition avail U s : Prop := k_prop (s_k s) <> None \/ pp (flag0 s) (bare U s) = Ok tt.

Lemma fwd_of_Ok U s ps l : prop_val (bare U s) ps -> (foldM (times_last (F:=F)) ps [c_init (s_conf s)] = Ok l <-> fwd_val (bare U s) l /\ True).
Proof.
  intros (g & es & A1 & A2 & A3). subst ps. split.
  - intros H. split; auto. exists g, es. auto.
  - intros [(g' & es' & B1 & B2 & B3) _]. assert (g' = g) by congruence. subst g'. assert (es' = es) by congruence. subst. exact B3.
Qed.

Lemma base_forward_step U s s' r : good (s_conf s) -> Inv U s -> base_forward la eps s = (s', r) ->
  keeps U s s' /\
  (forall x, r = Ok x -> Inv U s' /\ k_prop (s_k s') <> None /\ exists l, k_fwd (s_k s') = Some l /\ fwd_val (bare U s) l) /\
  (avail U s -> (exists l, fwd_val (bare U s) l) -> exists x, r = Ok x) /\
  (forall x, k_prop (s_k s) = None -> r = Ok x -> pp (flag0 s) (bare U s) = Ok tt).
Proof.
  intros G I E. unfold base_forward in E. destruct (need_prop s) as [s1 r1] eqn:E1.
  destruct (@need_step F la eps U s s1 r1 G I E1) as (K1 & H1 & A1 & B1). destruct r1 as [ps|e].
  2: { inversion E; subst. split; auto. split; [discriminate|]. split; [|discriminate]. intros Av _. destruct (A1 Av); discriminate. }
  destruct (H1 ps eq_refl) as (I1 & P1 & V1 & _). destruct (conf_keeps K1) as (C1 & _).
  unfold op_copy in E. rewrite C1 in E.
  pose proof (@foldE_exn _ _ (times_last (F:=F)) ps [c_init (s_conf s)]) as HX.
  destruct (foldE (times_last (F:=F)) ps [c_init (s_conf s)]) as [l e] eqn:Ef. cbn [snd] in HX.
  inversion E; subst s' r. clear E.
  split. { eapply keeps_trans; [exact K1|split; auto]. }
  split.
  - intros x Hx. destruct e as [e|]; [discriminate|]. apply foldE_None in Ef.
    assert (V : fwd_val (bare U s) l) by (apply (fwd_of_Ok l V1); exact Ef).
    split. { apply Inv_set_fwd; auto. destruct K1 as [_ K1]. now rewrite K1. }
    cbn. rewrite P1. split; [discriminate|]. eauto.
  - split.
    + intros _ [l' V]. rewrite HX. assert (Ef' : foldM (times_last (F:=F)) ps [c_init (s_conf s)] = Ok l') by (apply (fwd_of_Ok l' V1); auto).
      rewrite Ef'. eexists. reflexivity.
    + intros x Hn _. eapply B1; eauto.
Qed.

Definition mc_val (P : @mcconf F -> Prop) (c : @sconf F) : Prop := match c_class c with CMonteCarlo m => P m | _ => True end.

Lemma pnexps_length m b ng ess : pnexps m b ng = Ok ess -> length ess = mc_traces m.
Proof. intros H. apply mapM_length in H. now rewrite H, seq_length. Qed.

Lemma forward_step U s s' r : good (s_conf s) -> Inv U s -> compute_forward la eps s = (s', r) ->
  keeps U s s' /\
  (forall x, r = Ok x -> Inv U s' /\ (exists l, k_fwd (s_k s') = Some l /\ fwd_val (bare U s) l) /\
     mc_val (fun m => exists l, n_fwd (s_n s') = Some l /\ nfwd_val m (bare U s) l) (s_conf s)) /\
  (avail U s -> (exists l, fwd_val (bare U s) l) -> mc_val (fun m => exists l, nfwd_val m (bare U s) l) (s_conf s) -> exists x, r = Ok x) /\
  (forall x, k_prop (s_k s) = None -> r = Ok x -> pp (flag0 s) (bare U s) = Ok tt).
Proof.
  intros G I E. unfold compute_forward in E. unfold mc_val.
  assert (HB : base_forward la eps s = (s', r) -> (forall m, c_class (s_conf s) <> CMonteCarlo m) -> keeps U s s' /\
    (forall x, r = Ok x -> Inv U s' /\ (exists l, k_fwd (s_k s') = Some l /\ fwd_val (bare U s) l) /\ True) /\
    (avail U s -> (exists l, fwd_val (bare U s) l) -> True -> exists x, r = Ok x) /\
    (forall x, k_prop (s_k s) = None -> r = Ok x -> pp (flag0 s) (bare U s) = Ok tt)).
  { intros E' _. destruct (@base_forward_step U s s' r G I E') as (K & H & A & B). split; auto. split; [|split; auto].
    intros x Hx. destruct (H x Hx) as (?&?&?). auto. }
  destruct (c_class (s_conf s)) as [|m|l] eqn:Hc; try (apply HB; auto; congruence).
  clear HB. destruct (base_forward la eps s) as [s1 r1] eqn:E1.
  destruct (@base_forward_step U s s1 r1 G I E1) as (K1 & H1 & A1 & B1).
  destruct (conf_keeps K1) as (C1 & _).
  destruct r1 as [x1|e].
  2: { inversion E; subst. split; auto. split; [discriminate|]. split; [|discriminate]. intros Av Hl _. destruct (A1 Av Hl); discriminate. }
  destruct (H1 x1 eq_refl) as (I1 & P1 & l1 & Ef1 & V1). clear H1.
  assert (Bs : bare U s1 = bare U s) by (destruct K1; auto).
  destruct (need_nprop s1) as [s2 r2] eqn:E2.
  assert (Hc1 : c_class (s_conf s1) = CMonteCarlo m) by now rewrite C1.
  assert (G1 : good (s_conf s1)) by now rewrite C1.
  assert (Np1 : n_prop (s_n s1) <> None).
  { destruct I1 as [_ J1]. rewrite Hc1 in J1. intros X. apply (j_both J1) in X. contradiction. }
  destruct (@nneed_step F la eps U m s1 s2 r2 Hc1 G1 I1 E2) as (K2 & H2 & A2 & _).
  destruct (A2 (or_introl Np1)) as [nps ->]. destruct (H2 nps eq_refl) as (I2 & P2 & V2 & F2 & R2 & _). clear H2 A2.
  rewrite Bs in V2. destruct V2 as (ng & ess & Vg & Ve & ->).
  destruct (conf_keeps K2) as (C2 & _). unfold op_copy in E. rewrite C2, C1 in E.
  rewrite map_length, (pnexps_length m _ _ Ve), Nat.min_id, Nat.sub_diag in E. cbn [repeat] in E.
  rewrite firstn_all2 in E by (rewrite map_length, (pnexps_length m _ _ Ve); auto).
  pose proof (fwd_traces_mapM (c_init (s_conf s)) ess) as HT.
  assert (Ks : keeps U s s2) by (eapply keeps_trans; eauto).
  destruct (mapM (fwd_of (c_init (s_conf s))) ess) as [ls|e] eqn:Em.
  - rewrite HT in E. rewrite app_nil_r in E. inversion E; subst s' r. clear E.
    assert (VN : nfwd_val m (bare U s) ls) by (exists ng, ess; auto).
    split. { eapply keeps_trans; [exact Ks|split; auto]. }
    split.
    + intros x _. split. { apply Inv_nset_fwd with m; auto. { now rewrite C2, C1. } destruct Ks as [_ Ks]. now rewrite Ks. }
      cbn [nset_fwd set_n s_k s_n n_fwd]. rewrite F2. split; eauto.
    + split; [intros; eexists; reflexivity|]. intros x Hn _. eapply B1; eauto.
  - destruct HT as [ls HT]. rewrite HT in E. inversion E; subst s' r. clear E.
    split. { eapply keeps_trans; [exact Ks|split; auto]. }
    split; [discriminate|]. split; [|discriminate].
    intros _ _ (ls' & ng' & ess' & W1 & W2 & W3). exfalso.
    assert (ng' = ng) by congruence. subst ng'. assert (ess' = ess) by congruence. subst ess'. cbn [s_conf bare] in W3. congruence.
Qed.

(** ---- reversed ---- *)
Lemma base_reversed_step U s s' r : good (s_conf s) -> Inv U s -> base_reversed la eps s = (s', r) ->
  keeps U s s' /\
  (forall x, r = Ok x -> Inv U s' /\ k_prop (s_k s') <> None /\ exists l, k_rev (s_k s') = Some l /\ rev_val (bare U s) l) /\
  (avail U s -> (exists l, rev_val (bare U s) l) -> exists x, r = Ok x) /\
  (forall x, k_prop (s_k s) = None -> r = Ok x -> pp (flag0 s) (bare U s) = Ok tt).
Proof.
  intros G I E. unfold base_reversed in E. destruct (need_prop s) as [s1 r1] eqn:E1.
  destruct (@need_step F la eps U s s1 r1 G I E1) as (K1 & H1 & A1 & B1). destruct r1 as [ps|e].
  2: { inversion E; subst. split; auto. split; [discriminate|]. split; [|discriminate]. intros Av _. destruct (A1 Av); discriminate. }
  destruct (H1 ps eq_refl) as (I1 & P1 & (g & es & W1 & W2 & ->) & _). destruct (conf_keeps K1) as (C1 & _).
  assert (HR : forall l, rev_val (bare U s) l <-> rev_of es = Ok l).
  { intros l. split; [|intros H; exists g, es; auto]. intros (g' & es' & X1 & X2 & X3).
    assert (g' = g) by congruence. subst g'. assert (es' = es) by congruence. now subst es'. }
  unfold rev_of in HR.
  destruct (first_dim (map Some es)) as [n|e]; cbn [bind] in HR.
  2: { inversion E; subst. split; auto. split; [discriminate|]. split; [|discriminate]. intros _ [l V]. apply HR in V. discriminate. }
  pose proof (@foldE_exn _ _ (last_times (F:=F)) (rev (map Some es)) [mid (S:=S) n]) as HX.
  destruct (foldE (last_times (F:=F)) (rev (map Some es)) [mid (S:=S) n]) as [l e] eqn:Ef. cbn [snd] in HX.
  inversion E; subst s' r. clear E.
  split. { eapply keeps_trans; [exact K1|split; auto]. }
  split.
  - intros x Hx. destruct e as [e|]; [discriminate|]. apply foldE_None in Ef.
    assert (V : rev_val (bare U s) l) by (apply HR; exact Ef).
    split. { apply Inv_set_rev; auto. destruct K1 as [_ K1]. now rewrite K1. }
    cbn. rewrite P1. split; [discriminate|]. eauto.
  - split.
    + intros _ [l' V]. rewrite HX. apply HR in V. rewrite V. eexists. reflexivity.
    + intros x Hn _. eapply B1; eauto.
Qed.

Lemma reversed_step U s s' r : good (s_conf s) -> Inv U s -> compute_reversed la eps s = (s', r) ->
  keeps U s s' /\
  (forall x, r = Ok x -> Inv U s' /\ (exists l, k_rev (s_k s') = Some l /\ rev_val (bare U s) l) /\
     mc_val (fun m => exists l, n_rev (s_n s') = Some l /\ nrev_val m (bare U s) l) (s_conf s)) /\
  (avail U s -> (exists l, rev_val (bare U s) l) -> mc_val (fun m => exists l, nrev_val m (bare U s) l) (s_conf s) -> exists x, r = Ok x) /\
  (forall x, k_prop (s_k s) = None -> r = Ok x -> pp (flag0 s) (bare U s) = Ok tt).
Proof.
  intros G I E. unfold compute_reversed in E. unfold mc_val.
  assert (HB : base_reversed la eps s = (s', r) -> (forall m, c_class (s_conf s) <> CMonteCarlo m) -> keeps U s s' /\
    (forall x, r = Ok x -> Inv U s' /\ (exists l, k_rev (s_k s') = Some l /\ rev_val (bare U s) l) /\ True) /\
    (avail U s -> (exists l, rev_val (bare U s) l) -> True -> exists x, r = Ok x) /\
    (forall x, k_prop (s_k s) = None -> r = Ok x -> pp (flag0 s) (bare U s) = Ok tt)).
  { intros E' _. destruct (@base_reversed_step U s s' r G I E') as (K & H & A & B). split; auto. split; [|split; auto].
    intros x Hx. destruct (H x Hx) as (?&?&?). auto. }
  destruct (c_class (s_conf s)) as [|m|l] eqn:Hc; try (apply HB; auto; congruence).
  clear HB. destruct (base_reversed la eps s) as [s1 r1] eqn:E1.
  destruct (@base_reversed_step U s s1 r1 G I E1) as (K1 & H1 & A1 & B1).
  destruct (conf_keeps K1) as (C1 & _).
  destruct r1 as [x1|e].
  2: { inversion E; subst. split; auto. split; [discriminate|]. split; [|discriminate]. intros Av Hl _. destruct (A1 Av Hl); discriminate. }
  destruct (H1 x1 eq_refl) as (I1 & P1 & l1 & Ef1 & V1). clear H1.
  assert (Bs : bare U s1 = bare U s) by (destruct K1; auto).
  destruct (need_nprop s1) as [s2 r2] eqn:E2.
  assert (Hc1 : c_class (s_conf s1) = CMonteCarlo m) by now rewrite C1.
  assert (G1 : good (s_conf s1)) by now rewrite C1.
  assert (Np1 : n_prop (s_n s1) <> None).
  { destruct I1 as [_ J1]. rewrite Hc1 in J1. intros X. apply (j_both J1) in X. contradiction. }
  destruct (@nneed_step F la eps U m s1 s2 r2 Hc1 G1 I1 E2) as (K2 & H2 & A2 & _).
  destruct (A2 (or_introl Np1)) as [nps ->]. destruct (H2 nps eq_refl) as (I2 & P2 & V2 & F2 & R2 & _). clear H2 A2.
  rewrite Bs in V2. destruct V2 as (ng & ess & Vg & Ve & ->).
  assert (Ks : keeps U s s2) by (eapply keeps_trans; eauto).
  destruct (conf_keeps K2) as (C2 & _).
  (* the noiseless propagators in s2 *)
  assert (Pk : exists ps, k_prop (s_k s2) = Some ps /\ prop_val (bare U s) ps).
  { destruct I2 as [I2 J2]. rewrite C2, Hc1 in J2. destruct (k_prop (s_k s2)) as [ps|] eqn:Ep.
    - exists ps. split; auto. destruct Ks as [_ Ks]. rewrite <- Ks. now apply (i_prop I2).
    - apply (j_both J2) in Ep. congruence. }
  destruct Pk as (ps & Ep & (g & es & X1 & X2 & ->)). rewrite Ep in E.
  assert (EI : (p <- idx (map Some es) 0;; match p with Some P => op_identity_like P | None => Err AttributeError end) = (p <- idx es 0 ;; op_identity_like p)).
  { unfold idx. rewrite nth_error_map. destruct (nth_error es 0); reflexivity. }
  rewrite EI in E.
  destruct (p <- idx es 0 ;; op_identity_like p) as [ident|e] eqn:Ei.
  2: { inversion E; subst. split; auto. split; [discriminate|]. split; [|discriminate].
       intros _ _ (ls & ng' & ess' & g' & es' & id' & Y1 & Y2 & Y3 & Y4 & Y5 & Y6). exfalso.
       assert (g' = g) by congruence. subst g'. assert (es' = es) by congruence. subst es'. congruence. }
  rewrite map_length, (pnexps_length m _ _ Ve), Nat.min_id, Nat.sub_diag in E. cbn [repeat] in E.
  rewrite firstn_all2 in E by (rewrite map_length, (pnexps_length m _ _ Ve); auto).
  pose proof (rev_traces_mapM ident ess) as HT.
  destruct (mapM _ ess) as [ls|e] eqn:Em.
  - rewrite HT in E. rewrite app_nil_r in E. inversion E; subst s' r. clear E.
    assert (VN : nrev_val m (bare U s) ls) by (exists ng, ess, g, es, ident; auto 10).
    split. { eapply keeps_trans; [exact Ks|split; auto]. }
    split.
    + intros x _. split. { apply Inv_nset_rev with m; auto. { now rewrite C2, C1. } destruct Ks as [_ Ks]. now rewrite Ks. }
      cbn [nset_rev set_n s_k s_n n_rev]. rewrite R2. split; eauto.
    + split; [intros; eexists; reflexivity|]. intros x Hn _. eapply B1; eauto.
  - destruct HT as [ls HT]. rewrite HT in E. inversion E; subst s' r. clear E.
    split. { eapply keeps_trans; [exact Ks|split; auto]. }
    split; [discriminate|]. split; [|discriminate].
    intros _ _ (ls' & ng' & ess' & g' & es' & id' & Y1 & Y2 & Y3 & Y4 & Y5 & Y6). exfalso.
    assert (ng' = ng) by congruence. subst ng'. assert (ess' = ess) by congruence. subst ess'.
    assert (g' = g) by congruence. subst g'. assert (es' = es) by congruence. subst es'.
    assert (id' = ident) by congruence. subst id'. congruence.
Qed.

(** ---- derivatives ---- *)
Lemma grape_at_bare U s s' dirs ps t c : keeps U s s' -> grape_at s' dirs ps t c = grape_at (bare U s) dirs ps t c.
Proof. intros K. destruct (conf_keeps K) as (_ & T & _). unfold grape_at. cbn [s_time bare]. now rewrite T. Qed.

Lemma schr_der_grape U s s' r : c_approx (s_conf s) = GGrape -> good (s_conf s) -> Inv U s -> schr_derivatives la eps s = (s', r) ->
  keeps U s s' /\
  (forall x, r = Ok x -> Inv U s' /\ k_prop (s_k s') <> None /\ exists d, k_der (s_k s') = Some d /\ der_val (bare U s) d) /\
  (avail U s -> (exists d, der_val (bare U s) d) -> exists x, r = Ok x) /\
  (forall x, k_prop (s_k s) = None -> r = Ok x -> pp (flag0 s) (bare U s) = Ok tt).
Proof.
  intros Ha G I E. unfold schr_derivatives in E. rewrite Ha in E.
  assert (Fl : flag0 s = false) by (apply (g_grape G); auto).
  assert (HP : exists s1 r1, (match k_prop (s_k s) with Some _ => (s, Ok tt) | None => propagation (Some false) s end) = (s1, r1) /\
     keeps U s s1 /\ (forall x, r1 = Ok x -> Inv U s1 /\ k_prop (s_k s1) <> None) /\ (avail U s -> exists x, r1 = Ok x) /\
     (forall x, k_prop (s_k s) = None -> r1 = Ok x -> pp (flag0 s) (bare U s) = Ok tt)).
  { destruct (k_prop (s_k s)) as [ps|] eqn:Ep.
    - exists s, (Ok tt). split; auto. split; [apply keeps_refl|]. rewrite Ep. split; [intros; split; auto; discriminate|]. split; [eauto|discriminate].
    - destruct (propagation (Some false) s) as [s1 r1] eqn:E1. exists s1, r1. split; auto.
      destruct (@prop_step F la eps U s s1 r1 (Some false) G (fun _ => eq_refl) I E1) as (K & R & H). cbn [calc_flag] in R.
      split; auto. split. { intros x Hx. destruct (H x Hx) as (? & ? & _). auto. }
      rewrite Fl. split. { intros [X|X]; [congruence|]. rewrite Fl in X. rewrite X in R. eauto. }
      intros x _ Hx. destruct x. congruence. }
  destruct HP as (s1 & r1 & E1 & K1 & H1 & A1 & B1). rewrite E1 in E.
  destruct r1 as [x1|e].
  2: { inversion E; subst. split; auto. split; [discriminate|]. split; [|discriminate]. intros Av _. destruct (A1 Av); discriminate. }
  destruct (H1 x1 eq_refl) as (I1 & P1). destruct (conf_keeps K1) as (C1 & T1 & _).
  assert (Bs : bare U s1 = bare U s) by (destruct K1; auto).
  destruct (k_prop (s_k s1)) as [ps|] eqn:Ep1; [|congruence].
  assert (V1 : prop_val (bare U s) ps) by (rewrite <- Bs; destruct I1 as [I1 _]; now apply (i_prop I1)).
  destruct V1 as (g & es & W1 & W2 & ->).
  set (s2 := set_der s1 _) in E.
  destruct (directions s2) as [s3 r3] eqn:E3.
  assert (D2 : derivs_ok (s_conf s2)) by (change (s_conf s2) with (s_conf s1); rewrite C1; apply (g_derivs G)).
  assert (I2 : IL U s2) by (destruct I1 as [I1 _]; exact (i_l I1)).
  destruct (@directions_bare F U s2 s3 r3 D2 I2 E3) as (K3 & R3 & Ek3 & N3 & I3).
  assert (B2 : bare U s2 = bare U s) by exact Bs. rewrite B2 in R3.
  assert (K3' : keeps U s s3). { eapply keeps_trans; [exact K1|]. eapply keeps_trans; [|exact K3]. split; auto. }
  destruct (conf_keeps K3') as (C3 & T3 & _).
  assert (HD : forall d, der_val (bare U s) d <-> exists dirs rows, pdirs (bare U s) = Ok dirs /\ grape_rows (bare U s) dirs es = Ok rows /\ d = map (map Some) rows).
  { intros d. unfold P_Solver2.der_val. cbn [s_conf bare]. rewrite Ha. split.
    - intros (g' & es' & dirs & rows & X1 & X2 & X3 & X4 & X5).
      assert (g' = g) by congruence. subst g'. assert (es' = es) by congruence. subst es'. eauto.
    - intros (dirs & rows & X3 & X4 & X5). exists g, es, dirs, rows. auto. }
  destruct r3 as [dirs|e].
  2: { inversion E; subst. split; auto. split; [discriminate|]. split; [|discriminate]. intros _ [d V]. apply HD in V.
       destruct V as (ds & rs & X & _). congruence. }
  assert (Ep3 : k_prop (s_k s3) = Some (map Some es)) by (rewrite Ek3; exact Ep1).
  rewrite Ep3 in E.
  assert (ER : mapM (fun t => mapM (grape_at s3 dirs (map Some es) t) (seq 0 (length (c_ctrl (s_conf s1))))) (seq 0 (length (s_time s1))) = grape_rows (bare U s) dirs es).
  { unfold grape_rows, numc, numt. cbn [s_conf s_time bare]. rewrite C1, T1. apply mapM_ext_in; intros t _; apply mapM_ext_in; intros c _.
    now apply grape_at_bare. }
  pose proof (fill2_mapM (grape_at s3 dirs (map Some es)) 0 (length (s_time s1)) (length (c_ctrl (s_conf s1)))) as HF.
  pose proof (fill2_exn (grape_at s3 dirs (map Some es)) 0 (length (s_time s1)) (length (c_ctrl (s_conf s1)))) as HX.
  rewrite ER in HF, HX.
  destruct (fill2 _ 0 _ _) as [rows e]. cbn [snd] in HX. inversion E; subst s' r. clear E.
  split. { eapply keeps_trans; [exact K3'|split; auto]. }
  split.
  - intros x Hx. rewrite HX in Hx. destruct (grape_rows (bare U s) dirs es) as [rs|] eqn:Eg; [|discriminate].
    inversion HF; subst rows e. 
    assert (V : der_val (bare U s) (map (map Some) rs)) by (apply HD; eauto 10).
    split.
    { pose proof I1 as [I1k I1n]. split.
      - apply KInv_keep with s.
        + eapply keeps_trans; [exact K3'|split; auto].
        + exact I3.
        + intros g' Hg'. cbn in Hg'. rewrite Ek3 in Hg'. change (bare U (set_der s3 (Some (map (map Some) rs)))) with (bare U s3).
          destruct K3' as [_ K3']. rewrite K3', <- Bs. now apply (i_dyn I1k).
        + intros ps' Hp. cbn in Hp. rewrite Ep3 in Hp. inversion Hp; subst. exists g, es. auto.
        + intros l Hl. cbn in Hl. rewrite Ek3 in Hl. rewrite <- Bs. now apply (i_fwd I1k).
        + intros l Hl. cbn in Hl. rewrite Ek3 in Hl. rewrite <- Bs. now apply (i_rev I1k).
        + intros d Hd. cbn in Hd. inversion Hd; subst. auto.
      - cbn [set_der set_k s_conf s_n]. rewrite C3. rewrite C1 in I1n. destruct (c_class (s_conf s)) as [|m|l]; try (rewrite N3; exact I1n).
        change (bare U (set_der s3 (Some (map (map Some) rs)))) with (bare U s3).
        assert (B3 : bare U (set_der s3 (Some (map (map Some) rs))) = bare U s1) by (rewrite Bs; destruct K3'; auto).
        destruct I1n as [q1 q2 q3 q4 q5 q6]. constructor; rewrite ?B3; cbn [set_der set_k s_k s_n k_prop]; rewrite ?N3, ?Ek3; auto. }
    cbn. rewrite Ep3. split; [discriminate|]. eauto.
  - split.
    + intros _ [d V]. apply HD in V. destruct V as (ds & rs & X1 & X2 & X3). assert (ds = dirs) by congruence. subst ds.
      rewrite HX, X2. eexists. reflexivity.
    + intros x Hn _. eapply B1; eauto.
Qed.

Lemma mapM_seq_nth {A B} (f : A -> res B) (l : list A) d n : n = length l -> mapM (fun k => f (nth k l d)) (seq 0 n) = mapM f l.
Proof.
  intros ->. induction l as [|a l IH] using rev_ind; auto.
  rewrite app_length, seq_app. cbn [length seq plus]. 
  assert (E : forall l1 l2, mapM f (l1 ++ l2) = (x <- mapM f l1 ;; y <- mapM f l2 ;; Ok (x ++ y))).
  { induction l1 as [|x l1 IH1]; intros l2; cbn [mapM app bind]. { destruct (mapM f l2); auto. }
    destruct (f x); cbn [bind]; auto. rewrite IH1. destruct (mapM f l1); cbn [bind]; auto. destruct (mapM f l2); auto. }
  assert (E' : forall (g : nat -> res B) l1 l2, mapM g (l1 ++ l2) = (x <- mapM g l1 ;; y <- mapM g l2 ;; Ok (x ++ y))).
  { induction l1 as [|x l1 IH1]; intros l2; cbn [mapM app bind]. { destruct (mapM g l2); auto. }
    destruct (g x); cbn [bind]; auto. rewrite IH1. destruct (mapM g l1); cbn [bind]; auto. destruct (mapM g l2); auto. }
  rewrite E, E', <- IH. cbn [mapM]. rewrite app_nth2, Nat.sub_diag by lia. cbn [nth].
  rewrite (@mapM_ext_in _ _ (fun k => f (nth k (l ++ [a]) d)) (fun k => f (nth k l d))); auto.
  intros k Hk. apply in_seq in Hk. rewrite app_nth1 by lia. auto.
Qed.

(** what the derivatives need *)
Definition need_der U s : Prop := match c_approx (s_conf s) with
  | GNone => pp true (bare U s) = Ok tt
  | GGrape => avail U s /\ (exists d, der_val (bare U s) d) /\ mc_val (fun m => exists d, nder_val m (bare U s) d) (s_conf s)
  | GUnknown => False end.
Definition can_der U s : Prop := match c_approx (s_conf s) with GNone => pp true (bare U s) = Ok tt | _ => pp (flag0 s) (bare U s) = Ok tt end.

Lemma derivatives_step U s s' r : good (s_conf s) -> Inv U s -> compute_derivatives la eps s = (s', r) ->
  keeps U s s' /\
  (forall x, r = Ok x -> Inv U s' /\ (exists d, k_der (s_k s') = Some d /\ der_val (bare U s) d) /\
     mc_val (fun m => exists d, n_der (s_n s') = Some d /\ nder_val m (bare U s) d) (s_conf s)) /\
  (need_der U s -> exists x, r = Ok x) /\
  (forall x, k_prop (s_k s) = None -> r = Ok x -> c_approx (s_conf s) <> GUnknown /\ can_der U s).
Proof.
  intros G I E. unfold compute_derivatives, schr_derivatives in E. unfold need_der, can_der, mc_val.
  destruct (c_approx (s_conf s)) eqn:Ha.
  - (* Frechet *)
    assert (E' : propagation (Some true) s = (s', r)) by (destruct (c_class (s_conf s)); auto). clear E.
    assert (Hg : GNone = GGrape -> calc_flag s (Some true) = false) by discriminate. rewrite <- Ha in Hg.
    destruct (@prop_step F la eps U s s' r (Some true) G Hg I E') as (K & R & H). cbn [calc_flag] in R.
    split; auto. split.
    + intros x Hx. destruct (H x Hx) as (I' & _ & _ & _ & _ & _ & Hd & _ & HN). specialize (Hd eq_refl). split; auto.
      destruct K as [_ K]. pose proof I' as [Ik In]. rewrite <- K.
      split. { destruct (k_der (s_k s')) as [d|] eqn:Ed; [|congruence]. exists d. split; auto. now apply (i_der Ik). }
      assert (C1 : s_conf s' = s_conf s) by exact (f_equal (@s_conf F) K).
      rewrite C1 in In. destruct (c_class (s_conf s)) as [|m|]; auto. destruct HN as [_ HN]. specialize (HN eq_refl).
      destruct (n_der (s_n s')) as [d|] eqn:Ed; [|congruence]. exists d. split; auto. now apply (j_der In).
    + split. { intros X. rewrite X in R. eauto. }
      intros x _ Hx. split; [discriminate|]. destruct x. congruence.
  - (* GRAPE *)
    destruct (schr_derivatives la eps s) as [s1 r1] eqn:E1.
    destruct (@schr_der_grape U s s1 r1 Ha G I E1) as (K1 & H1 & A1 & B1).
    unfold schr_derivatives in E1. rewrite Ha in E1. rewrite E1 in E.
    destruct (conf_keeps K1) as (C1 & T1 & _).
    destruct (c_class (s_conf s)) as [|m|l] eqn:Hc.
    1,3: inversion E; subst s1 r1; split; [exact K1|]; split;
      [intros x Hx; destruct (H1 x Hx) as (? & ? & ?); auto
      |split; [intros (Av & Hd & _); auto|intros x Hn Hx; split; [discriminate|]; eapply B1; eauto]].
    destruct r1 as [x1|e].
    2: { inversion E; subst. split; auto. split; [discriminate|]. split; [|discriminate]. intros (Av & Hl & _). destruct (A1 Av Hl); discriminate. }
    destruct (H1 x1 eq_refl) as (I1 & P1 & d1 & Ed1 & V1). clear H1.
    assert (Bs : bare U s1 = bare U s) by (destruct K1; auto).
    assert (Hc1 : c_class (s_conf s1) = CMonteCarlo m) by now rewrite C1.
    pose proof I1 as [I1k I1n]. rewrite Hc1 in I1n.
    destruct (n_prop (s_n s1)) as [nps|] eqn:En; [|exfalso; apply P1; now apply (j_both I1n)].
    assert (Vn : nprop_val m (bare U s) nps) by (rewrite <- Bs; now apply (j_prop I1n)).
    destruct Vn as (ng & ess & W1 & W2 & ->).
    destruct (directions s1) as [s3 r3] eqn:E3.
    assert (D1 : derivs_ok (s_conf s1)) by (rewrite C1; apply (g_derivs G)).
    destruct (@directions_bare F U s1 s3 r3 D1 (i_l I1k) E3) as (K3 & R3 & Ek3 & N3 & I3). rewrite Bs in R3.
    assert (K3' : keeps U s s3) by (eapply keeps_trans; eauto).
    destruct (conf_keeps K3') as (C3 & T3 & _).
    assert (HD : forall d, nder_val m (bare U s) d <-> exists dirs rows, pdirs (bare U s) = Ok dirs /\ mapM (grape_rows (bare U s) dirs) ess = Ok rows /\ d = map (grape_transpose (numc (bare U s))) (map (map (map Some)) rows)).
    { intros d. unfold P_Solver2.nder_val. cbn [s_conf bare]. rewrite Ha. split.
      - intros (g' & es' & dirs & rows & X1 & X2 & X3 & X4 & X5).
        assert (g' = ng) by congruence. subst g'. assert (es' = ess) by congruence. subst es'. eauto.
      - intros (dirs & rows & X3 & X4 & X5). exists ng, ess, dirs, rows. auto. }
    destruct r3 as [dirs|e].
    2: { inversion E; subst. split; auto. split; [discriminate|]. split; [|discriminate]. intros (_ & _ & [d V]). apply HD in V.
         destruct V as (ds & rs & X & _). congruence. }
    rewrite N3, En in E. rewrite C3, T3 in E.
    assert (Le : length ess = mc_traces m) by exact (pnexps_length m _ _ W2).
    assert (ER : mapM (fun k => mapM (fun t => mapM (fun c => ps <- idx (map (map Some) ess) k ;; grape_at s3 dirs ps t c) (seq 0 (length (c_ctrl (s_conf s))))) (seq 0 (length (s_time s)))) (seq 0 (mc_traces m)) = mapM (grape_rows (bare U s) dirs) ess).
    { rewrite <- (@mapM_seq_nth _ _ (grape_rows (bare U s) dirs) ess [] (mc_traces m)) by auto.
      apply mapM_ext_in; intros k Hk. apply in_seq in Hk. unfold grape_rows, numc, numt. cbn [s_conf s_time bare].
      apply mapM_ext_in; intros t _; apply mapM_ext_in; intros c _.
      rewrite (@idx_ok _ (map (map Some) ess) k (map Some [])) by (rewrite map_length; lia). cbn [bind]. rewrite map_nth.
      now apply grape_at_bare. }
    pose proof (fill3_mapM (fun k t c => ps <- idx (map (map Some) ess) k ;; grape_at s3 dirs ps t c) 0 (mc_traces m) (length (s_time s)) (length (c_ctrl (s_conf s)))) as HF.
    pose proof (fill3_exn (fun k t c => ps <- idx (map (map Some) ess) k ;; grape_at s3 dirs ps t c) 0 (mc_traces m) (length (s_time s)) (length (c_ctrl (s_conf s)))) as HX.
    cbv beta in HF, HX. rewrite ER in HF, HX.
    destruct (fill3 _ 0 _ _ _) as [rows e]. cbn [snd] in HX. inversion E; subst s' r. clear E.
    split. { eapply keeps_trans; [exact K3'|split; auto]. }
    split.
    + intros x Hx. rewrite HX in Hx. destruct (mapM (grape_rows (bare U s) dirs) ess) as [rs|] eqn:Eg; [|discriminate].
      inversion HF; subst rows e.
      assert (V : nder_val m (bare U s) (map (grape_transpose (length (c_ctrl (s_conf s)))) (map (map (map Some)) rs))) by (apply HD; eauto 10).
      assert (I3' : Inv U s3).
      { assert (B3 : bare U s3 = bare U s1) by (rewrite Bs; destruct K3'; auto). split.
        - apply KInv_keep with s1; [exact K3|exact I3|intros g; rewrite Ek3, B3; apply (i_dyn I1k)|rewrite Ek3; apply (i_prop I1k)|rewrite Ek3; apply (i_fwd I1k)|rewrite Ek3; apply (i_rev I1k)|rewrite Ek3; apply (i_der I1k)].
        - rewrite C3, Hc. destruct I1n as [q1 q2 q3 q4 q5 q6]. constructor; rewrite ?B3, ?N3, ?Ek3; auto. }
      split. { apply Inv_nset_der with m; auto. { now rewrite C3. } destruct K3' as [_ K3']. now rewrite K3'. }
      cbn [nset_der set_n s_k s_n n_der]. rewrite Ek3. split; eauto.
    + split.
      * intros (_ & _ & [d V]). apply HD in V. destruct V as (ds & rs & X1 & X2 & X3). assert (ds = dirs) by congruence. subst ds.
        rewrite HX, X2. eexists. reflexivity.
      * intros x Hn _. split; [discriminate|]. eapply B1; eauto.
  - assert (E' : (s, Err ValueError) = (s', r)) by (destruct (c_class (s_conf s)); auto). inversion E'; subst.
    split; [apply keeps_refl|]. split; [discriminate|]. split; [tauto|discriminate].
Qed.
End Coherent4.
