(** Every read of a solver returns a value determined by its parameters. *)
Require Import List Arith Lia Bool.
From Verif Require Import LibBase LibRing LibArr LibCplx LibMat M_Matrix M_OpHeap M_Transfer M_Amplitude M_Solver S_Solver P_Loops P_Solver P_Solver2.
Import ListNotations.
Open Scope res_scope.
Set Implicit Arguments.

Section Coherent3.
Variable F : OField.
Variable rexp : F -> F.
Variable la : LinAlg F.
Variable eps : cplx F.
Notation C := (cplx F).
Notation S := (CStar F).
Notation arrF := (arr (kcar F)).
Notation op := (op F).
Notation st := (@st F).
Implicit Types (s b f : st) (U : option (list op)) (m : @mcconf F).

Notation pexps := (pexps la).
Notation prows := (prows la eps).
Notation pnexps := (pnexps la).
Notation pnrows := (pnrows la eps).
Notation prop_val := (prop_val la).
Notation propagation := (propagation la eps).
Notation need_prop := (need_prop la eps).
Notation need_nprop := (need_nprop la eps).
Notation Inv := (Inv la eps).
Notation good := (good la eps).
Notation pp := (pp la eps).
Notation fwd_val := (fwd_val la).
Notation rev_val := (rev_val la).
Notation der_val := (der_val la eps).
Notation nprop_val := (nprop_val la).
Notation nfwd_val := (nfwd_val la).
Notation nrev_val := (nrev_val la).
Notation nder_val := (nder_val la eps).

Lemma KInv_keep U s s' : keeps U s s' -> IL U s' -> k_dyn_ok U s' ->
  (forall ps, k_prop (s_k s') = Some ps -> prop_val (bare U s) ps) ->
  (forall l, k_fwd (s_k s') = Some l -> fwd_val (bare U s) l) ->
  (forall l, k_rev (s_k s') = Some l -> rev_val (bare U s) l) ->
  (forall d, k_der (s_k s') = Some d -> der_val (bare U s) d) -> KInv la eps U s'.
Proof. intros [_ K]. rewrite <- K. now constructor. Qed.

Lemma prop_step U s s' r calc : good (s_conf s) -> (c_approx (s_conf s) = GGrape -> calc_flag s calc = false) -> Inv U s ->
  propagation calc s = (s', r) ->
  keeps U s s' /\ r = pp (calc_flag s calc) (bare U s) /\
  (forall x, r = Ok x -> Inv U s' /\ k_prop (s_k s') <> None /\ k_fwd (s_k s') = k_fwd (s_k s) /\ k_rev (s_k s') = k_rev (s_k s) /\
     n_fwd (s_n s') = n_fwd (s_n s) /\ n_rev (s_n s') = n_rev (s_n s) /\
     (calc_flag s calc = true -> k_der (s_k s') <> None) /\ (calc_flag s calc = false -> k_der (s_k s') = k_der (s_k s)) /\
     match c_class (s_conf s) with CMonteCarlo m => n_prop (s_n s') <> None /\ (calc_flag s calc = true -> n_der (s_n s') <> None) | _ => s_n s' = s_n s end).
Proof.
  intros G Hg [I J] E. unfold M_Solver.propagation in E. unfold P_Solver2.pp. cbn [s_conf bare].
  assert (Hnm : (forall m, c_class (s_conf s) <> CMonteCarlo m) -> schr_propagation la eps calc s = (s', r) ->
    keeps U s s' /\ r = pprop la eps (calc_flag s calc) (bare U s) /\
    (forall x, r = Ok x -> Inv U s' /\ k_prop (s_k s') <> None /\ k_fwd (s_k s') = k_fwd (s_k s) /\ k_rev (s_k s') = k_rev (s_k s) /\
      n_fwd (s_n s') = n_fwd (s_n s) /\ n_rev (s_n s') = n_rev (s_n s) /\
      (calc_flag s calc = true -> k_der (s_k s') <> None) /\ (calc_flag s calc = false -> k_der (s_k s') = k_der (s_k s)) /\ s_n s' = s_n s)).
  { intros Hc E'.
    destruct (@schr_prop_bare F la eps U s s' r calc (g_derivs G) (g_agrees G) (g_ctrl G) (i_l I) (i_dyn I) E') as (K & R & H).
    split; auto. split; auto. intros x Hx. destruct (H x Hx) as (I' & Kd & N & Fw & Rv & (ps & Ep & Pv) & Dr).
    destruct (conf_keeps K) as (C1 & _). split.
    { split.
      - apply KInv_keep with s; auto.
        + intros ps' E2. rewrite Ep in E2. inversion E2; subst. auto.
        + intros l Hl. rewrite Fw in Hl. now apply (i_fwd I).
        + intros l Hl. rewrite Rv in Hl. now apply (i_rev I).
        + intros d Hd. unfold P_Solver2.der_val. cbn [s_conf bare]. destruct (calc_flag s calc) eqn:Ef.
          * destruct Dr as (d' & Ed & Dv). rewrite Ed in Hd. inversion Hd; subst d'.
            destruct (c_approx (s_conf s)) eqn:Ea; auto. specialize (Hg eq_refl). discriminate.
          * rewrite Dr in Hd. exact (i_der I Hd).
      - rewrite C1. destruct (c_class (s_conf s)) eqn:Ecl; try (rewrite N; exact J). exfalso. eapply Hc; eauto. }
    rewrite Ep, Fw, Rv, N. repeat split; auto; try discriminate.
    - intros Ef. rewrite Ef in Dr. destruct Dr as (d & Ed & _). rewrite Ed. discriminate.
    - intros Ef. now rewrite Ef in Dr. }
  destruct (c_class (s_conf s)) as [|m|l] eqn:Ecl.
  - apply Hnm; auto. discriminate.
  - destruct (@mc_prop_bare F la eps U m s s' r calc Ecl G (i_dyn I) (j_dyn J) E) as (K & R & H).
    split; auto. split; auto. intros x Hx.
    destruct (H x Hx) as (Kd & Nd & Fw & Rv & Nf & Nr & (ps & Ep & Pv) & (nps & Enp & Npv) & Dr).
    destruct (conf_keeps K) as (C1 & _). split.
    { split.
      - apply KInv_keep with s; auto.
        + apply IL_mc with m. now rewrite C1.
        + intros ps' E2. rewrite Ep in E2. inversion E2; subst. auto.
        + intros l Hl. rewrite Fw in Hl. now apply (i_fwd I).
        + intros l Hl. rewrite Rv in Hl. now apply (i_rev I).
        + intros d Hd. unfold P_Solver2.der_val. cbn [s_conf bare]. destruct (calc_flag s calc) eqn:Ef.
          * destruct Dr as (d' & d2 & Ed & Dv & _). rewrite Ed in Hd. inversion Hd; subst d'.
            destruct (c_approx (s_conf s)) eqn:Ea; auto. specialize (Hg eq_refl). discriminate.
          * destruct Dr as [Dr _]. rewrite Dr in Hd. exact (i_der I Hd).
      - rewrite C1, Ecl. pose proof K as [_ K']. constructor; rewrite ?K'.
        + auto.
        + intros p Hp. rewrite Enp in Hp. inversion Hp; subst. auto.
        + rewrite Ep, Enp. split; discriminate.
        + intros l Hl. rewrite Nf in Hl. now apply (j_fwd J).
        + intros l Hl. rewrite Nr in Hl. now apply (j_rev J).
        + intros d Hd. unfold P_Solver2.nder_val. cbn [s_conf bare]. destruct (calc_flag s calc) eqn:Ef.
          * destruct Dr as (d1 & d' & _ & _ & Ed & Dv). rewrite Ed in Hd. inversion Hd; subst d'.
            destruct (c_approx (s_conf s)) eqn:Ea; auto. specialize (Hg eq_refl). discriminate.
          * destruct Dr as [_ Dr]. rewrite Dr in Hd. exact (j_der J Hd). }
    rewrite Ep, Fw, Rv, Nf, Nr, Enp. repeat split; auto; try discriminate.
    + intros Ef. rewrite Ef in Dr. destruct Dr as (d & d2 & Ed & _). rewrite Ed. discriminate.
    + intros Ef. rewrite Ef in Dr. apply Dr.
    + intros Ef. rewrite Ef in Dr. destruct Dr as (d & d2 & _ & _ & Ed & _). rewrite Ed. discriminate.
  - apply Hnm; auto. discriminate.
Qed.

Definition flag0 s : bool := c_calc (s_conf s).
Lemma grape_flag s : good (s_conf s) -> c_approx (s_conf s) = GGrape -> calc_flag s None = false.
Proof. intros G H. cbn. now apply (g_grape G). Qed.

(** what [need_prop] and [need_nprop] do *)
Definition props_ok s : Prop := k_prop (s_k s) <> None \/ pp (flag0 s) (bare (s_udiss s) s) = Ok tt.
Lemma need_step U s s' r : good (s_conf s) -> Inv U s -> need_prop s = (s', r) ->
  keeps U s s' /\
  (forall ps, r = Ok ps -> Inv U s' /\ k_prop (s_k s') = Some ps /\ prop_val (bare U s) ps /\ k_fwd (s_k s') = k_fwd (s_k s) /\ k_rev (s_k s') = k_rev (s_k s) /\
     n_fwd (s_n s') = n_fwd (s_n s) /\ n_rev (s_n s') = n_rev (s_n s)) /\
  (k_prop (s_k s) <> None \/ pp (flag0 s) (bare U s) = Ok tt -> exists ps, r = Ok ps) /\
  (k_prop (s_k s) = None -> forall ps, r = Ok ps -> pp (flag0 s) (bare U s) = Ok tt).
Proof.
  intros G I E. unfold M_Solver.need_prop in E. destruct (k_prop (s_k s)) as [p|] eqn:Ep.
  - inversion E; subst. split; [apply keeps_refl|]. split.
    { intros ps Hps. inversion Hps; subst. split; [exact I|]. split; [exact Ep|]. split; [destruct I as [I _]; now apply (i_prop I)|]. auto. }
    split; [eauto|discriminate].
  - destruct (propagation None s) as [s1 r1] eqn:E1.
    destruct (@prop_step U s s1 r1 None G (grape_flag s G) I E1) as (K & R & H). change (calc_flag s None) with (flag0 s) in *.
    destruct r1 as [x|e]; inversion E; subst; (split; [exact K|]).
    + destruct (H x eq_refl) as (I' & Hp & Fw & Rv & Nf & Nr & _). destruct (k_prop (s_k s')) as [p|] eqn:Ep'; [|congruence].
      split. { intros ps Hps. inversion Hps; subst. split; [exact I'|]. split; [reflexivity|]. split; [destruct K as [_ K]; rewrite <- K; destruct I' as [I' _]; now apply (i_prop I')|]. auto. }
      split; [eauto|]. intros _ _ _. rewrite <- R. destruct x; auto.
    + split; [discriminate|]. split; [|discriminate]. intros [X|X]; [congruence|]. rewrite <- R in X. discriminate.
Qed.
Lemma nneed_step U m s s' r : c_class (s_conf s) = CMonteCarlo m -> good (s_conf s) -> Inv U s -> need_nprop s = (s', r) ->
  keeps U s s' /\
  (forall ps, r = Ok ps -> Inv U s' /\ n_prop (s_n s') = Some ps /\ nprop_val m (bare U s) ps /\ k_fwd (s_k s') = k_fwd (s_k s) /\ k_rev (s_k s') = k_rev (s_k s) /\
     n_fwd (s_n s') = n_fwd (s_n s) /\ n_rev (s_n s') = n_rev (s_n s)) /\
  (n_prop (s_n s) <> None \/ pp (flag0 s) (bare U s) = Ok tt -> exists ps, r = Ok ps) /\
  (n_prop (s_n s) = None -> forall ps, r = Ok ps -> pp (flag0 s) (bare U s) = Ok tt).
Proof.
  intros Hc G I E. unfold M_Solver.need_nprop in E. destruct (n_prop (s_n s)) as [p|] eqn:Ep.
  - inversion E; subst. split; [apply keeps_refl|]. split.
    { intros ps Hps. inversion Hps; subst. split; [exact I|]. split; [exact Ep|]. split; [destruct I as [_ I]; rewrite Hc in I; now apply (j_prop I)|]. auto. }
    split; [eauto|discriminate].
  - destruct (propagation None s) as [s1 r1] eqn:E1.
    destruct (@prop_step U s s1 r1 None G (grape_flag s G) I E1) as (K & R & H). change (calc_flag s None) with (flag0 s) in *.
    destruct (conf_keeps K) as (C1 & _).
    destruct r1 as [x|e]; inversion E; subst; (split; [exact K|]).
    + destruct (H x eq_refl) as (I' & Hp & Fw & Rv & Nf & Nr & _ & _ & HN). rewrite Hc in HN. destruct HN as [HN _].
      destruct (n_prop (s_n s')) as [p|] eqn:Ep'; [|congruence].
      split. { intros ps Hps. inversion Hps; subst. split; [exact I'|]. split; [reflexivity|]. split; [destruct K as [_ K]; rewrite <- K; destruct I' as [_ I']; rewrite C1, Hc in I'; now apply (j_prop I')|]. auto. }
      split; [eauto|]. intros _ _ _. rewrite <- R. destruct x; auto.
    + split; [discriminate|]. split; [|discriminate]. intros [X|X]; [congruence|]. rewrite <- R in X. discriminate.
Qed.

(** updating one cache keeps the invariant *)
Lemma Inv_set_fwd U s (l : list op) : Inv U s -> fwd_val (bare U s) l -> Inv U (set_fwd s (Some l)).
Proof.
  intros [I J] V. split.
  - apply KInv_keep with s; [split; auto|apply I|apply I|apply (i_prop I)| |apply (i_rev I)|apply (i_der I)].
    cbn. intros l' E. inversion E; subst; auto.
  - cbn [set_fwd set_k s_conf]. destruct (c_class (s_conf s)); auto. destruct J; constructor; auto.
Qed.
Lemma Inv_set_rev U s (l : list op) : Inv U s -> rev_val (bare U s) l -> Inv U (set_rev s (Some l)).
Proof.
  intros [I J] V. split.
  - apply KInv_keep with s; [split; auto|apply I|apply I|apply (i_prop I)|apply (i_fwd I)| |apply (i_der I)].
    cbn. intros l' E. inversion E; subst; auto.
  - cbn [set_rev set_k s_conf]. destruct (c_class (s_conf s)); auto. destruct J; constructor; auto.
Qed.
Lemma Inv_set_der U s d : Inv U s -> der_val (bare U s) d -> Inv U (set_der s (Some d)).
Proof.
  intros [I J] V. split.
  - apply KInv_keep with s; [split; auto|apply I|apply I|apply (i_prop I)|apply (i_fwd I)|apply (i_rev I)|].
    cbn. intros l' E. inversion E; subst; auto.
  - cbn [set_der set_k s_conf]. destruct (c_class (s_conf s)); auto. destruct J; constructor; auto.
Qed.
Lemma Inv_nset_fwd U m s l : c_class (s_conf s) = CMonteCarlo m -> Inv U s -> nfwd_val m (bare U s) l -> Inv U (nset_fwd s (Some l)).
Proof.
  intros Hc [I J] V. split.
  - apply KInv_keep with s; [split; auto|apply I|apply I|apply (i_prop I)|apply (i_fwd I)|apply (i_rev I)|apply (i_der I)].
  - cbn [nset_fwd set_n s_conf]. rewrite Hc in *. destruct J; constructor; auto. cbn. intros l' E. inversion E; subst; auto.
Qed.
Lemma Inv_nset_rev U m s l : c_class (s_conf s) = CMonteCarlo m -> Inv U s -> nrev_val m (bare U s) l -> Inv U (nset_rev s (Some l)).
Proof.
  intros Hc [I J] V. split.
  - apply KInv_keep with s; [split; auto|apply I|apply I|apply (i_prop I)|apply (i_fwd I)|apply (i_rev I)|apply (i_der I)].
  - cbn [nset_rev set_n s_conf]. rewrite Hc in *. destruct J; constructor; auto. cbn. intros l' E. inversion E; subst; auto.
Qed.
Lemma Inv_nset_der U m s d : c_class (s_conf s) = CMonteCarlo m -> Inv U s -> nder_val m (bare U s) d -> Inv U (nset_der s (Some d)).
Proof.
  intros Hc [I J] V. split.
  - apply KInv_keep with s; [split; auto|apply I|apply I|apply (i_prop I)|apply (i_fwd I)|apply (i_rev I)|apply (i_der I)].
  - cbn [nset_der set_n s_conf]. rewrite Hc in *. destruct J; constructor; auto. cbn. intros l' E. inversion E; subst; auto.
Qed.

(** values are unique *)
Lemma prop_val_fun b ps ps' : prop_val b ps -> prop_val b ps' -> ps = ps'.
Proof. intros (g & es & A1 & A2 & A3) (g' & es' & B1 & B2 & B3). congruence. Qed.
Lemma fwd_val_fun b l l' : fwd_val b l -> fwd_val b l' -> l = l'.
Proof. intros (g & es & A1 & A2 & A3) (g' & es' & B1 & B2 & B3). congruence. Qed.
Lemma rev_val_fun b l l' : rev_val b l -> rev_val b l' -> l = l'.
Proof. intros (g & es & A1 & A2 & A3) (g' & es' & B1 & B2 & B3). congruence. Qed.
Lemma der_val_fun b l l' : der_val b l -> der_val b l' -> l = l'.
Proof.
  unfold P_Solver2.der_val. destruct (c_approx (s_conf b)).
  1,3: intros (g & ds & rs & A1 & A2 & A3 & A4) (g' & ds' & rs' & B1 & B2 & B3 & B4); congruence.
  intros (g & es & ds & rs & A1 & A2 & A3 & A4 & A5) (g' & es' & ds' & rs' & B1 & B2 & B3 & B4 & B5). congruence.
Qed.
Lemma nprop_val_fun m b ps ps' : nprop_val m b ps -> nprop_val m b ps' -> ps = ps'.
Proof. intros (g & es & A1 & A2 & A3) (g' & es' & B1 & B2 & B3). congruence. Qed.
Lemma nfwd_val_fun m b ps ps' : nfwd_val m b ps -> nfwd_val m b ps' -> ps = ps'.
Proof. intros (g & es & A1 & A2 & A3) (g' & es' & B1 & B2 & B3). congruence. Qed.
Lemma nrev_val_fun m b ps ps' : nrev_val m b ps -> nrev_val m b ps' -> ps = ps'.
Proof. intros (a1 & a2 & a3 & a4 & a5 & A1 & A2 & A3 & A4 & A5 & A6) (b1 & b2 & b3 & b4 & b5 & B1 & B2 & B3 & B4 & B5 & B6).
  assert (a1 = b1) by congruence. subst b1. assert (a2 = b2) by congruence. subst b2. assert (a3 = b3) by congruence. subst b3.
  assert (a4 = b4) by congruence. subst b4. assert (a5 = b5) by congruence. subst b5. congruence.
Qed.
Lemma nder_val_fun m b l l' : nder_val m b l -> nder_val m b l' -> l = l'.
Proof.
  unfold P_Solver2.nder_val. destruct (c_approx (s_conf b)).
  1,3: intros (g & ds & rs & A1 & A2 & A3 & A4) (g' & ds' & rs' & B1 & B2 & B3 & B4); congruence.
  intros (g & es & ds & rs & A1 & A2 & A3 & A4 & A5) (g' & es' & ds' & rs' & B1 & B2 & B3 & B4 & B5). congruence.
Qed.

(** loops over traces *)
Lemma fwd_traces_mapM (init : op) ess :
  match mapM (fwd_of init) ess with
  | Ok ls => fwd_traces init (map (map Some) ess) = (ls, None)
  | Err e => exists ls, fwd_traces init (map (map Some) ess) = (ls, Some e)
  end.
Proof.
  induction ess as [|es ess IH]; cbn [mapM map fwd_traces]; auto.
  unfold fwd_of at 1. destruct (foldE (times_last (F:=F)) (map Some es) [init]) as [l [e|]] eqn:E.
  - destruct (foldM _ _ _) as [l'|e'] eqn:E'; [apply foldE_None in E'; congruence|].
    assert (e' = e); [|subst; eauto]. revert E E'. clear. generalize [init]. induction (map Some es) as [|x xs IH]; cbn; [discriminate|].
    intros a. destruct (times_last a x); [apply IH|]. intros H1 H2. inversion H1; inversion H2; congruence.
  - apply foldE_None in E. rewrite E. destruct (mapM (fwd_of init) ess).
    + rewrite IH. reflexivity.
    + destruct IH as [ls ->]. eauto.
Qed.
Lemma rev_traces_mapM (init : op) ess :
  match mapM (fun es => foldM (last_times (F:=F)) (rev (map Some es)) [init]) ess with
  | Ok ls => rev_traces init (map (map Some) ess) = (ls, None)
  | Err e => exists ls, rev_traces init (map (map Some) ess) = (ls, Some e)
  end.
Proof.
  induction ess as [|es ess IH]; cbn [mapM map rev_traces]; auto.
  destruct (foldE (last_times (F:=F)) (rev (map Some es)) [init]) as [l [e|]] eqn:E.
  - destruct (foldM (last_times (F:=F)) (rev (map Some es)) [init]) as [l'|e'] eqn:E'; [apply foldE_None in E'; congruence|].
    assert (e' = e); [|subst; eauto]. revert E E'. clear. generalize [init]. induction (rev (map Some es)) as [|x xs IH]; cbn; [discriminate|].
    intros a. destruct (last_times a x); [apply IH|]. intros H1 H2. inversion H1; inversion H2; congruence.
  - apply foldE_None in E. rewrite E. destruct (mapM _ ess).
    + rewrite IH. reflexivity.
    + destruct IH as [ls ->]. eauto.
Qed.
Lemma foldE_exn {A B} (f : A -> B -> res A) l a : of_exn (snd (foldE f l a)) = bind (foldM f l a) (fun _ => Ok tt).
Proof. revert a. induction l as [|x l IH]; cbn; auto. intros a. destruct (f a x); auto. Qed.
End Coherent3.
