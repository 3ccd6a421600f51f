(** The caches of a solver agree with values computed from its parameters. *)
Require Import List Arith Lia Bool.
From Verif Require Import LibBase LibRing LibArr LibCplx LibMat M_Matrix M_OpHeap M_Transfer M_Amplitude M_Solver S_Solver P_Loops.
Import ListNotations.
Open Scope res_scope.
Set Implicit Arguments.

Section Coherent.
Variable F : OField.
Variable rexp : F -> F.
Variable la : LinAlg F.
Variable eps : cplx F.
Notation C := (cplx F).
Notation S := (CStar F).
Notation arrF := (arr (kcar F)).
Notation op := (op F).
Notation st := (@st F).
Implicit Types (s b : st) (U : option (list op)) (l : @liconf F) (m : @mcconf F).

Definition tf0 : tf F := mk_identity 0.
(** a state without the caches and the transfer function *)
Definition bare U s : st :=
  mkst (s_conf s) (s_drift s) tf0 (s_time s) (s_opt s) (s_tpars s) (s_amps s) false false (k_none (F:=F)) (n_none (F:=F)) (mkl None None) U.
Definition keeps U s s' : Prop := s_tf s' = s_tf s /\ bare U s' = bare U s.
Lemma keeps_refl U s : keeps U s s. Proof. split; auto. Qed.
Lemma keeps_trans U s s' s'' : keeps U s s' -> keeps U s' s'' -> keeps U s s''.
Proof. unfold keeps. intros [? ?] [? ?]. split; congruence. Qed.

(** values computed from a bare state *)
Definition pdiss l b : res (list op) := snd (calc_diss l b).
Definition pgens b : res (list op) :=
  let '(g, e) := schr_dyn b in
  match e with
  | Some e => Err e
  | None =>
    match c_class (s_conf b) with
    | CLindblad l =>
        ds <- pdiss l b ;;
        g0 <- idx g 0 ;; ident <- op_identity_like g0 ;;
        check Nat.eqb (length g) (length ds) else AssertionError ;;
        mapM (fun p => lind_gen ident (fst p) (snd p)) (combine g ds)
    | _ => Ok g
    end
  end.
Definition pdirs b : res (list (list op)) := snd (directions b).
Definition numt b := length (s_time b).
Definition numc b := length (c_ctrl (s_conf b)).
Definition pexps b (g : list op) : res (list op) := mapM (exp_at la b g) (seq 0 (numt b)).
Definition prows b (g : list op) (dirs : list (list op)) : res (list (list (op * op))) :=
  mapM (fun t => mapM (dexp_at la eps b g dirs t) (seq 0 (numc b))) (seq 0 (numt b)).
Definition pprop (flag : bool) b : res unit :=
  match s_amps b with
  | None => Err ValueError
  | Some _ =>
      g <- pgens b ;;
      if flag then dirs <- pdirs b ;; _ <- prows b g dirs ;; Ok tt
      else _ <- pexps b g ;; Ok tt
  end.
Definition pngens m b : res (list (list op)) :=
  let '(g, e) := schr_dyn b in
  match e with
  | Some e => Err e
  | None => arr <- noise_array m b ;;
            foldM (add_noise arr (mc_ops m)) (noise_triples (dim0 arr) (dim1 arr) (Nat.min (dim2 arr) (length (mc_ops m)))) (repeat g (mc_traces m))
  end.
Definition pnexps m b (ng : list (list op)) : res (list (list op)) :=
  mapM (fun k => g <- idx ng k ;; pexps b g) (seq 0 (mc_traces m)).
Definition pnrows m b (ng : list (list op)) (dirs : list (list op)) : res (list (list (list (op * op)))) :=
  mapM (fun k => mapM (fun t => mapM (fun c => g <- idx ng k ;; dexp_at la eps b g dirs t c) (seq 0 (numc b))) (seq 0 (numt b)))
    (seq 0 (mc_traces m)).

(** ---- the dissipation caches ---- *)
Definition IL U s : Prop :=
  match c_class (s_conf s) with
  | CLindblad l =>
      (forall ds, l_diss (s_l s) = Some ds -> pdiss l (bare U s) = Ok ds) /\
      (forall dd, l_ddiss (s_l s) = Some dd -> calc_diss_deriv l (bare U s) = Ok (Some dd)) /\
      (l_diss (s_l s) = None \/ has_fun l -> s_udiss s = U)
  | _ => True
  end.

Lemma calc_diss_bare U l s s' r : s_udiss s = U -> calc_diss l s = (s', r) ->
  keeps U s s' /\ pdiss l (bare U s) = r /\ s_k s' = s_k s /\ s_n s' = s_n s /\ l_ddiss (s_l s') = l_ddiss (s_l s) /\
  (forall ds, r = Ok ds -> l_diss (s_l s') = Some ds) /\ (has_fun l -> s_udiss s' = U).
Proof.
  intros HU. unfold pdiss, calc_diss. cbn [s_amps s_tpars s_time s_udiss s_l bare]. rewrite HU.
  unfold has_fun.
  destruct (li_func l) as [f|].
  { destruct (s_amps s) as [u|].
    - destruct (f u (s_tpars s)); intros E; inversion E; subst; cbn; repeat split; auto; intros; congruence.
    - intros E; inversion E; subst; cbn; repeat split; auto; discriminate. }
  destruct (const_diss l U) as [[const|]|].
  2,3: intros E; inversion E; subst; cbn; repeat split; auto; discriminate.
  destruct (li_pref l) as [f|].
  { destruct (s_amps s) as [u|].
    2: intros E; inversion E; subst; cbn; repeat split; auto; discriminate.
    destruct (f u (s_tpars s)) as [p|].
    2: intros E; inversion E; subst; cbn; repeat split; auto; discriminate.
    destruct (foldE _ (seq 0 (dim0 p)) []) as [ds [e|]];
      intros E; inversion E; subst; cbn; repeat split; auto; intros; congruence. }
  destruct const as [|c0 rest].
  { intros E; inversion E; subst; cbn; repeat split; auto; discriminate. }
  destruct (foldE _ rest c0) as [d [e|]]; destruct (li_ops l);
    intros E; inversion E; subst; cbn; repeat split; auto; try discriminate; try congruence; intros [?|?]; congruence.
Qed.

Lemma deriv_bare U l s : derivs_ok (s_conf s) -> c_class (s_conf s) = CLindblad l -> IL U s ->
  calc_diss_deriv l s = calc_diss_deriv l (bare U s).
Proof.
  unfold derivs_ok, IL. intros D Hc I. rewrite Hc in *. destruct I as (_ & _ & I).
  unfold calc_diss_deriv. cbn [s_amps s_tpars s_udiss bare].
  destruct (s_amps s); auto. destruct (li_func_d l); auto. destruct (li_pref_d l); auto.
  rewrite I; auto. right. apply D. left. discriminate.
Qed.

Lemma dyn_gen_bare U s s' r : IL U s -> compute_dyn_gen s = (s', r) ->
  keeps U s s' /\ (r = g <- pgens (bare U s) ;; Ok tt) /\
  (forall x, r = Ok x -> IL U s' /\ s_n s' = s_n s /\
     exists g, pgens (bare U s) = Ok g /\ s_k s' = mkk (Some g) (k_prop (s_k s)) (k_fwd (s_k s)) (k_rev (s_k s)) (k_der (s_k s))).
Proof.
  unfold compute_dyn_gen, pgens. intros I.
  replace (schr_dyn (bare U s)) with (schr_dyn s) by reflexivity.
  destruct (schr_dyn s) as [g [e|]].
  { intros E; inversion E; subst. split; [split; auto|]. split; auto. discriminate. }
  cbn [s_conf bare]. unfold IL in *.
  destruct (c_class (s_conf s)) as [|m|l] eqn:Hc.
  1,2: intros E; inversion E; subst; split; [split; auto|]; split; [reflexivity|];
       intros _ _; cbn [set_dyn set_k s_conf s_n s_k]; rewrite Hc; repeat split; eauto.
  destruct I as (I1 & I2 & I3).
  set (s1 := set_dyn s (Some g)).
  assert (K1 : keeps U s s1) by (split; auto).
  assert (B1 : bare U s1 = bare U s) by reflexivity.
  assert (Hgen : forall s2 ds, keeps U s1 s2 -> s_k s2 = s_k s1 -> s_n s2 = s_n s1 -> l_ddiss (s_l s2) = l_ddiss (s_l s1) ->
     pdiss l (bare U s) = Ok ds -> l_diss (s_l s2) = Some ds -> (has_fun l -> s_udiss s2 = U) ->
     match (g0 <- idx g 0 ;; ident <- op_identity_like g0 ;;
                   check Nat.eqb (length g) (length ds) else AssertionError ;;
                   mapM (fun p => lind_gen ident (fst p) (snd p)) (combine g ds)) with
            | Err e => (s2, Err e)
            | Ok sg => (set_dyn s2 (Some sg), Ok tt)
            end = (s', r) ->
     keeps U s s' /\ (r = g0 <- (ds0 <- pdiss l (bare U s) ;; g0 <- idx g 0 ;; ident <- op_identity_like g0 ;;
        check Nat.eqb (length g) (length ds0) else AssertionError ;;
        mapM (fun p => lind_gen ident (fst p) (snd p)) (combine g ds0)) ;; Ok tt) /\
     (forall x, r = Ok x -> (match c_class (s_conf s') with
      | CLindblad l => (forall ds, l_diss (s_l s') = Some ds -> pdiss l (bare U s') = Ok ds) /\
      (forall dd, l_ddiss (s_l s') = Some dd -> calc_diss_deriv l (bare U s') = Ok (Some dd)) /\
      (l_diss (s_l s') = None \/ has_fun l -> s_udiss s' = U)
      | _ => True end) /\ s_n s' = s_n s /\
     exists g1, (ds0 <- pdiss l (bare U s) ;; g0 <- idx g 0 ;; ident <- op_identity_like g0 ;;
        check Nat.eqb (length g) (length ds0) else AssertionError ;;
        mapM (fun p => lind_gen ident (fst p) (snd p)) (combine g ds0)) = Ok g1 /\ s_k s' = mkk (Some g1) (k_prop (s_k s)) (k_fwd (s_k s)) (k_rev (s_k s)) (k_der (s_k s)))).
  { intros s2 ds K Ek En Ed Hp Hd Hu. rewrite Hp. cbn [bind].
    destruct (bind (idx g 0) _) as [sg|e0] eqn:Eg.
    - intros E; inversion E; subst. cbn [bind].
      assert (K' : keeps U s (set_dyn s2 (Some sg))).
      { apply keeps_trans with s1; [exact K1|exact K]. }
      split; [exact K'|]. split; [reflexivity|]. intros _ _.
      destruct K' as [_ K']. assert (Hc2 : s_conf (set_dyn s2 (Some sg)) = s_conf s).
      { change (s_conf (bare U (set_dyn s2 (Some sg))) = s_conf (bare U s)). now rewrite K'. }
      rewrite Hc2, Hc. rewrite K'. cbn [set_dyn set_k s_l s_udiss s_n].
      repeat split.
      + intros ds' E'. rewrite Hd in E'. inversion E'; subst. exact Hp.
      + intros dd E'. rewrite Ed in E'. apply I2. exact E'.
      + intros [X|X]; [rewrite Hd in X; discriminate|auto].
      + rewrite En. reflexivity.
      + exists sg. split; auto. cbn [set_dyn set_k s_k]. rewrite Ek. reflexivity.
    - intros E; inversion E; subst. cbn [bind]. split; [apply keeps_trans with s1; auto|]. split; [reflexivity|discriminate]. }
  destruct (l_diss (s_l s1)) as [ds|] eqn:Ed.
  - apply Hgen; auto; try apply keeps_refl.
  - destruct (calc_diss l s1) as [s2 r2] eqn:Ec.
    assert (HU : s_udiss s1 = U) by (apply I3; left; exact Ed).
    destruct (@calc_diss_bare U l s1 s2 r2 HU Ec) as (K & P & Ek & En & El & Eo & Hf). rewrite B1 in P.
    destruct r2 as [ds|e].
    + apply Hgen; auto.
    + rewrite P. intros E; inversion E; subst. cbn [bind]. split; [apply keeps_trans with s1; auto|]. split; [reflexivity|discriminate].
Qed.

Lemma directions_bare U s s' r : derivs_ok (s_conf s) -> IL U s -> directions s = (s', r) ->
  keeps U s s' /\ r = pdirs (bare U s) /\ s_k s' = s_k s /\ s_n s' = s_n s /\ IL U s'.
Proof.
  intros D I. unfold pdirs, directions. cbn [s_conf s_l s_time bare l_ddiss l_diss].
  pose proof I as I0. unfold IL in I0. 
  destruct (c_class (s_conf s)) as [|m|l] eqn:Hc.
  1,2: intros E; inversion E; subst; cbn [snd]; repeat split; auto.
  destruct (bind (idx (c_ctrl (s_conf s)) 0) _) as [hs|e].
  2: intros E; inversion E; subst; cbn [snd]; repeat split; auto.
  destruct I0 as (I1 & I2 & I3).
  assert (Hd : (match l_ddiss (s_l s) with Some d => Ok (Some d) | None => calc_diss_deriv l s end) = calc_diss_deriv l (bare U s)).
  { destruct (l_ddiss (s_l s)) eqn:E; [symmetry; now apply I2|]. now apply deriv_bare. }
  rewrite Hd. destruct (calc_diss_deriv l (bare U s)) as [[dd|]|e] eqn:Edd;
    intros E; inversion E; subst; cbn [snd]; repeat split; auto.
  unfold IL. cbn [set_l s_conf s_l l_diss l_ddiss s_udiss]. rewrite Hc. repeat split; auto.
  intros dd' E'. inversion E'; subst. exact Edd.
Qed.

Lemma conf_keeps U s s' : keeps U s s' -> s_conf s' = s_conf s /\ s_time s' = s_time s /\ s_amps s' = s_amps s /\ s_drift s' = s_drift s /\
  s_opt s' = s_opt s /\ s_tpars s' = s_tpars s.
Proof. intros [_ H]. unfold bare in H. inversion H; auto 10. Qed.

(** ---- noiseless propagation ---- *)

Notation agrees := (agrees la eps).
Lemma rows_exps b (g : list op) (dirs : list (list op)) rows : agrees (s_conf b) -> c_ctrl (s_conf b) <> [] -> prows b g dirs = Ok rows ->
  exists es, pexps b g = Ok es /\ map last_fst (map (map Some) rows) = map Some es.
Proof.
  intros Ha Hm H. unfold prows in H.
  assert (HM : 0 < numc b) by (unfold numc; destruct (c_ctrl (s_conf b)); simpl; [congruence|lia]).
  set (dr := [] : list (op * op)). set (dp := (Arr [] [], Arr [] []) : op * op).
  destruct (@mapM_seq _ _ 0 (numt b) rows dr H) as [L Hr].
  set (es := map (fun row => fst (nth 0 row dp)) rows).
  exists es. split.
  - apply (@mapM_seq_of _ _ 0 (numt b) es (fst (nth 0 dr dp))). { unfold es. now rewrite map_length. }
    intros t Ht. rewrite Nat.add_0_l. specialize (Hr t Ht). rewrite Nat.add_0_l in Hr.
    destruct (@mapM_seq _ _ 0 (numc b) _ dp Hr) as [L2 Hc]. specialize (Hc 0 HM). rewrite Nat.add_0_l in Hc.
    unfold es. rewrite (map_nth (fun row => fst (nth 0 row dp)) rows dr t).
    destruct (nth 0 (nth t rows dr) dp) as [E X] eqn:EX. cbn [fst].
    unfold dexp_at in Hc. unfold exp_at.
    destruct (idx g t) as [A|]; cbn [bind] in *; [|discriminate].
    destruct (idx dirs t) as [row|]; cbn [bind] in *; [|discriminate].
    destruct (idx row 0) as [D|]; cbn [bind] in *; [|discriminate].
    destruct (idx (s_time b) t) as [tau|]; cbn [bind] in *; [|discriminate].
    eapply Ha; eauto.
  - unfold es. rewrite !map_map. apply map_ext_in. intros row Hin.
    destruct (In_nth _ _ dr Hin) as (t & Ht & Et). rewrite L in Ht. specialize (Hr t Ht). rewrite Nat.add_0_l in Hr.
    rewrite Et in Hr. destruct (@mapM_seq _ _ 0 (numc b) _ dp Hr) as [L2 Hc].
    apply last_fst_const with (da := dp). { destruct row; simpl in *; [lia|discriminate]. }
    intros c Hcc. pose proof (Hc c ltac:(lia)) as E1. pose proof (Hc 0 HM) as E0. rewrite Nat.add_0_l in E1, E0.
    unfold dexp_at in E1, E0.
    destruct (idx g t) as [A|]; cbn [bind] in *; [|discriminate].
    destruct (idx dirs t) as [rw|]; cbn [bind] in *; [|discriminate].
    destruct (idx rw 0) as [D0|]; cbn [bind] in *; [|discriminate].
    destruct (idx rw c) as [D1|]; cbn [bind] in *; [|discriminate].
    destruct (idx (s_time b) t) as [tau|]; cbn [bind] in *; [|discriminate].
    destruct (nth c row dp) as [Ec Xc], (nth 0 row dp) as [E0' X0].
    apply Ha in E1, E0. cbn [fst]. congruence.
Qed.

Definition k_dyn_ok U s : Prop := forall g, k_dyn (s_k s) = Some g -> pgens (bare U s) = Ok g.
Definition prop_val b (ps : list (option op)) : Prop :=
  exists g es, pgens b = Ok g /\ pexps b g = Ok es /\ ps = map Some es.
Definition frechet_val b (d : list (list (option op))) : Prop :=
  exists g dirs rows, pgens b = Ok g /\ pdirs b = Ok dirs /\ prows b g dirs = Ok rows /\ d = columns (numc b) (map (map Some) rows).

Lemma schr_prop_bare U s s' r calc : derivs_ok (s_conf s) -> agrees (s_conf s) -> c_ctrl (s_conf s) <> [] -> IL U s -> k_dyn_ok U s ->
  schr_propagation la eps calc s = (s', r) ->
  keeps U s s' /\ r = pprop (calc_flag s calc) (bare U s) /\
  (forall x, r = Ok x -> IL U s' /\ k_dyn_ok U s' /\ s_n s' = s_n s /\ k_fwd (s_k s') = k_fwd (s_k s) /\ k_rev (s_k s') = k_rev (s_k s) /\
     (exists ps, k_prop (s_k s') = Some ps /\ prop_val (bare U s) ps) /\
     (if calc_flag s calc then exists d, k_der (s_k s') = Some d /\ frechet_val (bare U s) d else k_der (s_k s') = k_der (s_k s))).
Proof.
  intros D Ha Hm I Kd. unfold schr_propagation, pprop.
  cbn [s_amps bare]. destruct (s_amps s) as [u|] eqn:Eu.
  2: { intros E; inversion E; subst. split; [apply keeps_refl|]. split; [reflexivity|discriminate]. }
  assert (Hdyn : exists s1 r1, (match k_dyn (s_k s) with Some _ => (s, Ok tt) | None => compute_dyn_gen s end) = (s1, r1) /\
     keeps U s s1 /\ (r1 = g <- pgens (bare U s) ;; Ok tt) /\
     (forall x, r1 = Ok x -> IL U s1 /\ s_n s1 = s_n s /\ exists g, pgens (bare U s) = Ok g /\
        s_k s1 = mkk (Some g) (k_prop (s_k s)) (k_fwd (s_k s)) (k_rev (s_k s)) (k_der (s_k s)))).
  { destruct (k_dyn (s_k s)) as [g|] eqn:Eg.
    - exists s, (Ok tt). split; auto. split; [apply keeps_refl|]. rewrite (Kd g Eg). split; auto. intros _ _. split; auto. split; auto.
      exists g. split; auto. destruct (s_k s); cbn in *; subst; auto.
    - destruct (compute_dyn_gen s) as [s1 r1] eqn:Ec. exists s1, r1. split; auto. now apply dyn_gen_bare. }
  destruct Hdyn as (s1 & r1 & E1 & K1 & R1 & H1). rewrite E1. clear E1.
  destruct (conf_keeps K1) as (C1 & T1 & A1 & _).
  destruct r1 as [x1|e1].
  2: { intros E; inversion E; subst. split; auto. destruct (pgens (bare U s)); cbn [bind] in *; [discriminate|].
       split; [congruence|discriminate]. }
  destruct (H1 x1 eq_refl) as (I1 & N1 & g & G & Ek). rewrite G in *. cbn [bind] in *.
  set (s2 := set_prop s1 (Some (repeat None (length (s_time s1))))).
  assert (K2 : keeps U s s2) by (apply keeps_trans with s1; auto; split; auto).
  assert (I2 : IL U s2) by exact I1.
  assert (G1 : match k_dyn (s_k s1) with Some g => g | None => [] end = g) by now rewrite Ek.
  rewrite G1. clear G1. cbn zeta.
  destruct (calc_flag s calc).
  - destruct (directions s2) as [s3 r3] eqn:Ed.
    assert (D2 : derivs_ok (s_conf s2)) by (change (s_conf s2) with (s_conf s1); rewrite C1; exact D).
    destruct (@directions_bare U s2 s3 r3 D2 I2 Ed) as (K3 & R3 & Ek3 & N3 & I3).
    assert (B2 : bare U s2 = bare U s) by (destruct K2; auto). rewrite B2 in R3.
    assert (K3' : keeps U s s3) by (eapply keeps_trans; eauto).
    destruct (conf_keeps K3') as (C3 & T3 & A3 & _).
    destruct r3 as [dirs|e].
    2: { intros E; inversion E; subst. split; auto. rewrite <- R3. split; [reflexivity|discriminate]. }
    rewrite <- R3. cbn [bind].
    assert (ER : mapM (fun t => mapM (dexp_at la eps s3 g dirs t) (seq 0 (length (c_ctrl (s_conf s1))))) (seq 0 (length (s_time s1)))
       = prows (bare U s) g dirs).
    { unfold prows, numt, numc. cbn [s_time s_conf bare]. rewrite C1, T1. apply mapM_ext_in. intros t _. apply mapM_ext_in. intros c _.
      unfold dexp_at. cbn [s_time s_conf bare]. rewrite C3, T3. reflexivity. }
    pose proof (fill2_mapM (dexp_at la eps s3 g dirs) 0 (length (s_time s1)) (length (c_ctrl (s_conf s1)))) as HF.
    pose proof (fill2_exn (dexp_at la eps s3 g dirs) 0 (length (s_time s1)) (length (c_ctrl (s_conf s1)))) as HX.
    rewrite ER in HF, HX.
    destruct (fill2 _ 0 _ _) as [rows e]. cbn [snd] in HX.
    intros E; inversion E; subst. clear E.
    assert (K4 : keeps U s (set_der (set_prop s3 (Some (map last_fst rows))) (Some (columns (length (c_ctrl (s_conf s1))) rows)))).
    { eapply keeps_trans; [exact K3'|]. split; auto. }
    split; [exact K4|]. split; [exact HX|]. intros x Hx. rewrite HX in Hx.
    destruct (prows (bare U s) g dirs) as [vs|] eqn:Ev; cbn [bind] in Hx; [|discriminate].
    inversion HF; subst.
    assert (HB : agrees (s_conf (bare U s))) by exact Ha.
    destruct (@rows_exps (bare U s) g dirs vs HB Hm Ev) as (es & Ees & Ems).
    assert (Ek3' : s_k s3 = s_k s2) by exact Ek3. unfold s2 in Ek3'. cbn [set_prop set_k s_k] in Ek3'. rewrite Ek in Ek3'. cbn in Ek3'.
    cbn [set_der set_prop set_k s_k s_n k_fwd k_rev k_prop k_der k_dyn]. rewrite Ek3'. cbn.
    split; [exact I3|]. split.
    { intros g' Hg'. cbn in Hg'. rewrite Ek3' in Hg'. cbn in Hg'. inversion Hg'; subst.
      destruct K4 as [_ K4]. rewrite K4. exact G. }
    split; [rewrite N3; exact N1|]. split; auto. split; auto. split.
    + exists (map last_fst (map (map Some) vs)). split; auto. exists g, es. auto.
    + exists (columns (length (c_ctrl (s_conf s1))) (map (map Some) vs)). split; auto. exists g, dirs, vs.
      split; auto. split; [auto|]. split; auto. unfold numc. cbn [bare s_conf]. now rewrite C1.
  - assert (ER : mapM (exp_at la s2 g) (seq 0 (length (s_time s1))) = pexps (bare U s) g).
    { unfold pexps, numt. cbn [s_time bare]. rewrite T1. apply mapM_ext_in. intros t _.
      unfold exp_at. cbn [s_time s_conf bare s2 set_prop set_k]. rewrite C1, T1. reflexivity. }
    pose proof (fill_mapM (exp_at la s2 g) 0 (length (s_time s1))) as HF.
    pose proof (fill_exn (exp_at la s2 g) 0 (length (s_time s1))) as HX.
    rewrite ER in HF, HX.
    destruct (fill _ 0 _) as [ps e]. cbn [snd] in HX. intros E; inversion E; subst. clear E.
    assert (K4 : keeps U s (set_prop s2 (Some ps))) by (eapply keeps_trans; [exact K2|split; auto]).
    split; [exact K4|]. split; [exact HX|]. intros x Hx. rewrite HX in Hx.
    destruct (pexps (bare U s) g) as [es|] eqn:Ev; cbn [bind] in Hx; [|discriminate].
    inversion HF; subst.
    unfold s2. cbn [set_prop set_k s_k s_n k_fwd k_rev k_prop k_der k_dyn]. rewrite Ek. cbn.
    split; [exact I1|]. split.
    { intros g' Hg'. cbn in Hg'. rewrite Ek in Hg'. cbn in Hg'. inversion Hg'; subst.
      destruct K4 as [_ K4]. unfold s2 in K4. rewrite K4. exact G. }
    split; [exact N1|]. split; auto. split; auto. split; auto.
    exists (map Some es). split; auto. exists g, es. auto.
Qed.
End Coherent.
