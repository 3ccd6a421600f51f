(** Histories of successful setter calls and reads. *)
Require Import List Arith Lia Bool.
From Verif Require Import LibBase LibRing LibArr LibCplx LibMat M_Matrix M_OpHeap M_Transfer S_Transfer P_Transfer2 M_Amplitude M_Solver S_Solver P_Loops P_Solver P_Solver2 P_Solver3 P_Solver4 P_Solver5.
Import ListNotations.
Open Scope res_scope.
Set Implicit Arguments.

Section Coherent6.
Variable F : OField.
Variable rexp : F -> F.
Variable la : LinAlg F.
Variable eps : cplx F.
Notation arrF := (arr (kcar F)).
Notation op := (op F).
Notation st := (@st F).
Implicit Types (s b f : st) (U : option (list op)) (m : @mcconf F).
Notation Inv := (Inv la eps).
Notation good := (good la eps).
Notation sstep := (sstep rexp la eps).
Notation srun := (srun rexp la eps).
Notation set_pars := (set_pars rexp).
Notation all_ok := (all_ok rexp la eps).

Lemma array_equal_eq (a b : arrF) : array_equal a b = true -> a = b.
Proof.
  unfold array_equal. rewrite !andb_true_iff. intros [[H1 H2] H3]. destruct a as [sa da], b as [sb db]. cbn [shape data] in *.
  destruct (list_eq_dec Nat.eq_dec sa sb) as [Hs|Hs]; [|exfalso; discriminate]. subst sb. f_equal.
  apply Nat.eqb_eq in H2. revert db H2 H3. induction da as [|x da IH]; intros [|y db] L H; try discriminate; auto.
  cbn in H. apply andb_true_iff in H. destruct H as [H4 H5]. f_equal.
  - now apply keqb_eq in H4.
  - apply IH; auto.
Qed.
Lemma array_equal_refl (a : arrF) : array_equal a a = true.
Proof.
  unfold array_equal. rewrite !andb_true_iff. split; [split|].
  - destruct (list_eq_dec Nat.eq_dec (shape a) (shape a)); auto.
  - apply Nat.eqb_refl.
  - induction (data a) as [|x l IH]; cbn; auto. rewrite IH, andb_true_r. now apply keqb_eq.
Qed.
Lemma opt_equal_eq o (y : arrF) : opt_equal o y = true -> o = Some y.
Proof. destruct o; cbn; [|discriminate]. intros H. f_equal. now apply array_equal_eq. Qed.

(** the amplitudes [set_optimization_parameters] computes *)
Definition amps_of s (y : arrF) : res (arrF * arrF) :=
  x <- snd (call rexp (s_tf s) y) ;; u <- amp_call (c_amp (s_conf s)) x ;;
  check Nat.eqb (rank u) 2 else ValueError ;; check Nat.eqb (dim0 u) (length (s_time s)) else ValueError ;;
  check Nat.eqb (dim1 u) (length (c_ctrl (s_conf s))) else ValueError ;; Ok (x, u).
Definition core U s y x u : st :=
  mkst (s_conf s) (s_drift s) (tf0 F) (s_time s) (Some y) (Some x) (Some u) false false (k_none (F:=F)) (n_none (F:=F)) (mkl None None) U.

Lemma set_pars_known s y : opt_equal (s_opt s) y = true -> set_pars y s = (s, Ok tt).
Proof.
  intros H. unfold M_Solver.set_pars, schr_set_pars, base_set_pars. rewrite H. destruct (c_class (s_conf s)); cbn; rewrite ?H; auto.
Qed.

(** [reset_cached] touches only caches *)
Lemma reset_fields s : s_conf (reset_cached s) = s_conf s /\ s_drift (reset_cached s) = s_drift s /\ s_tf (reset_cached s) = s_tf s /\
  s_time (reset_cached s) = s_time s /\ s_opt (reset_cached s) = s_opt s /\ s_tpars (reset_cached s) = s_tpars s /\ s_amps (reset_cached s) = s_amps s /\
  s_udiss (reset_cached s) = s_udiss s /\ s_k (reset_cached s) = k_none (F:=F) /\
  s_n (reset_cached s) = (match c_class (s_conf s) with CMonteCarlo _ => n_none (F:=F) | _ => s_n s end) /\
  s_l (reset_cached s) = (match c_class (s_conf s) with CLindblad l => match li_pref l, li_func l with None, None => s_l s | _, _ => mkl None None end | _ => s_l s end).
Proof. unfold reset_cached. destruct (c_class (s_conf s)) as [|m|l]; [| |destruct (li_pref l), (li_func l)]; cbn; repeat split. Qed.

Lemma base_set_new U s y s' r : opt_equal (s_opt s) y = false -> base_set_pars rexp y s = (s', r) ->
  match amps_of s y with
  | Ok (x, u) => r = Ok tt /\ s_tf s' = fst (call rexp (s_tf s) y) /\ bare U s' = core U s y x u /\ s_udiss s' = s_udiss s /\ s_k s' = k_none (F:=F) /\
      s_n s' = (match c_class (s_conf s) with CMonteCarlo _ => n_none (F:=F) | _ => s_n s end) /\
      s_l s' = (match c_class (s_conf s) with CLindblad l => match li_pref l, li_func l with None, None => s_l s | _, _ => mkl None None end | _ => s_l s end)
  | Err e => r = Err e
  end.
Proof.
  intros Ho E. unfold base_set_pars in E. rewrite Ho in E. cbn [set_opt s_tf] in E. unfold amps_of.
  destruct (call rexp (s_tf s) y) as [t' [x|e]] eqn:Ec; cbn [snd bind fst]; [|now inversion E].
  destruct (amp_call (c_amp (s_conf s)) x) as [u|e]; cbn [bind]; [|now inversion E].
  destruct (Nat.eqb (rank u) 2); cbn [negb] in E; [|now inversion E].
  destruct (Nat.eqb (dim0 u) (length (s_time s))); cbn [negb] in E; [|now inversion E].
  destruct (Nat.eqb (dim1 u) (length (c_ctrl (s_conf s)))); cbn [negb] in E; [|now inversion E].
  injection E; intros <- <-. set (s2 := set_amps _ _ _).
  destruct (reset_fields s2) as (A1 & A2 & A3 & A4 & A5 & A6 & A7 & A8 & A9 & A10 & A11).
  unfold bare, core. rewrite A1, A2, A3, A4, A5, A6, A7, A8, A9, A10, A11. cbn. repeat split.
Qed.

Lemma set_pars_new U s y s' r : opt_equal (s_opt s) y = false -> set_pars y s = (s', r) ->
  match amps_of s y with
  | Ok (x, u) => r = Ok tt /\ s_tf s' = fst (call rexp (s_tf s) y) /\ bare U s' = core U s y x u /\ s_udiss s' = s_udiss s /\ s_k s' = k_none (F:=F) /\
      s_n s' = (match c_class (s_conf s) with CMonteCarlo _ => n_none (F:=F) | _ => s_n s end) /\
      s_l s' = (match c_class (s_conf s) with CLindblad l => match li_pref l, li_func l with None, None => s_l s | _, _ => mkl None None end | _ => s_l s end)
  | Err e => r = Err e
  end.
Proof.
  intros Ho E. unfold M_Solver.set_pars, schr_set_pars in E.
  assert (HR : forall s1, s_opt s1 = s_opt s -> s_conf s1 = s_conf s -> s_tf s1 = s_tf s -> s_time s1 = s_time s -> s_drift s1 = s_drift s ->
     opt_equal (s_opt s1) y = false /\ amps_of s1 y = amps_of s y /\ forall x u, core U s1 y x u = core U s y x u).
  { intros s1 H1 H2 H3 H4 H5. unfold amps_of, core. rewrite H1, H2, H3, H4, H5. auto. }
  destruct (reset_fields s) as (A1 & A2 & A3 & A4 & A5 & A6 & A7 & A8 & A9 & A10 & A11).
  destruct (c_class (s_conf s)) as [|m|l] eqn:Hc.
  - rewrite Ho in E. destruct (HR (reset_cached s)) as (B1 & B2 & B3); auto.
    pose proof (@base_set_new U (reset_cached s) y s' r B1 E) as H. rewrite B2 in H. destruct (amps_of s y) as [[x u]|]; auto.
    rewrite B3, A1, A3, A8, Hc, A10, A11 in H. exact H.
  - rewrite Ho in E. set (s1 := reset_cached s) in *. rewrite A5, Ho in E.
    destruct (reset_fields s1) as (D1 & D2 & D3 & D4 & D5 & D6 & D7 & D8 & D9 & D10 & D11).
    destruct (HR (reset_cached s1)) as (B1 & B2 & B3); try congruence.
    pose proof (@base_set_new U (reset_cached s1) y s' r B1 E) as H. rewrite B2 in H. destruct (amps_of s y) as [[x u]|]; auto.
    rewrite B3, D1, A1, D3, A3, D8, A8, Hc, D11, A1, Hc, A11 in H. exact H.
  - rewrite Ho in E. destruct (HR (reset_cached s)) as (B1 & B2 & B3); auto.
    destruct (base_set_pars rexp y (reset_cached s)) as [s1 r1] eqn:E1.
    pose proof (@base_set_new U (reset_cached s) y s1 r1 B1 E1) as H. rewrite B2 in H. destruct (amps_of s y) as [[x u]|].
    + rewrite B3, A1, A3, A8, Hc, A10, A11 in H. destruct H as (-> & H2 & H3 & H4 & H5 & H6 & H7). inversion E; subst r s'.
      destruct (reset_fields s1) as (D1 & D2 & D3 & D4 & D5 & D6 & D7 & D8 & D9 & D10 & D11).
      assert (C1 : s_conf s1 = s_conf s) by exact (f_equal (@s_conf F) H3).
      rewrite D10, D11, D3, D8, D9, C1, Hc, H2, H4, H6, H7. repeat split; auto.
      * rewrite <- H3. unfold bare. rewrite D1, D2, D4, D5, D6, D7. reflexivity.
      * destruct (li_pref l), (li_func l); auto.
    + subst r1. inversion E; auto.
Qed.

(** the dissipation caches survive a change of the parameters when nothing depends on them *)
Lemma IL_set U s s' y x u : derivs_ok (s_conf s) -> IL U s -> bare U s' = core U s y x u -> s_udiss s' = s_udiss s ->
  s_l s' = (match c_class (s_conf s) with CLindblad l => match li_pref l, li_func l with None, None => s_l s | _, _ => mkl None None end | _ => s_l s end) ->
  IL U s'.
Proof.
  intros D I B Hu Hl. assert (C : s_conf s' = s_conf s) by exact (f_equal (@s_conf F) B).
  unfold IL, derivs_ok in *. rewrite C. destruct (c_class (s_conf s)) as [|m|l] eqn:Hc; auto. destruct I as (I1 & I2 & I3).
  assert (Hf : has_fun l \/ (li_pref l = None /\ li_func l = None)).
  { unfold has_fun. destruct (li_pref l), (li_func l); auto; left; [left|left|right]; discriminate. }
  destruct Hf as [Hf|[Hp Hn]].
  - assert (El : s_l s' = mkl None None). { rewrite Hl. destruct Hf; destruct (li_pref l), (li_func l); auto; congruence. }
    rewrite El. cbn. split; [discriminate|]. split; [discriminate|]. intros _. rewrite Hu. apply I3. auto.
  - rewrite Hp, Hn in Hl. rewrite Hl, Hu, B. split.
    { intros ds Hds. rewrite <- (I1 ds Hds). unfold pdiss, calc_diss. rewrite Hp, Hn. cbn [core bare s_udiss].
      destruct (const_diss l U) as [[[|c0 rest]|]|]; auto. destruct (foldE _ rest c0) as [d [e|]]; auto. }
    split; auto. intros dd Hdd. specialize (I2 dd Hdd). exfalso. unfold calc_diss_deriv in I2.
    assert (Hd : li_pref_d l = None /\ li_func_d l = None).
    { destruct (li_pref_d l) eqn:X1, (li_func_d l) eqn:X2; auto; destruct D as [D|D]; try congruence; try (left; congruence); try (right; congruence). }
    destruct Hd as [X1 X2]. rewrite X1, X2 in I2. destruct (s_amps (bare U s)); discriminate.
Qed.

Lemma ready_call_step d ys (t : tf F) y : ready rexp d ys t -> ready rexp d ys (fst (call rexp t y)).
Proof.
  intros (t0 & t1 & sets & evals & A & B & C & D & E). exists t0, t1, sets, (evals ++ [TCall y]).
  repeat split; auto. { apply Forall_app. split; auto. constructor; [|constructor]. exact Logic.I. }
  subst t. unfold do_ops. rewrite fold_left_app. reflexivity.
Qed.

(** reachable states: [s0] is the solver as constructed *)
Record Reach U (d : desc F) (ys : list F) s0 s : Prop := mkReach {
  r_inv : Inv U s;
  r_ready : ready rexp d ys (s_tf s);
  r_core : match s_opt s with
           | None => bare U s = bare U s0
           | Some y => exists f, sstep s0 (SSet y) = (f, Ok VUnit) /\ bare U s = bare U f
           end }.
(** freshly constructed *)
Record Fresh U (d : desc F) (ys : list F) s0 : Prop := mkFresh {
  f_good : good (s_conf s0); f_custom : no_custom d; f_ready : ready rexp d ys (s_tf s0); f_opt : s_opt s0 = None;
  f_k : s_k s0 = k_none (F:=F); f_n : s_n s0 = n_none (F:=F); f_l : s_l s0 = mkl None None; f_u : s_udiss s0 = U }.

Lemma empty_Inv U s : s_k s = k_none (F:=F) -> s_n s = n_none (F:=F) -> IL U s -> Inv U s.
Proof.
  intros H1 H2 H3. split.
  - constructor; auto; unfold k_dyn_ok; rewrite H1; discriminate.
  - destruct (c_class (s_conf s)); auto. constructor; rewrite ?H1, ?H2; try discriminate. split; auto.
Qed.
Lemma fresh_Inv U d ys s0 : Fresh U d ys s0 -> Inv U s0.
Proof.
  intros H. apply empty_Inv; [apply (f_k H)|apply (f_n H)|]. unfold IL. rewrite (f_l H). destruct (c_class (s_conf s0)); auto.
  split; [discriminate|]. split; [discriminate|]. intros _. apply (f_u H).
Qed.
Lemma Inv_n U s : Inv U s -> (match c_class (s_conf s) with CMonteCarlo _ => n_none (F:=F) | _ => s_n s end) = n_none (F:=F).
Proof. intros [_ J]. destruct (c_class (s_conf s)); auto. Qed.

(** a setter call that goes through *)
Lemma set_fresh_like U s y s' v : derivs_ok (s_conf s) -> Inv U s -> opt_equal (s_opt s) y = false -> sstep s (SSet y) = (s', Ok v) ->
  exists x u, amps_of s y = Ok (x, u) /\ v = VUnit /\ s_tf s' = fst (call rexp (s_tf s) y) /\ bare U s' = core U s y x u /\ nocache s' /\ Inv U s'.
Proof.
  intros D I Ho E. cbn [M_Solver.sstep] in E. destruct (set_pars y s) as [s1 r1] eqn:E1.
  pose proof (@set_pars_new U s y s1 r1 Ho E1) as H. destruct (amps_of s y) as [[x u]|e]; [|subst r1; discriminate].
  destruct H as (-> & H2 & H3 & H4 & H5 & H6 & H7). cbn in E. inversion E; subst s1 v. exists x, u. rewrite (Inv_n I) in H6.
  assert (IL' : IL U s') by (eapply IL_set; eauto; apply I).
  split; auto. split; auto. split; auto. split; auto. split; [split; auto|]. now apply empty_Inv.
Qed.

Lemma set_same_core U d ys s0 s y f v : Fresh U d ys s0 -> Reach U d ys s0 s -> opt_equal (s_opt s) y = false -> sstep s (SSet y) = (f, Ok v) ->
  exists f0, sstep s0 (SSet y) = (f0, Ok VUnit) /\ bare U f = bare U f0.
Proof.
  intros F0 R Ho E.
  assert (K : s_conf s = s_conf s0 /\ s_drift s = s_drift s0 /\ s_time s = s_time s0).
  { pose proof (r_core R) as H. destruct (s_opt s) as [y'|].
    - destruct H as (f1 & E1 & B1). cbn [M_Solver.sstep] in E1. destruct (set_pars y' s0) as [q r] eqn:Eq.
      assert (H0 : opt_equal (s_opt s0) y' = false) by now rewrite (f_opt F0).
      pose proof (@set_pars_new U s0 y' q r H0 Eq) as H. destruct (amps_of s0 y') as [[x u]|]; [|subst r; discriminate].
      destruct H as (-> & _ & H3 & _). cbn in E1. inversion E1; subst q. rewrite H3 in B1.
      repeat split; [exact (f_equal (@s_conf F) B1)|exact (f_equal (@s_drift F) B1)|exact (f_equal (@s_time F) B1)].
    - repeat split; [exact (f_equal (@s_conf F) H)|exact (f_equal (@s_drift F) H)|exact (f_equal (@s_time F) H)]. }
  destruct K as (K1 & K2 & K3).
  assert (D : derivs_ok (s_conf s)) by (rewrite K1; apply (g_derivs (f_good F0))).
  destruct (@set_fresh_like U s y f v D (r_inv R) Ho E) as (x & u & A1 & -> & A2 & A3 & A4 & A5).
  assert (A0 : amps_of s0 y = Ok (x, u)).
  { rewrite <- A1. unfold amps_of. rewrite K1, K3. destruct (ready_same (f_custom F0) (f_ready F0) (r_ready R)) as [Hc _]. now rewrite Hc. }
  destruct (sstep s0 (SSet y)) as [f0 r0] eqn:E0. cbn [M_Solver.sstep] in E0. destruct (set_pars y s0) as [q r] eqn:Eq.
  assert (H0 : opt_equal (s_opt s0) y = false) by now rewrite (f_opt F0).
  pose proof (@set_pars_new U s0 y q r H0 Eq) as H. rewrite A0 in H. destruct H as (-> & _ & H3 & _).
  cbn in E0. inversion E0; subst. exists f0. split; auto. rewrite A3, H3. unfold core. now rewrite K1, K2, K3.
Qed.

Lemma reach_step U d ys s0 s o s' v : Fresh U d ys s0 -> Reach U d ys s0 s -> is_read o = true \/ (exists y, o = SSet y) ->
  sstep s o = (s', Ok v) -> Reach U d ys s0 s' /\ (is_read o = true -> s_opt s' = s_opt s) /\ (forall y, o = SSet y -> s_opt s' = Some y).
Proof.
  intros F0 R Ho E.
  assert (K1 : s_conf s = s_conf s0).
  { pose proof (r_core R) as H. destruct (s_opt s) as [y'|].
    - destruct H as (f1 & E1 & B1). cbn [M_Solver.sstep] in E1. destruct (set_pars y' s0) as [q r] eqn:Eq.
      assert (H0 : opt_equal (s_opt s0) y' = false) by now rewrite (f_opt F0).
      pose proof (@set_pars_new U s0 y' q r H0 Eq) as H. destruct (amps_of s0 y') as [[x u]|]; [|subst r; discriminate].
      destruct H as (-> & _ & H3 & _). cbn in E1. inversion E1; subst q. rewrite H3 in B1. exact (f_equal (@s_conf F) B1).
    - exact (f_equal (@s_conf F) H). }
  assert (G : good (s_conf s)) by (rewrite K1; apply (f_good F0)).
  destruct Ho as [Ho|[y ->]].
  - destruct (@read_step F rexp la eps U s o s' (Ok v) Ho G (r_inv R) E) as (K & V & _). destruct (V v eq_refl) as [I' _].
    destruct (conf_keeps K) as (_ & _ & _ & _ & O & _). destruct K as [T B]. split.
    + constructor; auto. { rewrite T. apply (r_ready R). } rewrite O, B. apply (r_core R).
    + split; auto. intros y ->. discriminate.
  - destruct (opt_equal (s_opt s) y) eqn:Eo.
    + cbn [M_Solver.sstep] in E. rewrite set_pars_known in E by auto. cbn in E. inversion E; subst s'. split; auto. split; [discriminate|].
      intros y' Hy. inversion Hy; subst. now apply opt_equal_eq.
    + destruct (@set_fresh_like U s y s' v (g_derivs G) (r_inv R) Eo E) as (x & u & A1 & -> & A2 & A3 & A4 & A5).
      assert (O : s_opt s' = Some y) by exact (f_equal (@s_opt F) A3).
      split. { constructor; auto. { rewrite A2. apply ready_call_step, (r_ready R). } rewrite O. now apply (@set_same_core U d ys s0 s y s' VUnit). }
      split; [discriminate|]. intros y' Hy. congruence.
Qed.


Lemma fresh_reach U d ys s0 : Fresh U d ys s0 -> Reach U d ys s0 s0.
Proof. intros H. constructor; [eapply fresh_Inv; eauto|apply (f_ready H)|]. now rewrite (f_opt H). Qed.

Lemma history U d ys s0 hist : Fresh U d ys s0 -> Forall allowed hist -> forall s, Reach U d ys s0 s -> all_ok s hist ->
  Reach U d ys s0 (srun s hist) /\ s_opt (srun s hist) = fold_left (fun acc o => match o with SSet y => Some y | _ => acc end) hist (s_opt s).
Proof.
  intros F0. induction hist as [|o hist IH]; intros A s R H; [split; auto|].
  inversion A; subst. destruct H as [[v Hv] H]. destruct (sstep s o) as [s' r] eqn:E. cbn [fst snd] in Hv, H. subst r.
  destruct (@reach_step U d ys s0 s o s' v F0 R H2 E) as (R' & O1 & O2).
  destruct (IH H3 s' R' H) as [P Q]. change (srun s (o :: hist)) with (srun (fst (sstep s o)) hist). rewrite E. cbn [fst fold_left].
  split; auto. rewrite Q. f_equal. destruct H2 as [Hr|[y ->]]; [|auto]. rewrite O1 by auto. destruct o; try discriminate; auto.
Qed.

(** every read after a history of successful calls is that of a fresh solver with the last parameters *)
Lemma coherent U d ys s0 hist o v : Fresh U d ys s0 -> Forall allowed hist -> all_ok s0 hist -> is_read o = true ->
  snd (sstep (srun s0 (match last_set hist with Some y => [SSet y] | None => [] end)) o) = Ok v ->
  snd (sstep (srun s0 hist) o) = Ok v.
Proof.
  intros F0 A H Ho Hv. destruct (@history U d ys s0 hist F0 A s0 (fresh_reach F0) H) as [R O]. rewrite (f_opt F0) in O.
  set (s := srun s0 hist) in *. fold (last_set hist) in O. 
  assert (G0 := f_good F0).
  pose proof (r_core R) as C. rewrite O in C. destruct (last_set hist) as [y|].
  - destruct C as (f & Ef & B). unfold M_Solver.srun in Hv. cbn [fold_left] in Hv. rewrite Ef in Hv. cbn [fst] in Hv.
    assert (H0 : opt_equal (s_opt s0) y = false) by now rewrite (f_opt F0).
    destruct (@set_fresh_like U s0 y f VUnit (g_derivs G0) (fresh_Inv F0) H0 Ef) as (x & u & A1 & _ & A2 & A3 & A4 & A5).
    assert (K : s_conf s = s_conf s0) by (transitivity (s_conf f); [exact (f_equal (@s_conf F) B)|exact (f_equal (@s_conf F) A3)]).
    apply (@read_coherent F rexp la eps U s f o v); auto; [now rewrite K|apply (r_inv R)].
  - assert (K : s_conf s = s_conf s0) by exact (f_equal (@s_conf F) C).
    apply (@read_coherent F rexp la eps U s s0 o v); auto; [now rewrite K|apply (r_inv R)|eapply fresh_Inv; eauto|split; [apply (f_k F0)|apply (f_n F0)]].
Qed.

(** what a read returns, in terms of the parameters *)
Lemma reach_value U d ys s0 hist o v : Fresh U d ys s0 -> Forall allowed hist -> all_ok s0 hist -> is_read o = true ->
  snd (sstep (srun s0 hist) o) = Ok v -> rval la eps U (srun s0 hist) o v.
Proof.
  intros F0 A H Ho Hv. destruct (@history U d ys s0 hist F0 A s0 (fresh_reach F0) H) as [R O].
  destruct (sstep (srun s0 hist) o) as [s' r] eqn:E. cbn in Hv. subst r.
  assert (K1 : s_conf (srun s0 hist) = s_conf s0).
  { pose proof (r_core R) as C. destruct (s_opt (srun s0 hist)) as [y'|].
    - destruct C as (f1 & E1 & B1). assert (H0 : opt_equal (s_opt s0) y' = false) by now rewrite (f_opt F0).
      destruct (@set_fresh_like U s0 y' f1 VUnit (g_derivs (f_good F0)) (fresh_Inv F0) H0 E1) as (x & u & A1 & _ & A2 & A3 & A4 & A5).
      transitivity (s_conf f1); [exact (f_equal (@s_conf F) B1)|exact (f_equal (@s_conf F) A3)].
    - exact (f_equal (@s_conf F) C). }
  assert (G : good (s_conf (srun s0 hist))) by (rewrite K1; apply (f_good F0)).
  destruct (@read_step F rexp la eps U _ o s' (Ok v) Ho G (r_inv R) E) as (_ & V & _). now apply V.
Qed.

(** construction *)
Lemma build_fresh cls drift ctrl tau init amps meth skew calc approx d (t : tf F) a udiss s0 :
  build d = Ok t -> no_custom d -> build_solver cls drift ctrl tau init amps meth skew calc approx t a udiss = Ok s0 -> good (s_conf s0) ->
  Fresh udiss d tau s0.
Proof.
  intros Hd Hc H G. unfold build_solver in H. destruct (idx ctrl 0) as [h0|]; [|discriminate]. cbn [bind] in H.
  destruct (set_times t tau) as [t' r] eqn:Et. destruct r as [[]|]; [|discriminate]. cbn [bind] in H.
  destruct (b_xt (tbase t')) as [xs|]; [|discriminate].
  destruct (_ || _); [|discriminate]. destruct (forallb _ ctrl); [|discriminate]. destruct (forallb _ _); [|discriminate].
  inversion H; subst s0. constructor; auto.
  exists t, t', [], []. repeat split; auto.
Qed.
End Coherent6.
