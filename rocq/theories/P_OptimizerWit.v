(** Concrete simulators and runs for the optimiser theorems, and the runs that refute properties. *)
Require Import List Arith ZArith QArith Qcanon Bool Lia Reals Lra String.
From Verif Require Import LibBase LibRing LibArr LibCplx LibMat LibEx M_OpHeap S_Deriv M_Optimizer S_Optimizer P_Optimizer P_Optimizer2 P_Optimizer3 M_Anneal S_Anneal P_Anneal.
Import ListNotations.
Open Scope nat_scope.
Set Implicit Arguments.
Local Notation length := List.length.

(** ---- a simulator with two costs of a 2 x 2 pulse: y00 * y01 and y10 + y11; its state counts the calls ---- *)
Section Two.
Variable F : OField.
Notation arrF := (arr (kcar F)).
Definition phi2 (y : arrF) : list F := [kmul (get2 k0 y 0 0) (get2 k0 y 0 1); kadd (get2 k0 y 1 0) (get2 k0 y 1 1)].
Definition J2 (y : arrF) : arrF := mk3 2 2 2 (fun t f c =>
  match f, t, c with 0, 0, 0 => get2 k0 y 0 1 | 0, 0, 1 => get2 k0 y 0 0 | 0, _, _ => k0 | _, 0, _ => k0 | _, _, _ => k1 end).
Definition sc2 (y : arrF) (w : nat) : nat * res (list F) := (S w, Ok (phi2 y)).
Definition sj2 (y : arrF) (w : nat) : nat * res arrF := (S w, Ok (J2 y)).
Lemma sim2 : simulates sc2 sj2 2 2 2 phi2 J2.
Proof. intros y w Hy. split; [reflexivity|]. split; [reflexivity|]. split; [reflexivity|apply wfa_mk3]. Qed.
Lemma costs2 : has_costs sc2 sj2 2 2 2.
Proof. split; intros y w w' r; [|intros _]; unfold sc2, sj2; intros E; inversion E; [reflexivity|apply wfa_mk3]. Qed.
Definition y2 (a b c d : F) : arrF := mk2 2 2 (fun t k => match t, k with 0, 0 => a | 0, _ => b | _, 0 => c | _, _ => d end).
Definition cf2 (ws : option (list F)) (jac : bool) : @oconf F := mkoc ws true jac (kofnat 10).
End Two.
Arguments y2 {F}. Arguments cf2 {F}.
Lemma jac2 (y : arr R) : jacobian_of 2 2 2 (@phi2 RField) (@J2 RField) y.
Proof.
  assert (C : forall a : R, derivable_pt_lim (fun _ => a) 0%R 0%R) by (intros; apply derivable_pt_lim_const).
  assert (I : forall a b : R, derivable_pt_lim (fun s => ((a + s) * b)%R) 0%R b).
  { intros a b eps He. exists (mkposreal 1 Rlt_0_1). intros h Hh _. match goal with |- (Rabs ?e < _)%R => replace e with 0%R by (field; auto) end. rewrite Rabs_R0. exact He. }
  assert (I' : forall a b : R, derivable_pt_lim (fun s => (b * (a + s))%R) 0%R b).
  { intros a b eps He. exists (mkposreal 1 Rlt_0_1). intros h Hh _. match goal with |- (Rabs ?e < _)%R => replace e with 0%R by (field; auto) end. rewrite Rabs_R0. exact He. }
  assert (P : forall a b : R, derivable_pt_lim (fun s => (a + s + b)%R) 0%R 1%R).
  { intros a b eps He. exists (mkposreal 1 Rlt_0_1). intros h Hh _. match goal with |- (Rabs ?e < _)%R => replace e with 0%R by (field; auto) end. rewrite Rabs_R0. exact He. }
  assert (P' : forall a b : R, derivable_pt_lim (fun s => (b + (a + s))%R) 0%R 1%R).
  { intros a b eps He. exists (mkposreal 1 Rlt_0_1). intros h Hh _. match goal with |- (Rabs ?e < _)%R => replace e with 0%R by (field; auto) end. rewrite Rabs_R0. exact He. }
  intros t f c Ht Hf Hc. unfold is_partial, J2. rewrite get3_mk3 by auto.
  qidx; unfold bump, phi2; cbn [nth]; eapply (@deriv_ext (fun s => _)); try (intros e; rewrite !get2_mk2 by lia; cbn; reflexivity); cbn; try apply C; try apply I; try apply I'; try apply P; try apply P'.
Qed.

(** ---- states in use, over any field ---- *)
Section Use.
Variable F : OField.
Notation arrF := (arr (kcar F)).
Add Field Kfield_ow : (k_field F).
Definition yu : arrF := y2 (kofnat 2) (kofnat 3) k1 (kofnat 4) : arrF.
Definition su ws : @ost F nat := orun (@sc2 F) (@sj2 F) (cf2 ws true) (prepare (cf2 ws true) 2 2 k1 (new_optimizer 0)) [OAlloc (flatten yu); OCost 0 k1; OJac (flatten yu)].
Lemma su_use ws : in_use (@sc2 F) (@sj2 F) (cf2 ws true) 2 2 k1 (su ws).
Proof. eexists. eexists. reflexivity. Qed.
Lemma yu_same : same_parameters 2 2 yu (flatten yu).
Proof. apply flatten_same. apply wfa_mk2. Qed.
Lemma now_ok : kle (ksub k1 k1) (kofnat 10 : F).
Proof. replace (ksub k1 k1 : F) with (k0 : F) by ring. apply kofnat_nonneg. Qed.
Lemma w2_ok (a b : F) : forall ws, oc_weights (cf2 (Some [a; b]) true) = Some ws -> length ws = 2.
Proof. cbn. intros ws E. now inversion E. Qed.
Lemma w2_none jac : forall ws, oc_weights (cf2 (F:=F) None jac) = Some ws -> length ws = 2.
Proof. cbn. discriminate. Qed.
End Use.

(** ---- runs over the rationals ---- *)
Definition is_wall {A} (r : res A) : bool := match r with Err WallTimeExceeded => true | _ => false end.
Lemma is_wall_ok A (r : res A) : is_wall r = true -> r = Err WallTimeExceeded.
Proof. destruct r as [a|[]]; cbn; congruence. Qed.
Local Notation Q := QcField.
Local Notation qi n := (qq n 1).
Local Notation qarr := (arr (kcar QcField)).
(** evaluates at x0, takes the jacobian, evaluates at two other points and asks once more when the time is over *)
Definition prog (x0 : qarr) : @algo Q :=
  AskCost x0 (qi 1) (fun _ => AskJac x0 (fun _ => AskCost (Arr [4] [qi 1; qi 0; qi 1; qi 2]) (qi 2) (fun _ => AskCost (Arr [4] [qi 3; qi 1; qi 1; qi 2]) (qi 3) (fun _ =>
    AskCost x0 (qi 100) (fun _ => Stop (mksci x0 x0 x0 0 0)))))).
Definition rs0 : @ost Q (@record Q nat) := new_optimizer (0, [], []).
Local Notation run2 kd cf := (run_optimization (rec_costs (@sc2 Q)) (rec_jac (@sj2 Q)) kd LBFGSB cf (yu Q) (qi 0) prog rs0).
Lemma stopped2 kd ws jac : (ws = None \/ ws = Some [qi 2; qi 3]) -> stopped (rec_costs (@sc2 Q)) (rec_jac (@sj2 Q)) kd LBFGSB (cf2 ws true) (yu Q) (qi 0) prog rs0 /\
   (jac = true -> exists s' r, run2 kd (cf2 ws jac) = (s', Ok r)).
Proof.
  intros Hw. split; [apply is_wall_ok; destruct kd, Hw; subst; vm_compute; reflexivity|]. intros ->.
  assert (H : match run2 kd (cf2 ws true) with (_, Ok _) => true | _ => false end = true) by (destruct kd, Hw; subst; vm_compute; reflexivity).
  destruct (run2 kd (cf2 ws true)) as [s' [r|]]; [eauto|discriminate].
Qed.
Lemma stopped2_dims : dim0 (yu Q) = 2 /\ dim1 (yu Q) = 2.
Proof. split; reflexivity. Qed.
(** a thin pulse: two steps, one control, costs y0 * y1 *)
Definition yt : qarr := mk2 2 1 (fun t _ => qi (Z.of_nat (t + 3))).
Definition sct (y : qarr) (w : nat) : nat * res (list Q) := (S w, Ok [kmul (get2 k0 y 0 0) (get2 k0 y 1 0)]).
Definition sjt (y : qarr) (w : nat) : nat * res qarr := (S w, Ok (mk3 2 1 1 (fun t _ _ => get2 k0 y (1 - t) 0))).
Definition progt (x0 : qarr) : @algo Q :=
  AskCost x0 (qi 1) (fun _ => AskCost (Arr [2] [qi 1; qi (-2)]) (qi 2) (fun _ => AskCost x0 (qi 100) (fun _ => Stop (mksci x0 x0 x0 0 0)))).
Lemma costst : has_costs sct sjt 2 1 1.
Proof. split; intros y w w' r; [|intros _]; unfold sct, sjt; intros E; inversion E; [reflexivity|apply wfa_mk3]. Qed.
Lemma stoppedt kd : stopped (rec_costs sct) (rec_jac sjt) kd LBFGSB (cf2 None true) yt (qi 0) progt rs0 /\
  exists s' r, run_optimization (rec_costs sct) (rec_jac sjt) kd LBFGSB (cf2 None true) yt (qi 0) progt rs0 = (s', Ok r).
Proof.
  split; [apply is_wall_ok; destruct kd; vm_compute; reflexivity|].
  assert (H : match run_optimization (rec_costs sct) (rec_jac sjt) kd LBFGSB (cf2 None true) yt (qi 0) progt rs0 with (_, Ok _) => true | _ => false end = true) by (destruct kd; vm_compute; reflexivity).
  destruct (run_optimization _ _ kd _ _ _ _ _ _) as [s' [r|]]; [eauto|discriminate].
Qed.

(** ---- a history with failing calls ---- *)
Definition hist : list (oev Q) := [OAlloc (flatten (yu Q)); OCost 0 (qi 1); OAlloc (Arr [3] [qi 1; qi 2; qi 3]); OCost 2 (qi 1); OJac (flatten (yu Q)); OAlloc (Arr [4] [qi 1; qi 0; qi 1; qi 2]); OCost 3 (qi 2); OCost 0 (qi 50); OJac (Arr [1] [qi 1])].
Lemma hist_ok : Forall no_poke hist.
Proof. repeat constructor. Qed.
Lemma hist_counts : let s := orun (rec_costs (@sc2 Q)) (rec_jac (@sj2 Q)) (cf2 None true) (prepare (cf2 None true) 2 2 (qi 0) rs0) hist in o_nc s = 2 /\ o_nj s = 1.
Proof. split; vm_compute; reflexivity. Qed.

(** ---- refutations ---- *)
(** weights: one cost, weight 2, values 3 then 4: the second evaluation replaces the first, and the stored costs are 8 *)
Definition sc1 (y : qarr) (w : nat) : nat * res (list Q) := (S w, Ok [get2 k0 y 0 0]).
Definition sj1 (y : qarr) (w : nat) : nat * res qarr := (S w, Ok (mk3 1 1 1 (fun _ _ _ => k1))).
Lemma costs1 : has_costs sc1 sj1 1 1 1.
Proof. split; intros y w w' r; [|intros _]; unfold sc1, sj1; intros E; inversion E; [reflexivity|apply wfa_mk3]. Qed.
Definition cf1 : @oconf Q := mkoc (Some [qi 2]) true true (qi 10).
Definition h1 : list (oev Q) := [OAlloc (Arr [1] [qi 3]); OCost 0 (qi 1); OAlloc (Arr [1] [qi 4]); OCost 2 (qi 2)].
Definition s1 := orun (rec_costs sc1) (rec_jac sj1) cf1 (prepare cf1 1 1 (qi 0) rs0) h1.
Definition head (l : list Q) : Q := nth 0 l k0.
Theorem best_weighted_refuted : exists W (simc : qarr -> W -> W * res (list Q)) simj cf nt nc n (s : @ost Q (@record Q W)) w now h, has_costs simc simj nt nc n /\
  (forall ws, oc_weights cf = Some ws -> length ws = n) /\ o_w s = (w, [], []) /\ Forall no_poke h /\
  let s' := orun (rec_costs simc) (rec_jac simj) cf (prepare cf nt nc now s) h in
  exists w' lc lj a p, o_w s' = (w', lc, lj) /\ o_min s' = Some a /\ o_par s' = Some p /\
    (forall y v, In (y, v) lc -> cells_of s' a <> v) /\ (forall i y v, is_best lc i y v -> view_of s' p <> y).
Proof.
  exists nat, sc1, sj1, cf1, 1, 1, 1, rs0, 0, (qi 0), h1. split; [apply costs1|]. split; [intros ws E; now inversion E|]. split; [reflexivity|]. split; [repeat constructor|].
  intros s'. assert (Es : s' = s1) by (unfold s1, s'; reflexivity). clearbody s'. subst s'.
  exists (fst (fst (o_w s1))), (snd (fst (o_w s1))), (snd (o_w s1)), 3, (mkview 2 1 1).
  assert (M : o_min s1 = Some 3) by (vm_compute; reflexivity). assert (P : o_par s1 = Some (mkview 2 1 1)) by (vm_compute; reflexivity).
  split; [now destruct (o_w s1) as [[? ?] ?]|]. split; [exact M|]. split; [exact P|]. set (lc := snd (fst (o_w s1))). split.
  - assert (T : forallb (fun e => negb (keqb (head (snd e)) (head (cells_of s1 3)))) lc = true) by (vm_compute; reflexivity).
    intros y v Hin E. rewrite forallb_forall in T. specialize (T _ Hin). cbn [snd] in T. rewrite <- E in T. apply negb_true_iff in T. assert (keqb (head (cells_of s1 3)) (head (cells_of s1 3)) = true) by now apply keqb_eq. congruence.
  - assert (L : length lc = 2) by (vm_compute; reflexivity).
    assert (T0 : keqb (get2 k0 (view_of s1 (mkview 2 1 1)) 0 0) (get2 k0 (fst (nth 0 lc (Arr [] [], []))) 0 0) = false) by (vm_compute; reflexivity).
    assert (T1 : kltb (sumsq (snd (nth 0 lc (Arr [] [], [])))) (sumsq (snd (nth 1 lc (Arr [] [], [])))) = true) by (vm_compute; reflexivity).
    intros i y v [B1 B2] E. assert (Hi : i < 2) by (rewrite <- L; apply nth_error_Some; congruence). pose proof (nth_error_nth lc i (Arr [] [], []) B1) as N. assert (i = 0 \/ i = 1) as [->| ->] by lia.
    + rewrite N in T0. cbn [fst] in T0. rewrite E in T0. assert (keqb (get2 k0 y 0 0) (get2 k0 y 0 0) = true) by now apply keqb_eq. congruence.
    + assert (H0 : nth_error lc 0 = Some (nth 0 lc (Arr [] [], []))) by (apply nth_error_nth'; lia). destruct (nth 0 lc (Arr [] [], [])) as [y0 v0]. destruct (B2 0 y0 v0 H0) as [Q1 _].
      cbn [snd] in T1. rewrite N in T1. cbn [snd] in T1. apply kltb_t in T1. apply klt_nle in T1. contradiction.
Qed.
(** the caller writes to the array it has passed *)
Definition cf0 : @oconf Q := mkoc None true true (qi 10).
Definition h0 : list (oev Q) := [OAlloc (Arr [1] [qi 3]); OCost 0 (qi 1); OPoke 0 (Arr [1] [qi 4])].
Definition s0p := orun (rec_costs sc1) (rec_jac sj1) cf0 (prepare cf0 1 1 (qi 0) rs0) h0.
Theorem best_alias_refuted : exists W (simc : qarr -> W -> W * res (list Q)) simj cf nt nc n (s : @ost Q (@record Q W)) w now h, has_costs simc simj nt nc n /\
  oc_weights cf = None /\ o_w s = (w, [], []) /\
  let s' := orun (rec_costs simc) (rec_jac simj) cf (prepare cf nt nc now s) h in
  exists w' lc lj p, o_w s' = (w', lc, lj) /\ o_par s' = Some p /\ lc <> [] /\ forall y v, In (y, v) lc -> view_of s' p <> y.
Proof.
  exists nat, sc1, sj1, cf0, 1, 1, 1, rs0, 0, (qi 0), h0. split; [apply costs1|]. split; [reflexivity|]. split; [reflexivity|]. intros s'. assert (Es : s' = s0p) by (unfold s0p, s'; reflexivity). clearbody s'. subst s'.
  exists (fst (fst (o_w s0p))), (snd (fst (o_w s0p))), (snd (o_w s0p)), (mkview 0 1 1).
  assert (P : o_par s0p = Some (mkview 0 1 1)) by (vm_compute; reflexivity). split; [now destruct (o_w s0p) as [[? ?] ?]|]. split; [exact P|]. set (lc := snd (fst (o_w s0p))).
  assert (L : length lc = 1) by (vm_compute; reflexivity). split; [intros E; rewrite E in L; discriminate|].
  assert (T : forallb (fun e => negb (keqb (get2 k0 (fst e) 0 0) (get2 k0 (view_of s0p (mkview 0 1 1)) 0 0))) lc = true) by (vm_compute; reflexivity).
  intros y v Hin E. rewrite forallb_forall in T. specialize (T _ Hin). cbn [fst] in T. rewrite E in T. apply negb_true_iff in T. assert (keqb (get2 k0 y 0 0) (get2 k0 y 0 0) = true) by now apply keqb_eq. congruence.
Qed.
(** the gradient of a stopped run is taken at other parameters when there are several steps and several controls *)
Theorem stopped_gradient_refuted : exists W (simc : qarr -> W -> W * res (list Q)) simj kd me cf y0 t0 sp n (s s' : @ost Q (@record Q W)) r w, has_costs simc simj (dim0 y0) (dim1 y0) n /\
  o_w s = (w, [], []) /\ oc_weights cf = None /\ oc_jac cf = true /\ stopped (rec_costs simc) (rec_jac simj) kd me cf y0 t0 sp s /\ run_optimization (rec_costs simc) (rec_jac simj) kd me cf y0 t0 sp s = (s', Ok r) /\
  exists y, r_pars r = Some y /\ exists s2 m, call_jac (rec_jac simj) kd cf (flatten y) s' = (s2, Ok m) /\ r_grad r <> Some (sumsq (data m)).
Proof.
  exists nat, (@sc2 Q), (@sj2 Q), LeastSquares, LBFGSB, (cf2 None true), (yu Q), (qi 0), prog, 2, rs0. destruct (proj2 (@stopped2 LeastSquares None true (or_introl eq_refl)) eq_refl) as (s' & r & E).
  exists s', r, 0. split; [apply costs2|]. split; [reflexivity|]. split; [reflexivity|]. split; [reflexivity|]. split; [apply (@stopped2 LeastSquares None true (or_introl eq_refl))|]. split; [exact E|].
  assert (T : match run2 LeastSquares (cf2 None true) with (s1, Ok r1) => match r_pars r1, r_grad r1 with Some y, Some g => match call_jac (rec_jac (@sj2 Q)) LeastSquares (cf2 None true) (flatten y) s1 with
      (_, Ok m) => negb (keqb g (sumsq (data m))) | _ => false end | _, _ => false end | _ => false end = true) by (vm_compute; reflexivity).
  rewrite E in T. destruct (r_pars r) as [y|]; [|discriminate]. exists y. split; auto. destruct (r_grad r) as [g|]; [|discriminate]. destruct (call_jac _ _ _ _ _) as [s2 [m|]]; [|discriminate].
  exists s2, m. split; auto. intros Q1. inversion Q1; subst. apply negb_true_iff in T. assert (keqb (sumsq (data m)) (sumsq (data m)) = true) by now apply keqb_eq. congruence.
Qed.
(** without jacobian functions the gradient norm is reported as zero *)
Theorem stopped_no_jacobian_refuted : exists W (simc : qarr -> W -> W * res (list Q)) simj kd me cf y0 t0 sp n (s s' : @ost Q (@record Q W)) r w, has_costs simc simj (dim0 y0) (dim1 y0) n /\
  o_w s = (w, [], []) /\ oc_weights cf = None /\ dim1 y0 = 1 /\ stopped (rec_costs simc) (rec_jac simj) kd me cf y0 t0 sp s /\ run_optimization (rec_costs simc) (rec_jac simj) kd me cf y0 t0 sp s = (s', Ok r) /\
  exists y, r_pars r = Some y /\ exists s2 m, call_jac (rec_jac simj) kd cf (flatten y) s' = (s2, Ok m) /\ r_grad r = Some k0 /\ r_grad r <> Some (sumsq (data m)).
Proof.
  set (pr := fun x0 : qarr => AskCost x0 (qi 1) (fun _ => AskCost x0 (qi 100) (fun _ => Stop (mksci x0 x0 x0 0 0))) : @algo Q).
  set (ru := run_optimization (rec_costs sct) (rec_jac sjt) LeastSquares LBFGSB (cf2 None false) yt (qi 0) pr rs0).
  exists nat, sct, sjt, LeastSquares, LBFGSB, (cf2 None false), yt, (qi 0), pr, 1, rs0. 
  assert (T : match ru with (s1, Ok r1) => match r_pars r1, r_grad r1 with Some y, Some g => match call_jac (rec_jac sjt) LeastSquares (cf2 None false) (flatten y) s1 with
      (_, Ok m) => keqb g k0 && negb (keqb g (sumsq (data m))) | _ => false end | _, _ => false end | _ => false end = true) by (vm_compute; reflexivity).
  destruct ru as [s' [r|]] eqn:E; [|discriminate].
  exists s', r, 0. split; [apply costst|]. split; [reflexivity|]. split; [reflexivity|]. split; [reflexivity|]. split; [apply is_wall_ok; vm_compute; reflexivity|]. split; [unfold ru in E; exact E|].
  destruct (r_pars r) as [y|]; [|discriminate]. exists y. split; auto. destruct (r_grad r) as [g|]; [|discriminate]. destruct (call_jac _ _ _ _ _) as [s2 [m|]]; [|discriminate].
  apply andb_true_iff in T. destruct T as [T0 T]. apply keqb_eq in T0. exists s2, m. split; auto. split; [now rewrite T0|]. intros Q1. inversion Q1. rewrite H0 in T. apply negb_true_iff in T. assert (keqb (sumsq (data m)) (sumsq (data m)) = true) by now apply keqb_eq. congruence.
Qed.
(** the time is over before the first evaluation: the run raises *)
Theorem stopped_early_refuted : exists W (simc : qarr -> W -> W * res (list Q)) simj kd me cf y0 t0 sp n (s s' : @ost Q (@record Q W)) w, has_costs simc simj (dim0 y0) (dim1 y0) n /\
  o_w s = (w, [], []) /\ oc_weights cf = None /\ stopped (rec_costs simc) (rec_jac simj) kd me cf y0 t0 sp s /\ run_optimization (rec_costs simc) (rec_jac simj) kd me cf y0 t0 sp s = (s', Err AttributeError).
Proof.
  set (pr := fun x0 : qarr => AskCost x0 (qi 100) (fun _ => Stop (mksci x0 x0 x0 0 0)) : @algo Q).
  set (ru := run_optimization (rec_costs sct) (rec_jac sjt) LeastSquares LBFGSB (cf2 None true) yt (qi 0) pr rs0).
  exists nat, sct, sjt, LeastSquares, LBFGSB, (cf2 None true), yt, (qi 0), pr, 1, rs0, (fst ru), 0. split; [apply costst|]. split; [reflexivity|]. split; [reflexivity|]. split; [apply is_wall_ok; vm_compute; reflexivity|].
  assert (T : match snd ru with Err AttributeError => true | _ => false end = true) by (vm_compute; reflexivity).
  assert (T2 : ru = (fst ru, Err AttributeError)) by (destruct ru as [s' [r|[]]]; try discriminate; reflexivity). unfold ru in T2 |- *. exact T2.
Qed.

(** ---- annealing ---- *)
Definition ann : @annealer Q := mkann (mk2 2 1 (fun _ _ => qi (-1))) (mk2 2 1 (fun t _ => qi (Z.of_nat t + 1))) (SInt 2) (qq 1 2) (fun x => x).
Definition arnd : arr Z := mk2 2 1 (fun t _ => if Nat.eqb t 0 then 2%Z else (-2)%Z).
Definition amask : qarr := mk2 2 1 (fun t _ => if Nat.eqb t 0 then qq 1 4 else qq 3 4).
Definition apul : qarr := mk2 2 1 (fun t _ => qq 1 2).
Lemma ann_bounds : bounds_ok 2 1 ann.
Proof. split; [apply wfa_mk2|]. split; [apply wfa_mk2|]. intros t c Ht Hc. qidx; (split; [vm_compute; reflexivity|split; reflexivity]). Qed.
Lemma arnd_drawn : drawn 2 1 2 arnd.
Proof. split; [apply wfa_mk2|]. intros t c Ht Hc. qidx; vm_compute; split; discriminate. Qed.
Lemma apul_inside : inside 2 1 (an_lo ann) (an_hi ann) apul.
Proof. split; [apply wfa_mk2|]. intros t c Ht Hc. qidx; split; vm_compute; reflexivity. Qed.
Lemma adraws : draws_ok 2 1 2 [AMove arnd amask; AMove arnd amask; @ABack Q 1; AMove arnd amask].
Proof. unfold draws_ok. repeat apply Forall_cons; auto using arnd_drawn. Qed.
(** an array of integers cannot hold the bound 1/2 *)
Definition trunc (x : Q) : Q := if kltb x k1 then k0 else x.
Definition annz : @annealer Q := mkann (mk2 1 1 (fun _ _ => qq 1 2)) (mk2 1 1 (fun _ _ => qi 3)) (SInt 1) k1 trunc.
Theorem move_integer_refuted : exists T C z (a : @annealer Q) rnd mask p p', wfa [T; C] (an_lo a) /\ wfa [T; C] (an_hi a) /\
  (forall t c, t < T -> c < C -> kle (get2 k0 (an_lo a) t c) (get2 k0 (an_hi a) t c)) /\ an_step a = SInt z /\ (0 < z)%Z /\ drawn T C z rnd /\ inside T C (an_lo a) (an_hi a) p /\
  move a rnd mask p = Ok p' /\ ~ inside T C (an_lo a) (an_hi a) p'.
Proof.
  set (p := mk2 1 1 (fun _ _ => qi 1) : qarr). set (r := mk2 1 1 (fun _ _ => (-1)%Z)). set (m := mk2 1 1 (fun _ _ => k0) : qarr).
  assert (exists p', move annz r m p = Ok p' /\ kleb (get2 k0 (an_lo annz) 0 0) (get2 k0 p' 0 0) = false) as (p' & E & L).
  { assert (T : match move annz r m p with Ok p' => negb (kleb (get2 k0 (an_lo annz) 0 0) (get2 k0 p' 0 0)) | _ => false end = true) by (vm_compute; reflexivity).
    destruct (move annz r m p) as [p'|]; [|discriminate]. exists p'. split; auto. now apply negb_true_iff. }
  exists 1, 1, 1%Z, annz, r, m, p, p'. split; [apply wfa_mk2|]. split; [apply wfa_mk2|]. split; [intros; qidx; vm_compute; reflexivity|]. split; [reflexivity|]. split; [lia|].
  split; [split; [apply wfa_mk2|intros; qidx; vm_compute; split; discriminate]|]. split; [split; [apply wfa_mk2|intros; qidx; split; vm_compute; reflexivity]|]. split; [exact E|].
  intros [_ H]. destruct (H 0 0) as [H1 _]; auto. unfold kle in H1. congruence.
Qed.

(** ---- termination conditions ---- *)
Open Scope string_scope.
Definition tdef : dict Z := [("min_gradient_norm", 1%Z); ("max_wall_time", 600%Z); ("max_iterations", 10000%Z)].
Definition tevs : list (tev Z) := [TNew None; TNew (Some [("max_iterations", 5%Z); ("max_wall_time", 1%Z)]); TAnneal Z; TNew (Some [("other", 7%Z)])].
Lemma tdef_distinct : distinct_keys tdef.
Proof. unfold distinct_keys. cbn. repeat constructor; cbn; intuition discriminate. Qed.
Lemma tevs_ok : Forall args_ok tevs.
Proof. repeat constructor; cbn; intuition discriminate. Qed.
(** another optimiser, constructed later, changes the conditions of the first; constructed earlier too *)
Theorem conditions_refuted : exists (defaults : dict Z) long evs i j k e1 e2, distinct_keys defaults /\ Forall args_ok evs /\
  nth_error evs i = Some e1 /\ nth_error evs j = Some e2 /\ i < j /\
  read_condition (fold_left (construct long) evs ([defaults], [])) i k <> match overridden defaults [given long e1] k with Some v => Ok v | None => Err KeyError end /\
  exists k', read_condition (fold_left (construct long) evs ([defaults], [])) j k' <> match overridden defaults [given long e2] k' with Some v => Ok v | None => Err KeyError end.
Proof.
  exists tdef, 100000000%Z, tevs, 0, 3, "max_wall_time", (TNew None), (TNew (Some [("other", 7%Z)])). split; [apply tdef_distinct|]. split; [apply tevs_ok|]. split; [reflexivity|]. split; [reflexivity|].
  split; [lia|]. split; [vm_compute; discriminate|]. exists "max_iterations". vm_compute. discriminate.
Qed.
