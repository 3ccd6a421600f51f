(** Concrete cases for the interface to filter_functions: a package that fulfils the contracts, a spin with two controls, a
    solver with eleven controls, a Monte Carlo solver. *)
Require Import String List Arith Lia ZArith QArith Qcanon Bool Permutation Sorting.Sorted.
From Verif Require Import LibBase LibRing LibArr LibCplx LibNorm LibMat LibEx M_Matrix S_Linear P_Linear M_Transfer S_Transfer M_Amplitude P_TransferWit M_Solver S_Solver
  P_Solver7 P_SolverWit P_SolverCases M_FilterFn S_FilterFn P_FilterFn P_FilterFn2 P_FilterFn3 P_FilterFn4 P_FilterFn5.
Import ListNotations.
Open Scope nat_scope.
Open Scope res_scope.
Set Implicit Arguments.

(** ---- a package ---- *)
Section Package.
Variable F : OField.
Variable la : LinAlg F.
Variable n : nat.
Variable c : @sconf F.
Notation op := (op F).
Notation S := (CStar F).
Notation dop := (Arr [] [] : op).
Notation term := (term F).
Fixpoint insert (x : triple F) (l : list (triple F)) : list (triple F) :=
  match l with [] => [x] | y :: l' => if String.leb (snd (fst x)) (snd (fst y)) then x :: l else y :: insert x l' end.
Fixpoint isort (l : list (triple F)) : list (triple F) := match l with [] => [] | x :: l' => insert x (isort l') end.
Fixpoint entries (l : list term) : res (list (triple F)) :=
  match l with [] => Ok [] | Term o cs i :: l' => t <- entries l' ;; Ok ((o, i, cs) :: t) | _ => Err ValueError end.
Definition my_parse (l : list term) (k : nat) : res (list op * list string * list (list F)) :=
  t <- entries l ;; check forallb (fun x => Nat.eqb (length (snd x)) k) t else ValueError ;;
  Ok (map (fun x => fst (fst x)) (isort t), map (fun x => snd (fst x)) (isort t), map snd (isort t)).
Definition step_exp (p : op * F) : res op :=
  e <- op_exp la (neg_i (fst p)) (cofk (snd p)) (c_meth c) (c_skew c) ;;
  check Nat.eqb (length (shape e)) 2 && Nat.eqb (nth 0 (shape e) 0) n && Nat.eqb (nth 1 (shape e) 0) n && Nat.eqb (length (data e)) (n * n) else ValueError ;; Ok e.
Definition my_diagonalize (hs : list op) (ts : list F) : res (unit * list op) :=
  es <- mapM step_exp (combine hs ts) ;; Ok (tt, mid (S:=S) n :: prods es (mid (S:=S) n)).
(** the noise terms are numbered by the sequence, the values are made up *)
Definition my_infidelity (p : pseq F unit unit) (sp : arr (kcar F)) (w : list F) (ids : list string) : res (arr (kcar F)) :=
  Ok (mk1 (length ids) (fun i => kadd (get1 k0 sp i) (nth 0 (nth i (p_ncoeffs p) []) k0))).
Definition my_derivative (p : pseq F unit unit) (sp : arr (kcar F)) (w : list F) (cids nids : list string) (d : option (arr (kcar F))) : res (arr (kcar F)) :=
  Ok (mk3 (length nids) (length (p_dt p)) (length cids) (fun i t j => nth t (nth j (p_ccoeffs p) []) (nth 0 (nth i (p_ncoeffs p) []) k0))).
Definition my_pkg : pkg F unit unit := mkpkg my_parse my_diagonalize my_infidelity my_derivative (fun _ => Ok [k1; kadd k1 k1]).

Lemma insert_perm x l : Permutation (x :: l) (insert x l).
Proof. induction l as [|y l IH]; cbn [insert]; auto. destruct (String.leb _ _); auto. eapply perm_trans; [apply perm_swap|]. now apply perm_skip. Qed.
Lemma isort_perm l : Permutation l (isort l).
Proof. induction l as [|x l IH]; cbn [isort]; auto. eapply perm_trans; [apply perm_skip; exact IH|]. apply insert_perm. Qed.
Lemma leb_trans (a b d : string) : String.leb a b = true -> String.leb b d = true -> String.leb a d = true.
Proof.
  unfold String.leb. revert b d. induction a as [|x a IH]; intros [|y b] [|z d]; cbn [String.compare]; auto; try discriminate.
  destruct (Ascii.compare x y) eqn:E1; try discriminate; destruct (Ascii.compare y z) eqn:E2; try discriminate.
  - apply Ascii.compare_eq_iff in E1, E2. subst. assert (Ez : Ascii.compare z z = Eq) by (unfold Ascii.compare; apply N.compare_refl). rewrite Ez. apply IH.
  - apply Ascii.compare_eq_iff in E1. subst. now rewrite E2.
  - apply Ascii.compare_eq_iff in E2. subst. now rewrite E1.
  - unfold Ascii.compare in *. apply N.compare_lt_iff in E1, E2. assert (E3 : (Ascii.N_of_ascii x ?= Ascii.N_of_ascii z)%N = Lt) by (apply N.compare_lt_iff; eapply N.lt_trans; eauto). now rewrite E3.
Qed.
Definition le3 (x y : triple F) : Prop := String.leb (snd (fst x)) (snd (fst y)) = true.
Lemma insert_sorted x l : StronglySorted le3 l -> StronglySorted le3 (insert x l).
Proof.
  induction l as [|y l IH]; cbn [insert]; intros H; [repeat constructor|]. pose proof H as H0. apply StronglySorted_inv in H. destruct H as [H1 H2].
  destruct (String.leb (snd (fst x)) (snd (fst y))) eqn:Exy.
  - constructor; auto. constructor; auto. rewrite Forall_forall in *. intros z Hz. specialize (H2 z Hz). unfold le3 in *. eapply leb_trans; eauto.
  - constructor; auto. apply Forall_forall. intros z Hz. apply (Permutation_in z (Permutation_sym (insert_perm x l))) in Hz. destruct Hz as [<-|Hz].
    + destruct (String.leb_total (snd (fst x)) (snd (fst y))) as [K|K]; [congruence|exact K].
    + rewrite Forall_forall in H2. now apply H2.
Qed.
Lemma isort_sorted l : StronglySorted le3 (isort l).
Proof. induction l as [|x l IH]; cbn [isort]; [constructor|]. now apply insert_sorted. Qed.
Lemma entries_spec l t : entries l = Ok t -> l = map (@mkt F) t.
Proof.
  revert t. induction l as [|x l IH]; cbn [entries]; intros t H; [inversion H; reflexivity|]. destruct x; try discriminate H. destruct (entries l); [|discriminate H]. cbn [bind] in H. inversion H; subst. cbn. now rewrite <- (IH a).
Qed.
Lemma my_sorts : sorts my_pkg.
Proof.
  assert (K : forall l k os ids cs, my_parse l k = Ok (os, ids, cs) -> exists t, l = map (@mkt F) t /\ os = map (fun x => fst (fst x)) (isort t) /\ ids = map (fun x => snd (fst x)) (isort t) /\ cs = map snd (isort t)).
  { intros l k os ids cs H. unfold my_parse in H. destruct (entries l) as [t|] eqn:Et; [|discriminate]. cbn [bind] in H. match type of H with context [if ?b then _ else _] => destruct b; [|discriminate H] end. cbn [bind] in H. inversion H; subst. exists t. split; auto. now apply entries_spec. }
  split.
  - intros l k os ids cs H. destruct (K l k os ids cs H) as (t & -> & -> & -> & ->). exists (map (@mkt F) (isort t)). split; [apply Permutation_map, isort_perm|]. exists (isort t). auto.
  - intros l k os ids cs H. destruct (K l k os ids cs H) as (t & -> & -> & -> & ->). apply sorted_map. apply isort_sorted.
Qed.
Lemma shape2 (l : list nat) k : length l = 2 -> nth 0 l 0 = k -> nth 1 l 0 = k -> l = [k; k].
Proof. destruct l as [|a [|b []]]; cbn; intros; try discriminate. congruence. Qed.
Lemma my_diagonalizes : diagonalizes la my_pkg n c.
Proof.
  intros hs ts e us Mh L H. cbn [diagonalize my_pkg] in H. unfold my_diagonalize in H. match type of H with context [mapM ?g ?l] => destruct (mapM g l) as [es|] eqn:Em; [|discriminate H] end. cbn [bind] in H. inversion H; subst e us; clear H.
  pose proof (mapM_length _ _ Em) as Le. rewrite combine_length, L, Nat.min_id in Le.
  assert (K : forall t, t < length ts -> step_exp (nth t hs dop, nth t ts k0) = Ok (nth t es dop)).
  { clear -L Em. revert ts es L Em. induction hs as [|h hs IH]; intros [|t0 ts] es L Em t Ht; cbn in *; try lia. destruct (step_exp (h, t0)) eqn:E0; [|discriminate]. cbn [bind] in Em. destruct (mapM step_exp (combine hs ts)) eqn:E1; [|discriminate]. cbn [bind] in Em. inversion Em; subst.
    destruct t; auto. apply (IH ts a0); auto; lia. }
  assert (Kc : forall t, t < length ts -> is_matrix (S:=S) n n (nth t es dop) /\ op_exp la (neg_i (nth t hs dop)) (cofk (nth t ts k0)) (c_meth c) (c_skew c) = Ok (nth t es dop)).
  { intros t Ht. specialize (K t Ht). unfold step_exp in K. cbn [fst snd] in K. destruct (op_exp _ _ _ _ _) as [x|]; [|discriminate]. cbn [bind] in K.
    destruct (Nat.eqb (length (shape x)) 2 && Nat.eqb (nth 0 (shape x) 0) n && Nat.eqb (nth 1 (shape x) 0) n && Nat.eqb (length (data x)) (n * n)) eqn:Eb; [|discriminate]. cbn [bind] in K. inversion K; subst x. split; auto.
    apply andb_prop in Eb. destruct Eb as [Eb E4]. apply andb_prop in Eb. destruct Eb as [Eb E3]. apply andb_prop in Eb. destruct Eb as [E1 E2]. apply Nat.eqb_eq in E1, E2, E3, E4.
    split; [exact (@shape2 _ n E1 E2 E3)|exact E4]. }
  assert (Me : Forall (is_matrix (S:=S) n n) es). { apply Forall_forall. intros x Hx. destruct (In_nth _ _ dop Hx) as (t & Ht & <-). apply Kc. rewrite <- Le. exact Ht. }
  exists (mid (S:=S) n), es. split. { split; [apply is_matrix_wfm, wfm_mid|]. intros i j Hi Hj. now rewrite mg_mid. } split; auto. split.
  { apply prods_cumulative; [|apply wfm_mid]. eapply Forall_impl; [|exact Me]. intros a Ha. now apply is_matrix_wfm. }
  split; auto. intros t G Ht [MG EG]. rewrite <- (proj2 (Kc t Ht)). f_equal.
  assert (Mt : is_matrix (S:=S) n n (nth t hs dop)). { rewrite Forall_forall in Mh. apply Mh, nth_In. rewrite L. exact Ht. }
  apply is_matrix_wfm in MG, Mt. assert (Wn : wfm (S:=S) n n (neg_i (nth t hs dop))) by (apply wfm_mscale; auto).
  refine (@mat_ext S n n _ _ MG Wn _). intros i j Hi Hj. rewrite (EG i j Hi Hj). unfold neg_i. rewrite (@mg_mscale S n n) by auto. reflexivity.
Qed.
Lemma describes_unique B E (P : pkg F B E) (s : @st F) p p' : describes P n s p -> describes P n s p' -> p_eig p = p_eig p'.
Proof.
  intros (_ & u & hs & e & us & U & A1 & A2 & A3 & A4 & A5 & _) (_ & u' & hs' & e' & us' & U' & B1 & B2 & B3 & B4 & B5 & _).
  assert (u' = u) by congruence. subst u'. assert (hs' = hs).
  { apply nth_ext with (d := dop) (d' := dop); [congruence|]. intros t Ht. rewrite B2 in Ht. destruct (A3 t Ht) as [M1 E1], (B3 t Ht) as [M2 E2]. apply is_matrix_wfm in M1, M2.
    refine (@mat_ext S n n _ _ M2 M1 _). intros i j Hi Hj. now rewrite E1, E2. }
  subst hs'. congruence.
Qed.
End Package.

(** ---- the cases ---- *)
Notation qpkg s := (@my_pkg Qf qla 2 (s_conf s)).
Definition okb {A} (r : res A) : bool := match r with Ok _ => true | Err _ => false end.
Fixpoint succb (P : pkg Qf unit unit) (f : fsol Qf unit unit) (h : list (fop Qf unit)) : bool :=
  match h with
  | [] => true
  | o :: r => (negb (ff_call o) || okb (snd (fstep qexp qla c0 P f o))) && (match o with FSolver (SMutate _) => false | _ => true end) && succb P (fst (fstep qexp qla c0 P f o)) r
  end.
Lemma succb_ok P h : forall f, succb P f h = true -> succeeds qla qexp c0 P f h.
Proof.
  induction h as [|o h IH]; intros f H; [exact I|]. cbn [succb succeeds] in *. apply andb_prop in H. destruct H as [H H3]. apply andb_prop in H. destruct H as [H1 H2].
  split; [|split; [|now apply IH]].
  - intros Hc. rewrite Hc in H1. cbn in H1. destruct (snd _) as [[]|]; [reflexivity|discriminate].
  - intros z ->. discriminate.
Qed.
Definition psget (f : fsol Qf unit unit) : pseq Qf unit unit := match f_ps f with Some p => p | None => mkps [] [] [] [] [] [] [] None None None end.
Definition psome (f : fsol Qf unit unit) : bool := match f_ps f with Some _ => true | None => false end.
Lemma psome_ok f : psome f = true -> f_ps f = Some (psget f).
Proof. unfold psome, psget. destruct (f_ps f); [reflexivity|discriminate]. Qed.
Definition total_entry (f : fsol Qf unit unit) (i j : nat) : cplx Qf := match p_total (psget f) with Some U => mg U i j | None => c0 end.
(** n x n Hamiltonians by computation *)
Definition matb n (A : qop) : bool := (if list_eq_dec Nat.eq_dec (shape A) [n; n] then true else false) && Nat.eqb (length (data A)) (n * n).
Lemma matb_ok n A : matb n A = true -> is_matrix (S:=QS) n n A.
Proof. unfold matb. destruct (list_eq_dec Nat.eq_dec (shape A) [n; n]); [|discriminate]. cbn. intros H. split; auto. now apply Nat.eqb_eq. Qed.
Definition shapedb n (s : @st Qf) : bool :=
  forallb (matb n) (s_drift s) && forallb (matb n) (c_ctrl (s_conf s)) && negb (Nat.eqb (length (c_ctrl (s_conf s))) 0) && Nat.eqb (length (s_drift s)) (length (s_time s)) &&
  match s_amps s with Some u => Nat.eqb (dim0 u) (length (s_time s)) && Nat.eqb (dim1 u) (length (c_ctrl (s_conf s))) | None => true end.
Lemma shapedb_ok n s : shapedb n s = true -> shaped n s.
Proof.
  unfold shapedb. intros H. repeat (apply andb_prop in H; destruct H as [H ?]). rewrite !forallb_forall in *.
  split. { split; apply Forall_forall; intros A HA; apply matb_ok; auto. }
  split. { destruct (c_ctrl (s_conf s)); [discriminate|intros K; discriminate]. }
  split; [now apply Nat.eqb_eq|]. intros u Hu. rewrite Hu in *. apply andb_prop in H0. destruct H0. split; now apply Nat.eqb_eq.
Qed.

(** a spin with two controls; the noise on the first control depends on the amplitudes *)
Definition hw : qop := mq 2 2 [[cq 2 0 1; c0]; [c0; cq 1 0 1]].
Definition stwo : @st Qf := sget (sfresh CSchroedinger [hd] [hz; hw] (ones 2) Frechet false GNone 2 AIdentity None).
Definition yc : arr (kcar Qf) := aq 2 2 [[1; 2]; [3; -1]]%Z.
Definition ye : arr (kcar Qf) := aq 2 2 [[2; 2]; [5; -1]]%Z.
Definition noise3 (l : list (option (arr (kcar Qf)))) : res (list (term Qf)) :=
  match l with
  | [_; _; Some u] => Ok [Term hz (map (fun t => get2 k0 u t 0) (seq 0 (dim0 u))) "charge"%string; Term hx (ones 2) "field"%string]
  | _ => Err TypeError
  end.
Definition cff : ffconf Qf unit := mkff (HCall noise3) None None.
Definition kff : ffcost Qf := @mkfc Qf (fun w => Ok (mk1 2 (fun i => nth i w k0))) None.
Notation new2 := (@new_fsol Qf unit unit stwo cff).
Notation run2 := (frun qexp qla c0 (qpkg stwo)).
Definition hist2 : list (fop Qf unit) := [FCreate (Some yc) None; FSolver SFwd; FCosts kff; FSolver (SSet ye); FCosts kff; FSolver (SSet ye); FGrad kff; FCreate None None].
Definition ftwo := run2 new2 hist2.
Lemma case_reached : reached qla qexp c0 (qpkg stwo) stwo cff ftwo.
Proof. exists hist2. split; [apply succb_ok; vm_compute; reflexivity|reflexivity]. Qed.
Lemma stwo_used : used qexp qla c0 (DId 2) stwo (qrun stwo [SSet yc]).
Proof. apply qused; [apply sget_constructed; reflexivity| |reflexivity|vm_compute; reflexivity]. apply qgood; try reflexivity; try discriminate; exact I. Qed.
Lemma case_current : constructed (DId 2) stwo /\ sorts (qpkg stwo) /\ diagonalizes qla (qpkg stwo) 2 (s_conf stwo) /\ reached qla qexp c0 (qpkg stwo) stwo cff ftwo /\ f_ps ftwo = Some (psget ftwo) /\
  shaped 2 (f_s ftwo) /\ length (c_ctrl (s_conf (f_s ftwo))) <= 10 /\ p_nids (psget ftwo) = ["charge"%string; "field"%string] /\
  ceqb (total_entry ftwo 0 0) (total_entry (run2 new2 [FCreate (Some yc) None]) 0 0) = false.
Proof.
  split; [apply sget_constructed; reflexivity|]. split; [apply my_sorts|]. split; [apply my_diagonalizes|]. split; [apply case_reached|]. split; [apply psome_ok; vm_compute; reflexivity|].
  split; [apply shapedb_ok; vm_compute; reflexivity|]. split; [vm_compute; lia|]. split; vm_compute; reflexivity.
Qed.
Definition gshape (r : fsol Qf unit unit * res (ffcost Qf * arr (kcar Qf))) : list nat := match snd r with Ok (_, g) => shape g | Err _ => [] end.
Definition gentry (r : fsol Qf unit unit * res (ffcost Qf * arr (kcar Qf))) (t i j : nat) : Qc := match snd r with Ok (_, g) => get3 (k0 : Qf) g t i j | Err _ => 0%Qc end.
Definition centry (r : fsol Qf unit unit * res (ffcost Qf * arr (kcar Qf))) (i : nat) : Qc := match snd r with Ok (_, g) => get1 (k0 : Qf) g i | Err _ => 0%Qc end.
Definition fcost := run2 new2 [FSolver (SSet yc)].
Lemma case_asked : sorts (qpkg stwo) /\ reached qla qexp c0 (qpkg stwo) stwo cff fcost /\ okb (snd (ff_costs qexp qla c0 (qpkg stwo) kff fcost)) = true /\
  shaped 2 (f_s (fst (ff_costs qexp qla c0 (qpkg stwo) kff fcost))) /\ length (c_ctrl (s_conf (f_s (fst (ff_costs qexp qla c0 (qpkg stwo) kff fcost))))) <= 10 /\
  ~ is_monte_carlo (f_s (fst (ff_costs qexp qla c0 (qpkg stwo) kff fcost))) /\
  gshape (ff_costs qexp qla c0 (qpkg stwo) kff fcost) = [2] /\ Qc_eq_bool (centry (ff_costs qexp qla c0 (qpkg stwo) kff fcost) 0) (Q2Qc 2) = true /\
  gshape (ff_grad qexp qla c0 (qpkg stwo) kff fcost) = [2; 2; 2] /\ Qc_eq_bool (gentry (ff_grad qexp qla c0 (qpkg stwo) kff fcost) 1 0 0) (Q2Qc 3) = true.
Proof.
  split; [apply my_sorts|]. split. { exists [FSolver (SSet yc)]. split; [apply succb_ok; vm_compute; reflexivity|reflexivity]. }
  split; [vm_compute; reflexivity|]. split; [apply shapedb_ok; vm_compute; reflexivity|]. split; [vm_compute; lia|]. split.
  { intros [m Hm]. assert (K : match c_class (s_conf (f_s (fst (ff_costs qexp qla c0 (qpkg stwo) kff fcost)))) with CMonteCarlo _ => true | _ => false end = false) by (vm_compute; reflexivity). rewrite Hm in K. discriminate. }
  repeat split; vm_compute; reflexivity.
Qed.
Lemma case_propagators : used qexp qla c0 (DId 2) stwo (qrun stwo [SSet yc]) /\ shaped 2 (qrun stwo [SSet yc]) /\
  (exists p, describes (qpkg stwo) 2 (qrun stwo [SSet yc]) p) /\ diagonalizes qla (qpkg stwo) 2 (s_conf (qrun stwo [SSet yc])) /\ is_identity (S:=QS) 2 (c_init (s_conf (qrun stwo [SSet yc]))) /\
  returns qexp qla c0 (qrun stwo [SSet yc]) SPropag (VProp (vprop (rd (qrun stwo [SSet yc]) SPropag))) /\ returns qexp qla c0 (qrun stwo [SSet yc]) SFwd (VOps (vops (rd (qrun stwo [SSet yc]) SFwd))).
Proof.
  set (s := qrun stwo [SSet yc]). assert (Sh : shaped 2 s) by (apply shapedb_ok; vm_compute; reflexivity).
  split; [apply stwo_used|]. split; [exact Sh|]. split.
  { assert (K : okb (snd (create_pulse_sequence qexp qla c0 (qpkg stwo) None None (new_fsol s cff))) = true) by (vm_compute; reflexivity).
    destruct (create_pulse_sequence qexp qla c0 (qpkg stwo) None None (new_fsol s cff)) as [f' r] eqn:Ec. destruct r as [p|]; [|discriminate].
    assert (Es : f_s f' = s) by exact (@create_keeps Qf qexp qla c0 unit unit (qpkg stwo) _ _ _ _ Ec).
    exists p. rewrite <- Es. refine (proj1 (proj2 (@created Qf qexp qla c0 unit unit (qpkg stwo) 2 (new_fsol s cff) f' None None p (proj1 (@my_sorts Qf qla 2 _)) (or_introl eq_refl) Ec _))).
    now rewrite Es. }
  split. { apply my_diagonalizes. }
  split. { split; [apply matb_ok; vm_compute; reflexivity|]. intros i j Hi Hj. apply ceqb_eq. destruct i as [|[|]], j as [|[|]]; try lia; vm_compute; reflexivity. }
  split; [apply ok_prop; vm_compute; reflexivity|apply ok_ops; vm_compute; reflexivity].
Qed.

(** ---- eleven controls ---- *)
Definition hnum (k : Z) : qop := mq 1 1 [[cq k 0 1]].
Definition seleven : @st Qf := sget (sfresh CSchroedinger [hnum 0] (map (fun k => hnum (Z.of_nat k + 1)) (seq 0 11)) (ones 1) Frechet false GNone 11 AIdentity None).
Definition yel : arr (kcar Qf) := aq 1 11 [[0; 0; 1; 0; 0; 0; 0; 0; 0; 0; 0]]%Z.
Notation pel := (@my_pkg Qf qla 1 (s_conf seleven)).
Definition cempty : ffconf Qf unit := mkff (HList []) None None.
Lemma create_run P (f f' : fsol Qf unit unit) y b p h : create_pulse_sequence qexp qla c0 P y b f = (f', Ok p) -> frun qexp qla c0 P f (FCreate y b :: h) = frun qexp qla c0 P f' h.
Proof. intros H. unfold frun. cbn [fold_left fstep]. unfold fbind. rewrite H. reflexivity. Qed.
Definition eig_entry (p : pseq Qf unit unit) : cplx Qf := match p_eig p with Some (_, us) => mg (nth 1 us (Arr [] [])) 0 0 | None => c0 end.
Lemma rebuilt n (P : pkg Qf unit unit) (f0 f1 f2 : fsol Qf unit unit) y p1 p2 : sorts P -> f_ps f0 = None -> create_pulse_sequence qexp qla c0 P (Some y) None f0 = (f1, Ok p1) ->
  create_pulse_sequence qexp qla c0 P None None f1 = (f2, Ok p2) -> shaped n (f_s f1) -> ceqb (eig_entry p1) (eig_entry p2) = false ->
  f_s f2 = f_s f1 /\ f_ps f2 = Some p2 /\ ~ describes P n (f_s f2) p2.
Proof.
  intros [LU _] N E1 E2 Sh Ne. pose proof (@create_keeps Qf qexp qla c0 unit unit P _ _ _ _ E2) as Es.
  destruct (@created Qf qexp qla c0 unit unit P n f0 f1 (Some y) None p1 LU (or_introl N) E1 Sh) as (_ & D1 & _).
  destruct (@create_split Qf qexp qla c0 unit unit P _ _ _ _ _ E2) as (a1 & a2 & a3 & _ & _ & _ & _ & a4). split; auto. split; auto.
  intros D. rewrite Es in D. pose proof (describes_unique D1 D) as Eq. unfold eig_entry in Ne. rewrite Eq in Ne.
  match type of Ne with ceqb ?a ?a = false => assert (Kr : ceqb a a = true) by now apply ceqb_eq end. congruence.
Qed.
Definition rfst (r : fsol Qf unit unit * res (pseq Qf unit unit)) : fsol Qf unit unit := fst r.
Definition rps (r : fsol Qf unit unit * res (pseq Qf unit unit)) : pseq Qf unit unit := match snd r with Ok p => p | Err _ => mkps [] [] [] [] [] [] [] None None None end.
Lemma rok r : okb (snd r) = true -> r = (rfst r, Ok (rps r)).
Proof. destruct r as [f [p|]]; [reflexivity|discriminate]. Qed.
Notation rel1 := (create_pulse_sequence qexp qla c0 pel (Some yel) None (new_fsol seleven cempty)).
Notation rel2 := (create_pulse_sequence qexp qla c0 pel None None (rfst rel1)).
Lemma el1 : rel1 = (rfst rel1, Ok (rps rel1)).
Proof. apply rok. vm_compute. reflexivity. Qed.
Lemma el2 : rel2 = (rfst rel2, Ok (rps rel2)).
Proof. apply rok. vm_compute. reflexivity. Qed.
Lemma el_shaped : shaped 1 (f_s (rfst rel1)).
Proof. apply shapedb_ok. vm_compute. reflexivity. Qed.
Lemma el_eleven : length (c_ctrl (s_conf (f_s (rfst rel1)))) = 11.
Proof. vm_compute. reflexivity. Qed.
Lemma el_differ : ceqb (eig_entry (rps rel1)) (eig_entry (rps rel2)) = false.
Proof. vm_compute. reflexivity. Qed.
Lemma el_succeeds : succeeds qla qexp c0 pel (new_fsol seleven cempty) [FCreate (Some yel) None; FCreate None None].
Proof. apply succb_ok. vm_compute. reflexivity. Qed.
Lemma reordered_gen (P : pkg Qf unit unit) s0 c f1 f2 p1 p2 : sorts P -> constructed (DId 11) s0 ->
  create_pulse_sequence qexp qla c0 P (Some yel) None (new_fsol s0 c) = (f1, Ok p1) -> create_pulse_sequence qexp qla c0 P None None f1 = (f2, Ok p2) ->
  shaped 1 (f_s f1) -> length (c_ctrl (s_conf (f_s f1))) = 11 -> ceqb (eig_entry p1) (eig_entry p2) = false ->
  succeeds qla qexp c0 P (new_fsol s0 c) [FCreate (Some yel) None; FCreate None None] ->
  exists (P : pkg Qf unit unit) (d : desc Qf) s0 c (f : fsol Qf unit unit) p,
  constructed d s0 /\ sorts P /\ reached qla qexp c0 P s0 c f /\ f_ps f = Some p /\ shaped 1 (f_s f) /\ length (c_ctrl (s_conf (f_s f))) = 11 /\ ~ describes P 1 (f_s f) p.
Proof.
  intros SO C K1 K2 Sh L Ne Su. destruct (@rebuilt 1 P (new_fsol s0 c) f1 f2 yel p1 p2 SO eq_refl K1 K2 Sh Ne) as (Es & Hp & ND).
  exists P, (DId 11), s0, c, f2, p2. split; [exact C|]. split; [exact SO|].
  split. { eexists. split; [exact Su|]. rewrite (@create_run P _ _ _ _ _ [FCreate None None] K1), (@create_run P _ _ _ _ _ [] K2). reflexivity. }
  split; [exact Hp|]. rewrite <- Es in Sh, L. auto.
Qed.
Lemma reordered : exists (P : pkg Qf unit unit) (d : desc Qf) s0 c (f : fsol Qf unit unit) p,
  constructed d s0 /\ sorts P /\ reached qla qexp c0 P s0 c f /\ f_ps f = Some p /\ shaped 1 (f_s f) /\ length (c_ctrl (s_conf (f_s f))) = 11 /\ ~ describes P 1 (f_s f) p.
Proof.
  refine (@reordered_gen pel seleven cempty (rfst rel1) (rfst rel2) (rps rel1) (rps rel2) (@my_sorts Qf qla 1 (s_conf seleven)) _ el1 el2 el_shaped el_eleven el_differ el_succeeds).
  apply sget_constructed. vm_compute. reflexivity.
Qed.

(** ---- a Monte Carlo solver ---- *)
Definition smcf : @st Qf := sget (sfresh (CMonteCarlo (mkmc [hx] 1 (mk3 1 1 2 (fun _ _ _ => k1)) NNone PSeq)) [hd] [hz] (ones 2) Frechet false GNone 1 AIdentity None).
Definition fmc := frun qexp qla c0 (qpkg smcf) (new_fsol smcf cempty) [FSolver (SSet ya)].
Lemma case_monte_carlo : constructed (DId 1) smcf /\ is_monte_carlo smcf /\ okb (snd (ff_costs qexp qla c0 (qpkg smcf) kff fmc)) = true /\
  p_nids (psget (fst (ff_costs qexp qla c0 (qpkg smcf) kff fmc))) = ["Noise0"%string] /\ gshape (ff_costs qexp qla c0 (qpkg smcf) kff fmc) = [0].
Proof. split; [apply sget_constructed; reflexivity|]. split; [exists (mkmc [hx] 1 (mk3 1 1 2 (fun _ _ _ => k1)) NNone PSeq); reflexivity|]. split; [vm_compute; reflexivity|]. split; vm_compute; reflexivity. Qed.
Lemma case_mc_noise : lines_up (qpkg smcf) /\ f_ps fmc = None /\ okb (snd (create_pulse_sequence qexp qla c0 (qpkg smcf) None None fmc)) = true /\
  shaped 2 (f_s (rfst (create_pulse_sequence qexp qla c0 (qpkg smcf) None None fmc))) /\ ff_h_n (f_conf fmc) = HList [] /\
  p_nids (rps (create_pulse_sequence qexp qla c0 (qpkg smcf) None None fmc)) = ["Noise0"%string].
Proof.
  split; [apply my_sorts|]. split; [vm_compute; reflexivity|]. split; [vm_compute; reflexivity|]. split; [apply shapedb_ok; vm_compute; reflexivity|]. split; vm_compute; reflexivity.
Qed.
Lemma noise3_three l : length l <> 3 -> noise3 l = Err TypeError.
Proof. destruct l as [|a [|b [|[u|] [|]]]]; cbn; intros H; try reflexivity; now elim H. Qed.
Definition fcall (s : @st Qf) := frun qexp qla c0 (qpkg s) (new_fsol s cff) [FSolver (SSet ya)].
Lemma case_callable : is_monte_carlo (f_s (fcall smcf)) /\ ff_h_n (f_conf (fcall smcf)) = HCall noise3 /\ (forall l, length l <> 3 -> noise3 l = Err TypeError) /\
  f_ps (fcall smcf) = None /\ s_amps (f_s (fcall smcf)) <> None /\ okb (snd (create_pulse_sequence qexp qla c0 (qpkg ssch) None None (fcall ssch))) = true.
Proof.
  split. { exists (mkmc [hx] 1 (mk3 1 1 2 (fun _ _ _ => k1)) NNone PSeq). reflexivity. } split; [reflexivity|]. split; [exact noise3_three|]. split; [vm_compute; reflexivity|].
  split; [|vm_compute; reflexivity]. rewrite (@ok_some (s_amps (f_s (fcall smcf)))) by (vm_compute; reflexivity). discriminate.
Qed.
