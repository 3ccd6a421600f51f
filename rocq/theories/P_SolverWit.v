(** Concrete solvers over the rationals: witnesses for refuted claims and cases for the theorems. *)
Require Import List Arith Lia ZArith QArith Qcanon Bool Reals Ring Field Lra.
From Verif Require Import LibBase LibRing LibArr LibCplx LibNorm LibMat LibDeriv LibEx M_Matrix S_Linear S_Exp P_Linear P_Spectral P_DexpWit M_OpHeap M_Transfer S_Transfer M_Amplitude P_TransferWit M_Solver S_Solver S_Lindblad P_Solver9 P_SolverRest.
Import ListNotations.
Open Scope nat_scope.
Open Scope res_scope.
Set Implicit Arguments.

Notation Qf := QcField.
Notation QS := (CStar QcField).
Notation qop := (mat (CStar QcField)).

(** stands in for scipy.linalg.expm: (2 + X)/(2 - X) on the diagonal *)
Definition cayley (X : qop) : qop :=
  mk2 (nr X) (nr X) (fun i j => if Nat.eqb i j then cdiv (cadd (cq 2 0 1) (mg X i i)) (csub (cq 2 0 1) (mg X i i)) else c0).
Definition qla : LinAlg Qf :=
  @mkLA Qf (fun M => ([] : list Qf, M)) (fun M => ([], M)) cayley (fun X Y => (cayley X, Y)) (fun M => (M, [], M)) (fun _ => c1).

Definition sfresh cls drift ctrl tau meth calc approx n a udiss : res (@st Qf) :=
  build_solver cls drift ctrl tau None None meth false calc approx (mk_identity n) a udiss.
Definition sget (r : res (@st Qf)) : @st Qf :=
  match r with Ok s => s | Err _ => mkst (mkconf CSchroedinger [] (Arr [] []) Frechet false false GNone AIdentity) [] (mk_identity 0) [] None None None false false k_none n_none (mkl None None) None end.
Definition is_ok {A} (r : res A) : bool := match r with Ok _ => true | Err _ => false end.
Lemma sget_constructed cls drift ctrl tau meth calc approx n a udiss : is_ok (sfresh cls drift ctrl tau meth calc approx n a udiss) = true ->
  constructed (DId n) (sget (sfresh cls drift ctrl tau meth calc approx n a udiss)).
Proof.
  intros H. split; [exact I|]. exists cls, drift, ctrl, tau, None, None, meth, false, calc, approx, (mk_identity n), a, udiss. split; [reflexivity|].
  unfold sfresh in *. destruct (build_solver _ _ _ _ _ _ _ _ _ _ _ _ _) as [s|]; [reflexivity|discriminate].
Qed.
Notation qrun := (srun qexp qla c0).
Notation qstep := (sstep qexp qla c0).
Fixpoint all_okb (s : @st Qf) (hist : list (@sop Qf)) : bool :=
  match hist with [] => true | o :: rest => let p := qstep s o in if is_ok (snd p) then all_okb (fst p) rest else false end.
Lemma all_okb_ok hist : forall s, all_okb s hist = true -> all_ok qexp qla c0 s hist.
Proof.
  induction hist as [|o hist IH]; intros s H; [exact I|]. cbn [all_okb all_ok] in *. destruct (snd (qstep s o)) as [v|] eqn:E; cbn [is_ok] in H; [|discriminate].
  split; [eauto|now apply IH].
Qed.
Definition allowedb (o : @sop Qf) : bool := match o with STimes _ | SMutate _ => false | _ => true end.
Lemma allowedb_ok hist : forallb allowedb hist = true -> Forall allowed hist.
Proof. rewrite forallb_forall, Forall_forall. intros H o Ho. specialize (H o Ho). destruct o; try discriminate; unfold allowed; eauto. Qed.
Lemma qused (s0 : @st Qf) d hist : constructed d s0 -> good qla c0 (s_conf s0) -> forallb allowedb hist = true -> all_okb s0 hist = true -> used qexp qla c0 d s0 (qrun s0 hist).
Proof. intros A B C D. split; auto. split; auto. exists hist. split; [now apply allowedb_ok|]. split; auto. now apply all_okb_ok. Qed.
Lemma qgood (s0 : @st Qf) : c_meth (s_conf s0) = Frechet -> c_ctrl (s_conf s0) <> [] -> (c_approx (s_conf s0) = GGrape -> c_calc (s_conf s0) = false) -> derivs_ok (s_conf s0) -> good qla c0 (s_conf s0).
Proof. intros A B C D. constructor; auto. apply agrees_frechet; auto. Qed.

(** the Hamiltonians of a spin *)
Definition hz : qop := mq 2 2 [[cq 1 0 1; c0]; [c0; cq (-1)%Z 0 1]].
Definition hx : qop := mq 2 2 [[c0; c1]; [c1; c0]].
Definition hd : qop := mq 2 2 [[cq 1 0 1; c0]; [c0; cq 3 0 1]].
(** one control, two time steps *)
Definition ssch : @st Qf := sget (sfresh CSchroedinger [hd] [hz] (ones 2) Frechet false GNone 1 AIdentity None).
Definition ya : arr (kcar Qf) := aq 2 1 [[1]; [2]]%Z.
Definition yb : arr (kcar Qf) := aq 2 1 [[3]; [-1]]%Z.
Definition ybad : arr (kcar Qf) := aq 3 1 [[1]; [1]; [1]]%Z.
Lemma ssch_constructed : constructed (DId 1) ssch. Proof. apply sget_constructed. reflexivity. Qed.
Lemma ssch_good : good qla c0 (s_conf ssch). Proof. apply qgood; try reflexivity; try discriminate; exact I. Qed.

(** results by computation of their kind only *)
Lemma ok_unit (r : res (@sval Qf)) : (match r with Ok VUnit => true | _ => false end) = true -> r = Ok VUnit.
Proof. destruct r as [[]|]; intros; try discriminate; reflexivity. Qed.
Definition errof (r : res (@sval Qf)) : exn := match r with Err e => e | _ => TypeError end.
Lemma ok_err (r : res (@sval Qf)) : is_ok r = false -> r = Err (errof r).
Proof. destruct r; intros; try discriminate; reflexivity. Qed.
Definition vprop (r : res (@sval Qf)) : list (option qop) := match r with Ok (VProp l) => l | _ => [] end.
Lemma ok_prop (r : res (@sval Qf)) : (match r with Ok (VProp _) => true | _ => false end) = true -> r = Ok (VProp (vprop r)).
Proof. destruct r as [[]|]; intros; try discriminate; reflexivity. Qed.
Definition vder (r : res (@sval Qf)) : list (list (option qop)) := match r with Ok (VDer l) => l | _ => [] end.
Lemma ok_der1 (r : res (@sval Qf)) : (match r with Ok (VDer [_]) => true | _ => false end) = true -> r = Ok (VDer [nth 0 (vder r) []]).
Proof. destruct r as [[| | |[|? []]| |]|]; intros; try discriminate; reflexivity. Qed.
Definition oget (o : option (arr (kcar Qf))) : arr (kcar Qf) := match o with Some a => a | None => Arr [] [] end.
Lemma ok_some (o : option (arr (kcar Qf))) : (match o with Some _ => true | _ => false end) = true -> o = Some (oget o).
Proof. destruct o; intros; try discriminate; reflexivity. Qed.
Definition aeqb (A B : arr (kcar Qf)) : bool :=
  (if list_eq_dec Nat.eq_dec (shape A) (shape B) then true else false) && Nat.eqb (length (data A)) (length (data B)) &&
  forallb (fun k => keqb (nth k (data A) k0) (nth k (data B) k0)) (seq 0 (length (data A))).
Lemma aeqb_eq A B : aeqb A B = true -> A = B.
Proof.
  unfold aeqb. destruct A as [sa da], B as [sb db]. cbn [shape data].
  destruct (list_eq_dec Nat.eq_dec sa sb) as [->|]; [|discriminate]. cbn [andb]. rewrite andb_true_iff. intros [H1 H2].
  apply Nat.eqb_eq in H1. rewrite forallb_forall in H2. f_equal. apply (nth_ext da db k0 k0); auto.
  intros k Hk. apply keqb_eq. apply H2. apply in_seq. split; [apply Nat.le_0_l|exact Hk].
Qed.
Definition omeqb (A B : option qop) : bool := match A, B with Some a, Some b => meqb a b | None, None => true | _, _ => false end.
Lemma omeqb_eq A B : omeqb A B = true -> A = B.
Proof. destruct A, B; cbn; intros; try discriminate; auto. f_equal. now apply meqb_eq. Qed.

(** ---- C26 ---- *)
Lemma retry_succeeds : exists (d : desc Qf) (s0 : @st Qf) y0 y e u,
  constructed d s0 /\ snd (qstep s0 (SSet y0)) = Ok VUnit /\ snd (qstep (qrun s0 [SSet y0]) (SSet y)) = Err e /\
  snd (qstep (qrun s0 [SSet y0; SSet y]) (SSet y)) = Ok VUnit /\ s_amps (qrun s0 [SSet y0; SSet y; SSet y]) = Some u /\ u = y0 /\ dim0 y <> dim0 y0.
Proof.
  exists (DId 1), ssch, ya, ybad. do 2 eexists. split; [apply ssch_constructed|]. split; [apply ok_unit; vm_compute; reflexivity|]. split; [apply ok_err; vm_compute; reflexivity|]. split; [apply ok_unit; vm_compute; reflexivity|].
  split; [apply ok_some; vm_compute; reflexivity|]. split; [apply aeqb_eq; vm_compute; reflexivity|]. vm_compute. discriminate.
Qed.
Lemma set_times_keeps_amplitudes : exists (d : desc Qf) (s0 : @st Qf) y tau u,
  constructed d s0 /\ all_ok qexp qla c0 s0 [SSet y; STimes tau; SSet y] /\ s_amps (qrun s0 [SSet y; STimes tau; SSet y]) = Some u /\ dim0 u <> length (s_time (qrun s0 [SSet y; STimes tau; SSet y])) /\
  snd (qstep (qrun s0 [STimes tau]) (SSet y)) = Err ValueError.
Proof.
  exists (DId 1), ssch, ya, (ones 1). eexists. split; [apply ssch_constructed|]. split; [apply all_okb_ok; vm_compute; reflexivity|]. split; [apply ok_some; vm_compute; reflexivity|]. split; [vm_compute; discriminate|].
  rewrite ok_err by (vm_compute; reflexivity). vm_compute. reflexivity.
Qed.
(** the drift is not adapted: after set_times with more steps nothing can be computed *)
Lemma set_times_breaks_drift : exists (d : desc Qf) (s0 : @st Qf) y tau,
  constructed d s0 /\ all_ok qexp qla c0 s0 [STimes tau; SSet y] /\ snd (qstep (qrun s0 [STimes tau; SSet y]) SPropag) = Err IndexError.
Proof. exists (DId 1), ssch, ybad, (ones 3). split; [apply ssch_constructed|]. split; [apply all_okb_ok; vm_compute; reflexivity|]. rewrite ok_err by (vm_compute; reflexivity). vm_compute. reflexivity. Qed.

(** ---- C25 ---- *)
Definition sbad : @st Qf := sget (sfresh CSchroedinger [hd] [hz] (ones 2) UnknownMethod false GNone 1 AIdentity None).
Lemma failed_read_caches_none : exists (d : desc Qf) (s0 : @st Qf) y e,
  constructed d s0 /\ snd (qstep (qrun s0 [SSet y]) SPropag) = Err e /\ snd (qstep (qrun s0 [SSet y; SPropag]) SPropag) = Ok (VProp [None; None]).
Proof. exists (DId 1), sbad, ya. eexists. split; [apply sget_constructed; reflexivity|]. split; [apply ok_err; vm_compute; reflexivity|].
  rewrite ok_prop by (vm_compute; reflexivity). vm_compute. reflexivity. Qed.
Definition sgrape : @st Qf := sget (sfresh CSchroedinger [hd] [hz] (ones 2) Frechet true GGrape 1 AIdentity None).
Definition vlen (r : res (@sval Qf)) : nat := match r with Ok (VDer l) => length l | _ => 99 end.
Lemma vlen_ok r k : vlen r = k -> k < 99 -> exists l, r = Ok (VDer l) /\ length l = k.
Proof. destruct r as [[]|]; cbn; intros; try lia. eauto. Qed.
Lemma grape_depends_on_history : exists (d : desc Qf) (s0 : @st Qf) y ds ds',
  constructed d s0 /\ all_ok qexp qla c0 s0 [SSet y; SPropag] /\ snd (qstep (qrun s0 [SSet y]) SDer) = Ok (VDer ds) /\ snd (qstep (qrun s0 [SSet y; SPropag]) SDer) = Ok (VDer ds') /\ length ds <> length ds'.
Proof.
  destruct (@vlen_ok (snd (qstep (qrun sgrape [SSet ya]) SDer)) 2) as (ds & E & L); [vm_compute; reflexivity|lia|].
  destruct (@vlen_ok (snd (qstep (qrun sgrape [SSet ya; SPropag]) SDer)) 1) as (ds' & E' & L'); [vm_compute; reflexivity|lia|].
  exists (DId 1), sgrape, ya, ds, ds'. split; [apply sget_constructed; reflexivity|]. split; [apply all_okb_ok; vm_compute; reflexivity|]. split; auto. split; auto. lia.
Qed.
(** grape derivatives are indexed [time][control] *)
Definition sgrape2 : @st Qf := sget (sfresh CSchroedinger [hd] [hz] (ones 2) Frechet false GGrape 1 AIdentity None).
Lemma grape_layout : exists (d : desc Qf) (s0 s : @st Qf) ds, used qexp qla c0 d s0 s /\ returns qexp qla c0 s SDer (VDer ds) /\ length ds <> length (c_ctrl (s_conf s)).
Proof.
  destruct (@vlen_ok (snd (qstep (qrun sgrape2 [SSet ya]) SDer)) 2) as (ds & E & L); [vm_compute; reflexivity|lia|].
  exists (DId 1), sgrape2, (qrun sgrape2 [SSet ya]), ds. split; [|split; [exact E|]].
  - apply qused; [apply sget_constructed; reflexivity| |vm_compute; reflexivity|vm_compute; reflexivity]. apply qgood; try reflexivity; try discriminate; exact I.
  - rewrite L. vm_compute. discriminate.
Qed.
(** the caller's array is used until the generators are computed *)
Definition ventry (r : res (@sval Qf)) (t i j : nat) : cplx Qf := match r with Ok (VProp l) => match nth t l None with Some P => mg P i j | None => c0 end | _ => c0 end.
Lemma in_place_change : exists (d : desc Qf) (s0 : @st Qf) y z ps ps',
  constructed d s0 /\ snd (qstep (qrun s0 [SSet y]) SPropag) = Ok (VProp ps) /\ snd (qstep (qrun s0 [SSet y; SMutate z; SSet y]) SPropag) = Ok (VProp ps') /\ ps <> ps'.
Proof.
  exists (DId 1), ssch, ya, yb, (vprop (snd (qstep (qrun ssch [SSet ya]) SPropag))), (vprop (snd (qstep (qrun ssch [SSet ya; SMutate yb; SSet ya]) SPropag))).
  split; [apply ssch_constructed|]. split; [apply ok_prop; vm_compute; reflexivity|]. split; [apply ok_prop; vm_compute; reflexivity|].
  intros H. apply (f_equal (fun l => ceqb (ventry (Ok (VProp l)) 0 0 0) (ventry (snd (qstep (qrun ssch [SSet ya]) SPropag)) 0 0 0))) in H. vm_compute in H. discriminate.
Qed.

(** ---- C29: noise samples with fewer time steps than the solver ---- *)
Definition smc (samples : arr (kcar Qf)) (tr : nat) (p : procs) : @st Qf := sget (sfresh (CMonteCarlo (mkmc [hz] tr samples NNone p)) [hd] [hz] (ones 2) Frechet false GNone 1 AIdentity None).
Definition pentry (l : list (option qop)) (t i j : nat) : cplx Qf := match nth t l None with Some P => mg P i j | None => c0 end.
Lemma short_samples : exists (d : desc Qf) (s0 : @st Qf) m y ps qs,
  constructed d s0 /\ c_class (s_conf s0) = CMonteCarlo m /\ dim2 (mc_samples m) < length (s_time s0) /\ 
  snd (qstep (qrun s0 [SSet y]) SNProp) = Ok (VDer [ps]) /\ snd (qstep (qrun s0 [SSet y]) SPropag) = Ok (VProp qs) /\ nth 0 ps None <> nth 0 qs None /\ nth 1 ps None = nth 1 qs None.
Proof.
  set (s0 := smc (aq3 1 1 1 (fun _ _ _ => 5%Z)) 1 PSeq).
  exists (DId 1), s0. eexists. exists ya, (nth 0 (vder (snd (qstep (qrun s0 [SSet ya]) SNProp))) []), (vprop (snd (qstep (qrun s0 [SSet ya]) SPropag))).
  split; [apply sget_constructed; reflexivity|]. split; [reflexivity|]. split; [vm_compute; lia|]. split; [apply ok_der1; vm_compute; reflexivity|]. split; [apply ok_prop; vm_compute; reflexivity|].
  split; [|apply omeqb_eq; vm_compute; reflexivity].
  intros H. apply (f_equal (fun o => ceqb (pentry [o] 0 0 0) (ventry (snd (qstep (qrun s0 [SSet ya]) SPropag)) 0 0 0))) in H. vm_compute in H. discriminate.
Qed.

(** ---- unitary exponentials ---- *)
Add Field Kfield_sw : (k_field QcField).
Add Field Cfield_sw : (c_field QcField).
Lemma cayley_unit (x : cplx Qf) : x = copp (cconj x) -> csub (cq 2 0 1) x <> c0 /\ cmul (cconj (cdiv (cadd (cq 2 0 1) x) (csub (cq 2 0 1) x))) (cdiv (cadd (cq 2 0 1) x) (csub (cq 2 0 1) x)) = c1.
Proof.
  intros H. destruct x as [a b]. assert (Ha : a = kopp a) by exact (f_equal fst H).
  assert (A0 : a = k0). { change (a = Qcopp a) in Ha. change (a = 0%Qc). destruct (Qc_eq_dec a 0) as [|N]; auto. exfalso. 
    assert (Z : Qcmult (1 + 1)%Qc a = 0%Qc). { transitivity (a + a)%Qc; [ring|]. rewrite Ha at 2. ring. }
    apply Qcmult_integral in Z. destruct Z as [Z|Z]; [discriminate|tauto]. }
  subst a.
  assert (N : forall b : Qf, csub (cq 2 0 1) (k0, b) <> c0) by (intros b' Z; apply (f_equal fst) in Z; vm_compute in Z; discriminate).
  split; [apply N|].
  assert (E : cconj (cdiv (cadd (cq 2 0 1) (k0, b)) (csub (cq 2 0 1) (k0, b))) = cdiv (csub (cq 2 0 1) (k0, b)) (cadd (cq 2 0 1) (k0, b))).
  { assert (N2 : cadd (cq 2 0 1) (k0, b) <> c0) by (intros Z; apply (f_equal fst) in Z; vm_compute in Z; discriminate).
    assert (D : forall x y : cplx Qf, y <> c0 -> cconj y <> c0 -> cconj (cdiv x y) = cdiv (cconj x) (cconj y)).
    { intros x y Hy Hy'. assert (K : cmul (cconj (cdiv x y)) (cconj y) = cconj x). { rewrite <- cconj_mul. f_equal. field. auto. }
      rewrite <- K. field. auto. }
    assert (C1 : cconj (csub (cq 2 0 1) (k0, b)) = cadd (cq 2 0 1) (k0, b)) by (unfold cconj, cadd, csub, cq; cbn [fst snd]; change (qq 0 1) with (@k0 QcField); apply (f_equal2 pair); ring).
    assert (C2 : cconj (cadd (cq 2 0 1) (k0, b)) = csub (cq 2 0 1) (k0, b)) by (unfold cconj, cadd, csub, cq; cbn [fst snd]; change (qq 0 1) with (@k0 QcField); apply (f_equal2 pair); ring).
    rewrite D, C1, C2; auto. now rewrite C1. }
  rewrite E. field. split; [apply N || (intros Z; apply (f_equal fst) in Z; vm_compute in Z; discriminate)|apply N || (intros Z; apply (f_equal fst) in Z; vm_compute in Z; discriminate)].
Qed.
Section Z.
Context {F : OField}.
Add Field Kfield_swz : (k_field F).
Lemma cz_l (y : cplx F) : cmul (cconj c0) y = c0.
Proof. unfold cconj, c0, cmul. cbn [fst snd]. apply (f_equal2 pair); kring. Qed.
Lemma cz_r (y : cplx F) : cmul y (cconj c0) = c0.
Proof. unfold cconj, c0, cmul. cbn [fst snd]. apply (f_equal2 pair); kring. Qed.
Lemma cz_l' (y : cplx F) : cmul c0 y = c0.
Proof. unfold c0, cmul. cbn [fst snd]. apply (f_equal2 pair); kring. Qed.
Lemma cz_r' (y : cplx F) : cmul y c0 = c0.
Proof. unfold c0, cmul. cbn [fst snd]. apply (f_equal2 pair); kring. Qed.
Lemma cmul_comm' (x y : cplx F) : cmul x y = cmul y x.
Proof. unfold cmul. cbn [fst snd]. apply (f_equal2 pair); kring. Qed.
End Z.
Local Ltac cd0 := cbv iota; tocplx; first [apply cz_l|apply cz_r|apply cz_l'|apply cz_r'].
Lemma cayley_unitary n (A E : qop) (tau : Qf) : is_skew_hermitian (S:=QS) n A -> op_exp qla A (cofk tau) Frechet false = Ok E -> is_unitary (S:=QS) n E.
Proof.
  intros HA HE. assert (HX : is_skew_hermitian (S:=QS) n (mscale (S:=QS) (cofk tau) A)).
  { apply mscale_skew; auto. }
  set (X := mscale (S:=QS) (cofk tau) A) in *. destruct HA as [HA _]. apply is_matrix_wfm in HA. unfold op_exp in HE. rewrite (wfm_nr HA), (wfm_nc HA), Nat.eqb_refl in HE. cbn [negb] in HE.
  cbn [la_expm qla] in HE. assert (EE : E = cayley X) by (inversion HE; reflexivity). subst E. clear HE. clearbody X. destruct HX as [WX HX]. apply is_matrix_wfm in WX. unfold cayley. rewrite (wfm_nr WX).
  assert (V : forall i, i < n -> mg X i i = copp (cconj (mg X i i))) by (intros i Hi; now apply HX).
  split; [apply is_matrix_wfm, wfm_mk2|]. split; intros i j Hi Hj.
  - etransitivity; [apply (@sumn_single QS n i); [exact Hi|]|].
    + intros k Hk Nk. rewrite !mg_mk2 by auto. destruct (Nat.eqb_spec k i) as [|_]; [congruence|]. cd0.
    + rewrite !mg_mk2 by auto. rewrite Nat.eqb_refl. unfold delta. destruct (Nat.eqb_spec i j) as [<-|N]; cbv iota; tocplx; [rewrite (proj2 (cayley_unit (V i Hi))); reflexivity|cd0].
  - etransitivity; [apply (@sumn_single QS n i); [exact Hi|]|].
    + intros k Hk Nk. rewrite !mg_mk2 by auto. destruct (Nat.eqb_spec i k) as [|_]; [congruence|]. cd0.
    + rewrite !mg_mk2 by auto. rewrite Nat.eqb_refl, (Nat.eqb_sym j i). unfold delta. destruct (Nat.eqb_spec i j) as [<-|N]; cbv iota; tocplx; [|cd0].
      rewrite cmul_comm'. rewrite (proj2 (cayley_unit (V i Hi))). reflexivity.
Qed.
