(** Concrete evolutions for C83 with the dissipation given as super operators or by a function: the spins of P_OpenSymWit.v. *)
Require Import List Arith Lia Bool Reals Lra.
From Verif Require Import LibBase LibRing LibArr LibCplx LibMat LibNorm LibDeriv M_Matrix S_Linear S_Deriv S_Exp P_Linear P_Matrix P_Frechet P_Mexp M_OpHeap M_Transfer S_Transfer M_Amplitude S_Amplitude M_Solver S_Solver S_Lindblad S_Channel P_Lindblad P_GradWit P_ChannelWit S_Invariance P_InvarianceWit S_OpenSym P_OpenSym3 P_OpenSymWit P_OpenSymCases S_OpenSuper.
Import ListNotations.
Local Open Scope res_scope.
Set Implicit Arguments.

Section Wit.
Add Field Cfield_suw : (c_field RField).
Notation op := (op RField).
Notation st := (@st RField).
Notation fn := (nat -> nat -> RC).
Notation arr2 n h := (mk2 n n (h : nat -> nat -> RC) : op).
Notation rid := (fun x : R => x).
Notation sevo := (super_evolution rid lla c0).
(** the super operator of the dissipation of l *)
Definition sup (l : fn) : op := match dissipator (F:=RField) (mid (S:=RS) 2) (arr2 2 l) with Ok D => D | Err _ => Arr [] [] end.
Lemma sup_acts l : acts_as (F:=RField) 2 (sup l) (dissipation (F:=RField) 2 (arr2 2 l)).
Proof. destruct (@dissipator_acts RField 2 (arr2 2 l)) as (D & E & A); [apply wfm_mk2|]. unfold sup. rewrite E. exact A. Qed.
Lemma sup_wf l : wfm (S:=RS) 4 4 (sup l).
Proof. apply is_matrix_wfm. exact (proj1 (sup_acts l)). Qed.
(** the rate of the time step times the dissipation of l *)
Definition damp (l : fn) (r : list R) (t : nat) (rho : fn) (i j : nat) : RC := cmul (cofk (nth t r 0%R : RField)) (dissipation (F:=RField) 2 (arr2 2 l) rho i j).
(** given as super operator with a prefactor function, or by a function *)
Definition opconf (r : list R) : @liconf RField := mkli (F:=RField) None (Some (fun _ _ => Ok (opref r))) None None None.
Definition each (l : fn) (r : list R) : list op := map (fun x => mscale (S:=RS) (cofk (x : RField)) (sup l)) r.
Definition fnconf (l : fn) (r : list R) : @liconf RField := mkli (F:=RField) None None None (Some (fun _ _ => Ok (each l r))) None.
Definition uconf (b : bool) (l : fn) (r : list R) : @liconf RField := if b then opconf r else fnconf l r.
Definition udis (b : bool) (l : fn) : option (list op) := if b then Some [sup l] else None.
Definition ubuild (b : bool) (hs : list fn) (c l : fn) (r tau : list R) (i : nat -> nat -> RC) : res st :=
  build_solver (F:=RField) (CLindblad (uconf b l r)) (map (fun h => arr2 2 h) hs) [arr2 2 c] tau (Some (mk2 4 1 i : op)) None Frechet false false GNone (mk_identity (F:=RField) 1) AIdentity (udis b l).
Definition usolver b hs c l r tau i : st :=
  match ubuild b hs c l r tau i with
  | Ok s => s
  | Err _ => mkst (mkconf CSchroedinger [] (Arr [] []) Frechet false false GNone AIdentity) [] (mk_identity (F:=RField) 0) [] None None None false false (k_none (F:=RField)) (n_none (F:=RField)) (mkl None None) None
  end.
Definition urun b hs c l r tau i y : st := srun (F:=RField) rid lla c0 (usolver b hs c l r tau i) [SSet (F:=RField) (ipulse y)].

Lemma nth_each l r : forall t, t < length r -> nth t (each l r) (Arr [] []) = mscale (S:=RS) (cofk (nth t r 0%R : RField)) (sup l).
Proof. induction r as [|x r IH]; intros t Ht; [cbn in Ht; lia|]. destruct t as [|t]; [reflexivity|]. cbn in Ht. exact (IH t ltac:(lia)). Qed.
Lemma damped (b : bool) (s s1 : st) l r u : c_class (s_conf s1) = CLindblad (uconf b l r) -> s_udiss s = udis b l -> length (s_time s1) = length r ->
  damped_by_operators 2 s s1 u (damp l r) \/ damped_by_function 2 s1 u (damp l r).
Proof.
  intros C U L. destruct b; [left|right].
  - exists (opconf r), [sup l], (fun t q => get2 (0%R : RField) (opref r) t q). split; [exact C|]. split; [reflexivity|]. split; [reflexivity|]. split; [exact U|]. split; [constructor; [exact (proj1 (sup_acts l))|constructor]|]. split.
    + exists (opref r). split; [reflexivity|]. split; reflexivity.
    + intros t rho i j Ht Hi Hj. rewrite L in Ht. cbn [length sumn nth]. rewrite (proj2 (sup_acts l)) by auto. unfold damp. unfold opref. rewrite get2_mk2 by auto. tocplx. cring.
  - exists (fnconf l r), (fun _ _ => Ok (each l r)), (each l r). split; [exact C|]. split; [reflexivity|]. split; [reflexivity|]. split.
    + apply Forall_forall. intros z Hz. apply in_map_iff in Hz. destruct Hz as (x & <- & _). apply is_matrix_wfm. apply wfm_mscale. apply sup_wf.
    + intros t rho i j Ht Hi Hj. rewrite L in Ht. rewrite nth_each by auto. unfold damp. rewrite <- (proj2 (sup_acts l)) by auto. symmetry. apply (@app_mscale RField 2); auto. apply sup_wf.
Qed.
Lemma make_super b hs c l r tau i y ps fs s : ubuild b hs c l r tau i = Ok s -> usolver b hs c l r tau i = s -> Forall herm2 hs -> herm2 c ->
  let s1 := srun (F:=RField) rid lla c0 s [SSet (F:=RField) (ipulse y)] in
  all_ok (F:=RField) rid lla c0 s [SSet (F:=RField) (ipulse y)] -> s_conf s1 = s_conf s -> s_conf s = mkconf (CLindblad (uconf b l r)) [arr2 2 c] (mk2 4 1 i : op) Frechet false false GNone AIdentity ->
  s_drift s1 = map (fun h => arr2 2 h) hs -> s_udiss s = udis b l -> length (s_time s1) = length r -> amplitudes (F:=RField) s1 (ipulse y) ->
  returns (F:=RField) rid lla c0 s1 SPropag (VProp ps) -> returns (F:=RField) rid lla c0 s1 SFwd (VOps fs) ->
  sevo (urun b hs c l r tau i y) 2 1 (ipulse y) (damp l r) ps fs.
Proof.
  intros HB HS HH HC s1 HO E1 E2 ED EU EL HA HP HF. unfold urun. rewrite HS. fold s1. constructor.
  - exists (DId 1), s. split; [split; [|split]|].
    + split; [exact I|]. exists (CLindblad (uconf b l r)), (map (fun h => arr2 2 h) hs), [arr2 2 c], tau, (Some (mk2 4 1 i : op)), None, Frechet, false, false, GNone, (mk_identity (F:=RField) 1), AIdentity, (udis b l).
      split; [reflexivity|]. exact HB.
    + rewrite E2. constructor.
      * intros [H|H]; exfalso; apply H; destruct b; reflexivity.
      * intros A D E X t. cbn [c_meth]. unfold op_dexp, op_exp. destruct (Nat.eqb (nr A) (nc A)); cbn [andb negb]; [|discriminate].
        destruct (Nat.eqb (nr D) (nr A) && Nat.eqb (nc D) (nc A)); cbn [negb]; [|discriminate]. intros H. apply (f_equal (fun r => match r with Ok p => Ok (fst p) | Err e => Err e end)) in H. exact H.
      * discriminate.
      * discriminate.
    + exists [SSet (F:=RField) (ipulse y)]. split; [constructor; [unfold allowed; eauto|constructor]|]. split; [exact HO|reflexivity].
    + apply (@damped b); auto. now rewrite E1, E2.
  - rewrite ED. apply Forall_forall. intros z Hz. apply in_map_iff in Hz. destruct Hz as (h & <- & Hh). exact (proj1 (Forall_forall _ _) HH h Hh).
  - rewrite E1, E2. constructor; [exact HC|constructor].
  - exact HA.
  - rewrite E1, E2. apply is_matrix_wfm. exact (@wfm_mk2 RS 4 1 i).
  - intros G P t HG. rewrite E1, E2. cbn [c_meth c_skew]. unfold op_exp. apply is_matrix_wfm in HG. rewrite (wfm_nr HG), (wfm_nc HG). cbn. intros E. injection E as <-.
    apply expm_sq_exact. apply is_matrix_wfm. now apply wfm_mscale.
  - exact HP.
  - exact HF.
Qed.
Ltac sevo_ := eapply make_super; [reflexivity|reflexivity|repeat (apply Forall_cons; [assumption|]); apply Forall_nil|assumption|split; [eexists; reflexivity|exact I]|reflexivity|reflexivity|reflexivity|reflexivity|reflexivity|split; reflexivity|reflexivity|reflexivity].
Lemma sevo2 b h0 h1 c l r0 r1 t0 t1 i y0 y1 : herm2 h0 -> herm2 h1 -> herm2 c -> exists ps fs, sevo (urun b [h0; h1] c l [r0; r1] [t0; t1] i [y0; y1]) 2 1 (ipulse [y0; y1]) (damp l [r0; r1]) ps fs.
Proof. intros H0 H1 HC. destruct b; eexists; eexists; sevo_. Qed.
Lemma sevo3 b h0 h1 h2 c l r0 r1 r2 t0 t1 t2 i y0 y1 y2 : herm2 h0 -> herm2 h1 -> herm2 h2 -> herm2 c ->
  exists ps fs, sevo (urun b [h0; h1; h2] c l [r0; r1; r2] [t0; t1; t2] i [y0; y1; y2]) 2 1 (ipulse [y0; y1; y2]) (damp l [r0; r1; r2]) ps fs.
Proof. intros H0 H1 H2 HC. destruct b; eexists; eexists; sevo_. Qed.
End Wit.
