(** Concrete open evolutions for C83: a spin with a drift, one control and one dissipation operator, two or three time steps. *)
Require Import List Arith Lia Bool Reals Lra.
From Verif Require Import LibBase LibRing LibArr LibCplx LibMat LibNorm LibDeriv M_Matrix S_Linear S_Deriv S_Exp P_Linear P_Matrix P_Frechet P_Mexp M_OpHeap M_Transfer S_Transfer M_Amplitude S_Amplitude M_Solver S_Solver S_Lindblad S_Channel P_Lindblad P_GradWit P_ChannelWit S_Invariance P_InvarianceWit S_OpenSym.
Import ListNotations.
Local Open Scope res_scope.
Set Implicit Arguments.

Section Wit.
Add Field Cfield_osw : (c_field RField).
Notation op := (op RField).
Notation st := (@st RField).
Notation fn := (nat -> nat -> RC).
Notation arr2 n h := (mk2 n n (h : nat -> nat -> RC) : op).
Notation rid := (fun x : R => x).
Definition opref (r : list R) : arr (kcar RField) := mk2 (length r) 1 (fun t _ => nth t r 0%R).
Definition oconf (l : fn) (r : list R) : @liconf RField := mkli (F:=RField) (Some [arr2 2 l]) (Some (fun _ _ => Ok (opref r))) None None None.
Definition obuild (hs : list fn) (c l : fn) (r tau : list R) (k : nat) (i : nat -> nat -> RC) : res st :=
  build_solver (F:=RField) (CLindblad (oconf l r)) (map (fun h => arr2 2 h) hs) [arr2 2 c] tau (Some (mk2 4 k i : op)) None Frechet false false GNone (mk_identity (F:=RField) 1) AIdentity None.
Definition osolver hs c l r tau k i : st :=
  match obuild hs c l r tau k i with
  | Ok s => s
  | Err _ => mkst (mkconf CSchroedinger [] (Arr [] []) Frechet false false GNone AIdentity) [] (mk_identity (F:=RField) 0) [] None None None false false (k_none (F:=RField)) (n_none (F:=RField)) (mkl None None) None
  end.
Definition orun hs c l r tau k i y : st := srun (F:=RField) rid lla c0 (osolver hs c l r tau k i) [SSet (F:=RField) (ipulse y)].
Definition orates (r : list R) (t _ : nat) : R := nth t r 0%R.
Notation evo := (open_evolution rid lla c0).
Definition herm2 (h : fn) : Prop := is_hermitian (S:=RS) 2 (arr2 2 h).

Lemma make_open hs c l r tau k i y ps fs s : obuild hs c l r tau k i = Ok s -> osolver hs c l r tau k i = s -> Forall herm2 hs -> herm2 c ->
  let s1 := srun (F:=RField) rid lla c0 s [SSet (F:=RField) (ipulse y)] in
  all_ok (F:=RField) rid lla c0 s [SSet (F:=RField) (ipulse y)] -> s_conf s1 = s_conf s -> s_conf s = mkconf (CLindblad (oconf l r)) [arr2 2 c] (mk2 4 k i : op) Frechet false false GNone AIdentity ->
  s_drift s1 = map (fun h => arr2 2 h) hs -> amplitudes (F:=RField) s1 (ipulse y) ->
  returns (F:=RField) rid lla c0 s1 SPropag (VProp ps) -> returns (F:=RField) rid lla c0 s1 SFwd (VOps fs) ->
  evo (orun hs c l r tau k i y) 2 k [arr2 2 l] (ipulse y) (fun t j => get2 (0%R : RField) (opref r) t j) ps fs.
Proof.
  intros HB HS HH HC s1 HO E1 E2 ED HA HP HF. unfold orun. rewrite HS. fold s1. constructor.
  - exists (DId 1), s. split; [|split].
    + split; [exact I|]. exists (CLindblad (oconf l r)), (map (fun h => arr2 2 h) hs), [arr2 2 c], tau, (Some (mk2 4 k i : op)), None, Frechet, false, false, GNone, (mk_identity (F:=RField) 1), AIdentity, None.
      split; [reflexivity|]. exact HB.
    + rewrite E2. constructor.
      * intros [H|H]; exfalso; apply H; reflexivity.
      * intros A D E X t. cbn [c_meth]. unfold op_dexp, op_exp. destruct (Nat.eqb (nr A) (nc A)); cbn [andb negb]; [|discriminate].
        destruct (Nat.eqb (nr D) (nr A) && Nat.eqb (nc D) (nc A)); cbn [negb]; [|discriminate]. intros H. apply (f_equal (fun r => match r with Ok p => Ok (fst p) | Err e => Err e end)) in H. exact H.
      * discriminate.
      * discriminate.
    + exists [SSet (F:=RField) (ipulse y)]. split; [constructor; [unfold allowed; eauto|constructor]|]. split; [exact HO|reflexivity].
  - exists (oconf l r). rewrite E1, E2. split; [reflexivity|]. split; [reflexivity|]. split; [reflexivity|]. exists (opref r). split; [reflexivity|]. split; reflexivity.
  - constructor; [apply is_matrix_wfm, wfm_mk2|constructor].
  - rewrite ED. apply Forall_forall. intros z Hz. apply in_map_iff in Hz. destruct Hz as (h & <- & Hh). exact (proj1 (Forall_forall _ _) HH h Hh).
  - rewrite E1, E2. constructor; [exact HC|constructor].
  - exact HA.
  - rewrite E1, E2. apply is_matrix_wfm. exact (@wfm_mk2 RS 4 k i).
  - intros G P t HG. rewrite E1, E2. cbn [c_meth c_skew]. unfold op_exp. apply is_matrix_wfm in HG. rewrite (wfm_nr HG), (wfm_nc HG). cbn. intros E. injection E as <-.
    apply expm_sq_exact. apply is_matrix_wfm. now apply wfm_mscale.
  - exact HP.
  - exact HF.
Qed.
Ltac oevo := eapply make_open; [reflexivity|reflexivity|repeat (apply Forall_cons; [assumption|]); apply Forall_nil|assumption|split; [eexists; reflexivity|exact I]|reflexivity|reflexivity|reflexivity|split; reflexivity|reflexivity|reflexivity].
Lemma oevo21 h0 h1 c l r0 r1 t0 t1 i a b : herm2 h0 -> herm2 h1 -> herm2 c -> exists ps fs, evo (orun [h0; h1] c l [r0; r1] [t0; t1] 1 i [a; b]) 2 1 [arr2 2 l] (ipulse [a; b]) (fun t j => get2 (0%R : RField) (opref [r0; r1]) t j) ps fs.
Proof. intros H0 H1 HC. eexists. eexists. oevo. Qed.
Lemma oevo22 h0 h1 c l r0 r1 t0 t1 i a b : herm2 h0 -> herm2 h1 -> herm2 c -> exists ps fs, evo (orun [h0; h1] c l [r0; r1] [t0; t1] 2 i [a; b]) 2 2 [arr2 2 l] (ipulse [a; b]) (fun t j => get2 (0%R : RField) (opref [r0; r1]) t j) ps fs.
Proof. intros H0 H1 HC. eexists. eexists. oevo. Qed.
Lemma oevo31 h0 h1 h2 c l r0 r1 r2 t0 t1 t2 i a b d : herm2 h0 -> herm2 h1 -> herm2 h2 -> herm2 c -> exists ps fs, evo (orun [h0; h1; h2] c l [r0; r1; r2] [t0; t1; t2] 1 i [a; b; d]) 2 1 [arr2 2 l] (ipulse [a; b; d]) (fun t j => get2 (0%R : RField) (opref [r0; r1; r2]) t j) ps fs.
Proof. intros H0 H1 H2 HC. eexists. eexists. oevo. Qed.

(** ---- cases ---- *)
Lemma herm_z : herm2 hz. Proof. apply wsz_herm. Qed.
Lemma herm_x : herm2 hx. Proof. apply wsx_herm. Qed.
Ltac lv2 t := destruct t as [|[|?]]; try (exfalso; cbn in *; lia).
Lemma herm_add h g : herm2 h -> herm2 g -> herm2 (fun i j => cadd (h i j) (g i j)).
Proof.
  intros [_ H] [_ G]. split; [apply is_matrix_wfm, wfm_mk2|]. intros i j Hi Hj. specialize (H i j Hi Hj). specialize (G i j Hi Hj). rewrite !mg_mk2 in * by auto. rewrite H, G. cbn [sconj RS CStar]. now rewrite cconj_add.
Qed.
Lemma herm_scaled e h : herm2 h -> herm2 (scaled e h).
Proof.
  intros [_ H]. split; [apply is_matrix_wfm, wfm_mk2|]. intros i j Hi Hj. specialize (H i j Hi Hj). rewrite !mg_mk2 in * by auto. unfold scaled. rewrite H. cbn [sconj RS CStar]. rewrite cconj_mul. f_equal. unfold cconj, cofk. cbn. f_equal. ring.
Qed.
Lemma herm_one : herm2 hone.
Proof. split; [apply is_matrix_wfm, wfm_mk2|]. intros i j Hi Hj. rewrite !mg_mk2 by auto. lv2 i; lv2 j; cbn; unfold cconj, c0, c1; cbn; f_equal; ring. Qed.
Lemma herm_raised e h : herm2 h -> herm2 (raised e h).
Proof. intros H. exact (herm_add H (herm_scaled e herm_one)). Qed.
Lemma herm_swapped h : herm2 h -> herm2 (swapped h).
Proof. intros [_ H]. split; [apply is_matrix_wfm, wfm_mk2|]. intros i j Hi Hj. specialize (H (1 - i) (1 - j) ltac:(lia) ltac:(lia)). rewrite !mg_mk2 in * by lia. exact H. Qed.
Hint Resolve herm_z herm_x herm_add herm_scaled herm_one herm_raised herm_swapped : herm.

(** |0><1| *)
Definition low (i j : nat) : RC := if Nat.eqb i 0 && Nat.eqb j 1 then c1 else c0.
(** a state as a column *)
Definition col (rho : fn) (p _ : nat) : RC := rho (p mod 2) (p / 2).
Definition excited (i j : nat) : RC := if Nat.eqb i 1 && Nat.eqb j 1 then c1 else c0.
Definition ground (i j : nat) : RC := if Nat.eqb i 0 && Nat.eqb j 0 then c1 else c0.
Definition tilted (e : R) (h : fn) (i j : nat) : RC := cadd (h i j) (scaled e hx i j).
Definition turn_i (z : RC) (h : fn) (i j : nat) : RC := cmul z (h i j).
Definition moved (z : RC) (h : fn) (i j : nat) : RC := cadd (h i j) (cmul z (hone i j)).
Definition rate (r : list R) (t j : nat) : R := get2 (0%R : RField) (opref r) t j.
Notation dissip l := [mk2 2 2 (l : fn) : mat RS].

(** drifts sigma_z and sigma_x, control sigma_x with amplitudes 1 and 3, relaxation with the rates 1 and 2 in two time steps of length 1 and 2 *)
Definition o_base : st := orun [hz; hx] hx low [1; 2]%R [1; 2]%R 1 (col excited) [1; 3]%R.
Definition o_raised : st := orun [raised 1 hz; raised 5 hx] hx low [1; 2]%R [1; 2]%R 1 (col excited) [1; 3]%R.
Definition o_factor : st := orun [hz; hx] hx (turn_i (0, 2)%R low) [/4; /2]%R [1; 2]%R 1 (col excited) [1; 3]%R.
Definition o_moved : st := orun [tilted (- / 2) hz; tilted (- 1) hx] hx (moved (0, 1)%R low) [1; 2]%R [1; 2]%R 1 (col excited) [1; 3]%R.
Definition o_swap : st := orun [swapped hz; swapped hx] (swapped hx) (swapped low) [1; 2]%R [1; 2]%R 1 (col (swapped excited)) [1; 3]%R.
Definition o_dephase : st := orun [hz; scaled 3 hz] hz hz [1; 2]%R [1; 2]%R 1 (col ones_) [1; 3]%R.
Definition o_ground : st := orun [hz; scaled 3 hz] hz low [1; 2]%R [1; 2]%R 1 (col ground) [1; 3]%R.
Definition o_mixed : st := orun [hz; hx] hx hx [1; 2]%R [1; 2]%R 1 (col (scaled (/2) hone)) [1; 3]%R.
Definition o_units : st := orun [scaled (/2) hz; scaled (/2) hx] (scaled (/6) hx) low [/2; 1]%R [2 * 1; 2 * 2]%R 1 (col excited) [3 * 1; 3 * 3]%R.
Definition o_parts : st := orun [hz; hx; hx] hx low [1; 2; 2]%R [1; /2; 3/2]%R 1 (col excited) [1; 3; 3]%R.
Definition o_closed : st := orun [hz; hx] hx low [0; 0]%R [1; 2]%R 1 (col ones_) [1; 3]%R.
Definition o_two : st := orun [hz; hx] hx low [1; 2]%R [1; 2]%R 2 (fun p x => if Nat.eqb x 0 then col excited p x else col ground p x) [1; 3]%R.
Definition o_sum : st := orun [hz; hx] hx low [1; 2]%R [1; 2]%R 1 (col hone) [1; 3]%R.
Notation parts k s hs c tau i := (s_drift s = map (fun h : fn => arr2 2 h) hs /\ c_ctrl (s_conf s) = [arr2 2 c] /\ s_time s = (tau : list R) /\ c_init (s_conf s) = (mk2 4 k i : op)).
Ltac ptime := match goal with |- _ = ?l => transitivity (map (fun x : R => kdivn (F:=RField) x 1) l : list R); [reflexivity|cbn [map]; rewrite !kdivn_1; reflexivity] end.
Ltac pt := split; [reflexivity|]; split; [reflexivity|]; split; [ptime|reflexivity].
Lemma pt_base : parts 1 o_base [hz; hx] hx [1; 2]%R (col excited). Proof. pt. Qed.
Lemma pt_raised : parts 1 o_raised [raised 1 hz; raised 5 hx] hx [1; 2]%R (col excited). Proof. pt. Qed.
Lemma pt_factor : parts 1 o_factor [hz; hx] hx [1; 2]%R (col excited). Proof. pt. Qed.
Lemma pt_moved : parts 1 o_moved [tilted (- / 2) hz; tilted (- 1) hx] hx [1; 2]%R (col excited). Proof. pt. Qed.
Lemma pt_swap : parts 1 o_swap [swapped hz; swapped hx] (swapped hx) [1; 2]%R (col (swapped excited)). Proof. pt. Qed.
Lemma pt_dephase : parts 1 o_dephase [hz; scaled 3 hz] hz [1; 2]%R (col ones_). Proof. pt. Qed.
Lemma pt_ground : parts 1 o_ground [hz; scaled 3 hz] hz [1; 2]%R (col ground). Proof. pt. Qed.
Lemma pt_mixed : parts 1 o_mixed [hz; hx] hx [1; 2]%R (col (scaled (/2) hone)). Proof. pt. Qed.
Lemma pt_units : parts 1 o_units [scaled (/2) hz; scaled (/2) hx] (scaled (/6) hx) [2 * 1; 2 * 2]%R (col excited). Proof. pt. Qed.
Lemma pt_parts : parts 1 o_parts [hz; hx; hx] hx [1; /2; 3/2]%R (col excited). Proof. pt. Qed.
Lemma pt_closed : parts 1 o_closed [hz; hx] hx [1; 2]%R (col ones_). Proof. pt. Qed.
Lemma pt_two : parts 2 o_two [hz; hx] hx [1; 2]%R (fun p x => if Nat.eqb x 0 then col excited p x else col ground p x). Proof. pt. Qed.
Lemma pt_sum : parts 1 o_sum [hz; hx] hx [1; 2]%R (col hone). Proof. pt. Qed.
Notation has s k l y r := (exists ps fs, evo s 2 k (dissip l) (ipulse y) (rate r) ps fs).
Lemma ev_base : has o_base 1 low [1; 3]%R [1; 2]%R. Proof. apply oevo21; auto with herm. Qed.
Lemma ev_raised : has o_raised 1 low [1; 3]%R [1; 2]%R. Proof. apply oevo21; auto with herm. Qed.
Lemma ev_factor : has o_factor 1 (turn_i (0, 2)%R low) [1; 3]%R [/4; /2]%R. Proof. apply oevo21; auto with herm. Qed.
Lemma ev_moved : has o_moved 1 (moved (0, 1)%R low) [1; 3]%R [1; 2]%R. Proof. apply oevo21; unfold tilted; auto with herm. Qed.
Lemma ev_swap : has o_swap 1 (swapped low) [1; 3]%R [1; 2]%R. Proof. apply oevo21; auto with herm. Qed.
Lemma ev_dephase : has o_dephase 1 hz [1; 3]%R [1; 2]%R. Proof. apply oevo21; auto with herm. Qed.
Lemma ev_ground : has o_ground 1 low [1; 3]%R [1; 2]%R. Proof. apply oevo21; auto with herm. Qed.
Lemma ev_mixed : has o_mixed 1 hx [1; 3]%R [1; 2]%R. Proof. apply oevo21; auto with herm. Qed.
Lemma ev_units : has o_units 1 low [3 * 1; 3 * 3]%R [/2; 1]%R. Proof. apply oevo21; auto with herm. Qed.
Lemma ev_parts : has o_parts 1 low [1; 3; 3]%R [1; 2; 2]%R. Proof. apply oevo31; auto with herm. Qed.
Lemma ev_closed : has o_closed 1 low [1; 3]%R [0; 0]%R. Proof. apply oevo21; auto with herm. Qed.
Lemma ev_two : has o_two 2 low [1; 3]%R [1; 2]%R. Proof. apply oevo22; auto with herm. Qed.
Lemma ev_sum : has o_sum 1 low [1; 3]%R [1; 2]%R. Proof. apply oevo21; auto with herm. Qed.
End Wit.
