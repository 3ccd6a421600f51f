(** Concrete evolutions for C86, with the closed form written out. *)
Require Import List Arith Lia Bool Reals Lra.
From Verif Require Import LibBase LibRing LibArr LibCplx LibMat LibNorm LibDeriv M_Matrix S_Linear S_Deriv S_Exp P_Linear P_Matrix P_Frechet P_Mexp M_OpHeap M_Transfer S_Transfer M_Amplitude S_Amplitude M_Solver S_Solver S_Lindblad S_Channel P_Lindblad P_GradWit P_ChannelWit S_Invariance P_Invariance2 P_InvarianceWit S_OpenSym P_OpenSym2 P_OpenSymWit S_Closed P_Closed P_Closed2.
Import ListNotations.
Local Open Scope res_scope.
Set Implicit Arguments.

Section Cases.
Add Field Cfield_clw : (c_field RField).
Notation op := (op RField).
Notation st := (@st RField).
Notation fn := (nat -> nat -> RC).
Notation arr2 n h := (mk2 n n (h : nat -> nat -> RC) : mat RS).
Notation rid := (fun x : R => x).
Notation evo := (open_evolution rid lla c0).
Notation evolution := (evolution rid wla c0).
Ltac lv2 t := destruct t as [|[|?]]; try (exfalso; cbn in *; lia).
Ltac ent := cbn [nth map sumn length]; rewrite ?(@mg_mk2 RS) by (cbn; lia); unfold rate, opref, scaled, low, col, ones_, hz, hx, hone, delta; cbn; unfold cadd, cmul, cofk, copp, csub, cconj, c0, c1, ci; cbn; try (f_equal; (ring || field)).
Notation ket h0 h1 c t0 t1 i a b := (iset rid (isolver (map (fun h : fn => mk2 2 2 h : op) [h0; h1]) [mk2 2 2 (c : fn) : op] [t0; t1] (mk2 2 2 (i : fn) : op)) (ipulse [a; b])).

Lemma some_at (s : st) n k u ps fs t : evolution s n k u ps fs -> t <= length (s_time s) -> exists f, nth_error fs t = Some f.
Proof. intros E Ht. destruct (steps E) as (_ & L & _). destruct (nth_error fs t) eqn:H; eauto. apply nth_error_None in H. lia. Qed.
Lemma open_at (s : st) n k Ls u w ps fs t : evo s n k Ls u w ps fs -> t <= length (s_time s) -> exists f, nth_error fs t = Some f.
Proof. intros E Ht. destruct (osteps E) as (_ & L & _). destruct (nth_error fs t) eqn:H; eauto. apply nth_error_None in H. lia. Qed.

(** energies 2 and 6 in time steps of length 1 and 2, and the opposite ones *)
Definition s_levels : st := ket hz (scaled 3 hz) hz 1%R 2%R ones_ 1%R 3%R.
Lemma s_levels_evo : exists ps fs, evolution s_levels 2 2 (ipulse [1; 3]%R) ps fs. Proof. exact (evo2 rid hz (scaled 3 hz) hz ones_ 1 2 1 3). Qed.
Lemma s_levels_parts : s_drift s_levels = [mk2 2 2 hz : op; mk2 2 2 (scaled 3 hz) : op] /\ c_ctrl (s_conf s_levels) = [mk2 2 2 hz : op] /\ s_time s_levels = [1; 2]%R /\ c_init (s_conf s_levels) = (mk2 2 2 ones_ : op). Proof. exact (parts2 rid hz (scaled 3 hz) hz ones_ 1 2 1 3). Qed.
Definition basis (q i : nat) : RC := if Nat.eqb q i then c1 else c0.
Definition level (q r : nat) : R := nth r (if Nat.eqb q 0 then [2; 6] else [- (2); - (6)])%R 0%R.
Lemma case_spectral : exists ps fs f, evolution s_levels 2 2 (ipulse [1; 3]%R) ps fs /\
  (forall r q, r < length (s_time s_levels) -> q < 2 -> eigenvector 2 (energy_op s_levels (ipulse [1; 3]%R) r) (basis q) (level q r)) /\
  (forall i, i < 2 -> (c_init (s_conf s_levels)).[i,0] = sumn (S:=RS) 2 (fun q => cmul c1 (basis q i))) /\
  nth_error fs 2 = Some f /\ f.[0,0] = phase 14 /\ f.[1,0] = phase (- 14).
Proof.
  destruct s_levels_evo as (ps & fs & E). destruct s_levels_parts as (A1 & A2 & A3 & A4).
  destruct (some_at (t := 2) E) as [f Hf]; [rewrite A3; auto|].
  assert (HE : forall r q, r < length (s_time s_levels) -> q < 2 -> eigenvector 2 (energy_op s_levels (ipulse [1; 3]%R) r) (basis q) (level q r)).
  { intros r q Hr Hq i Hi. unfold energy_op, hamiltonian. rewrite A1, A2. rewrite A3 in Hr. lv2 r; lv2 q; lv2 i; unfold basis, level; ent. }
  assert (HI : forall i, i < 2 -> (c_init (s_conf s_levels)).[i,0] = sumn (S:=RS) 2 (fun q => cmul c1 (basis q i))).
  { intros i Hi. rewrite A4. lv2 i; unfold basis; ent. }
  exists ps, fs, f. split; [exact E|]. split; [exact HE|]. split; [exact HI|]. split; [exact Hf|].
  pose proof (fun i => @spectral rid wla c0 s_levels 2 2 _ ps fs 2 (fun _ => c1) basis level 0 E (Nat.lt_0_succ 1) HE HI 2 f i Hf) as R. rewrite (R 0), (R 1) by lia. cbn [sumn]. unfold span. rewrite A3. unfold basis, level. cbn [Nat.eqb total nth].
  replace (0 + 2 * 1 + 6 * 2)%R with 14%R by ring. replace (0 + - (2) * 1 + - (6) * 2)%R with (- 14)%R by ring. generalize (phase 14) (phase (- 14)). intros a b. tocplx. split; cring.
Qed.

(** no drift, amplitudes 1 and 3 of sigma_x in time steps of length 1 and 2: the angle 7 *)
Definition s_rotate : st := ket (scaled 0 hx) (scaled 0 hx) hx 1%R 2%R hone 1%R 3%R.
Lemma s_rotate_evo : exists ps fs, evolution s_rotate 2 2 (ipulse [1; 3]%R) ps fs. Proof. exact (evo2 rid (scaled 0 hx) (scaled 0 hx) hx hone 1 2 1 3). Qed.
Lemma s_rotate_parts : s_drift s_rotate = [mk2 2 2 (scaled 0 hx) : op; mk2 2 2 (scaled 0 hx) : op] /\ c_ctrl (s_conf s_rotate) = [mk2 2 2 hx : op] /\ s_time s_rotate = [1; 2]%R /\ c_init (s_conf s_rotate) = (mk2 2 2 hone : op). Proof. exact (parts2 rid (scaled 0 hx) (scaled 0 hx) hx hone 1 2 1 3). Qed.
Definition area (r : nat) : R := nth r [1; 3]%R 0%R.
Lemma case_rotation : exists ps fs f, evolution s_rotate 2 2 (ipulse [1; 3]%R) ps fs /\ involution 2 hx /\
  (forall r i j, r < length (s_time s_rotate) -> i < 2 -> j < 2 -> energy_op s_rotate (ipulse [1; 3]%R) r i j = cmul (cofk (area r : RField)) (hx i j)) /\
  nth_error fs 2 = Some f /\ f.[0,0] = ((cos 7, 0)%R : RC) /\ f.[1,0] = ((0, - sin 7)%R : RC).
Proof.
  destruct s_rotate_evo as (ps & fs & E). destruct s_rotate_parts as (A1 & A2 & A3 & A4).
  destruct (some_at (t := 2) E) as [f Hf]; [rewrite A3; auto|].
  assert (HC : involution 2 hx) by (intros i j Hi Hj; lv2 i; lv2 j; ent).
  assert (HE : forall r i j, r < length (s_time s_rotate) -> i < 2 -> j < 2 -> energy_op s_rotate (ipulse [1; 3]%R) r i j = cmul (cofk (area r : RField)) (hx i j)).
  { intros r i j Hr Hi Hj. unfold energy_op, hamiltonian. rewrite A1, A2. rewrite A3 in Hr. lv2 r; lv2 i; lv2 j; unfold area; ent. }
  exists ps, fs, f. split; [exact E|]. split; [exact HC|]. split; [exact HE|]. split; [exact Hf|].
  pose proof (fun i => @rotation rid wla c0 s_rotate 2 2 _ ps fs hx area 0 E (Nat.lt_0_succ 1) HC HE 2 f i Hf) as R. rewrite (R 0), (R 1) by lia. unfold span. rewrite A3, A4. unfold area. cbn [total nth]. replace (0 + 1 * 1 + 3 * 2)%R with 7%R by ring.
  cbn [sumn]. rewrite !(@mg_mk2 RS) by lia. unfold hx, hone. cbn [Nat.eqb]. tocplx. unfold cmul, cadd, copp, cofk, ci, c0, c1. cbn. split; f_equal; ring.
Qed.

(** detuning 1 and coupling 3 for the time 3 *)
Definition s_rabi : st := ket hz hz hx 1%R 2%R hone 3%R 3%R.
Lemma s_rabi_evo : exists ps fs, evolution s_rabi 2 2 (ipulse [3; 3]%R) ps fs. Proof. exact (evo2 rid hz hz hx hone 1 2 3 3). Qed.
Lemma s_rabi_parts : s_drift s_rabi = [mk2 2 2 hz : op; mk2 2 2 hz : op] /\ c_ctrl (s_conf s_rabi) = [mk2 2 2 hx : op] /\ s_time s_rabi = [1; 2]%R /\ c_init (s_conf s_rabi) = (mk2 2 2 hone : op). Proof. exact (parts2 rid hz hz hx hone 1 2 3 3). Qed.
Lemma case_rabi : exists ps fs f, evolution s_rabi 2 2 (ipulse [3; 3]%R) ps fs /\
  (forall r, r < length (s_time s_rabi) -> energy_op s_rabi (ipulse [3; 3]%R) r 0 0 = cofk (1%R : RField) /\ energy_op s_rabi (ipulse [3; 3]%R) r 0 1 = ((3, 0)%R : RC) /\
    energy_op s_rabi (ipulse [3; 3]%R) r 1 0 = cconj ((3, 0)%R : RC) /\ energy_op s_rabi (ipulse [3; 3]%R) r 1 1 = copp (cofk (1%R : RField))) /\
  (c_init (s_conf s_rabi)).[0,0] = c1 /\ (c_init (s_conf s_rabi)).[1,0] = c0 /\
  nth_error fs 2 = Some f /\ size2 f.[1,0] = (9 / 10 * (sin (sqrt 10 * 3) * sin (sqrt 10 * 3)))%R.
Proof.
  destruct s_rabi_evo as (ps & fs & E). destruct s_rabi_parts as (A1 & A2 & A3 & A4).
  destruct (some_at (t := 2) E) as [f Hf]; [rewrite A3; auto|].
  assert (HE : forall r, r < length (s_time s_rabi) -> energy_op s_rabi (ipulse [3; 3]%R) r 0 0 = cofk (1%R : RField) /\ energy_op s_rabi (ipulse [3; 3]%R) r 0 1 = ((3, 0)%R : RC) /\
    energy_op s_rabi (ipulse [3; 3]%R) r 1 0 = cconj ((3, 0)%R : RC) /\ energy_op s_rabi (ipulse [3; 3]%R) r 1 1 = copp (cofk (1%R : RField))).
  { intros r Hr. unfold energy_op, hamiltonian. rewrite A1, A2. rewrite A3 in Hr. lv2 r; split; [|split; [|split]| |split; [|split]]; ent. }
  assert (I0 : (c_init (s_conf s_rabi)).[0,0] = c1) by (rewrite A4; ent). assert (I1 : (c_init (s_conf s_rabi)).[1,0] = c0) by (rewrite A4; ent).
  assert (S10 : (1 * 1 + size2 ((3, 0)%R : RC) = 10)%R) by (unfold size2; cbn; ring).
  exists ps, fs, f. split; [exact E|]. split; [exact HE|]. split; [exact I0|]. split; [exact I1|]. split; [exact Hf|].
  assert (P : (0 < 1 * 1 + size2 ((3, 0)%R : RC))%R) by lra.
  pose proof (@rabi rid wla c0 s_rabi 2 _ ps fs 0 1 _ E (Nat.lt_0_succ 1) P HE I0 I1 2 f Hf) as R. cbv zeta in R. rewrite S10 in R. rewrite R. unfold span. rewrite A3. cbn [total nth]. replace (0 + 1 + 2)%R with 3%R by ring. f_equal. unfold size2. cbn. field.
Qed.

(** dephasing with the rates 1 and 2 *)
Definition s_dephase : st := orun [hz; scaled 3 hz] hz hz [1; 2]%R [1; 2]%R 1 (col ones_) [1; 3]%R.
(** relaxation with the rates 1 and 2 *)
Definition s_relax : st := orun [hz; scaled 3 hz] hz low [1; 2]%R [1; 2]%R 1 (col ones_) [1; 3]%R.
Notation parts k s hs c tau i := (s_drift s = map (fun h : fn => mk2 2 2 h : op) hs /\ c_ctrl (s_conf s) = [mk2 2 2 (c : fn) : op] /\ s_time s = (tau : list R) /\ c_init (s_conf s) = (mk2 4 k i : op)).
Ltac ptime := match goal with |- _ = ?l => transitivity (map (fun x : R => kdivn (F:=RField) x 1) l : list R); [reflexivity|cbn [map]; rewrite !kdivn_1; reflexivity] end.
Ltac pt := split; [reflexivity|]; split; [reflexivity|]; split; [ptime|reflexivity].
Lemma pt_dephase : parts 1 s_dephase [hz; scaled 3 hz] hz [1; 2]%R (col ones_). Proof. pt. Qed.
Lemma pt_relax : parts 1 s_relax [hz; scaled 3 hz] hz [1; 2]%R (col ones_). Proof. pt. Qed.
Lemma ev_dephase : exists ps fs, evo s_dephase 2 1 [arr2 2 hz] (ipulse [1; 3]%R) (rate [1; 2]%R) ps fs.
Proof. apply oevo21; [apply herm_z|apply herm_scaled, herm_z|apply herm_z]. Qed.
Lemma ev_relax : exists ps fs, evo s_relax 2 1 [arr2 2 low] (ipulse [1; 3]%R) (rate [1; 2]%R) ps fs.
Proof. apply oevo21; [apply herm_z|apply herm_scaled, herm_z|apply herm_z]. Qed.
Lemma diag_energy (s : st) (i : nat -> nat -> RC) : parts 1 s [hz; scaled 3 hz] hz [1; 2]%R i -> forall r, r < length (s_time s) -> energy_op s (ipulse [1; 3]%R) r 0 0 = cofk (level 0 r : RField) /\ energy_op s (ipulse [1; 3]%R) r 1 1 = cofk (level 1 r : RField) /\
  energy_op s (ipulse [1; 3]%R) r 0 1 = c0 /\ energy_op s (ipulse [1; 3]%R) r 1 0 = c0.
Proof. intros (A1 & A2 & A3 & _) r Hr. unfold energy_op, hamiltonian. rewrite A1, A2. rewrite A3 in Hr. lv2 r; (split; [|split; [|split]]); unfold level; ent. Qed.
Lemma case_diagonal : exists ps fs f, evo s_dephase 2 1 [arr2 2 hz] (ipulse [1; 3]%R) (rate [1; 2]%R) ps fs /\
  (forall r i j, r < length (s_time s_dephase) -> i < 2 -> j < 2 -> i <> j -> energy_op s_dephase (ipulse [1; 3]%R) r i j = c0) /\ (forall q, q < 1 -> is_diagonal 2 (Lk [arr2 2 hz] q)) /\
  (forall r i, r < length (s_time s_dephase) -> i < 2 -> cim (energy_op s_dephase (ipulse [1; 3]%R) r i i) = 0%R) /\
  nth_error fs 2 = Some f /\ size2 (column 2 f 0 0 1) = exp (- (20)).
Proof.
  destruct ev_dephase as (ps & fs & E). pose proof (@diag_energy s_dephase _ pt_dephase) as D. pose proof pt_dephase as (A1 & A2 & A3 & A4). destruct (open_at (t := 2) E) as [f Hf]; [rewrite A3; auto|].
  assert (H1 : forall r i j, r < length (s_time s_dephase) -> i < 2 -> j < 2 -> i <> j -> energy_op s_dephase (ipulse [1; 3]%R) r i j = c0) by (intros r i j Hr Hi Hj N; destruct (D r Hr) as (B1 & B2 & B3 & B4); lv2 i; lv2 j; auto; lia).
  assert (H2 : forall q, q < 1 -> is_diagonal 2 (Lk [arr2 2 hz] q)) by (intros q Hq i j Hi Hj N; destruct q; [|lia]; lv2 i; lv2 j; try lia; ent).
  assert (H3 : forall r i, r < length (s_time s_dephase) -> i < 2 -> cim (energy_op s_dephase (ipulse [1; 3]%R) r i i) = 0%R) by (intros r i Hr Hi; destruct (D r Hr) as (B1 & B2 & B3 & B4); lv2 i; [rewrite B1|rewrite B2]; reflexivity).
  exists ps, fs, f. split; [exact E|]. split; [exact H1|]. split; [exact H2|]. split; [exact H3|]. split; [exact Hf|].
  assert (T : total (fun r => span s_dephase r * total (fun q => rate [1; 2] r q * size2 (csub (Lk [arr2 2 hz] q).[0,0] (Lk [arr2 2 hz] q).[1,1])) 1)%R 2 = 20%R).
  { unfold span. rewrite A3. cbn [total nth]. rewrite !(@mg_mk2 RS) by lia. unfold rate, opref, size2, hz. cbn. ring. }
  eapply eq_trans; [exact (@coherence rid lla c0 s_dephase 2 1 _ _ _ ps fs 0 E Nat.lt_0_1 H1 H2 H3 2 f 0 1 Hf (Nat.lt_0_succ 1) (Nat.lt_succ_diag_r 1))|]. cbn [length]. rewrite T, A4. replace (size2 (column 2 (mk2 4 1 (col ones_) : op) 0 0 1)) with 1%R; [apply Rmult_1_r|].
  rewrite (@mg_mk2 RS) by lia. unfold size2, col, ones_. cbn. ring.
Qed.
Lemma case_relaxation : exists ps fs f, evo s_relax 2 1 [arr2 2 low] (ipulse [1; 3]%R) (rate [1; 2]%R) ps fs /\ lowers (arr2 2 low) /\
  (forall r, r < length (s_time s_relax) -> energy_op s_relax (ipulse [1; 3]%R) r 0 0 = cofk (level 0 r : RField) /\ energy_op s_relax (ipulse [1; 3]%R) r 1 1 = cofk (level 1 r : RField) /\
    energy_op s_relax (ipulse [1; 3]%R) r 0 1 = c0 /\ energy_op s_relax (ipulse [1; 3]%R) r 1 0 = c0) /\
  nth_error fs 2 = Some f /\ column 2 f 0 1 1 = cofk (exp (- (5)) : RField) /\ column 2 f 0 0 0 = cofk (2 - exp (- (5)) : RField)%R /\ column 2 f 0 0 1 = cmul (cofk (exp (- / 2 * 5) : RField)%R) (phase 28).
Proof.
  destruct ev_relax as (ps & fs & E). pose proof (@diag_energy s_relax _ pt_relax) as D. pose proof pt_relax as (A1 & A2 & A3 & A4). destruct (open_at (t := 2) E) as [f Hf]; [rewrite A3; auto|].
  assert (HL : lowers (arr2 2 low)) by (split; [|split; [|split]]; ent).
  exists ps, fs, f. split; [exact E|]. split; [exact HL|]. split; [exact D|]. split; [exact Hf|].
  assert (T1 : total (fun r => rate [1; 2] r 0%nat * span s_relax r)%R 2 = 5%R) by (unfold span; rewrite A3; cbn [total nth]; unfold rate, opref; cbn; ring).
  assert (T2 : total (fun r => (level 0 r - level 1 r) * span s_relax r)%R 2 = 28%R) by (unfold span; rewrite A3; cbn [total nth]; unfold level; cbn; ring).
  destruct (@relaxation rid lla c0 s_relax 1 (arr2 2 low) (ipulse [1; 3]%R) (rate [1; 2]%R) ps fs 0 (level 0) (level 1) E ltac:(lia) HL D 2 f Hf) as (R1 & R2 & R3 & _). rewrite T1 in R1, R2, R3. rewrite T2 in R3. rewrite A4 in R1, R2, R3. rewrite !(@mg_mk2 RS) in R1, R2, R3 by (cbn; lia).
  split; [eapply eq_trans; [exact R1|]|split; [eapply eq_trans; [exact R2|]|eapply eq_trans; [exact R3|]]]; unfold col, ones_.
  - unfold cmul, cofk, c1. cbn. f_equal; ring.
  - unfold cmul, cadd, cofk, c1. cbn. f_equal; ring.
  - generalize (cmul (cofk (exp (- / 2 * 5) : RField)%R) (phase 28)). intros a. cring.
Qed.
(** the relaxing system as a sum of four modes of the master equation *)
Definition share (q : nat) : RC := if Nat.eqb q 0 then cofk (2%R : RField) else c1.
Definition decay (q r : nat) : RC :=
  match q with
  | 0 => c0
  | 1 => cofk (- rate [1; 2] r 0%nat : RField)%R
  | 2 => csub (cmul (copp ci) (cofk (level 0 r - level 1 r : RField)%R)) (cofk (rate [1; 2] r 0%nat / 2 : RField)%R)
  | _ => csub (cmul (copp ci) (cofk (level 1 r - level 0 r : RField)%R)) (cofk (rate [1; 2] r 0%nat / 2 : RField)%R)
  end.
Lemma case_modes : exists ps fs f, evo s_relax 2 1 [arr2 2 low] (ipulse [1; 3]%R) (rate [1; 2]%R) ps fs /\
  (forall r q i j, r < length (s_time s_relax) -> q < 4 -> i < 2 -> j < 2 -> motion 2 s_relax [arr2 2 low] (ipulse [1; 3]%R) (rate [1; 2]%R) r (mode q) i j = cmul (decay q r) (mode q i j)) /\
  (forall i j, i < 2 -> j < 2 -> column 2 (c_init (s_conf s_relax)) 0 i j = sumn (S:=RS) 4 (fun q => cmul (share q) (mode q i j))) /\ nth_error fs 2 = Some f.
Proof.
  destruct ev_relax as (ps & fs & E). pose proof (@diag_energy s_relax _ pt_relax) as D. pose proof pt_relax as (A1 & A2 & A3 & A4). destruct (open_at (t := 2) E) as [f Hf]; [rewrite A3; auto|].
  assert (HL : lowers (arr2 2 low)) by (split; [|split; [|split]]; ent).
  exists ps, fs, f. split; [exact E|]. split; [|split; [|exact Hf]].
  - intros r q i j Hr Hq Hi Hj. destruct (D r Hr) as (H1 & H2 & H3 & H4). unfold motion. fold (energy_op s_relax (ipulse [1; 3]%R) r).
    destruct (@lower_motion (energy_op s_relax (ipulse [1; 3]%R) r) (arr2 2 low) (rate [1; 2]%R r) (mode q) H3 H4 HL) as (M1 & M2 & M3 & M4). rewrite H1, H2 in M3, M4. unfold decay.
    lv2 i; lv2 j; [rewrite M1|rewrite M3|rewrite M4|rewrite M2]; (destruct q as [|[|[|[|?]]]]; [| | | |lia]); unfold mode; cbn [Nat.eqb andb]; generalize (rate [1; 2]%R r 0) (level 0 r) (level 1 r); intros g e0 e1; unfold cmul, cofk, copp, csub, cadd, ci, c0, c1; cbn; f_equal; field.
  - intros i j Hi Hj. rewrite A4. lv2 i; lv2 j; rewrite (@mg_mk2 RS) by lia; unfold share, mode, col, ones_; cbn; unfold cmul, cofk, copp, cadd, c0, c1; cbn; f_equal; ring.
Qed.
End Cases.
