(** Concrete cases for C87: solvers of the example with two time steps and exact numpy and scipy functions. *)
Require Import List Arith Lia Bool Reals Lra.
From Verif Require Import LibBase LibRing LibArr LibCplx LibMat LibNorm LibDeriv M_Matrix S_Linear S_Deriv S_Exp P_Linear P_Matrix P_Frechet P_Mexp P_Mexp2 P_Total M_OpHeap M_Transfer S_Transfer P_Transfer M_Amplitude S_Amplitude P_Amplitude M_Solver S_Solver S_Lindblad S_Simulator S_Gradient P_GradTotal P_GradTotal2 P_GradWit S_Invariance P_Invariance2 P_InvarianceWit S_Closed S_Gauss M_Rabi S_Rabi P_Rabi P_Rabi2 P_Rabi3.
Import ListNotations.
Local Open Scope res_scope.
Set Implicit Arguments.

Section Wit.
Add Field Cfield_rbw : (c_field RField).
Notation op := (op RField).
Notation st := (@st RField).
Notation rid := (fun x : R => x).
Ltac lv2 t := destruct t as [|[|?]]; try (exfalso; lia).

(** exact functions; np.linalg.eig for diagonal operators of two levels *)
Definition rla : LinAlg RField := mkLA (F:=RField) (la_eigh wla) (fun A => ([mg A 0 0; mg A 1 1], one2)) (la_expm wla) (la_expm_frechet wla) (la_svd wla) cexpR.
Lemma rla_exact n : scipy_exact rla n. Proof. exact (wla_exact n). Qed.
Lemma rla_turns (sign : R) : turns rla sign.
Proof.
  intros A (HA & A00 & A01 & A10 & A11). split; [reflexivity|]. cbn [la_eig rla fst snd]. rewrite A00, A11. apply z_decomposition. split; auto.
Qed.
Lemma rla_good (c : @sconf RField) : c_meth c = Frechet -> c_approx c = GNone -> c_class c = CSchroedinger -> c_ctrl c <> [] -> good rla c0 c.
Proof.
  destruct c as [cl ct ii me sk ca ap am]. cbn. intros -> -> -> N. constructor.
  - exact I.
  - intros A D E X t. cbn [c_meth]. unfold op_dexp, op_exp. destruct (Nat.eqb (nr A) (nc A)); cbn [andb negb]; [|discriminate].
    destruct (Nat.eqb (nr D) (nr A) && Nat.eqb (nc D) (nc A)); cbn [negb]; [|discriminate]. intros H. apply (f_equal (fun r => match r with Ok p => Ok (fst p) | Err e => Err e end)) in H. exact H.
  - exact N.
  - discriminate.
Qed.
Lemma rmake (h0 : op) ctrl (tau : list R) m (a : amp RField) (s s' : st) y u ps : 0 < m ->
  build_solver (F:=RField) CSchroedinger [h0] ctrl tau None None Frechet true true GNone (mk_identity (F:=RField) m) a None = Ok s ->
  s_conf s = mkconf CSchroedinger ctrl (mid (S:=RS) 2) Frechet true true GNone a -> ctrl <> [] -> square_hamiltonians (F:=RField) 2 s -> length (s_drift s) = length (s_time s) -> s_time s <> [] ->
  with_pulse (F:=RField) rid rla c0 s y s' -> s_conf s' = s_conf s -> s_drift s' = s_drift s -> s_time s' = s_time s -> amplitudes (F:=RField) s' u ->
  returns (F:=RField) rid rla c0 s' SPropag (VProp ps) -> exists ps fs, evolution rid rla c0 s' 2 2 u ps fs.
Proof.
  intros Hm H EC NC HH LD NT WP F1 F2 F3 HA HP.
  assert (WI : is_matrix (S:=RS) 2 2 (mid (S:=RS) 2)) by apply is_matrix_wfm, wfm_mk2.
  assert (G : good rla c0 (s_conf s)) by (rewrite EC; apply rla_good; auto).
  assert (HM : c_meth (s_conf s) = Frechet) by now rewrite EC.
  destruct (@frechet_exact rla c0 2 s (rla_exact 2) HM HH) as [EX AN].
  assert (HC : constructed (F:=RField) (DId m) s).
  { split; [exact I|]. exists CSchroedinger, [h0], ctrl, tau, None, None, Frechet, true, true, GNone, (mk_identity (F:=RField) m), a, None. split; [reflexivity|exact H]. }
  assert (OP : optimised rla c0 (DId m) tau s 2 2).
  { constructor; auto; try exact I; try (rewrite EC; (reflexivity || exact I || exact WI)).
    split; [exact I|]. exists CSchroedinger, [h0], ctrl, None, None, Frechet, true, true, GNone, (mk_identity (F:=RField) m), a, None. split; [reflexivity|exact H]. }
  destruct (@reads_total rid rla c0 (DId m) tau s 2 2 s' y OP ltac:(now rewrite EC) AN LD NT WP) as ((fs & HF) & _).
  exists ps, fs. constructor; auto.
  - exists (DId m), s. split; [exact HC|]. split; [exact G|]. exists [SSet (F:=RField) y]. split; [constructor; [right; now exists y|constructor]|]. unfold with_pulse in WP. cbn [all_ok srun fold_left]. unfold srun. cbn [fold_left]. rewrite WP. cbn [fst snd]. split; [|reflexivity].
    split; [now exists VUnit|exact I].
  - rewrite F1, EC. exact I.
  - destruct HH. split; [now rewrite F2|now rewrite F1].
  - rewrite F1, EC. exact WI.
  - intros t tau' v GG E Ht HG HE. rewrite F3 in Ht. rewrite F1, F2 in HG. rewrite F1 in HE. exact (proj1 (EX t tau' v GG Ht HG) E HE).
Qed.

(** ---- the rotating frame: detuning 3, amplitudes 4 and 0, two time steps ---- *)
Definition opened (r : res st) : st :=
  match r with
  | Ok s => s
  | Err _ => mkst (mkconf CSchroedinger [] (Arr [] []) Frechet false false GNone AIdentity) [] (mk_identity (F:=RField) 0) [] None None None false false (k_none (F:=RField)) (n_none (F:=RField)) (mkl None None) None
  end.
Definition after (s0 : st) (y : RA) : st := fst (sstep (F:=RField) rid rla c0 s0 (SSet (F:=RField) y)).
Lemma after_pulse s0 y : snd (sstep (F:=RField) rid rla c0 s0 (SSet (F:=RField) y)) = Ok VUnit -> with_pulse (F:=RField) rid rla c0 s0 y (after s0 y).
Proof. unfold with_pulse, after. destruct (sstep (F:=RField) rid rla c0 s0 (SSet (F:=RField) y)) as [s r]. cbn [fst snd]. intros ->. reflexivity. Qed.
Lemma square_times n a (A : op) : is_matrix (S:=RS) n n A -> is_matrix (S:=RS) n n (times a A).
Proof. intros H. apply is_matrix_wfm, wfm_mscale. now apply is_matrix_wfm. Qed.
Lemma pauli_square : is_matrix (S:=RS) 2 2 (pauli_x RField) /\ is_matrix (S:=RS) 2 2 (pauli_y RField) /\ is_matrix (S:=RS) 2 2 (pauli_z RField).
Proof. repeat split. Qed.
Definition ry : RA := mk2 2 2 (fun _ c => if Nat.eqb c 0 then 4%R else 0%R).
Definition rs0 : st := opened (build_rotational_frame_solver 3 2 (1 / 5) Frechet).
Lemma rotating_evolution : exists ps fs, evolution rid rla c0 (after rs0 ry) 2 2 ry ps fs.
Proof.
  destruct pauli_square as (X & Y & Z).
  eapply (@rmake (times (3 * / 2) (pauli_z RField)) [times (/ 2) (pauli_x RField); times (/ 2) (pauli_y RField)] (repeat (1 / 5)%R 2) 2 AIdentity rs0 (after rs0 ry) ry ry);
    [lia|reflexivity|reflexivity|discriminate| |reflexivity|discriminate|apply after_pulse; reflexivity|reflexivity|reflexivity|reflexivity|split; reflexivity|reflexivity].
  split; repeat constructor; now apply square_times.
Qed.
(** ---- the lab frame without driving: resonance 6, three time steps ---- *)
Definition ly : RA := Arr [3] [0; 6; 1]%R.
Definition ls0 : st := opened (build_lab_solver 6 3 (1 / 5) Frechet).
Lemma lab_evolution : exists u ps fs, evolution rid rla c0 (after ls0 ly) 2 2 u ps fs.
Proof.
  destruct pauli_square as (X & Y & Z). eexists.
  eapply (@rmake (times (6 * / 2) (pauli_z RField)) [times (/ 2) (pauli_x RField)] (repeat (1 / 5)%R 3) 1 (ACustom (F:=RField) (periodic_signal 3 (1 / 5)) (fun _ => Err NotImplementedError)) ls0 (after ls0 ly) ly);
    [lia|reflexivity|reflexivity|discriminate| |reflexivity|discriminate|apply after_pulse; reflexivity|reflexivity|reflexivity|reflexivity|split; reflexivity|reflexivity].
  split; repeat constructor; now apply square_times.
Qed.
Lemma case_rotating : exists s0 s ps fs f, build_rotational_frame_solver 3 2 (1 / 5) Frechet = Ok s0 /\ with_pulse (F:=RField) rid rla c0 s0 ry s /\
  (forall t, t < 2 -> get2 0%R ry t 0 = 4%R /\ get2 0%R ry t 1 = 0%R) /\ evolution rid rla c0 s 2 2 ry ps fs /\ nth_error fs 2 = Some f /\ size2 f.[1,0] = (16 / 25 * (sin 1 * sin 1))%R.
Proof.
  destruct rotating_evolution as (ps & fs & E).
  assert (B : build_rotational_frame_solver 3 2 (1 / 5) Frechet = Ok rs0) by reflexivity.
  assert (P : with_pulse (F:=RField) rid rla c0 rs0 ry (after rs0 ry)) by (apply after_pulse; reflexivity).
  assert (Y : forall t, t < 2 -> get2 0%R ry t 0 = 4%R /\ get2 0%R ry t 1 = 0%R) by (intros t Ht; unfold ry; rewrite !get2_mk2 by lia; split; reflexivity).
  destruct (nth_error fs 2) as [f|] eqn:Ef.
  - exists rs0, (after rs0 ry), ps, fs, f. split; [exact B|]. split; [exact P|]. split; [exact Y|]. split; [exact E|]. split; [exact Ef|].
    assert (Pos : (0 < 3 * 3 + (4 * 4 + 0 * 0))%R) by lra.
    rewrite (rotating _ _ _ B P Y E Pos Ef). replace (sqrt (3 * 3 + (4 * 4 + 0 * 0))) with 5%R.
    + replace (5 * (INR 2 * (1 / 5)) / 2)%R with 1%R by (cbn [INR]; field). field.
    + replace (3 * 3 + (4 * 4 + 0 * 0))%R with (5 * 5)%R by ring. symmetry. apply sqrt_square. lra.
  - exfalso. apply nth_error_None in Ef. destruct (steps E) as (_ & L & _). destruct (rotating_parts _ _ _ _ B P) as (_ & A2 & _). rewrite A2, repeat_length in L. lia.
Qed.
Lemma case_free : exists s0 s u ps fs U Q, build_lab_solver 6 3 (1 / 5) Frechet = Ok s0 /\ with_pulse (F:=RField) rid rla c0 s0 ly s /\ signal_pars ly 0 6 1 /\ evolution rid rla c0 s 2 2 u ps fs /\ turns rla (-1) /\
  nth_error fs 2 = Some U /\ transform_prop_to_rot_frame rla U (INR 2 * (1 / 5)) 0 6 = Ok Q /\ is_identity 2 Q.
Proof.
  destruct lab_evolution as (u & ps & fs & E).
  assert (B : build_lab_solver 6 3 (1 / 5) Frechet = Ok ls0) by reflexivity.
  assert (P : with_pulse (F:=RField) rid rla c0 ls0 ly (after ls0 ly)) by (apply after_pulse; reflexivity).
  assert (Y : signal_pars ly 0 6 1) by (left; repeat split).
  pose proof (@rla_turns (-1)%R) as T.
  destruct (nth_error fs 2) as [U|] eqn:Ef.
  - assert (WU : is_matrix (S:=RS) 2 2 U). { destruct (steps E) as (_ & _ & _ & W & _). apply is_matrix_wfm. eapply W; eauto. }
    destruct (prop_values (INR 2 * (1 / 5)) 0 6 T WU) as (Q & HQ & _). exists ls0, (after ls0 ly), u, ps, fs, U, Q. repeat (split; [assumption|]). exact (lab_free _ _ _ _ _ B P Y E T Ef HQ).
  - exfalso. apply nth_error_None in Ef. destruct (steps E) as (_ & L & _). destruct (lab_parts _ _ _ _ B P) as (? & _ & _ & A2 & _). rewrite A2, repeat_length in L. lia.
Qed.
Definition ly2 : RA := Arr [3; 1] [4; 6; 1]%R.
Lemma case_amplitudes : exists s0 s u, build_lab_solver 6 3 (1 / 5) Frechet = Ok s0 /\ with_pulse (F:=RField) rid rla c0 s0 ly2 s /\ signal_pars ly2 4 6 1 /\ amplitudes (F:=RField) s u /\
  get2 0%R u 2 0 = (4 * sin (6 * (2 * (1 / 5)) + 1))%R.
Proof.
  assert (B : build_lab_solver 6 3 (1 / 5) Frechet = Ok ls0) by reflexivity.
  assert (P : with_pulse (F:=RField) rid rla c0 ls0 ly2 (after ls0 ly2)) by (apply after_pulse; reflexivity).
  assert (Y : signal_pars ly2 4 6 1) by (right; repeat split).
  destruct (lab_amplitudes _ _ _ _ B P Y) as (u & A & _ & V). exists ls0, (after ls0 ly2), u. repeat (split; [assumption|]). rewrite V by lia. reflexivity.
Qed.
(** ---- the frames ---- *)
Definition flip : op := mk2 2 2 (fun i j => if Nat.eqb i j then c0 else (c1 : RC)).
Lemma flip_unitary : is_unitary (S:=RS) 2 flip.
Proof. split; [apply wf2|]. split; intros i j Hi Hj; lv2 i; lv2 j; cbn [sumn]; unfold flip; rewrite !(@mg_mk2 RS) by lia; unfold delta; cbn [Nat.eqb]; tocplx; rewrite ?conj0, ?conj1; cring. Qed.
Lemma flip_square : is_matrix (S:=RS) 2 2 flip. Proof. apply wf2. Qed.
Lemma case_frame : exists Q, transform_prop_to_rot_frame rla flip 1 2 3 = Ok Q /\ turns rla (-1) /\ is_unitary 2 flip /\ is_unitary 2 Q /\ Q.[1,0] = phase (9 / 2).
Proof.
  destruct (prop_values 1 2 3 (@rla_turns (-1)%R) flip_square) as (Q & HQ & F). exists Q. split; [exact HQ|]. split; [apply rla_turns|]. split; [apply flip_unitary|]. split; [exact (prop_unitary _ _ _ (@rla_turns (-1)%R) flip_unitary HQ)|].
  destruct F as (_ & _ & _ & E & _). rewrite E. unfold flip. rewrite (@mg_mk2 RS) by lia. cbn [Nat.eqb]. replace (3 * (1 + 2) / 2)%R with (9 / 2)%R by field. cring.
Qed.
(** ---- the states ---- *)
Definition plus : op := mk2 2 1 (fun _ _ => (c1 : RC)).
Definition free (t : R) : op := mk2 2 2 (fun i j => if Nat.eqb i j then (if Nat.eqb i 0 then phase (t / 2) else phase (- (t / 2))) else c0).
Definition freed (t : R) : op := mk2 2 1 (fun i _ => if Nat.eqb i 0 then phase (t / 2) else phase (- (t / 2))).
Lemma plus_matrix : is_matrix (S:=RS) 2 1 plus. Proof. apply is_matrix_wfm, wfm_mk2. Qed.
Lemma free_square t : is_matrix (S:=RS) 2 2 (free t). Proof. apply is_matrix_wfm, wfm_mk2. Qed.
Lemma freed_product t : is_product (S:=RS) 2 2 1 (free t) plus (freed t).
Proof.
  split; [apply is_matrix_wfm, wfm_mk2|]. intros i j Hi Hj. assert (j = 0) by lia. subst j. unfold free, freed, plus. cbn [sumn]. lv2 i; rewrite !(@mg_mk2 RS) by lia; cbn [Nat.eqb]; tocplx; cring.
Qed.
Lemma free_identity t Q : transform_prop_to_rot_frame rla (free t) t 0 1 = Ok Q -> is_identity 2 Q.
Proof.
  intros H. destruct (prop_in_frame _ _ _ (@rla_turns (-1)%R) (free_square t) H) as (W & E1 & E2 & E3 & E4). unfold free in *. rewrite (@mg_mk2 RS) in E1, E2, E3, E4 by lia. cbn [Nat.eqb] in *.
  split; [exact W|]. intros i j Hi Hj. lv2 i; lv2 j; rewrite ?E1, ?E2, ?E3, ?E4; unfold delta; cbn [Nat.eqb]; tocplx; try cring.
  - replace (1 * (t - 0) / 2)%R with (t / 2)%R by field. rewrite phase_mul. replace (- (t / 2) + t / 2)%R with 0%R by ring. unfold phase. rewrite cos_0, sin_0. unfold c1. cbn. f_equal; ring.
  - replace (1 * (t - 0) / 2)%R with (t / 2)%R by field. exact (phase_inv _).
Qed.
Lemma ket_wrong : exists (la : LinAlg RField) (t : R) P v v1 Q x, turns la (-1) /\ turns la 1 /\ is_matrix 2 2 P /\ is_matrix 2 1 v /\ is_product 2 2 1 P v v1 /\
  transform_prop_to_rot_frame la P t 0 1 = Ok Q /\ is_identity 2 Q /\ transform_ket_to_rot_frame la v1 t 1 = Ok x /\ overlap v x = c0 /\ overlap v v <> c0.
Proof.
  set (t := (PI / 2)%R). destruct (prop_values t 0 1 (@rla_turns (-1)%R) (free_square t)) as (Q & HQ & _).
  destruct (ket_values t 1 (@rla_turns 1%R) (proj1 (freed_product t))) as (x & HX & _ & X0 & X1). exists rla, t, (free t), plus, (freed t), Q, x.
  split; [apply rla_turns|]. split; [apply rla_turns|]. split; [apply free_square|]. split; [apply plus_matrix|]. split; [apply freed_product|]. split; [exact HQ|]. split; [exact (@free_identity t Q HQ)|]. split; [exact HX|].
  unfold freed in X0, X1. rewrite (@mg_mk2 RS) in X0, X1 by lia. cbn [Nat.eqb] in X0, X1. rewrite phase_mul in X0, X1. unfold overlap. rewrite X0, X1. unfold plus. rewrite !(@mg_mk2 RS) by lia. rewrite conj1.
  replace (- (- (1) * t / 2) + t / 2)%R with t by field. replace (- (1) * t / 2 + - (t / 2))%R with (- t)%R by field. unfold phase, t. rewrite cos_neg, sin_neg, cos_PI2, sin_PI2. split.
  - unfold cmul, cadd, c1, c0. cbn. f_equal; ring.
  - intros H. apply (f_equal fst) in H. cbn in H. lra.
Qed.
Lemma case_follows : exists Q x y, turns rla (-1) /\ turns rla 1 /\ is_product 2 2 1 (free 1) plus (freed 1) /\ transform_prop_to_rot_frame rla (free 1) 3 2 5 = Ok Q /\ transform_ket_to_rot_frame rla plus 2 (- (5)) = Ok x /\
  transform_ket_to_rot_frame rla (freed 1) 3 (- (5)) = Ok y /\ is_product 2 2 1 Q x y /\ y.[0,0] = phase (- (7)).
Proof.
  pose proof (@rla_turns (-1)%R) as T. pose proof (@rla_turns 1%R) as T'. pose proof (freed_product 1) as HP.
  destruct (prop_values 3 2 5 T (free_square 1)) as (Q & HQ & _). destruct (ket_values 2 (- (5)) T' plus_matrix) as (x & HX & _). destruct (ket_values 3 (- (5)) T' (proj1 HP)) as (y & HY & _ & Y0 & _).
  exists Q, x, y. repeat (split; [assumption|]). split; [exact (ket_follows _ _ _ T T' (free_square 1) plus_matrix HP HQ HX HY)|]. rewrite Y0. unfold freed. rewrite (@mg_mk2 RS) by lia. cbn [Nat.eqb]. rewrite phase_mul. f_equal. field.
Qed.
(** ---- the gates ---- *)
Definition gla (V : op) : LinAlg RField := known [((1, 0)%R : RC); ((- 1, 0)%R : RC)] V.
Lemma case_gates : diagonalises (gla vx) (pauli_x RField) /\ diagonalises (gla vy) (pauli_y RField).
Proof. split; (split; [reflexivity|]); [apply x_decomposition|apply y_decomposition]. Qed.
(** ---- phase control, noise and random pulses ---- *)
Definition py : RA := Arr [1; 2] [3; 0]%R.
Lemma case_phase : wfa [1; 2] py /\ exists u, amp_call (phase_ctrl_amp_func 2 1) py = Ok u /\ get2 0%R u 0 0 = 6%R.
Proof.
  split; [repeat split|]. destruct (@phase_value 2 1 py ltac:(repeat split)) as (u & E & _ & V). exists u. split; [exact E|]. destruct (V 0 ltac:(lia)) as [-> _]. unfold py, get2. cbn. rewrite cos_0. lra.
Qed.
Definition pg : RA := Arr [1; 1; 2] [1; 2]%R.
Definition pf (v : RA) : R := (ent v 0%nat 0%nat + 2 * ent v 0%nat 1%nat)%R.
Lemma pf_gradient u k : k < 1 -> has_gradient 1 2 pf u (fun t c => get3 0%R pg t k c).
Proof.
  intros Hk c v (_ & _ & D). assert (k = 0) by lia. subst k. unfold pf.
  replace (Rsum 1 (fun t => Rsum 2 (fun p => (get3 0%R pg t 0%nat p * v t p)%R))) with (v 0%nat 0%nat + 2 * v 0%nat 1%nat)%R by (unfold Rsum, pg, get3; cbn; ring).
  apply derivable_pt_lim_plus; [apply D; lia|]. apply (derivable_pt_lim_scal (fun s => ent (c s) 0 1) 2 0). apply D; lia.
Qed.
Lemma case_phase_gradient : exists u d, wfa [1; 2] py /\ amp_call (phase_ctrl_amp_func 2 1) py = Ok u /\ wfa [1; 1; 2] pg /\ (forall k, k < 1 -> has_gradient 1 2 pf u (fun t c => get3 0%R pg t k c)) /\
  amp_chain (phase_ctrl_amp_func 2 1) pg py = Ok d /\ get3 0%R d 0 0 0 = 2%R /\ get3 0%R d 0 0 1 = 12%R.
Proof.
  destruct (@phase_value 2 1 py ltac:(repeat split)) as (u & E & _). eexists u, _. split; [repeat split|]. split; [exact E|]. split; [repeat split|]. split; [intros k Hk; apply pf_gradient; auto|]. split; [reflexivity|].
  split; cbn; rewrite ?cos_0, ?sin_0; ring.
Qed.
Lemma case_lin_gradient : exists u d, wfa [1; 2] py /\ amp_call (lin_amp_func 3) py = Ok u /\ wfa [1; 1; 2] pg /\ (forall k, k < 1 -> has_gradient 1 2 pf u (fun t c => get3 0%R pg t k c)) /\
  amp_chain (lin_amp_func 3) pg py = Ok d /\ get3 0%R d 0 0 0 = 3%R /\ get3 0%R d 0 0 1 = 6%R.
Proof.
  eexists _, _. split; [repeat split|]. split; [reflexivity|]. split; [repeat split|]. split; [intros k Hk; apply pf_gradient; auto|]. split; [reflexivity|].
  split; cbn; ring.
Qed.
Lemma case_refuses : exists x : RA, shape x <> [1; 2] /\ amp_call (phase_ctrl_amp_func 2 1) x = Err AssertionError.
Proof. exists (Arr [2; 2] [1; 2; 3; 4]%R). split; [discriminate|reflexivity]. Qed.
Lemma case_pulse : exists y g', random_xy_init_pulse coin 1 3 (Some 1%Z) 0%R = (y, g') /\ get2 0%R y 0 1 = (3 / 2)%R.
Proof. do 2 eexists. split; [reflexivity|]. rewrite get2_mk2 by lia. cbn. rewrite (Rmin_left (1 / 2) (1 / 2)) by lra. rewrite (Rmax_right 0 (1 / 2)) by lra. lra. Qed.
Lemma case_steps : exists P Q1 Q2 Q, turns rla (-1) /\ is_matrix 2 2 flip /\ is_product 2 2 2 flip flip P /\ transform_prop_to_rot_frame rla flip 1 0 3 = Ok Q1 /\
  transform_prop_to_rot_frame rla flip 2 1 3 = Ok Q2 /\ transform_prop_to_rot_frame rla P 2 0 3 = Ok Q /\ Q1.[1,0] = phase (3 / 2) /\ Q2.[0,1] = phase (- (9 / 2)).
Proof.
  pose proof (@rla_turns (-1)%R) as T. destruct (prop_values 1 0 3 T flip_square) as (Q1 & H1 & _ & _ & _ & E1 & _). destruct (prop_values 2 1 3 T flip_square) as (Q2 & H2 & _ & _ & E2 & _).
  assert (HP : is_product (S:=RS) 2 2 2 flip flip one2).
  { split; [apply wf2|]. intros i j Hi Hj. lv2 i; lv2 j; cbn [sumn]; unfold flip, one2; rewrite !(@mg_mk2 RS) by lia; unfold delta; cbn [Nat.eqb]; tocplx; cring. }
  destruct (prop_values 2 0 3 T (proj1 HP)) as (Q & H & _). exists one2, Q1, Q2, Q. split; [exact T|]. split; [apply flip_square|]. repeat (split; [assumption|]). rewrite E1, E2. unfold flip. rewrite !(@mg_mk2 RS) by lia. cbn [Nat.eqb].
  replace (3 * (1 + 0) / 2)%R with (3 / 2)%R by field. replace (3 * (2 + 1) / 2)%R with (9 / 2)%R by field. split; cring.
Qed.
Lemma case_variance : integral (fun f => 3 / f + 4 / (f * f))%R 1 2 (3 * ln 2 + 2).
Proof. replace (3 * ln 2 + 2)%R with (variance_f 3 4 1 2); [apply variance_integral; lra|]. unfold variance_f. rewrite ln_1. field. Qed.
Lemma case_density : toms_spectral_noise_density 6 2 5 = 3%R /\ toms_spectral_noise_density 6 9 2 = 3%R.
Proof. rewrite !density_value by lra. rewrite Rmin_left, Rmin_right by lra. split; field. Qed.
End Wit.
