(** Proofs for C87, part 2: the solvers of the example. *)
Require Import List Arith Lia Bool Reals Lra.
From Verif Require Import LibBase LibRing LibArr LibCplx LibMat LibDeriv M_Matrix S_Linear S_Deriv P_Linear P_Matrix M_Transfer S_Transfer P_Transfer M_Amplitude S_Amplitude M_Solver S_Solver S_Lindblad S_Simulator S_Invariance P_Invariance P_Invariance2 P_InvarianceWit S_Closed P_Closed M_Rabi S_Rabi P_Rabi.
Import ListNotations.
Local Open Scope res_scope.
Set Implicit Arguments.

Section Solvers.
Add Field Cfield_rb2 : (c_field RField).
Variable rexp : R -> R.
Variable la : LinAlg RField.
Variable eps : cplx RField.
Notation st := (@st RField).
Notation op := (op RField).
Notation with_pulse := (with_pulse (F:=RField) rexp la eps).
Notation evolution := (evolution rexp la eps).
Ltac lv2 t := destruct t as [|[|?]]; try (exfalso; lia).

Lemma each_1 {A} (l : list A) : repeat_each 1 l = l.
Proof. induction l as [|a l IH]; [reflexivity|]. change (repeat_each 1 (a :: l)) with (a :: repeat_each 1 l). now rewrite IH. Qed.
Lemma cells_1 (dt : R) n : repeat_each 1 (map (fun y : RField => kdivn y 1) (repeat (dt : RField) n)) = repeat (dt : RField) n.
Proof. rewrite each_1. induction n as [|n IH]; [reflexivity|]. cbn [repeat map]. rewrite IH. f_equal. apply (kdivn_1 dt). Qed.
(** a solver without transfer function and with a single drift operator *)
Lemma built_parts (h0 : op) (ctrl : list op) (dt : R) n meth m (a : amp RField) (s0 : st) :
  build_solver (F:=RField) CSchroedinger [h0] ctrl (repeat dt n) None None meth true true GNone (mk_identity (F:=RField) m) a None = Ok s0 ->
  s_drift s0 = repeat h0 n /\ s_time s0 = repeat dt n /\ c_ctrl (s_conf s0) = ctrl /\ c_amp (s_conf s0) = a /\ c_class (s_conf s0) = CSchroedinger /\ s_opt s0 = None /\
  (exists b, s_tf s0 = Leaf KId b) /\ exists h, idx ctrl 0 = Ok h /\ c_init (s_conf s0) = mid (S:=RS) (nr h).
Proof.
  intros H. unfold build_solver in H. destruct (idx ctrl 0) as [h|] eqn:EH; cbn [bind] in H; [|discriminate H]. cbn [set_times mk_identity] in H. unfold set_times_base, base0 in H. cbn [b_os b_bound bind tbase set_tm b_xt b_nx] in H.
  rewrite cells_1, !repeat_length in H. replace (1 * n) with n in H by lia.
  assert (E : match repeat h0 n with [h1] => repeat h1 n | _ => repeat h0 n end = repeat h0 n) by (destruct n as [|[|n]]; reflexivity).
  rewrite E in H.
  destruct (_ || _); cbn [bind] in H; [|discriminate H]. destruct (forallb _ ctrl); cbn [bind] in H; [|discriminate H]. destruct (forallb _ (repeat h0 n)); cbn [bind] in H; [|discriminate H].
  injection H as <-. cbn [s_drift s_time s_conf c_ctrl c_amp c_class s_opt s_tf c_init]. repeat split; eauto.
Qed.
Lemma set_parts (s0 : st) y s b : c_class (s_conf s0) = CSchroedinger -> s_opt s0 = None -> s_tf s0 = Leaf KId b -> with_pulse s0 y s ->
  exists u, amp_call (c_amp (s_conf s0)) y = Ok u /\ s_conf s = s_conf s0 /\ s_drift s = s_drift s0 /\ s_time s = s_time s0 /\ s_amps s = Some u.
Proof.
  intros HC HO HT H. unfold S_Simulator.with_pulse, sstep, set_pars in H. rewrite HC in H. unfold schr_set_pars in H. rewrite HO in H. cbn [opt_equal] in H.
  unfold base_set_pars in H. destruct s0 as [co dr tf ti op0 tp am ta ua kk nn ll ud]. cbn [s_conf s_opt s_tf s_time s_drift] in *. subst tf op0.
  unfold reset_cached in H. cbn [s_conf] in H. rewrite HC in H. unfold set_k in H. cbn [s_conf s_drift s_tf s_time s_opt s_tpars s_amps s_talias s_ualias s_k s_n s_l s_udiss opt_equal call set_opt set_tf set_tpars] in H.
  destruct (amp_call (c_amp co) y) as [u|e]; [|discriminate H].
  destruct (negb (rank u =? 2)); [discriminate H|]. destruct (negb (dim0 u =? length ti)); [discriminate H|]. destruct (negb (dim1 u =? length (c_ctrl co))); [discriminate H|].
  unfold set_amps, set_tpars, set_tf, set_opt in H. cbn [s_conf s_drift s_tf s_time s_opt s_tpars s_amps s_talias s_ualias s_k s_n s_l s_udiss] in H. rewrite ?HC in H. cbn [mapv] in H.
  apply (f_equal fst) in H. cbn [fst] in H. exists u. rewrite <- H. repeat split.
Qed.

(** ---- the rotating frame ---- *)
Lemma total_const (dt : R) n t (s : st) : s_time s = repeat dt n -> t <= n -> total (span s) t = (INR t * dt)%R.
Proof.
  intros E. induction t as [|t IH]; intros Ht; [cbn; ring|]. cbn [total]. rewrite IH by lia. unfold span. rewrite E, nth_repeat_lt by lia. rewrite S_INR. ring.
Qed.
Lemma rotating_parts det n dt meth (s0 s : st) y : build_rotational_frame_solver det n dt meth = Ok s0 -> with_pulse s0 y s ->
  s_drift s = repeat (times (det * / 2) (pauli_z RField)) n /\ s_time s = repeat dt n /\ c_ctrl (s_conf s) = [times (/ 2) (pauli_x RField); times (/ 2) (pauli_y RField)] /\
  c_init (s_conf s) = mid (S:=RS) 2 /\ s_amps s = Some y.
Proof.
  intros H P. destruct (built_parts _ _ _ _ _ _ _ H) as (A1 & A2 & A3 & A4 & A5 & A6 & (b & A7) & h & A8 & A9).
  destruct (set_parts A5 A6 A7 P) as (u & B1 & B2 & B3 & B4 & B5). rewrite A4 in B1. cbn in B1. injection B1 as <-. cbn in A8. injection A8 as <-. rewrite B2, B3, B4, A1, A2, A3, A9. repeat split; auto.
Qed.
Lemma rotating det n dt meth (s0 s : st) y (a b : R) u ps fs t f : build_rotational_frame_solver det n dt meth = Ok s0 -> with_pulse s0 y s ->
  (forall t, t < n -> get2 0%R y t 0 = a /\ get2 0%R y t 1 = b) -> evolution s 2 2 u ps fs -> (0 < det * det + (a * a + b * b))%R -> nth_error fs t = Some f ->
  let w := sqrt (det * det + (a * a + b * b)) in
  size2 f.[1,0] = ((a * a + b * b) / (det * det + (a * a + b * b)) * (sin (w * (INR t * dt) / 2) * sin (w * (INR t * dt) / 2)))%R.
Proof.
  intros H P HY E Pos Hf w. destruct (rotating_parts _ _ _ _ H P) as (A1 & A2 & A3 & A4 & A5).
  assert (EU : u = y). { destruct (ev_amps E) as [X _]. rewrite A5 in X. now injection X. } subst u.
  assert (Ht : t <= n). { destruct (steps E) as (_ & L & _). rewrite A2, repeat_length in L. assert (t < length fs) by (apply nth_error_Some; congruence). lia. }
  set (d := (det / 2)%R). set (g := ((a / 2, - (b / 2))%R : RC)).
  assert (Eg : (size2 g = (a * a + b * b) / 4)%R) by (unfold size2, g; cbn; field).
  assert (Ed : (d * d + size2 g = (det * det + (a * a + b * b)) / 4)%R) by (rewrite Eg; unfold d; field).
  assert (HE : forall r, r < length (s_time s) -> energy_op s y r 0 0 = cofk (d : RField) /\ energy_op s y r 0 1 = g /\ energy_op s y r 1 0 = cconj g /\ energy_op s y r 1 1 = copp (cofk (d : RField))).
  { intros r Hr. rewrite A2, repeat_length in Hr. destruct (HY r Hr) as [Ya Yb]. unfold energy_op, hamiltonian. rewrite A1, A3, nth_repeat_lt by auto. cbn [length sumn nth].
    change (get2 (k0 : RField) y r 0) with (get2 0%R y r 0). change (get2 (k0 : RField) y r 1) with (get2 0%R y r 1). rewrite Ya, Yb.
    unfold times, mscale. rewrite !(@mg_mk2 RS) by (cbn; lia). unfold pauli_x, pauli_y, pauli_z, of_rows, mg, get2, getn. cbn. unfold g, d, cadd, cmul, cofk, copp, cconj, c0, c1, ci. cbn.
    repeat split; f_equal; field. }
  assert (I0 : (c_init (s_conf s)).[0,0] = c1 /\ (c_init (s_conf s)).[1,0] = c0) by (rewrite A4; rewrite !(@mg_mid RS) by lia; split; reflexivity). destruct I0 as [I0 I1].
  assert (Pos' : (0 < d * d + size2 g)%R) by (rewrite Ed; lra).
  rewrite (@rabi rexp la eps s 2 y ps fs 0 d g E ltac:(lia) Pos' HE I0 I1 t f Hf). rewrite (@total_const dt n t s A2 Ht), Ed, Eg.
  assert (W : sqrt ((det * det + (a * a + b * b)) / 4) = (w / 2)%R). { unfold w. replace ((det * det + (a * a + b * b)) / 4)%R with ((det * det + (a * a + b * b)) * (/ 2 * / 2))%R by field. rewrite sqrt_mult, sqrt_square by lra. unfold Rdiv. reflexivity. }
  rewrite W. replace (w / 2 * (INR t * dt))%R with (w * (INR t * dt) / 2)%R by field. f_equal. field. lra.
Qed.

(** ---- the lab frame ---- *)
Lemma signal_value n dt y a f p u : signal_pars y a f p -> periodic_signal n dt y = Ok u -> wfa [n; 1] u /\ forall t, t < n -> get2 0%R u t 0 = (a * sin (f * (INR t * dt) + p))%R.
Proof.
  intros [(W & Ea & Ef & Ep)|(W & Ea & Ef & Ep)] H; unfold periodic_signal in H; unfold rank, dim0 in H; rewrite (proj1 W) in H; cbn [length Nat.eqb negb bind nth Nat.leb] in H.
  - injection H as <-. split; [apply wfa_mk2|]. intros t Ht. rewrite get2_mk2 by lia. rewrite Ea, Ef, Ep. do 2 f_equal. ring.
  - unfold lab in H. destruct (Nat.eqb_spec 1 n) as [<-|N]; cbn [bind Nat.eqb] in H; injection H as <-; (split; [apply wfa_mk2|]); intros t Ht; rewrite get2_mk2 by lia; cbn [bi Nat.eqb]; unfold bi; cbn [Nat.eqb].
    + assert (t = 0) by lia. subst t. rewrite Ea, Ef, Ep. cbn [INR]. replace (f * 0 * dt + p)%R with (f * (0 * dt) + p)%R by ring. reflexivity.
    + replace (n =? 1) with false by (symmetry; apply Nat.eqb_neq; lia). rewrite Ea, Ef, Ep. replace (f * INR t * dt + p)%R with (f * (INR t * dt) + p)%R by ring. reflexivity.
Qed.
Lemma lab_parts res n dt meth (s0 s : st) y : build_lab_solver res n dt meth = Ok s0 -> with_pulse s0 y s -> exists u, periodic_signal n dt y = Ok u /\
  s_drift s = repeat (times (res * / 2) (pauli_z RField)) n /\ s_time s = repeat dt n /\ c_ctrl (s_conf s) = [times (/ 2) (pauli_x RField)] /\
  c_init (s_conf s) = mid (S:=RS) 2 /\ s_amps s = Some u.
Proof.
  intros H P. destruct (built_parts _ _ _ _ _ _ _ H) as (A1 & A2 & A3 & A4 & A5 & A6 & (b & A7) & h & A8 & A9).
  destruct (set_parts A5 A6 A7 P) as (u & B1 & B2 & B3 & B4 & B5). rewrite A4 in B1. cbn [amp_call] in B1. cbn in A8. injection A8 as <-. exists u. rewrite B2, B3, B4, A1, A2, A3, A9. repeat split; auto.
Qed.
Lemma lab_amplitudes res n dt meth (s0 s : st) y a f p : build_lab_solver res n dt meth = Ok s0 -> with_pulse s0 y s -> signal_pars y a f p ->
  exists u, amplitudes (F:=RField) s u /\ wfa [n; 1] u /\ forall t, t < n -> get2 0%R u t 0 = (a * sin (f * (INR t * dt) + p))%R.
Proof.
  intros H P Y. destruct (lab_parts _ _ _ _ H P) as (u & S1 & A1 & A2 & A3 & A4 & A5). destruct (signal_value _ _ Y S1) as [W V]. exists u. split; [|auto]. split; auto. transitivity n; [exact (f_equal (fun l => nth 0 l 0) (proj1 W))|rewrite A2, repeat_length; reflexivity].
Qed.
(** without driving the state rests in the rotating frame *)
Lemma lab_free res n dt meth (s0 s : st) y f p u ps fs t U Q : build_lab_solver res n dt meth = Ok s0 -> with_pulse s0 y s -> signal_pars y 0 f p -> evolution s 2 2 u ps fs -> turns la (-1) ->
  nth_error fs t = Some U -> transform_prop_to_rot_frame la U (INR t * dt) 0 res = Ok Q -> is_identity 2 Q.
Proof.
  intros H P Y E T HU HQ. destruct (lab_parts _ _ _ _ H P) as (u' & S1 & A1 & A2 & A3 & A4 & A5). destruct (signal_value _ _ Y S1) as [W V].
  assert (EU : u = u'). { destruct (ev_amps E) as [X _]. rewrite A5 in X. now injection X. } subst u'.
  destruct (steps E) as (_ & L & _ & WF & _). rewrite A2, repeat_length in L. assert (Ht : t <= n). { assert (t < length fs) by (apply nth_error_Some; congruence). lia. }
  assert (WU : is_matrix 2 2 U). { apply is_matrix_wfm. eapply WF; eauto. }
  set (v := fun q i : nat => if Nat.eqb q i then (c1 : RC) else c0). set (e := fun q r : nat => if Nat.eqb q 0 then (res / 2)%R else (- (res / 2))%R).
  assert (HE : forall r q, r < length (s_time s) -> q < 2 -> eigenvector 2 (energy_op s u r) (v q) (e q r)).
  { intros r q Hr Hq i Hi. rewrite A2, repeat_length in Hr. unfold energy_op, hamiltonian. rewrite A1, A3, nth_repeat_lt by auto. cbn [length sumn nth]. change (get2 (k0 : RField) u r 0) with (get2 0%R u r 0). rewrite (V r Hr), Rmult_0_l.
    unfold times, mscale. rewrite !(@mg_mk2 RS) by (cbn; lia). unfold pauli_x, pauli_z, of_rows, mg, get2, getn, v, e. lv2 q; lv2 i; cbn; unfold cadd, cmul, cofk, copp, cconj, c0, c1, ci; cbn; f_equal; field. }
  assert (TT : forall q, total (fun r => e q r * span s r)%R t = (e q 0%nat * (INR t * dt))%R).
  { intros q. rewrite <- (@total_const dt n t s A2 Ht). clear -q. induction t as [|t IH]; cbn [total]; [ring|]. rewrite IH. unfold e. destruct (q =? 0); ring. }
  assert (EN : forall i x, i < 2 -> x < 2 -> U.[i,x] = sumn (S:=RS) 2 (fun q => cmul (v q x) (cmul (phase (e q 0%nat * (INR t * dt))) (v q i)))).
  { intros i x Hi Hx. rewrite (@spectral rexp la eps s 2 2 u ps fs 2 (fun q => v q x) v e x E Hx HE) with (t := t) (f := U); auto.
    - cbn [sumn]. rewrite !TT. reflexivity.
    - intros a Ha. rewrite A4, (@mg_mid RS) by auto. cbn [sumn]. unfold v. lv2 a; lv2 x; unfold delta; cbn; unfold cadd, cmul, c0, c1; cbn; f_equal; ring. }
  destruct (prop_in_frame _ _ _ T WU HQ) as (HQ0 & Q00 & Q01 & Q10 & Q11). split; [exact HQ0|]. rewrite !EN in Q00, Q01, Q10, Q11 by lia. cbn [sumn] in Q00, Q01, Q10, Q11. unfold v, e in Q00, Q01, Q10, Q11. cbn [Nat.eqb] in Q00, Q01, Q10, Q11.
  replace (res * (INR t * dt - 0) / 2)%R with (res / 2 * (INR t * dt))%R in Q00, Q11 by field. replace (- (res / 2) * (INR t * dt))%R with (- (res / 2 * (INR t * dt)))%R in Q00, Q01, Q10, Q11 by ring.
  pose proof (phase_inv (res / 2 * (INR t * dt))) as PI1. revert PI1 Q00 Q01 Q10 Q11. generalize (phase (res / 2 * (INR t * dt))) (phase (- (res / 2 * (INR t * dt)))) (phase (- (res * (INR t * dt + 0) / 2))) (phase (res * (INR t * dt + 0) / 2)).
  intros z z' y1 y2 PI1 Q00 Q01 Q10 Q11. intros i j Hi Hj. lv2 i; lv2 j; rewrite ?Q00, ?Q01, ?Q10, ?Q11; unfold delta; cbn [Nat.eqb]; tocplx; try cring.
  - transitivity (cmul z z'); [cring|exact PI1].
  - transitivity (cmul z z'); [cring|exact PI1].
Qed.
End Solvers.
