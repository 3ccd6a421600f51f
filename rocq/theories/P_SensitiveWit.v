(** Concrete evolutions for C84: qubits whose pulses, durations or noise differ. *)
Require Import List Arith Lia Bool Reals Lra.
From Verif Require Import LibBase LibRing LibArr LibCplx LibMat LibNorm LibDeriv M_Matrix S_Linear S_Deriv S_Exp P_Linear P_Matrix P_Frechet P_Mexp P_Mexp2 P_Total M_OpHeap M_Transfer S_Transfer M_Amplitude S_Amplitude P_Transfer P_Amplitude M_Solver S_Solver M_Cost S_Cost S_CostGrad M_Simulator M_CostProg S_Simulator S_Gradient P_Loops P_Cost P_Grad P_GradTotal P_GradTotal2 P_GradSim P_GradWit S_Lindblad S_Invariance P_Invariance P_Invariance2 P_InvarianceWit P_GradNoise P_GradNoise2 P_GradNoise3 P_GradNoiseWit S_Sensitive P_Sensitive P_Sensitive2 P_Sensitive3 P_Sensitive4.
Import ListNotations.
Local Open Scope res_scope.
Set Implicit Arguments.

Section Wit.
Add Field Cfield_senw : (c_field RField).
Notation op := (op RField).
Notation st := (@st RField).
Notation arr2 n h := (mk2 n n (h : nat -> nat -> RC) : op).
Variable rexp : R -> R.
Notation evolution := (evolution rexp wla c0).
Ltac evo hs c := eapply (@make_evolution rexp hs c);
  [reflexivity|apply mk2_self|reflexivity|reflexivity|reflexivity|discriminate|reflexivity|reflexivity|reflexivity|reflexivity|reflexivity|split; reflexivity|reflexivity].
Ltac ptime := match goal with |- _ = ?l => transitivity (map (fun x : R => kdivn (F:=RField) x 1) l : list R); [reflexivity|cbn [map]; rewrite !kdivn_1; reflexivity] end.

(** drifts sigma_z and sigma_x, control sigma_x, k initial states *)
Definition s_two (k : nat) (t0 t1 a b : R) : st := iset rexp (isolver [arr2 2 hz; arr2 2 hx] [arr2 2 hx] [t0; t1] (mk2 2 k hone : op)) (ipulse [a; b]).
Lemma two_evo1 (t0 t1 a b : R) : exists ps fs, evolution (s_two 1 t0 t1 a b) 2 1 (ipulse [a; b]) ps fs.
Proof. unfold s_two. evo [hz; hx] hx. Qed.
Lemma two_evo2 (t0 t1 a b : R) : exists ps fs, evolution (s_two 2 t0 t1 a b) 2 2 (ipulse [a; b]) ps fs.
Proof. unfold s_two. evo [hz; hx] hx. Qed.
Lemma two_parts k (t0 t1 a b : R) : k = 1 \/ k = 2 -> let s := s_two k t0 t1 a b in s_drift s = [arr2 2 hz; arr2 2 hx] /\ c_ctrl (s_conf s) = [arr2 2 hx] /\ s_time s = [t0; t1] /\ c_init (s_conf s) = mk2 2 k hone.
Proof. intros [-> | ->]; cbv zeta; (split; [reflexivity|]); (split; [reflexivity|]); (split; [|reflexivity]); ptime. Qed.
Local Opaque s_two.
Lemma two_herm k (t0 t1 a b : R) : k = 1 \/ k = 2 -> hermitian_system 2 (s_two k t0 t1 a b).
Proof.
  intros H. destruct (two_parts t0 t1 a b H) as (H1 & H2 & H3 & _). constructor; rewrite ?H1, ?H2, ?H3; auto.
  - exact (Forall_cons _ wsz_herm (Forall_cons _ wsx_herm (Forall_nil _))).
  - exact (Forall_cons _ wsx_herm (Forall_nil _)).
Qed.
Ltac lv2 t := destruct t as [|[|?]]; try (exfalso; cbn in *; lia).
Ltac entries := cbn [nth sumn]; rewrite ?mg_mk2 by (cbn; lia); unfold hz, hx, hone, delta; cbn; unfold cadd, cmul, cofk, copp, c0, c1; cbn; try (f_equal; (ring || field)).
Lemma hx_unitary : is_unitary (S:=RS) 2 (arr2 2 hx).
Proof. split; [apply is_matrix_wfm, wfm_mk2|]. split; intros i j Hi Hj; lv2 i; lv2 j; entries. Qed.
Lemma hz_unitary : is_unitary (S:=RS) 2 (arr2 2 hz).
Proof. split; [apply is_matrix_wfm, wfm_mk2|]. split; intros i j Hi Hj; lv2 i; lv2 j; entries. Qed.
Lemma hone_unitary : is_unitary (S:=RS) 2 (arr2 2 hone).
Proof. split; [apply is_matrix_wfm, wfm_mk2|]. split; intros i j Hi Hj; lv2 i; lv2 j; entries. Qed.
Lemma hone_state : is_state (F:=RField) 2 (mk2 2 1 hone).
Proof. split; [apply is_matrix_wfm, wfm_mk2|]. cbn [sumn]. rewrite !mg_mk2 by lia. unfold hone, cnorm2, c0, c1. cbn. ring. Qed.
Lemma hx_limited : limited 2 1 (fun i j => mg (arr2 2 hx : mat RS) i j). Proof. apply unitary_limited, hx_unitary. Qed.
Lemma hz_limited : limited 2 1 (fun i j => mg (arr2 2 hz : mat RS) i j). Proof. apply unitary_limited, hz_unitary. Qed.
Definition one_ (_ : nat) : R := 1%R.
Definition first_bra : op := mk2 1 2 (fun _ j => hone j 0).
Lemma first_bra_of : is_bra_of (F:=RField) 2 first_bra (mk2 2 1 hone).
Proof. split; [apply is_matrix_wfm, wfm_mk2|]. intros i Hi. unfold first_bra. rewrite !mg_mk2 by lia. lv2 i; unfold hone, cconj, c0, c1; cbn; f_equal; ring. Qed.

(** amplitude 3 or 3.01 in the second of two time steps *)
Definition s_ref k : st := s_two k 1 2 1 3.
Definition s_off k : st := s_two k 1 2 1 (3 + 1 / 100).
Lemma off_limited k r : k = 1 \/ k = 2 -> r < 2 ->
  limited 2 (Rabs (nth r (s_time (s_ref k)) 0) * weighted_change one_ (ipulse [1; 3]%R) (ipulse [1; 3 + 1 / 100]%R) 1 r)%R (fun i j => csub (action (s_ref k) (ipulse [1; 3]%R) r i j) (action (s_off k) (ipulse [1; 3 + 1 / 100]%R) r i j)).
Proof.
  intros Hk Hr. destruct (two_parts 1 2 1 3 Hk) as (A1 & A2 & A3 & _). destruct (two_parts 1 2 1 (3 + 1 / 100) Hk) as (B1 & B2 & B3 & _).
  pose proof (@amplitude_limited (s_ref k) (s_off k) 2 (ipulse [1; 3]%R) (ipulse [1; 3 + 1 / 100]%R) one_ r) as L. unfold s_ref, s_off in *. rewrite A2, B2 in L. cbn [length] in L. apply L; try congruence.
  intros c Hc. destruct c; [exact hx_limited|lia].
Qed.
Lemma off_total k : k = 1 \/ k = 2 -> total (fun r => Rabs (nth r (s_time (s_ref k)) 0) * weighted_change one_ (ipulse [1; 3]%R) (ipulse [1; 3 + 1 / 100]%R) 1 r)%R 2 = (1 / 50)%R.
Proof.
  intros Hk. destruct (two_parts 1 2 1 3 Hk) as (_ & _ & A3 & _). unfold s_ref. rewrite A3. unfold weighted_change, one_. cbn [total nth]. unfold ipulse. rewrite !get2_mk2 by (cbn; lia). cbn [nth length].
  rewrite (Rabs_right 1), (Rabs_right 2) by lra. replace (3 - (3 + 1 / 100))%R with (- (1 / 100))%R by lra. rewrite Rabs_Ropp, (Rabs_right (1 / 100)) by lra. replace (1 - 1)%R with 0%R by lra. rewrite Rabs_R0. lra.
Qed.
Lemma nth_some (s : st) n k u ps fs t : evolution s n k u ps fs -> t <= length (s_time s) -> exists f, nth_error fs t = Some f.
Proof. intros E Ht. destruct (steps E) as (_ & L & _). destruct (nth_error fs t) eqn:H; eauto. apply nth_error_None in H. lia. Qed.

Lemma case_amplitudes : exists ps fs ps' fs' f f', evolution (s_ref 1) 2 1 (ipulse [1; 3]%R) ps fs /\ evolution (s_off 1) 2 1 (ipulse [1; 3 + 1 / 100]%R) ps' fs' /\ nth_error fs 2 = Some f /\ nth_error fs' 2 = Some f' /\
  (gap 2 f f' 0 <= 1 / 50)%R.
Proof.
  destruct (two_evo1 1 2 1 3) as (ps & fs & E). destruct (two_evo1 1 2 1 (3 + 1 / 100)) as (ps' & fs' & E'). destruct (two_parts 1 2 1 3 (or_introl (eq_refl 1))) as (A1 & A2 & A3 & A4). destruct (two_parts 1 2 1 (3 + 1 / 100) (or_introl (eq_refl 1))) as (B1 & B2 & B3 & B4).
  destruct (nth_some (t := 2) E) as [f Hf]; [rewrite A3; auto|]. destruct (nth_some (t := 2) E') as [f' Hf']; [rewrite B3; auto|].
  exists ps, fs, ps', fs', f, f'. do 4 (split; auto).
  pose proof (@amplitude_change rexp rexp wla wla c0 c0 (s_ref 1) (s_off 1) 2 1 _ _ ps ps' fs fs' one_ 2 f f' 0 E E' (two_herm 1 2 1 3 (or_introl eq_refl))) as G.
  pose proof (off_total (or_introl (eq_refl 1))) as T. unfold s_ref, s_off in *. rewrite A2, B2 in G. cbn [length] in G. rewrite T in G. rewrite A1, A3, A4, B1, B3, B4 in G. rewrite (state_size hone_state) in G.
  replace (1 / 50)%R with (1 / 50 * 1)%R by lra. apply G; auto. intros c Hc. destruct c; [exact hx_limited|lia].
Qed.
Lemma case_state (la0 : LinAlg RField) b : exists ps fs ps' fs' f f' p p', evolution (s_ref 1) 2 1 (ipulse [1; 3]%R) ps fs /\ evolution (s_off 1) 2 1 (ipulse [1; 3 + 1 / 100]%R) ps' fs' /\ nth_error fs 2 = Some f /\ nth_error fs' 2 = Some f' /\
  state_fidelity la0 first_bra f None b = Ok p /\ state_fidelity la0 first_bra f' None b = Ok p' /\ (Rabs (p - p') <= 1 / 25)%R.
Proof.
  destruct (two_evo1 1 2 1 3) as (ps & fs & E). destruct (two_evo1 1 2 1 (3 + 1 / 100)) as (ps' & fs' & E'). destruct (two_parts 1 2 1 3 (or_introl (eq_refl 1))) as (A1 & A2 & A3 & A4). destruct (two_parts 1 2 1 (3 + 1 / 100) (or_introl (eq_refl 1))) as (B1 & B2 & B3 & B4).
  destruct (nth_some (t := 2) E) as [f Hf]; [rewrite A3; auto|]. destruct (nth_some (t := 2) E') as [f' Hf']; [rewrite B3; auto|].
  destruct (@state_change rexp rexp wla wla c0 c0 (s_ref 1) (s_off 1) 2 _ _ ps ps' fs fs' 2 _ f f' la0 first_bra (mk2 2 1 hone) b E E' (two_herm 1 2 1 3 (or_introl eq_refl)) (two_herm 1 2 1 (3 + 1 / 100) (or_introl eq_refl)) (fun r Hr => off_limited (or_introl eq_refl) Hr) Hf Hf') as (p & p' & P & P' & G).
  - unfold s_ref. rewrite A4. apply hone_state.
  - unfold s_off. rewrite B4. apply hone_state.
  - apply hone_state.
  - apply first_bra_of.
  - exists ps, fs, ps', fs', f, f', p, p'. do 6 (split; auto). rewrite (off_total (or_introl (eq_refl 1))) in G. unfold s_ref, s_off in G. rewrite A4, B4, gap_same in G. lra.
Qed.
Lemma case_operation (la0 : LinAlg RField) b : exists ps fs ps' fs' f f' p p', evolution (s_ref 2) 2 2 (ipulse [1; 3]%R) ps fs /\ evolution (s_off 2) 2 2 (ipulse [1; 3 + 1 / 100]%R) ps' fs' /\ nth_error fs 2 = Some f /\ nth_error fs' 2 = Some f' /\
  entanglement_fidelity la0 (arr2 2 hx) f None b = Ok p /\ entanglement_fidelity la0 (arr2 2 hx) f' None b = Ok p' /\ (Rabs (p - p') <= 1 / 25)%R.
Proof.
  destruct (two_evo2 1 2 1 3) as (ps & fs & E). destruct (two_evo2 1 2 1 (3 + 1 / 100)) as (ps' & fs' & E'). destruct (two_parts 1 2 1 3 (or_intror (eq_refl 2))) as (A1 & A2 & A3 & A4). destruct (two_parts 1 2 1 (3 + 1 / 100) (or_intror (eq_refl 2))) as (B1 & B2 & B3 & B4).
  destruct (nth_some (t := 2) E) as [f Hf]; [rewrite A3; auto|]. destruct (nth_some (t := 2) E') as [f' Hf']; [rewrite B3; auto|].
  destruct (@operation_change rexp rexp wla wla c0 c0 (s_ref 2) (s_off 2) 2 _ _ ps ps' fs fs' 2 _ f f' la0 (arr2 2 hx) b ltac:(discriminate) E E' (two_herm 1 2 1 3 (or_intror eq_refl)) (two_herm 1 2 1 (3 + 1 / 100) (or_intror eq_refl)) (fun r Hr => off_limited (or_intror eq_refl) Hr) Hf Hf') as (p & p' & P & P' & G).
  - unfold s_ref. rewrite A4. apply hone_unitary.
  - unfold s_ref, s_off. now rewrite A4, B4.
  - apply hx_unitary.
  - exists ps, fs, ps', fs', f, f', p, p'. do 6 (split; auto). rewrite (off_total (or_intror (eq_refl 2))) in G. lra.
Qed.
(** the Hamiltonians sigma_z + sigma_x and 4 sigma_x *)
Definition energy (r : nat) : R := nth r [2; 4]%R 0%R.
Lemma energy_limited k (t0 t1 : R) r : k = 1 \/ k = 2 -> r < 2 -> limited 2 (energy r) (hamiltonian (F:=RField) (Dr (s_two k t0 t1 1 3) r) (c_ctrl (s_conf (s_two k t0 t1 1 3))) (fun c => get2 (k0 : RField) (ipulse [1; 3]%R) r c)).
Proof.
  intros Hk Hr. destruct (two_parts t0 t1 1 3 Hk) as (A1 & A2 & _). rewrite A1, A2. unfold hamiltonian.
  assert (Q : forall (d : op) (x e : R), limited 2 1 (fun i j => mg (d : mat RS) i j) -> get2 (k0 : RField) (ipulse [1; 3]%R) r 0 = x -> (1 + Rabs x = e)%R ->
    limited 2 e (fun i j => cadd (mg (d : mat RS) i j) (sumn (S:=RS) (length [arr2 2 hx]) (fun c => cmul (cofk (get2 (k0 : RField) (ipulse [1; 3]%R) r c)) (mg (nth c [arr2 2 hx] (Arr [] []) : mat RS) i j))))).
  { intros d x e Hd Hx <-. apply limited_add; auto. pose proof (@limited_real 2 1 x _ hx_limited) as LL. rewrite Rmult_1_r in LL. eapply limited_ext; [|exact LL]. intros i j Hi Hj. cbn [length sumn nth]. rewrite Hx. tocplx. ring. }
  lv2 r; cbn [nth].
  - apply Q with (x := 1%R); [exact hz_limited|reflexivity|]. rewrite Rabs_right by lra. unfold energy. cbn. lra.
  - apply Q with (x := 3%R); [exact hx_limited|reflexivity|]. rewrite Rabs_right by lra. unfold energy. cbn. lra.
Qed.

Lemma case_durations : exists ps fs ps' fs' f f', evolution (s_two 1 1 2 1 3) 2 1 (ipulse [1; 3]%R) ps fs /\ evolution (s_two 1 1 (2 + 1 / 100) 1 3) 2 1 (ipulse [1; 3]%R) ps' fs' /\ nth_error fs 2 = Some f /\ nth_error fs' 2 = Some f' /\
  (gap 2 f f' 0 <= 1 / 25)%R.
Proof.
  destruct (two_evo1 1 2 1 3) as (ps & fs & E). destruct (two_evo1 1 (2 + 1 / 100) 1 3) as (ps' & fs' & E'). destruct (two_parts 1 2 1 3 (or_introl (eq_refl 1))) as (A1 & A2 & A3 & A4). destruct (two_parts 1 (2 + 1 / 100) 1 3 (or_introl (eq_refl 1))) as (B1 & B2 & B3 & B4).
  destruct (nth_some (t := 2) E) as [f Hf]; [rewrite A3; auto|]. destruct (nth_some (t := 2) E') as [f' Hf']; [rewrite B3; auto|].
  exists ps, fs, ps', fs', f, f'. do 4 (split; auto).
  pose proof (@duration_change rexp rexp wla wla c0 c0 (s_two 1 1 2 1 3) (s_two 1 1 (2 + 1 / 100) 1 3) 2 1 _ _ ps ps' fs fs' energy 2 f f' 0 E E' (two_herm 1 2 1 3 (or_introl eq_refl)) (two_herm 1 (2 + 1 / 100) 1 3 (or_introl eq_refl))) as G.
  assert (HH : forall r, r < 2 -> Dr (s_two 1 1 2 1 3) r = Dr (s_two 1 1 (2 + 1 / 100) 1 3) r /\ same_row (length (c_ctrl (s_conf (s_two 1 1 2 1 3)))) (ipulse [1; 3]%R) r (ipulse [1; 3]%R) r /\
    limited 2 (energy r) (hamiltonian (F:=RField) (Dr (s_two 1 1 2 1 3) r) (c_ctrl (s_conf (s_two 1 1 2 1 3))) (fun c => get2 (k0 : RField) (ipulse [1; 3]%R) r c))).
  { intros r Hr. split; [now rewrite A1, B1|]. split; [intros c Hc; reflexivity|]. now apply energy_limited; [left|]. }
  specialize (G ltac:(now rewrite A2, B2) ltac:(now rewrite A4, B4) HH Hf Hf' Nat.lt_0_1). rewrite A3, B3, A4, (state_size hone_state) in G. unfold energy in G. cbn [total nth] in G.
  replace (1 - 1)%R with 0%R in G by lra. replace (2 - (2 + 1 / 100))%R with (- (1 / 100))%R in G by lra. rewrite Rabs_R0, Rabs_Ropp, (Rabs_right (1 / 100)) in G by lra. lra.
Qed.
Lemma case_speed : exists ps fs f, evolution (s_two 1 (1 / 100) (1 / 100) 1 3) 2 1 (ipulse [1; 3]%R) ps fs /\ nth_error fs 2 = Some f /\ (gap 2 f (mk2 2 1 hone) 0 <= 3 / 50)%R.
Proof.
  destruct (two_evo1 (1 / 100) (1 / 100) 1 3) as (ps & fs & E). destruct (two_parts (1 / 100) (1 / 100) 1 3 (or_introl (eq_refl 1))) as (A1 & A2 & A3 & A4). destruct (nth_some (t := 2) E) as [f Hf]; [rewrite A3; auto|]. exists ps, fs, f. do 2 (split; auto).
  pose proof (@speed rexp wla c0 (s_two 1 (1 / 100) (1 / 100) 1 3) 2 1 _ ps fs energy 2 f 0 E (two_herm (1 / 100) (1 / 100) 1 3 (or_introl eq_refl)) (fun r Hr => energy_limited (1 / 100) (1 / 100) (or_introl eq_refl) Hr) Hf Nat.lt_0_1) as G.
  rewrite A3, A4, (state_size hone_state) in G. unfold energy in G. cbn [total nth] in G. rewrite (Rabs_right (1 / 100)) in G by lra. lra.
Qed.
End Wit.
