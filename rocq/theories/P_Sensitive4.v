(** Proofs for C84, part 4: fidelities; noise traces. *)
Require Import List Arith Lia Bool Reals Lra.
From Verif Require Import LibBase LibRing LibArr LibCplx LibMat LibNorm LibDeriv LibSeries M_Matrix S_Linear S_Deriv S_Exp P_Linear P_Matrix P_Frechet P_Mexp P_Mexp2 M_OpHeap M_Transfer S_Transfer M_Amplitude S_Amplitude M_Solver S_Solver P_Solver7 P_Solver8 P_Solver9 P_SolverMC M_Cost S_Cost P_Cost S_Lindblad S_Invariance P_Invariance P_Invariance2 S_Sensitive P_Sensitive P_Sensitive2 P_Sensitive3.
Import ListNotations.
Local Open Scope res_scope.
Set Implicit Arguments.

Section Sens.
Add Field Cfield_sen4 : (c_field RField).
Notation op := (op RField).
Notation st := (@st RField).
Notation mm := (mmul (S:=RS)).
Notation ms := (mscale (S:=RS)).
Notation Sg := (sumn (S:=RS)).
Notation dop := (Arr [] [] : op).
Notation col f x := (fun i => mg (f : mat RS) i x).
Hint Resolve wfm_mexp wfm_mpw : wfm.

Lemma state_size n (f : op) : is_state (F:=RField) n f -> size n (col f 0) = 1%R.
Proof. intros [_ H]. unfold size. cbn in *. transitivity (sqrt 1); [f_equal; exact H|apply sqrt_1]. Qed.
Lemma unitary_size n (U : op) x : is_unitary (S:=RS) n U -> x < n -> size n (col U x) = 1%R.
Proof. intros H Hx. apply is_unitary_m in H. unfold size. transitivity (sqrt 1); [f_equal; exact (unitary_col H Hx)|apply sqrt_1]. Qed.
Lemma evolution_size (rexp : R -> R) la eps (s : st) n k u ps fs t f x : evolution rexp la eps s n k u ps fs -> hermitian_system n s -> nth_error fs t = Some f -> x < k -> size n (col f x) = size n (col (c_init (s_conf s)) x).
Proof.
  intros E H Hf Hx. destruct (steps E) as (_ & L & N0 & _ & _). assert (Ht : t < length fs) by (apply nth_error_Some; congruence).
  eapply path_size; eauto. eapply evolution_path; eauto. lia.
Qed.
Lemma bra_inner n (bra phi f : op) : is_bra_of (F:=RField) n bra phi -> Sg n (fun i => cmul (mg (bra : mat RS) 0 i) (mg (f : mat RS) i 0)) = vinner (F:=RField) n (col phi 0) (col f 0).
Proof. intros [_ H]. apply sumn_ext. intros i Hi. now rewrite H. Qed.

Lemma state_change (rexp rexp' : R -> R) la la' eps eps' (s s' : st) n u u' ps ps' fs fs' t K f f' (la0 : LinAlg RField) (bra phi : op) b : evolution rexp la eps s n 1 u ps fs -> evolution rexp' la' eps' s' n 1 u' ps' fs' ->
  hermitian_system n s -> hermitian_system n s' -> (forall r, r < t -> limited n (K r) (fun i j => csub (action s u r i j) (action s' u' r i j))) ->
  nth_error fs t = Some f -> nth_error fs' t = Some f' -> is_state (F:=RField) n (c_init (s_conf s)) -> is_state (F:=RField) n (c_init (s_conf s')) -> is_state (F:=RField) n phi -> is_bra_of (F:=RField) n bra phi ->
  exists p p', state_fidelity la0 bra f None b = Ok p /\ state_fidelity la0 bra f' None b = Ok p' /\ (Rabs (p - p') <= 2 * (gap n (c_init (s_conf s)) (c_init (s_conf s')) 0 + total K t))%R.
Proof.
  intros E E' H H' HK Hf Hf' I I' HP HB. pose proof (@states rexp rexp' la la' eps eps' s s' n 1 u u' ps ps' fs fs' t K f f' 0 E E' H H' HK Hf Hf' ltac:(lia)) as G. rewrite (state_size I'), Rmult_1_r in G.
  assert (Wf : wfm (S:=RS) n 1 f) by (destruct (steps E) as (_ & _ & _ & WF & _); eauto). assert (Wf' : wfm (S:=RS) n 1 f') by (destruct (steps E') as (_ & _ & _ & WF & _); eauto).
  destruct HB as [WB HB]. eexists. eexists. split; [apply state_fid_val; [exact WB|now apply is_matrix_wfm]|]. split; [apply state_fid_val; [exact WB|now apply is_matrix_wfm]|].
  rewrite !(bra_inner (phi := phi)) by (split; auto). assert (SP := state_size HP). assert (Sf : size n (col f 0) = size n (col (c_init (s_conf s)) 0)) by (eapply evolution_size; eauto). assert (Sf' : size n (col f' 0) = size n (col (c_init (s_conf s')) 0)) by (eapply evolution_size; eauto). rewrite (state_size I) in Sf. rewrite (state_size I') in Sf'.
  apply squares.
  - rewrite <- vinner_sub_r. eapply Rle_trans; [apply cs_abs|]. rewrite SP, Rmult_1_l. exact G.
  - eapply Rle_trans; [apply cs_abs|]. rewrite SP, Sf. lra.
  - eapply Rle_trans; [apply cs_abs|]. rewrite SP, Sf'. lra.
Qed.

Lemma cabs_sum m (f : nat -> RC) B : (forall j, j < m -> (sqrt (cnorm2 (f j)) <= B)%R) -> (sqrt (cnorm2 (Sg m f)) <= INR m * B)%R.
Proof.
  intros H. induction m; cbn [sumn].
  - change (INR 0) with 0%R. rewrite Rmult_0_l. match goal with |- (sqrt ?e <= _)%R => replace e with 0%R by (unfold cnorm2; cbn; ring) end. rewrite sqrt_0. lra.
  - rewrite S_INR. eapply Rle_trans; [apply cabs_tri|]. assert (H1 := IHm (fun j Hj => H j ltac:(lia))). assert (H2 := H m ltac:(lia)). lra.
Qed.
Lemma hs_columns n (V U : op) : mat_overlap (F:=RField) n V U = Sg n (fun x => vinner (F:=RField) n (col V x) (col U x)).
Proof. rewrite overlap_hs. unfold hs, vinner. now rewrite (@sumn_swap RS). Qed.
Lemma kofnat_INR n : (kofnat n : RField) = INR n.
Proof. induction n; [reflexivity|]. rewrite S_INR, <- IHn. cbn. ring. Qed.
Lemma squares_scaled (z w : RC) (M B : R) : (0 < M -> sqrt (cnorm2 (csub z w)) <= M * B -> sqrt (cnorm2 z) <= M -> sqrt (cnorm2 w) <= M -> Rabs (cnorm2 z / M / M - cnorm2 w / M / M) <= 2 * B)%R.
Proof.
  intros HM HB Hz Hw. assert (T1 := cabs_tri (csub z w) w). assert (T2 := cabs_tri (csub w z) z).
  replace (cadd (csub z w) w) with z in T1 by ring. replace (cadd (csub w z) z) with w in T2 by ring.
  assert (ES : cnorm2 (csub w z) = cnorm2 (csub z w)) by (destruct z, w; unfold cnorm2, csub; cbn; ring). rewrite ES in T2.
  rewrite <- (cabs_sq z), <- (cabs_sq w). pose proof (sqrt_pos (cnorm2 z)). pose proof (sqrt_pos (cnorm2 w)). pose proof (sqrt_pos (cnorm2 (csub z w))).
  set (p := sqrt (cnorm2 z)) in *. set (q := sqrt (cnorm2 w)) in *. set (d := sqrt (cnorm2 (csub z w))) in *. clearbody p q d.
  replace (p * p / M / M - q * q / M / M)%R with ((p * p - q * q) / (M * M))%R by (field; lra).
  assert (MM : (0 < M * M)%R) by nra. unfold Rdiv. rewrite Rabs_mult. rewrite (Rabs_right (/ (M * M))) by (apply Rle_ge, Rlt_le, Rinv_0_lt_compat; lra). apply Rmult_le_reg_r with (M * M)%R; auto. rewrite Rmult_assoc, Rinv_l by lra. rewrite Rmult_1_r.
  apply Rabs_le. split; nra.
Qed.
Lemma operation_change (rexp rexp' : R -> R) la la' eps eps' (s s' : st) n u u' ps ps' fs fs' t K f f' (la0 : LinAlg RField) (V : op) b : n <> 0 -> evolution rexp la eps s n n u ps fs -> evolution rexp' la' eps' s' n n u' ps' fs' ->
  hermitian_system n s -> hermitian_system n s' -> (forall r, r < t -> limited n (K r) (fun i j => csub (action s u r i j) (action s' u' r i j))) ->
  nth_error fs t = Some f -> nth_error fs' t = Some f' -> is_unitary (S:=RS) n (c_init (s_conf s)) -> c_init (s_conf s) = c_init (s_conf s') -> is_unitary (S:=RS) n V ->
  exists p p', entanglement_fidelity la0 V f None b = Ok p /\ entanglement_fidelity la0 V f' None b = Ok p' /\ (Rabs (p - p') <= 2 * total K t)%R.
Proof.
  intros Hn E E' H H' HK Hf Hf' I EI HV.
  assert (G : forall x, x < n -> (gap n f f' x <= total K t)%R).
  { intros x Hx. pose proof (@states rexp rexp' la la' eps eps' s s' n n u u' ps ps' fs fs' t K f f' x E E' H H' HK Hf Hf' Hx) as G. rewrite <- EI, gap_same, (unitary_size I Hx) in G. lra. }
  assert (Wf : wfm (S:=RS) n n f) by (destruct (steps E) as (_ & _ & _ & WF & _); eauto). assert (Wf' : wfm (S:=RS) n n f') by (destruct (steps E') as (_ & _ & _ & WF & _); eauto).
  assert (WV : is_matrix n n V) by apply HV. eexists. eexists. split; [apply ent_fid_val; [exact WV|now apply is_matrix_wfm]|]. split; [apply ent_fid_val; [exact WV|now apply is_matrix_wfm]|].
  unfold fid. rewrite !kofnat_INR, !hs_columns. assert (SV : forall x, x < n -> size n (col V x) = 1%R) by (intros; now apply unitary_size).
  assert (SF : forall x, x < n -> size n (col f x) = 1%R) by (intros x Hx; transitivity (size n (col (c_init (s_conf s)) x)); [eapply evolution_size; eauto|now apply unitary_size]).
  assert (SF' : forall x, x < n -> size n (col f' x) = 1%R) by (intros x Hx; transitivity (size n (col (c_init (s_conf s')) x)); [eapply evolution_size; eauto|rewrite <- EI; now apply unitary_size]).
  apply (@squares_scaled (Sg n (fun x => vinner (F:=RField) n (col V x) (col f x))) (Sg n (fun x => vinner (F:=RField) n (col V x) (col f' x))) (INR n) (total K t)).
  - apply lt_0_INR. lia.
  - rewrite csumn_sub. apply cabs_sum. intros x Hx. rewrite <- vinner_sub_r. eapply Rle_trans; [apply cs_abs|]. rewrite (SV x Hx), Rmult_1_l. exact (G x Hx).
  - rewrite <- (Rmult_1_r (INR n)). apply cabs_sum. intros x Hx. eapply Rle_trans; [apply cs_abs|]. rewrite (SV x Hx), (SF x Hx). lra.
  - rewrite <- (Rmult_1_r (INR n)). apply cabs_sum. intros x Hx. eapply Rle_trans; [apply cs_abs|]. rewrite (SV x Hx), (SF' x Hx). lra.
Qed.

(** ---- noise traces ---- *)
Lemma noisy_skew n (h : op) (hs ns : list op) u v G : is_hermitian (S:=RS) n h -> Forall (is_hermitian (S:=RS) n : op -> Prop) hs -> Forall (is_hermitian (S:=RS) n : op -> Prop) ns ->
  is_noisy_generator (F:=RField) n h hs u ns v G -> is_skew_hermitian (S:=RS) n G.
Proof.
  intros Hh Hs Hn [WG HG]. apply (@generator_skew RField n h (hs ++ ns) (fun c => if c <? length hs then u c else v (c - length hs)) G Hh).
  - apply Forall_app. now split.
  - split; auto. intros i j Hi Hj. rewrite HG by auto. f_equal. rewrite app_length, (@sumn_app RS).
    match goal with |- cadd (cadd ?a ?b) ?c = cadd ?a (sadd ?x ?y) => assert (E1 : b = x); [|assert (E2 : c = y); [|rewrite E1, E2; generalize x y; intros; tocplx; ring]] end.
    + apply sumn_ext; intros c Hc; destruct (Nat.ltb_spec c (length hs)); [now rewrite app_nth1|lia].
    + apply sumn_ext; intros c Hc. destruct (Nat.ltb_spec (length hs + c) (length hs)); [lia|]. rewrite app_nth2 by lia. now replace (length hs + c - length hs) with c by lia.
Qed.
Definition noisy_action (s : st) (u : RA) (m : @mcconf RField) j (t a b : nat) : RC :=
  cmul (cofk (nth t (s_time s) 0%R : RField)) (cadd (hamiltonian (F:=RField) (Dr s t) (c_ctrl (s_conf s)) (fun c => get2 (k0 : RField) u t c) a b)
    (Sg (length (mc_ops m)) (fun o => cmul (cofk (get3 (k0 : RField) (mc_samples m) o j t)) (mg (nth o (mc_ops m) dop : mat RS) a b)))).
Section Noise.
Variables (rexp : R -> R) (la : LinAlg RField) (eps : cplx RField).
Lemma noise_path (s : st) n k u ps fs m pss fss j gs t : evolution rexp la eps s n k u ps fs -> hermitian_system n s -> sampled n s m -> mc_ampf m = NNone ->
  Forall (is_hermitian (S:=RS) n : op -> Prop) (mc_ops m) -> exact_noise_steps la n s (mc_ops m) ->
  returns (F:=RField) rexp la eps s SNProp (VDer pss) -> returns (F:=RField) rexp la eps s SNFwd (VNOps fss) -> nth_error fss j = Some gs -> t <= length (s_time s) ->
  length gs = S (length (s_time s)) /\ nth_error gs 0 = Some (c_init (s_conf s)) /\ path n k (noisy_action s u m j) gs t.
Proof.
  intros E HS SM NN HO HX Hp Hf Hj Ht. destruct (ev_used E) as (d & s0 & U).
  destruct (@used_samples RField rexp la eps d s0 s n m u pss U SM NN (ev_square E) (ev_amps E) Hp) as [L1 P].
  assert (P' : forall j' qs, nth_error pss j' = Some qs -> length qs = length (s_time s) /\ forall r, r < length (s_time s) -> exists tau G (W : wfm n n G), nth_error (s_time s) r = Some tau /\
    is_noisy_generator (F:=RField) n (Dr s r) (c_ctrl (s_conf s)) (fun c => get2 (k0 : RField) u r c) (mc_ops m) (fun o => get3 (k0 : RField) (mc_samples m) o j' r) G /\ nth_error qs r = Some (Some (mexp W tau))).
  { intros j' qs Hq. destruct (P j' qs Hq) as [L Q]. split; auto. intros r Hr. destruct (Q r Hr) as (X & G & tau & A1 & A2 & A3 & A4). destruct A3 as [WG HG]. pose proof WG as W. apply is_matrix_wfm in W. exists tau, G, W. split; auto. split; [split; auto|].
    pose proof (HX r tau _ _ G X A2 (conj WG HG) A4) as Y. rewrite (exponential_mexp (ms_real_wf tau W) Y) in A1. now rewrite mexp_time with (W := W) in A1. }
  assert (SQ : forall qs, In qs pss -> all_square (F:=RField) n qs).
  { intros qs Hq X HXq. apply In_nth_error in Hq. destruct Hq as [j' Hq]. destruct (P' j' qs Hq) as [L Q]. apply In_nth_error in HXq. destruct HXq as [r Hr].
    assert (Hl : r < length (s_time s)) by (rewrite <- L; apply nth_error_Some; congruence). destruct (Q r Hl) as (tau & G & W & _ & _ & E3). rewrite Hr in E3. injection E3 as ->. apply is_matrix_wfm. apply wfm_mexp. }
  destruct (@used_noise_forward RField rexp la eps d s0 s m pss fss n k U (proj1 SM) Hp Hf SQ (ev_init E)) as (_ & L2 & C).
  assert (Lj : j < length pss) by (rewrite L1, <- L2; apply nth_error_Some; congruence). destruct (nth_error pss j) as [qs|] eqn:Hq; [|apply nth_error_None in Hq; lia].
  destruct (C j qs gs Hq Hj) as (Lf & F0 & FS). destruct (P' j qs Hq) as [L Q].
  assert (N0 : nth_error gs 0 = Some (c_init (s_conf s))) by (destruct gs as [|f0 gs']; [discriminate|]; specialize (F0 dop); cbn in F0 |- *; now subst).
  assert (WF : forall r f, nth_error gs r = Some f -> wfm n k f).
  { intros [|r] f Hr; [rewrite N0 in Hr; injection Hr as <-; apply is_matrix_wfm, (ev_init E)|]. assert (Hl : r < length qs) by (assert (S r < length gs) by (apply nth_error_Some; congruence); lia).
    destruct (FS r Hl) as (X & f1 & f2 & _ & _ & E3 & [E4 _]). rewrite Hr in E3. injection E3 as ->. now apply is_matrix_wfm. }
  split; [lia|]. split; auto. intros r Hr. destruct (Q r ltac:(lia)) as (tau & G & W & A1 & A2 & A3). destruct (FS r ltac:(lia)) as (X & f1 & f2 & D1 & D2 & D3 & D4). rewrite A3 in D1. injection D1 as <-.
  exists (ms (cofk (tau : RField)) G), (ms_real_wf tau W), f1. split; [|split; [|split; [|split]]]; eauto.
  - apply skew_scaled. eapply noisy_skew; [|apply (hs_ctrl HS)|exact HO|exact A2]. eapply Forall_forall; [apply (hs_drift HS)|]. apply nth_In. rewrite (hs_length HS). lia.
  - intros a b Ha Hb. rewrite (@mg_mscale RS n n) by auto. destruct A2 as [_ A2]. rewrite A2 by auto. unfold noisy_action, hamiltonian. rewrite (nth_error_nth _ _ _ A1). apply cmul_swap.
  - rewrite D3. f_equal. rewrite mexp_time with (W := W). apply (@is_product_eq RS n n k); eauto using wfm_mexp.
Qed.
Lemma noise_change (s : st) n k u ps fs m pss fss (h : nat -> R) j gs t f g x : evolution rexp la eps s n k u ps fs -> hermitian_system n s -> sampled n s m -> mc_ampf m = NNone ->
  Forall (is_hermitian (S:=RS) n : op -> Prop) (mc_ops m) -> exact_noise_steps la n s (mc_ops m) ->
  returns (F:=RField) rexp la eps s SNProp (VDer pss) -> returns (F:=RField) rexp la eps s SNFwd (VNOps fss) ->
  (forall o, o < length (mc_ops m) -> limited n (h o) (fun a b => mg (nth o (mc_ops m) dop : mat RS) a b)) ->
  nth_error fss j = Some gs -> nth_error gs t = Some g -> nth_error fs t = Some f -> x < k ->
  (gap n g f x <= total (fun r => Rabs (nth r (s_time s) 0) * weighted_noise h (mc_samples m) (length (mc_ops m)) j r) t * size n (col (c_init (s_conf s)) x))%R.
Proof.
  intros E HS SM NN HO HX Hp Hf HL Hj Hg Hff Hx. destruct (steps E) as (_ & Lf & N0 & _). assert (Ht : t < length fs) by (apply nth_error_Some; congruence).
  destruct (@noise_path s n k u ps fs m pss fss j gs t E HS SM NN HO HX Hp Hf Hj ltac:(lia)) as (_ & M0 & PN).
  assert (B : forall r, r < t -> limited n (Rabs (nth r (s_time s) 0) * weighted_noise h (mc_samples m) (length (mc_ops m)) j r)%R (fun a b => csub (noisy_action s u m j r a b) (action s u r a b))).
  { intros r Hr. eapply limited_ext; [|apply limited_real; apply (@limited_sum n (length (mc_ops m)) (fun o => Rabs (get3 0 (mc_samples m) o j r) * h o)%R); intros o Ho; apply limited_real; apply (HL o Ho)].
    intros a b Ha Hb. unfold noisy_action, action. cbv beta. change (@k0 RField) with 0%R. set (z := Sg _ _). set (y := hamiltonian _ _ _ _ _). clearbody y z. tocplx. ring. }
  assert (PE : path n k (action s u) fs t) by (eapply evolution_path; eauto; lia).
  pose proof (@path_gap n k (noisy_action s u m j) (action s u) gs fs t _ g f _ _ x PN PE B M0 N0 Hg Hff Hx) as G. rewrite gap_same, Rplus_0_l in G. exact G.
Qed.
End Noise.
End Sens.
