(** Proofs for C84, part 3: amplitudes, durations, noise, speed, bounds of matrices, fidelities. *)
Require Import List Arith Lia Bool Reals Lra.
From Verif Require Import LibBase LibRing LibArr LibCplx LibMat LibNorm LibDeriv LibSeries M_Matrix S_Linear S_Deriv S_Exp P_Linear P_Matrix P_Frechet P_Mexp P_Mexp2 M_OpHeap M_Transfer S_Transfer M_Amplitude S_Amplitude M_Solver S_Solver P_Solver7 P_Solver8 P_Solver9 P_SolverMC M_Cost S_Cost P_Cost S_Lindblad S_Invariance P_Invariance P_Invariance2 S_OpenSym P_OpenSym2 S_Sensitive P_Sensitive P_Sensitive2.
Import ListNotations.
Local Open Scope res_scope.
Set Implicit Arguments.

Section Sens.
Add Field Cfield_sen3 : (c_field RField).
Notation op := (op RField).
Notation st := (@st RField).
Notation mm := (mmul (S:=RS)).
Notation ms := (mscale (S:=RS)).
Notation mb := (msub (S:=RS)).
Notation md := (mdag (S:=RS)).
Notation Sg := (sumn (S:=RS)).
Notation col f x := (fun i => mg (f : mat RS) i x).
Hint Resolve wfm_mexp wfm_mpw : wfm.

Lemma gap_same n f x : gap n f f x = 0%R.
Proof. unfold gap. rewrite (size_ext _ (fun _ => c0)); [apply size_0|]. intros i Hi. cring. Qed.
Lemma total_ext K L t : (forall r, r < t -> K r = L r) -> total K t = total L t.
Proof. intros H. induction t; cbn [total]; auto. rewrite IHt by (intros; apply H; lia). now rewrite H by lia. Qed.
Lemma diff_factor (a b c d : RC) : csub (cmul a (cadd b c)) (cmul a (cadd b d)) = cmul a (csub c d).
Proof. ring. Qed.
Lemma diff_times (a b c : RC) : csub (cmul a c) (cmul b c) = cmul (csub a b) c.
Proof. ring. Qed.
Lemma cofk_minus (a b : R) : csub (cofk (a : RField)) (cofk (b : RField)) = cofk ((a - b)%R : RField).
Proof. unfold csub, cofk. cbn. f_equal; ring. Qed.

Lemma amplitude_limited (s s' : st) n u u' (h : nat -> R) r : s_time s = s_time s' -> c_ctrl (s_conf s) = c_ctrl (s_conf s') -> s_drift s = s_drift s' ->
  (forall c, c < length (c_ctrl (s_conf s)) -> limited n (h c) (fun i j => mg (Ct s c : mat RS) i j)) ->
  limited n (Rabs (nth r (s_time s) 0) * weighted_change h u u' (length (c_ctrl (s_conf s))) r)%R (fun i j => csub (action s u r i j) (action s' u' r i j)).
Proof.
  intros ET EC ED HL. eapply limited_ext; [|apply limited_real; apply (@limited_sum n (length (c_ctrl (s_conf s))) (fun c => Rabs (get2 0 u r c - get2 0 u' r c) * h c)%R); intros c Hc; apply limited_real; apply (HL c Hc)].
  intros i j Hi Hj. unfold action, hamiltonian. rewrite <- ET, <- EC, <- ED. rewrite diff_factor. f_equal. rewrite csumn_sub. apply sumn_ext. intros c Hc. rewrite diff_times, cofk_minus. reflexivity.
Qed.
Lemma amplitude_change (rexp rexp' : R -> R) la la' eps eps' (s s' : st) n k u u' ps ps' fs fs' (h : nat -> R) t f f' x : evolution rexp la eps s n k u ps fs -> evolution rexp' la' eps' s' n k u' ps' fs' ->
  hermitian_system n s -> s_time s = s_time s' -> c_ctrl (s_conf s) = c_ctrl (s_conf s') -> s_drift s = s_drift s' -> c_init (s_conf s) = c_init (s_conf s') ->
  (forall c, c < length (c_ctrl (s_conf s)) -> limited n (h c) (fun i j => mg (Ct s c : mat RS) i j)) -> nth_error fs t = Some f -> nth_error fs' t = Some f' -> x < k ->
  (gap n f f' x <= total (fun r => Rabs (nth r (s_time s) 0) * weighted_change h u u' (length (c_ctrl (s_conf s))) r) t * size n (col (c_init (s_conf s)) x))%R.
Proof.
  intros E E' H ET EC ED EI HL Hf Hf' Hx. assert (H' : hermitian_system n s') by (destruct H; constructor; [now rewrite <- ED, <- ET|now rewrite <- ED|now rewrite <- EC]).
  assert (B : forall r, r < t -> limited n (Rabs (nth r (s_time s) 0) * weighted_change h u u' (length (c_ctrl (s_conf s))) r)%R (fun i j => csub (action s u r i j) (action s' u' r i j))).
  { intros r Hr. now apply amplitude_limited. }
  pose proof (@states rexp rexp' la la' eps eps' s s' n k u u' ps ps' fs fs' t _ f f' x E E' H H' B Hf Hf' Hx) as G. rewrite <- EI, gap_same in G. lra.
Qed.
Lemma duration_change (rexp rexp' : R -> R) la la' eps eps' (s s' : st) n k u u' ps ps' fs fs' (e : nat -> R) t f f' x : evolution rexp la eps s n k u ps fs -> evolution rexp' la' eps' s' n k u' ps' fs' ->
  hermitian_system n s -> hermitian_system n s' -> c_ctrl (s_conf s) = c_ctrl (s_conf s') -> c_init (s_conf s) = c_init (s_conf s') ->
  (forall r, r < t -> Dr s r = Dr s' r /\ same_row (length (c_ctrl (s_conf s))) u r u' r /\ limited n (e r) (hamiltonian (F:=RField) (Dr s r) (c_ctrl (s_conf s)) (fun c => get2 (k0 : RField) u r c))) ->
  nth_error fs t = Some f -> nth_error fs' t = Some f' -> x < k ->
  (gap n f f' x <= total (fun r => Rabs (nth r (s_time s) 0 - nth r (s_time s') 0) * e r) t * size n (col (c_init (s_conf s)) x))%R.
Proof.
  intros E E' H H' EC EI HL Hf Hf' Hx.
  assert (B : forall r, r < t -> limited n (Rabs (nth r (s_time s) 0 - nth r (s_time s') 0) * e r)%R (fun i j => csub (action s u r i j) (action s' u' r i j))).
  { intros r Hr. destruct (HL r Hr) as (ED & SR & L). eapply limited_ext; [|apply limited_real; apply L].
    intros i j Hi Hj. unfold action. replace (hamiltonian (F:=RField) (Dr s' r) (c_ctrl (s_conf s')) (fun c => get2 (k0 : RField) u' r c) i j) with (hamiltonian (F:=RField) (Dr s r) (c_ctrl (s_conf s)) (fun c => get2 (k0 : RField) u r c) i j).
    - now rewrite diff_times, cofk_minus.
    - unfold hamiltonian. rewrite <- EC, <- ED. f_equal. apply sumn_ext. intros c Hc. f_equal. f_equal. apply (SR c Hc). }
  pose proof (@states rexp rexp' la la' eps eps' s s' n k u u' ps ps' fs fs' t _ f f' x E E' H H' B Hf Hf' Hx) as G. rewrite <- EI, gap_same in G. lra.
Qed.

(** ---- how far a pulse can move a state ---- *)
Lemma skew_zero n : skew n (mzero (S:=RS) n n).
Proof.
  split; [apply wfm_mzero|]. apply (@mat_ext RS n n); [wf_solve|wf_solve|]. intros i j Hi Hj. rewrite (@mg_mdag RS n n), (@mg_mscale RS n n), !mg_mzero by (auto; wf_solve). tocplx. unfold cmul, cconj, copp, c0, c1. cbn. f_equal; ring.
Qed.
Lemma rest_path n k (f : op) t : wfm n k f -> path n k (fun _ _ _ => c0) (repeat f (S t)) t.
Proof.
  intros W r Hr. assert (N : forall q, q <= t -> nth_error (repeat f (S t)) q = Some f) by (intros q Hq; rewrite nth_error_repeat by lia; reflexivity).
  exists (mzero (S:=RS) n n), (wfm_mzero RS n n), f. split; [apply skew_zero|]. split; [intros i j Hi Hj; rewrite mg_mzero by auto; cring|]. split; [apply N; lia|]. split; auto.
  rewrite N by lia. f_equal. symmetry. apply (@mexp_zero n k); auto. apply (@mmul_0_l RS n n k); auto.
Qed.
Lemma speed (rexp : R -> R) la eps (s : st) n k u ps fs (e : nat -> R) t f x : evolution rexp la eps s n k u ps fs -> hermitian_system n s ->
  (forall r, r < t -> limited n (e r) (hamiltonian (F:=RField) (Dr s r) (c_ctrl (s_conf s)) (fun c => get2 (k0 : RField) u r c))) ->
  nth_error fs t = Some f -> x < k ->
  (gap n f (c_init (s_conf s)) x <= total (fun r => Rabs (nth r (s_time s) 0) * e r) t * size n (col (c_init (s_conf s)) x))%R.
Proof.
  intros E H HL Hf Hx. destruct (steps E) as (_ & L & N0 & WF & _). assert (Ht : t < length fs) by (apply nth_error_Some; congruence).
  pose proof (@path_gap n k (action s u) (fun _ _ _ => c0) fs (repeat (c_init (s_conf s)) (S t)) t (fun r => Rabs (nth r (s_time s) 0) * e r)%R f (c_init (s_conf s)) (c_init (s_conf s)) (c_init (s_conf s)) x) as G.
  rewrite gap_same in G. rewrite Rplus_0_l in G. apply G; auto.
  - eapply evolution_path; eauto. lia.
  - apply rest_path. eauto.
  - intros r Hr. eapply limited_ext; [|apply limited_real; apply (HL r Hr)]. intros i j Hi Hj. unfold action. cring.
  - rewrite nth_error_repeat by lia. reflexivity.
Qed.

(** ---- bounds of matrices ---- *)
Lemma rsum_pos n (f : nat -> R) : (forall i, i < n -> (0 <= f i)%R) -> (0 <= sumn (S:=KStar RField) n f)%R.
Proof. intros H. induction n; cbn [sumn]; [cbn; lra|]. assert (H1 := IHn (fun i Hi => H i ltac:(lia))). assert (H2 := H n ltac:(lia)). cbn in *. lra. Qed.
Lemma rows_le n m (M : nat -> nat -> RC) v : (sumn (S:=KStar RField) m (fun i => cnorm2 (Sg n (fun j => cmul (M i j) (v j)))) <= sumn (S:=KStar RField) m (fun i => sumn (S:=KStar RField) n (fun j => cnorm2 (M i j))) * vnorm2 (F:=RField) n v)%R.
Proof.
  induction m; cbn [sumn]; [cbn; lra|].
  pose proof (cs n (fun j => cconj (M m j)) v) as C. unfold vinner in C. assert (E1 : vnorm2 (F:=RField) n (fun j => cconj (M m j)) = sumn (S:=KStar RField) n (fun j => cnorm2 (M m j))) by (apply sumn_ext; intros j Hj; apply cnorm2_conj).
  rewrite E1 in C. rewrite (@sumn_ext RS n _ (fun j => cmul (M m j) (v j))) in C by (intros j Hj; now rewrite cconj_cconj).
  eapply Rle_trans; [apply Rplus_le_compat; [exact IHm|exact C]|]. right. symmetry. apply Rmult_plus_distr_r.
Qed.
Lemma frobenius n (M : nat -> nat -> RC) : limited n (sqrt (sumn (S:=KStar RField) n (fun i => sumn (S:=KStar RField) n (fun j => cnorm2 (M i j))))) M.
Proof.
  split; [apply sqrt_pos|]. intros v. unfold size at 2. rewrite <- sqrt_mult; [|apply rsum_pos; intros i Hi; apply norm2_pos|apply norm2_pos].
  unfold size. apply sqrt_le_1_alt. apply rows_le.
Qed.
Lemma unitary_limited n U : is_unitary (S:=RS) n U -> limited n 1 (fun i j => mg (U : mat RS) i j).
Proof. intros H. apply is_unitary_m in H. split; [lra|]. intros v. rewrite Rmult_1_l. right. exact (size_unitary v H). Qed.

(** ---- fidelities ---- *)
Lemma cabs_sq (z : RC) : (sqrt (cnorm2 z) * sqrt (cnorm2 z))%R = cnorm2 z.
Proof. apply sqrt_sqrt. destruct z; unfold cnorm2; cbn; nra. Qed.
Lemma size_1 (z : RC) : size 1 (fun _ => z) = sqrt (cnorm2 z).
Proof. unfold size. f_equal. cbn. ring. Qed.
Lemma cabs_tri (z w : RC) : (sqrt (cnorm2 (cadd z w)) <= sqrt (cnorm2 z) + sqrt (cnorm2 w))%R.
Proof. rewrite <- !size_1. exact (size_add 1 (fun _ => z) (fun _ => w)). Qed.
Lemma squares (z w : RC) (B : R) : (sqrt (cnorm2 (csub z w)) <= B -> sqrt (cnorm2 z) <= 1 -> sqrt (cnorm2 w) <= 1 -> Rabs (cnorm2 z - cnorm2 w) <= 2 * B)%R.
Proof.
  intros HB Hz Hw. assert (T1 := cabs_tri (csub z w) w). assert (T2 := cabs_tri (csub w z) z).
  replace (cadd (csub z w) w) with z in T1 by ring. replace (cadd (csub w z) z) with w in T2 by ring.
  assert (ES : cnorm2 (csub w z) = cnorm2 (csub z w)) by (destruct z, w; unfold cnorm2, csub; cbn; ring). rewrite ES in T2.
  rewrite <- (cabs_sq z), <- (cabs_sq w). pose proof (sqrt_pos (cnorm2 z)). pose proof (sqrt_pos (cnorm2 w)). pose proof (sqrt_pos (cnorm2 (csub z w))).
  set (p := sqrt (cnorm2 z)) in *. set (q := sqrt (cnorm2 w)) in *. set (d := sqrt (cnorm2 (csub z w))) in *. clearbody p q d. apply Rabs_le. split; nra.
Qed.
End Sens.
