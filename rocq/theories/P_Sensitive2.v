(** Proofs for C84, part 2: two evolutions step by step. *)
Require Import List Arith Lia Bool Reals Lra.
From Verif Require Import LibBase LibRing LibArr LibCplx LibMat LibNorm LibDeriv LibSeries M_Matrix S_Linear S_Deriv S_Exp P_Linear P_Matrix P_Frechet P_Mexp P_Mexp2 M_OpHeap M_Transfer S_Transfer M_Amplitude S_Amplitude M_Solver S_Solver P_Solver7 P_Solver8 P_Solver9 P_SolverMC S_Lindblad S_Invariance P_Invariance P_Invariance2 S_Sensitive P_Sensitive.
Import ListNotations.
Local Open Scope res_scope.
Set Implicit Arguments.

Section Sens.
Add Field Cfield_sen2 : (c_field RField).
Notation op := (op RField).
Notation st := (@st RField).
Notation mm := (mmul (S:=RS)).
Notation ms := (mscale (S:=RS)).
Notation mb := (msub (S:=RS)).
Notation md := (mdag (S:=RS)).
Notation Sg := (sumn (S:=RS)).
Hint Resolve wfm_mexp wfm_mpw : wfm.

Lemma limited_ext n K (M N : nat -> nat -> RC) : (forall i j, i < n -> j < n -> M i j = N i j) -> limited n K M -> limited n K N.
Proof.
  intros H [HK HL]. split; auto. intros v. rewrite (size_ext _ (fun i => Sg n (fun j => cmul (M i j) (v j)))); [apply HL|].
  intros i Hi. apply sumn_ext. intros j Hj. now rewrite H.
Qed.
Lemma limited_scale n K (z : RC) M : limited n K M -> limited n (sqrt (cnorm2 z) * K) (fun i j => cmul z (M i j)).
Proof.
  intros [HK HL]. split; [apply Rmult_le_pos; auto; apply sqrt_pos|]. intros v. rewrite (size_ext _ (fun i => cmul z (Sg n (fun j => cmul (M i j) (v j))))).
  - rewrite size_scale, Rmult_assoc. apply Rmult_le_compat_l; [apply sqrt_pos|apply HL].
  - intros i Hi. rewrite csumn_mul_l. apply sumn_ext. intros j Hj. cring.
Qed.
Lemma limited_real n K (x : R) M : limited n K M -> limited n (Rabs x * K) (fun i j => cmul (cofk (x : RField)) (M i j)).
Proof.
  intros H. apply (limited_scale (cofk (x : RField))) in H. replace (Rabs x) with (sqrt (cnorm2 (cofk (x : RField)))); auto. rewrite <- sqrt_Rsqr_abs. f_equal. unfold cnorm2, cofk, Rsqr. cbn. ring.
Qed.
Lemma limited_i n K M : limited n K M -> limited n K (fun i j => cmul (copp ci) (M i j)).
Proof.
  intros H. apply (limited_scale (copp ci)) in H. replace (sqrt (cnorm2 (copp (F:=RField) ci)) * K)%R with K in H; auto.
  replace (cnorm2 (copp (F:=RField) ci)) with 1%R; [rewrite sqrt_1; ring|]. unfold cnorm2, copp, ci. cbn. ring.
Qed.
Lemma limited_add n K L M N : limited n K M -> limited n L N -> limited n (K + L) (fun i j => cadd (M i j) (N i j)).
Proof.
  intros [HK HM] [HL HN]. split; [lra|]. intros v. rewrite (size_ext _ (fun i => cadd (Sg n (fun j => cmul (M i j) (v j))) (Sg n (fun j => cmul (N i j) (v j))))).
  - eapply Rle_trans; [apply size_add|]. rewrite Rmult_plus_distr_r. apply Rplus_le_compat; auto.
  - intros i Hi. rewrite csumn_add. apply sumn_ext. intros j Hj. cring.
Qed.
Lemma limited_0 n : limited n 0 (fun _ _ => c0).
Proof.
  split; [lra|]. intros v. rewrite (size_ext _ (fun _ => c0)); [rewrite size_0; lra|]. intros i Hi. apply sumn_0. intros j Hj. cring.
Qed.
Lemma limited_sum n m (K : nat -> R) (M : nat -> nat -> nat -> RC) : (forall c, c < m -> limited n (K c) (M c)) -> limited n (total K m) (fun i j => Sg m (fun c => M c i j)).
Proof.
  intros H. induction m; cbn [total sumn]; [apply limited_0|]. eapply limited_ext; [|apply limited_add; [apply IHm; intros; apply H; lia|apply H; lia]]. reflexivity.
Qed.
Lemma limited_weaken n K L M : (K <= L)%R -> limited n K M -> limited n L M.
Proof. intros HL [HK H]. split; [lra|]. intros v. eapply Rle_trans; [apply H|]. apply Rmult_le_compat_r; auto. apply size_pos. Qed.

(** the steps of an evolution with the actions A *)
Definition path n k (A : nat -> nat -> nat -> RC) (fs : list op) t := forall r, r < t -> exists X (W : wfm n n X) f, skew n X /\ (forall i j, i < n -> j < n -> mg (X : mat RS) i j = cmul (copp ci) (A r i j)) /\
  nth_error fs r = Some f /\ wfm n k f /\ nth_error fs (S r) = Some (mm (mexp W 1) f).
Lemma mv_col n k (E f : op) x i : wfm n n E -> wfm n k f -> x < k -> i < n -> mg (mm E f : mat RS) i x = mv n E (fun j => mg (f : mat RS) j x) i.
Proof. intros WE Wf Hx Hi. unfold mv. now rewrite (@mg_mmul RS n n k) by auto. Qed.
Lemma path_size n k A fs t f f0 x : path n k A fs t -> nth_error fs 0 = Some f0 -> nth_error fs t = Some f -> x < k -> size n (fun i => mg (f : mat RS) i x) = size n (fun i => mg (f0 : mat RS) i x).
Proof.
  revert f. induction t as [|t IH]; intros f HP H0 Hf Hx; [rewrite H0 in Hf; now injection Hf as <-|]. destruct (HP t ltac:(lia)) as (X & W & g & SX & _ & Hg & Wg & HS). rewrite HS in Hf. injection Hf as <-.
  rewrite <- (IH g) by (auto; intros r Hr; apply HP; lia). rewrite (size_ext _ (mv n (mexp W 1) (fun j => mg (g : mat RS) j x))) by (intros i Hi; apply mv_col with (k := k); auto with wfm).
  apply size_unitary. now apply skew_unitary.
Qed.
Lemma path_gap n k A A' fs fs' t K f f' f0 f0' x : path n k A fs t -> path n k A' fs' t -> (forall r, r < t -> limited n (K r) (fun i j => csub (A r i j) (A' r i j))) ->
  nth_error fs 0 = Some f0 -> nth_error fs' 0 = Some f0' -> nth_error fs t = Some f -> nth_error fs' t = Some f' -> x < k ->
  (gap n f f' x <= gap n f0 f0' x + total K t * size n (fun i => mg (f0' : mat RS) i x))%R.
Proof.
  revert f f'. induction t as [|t IH]; intros f f' HP HP' HK H0 H0' Hf Hf' Hx.
  { rewrite H0 in Hf. rewrite H0' in Hf'. injection Hf as <-. injection Hf' as <-. cbn [total]. lra. }
  destruct (HP t ltac:(lia)) as (X & W & g & SX & EX & Hg & Wg & HS). destruct (HP' t ltac:(lia)) as (X' & W' & g' & SX' & EX' & Hg' & Wg' & HS').
  rewrite HS in Hf. injection Hf as <-. rewrite HS' in Hf'. injection Hf' as <-.
  assert (I := IH g g' ltac:(intros r Hr; apply HP; lia) ltac:(intros r Hr; apply HP'; lia) ltac:(intros r Hr; apply HK; lia) H0 H0' Hg Hg' Hx).
  assert (Sg' := @path_size n k A' fs' t g' f0' x ltac:(intros r Hr; apply HP'; lia) H0' Hg' Hx).
  cbn [total]. rewrite Rmult_plus_distr_r. set (v := fun j => mg (g : mat RS) j x). set (v' := fun j => mg (g' : mat RS) j x).
  unfold gap. rewrite (size_ext _ (fun i => cadd (mv n (mexp W 1) (fun j => csub (v j) (v' j)) i) (csub (mv n (mexp W 1) v' i) (mv n (mexp W' 1) v' i)))).
  2:{ intros i Hi. rewrite !(@mv_col n k) by auto with wfm. rewrite mv_vsub. fold v v'. cring. }
  eapply Rle_trans; [apply size_add|]. rewrite (size_unitary _ (skew_unitary W 1 SX)).
  assert (L : limited n (K t) (fun i j => mg (mb X X' : mat RS) i j)).
  { eapply limited_ext; [|apply limited_i, (HK t); lia]. intros i j Hi Hj. rewrite (@mg_msub RS n n) by auto. rewrite EX, EX' by auto. cring. }
  pose proof (mexp_apart W' W v' SX' SX L) as D. fold v' in Sg'. rewrite Sg' in D. unfold gap in I. change (size n (fun i : nat => csub (mg (g : mat RS) i x) (mg (g' : mat RS) i x))) with (size n (fun j => csub (v j) (v' j))) in I.
  eapply Rle_trans; [apply Rplus_le_compat; [exact I|exact D]|]. right. ring.
Qed.

(** ---- solvers ---- *)
Lemma skew_scaled n (G : op) (tau : R) : is_skew_hermitian (S:=RS) n G -> skew n (ms (cofk (tau : RField)) G).
Proof.
  intros H. pose proof (@mscale_skew RField n G tau H) as [W HS]. apply is_matrix_wfm in W. split; auto. set (B := ms (cofk (tau : RField)) G) in *. clearbody B.
  apply (@mat_ext RS n n); [wf_solve|wf_solve|]. intros i j Hi Hj. rewrite (@mg_mdag RS n n), (@mg_mscale RS n n) by auto. rewrite (HS j i) by auto. tocplx. rewrite ?cconj_opp, ?cconj_conj. cring.
Qed.
Lemma cmul_swap (a b c : RC) : cmul a (cmul b c) = cmul b (cmul a c).
Proof. ring. Qed.
Section Solver.
Variable rexp : R -> R.
Variable la : LinAlg RField.
Variable eps : cplx RField.
Lemma evolution_path (s : st) n k u ps fs t : evolution rexp la eps s n k u ps fs -> hermitian_system n s -> t <= length (s_time s) -> path n k (action s u) fs t.
Proof.
  intros E HS Ht r Hr. destruct (steps E) as (_ & _ & _ & WF & ST). destruct (ST r ltac:(lia)) as (tau & G & W & f & A1 & A2 & _ & A4 & A5).
  exists (ms (cofk (tau : RField)) G), (ms_real_wf tau W), f. split; [|split; [|split; [|split]]]; eauto.
  - apply skew_scaled. eapply generator_skew; [|apply (hs_ctrl HS)|exact A2]. eapply Forall_forall; [apply (hs_drift HS)|]. apply nth_In. rewrite (hs_length HS). lia.
  - intros i j Hi Hj. rewrite (@mg_mscale RS n n) by auto. destruct A2 as [_ A2]. rewrite A2 by auto. unfold action, hamiltonian. rewrite (nth_error_nth _ _ _ A1). apply cmul_swap.
  - now rewrite mexp_time with (W := W).
Qed.
End Solver.
Lemma states (rexp rexp' : R -> R) la la' eps eps' (s s' : st) n k u u' ps ps' fs fs' t K f f' x : evolution rexp la eps s n k u ps fs -> evolution rexp' la' eps' s' n k u' ps' fs' ->
  hermitian_system n s -> hermitian_system n s' -> (forall r, r < t -> limited n (K r) (fun i j => csub (action s u r i j) (action s' u' r i j))) ->
  nth_error fs t = Some f -> nth_error fs' t = Some f' -> x < k ->
  (gap n f f' x <= gap n (c_init (s_conf s)) (c_init (s_conf s')) x + total K t * size n (fun i => mg (c_init (s_conf s') : mat RS) i x))%R.
Proof.
  intros E E' H H' HK Hf Hf' Hx. destruct (steps E) as (_ & L & N0 & _ & _). destruct (steps E') as (_ & L' & N0' & _ & _).
  assert (Ht : t < length fs) by (apply nth_error_Some; congruence). assert (Ht' : t < length fs') by (apply nth_error_Some; congruence).
  eapply path_gap; eauto; eapply evolution_path; eauto; lia.
Qed.
End Sens.
