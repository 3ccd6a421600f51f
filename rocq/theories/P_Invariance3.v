(** Proofs for C79, part 3: conserved quantities, energy offsets, units, divided time steps, undoing a pulse. *)
Require Import List Arith Lia Bool Reals Lra.
From Verif Require Import LibBase LibRing LibArr LibCplx LibMat LibNorm LibDeriv LibSeries M_Matrix S_Linear S_Deriv S_Exp P_Linear P_Matrix P_Frechet P_Mexp P_Mexp2 M_OpHeap M_Transfer S_Transfer M_Amplitude S_Amplitude P_Amplitude M_Solver S_Solver P_Solver7 P_Solver8 P_Solver9 P_SolverMC M_Simulator S_Simulator S_Gradient P_Grad S_Cost S_Invariance P_Invariance P_Invariance2.
Import ListNotations.
Local Open Scope res_scope.
Set Implicit Arguments.

Section Inv.
Add Field Cfield_inv3 : (c_field RField).
Notation op := (op RField).
Notation st := (@st RField).
Notation mm := (mmul (S:=RS)).
Notation ma := (madd (S:=RS)).
Notation ms := (mscale (S:=RS)).
Hint Resolve wfm_mexp wfm_mpw : wfm.
Variable rexp : R -> R.
Variable la : LinAlg RField.
Variable eps : cplx RField.
Notation evolution := (evolution rexp la eps).
Notation gen n s u t G := (is_generator (F:=RField) n (Dr s t) (c_ctrl (s_conf s)) (fun c => get2 (k0 : RField) u t c) G).
Notation herm n := (is_hermitian (S:=RS) n : op -> Prop).

(** ---- conserved quantities ---- *)
Lemma expectation_mm n k Q f a b : wfm n n Q -> wfm n k f -> a < k -> b < k -> expectation n Q f a b = mg (mm (mdag (S:=RS) f) (mm Q f)) a b.
Proof.
  intros WQ Wf Ha Hb. unfold expectation. rewrite (@mg_mmul RS k n k) by (auto; wf_solve). apply sumn_ext. intros i Hi. rewrite (@mg_mdag RS n k), (@mg_mmul RS n n k) by auto. tocplx.
  rewrite csumn_mul_l. reflexivity.
Qed.
Lemma conserved (s : st) n k u ps fs Q : evolution s n k u ps fs -> is_matrix (S:=RS) n n Q -> length (s_drift s) = length (s_time s) ->
  Forall (herm n) (s_drift s) -> Forall (herm n) (c_ctrl (s_conf s)) ->
  (forall t, t < length (s_time s) -> carries n n Q (Dr s t) (Dr s t)) -> (forall c, c < length (c_ctrl (s_conf s)) -> carries n n Q (Ct s c) (Ct s c)) ->
  forall t f a b, nth_error fs t = Some f -> a < k -> b < k -> expectation n Q f a b = expectation n Q (c_init (s_conf s)) a b.
Proof.
  intros E WQ LD HD HC CD CC. destruct (steps E) as (_ & Lf & N0 & WF & ST). apply is_matrix_wfm in WQ.
  intros t. induction t as [|t IH]; intros f a b Hf Ha Hb; [rewrite N0 in Hf; now injection Hf as <-|].
  assert (Ht : t < length (s_time s)) by (assert (S t < length fs) by (apply nth_error_Some; congruence); lia).
  destruct (ST t Ht) as (tau & G & W & g & A1 & A2 & _ & A4 & A5). rewrite A5 in Hf. injection Hf as <-. rewrite <- (IH g a b A4 Ha Hb). assert (Wg := WF _ _ A4). assert (WE := wfm_mexp W tau).
  rewrite !(@expectation_mm n k) by (auto; wf_solve). apply f_equal with (f := fun M => mg M a b).
  assert (C : mm Q G = mm G Q) by (apply (@carries_mm n n); auto; eapply gen_carries; eauto; intros c Hc; reflexivity).
  assert (HU : munitary (S:=RS) n (mexp W tau)).
  { rewrite <- (mexp_time W (ms_real_wf tau W)). eapply exponential_unitary; [|apply mexp_exponential]. eapply generator_skew; [|exact HC|exact A2]. eapply Forall_forall; [exact HD|]. apply nth_In. lia. }
  destruct HU as (_ & U1 & _).
  rewrite (@mdag_mmul RS n n k) by auto. rewrite (@mmul_assoc RS n n n k Q (mexp W tau) g) by wf_solve. rewrite (@mexp_carry n n Q G G W W tau WQ C).
  rewrite <- (@mmul_assoc RS n n n k (mexp W tau) Q g) by wf_solve. rewrite <- (@mmul_assoc RS k n n k (mdag (S:=RS) g)) by wf_solve. f_equal.
  rewrite (@mmul_assoc RS n n n k (mdag (S:=RS) (mexp W tau))) by wf_solve. rewrite U1. apply (@mmul_1_l RS n k). wf_solve.
Qed.

(** ---- energy offsets ---- *)
Lemma cnorm_phase x : cnorm2 (phase x) = 1%R.
Proof. unfold cnorm2, phase. cbn. pose proof (sin2_cos2 x) as H. unfold Rsqr in H. lra. Qed.
Lemma phase_0 : phase 0 = c1.
Proof. unfold phase. rewrite cos_0, sin_0. unfold c1. cbn. f_equal. lra. Qed.
Lemma phase_add x y : phase (x + y) = cmul (phase x) (phase y).
Proof. unfold phase, cmul. cbn. rewrite cos_plus, sin_plus. f_equal; ring. Qed.
Lemma phase_exp (e tau : R) : cexpR (cmul (cofk (tau : RField)) ((0, - e)%R : RC)) = phase (e * tau).
Proof. unfold cexpR, phase, cmul, cofk. cbn. replace (tau * 0 - 0 * - e)%R with 0%R by ring. replace (tau * - e + 0 * 0)%R with (- (e * tau))%R by ring. rewrite exp_0, cos_neg, sin_neg. f_equal; ring. Qed.
Lemma gen_shift n (s s' : st) u u' t G G' e : gen n s u t G -> gen n s' u' t G' -> c_ctrl (s_conf s) = c_ctrl (s_conf s') -> same_row (length (c_ctrl (s_conf s))) u t u' t ->
  shifted n e (Dr s t) (Dr s' t) -> G' = ma G (ms ((0, - e)%R : RC) (mid (S:=RS) n)).
Proof.
  intros [W HG] [W' HG'] EC SR HS. apply is_matrix_wfm in W. apply is_matrix_wfm in W'. apply (@mat_ext RS n n); auto; [wf_solve|]. intros i j Hi Hj.
  rewrite (@mg_madd RS n n), (@mg_mscale RS n n), mg_mid by (auto; wf_solve). rewrite HG, HG' by auto. rewrite HS by auto. rewrite <- EC.
  assert (ES : sumn (S:=RS) (length (c_ctrl (s_conf s))) (fun c => cmul (cofk (get2 (k0 : RField) u' t c)) (Ct s c).[i,j]) = sumn (S:=RS) (length (c_ctrl (s_conf s))) (fun c => cmul (cofk (get2 (k0 : RField) u t c)) (Ct s c).[i,j])).
  { apply sumn_ext. intros c Hc. f_equal. f_equal. symmetry. exact (SR c Hc). }
  rewrite ES. generalize (sumn (S:=RS) (length (c_ctrl (s_conf s))) (fun c => cmul (cofk (get2 (k0 : RField) u t c)) (Ct s c).[i,j])). intros x. replace ((0, - e)%R : RC) with (cmul (copp ci) (cofk (e : RField))).
  - unfold kd, delta. tocplx. destruct (Nat.eqb i j); cring.
  - unfold cmul, copp, ci, cofk. cbn. f_equal; ring.
Qed.
Lemma offset (s s' : st) n k u u' ps ps' fs fs' (e : nat -> R) : evolution s n k u ps fs -> evolution s' n k u' ps' fs' ->
  s_time s = s_time s' -> c_ctrl (s_conf s) = c_ctrl (s_conf s') -> (forall t, t < length (s_time s) -> same_row (length (c_ctrl (s_conf s))) u t u' t) ->
  (forall t, t < length (s_time s) -> shifted n (e t) (Dr s t) (Dr s' t)) -> c_init (s_conf s) = c_init (s_conf s') ->
  forall t f f', nth_error fs t = Some f -> nth_error fs' t = Some f' -> is_multiple n k (phase (total (fun j => e j * nth j (s_time s) 0)%R t)) f f'.
Proof.
  intros E E' ET EC ER ED EI. destruct (steps E) as (_ & Lf & N0 & WF & ST). destruct (steps E') as (_ & Lf' & N0' & WF' & ST').
  intros t. induction t as [|t IH]; intros f f' Hf Hf'.
  - rewrite N0 in Hf. rewrite N0' in Hf'. injection Hf as <-. injection Hf' as <-. cbn [total]. rewrite phase_0, <- EI. split; [apply (ev_init E)|]. intros i j Hi Hj. cring.
  - assert (Ht : t < length (s_time s)) by (assert (S t < length fs) by (apply nth_error_Some; congruence); lia).
    destruct (ST t Ht) as (tau & G & W & g & A1 & A2 & _ & A4 & A5). rewrite ET in Ht. destruct (ST' t Ht) as (tau' & G' & W' & g' & B1 & B2 & _ & B4 & B5). rewrite <- ET in Ht, B1.
    rewrite A1 in B1. injection B1 as <-. rewrite A5 in Hf. injection Hf as <-. rewrite B5 in Hf'. injection Hf' as <-.
    assert (Wg := WF _ _ A4). assert (Wg' := WF' _ _ B4). assert (W1 := wfm_mexp W tau). assert (W2 := wfm_mexp W' tau). destruct (IH _ _ A4 B4) as [_ HM].
    rewrite (@mexp_shift n G G' W W' (0, - e t)%R tau) by (eapply gen_shift; eauto). rewrite phase_exp.
    split; [apply is_matrix_wfm; wf_solve|]. intros i j Hi Hj. cbn [total]. cbv beta. rewrite (nth_error_nth _ _ (0%R : RField) A1).
    rewrite !(@mg_mmul RS n n k) by (auto; wf_solve). rewrite phase_add, csumn_mul_l. apply sumn_ext. intros l Hl. rewrite (@mg_mscale RS n n) by auto. rewrite HM by auto. tocplx. cring.
Qed.

(** ---- units ---- *)
Lemma gen_units n (s s' : st) u u' t G G' lam (mu : nat -> R) : gen n s u t G -> gen n s' u' t G' -> length (c_ctrl (s_conf s)) = length (c_ctrl (s_conf s')) ->
  (forall c, c < length (c_ctrl (s_conf s)) -> get2 0%R u' t c = (mu c * get2 0 u t c)%R) ->
  rescaled n lam (Dr s' t) (Dr s t) -> (forall c, c < length (c_ctrl (s_conf s)) -> rescaled n (lam * mu c)%R (Ct s' c) (Ct s c)) -> G = ms (cofk (lam : RField)) G'.
Proof.
  intros [W HG] [W' HG'] EL SR HD HC. apply is_matrix_wfm in W. apply is_matrix_wfm in W'. apply (@mat_ext RS n n); auto; [wf_solve|]. intros i j Hi Hj.
  rewrite (@mg_mscale RS n n) by auto. rewrite HG, HG' by auto. rewrite HD by auto. rewrite <- EL.
  transitivity (cmul (copp ci) (cadd (cmul (cofk (lam : RField)) (Dr s' t).[i,j]) (cmul (cofk (lam : RField)) (sumn (S:=RS) (length (c_ctrl (s_conf s))) (fun c => cmul (cofk (get2 (k0 : RField) u' t c)) (Ct s' c).[i,j]))))).
  - do 2 f_equal. rewrite csumn_mul_l. apply sumn_ext. intros c Hc. rewrite (HC c Hc) by auto. change (get2 (k0 : RField) u' t c) with (get2 0%R u' t c). rewrite (SR c Hc).
    change (get2 (k0 : RField) u t c) with (get2 0%R u t c). set (x := get2 0%R u t c). clearbody x. destruct (Ct s' c).[i,j] as [a b]. unfold cmul, cofk. cbn. f_equal; ring.
  - tocplx. cring.
Qed.
Lemma units (s s' : st) n k u u' ps ps' fs fs' lam (mu : nat -> R) : evolution s n k u ps fs -> evolution s' n k u' ps' fs' ->
  s_time s' = map (fun x => lam * x)%R (s_time s) -> length (c_ctrl (s_conf s)) = length (c_ctrl (s_conf s')) ->
  (forall t c, t < length (s_time s) -> c < length (c_ctrl (s_conf s)) -> get2 0%R u' t c = (mu c * get2 0 u t c)%R) ->
  (forall t, t < length (s_time s) -> rescaled n lam (Dr s' t) (Dr s t)) -> (forall c, c < length (c_ctrl (s_conf s)) -> rescaled n (lam * mu c)%R (Ct s' c) (Ct s c)) ->
  c_init (s_conf s) = c_init (s_conf s') -> ps' = ps /\ fs' = fs.
Proof.
  intros E E' ET EL ER ED EC EI. destruct (steps E) as (Lp & Lf & N0 & WF & ST). destruct (steps E') as (Lp' & Lf' & N0' & WF' & ST').
  assert (LT : length (s_time s') = length (s_time s)) by (rewrite ET; apply map_length).
  assert (EP : forall t, t < length (s_time s) -> nth_error ps' t = nth_error ps t).
  { intros t Ht. destruct (ST t Ht) as (tau & G & W & g & A1 & A2 & A3 & A4 & A5). rewrite <- LT in Ht. destruct (ST' t Ht) as (tau' & G' & W' & g' & B1 & B2 & B3 & B4 & B5). rewrite LT in Ht.
    rewrite A3, B3. do 2 f_equal. rewrite ET in B1. rewrite (map_nth_error _ _ _ A1) in B1. injection B1 as <-.
    assert (EG : G = ms (cofk (lam : RField)) G') by (eapply gen_units; eauto). subst G.
    rewrite <- (mexp_time W' (ms_real_wf (lam * tau)%R W')), <- (mexp_time W (ms_real_wf tau W)). apply mexp_ext. apply (@mat_ext RS n n); [wf_solve|wf_solve|]. intros i j Hi Hj.
    rewrite !(@mg_mscale RS n n) by (auto; wf_solve). tocplx. destruct (G'.[i,j]) as [a b]. unfold cmul, cofk. cbn. f_equal; ring. }
  split.
  - apply nth_error_ext. intros t. destruct (Nat.ltb_spec t (length (s_time s))) as [Ht|Ht]; [now apply EP|]. rewrite (proj2 (nth_error_None ps t)), (proj2 (nth_error_None ps' t)) by lia. reflexivity.
  - apply nth_error_ext. intros t. induction t as [|t IH]; [rewrite N0, N0'; congruence|]. destruct (Nat.ltb_spec t (length (s_time s))) as [Ht|Ht].
    + destruct (ST t Ht) as (tau & G & W & g & A1 & A2 & A3 & A4 & A5). specialize (EP t Ht). rewrite <- LT in Ht. destruct (ST' t Ht) as (tau' & G' & W' & g' & B1 & B2 & B3 & B4 & B5). congruence.
    + rewrite (proj2 (nth_error_None fs _)), (proj2 (nth_error_None fs' _)) by lia. reflexivity.
Qed.
End Inv.
