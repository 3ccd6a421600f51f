(** Proofs for C79, part 5: Hamiltonians carried into others from arbitrary initial states, costs of shifted and transformed systems. *)
Require Import List Arith Lia Bool Reals Lra.
From Verif Require Import LibBase LibRing LibArr LibCplx LibMat LibNorm LibDeriv LibSeries M_Matrix S_Linear S_Deriv S_Exp P_Linear P_Matrix P_Frechet P_Mexp P_Mexp2 M_OpHeap M_Transfer S_Transfer M_Amplitude S_Amplitude P_Amplitude M_Solver S_Solver P_Solver7 P_Solver8 P_Solver9 P_SolverMC M_Simulator S_Simulator S_Gradient P_Grad M_Cost S_Cost P_Cost S_Invariance P_Invariance P_Invariance2 P_Invariance3.
Import ListNotations.
Local Open Scope res_scope.
Set Implicit Arguments.

Section Inv.
Add Field Cfield_inv5 : (c_field RField).
Notation op := (op RField).
Notation st := (@st RField).
Notation mm := (mmul (S:=RS)).
Hint Resolve wfm_mexp wfm_mpw : wfm.
Variable rexp : R -> R.
Variable la : LinAlg RField.
Variable eps : cplx RField.
Notation evolution := (evolution rexp la eps).

Lemma both_sides m n k k' (V A : mat RS) (s s' : st) u u' ps ps' fs fs' : evolution s n k u ps fs -> evolution s' m k' u' ps' fs' -> is_matrix (S:=RS) m n V -> is_matrix (S:=RS) k' k A ->
  s_time s = s_time s' -> length (c_ctrl (s_conf s)) = length (c_ctrl (s_conf s')) -> (forall t, t < length (s_time s) -> same_row (length (c_ctrl (s_conf s))) u t u' t) ->
  (forall t, t < length (s_time s) -> carries m n V (Dr s t) (Dr s' t)) -> (forall c, c < length (c_ctrl (s_conf s)) -> carries m n V (Ct s c) (Ct s' c)) ->
  (exists X, is_product (S:=RS) m n k V (c_init (s_conf s)) X /\ is_product (S:=RS) m k' k (c_init (s_conf s')) A X) ->
  forall t f f', nth_error fs t = Some f -> nth_error fs' t = Some f' -> exists X, is_product (S:=RS) m n k V f X /\ is_product (S:=RS) m k' k f' A X.
Proof.
  intros E E' WV WA ET EL ER ED EC (X0 & I1 & I2). destruct (steps E) as (_ & Lf & N0 & WF & ST). destruct (steps E') as (_ & Lf' & N0' & WF' & ST'). apply is_matrix_wfm in WV. apply is_matrix_wfm in WA.
  assert (H : forall t f f', nth_error fs t = Some f -> nth_error fs' t = Some f' -> mm V f = mm f' A).
  { intros t. induction t as [|t IH]; intros f f' Hf Hf'.
    - assert (Wf := WF _ _ Hf). assert (Wf' := WF' _ _ Hf'). rewrite N0 in Hf. rewrite N0' in Hf'. injection Hf as <-. injection Hf' as <-. rewrite <- (is_product_eq WV Wf I1). exact (is_product_eq Wf' WA I2).
    - assert (Ht : t < length (s_time s)) by (assert (S t < length fs) by (apply nth_error_Some; congruence); lia).
      destruct (ST t Ht) as (tau & G & W & g & A1 & A2 & _ & A4 & A5). rewrite ET in Ht. destruct (ST' t Ht) as (tau' & G' & W' & g' & B1 & B2 & _ & B4 & B5). rewrite <- ET in Ht, B1.
      rewrite A1 in B1. injection B1 as <-. rewrite A5 in Hf. injection Hf as <-. rewrite B5 in Hf'. injection Hf' as <-.
      assert (C : mm V G = mm G' V) by (apply (@carries_mm m n); auto; eapply gen_carries; eauto).
      assert (Wg := WF _ _ A4). assert (Wg' := WF' _ _ B4). assert (W1 := wfm_mexp W tau). assert (W2 := wfm_mexp W' tau).
      rewrite (@mmul_assoc RS m n n k V (mexp W tau) g) by wf_solve. rewrite (@mexp_carry m n V G G' W W' tau WV C). rewrite <- (@mmul_assoc RS m m n k) by wf_solve.
      rewrite (IH _ _ A4 B4). rewrite (@mmul_assoc RS m m k' k) by wf_solve. reflexivity. }
  intros t f f' Hf Hf'. exists (mm V f). assert (Wf := WF _ _ Hf). assert (Wf' := WF' _ _ Hf'). split; [apply is_product_mmul; auto|]. rewrite (H t f f' Hf Hf'). apply is_product_mmul; auto.
Qed.

(** linear in the initial states *)
Lemma initials n k k' (A : mat RS) (s s' : st) u u' ps ps' fs fs' : evolution s n k u ps fs -> evolution s' n k' u' ps' fs' -> is_matrix (S:=RS) k k' A ->
  s_time s = s_time s' -> c_ctrl (s_conf s) = c_ctrl (s_conf s') -> (forall t, t < length (s_time s) -> same_row (length (c_ctrl (s_conf s))) u t u' t) ->
  (forall t, t < length (s_time s) -> Dr s t = Dr s' t) -> is_product (S:=RS) n k k' (c_init (s_conf s)) A (c_init (s_conf s')) ->
  forall t f f', nth_error fs t = Some f -> nth_error fs' t = Some f' -> is_product (S:=RS) n k k' f A f'.
Proof.
  intros E E' WA ET EC ER ED EI t f f' Hf Hf'.
  assert (Wf' : wfm (S:=RS) n k' f') by (destruct (steps E') as (_ & _ & _ & WF & _); eauto).
  assert (Wi : wfm (S:=RS) n k' (c_init (s_conf s'))) by apply is_matrix_wfm, (ev_init E').
  assert (CR : forall H, carries n n (mid (S:=RS) n) H H).
  { intros H i j Hi Hj. rewrite (@sumn_ext RS n _ (fun l => smul (kd i l) H.[l,j])) by (intros l Hl; now rewrite mg_mid by auto).
    rewrite (@sumn_ext RS n (fun l => cmul H.[i,l] _) (fun l => smul H.[i,l] (kd l j))) by (intros l Hl; now rewrite mg_mid by auto).
    now rewrite sumn_kd_l, sumn_kd_r by auto. }
  destruct (@both_sides n n k' k (mid (S:=RS) n) A s' s u' u ps' ps fs' fs E' E) with (t := t) (f := f') (f' := f) as (X & X1 & X2); auto.
  - apply is_matrix_wfm, wfm_mid.
  - now rewrite EC.
  - intros j Hj c Hc. symmetry. apply ER; [now rewrite ET|now rewrite EC].
  - intros j Hj. rewrite ED by now rewrite ET. apply CR.
  - intros c Hc. rewrite EC. apply CR.
  - exists (c_init (s_conf s')). split; auto. pose proof (@is_product_mmul RS n n k' _ _ (wfm_mid RS n) Wi) as Z. now rewrite (@mmul_1_l RS n k' _ Wi) in Z.
  - pose proof (is_product_eq (wfm_mid RS n) Wf' X1) as EX. rewrite (@mmul_1_l RS n k' f' Wf') in EX. now subst X.
Qed.

(** an offset of the energy is seen by no cost function of the operation or of a state *)
Lemma offset_operation (s s' : st) n u u' ps ps' fs fs' (e : nat -> R) (la' : LinAlg RField) (V : op) b : evolution s n n u ps fs -> evolution s' n n u' ps' fs' ->
  s_time s = s_time s' -> c_ctrl (s_conf s) = c_ctrl (s_conf s') -> (forall t, t < length (s_time s) -> same_row (length (c_ctrl (s_conf s))) u t u' t) ->
  (forall t, t < length (s_time s) -> shifted n (e t) (Dr s t) (Dr s' t)) -> c_init (s_conf s) = c_init (s_conf s') -> is_matrix (S:=RS) n n V ->
  forall t f f', nth_error fs t = Some f -> nth_error fs' t = Some f' -> entanglement_fidelity (F:=RField) la' V f' None b = entanglement_fidelity la' V f None b.
Proof.
  intros E E' ET EC ER ED EI WV t f f' Hf Hf'. pose proof (@offset rexp la eps s s' n n u u' ps ps' fs fs' e E E' ET EC ER ED EI t f f' Hf Hf') as H.
  assert (Wf : wfm (S:=RS) n n f) by (destruct (steps E) as (_ & _ & _ & WF & _); eauto).
  apply (@ent_fid_phase RField la' n V f V f' c1 (phase (total (fun j => e j * nth j (s_time s) 0)%R t)) b); auto.
  - now apply is_matrix_wfm.
  - unfold cnorm2, c1. cbn. ring.
  - apply cnorm_phase.
  - split; auto. intros i j Hi Hj. cring.
Qed.
Lemma offset_state (s s' : st) n u u' ps ps' fs fs' (e : nat -> R) (la' : LinAlg RField) (bra : op) b : evolution s n 1 u ps fs -> evolution s' n 1 u' ps' fs' ->
  s_time s = s_time s' -> c_ctrl (s_conf s) = c_ctrl (s_conf s') -> (forall t, t < length (s_time s) -> same_row (length (c_ctrl (s_conf s))) u t u' t) ->
  (forall t, t < length (s_time s) -> shifted n (e t) (Dr s t) (Dr s' t)) -> c_init (s_conf s) = c_init (s_conf s') -> is_matrix (S:=RS) 1 n bra ->
  forall t f f', nth_error fs t = Some f -> nth_error fs' t = Some f' -> state_fidelity (F:=RField) la' bra f' None b = state_fidelity la' bra f None b.
Proof.
  intros E E' ET EC ER ED EI WV t f f' Hf Hf'. pose proof (@offset rexp la eps s s' n 1 u u' ps ps' fs fs' e E E' ET EC ER ED EI t f f' Hf Hf') as H.
  assert (Wf : wfm (S:=RS) n 1 f) by (destruct (steps E) as (_ & _ & _ & WF & _); eauto).
  apply (@state_fid_phase RField la' n bra bra f f' (phase (total (fun j => e j * nth j (s_time s) 0)%R t)) c1 b); auto.
  - apply cnorm_phase.
  - unfold cnorm2, c1. cbn. ring.
  - split; auto. intros i j Hi Hj. cring.
Qed.
(** the same physical system described in another orthonormal basis has the same fidelity *)
Lemma basis_operation (s s' : st) n u u' ps ps' fs fs' (W : mat RS) (la' : LinAlg RField) (V V' : op) b : evolution s n n u ps fs -> evolution s' n n u' ps' fs' -> is_unitary (S:=RS) n W ->
  s_time s = s_time s' -> length (c_ctrl (s_conf s)) = length (c_ctrl (s_conf s')) -> (forall t, t < length (s_time s) -> same_row (length (c_ctrl (s_conf s))) u t u' t) ->
  (forall t, t < length (s_time s) -> carries n n W (Dr s t) (Dr s' t)) -> (forall c, c < length (c_ctrl (s_conf s)) -> carries n n W (Ct s c) (Ct s' c)) ->
  carries n n W (c_init (s_conf s)) (c_init (s_conf s')) -> is_matrix (S:=RS) n n V -> is_matrix (S:=RS) n n V' -> carries n n W V V' ->
  forall t f f', nth_error fs t = Some f -> nth_error fs' t = Some f' -> carries n n W f f' /\ entanglement_fidelity (F:=RField) la' V' f' None b = entanglement_fidelity la' V f None b.
Proof.
  intros E E' UW ET EL ER ED EC EI WV WV' EV t f f' Hf Hf'. pose proof (proj1 UW) as MW. pose proof MW as WW. apply is_matrix_wfm in WW.
  assert (Wf : wfm (S:=RS) n n f) by (destruct (steps E) as (_ & _ & _ & WF & _); eauto). assert (Wf' : wfm (S:=RS) n n f') by (destruct (steps E') as (_ & _ & _ & WF & _); eauto).
  assert (CP : forall A B : op, is_matrix (S:=RS) n n A -> is_matrix (S:=RS) n n B -> carries n n W A B -> is_product (S:=RS) n n n W A (mm W A) /\ is_product (S:=RS) n n n B W (mm W A)).
  { intros A B HA HB C. apply is_matrix_wfm in HA. apply is_matrix_wfm in HB. split; [now apply is_product_mmul|]. rewrite (@carries_mm n n W A B) by auto. now apply is_product_mmul. }
  destruct (@both_sides n n n n W W s s' u u' ps ps' fs fs' E E' MW MW ET EL ER ED EC) with (t := t) (f := f) (f' := f') as (X & X1 & X2); auto.
  { eexists. apply CP; auto; [apply (ev_init E)|apply (ev_init E')]. }
  split.
  - intros i j Hi Hj. destruct X1 as [_ X1]. destruct X2 as [_ X2]. specialize (X1 i j Hi Hj). specialize (X2 i j Hi Hj). exact (eq_trans (eq_sym X1) X2).
  - destruct (CP V V' WV WV' EV) as [Y1 Y2].
    rewrite <- (@ent_fid_unitary_l RField la' n V f (mm W V) X W b) by (auto; now apply is_matrix_wfm).
    symmetry. apply (@ent_fid_unitary_r RField la' n V' f' (mm W V) X W b); auto. now apply is_matrix_wfm.
Qed.
End Inv.
