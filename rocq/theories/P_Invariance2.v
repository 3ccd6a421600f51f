(** Proofs for C79, part 2: the time steps of an evolution; carried, conserved, shifted and rescaled Hamiltonians. *)
Require Import List Arith Lia Bool Reals Lra.
From Verif Require Import LibBase LibRing LibArr LibCplx LibMat LibNorm LibDeriv LibSeries M_Matrix S_Linear S_Deriv S_Exp P_Linear P_Matrix P_Frechet P_Mexp P_Mexp2 M_OpHeap M_Transfer S_Transfer M_Amplitude S_Amplitude P_Amplitude M_Solver S_Solver P_Solver7 P_Solver8 P_Solver9 P_SolverMC M_Simulator S_Simulator S_Gradient P_Grad S_Cost S_Invariance P_Invariance.
Import ListNotations.
Local Open Scope res_scope.
Set Implicit Arguments.

Section Inv.
Add Field Cfield_inv2 : (c_field RField).
Notation op := (op RField).
Notation st := (@st RField).
Notation mm := (mmul (S:=RS)).
Notation ma := (madd (S:=RS)).
Notation ms := (mscale (S:=RS)).
Hint Resolve wfm_mexp wfm_mpw : wfm.
Variable rexp : R -> R.
Variable la : LinAlg RField.
Variable eps : cplx RField.
Notation evolution := (evolution rexp la eps).
Notation gen n s u t G := (is_generator (F:=RField) n (Dr s t) (c_ctrl (s_conf s)) (fun c => get2 (k0 : RField) u t c) G).

Lemma steps (s : st) n k u ps fs : evolution s n k u ps fs ->
  length ps = length (s_time s) /\ length fs = S (length (s_time s)) /\ nth_error fs 0 = Some (c_init (s_conf s)) /\
  (forall t f, nth_error fs t = Some f -> wfm n k f) /\
  forall t, t < length (s_time s) -> exists tau G (W : wfm n n G) f, nth_error (s_time s) t = Some tau /\ gen n s u t G /\
    nth_error ps t = Some (Some (mexp W tau)) /\ nth_error fs t = Some f /\ nth_error fs (S t) = Some (mm (mexp W tau) f).
Proof.
  intros E. destruct (ev_used E) as (d & s0 & U). pose proof (@used_propagators RField rexp la eps d s0 s n u ps U (ev_schr E) (ev_square E) (ev_amps E) (ev_props E)) as [L P].
  assert (P' : forall t, t < length (s_time s) -> exists tau G (W : wfm n n G), nth_error (s_time s) t = Some tau /\ gen n s u t G /\ nth_error ps t = Some (Some (mexp W tau))).
  { intros t Ht. destruct (P t Ht) as (Q & G & tau & A1 & A2 & A3 & A4). destruct A3 as [WG HG]. pose proof WG as W. apply is_matrix_wfm in W. exists tau, G, W. split; auto. split; [split; auto|].
    pose proof (@ev_exact rexp la eps s n k u ps fs E t tau _ G Q A2 (conj WG HG) A4) as X. rewrite (exponential_mexp (ms_real_wf tau W) X) in A1. now rewrite mexp_time with (W := W) in A1. }
  assert (SQ : all_square (F:=RField) n ps).
  { intros Q HQ. apply In_nth_error in HQ. destruct HQ as [t Ht]. assert (Hl : t < length (s_time s)) by (rewrite <- L; apply nth_error_Some; congruence).
    destruct (P' t Hl) as (tau & G & W & _ & _ & E3). rewrite Ht in E3. injection E3 as ->. apply is_matrix_wfm. apply wfm_mexp. }
  destruct (@used_forward RField rexp la eps d s0 s ps fs n k U (ev_props E) (ev_fwd E) SQ (ev_init E)) as (Lf & F0 & FS).
  assert (N0 : nth_error fs 0 = Some (c_init (s_conf s))).
  { destruct fs as [|f0 fs']; [discriminate|]. specialize (F0 dop). cbn in F0 |- *. now subst. }
  assert (WF : forall t f, nth_error fs t = Some f -> wfm n k f).
  { intros [|t] f Hf; [rewrite N0 in Hf; injection Hf as <-; apply is_matrix_wfm, (ev_init E)|].
    assert (Hl : t < length ps) by (assert (S t < length fs) by (apply nth_error_Some; congruence); lia).
    destruct (FS t Hl) as (Q & f1 & f2 & _ & _ & E3 & [E4 _]). rewrite Hf in E3. injection E3 as ->. now apply is_matrix_wfm. }
  split; auto. split; [lia|]. split; auto. split; auto. intros t Ht. destruct (P' t Ht) as (tau & G & W & E1 & E2 & E3).
  rewrite <- L in Ht. destruct (FS t Ht) as (Q & f1 & f2 & D1 & D2 & D3 & D4). rewrite E3 in D1. injection D1 as <-. exists tau, G, W, f1. split; auto. split; auto. split; auto. split; auto. rewrite D3. f_equal.
  apply (@is_product_eq RS n n k); eauto using wfm_mexp.
Qed.

(** ---- intertwiners ---- *)
Lemma carries_mm m n V H H' : wfm m n V -> wfm n n H -> wfm m m H' -> carries m n V H H' -> mm V H = mm H' V.
Proof. intros WV W W' C. apply (@mat_ext RS m n); [wf_solve|wf_solve|]. intros i j Hi Hj. rewrite (@mg_mmul RS m n n), (@mg_mmul RS m m n) by auto. now apply C. Qed.
Lemma gen_carries m n V (s s' : st) u u' t t' G G' : gen n s u t G -> gen m s' u' t' G' -> length (c_ctrl (s_conf s)) = length (c_ctrl (s_conf s')) ->
  same_row (length (c_ctrl (s_conf s))) u t u' t' -> carries m n V (Dr s t) (Dr s' t') -> (forall c, c < length (c_ctrl (s_conf s)) -> carries m n V (Ct s c) (Ct s' c)) -> carries m n V G G'.
Proof.
  intros [_ HG] [_ HG'] EL SR CD CC i j Hi Hj.
  transitivity (cmul (copp ci) (cadd (sumn (S:=RS) n (fun l => cmul V.[i,l] (Dr s t).[l,j])) (sumn (S:=RS) (length (c_ctrl (s_conf s))) (fun c => cmul (cofk (get2 (k0 : RField) u t c)) (sumn (S:=RS) n (fun l => cmul V.[i,l] (Ct s c).[l,j])))))).
  - transitivity (sumn (S:=RS) n (fun l => cmul (copp ci) (cadd (cmul V.[i,l] (Dr s t).[l,j]) (sumn (S:=RS) (length (c_ctrl (s_conf s))) (fun c => cmul (cofk (get2 (k0 : RField) u t c)) (cmul V.[i,l] (Ct s c).[l,j])))))).
    + apply sumn_ext. intros l Hl. rewrite HG by auto.
      transitivity (cmul (copp ci) (cadd (cmul V.[i,l] (Dr s t).[l,j]) (cmul V.[i,l] (sumn (S:=RS) (length (c_ctrl (s_conf s))) (fun c => cmul (cofk (get2 (k0 : RField) u t c)) (Ct s c).[l,j]))))); [cring|].
      do 2 f_equal. rewrite csumn_mul_l. apply sumn_ext. intros c Hc. cring.
    + rewrite <- csumn_mul_l. f_equal. rewrite <- csumn_add. f_equal. rewrite (@sumn_swap RS). apply sumn_ext. intros c Hc. now rewrite csumn_mul_l.
  - transitivity (cmul (copp ci) (cadd (sumn (S:=RS) m (fun l => cmul (Dr s' t').[i,l] V.[l,j])) (sumn (S:=RS) (length (c_ctrl (s_conf s))) (fun c => cmul (cofk (get2 (k0 : RField) u' t' c)) (sumn (S:=RS) m (fun l => cmul (Ct s' c).[i,l] V.[l,j])))))).
    + do 2 f_equal; [now apply CD|]. apply sumn_ext. intros c Hc. f_equal; [|now apply CC]. f_equal. exact (SR c Hc).
    + transitivity (sumn (S:=RS) m (fun l => cmul (copp ci) (cadd (cmul (Dr s' t').[i,l] V.[l,j]) (sumn (S:=RS) (length (c_ctrl (s_conf s))) (fun c => cmul (cofk (get2 (k0 : RField) u' t' c)) (cmul (Ct s' c).[i,l] V.[l,j])))))).
      * rewrite <- csumn_mul_l. f_equal. rewrite <- csumn_add. f_equal. rewrite (@sumn_swap RS). apply sumn_ext. intros c Hc. now rewrite csumn_mul_l.
      * apply sumn_ext. intros l Hl. rewrite HG' by auto. rewrite <- EL.
        transitivity (cmul (copp ci) (cadd (cmul (Dr s' t').[i,l] V.[l,j]) (cmul (sumn (S:=RS) (length (c_ctrl (s_conf s))) (fun c => cmul (cofk (get2 (k0 : RField) u' t' c)) (Ct s' c).[i,l])) V.[l,j]))); [|cring].
        do 2 f_equal. rewrite csumn_mul_r. apply sumn_ext. intros c Hc. cring.
Qed.
Lemma carried m n k V (s s' : st) u u' ps ps' fs fs' : evolution s n k u ps fs -> evolution s' m k u' ps' fs' -> is_matrix (S:=RS) m n V ->
  s_time s = s_time s' -> length (c_ctrl (s_conf s)) = length (c_ctrl (s_conf s')) -> (forall t, t < length (s_time s) -> same_row (length (c_ctrl (s_conf s))) u t u' t) ->
  (forall t, t < length (s_time s) -> carries m n V (Dr s t) (Dr s' t)) -> (forall c, c < length (c_ctrl (s_conf s)) -> carries m n V (Ct s c) (Ct s' c)) ->
  is_product (S:=RS) m n k V (c_init (s_conf s)) (c_init (s_conf s')) ->
  forall t f f', nth_error fs t = Some f -> nth_error fs' t = Some f' -> is_product (S:=RS) m n k V f f'.
Proof.
  intros E E' WV ET EL ER ED EC EI. destruct (steps E) as (_ & Lf & N0 & WF & ST). destruct (steps E') as (_ & Lf' & N0' & WF' & ST'). apply is_matrix_wfm in WV.
  intros t. induction t as [|t IH]; intros f f' Hf Hf'.
  - rewrite N0 in Hf. rewrite N0' in Hf'. injection Hf as <-. injection Hf' as <-. exact EI.
  - assert (Ht : t < length (s_time s)) by (assert (S t < length fs) by (apply nth_error_Some; congruence); lia).
    destruct (ST t Ht) as (tau & G & W & g & A1 & A2 & _ & A4 & A5). rewrite ET in Ht. destruct (ST' t Ht) as (tau' & G' & W' & g' & B1 & B2 & _ & B4 & B5). rewrite <- ET in Ht, B1.
    rewrite A1 in B1. injection B1 as <-. rewrite A5 in Hf. injection Hf as <-. rewrite B5 in Hf'. injection Hf' as <-.
    pose proof (is_product_eq WV (WF _ _ A4) (IH _ _ A4 B4)) as EG. assert (C : mm V G = mm G' V) by (apply (@carries_mm m n); auto; eapply gen_carries; eauto).
    assert (Wg := WF _ _ A4). assert (W1 := wfm_mexp W tau). assert (W2 := wfm_mexp W' tau). subst g'.
    rewrite (@mmul_assoc RS m m n k) by wf_solve. rewrite <- (@mexp_carry m n V G G' W W' tau WV C). rewrite <- (@mmul_assoc RS m n n k) by wf_solve. apply is_product_mmul; wf_solve.
Qed.
End Inv.
