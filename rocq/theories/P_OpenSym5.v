(** Proofs for C83, part 5: systems without dissipation; linearity in the initial state. *)
Require Import List Arith Lia Bool Reals Lra.
From Verif Require Import LibBase LibRing LibArr LibCplx LibMat LibNorm LibDeriv LibSeries M_Matrix S_Linear S_Deriv S_Exp P_Linear P_Matrix P_Frechet P_Mexp P_Mexp2 M_OpHeap M_Transfer S_Transfer M_Amplitude S_Amplitude P_Amplitude M_Solver S_Solver P_Solver7 S_Lindblad S_Channel P_Lindblad P_Channel P_Channel2 S_Invariance P_Invariance P_Invariance2 P_SolverMC S_OpenSym P_OpenSym P_OpenSym2 P_OpenSym3.
Import ListNotations.
Local Open Scope res_scope.
Set Implicit Arguments.

Section Closed.
Add Field Cfield_os5 : (c_field RField).
Notation op := (mat RS).
Notation st := (@st RField).
Notation S := RS.
Notation mm := (mmul (S:=RS)).
Notation ma := (madd (S:=RS)).
Notation ms := (mscale (S:=RS)).
Notation md := (mdag (S:=RS)).
Notation app := (apply_super (F:=RField)).
Notation dop := (Arr [] [] : mat RS).
Notation wf n A := (wfm (S:=RS) n n A).
Hint Resolve wfm_mexp wfm_mpw wf_asm : wfm.
Notation ham s u t := (hamiltonian (F:=RField) (Dr s t) (c_ctrl (s_conf s)) (fun c => get2 (k0 : RField) u t c)).

Definition both (E : op) : op := mkron (S:=RS) (mconj (S:=RS) E) E.
Lemma wf_both n E : wf n E -> wf (n * n) (both E).
Proof. intros W. unfold both. apply (@wfm_mkron S n n n n); auto. apply (@wfm_mconj S n n); auto. Qed.
Lemma mg_both n E i j a b : wf n E -> i < n -> j < n -> a < n -> b < n -> mg (both E) (j * n + i) (b * n + a) = cmul (cconj (mg E j b)) (mg E i a).
Proof. intros W Hi Hj Ha Hb. unfold both. rewrite (@mg_mkron' S n n n n) by (auto; apply (@wfm_mconj S n n); auto). rewrite (@mg_mconj S n n) by auto. reflexivity. Qed.
Lemma app_both n E rho i j : wf n E -> i < n -> j < n -> app n (both E) rho i j = turned n E rho i j.
Proof.
  intros W Hi Hj. unfold apply_super, turned. apply (@Sg_ext RField). intros b Hb. apply (@Sg_ext RField). intros a Ha. now rewrite mg_both.
Qed.
(** exp(t G) rho = exp(t X) rho exp(t X)^+ for G rho = X rho + rho X^+ *)
Lemma both_exp n h (G X : op) (W : wf (n * n) G) (WX : wf n X) t : acts_as (F:=RField) n G (commutation (F:=RField) n h) -> (forall i j, i < n -> j < n -> mg X i j = cmul (copp ci) (h i j)) ->
  hermitian_fun (F:=RField) n h -> mexp W t = both (mexp WX t).
Proof.
  intros [_ HG] HX HH. symmetry. apply (@solves_unique (n * n) G W (fun t => both (mexp WX t)) t). split; [|split].
  - intros s. apply wf_both, wfm_mexp.
  - rewrite mexp_0. unfold both. rewrite mconj_mid. apply mkron_mid.
  - intros s p q Hp Hq. destruct (@split_index n p Hp) as (j & i & Hj & Hi & ->). destruct (@split_index n q Hq) as (b & a & Hb & Ha & ->).
    assert (WE := wfm_mexp WX s). assert (WB := wf_both WE).
    apply (@cderiv_ext (fun r => cmul (cconj (mg (mexp WX r) j b)) (mg (mexp WX r) i a))).
    { intros r. symmetry. apply mg_both; auto using wfm_mexp. }
    eapply cderiv_eq; [|apply cderiv_mul; [apply cderiv_conj; apply (@mexp_deriv n X WX s j b Hj Hb)|apply (@mexp_deriv n X WX s i a Hi Ha)]].
    rewrite <- (@app_unit n (mm G (both (mexp WX s))) a b i j) by auto. rewrite (@app_mmul n) by auto. rewrite HG by auto. set (E := mexp WX s) in *. unfold commutation.
    rewrite (@Sg_ext RField n (fun c => cmul (h i c) (app n (both E) (unit_at a b) c j)) (fun c => cmul (cmul (h i c) (mg E c a)) (cconj (mg E j b)))).
    2:{ intros c Hc. rewrite app_unit, mg_both by auto. cring. }
    rewrite (@Sg_ext RField n (fun d => cmul (app n (both E) (unit_at a b) i d) (h d j)) (fun d => cmul (mg E i a) (cmul (cconj (mg E d b)) (h d j)))).
    2:{ intros d Hd. rewrite app_unit, mg_both by auto. cring. }
    rewrite <- csumn_mul_l, <- csumn_mul_r. rewrite !(@mg_mmul S n n n) by auto.
    assert (K1 : sumn (S:=S) n (fun l => smul (mg X i l) (mg E l a)) = cmul (copp ci) (Sg n (fun c => cmul (h i c) (mg E c a)))).
    { rewrite csumn_mul_l. apply (@Sg_ext RField). intros c Hc. tocplx. rewrite HX by auto. cring. }
    assert (K2 : cconj (sumn (S:=S) n (fun l => smul (mg X j l) (mg E l b))) = cmul ci (Sg n (fun d => cmul (cconj (mg E d b)) (h d j)))).
    { rewrite csumn_conj, csumn_mul_l. apply (@Sg_ext RField). intros d Hd. tocplx. rewrite HX by auto. rewrite !cconj_mul. rewrite (HH j d Hj Hd).
      assert (I : cconj (copp ci) = ci :> RC) by (unfold cconj, copp, ci; cbn; f_equal; ring). rewrite I. cring. }
    rewrite K1, K2. cring.
Qed.
Lemma mixture_mat n k (R f : op) i j : wfm (S:=RS) n k f -> i < n -> j < n -> mixture k R f i j = mg (mm (mm f (asm k (fun a b => mg R a b))) (md f)) i j.
Proof.
  intros Wf Hi Hj. assert (WR := wf_asm k (fun a b => mg R a b)). rewrite (@mg_mmul S n k n) by wf_solve. unfold mixture. apply (@Sg_ext RField). intros b Hb.
  rewrite (@mg_mmul S n k k) by auto. rewrite (@mg_mdag S n k) by auto. tocplx. rewrite csumn_mul_r. apply (@Sg_ext RField). intros a Ha. rewrite mg_asm by auto. cbn [sconj S RS CStar]. cring.
Qed.
Lemma turned_mixture n k (E R f : op) i j : wf n E -> wfm (S:=RS) n k f -> i < n -> j < n -> turned n E (mixture k R f) i j = mixture k R (mm E f) i j.
Proof.
  intros WE Wf Hi Hj. assert (WEf := wfm_mmul WE Wf). rewrite (@mixture_mat n k R (mm E f)) by auto. assert (WR := wf_asm k (fun a b => mg R a b)).
  transitivity (mg (mm (mm E (asm n (mixture k R f))) (md E)) i j).
  - assert (WM := wf_asm n (mixture k R f)). rewrite (@mg_mmul S n n n) by wf_solve. unfold turned. apply (@Sg_ext RField). intros b Hb.
    rewrite (@mg_mmul S n n n) by auto. rewrite (@mg_mdag S n n) by auto. tocplx. rewrite csumn_mul_r. apply (@Sg_ext RField). intros a Ha. rewrite mg_asm by auto. cbn [sconj S RS CStar]. cring.
  - assert (EM : asm n (mixture k R f) = mm (mm f (asm k (fun a b => mg R a b))) (md f)).
    { apply (@mat_ext S n n); [apply wf_asm|wf_solve|]. intros a b Ha Hb. rewrite mg_asm by auto. now apply (@mixture_mat n k). }
    rewrite EM. rewrite (@mdag_mmul S n n k E f) by auto. f_equal.
    rewrite (@mmul_assoc S n n k n E (mm f (asm k (fun a b => mg R a b))) (md f)) by wf_solve. rewrite (@mmul_assoc S n n k k E f) by wf_solve.
    rewrite <- (@mmul_assoc S n k n n) by wf_solve. reflexivity.
Qed.

Variables rexp rexp' : R -> R.
Variables la la' : LinAlg RField.
Variables eps eps' : cplx RField.
Notation evo := (open_evolution rexp la eps).

Lemma open_closed (s s' : st) n k k' Ls u u' w ps ps' fs fs' (R : op) x : evo s n k Ls u w ps fs -> evolution rexp' la' eps' s' n k' u' ps' fs' -> x < k ->
  s_time s = s_time s' -> c_ctrl (s_conf s) = c_ctrl (s_conf s') -> (forall t, t < length (s_time s) -> same_row (length (c_ctrl (s_conf s))) u t u' t /\ Dr s t = Dr s' t /\ is_hermitian (S:=RS) n (Dr s t)) ->
  (forall t i, t < length (s_time s) -> i < length Ls -> w t i = 0%R) ->
  (forall i j, i < n -> j < n -> column n (c_init (s_conf s)) x i j = mixture k' R (c_init (s_conf s')) i j) ->
  forall t f f' i j, nth_error fs t = Some f -> nth_error fs' t = Some f' -> i < n -> j < n -> column n f x i j = mixture k' R f' i j.
Proof.
  intros E E' Hx ET EC EH EW EI. destruct (osteps E) as (_ & Lf & N0 & WF & ST). destruct (steps E') as (_ & Lf' & N0' & WF' & ST').
  intros t. induction t as [|t IH]; intros f f' i j Hf Hf' Hi Hj.
  - rewrite N0 in Hf. rewrite N0' in Hf'. injection Hf as <-. injection Hf' as <-. now apply EI.
  - assert (Ht : t < length (s_time s)) by (assert (Datatypes.S t < length fs) by (apply nth_error_Some; congruence); lia).
    destruct (ST t Ht) as (tau & G & W & g & A1 & A2 & _ & A4 & A5). rewrite ET in Ht. destruct (ST' t Ht) as (tau' & X & WX & g' & B1 & [_ B2] & _ & B4 & B5). rewrite <- ET in Ht, B1.
    rewrite A1 in B1. injection B1 as <-. rewrite A5 in Hf. injection Hf as <-. rewrite B5 in Hf'. injection Hf' as <-. destruct (EH t Ht) as (H1 & H2 & H3).
    assert (HG : acts_as (F:=RField) n G (commutation (F:=RField) n (ham s u t))).
    { eapply acts_as_ext; [|exact A2]. intros rho a b Ha Hb. unfold motion, master. rewrite (@Sg_0 RField (length Ls)); [cring|]. intros q Hq. rewrite (EW t q Ht Hq). generalize (dissipation (F:=RField) n (Lk Ls q) rho a b). intros [y z]. unfold cmul, cofk, c0. cbn. f_equal; ring. }
    assert (HX : forall a b, a < n -> b < n -> mg X a b = cmul (copp ci) (ham s u t a b)).
    { intros a b Ha Hb. rewrite B2 by auto. f_equal. unfold hamiltonian. rewrite <- EC, <- H2. f_equal. apply (@Sg_ext RField). intros c Hc. do 2 f_equal. symmetry. exact (H1 c Hc). }
    assert (HH : hermitian_fun (F:=RField) n (ham s u t)) by (apply hamiltonian_herm; [exact H3|exact (oe_ctrl E)]).
    assert (Wg := WF _ _ A4). assert (Wg' := WF' _ _ B4). assert (W1 := wfm_mexp W tau). assert (W2 := wfm_mexp WX tau).
    rewrite (@column_mm n k (mexp W tau) g x i j) by auto. rewrite (@both_exp n (ham s u t) G X W WX tau HG HX HH). rewrite app_both by auto. rewrite <- (@turned_mixture n k' (mexp WX tau) R g') by auto.
    unfold turned. apply (@Sg_ext RField). intros b Hb. apply (@Sg_ext RField). intros a Ha. f_equal. now apply (IH g g' a b A4 B4).
Qed.
(** linearity: the columns combine *)
Lemma open_initials (s s' : st) n k k' Ls u u' w ps ps' fs fs' (A : op) : evo s n k Ls u w ps fs -> evo s' n k' Ls u' w ps' fs' ->
  s_time s = s_time s' -> c_ctrl (s_conf s) = c_ctrl (s_conf s') -> (forall t, t < length (s_time s) -> same_row (length (c_ctrl (s_conf s))) u t u' t /\ Dr s t = Dr s' t) ->
  is_matrix (S:=RS) k k' A -> is_product (S:=RS) (n * n) k k' (c_init (s_conf s)) A (c_init (s_conf s')) ->
  forall t f f', nth_error fs t = Some f -> nth_error fs' t = Some f' -> is_product (S:=RS) (n * n) k k' f A f'.
Proof.
  intros E E' ET EC EH WA EI. apply is_matrix_wfm in WA. destruct (osteps E) as (_ & Lf & N0 & WF & ST). destruct (osteps E') as (_ & Lf' & N0' & WF' & ST').
  intros t. induction t as [|t IH]; intros f f' Hf Hf'.
  - rewrite N0 in Hf. rewrite N0' in Hf'. injection Hf as <-. injection Hf' as <-. exact EI.
  - assert (Ht : t < length (s_time s)) by (assert (Datatypes.S t < length fs) by (apply nth_error_Some; congruence); lia).
    destruct (ST t Ht) as (tau & G & W & g & A1 & A2 & _ & A4 & A5). rewrite ET in Ht. destruct (ST' t Ht) as (tau' & G' & W' & g' & B1 & B2 & _ & B4 & B5). rewrite <- ET in Ht, B1.
    rewrite A1 in B1. injection B1 as <-. rewrite A5 in Hf. injection Hf as <-. rewrite B5 in Hf'. injection Hf' as <-. destruct (EH t Ht) as [H1 H2].
    assert (EG : G' = G).
    { apply (@acts_unique n G' G _ _ B2 A2). intros rho a b Ha Hb'. unfold motion, master. f_equal.
      apply comm_ext; auto. intros c d Hc Hd. unfold hamiltonian. rewrite <- EC, <- H2. f_equal. apply (@Sg_ext RField). intros e He. do 2 f_equal. symmetry. exact (H1 e He). }
    subst G'. assert (Wg := WF _ _ A4). assert (Eg := is_product_eq Wg WA (IH g g' A4 B4)). subst g'. rewrite (mexp_ext W' W tau eq_refl). assert (W1 := wfm_mexp W tau).
    rewrite (@mmul_assoc RS (n * n) (n * n) k k') by wf_solve. apply is_product_mmul; wf_solve.
Qed.
End Closed.
