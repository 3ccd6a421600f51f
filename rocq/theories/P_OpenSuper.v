(** Proofs for C83 where the dissipation is given as super operators or by a function. *)
Require Import List Arith Lia Bool Reals Lra.
From Verif Require Import LibBase LibRing LibArr LibCplx LibMat LibNorm LibDeriv LibSeries M_Matrix S_Linear S_Deriv S_Exp P_Linear P_Matrix P_Frechet P_Mexp P_Mexp2 M_OpHeap M_Transfer S_Transfer M_Amplitude S_Amplitude P_Amplitude M_Solver S_Solver P_Solver7 S_Lindblad S_Channel P_Lindblad P_LindbladDer P_Channel P_Channel2 S_Invariance P_Invariance P_Invariance2 P_SolverMC S_OpenSym P_OpenSym P_OpenSym2 P_OpenSym3 P_OpenSym4 S_OpenSuper.
Import ListNotations.
Local Open Scope res_scope.
Set Implicit Arguments.

Section Super.
Add Field Cfield_osu : (c_field RField).
Notation op := (mat RS).
Notation st := (@st RField).
Notation S := RS.
Notation mm := (mmul (S:=RS)).
Notation app := (apply_super (F:=RField)).
Notation dop := (Arr [] [] : mat RS).
Notation wf n A := (wfm (S:=RS) n n A).
Hint Resolve wfm_mexp wfm_mpw : wfm.
Variable rexp : R -> R.
Variable la : LinAlg RField.
Variable eps : cplx RField.
Notation evo := (open_evolution rexp la eps).
Notation sevo := (super_evolution rexp la eps).
Notation ham s u t := (hamiltonian (F:=RField) (Dr s t) (c_ctrl (s_conf s)) (fun c => get2 (k0 : RField) u t c)).
(** the time steps of an evolution whose states move by Mo *)
Definition moves (s : st) (n k : nat) (Mo : damping) (ps : list (option (M_Matrix.op RField))) (fs : list (M_Matrix.op RField)) : Prop :=
  length ps = length (s_time s) /\ length fs = Datatypes.S (length (s_time s)) /\ nth_error fs 0 = Some (c_init (s_conf s)) /\
  (forall t f, nth_error fs t = Some f -> wfm (S:=RS) (n * n) k f) /\
  forall t, t < length (s_time s) -> exists tau G (W : wfm (S:=RS) (n * n) (n * n) G) f, nth_error (s_time s) t = Some tau /\ acts_as (F:=RField) n G (Mo t) /\
    nth_error ps t = Some (Some (mexp W tau)) /\ nth_error fs t = Some f /\ nth_error fs (Datatypes.S t) = Some (mm (mexp W tau) f).
Lemma open_moves (s : st) n k Ls u w ps fs : evo s n k Ls u w ps fs -> moves s n k (motion n s Ls u w) ps fs.
Proof. exact (@osteps rexp la eps s n k Ls u w ps fs). Qed.
Lemma super_propagates (s : st) n k u Di ps fs : sevo s n k u Di ps fs -> propagates (F:=RField) la s (fun t G => acts_as (F:=RField) n G (damped_motion n s u Di t)) ps.
Proof.
  intros E. destruct (se_used E) as (d & s0 & U & [(l & Ds & w & C1 & C2 & C3 & C4 & C5 & C6 & C7)|(l & f & Ds & C1 & C2 & C3 & C4 & C5)]).
  - destruct (@used_lindblad_super RField rexp la eps d s0 s n l Ds u w ps U C1 C2 C3 C4 C5 (se_drift E) (se_ctrl E) (se_amps E) C6 (se_props E)) as [L P]. split; [exact L|].
    intros t Ht. destruct (P t Ht) as (Q & G & tau & A1 & A2 & A3 & A4). exists Q, G, tau. split; auto. split; auto. split; auto. eapply acts_as_ext; [|exact A3]. intros rho i j Hi Hj. unfold damped_motion, master_super. f_equal. symmetry. now apply C7.
  - destruct (@used_lindblad_fun RField rexp la eps d s0 s n l f Ds u ps U C1 C2 (se_drift E) (se_ctrl E) (se_amps E) C3 C4 (se_props E)) as [L P]. split; [exact L|].
    intros t Ht. destruct (P t Ht) as (Q & G & tau & A1 & A2 & A3 & A4). exists Q, G, tau. split; auto. split; auto. split; auto. eapply acts_as_ext; [|exact A3]. intros rho i j Hi Hj. unfold damped_motion. f_equal. symmetry. now apply C5.
Qed.
Lemma super_moves (s : st) n k u Di ps fs : sevo s n k u Di ps fs -> moves s n k (damped_motion n s u Di) ps fs.
Proof.
  intros E. destruct (se_used E) as (d & s0 & U & _). destruct (super_propagates E) as [L P].
  assert (P' : forall t, t < length (s_time s) -> exists tau G (W : wfm (S:=RS) (n * n) (n * n) G), nth_error (s_time s) t = Some tau /\ acts_as (F:=RField) n G (damped_motion n s u Di t) /\ nth_error ps t = Some (Some (mexp W tau))).
  { intros t Ht. destruct (P t Ht) as (Q & G & tau & A1 & A2 & A3 & A4). pose proof A3 as [WG HG]. pose proof WG as W. apply is_matrix_wfm in W. exists tau, G, W. split; auto. split; [exact A3|].
    pose proof (se_exact E tau WG A4) as X. rewrite (exponential_mexp (ms_real_wf tau W) X) in A1. now rewrite mexp_time with (W := W) in A1. }
  assert (SQ : all_square (F:=RField) (n * n) ps).
  { intros Q HQ. apply In_nth_error in HQ. destruct HQ as [t Ht]. assert (Hl : t < length (s_time s)) by (rewrite <- L; apply nth_error_Some; congruence).
    destruct (P' t Hl) as (tau & G & W & _ & _ & E3). rewrite Ht in E3. injection E3 as ->. apply is_matrix_wfm. apply wfm_mexp. }
  destruct (@used_forward RField rexp la eps d s0 s ps fs (n * n) k U (se_props E) (se_fwd E) SQ (se_init E)) as (Lf & F0 & FS).
  assert (N0 : nth_error fs 0 = Some (c_init (s_conf s))).
  { destruct fs as [|f0 fs']; [discriminate|]. specialize (F0 dop). cbn in F0 |- *. now subst. }
  assert (WF : forall t f, nth_error fs t = Some f -> wfm (S:=RS) (n * n) k f).
  { intros [|t] f Hf; [rewrite N0 in Hf; injection Hf as <-; apply is_matrix_wfm, (se_init E)|].
    assert (Hl : t < length ps) by (assert (Datatypes.S t < length fs) by (apply nth_error_Some; congruence); lia).
    destruct (FS t Hl) as (Q & f1 & f2 & _ & _ & E3 & [E4 _]). rewrite Hf in E3. injection E3 as ->. now apply is_matrix_wfm. }
  split; auto. split; [exact (eq_trans Lf (f_equal Datatypes.S L))|]. split; auto. split; auto. intros t Ht. destruct (P' t Ht) as (tau & G & W & E1 & E2 & E3).
  rewrite <- L in Ht. destruct (FS t Ht) as (Q & f1 & f2 & D1 & D2 & D3 & D4). rewrite E3 in D1. injection D1 as <-. exists tau, G, W, f1. split; auto. split; auto. split; auto. split; auto. refine (eq_trans D3 _). f_equal.
  apply (@is_product_eq RS (n * n) (n * n) k); eauto using wfm_mexp.
Qed.

(** ---- the same motion ---- *)
Lemma moves_same (s s' : st) n k Mo Mo' ps ps' fs fs' : moves s n k Mo ps fs -> moves s' n k Mo' ps' fs' -> s_time s = s_time s' -> c_init (s_conf s) = c_init (s_conf s') ->
  (forall t rho i j, t < length (s_time s) -> i < n -> j < n -> Mo t rho i j = Mo' t rho i j) -> ps' = ps /\ fs' = fs.
Proof.
  intros (Lp & Lf & N0 & WF & ST) (Lp' & Lf' & N0' & WF' & ST') ET EI EM.
  assert (X : forall t, t < length (s_time s) -> nth_error ps' t = nth_error ps t).
  { intros t Ht. destruct (ST t Ht) as (tau & G & W & f & A1 & A2 & A3 & _). rewrite ET in Ht. destruct (ST' t Ht) as (tau' & G' & W' & f' & B1 & B2 & B3 & _). rewrite <- ET in Ht, B1. rewrite A1 in B1. injection B1 as <-.
    rewrite A3, B3. do 2 f_equal. apply mexp_ext. symmetry. apply (@acts_unique n G G' _ _ A2 B2). intros rho i j Hi Hj. now apply EM. }
  assert (EP : ps' = ps).
  { apply (nth_ext ps' ps None None); [congruence|]. intros t Ht. rewrite Lp', <- ET in Ht. specialize (X t Ht).
    rewrite (nth_error_nth' ps' None) in X by (rewrite Lp', <- ET; auto). rewrite (nth_error_nth' ps None) in X by (rewrite Lp; auto). now injection X. }
  split; auto. subst ps'.
  assert (Y : forall t, t <= length (s_time s) -> nth_error fs' t = nth_error fs t).
  { induction t as [|t IH]; intros Ht; [congruence|]. destruct (ST t Ht) as (tau & G & W & f & A1 & A2 & A3 & A4 & A5). pose proof Ht as Ht'. rewrite ET in Ht'. destruct (ST' t Ht') as (tau' & G' & W' & f' & B1 & B2 & B3 & B4 & B5).
    rewrite A5, B5. rewrite A3 in B3. assert (EQ : mexp W' tau' = mexp W tau) by congruence. rewrite EQ. rewrite IH in B4 by lia. rewrite A4 in B4. now injection B4 as <-. }
  apply (nth_ext fs' fs dop dop); [congruence|]. intros t Ht. rewrite Lf', <- ET in Ht. specialize (Y t ltac:(lia)).
  rewrite (nth_error_nth' fs' dop) in Y by (rewrite Lf', <- ET; auto). rewrite (nth_error_nth' fs dop) in Y by (rewrite Lf; auto). now injection Y.
Qed.
Lemma ham_eq (s s' : st) u u' t i j : c_ctrl (s_conf s) = c_ctrl (s_conf s') -> same_row (length (c_ctrl (s_conf s))) u t u' t -> Dr s t = Dr s' t -> ham s u t i j = ham s' u' t i j.
Proof.
  intros EC SR ED. unfold hamiltonian. rewrite ED, <- EC. f_equal. apply (@Sg_ext RField). intros c Hc. f_equal. f_equal. exact (SR c Hc).
Qed.
Lemma super_operators (s s' : st) n k Ls u u' w Di ps ps' fs fs' : evo s n k Ls u w ps fs -> sevo s' n k u' Di ps' fs' -> same_setting s s' u u' ->
  (forall t, t < length (s_time s) -> Dr s t = Dr s' t) ->
  (forall t rho i j, t < length (s_time s) -> i < n -> j < n -> Di t rho i j = Sg (length Ls) (fun q => cmul (cofk (w t q : RField)) (dissipation (F:=RField) n (Lk Ls q) rho i j))) -> ps' = ps /\ fs' = fs.
Proof.
  intros E E' SS ED EI. apply (moves_same (open_moves E) (super_moves E') (sa_time SS) (sa_init SS)). intros t rho i j Ht Hi Hj. unfold motion, master, damped_motion. rewrite EI by auto. f_equal.
  apply comm_ext; auto. intros a b Ha Hb. apply ham_eq; [exact (sa_ctrl SS)|exact (sa_amps SS Ht)|exact (ED t Ht)].
Qed.
Lemma super_equal (s s' : st) n k u u' Di Di' (e : nat -> R) ps ps' fs fs' : sevo s n k u Di ps fs -> sevo s' n k u' Di' ps' fs' -> same_setting s s' u u' ->
  (forall t, t < length (s_time s) -> shifted n (e t) (Dr s t) (Dr s' t)) ->
  (forall t rho i j, t < length (s_time s) -> i < n -> j < n -> Di t rho i j = Di' t rho i j) -> ps' = ps /\ fs' = fs.
Proof.
  intros E E' SS ED EI. apply (moves_same (super_moves E) (super_moves E') (sa_time SS) (sa_init SS)). intros t rho i j Ht Hi Hj. unfold damped_motion. rewrite EI by auto. f_equal.
  symmetry. rewrite <- (@comm_shift n (ham s u t) (cofk (e t : RField)) rho i j Hi Hj). apply comm_ext; auto. intros a b Ha Hb.
  rewrite (@ham_same s s' u u' t a b (sa_ctrl SS) (sa_amps SS Ht)). rewrite (ED t Ht) by auto. unfold hamiltonian. apply cadd_swap.
Qed.
(** ---- states the motion does not change ---- *)
Lemma moves_stationary (s : st) n k Mo ps fs x : moves s n k Mo ps fs -> x < k ->
  (forall t i j, t < length (s_time s) -> i < n -> j < n -> Mo t (column n (c_init (s_conf s)) x) i j = c0) ->
  forall t f i j, nth_error fs t = Some f -> i < n -> j < n -> column n f x i j = column n (c_init (s_conf s)) x i j.
Proof.
  intros (Lp & Lf & N0 & WF & ST) Hx H. set (v := (mk2 (n * n) 1 (fun p _ => mg (c_init (s_conf s)) p x) : op)).
  assert (Wv : wfm (S:=RS) (n * n) 1 v) by apply wfm_mk2.
  intros t. induction t as [|t IH]; intros f i j Hf Hi Hj; [rewrite N0 in Hf; now injection Hf as <-|].
  assert (Ht : t < length (s_time s)) by (assert (Datatypes.S t < length fs) by (apply nth_error_Some; congruence); lia).
  destruct (ST t Ht) as (tau & G & W & g & A1 & [_ A2] & A3 & A4 & A5). rewrite A5 in Hf. injection Hf as <-.
  rewrite (@column_mm n k (mexp W tau) g x i j) by (auto using wfm_mexp; eauto).
  rewrite (@app_ext n (mexp W tau) (column n g x) (column n v 0)).
  2:{ intros a b Ha Hb. rewrite (IH g a b A4 Ha Hb). unfold v. rewrite mg_mk2 by (auto; now apply join_lt). reflexivity. }
  rewrite <- (@column_mm n 1 (mexp W tau) v 0 i j) by auto using wfm_mexp.
  rewrite (@mexp_zero (n * n) 1 G v W tau Wv).
  - unfold v. rewrite mg_mk2 by (auto; now apply join_lt). reflexivity.
  - apply (@mat_ext RS (n * n) 1); [wf_solve|wf_solve|]. intros p q Hp Hq. destruct (@split_index n p Hp) as (b & a & Hb & Ha & ->). assert (q = 0) by lia. subst q.
    rewrite (@mg_mzero RS) by auto. rewrite (@column_mm n 1 G v 0 a b) by auto. rewrite A2 by auto.
    transitivity (Mo t (column n (c_init (s_conf s)) x) a b); [|exact (H t a b Ht Ha Hb)]. rewrite <- !A2 by auto. apply app_ext. intros a' b' Ha' Hb'. unfold v. rewrite mg_mk2 by (auto; now apply join_lt). reflexivity.
Qed.
Lemma super_stationary (s : st) n k u Di ps fs x : sevo s n k u Di ps fs -> x < k ->
  (forall t i j, t < length (s_time s) -> i < n -> j < n -> damped_motion n s u Di t (column n (c_init (s_conf s)) x) i j = c0) ->
  forall t f i j, nth_error fs t = Some f -> i < n -> j < n -> column n f x i j = column n (c_init (s_conf s)) x i j.
Proof. intros E. exact (@moves_stationary s n k (damped_motion n s u Di) ps fs x (super_moves E)). Qed.
(** ---- conserved quantities ---- *)
Lemma super_conserved (s : st) n k u Di ps fs (Q : op) x : sevo s n k u Di ps fs -> is_hermitian (S:=RS) n Q -> x < k ->
  (forall t, t < length (s_time s) -> carries n n Q (Dr s t) (Dr s t)) -> (forall c, c < length (c_ctrl (s_conf s)) -> carries n n Q (Ct s c) (Ct s c)) ->
  (forall t rho, t < length (s_time s) -> mean n Q (Di t rho) = c0) ->
  forall t f, nth_error fs t = Some f -> mean n Q (column n f x) = mean n Q (column n (c_init (s_conf s)) x).
Proof.
  intros E HQ Hx ED EC EL. destruct (super_moves E) as (_ & Lf & N0 & WF & ST).
  intros t. induction t as [|t IH]; intros f Hf; [rewrite N0 in Hf; now injection Hf as <-|].
  assert (Ht : t < length (s_time s)) by (assert (Datatypes.S t < length fs) by (apply nth_error_Some; congruence); lia).
  destruct (ST t Ht) as (tau & G & W & g & A1 & [_ A2] & _ & A4 & A5). rewrite A5 in Hf. injection Hf as <-. rewrite <- (IH g A4).
  rewrite (@mean_ext n Q _ (app n (mexp W tau) (column n g x))).
  2:{ intros a b Ha Hb. apply (@column_mm n k (mexp W tau) g x a b); eauto using wfm_mexp. }
  apply mean_exp. intros rho. rewrite (@mean_ext n Q _ (damped_motion n s u Di t rho)) by (intros; now apply A2).
  transitivity (cadd (mean n Q (commutation (F:=RField) n (ham s u t) rho)) (mean n Q (Di t rho))); [exact (mean_add n Q (commutation (F:=RField) n (ham s u t) rho) (Di t rho))|].
  rewrite EL by auto. assert (CH : carries n n Q (asm n (ham s u t)) (asm n (ham s u t))) by (apply carries_ham; auto; intros c Hc; reflexivity).
  assert (FN : Forall (is_matrix (S:=RS) n n : op -> Prop) []) by constructor.
  assert (CN : forall q, q < length (@nil op) -> carries n n Q (Lk (@nil op) q) (Lk (@nil op) q)) by (intros q Hq; exfalso; cbn in Hq; lia).
  pose proof (@mean_master n Q (ham s u t) [] (fun _ => 0%R) rho HQ CH FN CN) as M.
  assert (X : mean n Q (commutation (F:=RField) n (ham s u t) rho) = c0).
  { rewrite <- M. apply mean_ext. intros a b Ha Hb. unfold master. cbn [length sumn]. tocplx. cring. }
  rewrite X. cring.
Qed.
(** ---- another basis ---- *)
Lemma super_basis (s s' : st) n k u u' Di Di' ps ps' fs fs' (V : op) x : sevo s n k u Di ps fs -> sevo s' n k u' Di' ps' fs' -> is_unitary (S:=RS) n V -> x < k ->
  s_time s = s_time s' -> length (c_ctrl (s_conf s)) = length (c_ctrl (s_conf s')) -> (forall t, t < length (s_time s) -> same_row (length (c_ctrl (s_conf s))) u t u' t) ->
  (forall t, t < length (s_time s) -> carries n n V (Dr s t) (Dr s' t)) -> (forall c, c < length (c_ctrl (s_conf s)) -> carries n n V (Ct s c) (Ct s' c)) ->
  (forall t rho i j, t < length (s_time s) -> i < n -> j < n -> Di' t (turned n V rho) i j = turned n V (Di t rho) i j) ->
  (forall i j, i < n -> j < n -> column n (c_init (s_conf s')) x i j = turned n V (column n (c_init (s_conf s)) x) i j) ->
  forall t f f' i j, nth_error fs t = Some f -> nth_error fs' t = Some f' -> i < n -> j < n -> column n f' x i j = turned n V (column n f x) i j.
Proof.
  intros E E' UV Hx ET EC ER ED ECt EL EI. apply is_unitary_m in UV. destruct (super_moves E) as (_ & Lf & N0 & WF & ST). destruct (super_moves E') as (_ & Lf' & N0' & WF' & ST').
  intros t. induction t as [|t IH]; intros f f' i j Hf Hf' Hi Hj.
  - rewrite N0 in Hf. rewrite N0' in Hf'. injection Hf as <-. injection Hf' as <-. now apply EI.
  - assert (Ht : t < length (s_time s)) by (assert (Datatypes.S t < length fs) by (apply nth_error_Some; congruence); lia).
    destruct (ST t Ht) as (tau & G & W & g & A1 & [_ A2] & _ & A4 & A5). rewrite ET in Ht. destruct (ST' t Ht) as (tau' & G' & W' & g' & B1 & [_ B2] & _ & B4 & B5). rewrite <- ET in Ht, B1.
    rewrite A1 in B1. injection B1 as <-. rewrite A5 in Hf. injection Hf as <-. rewrite B5 in Hf'. injection Hf' as <-.
    assert (WT := wf_tsup UV). assert (W1 := wfm_mexp W tau). assert (W2 := wfm_mexp W' tau).
    assert (FN : Forall (is_matrix (S:=RS) n n : op -> Prop) []) by constructor.
    assert (CN : forall q, q < length (@nil op) -> carries n n V (Lk (@nil op) q) (Lk (@nil op) q)) by (intros q Hq; exfalso; cbn in Hq; lia).
    assert (CH : carries n n V (asm n (ham s u t)) (asm n (ham s' u' t))) by (apply carries_ham; auto).
    assert (TC : forall rho a b, a < n -> b < n -> turned n V (commutation (F:=RField) n (ham s u t) rho) a b = commutation (F:=RField) n (ham s' u' t) (turned n V rho) a b).
    { intros rho a b Ha Hb. pose proof (@turned_master n V UV (ham s u t) (ham s' u' t) [] [] (fun _ => 0%R) rho a b CH FN FN eq_refl CN Ha Hb) as T.
      rewrite (@turned_ext n V (commutation (F:=RField) n (ham s u t) rho) (master (F:=RField) n (ham s u t) [] (fun _ => 0%R) rho) a b) by (intros; unfold master; cbn [length sumn]; tocplx; cring).
      rewrite T. unfold master. cbn [length sumn]. tocplx. cring. }
    assert (C : mm (tsup V) G = mm G' (tsup V)).
    { apply (@super_ext n); [wf_solve|wf_solve|]. intros rho a b Ha Hb. rewrite !(@app_mmul n) by auto. rewrite (tsup_acts UV) by auto. rewrite B2 by auto.
      rewrite (@turned_ext n V _ (damped_motion n s u Di t rho) a b) by (intros; now apply A2).
      transitivity (damped_motion n s' u' Di' t (turned n V rho) a b).
      - etransitivity; [exact (@turned_add n V (commutation (F:=RField) n (ham s u t) rho) (Di t rho) a b)|]. unfold damped_motion. rewrite TC, EL by auto. reflexivity.
      - rewrite <- !B2 by auto. apply app_ext. intros a' b' Ha' Hb'. symmetry. now apply tsup_acts. }
    rewrite (@column_mm n k (mexp W' tau) g' x i j) by eauto.
    transitivity (app n (mexp W' tau) (app n (tsup V) (column n g x)) i j).
    { apply app_ext. intros a b Ha Hb. rewrite (IH g g' a b A4 B4 Ha Hb). symmetry. now apply tsup_acts. }
    rewrite <- (@app_mmul n) by auto. rewrite <- (@mexp_carry (n * n) (n * n) (tsup V) G G' W W' tau WT C). rewrite (@app_mmul n) by auto. rewrite (tsup_acts UV) by auto.
    apply turned_ext. intros a b Ha Hb. symmetry. apply (@column_mm n k (mexp W tau) g x a b); eauto.
Qed.
End Super.
