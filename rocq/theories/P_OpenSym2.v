(** Proofs for C83, part 2: the time steps of an evolution; solvers with the same motion; stationary states. *)
Require Import List Arith Lia Bool Reals Lra.
From Verif Require Import LibBase LibRing LibArr LibCplx LibMat LibNorm LibDeriv LibSeries M_Matrix S_Linear S_Deriv S_Exp P_Linear P_Matrix P_Frechet P_Mexp P_Mexp2 M_OpHeap M_Transfer S_Transfer M_Amplitude S_Amplitude P_Amplitude M_Solver S_Solver P_Solver7 S_Lindblad S_Channel P_Lindblad P_Channel P_Channel2 S_Invariance P_Invariance S_OpenSym P_OpenSym.
Import ListNotations.
Local Open Scope res_scope.
Set Implicit Arguments.

Section Open.
Add Field Cfield_os2 : (c_field RField).
Notation op := (mat RS).
Notation st := (@st RField).
Notation S := RS.
Notation mm := (mmul (S:=RS)).
Notation ms := (mscale (S:=RS)).
Notation app := (apply_super (F:=RField)).
Hint Resolve wfm_mexp wfm_mpw : wfm.
Variable rexp : R -> R.
Variable la : LinAlg RField.
Variable eps : cplx RField.
Notation dop := (Arr [] [] : mat RS).
Notation evo := (open_evolution rexp la eps).

Lemma osteps (s : st) n k Ls u w ps fs : evo s n k Ls u w ps fs ->
  length ps = length (s_time s) /\ length fs = Datatypes.S (length (s_time s)) /\ nth_error fs 0 = Some (c_init (s_conf s)) /\
  (forall t f, nth_error fs t = Some f -> wfm (S:=RS) (n * n) k f) /\
  forall t, t < length (s_time s) -> exists tau G (W : wfm (S:=RS) (n * n) (n * n) G) f, nth_error (s_time s) t = Some tau /\ acts_as (F:=RField) n G (motion n s Ls u w t) /\
    nth_error ps t = Some (Some (mexp W tau)) /\ nth_error fs t = Some f /\ nth_error fs (Datatypes.S t) = Some (mm (mexp W tau) f).
Proof.
  intros E. destruct (oe_used E) as (d & s0 & U). destruct (oe_class E) as (l & C1 & C2 & C3 & C4).
  pose proof (@used_lindblad_ops RField rexp la eps d s0 s n l Ls u w ps U C1 C2 C3 (oe_ops E) (oe_drift E) (oe_ctrl E) (oe_amps E) C4 (oe_props E)) as [L P].
  assert (P' : forall t, t < length (s_time s) -> exists tau G (W : wfm (S:=RS) (n * n) (n * n) G), nth_error (s_time s) t = Some tau /\ acts_as (F:=RField) n G (motion n s Ls u w t) /\ nth_error ps t = Some (Some (mexp W tau))).
  { intros t Ht. destruct (P t Ht) as (Q & G & tau & A1 & A2 & A3 & A4). pose proof A3 as [WG HG]. pose proof WG as W. apply is_matrix_wfm in W. exists tau, G, W. split; auto. split; [exact A3|].
    pose proof (oe_exact E tau WG A4) as X. rewrite (exponential_mexp (ms_real_wf tau W) X) in A1. now rewrite mexp_time with (W := W) in A1. }
  assert (SQ : all_square (F:=RField) (n * n) ps).
  { intros Q HQ. apply In_nth_error in HQ. destruct HQ as [t Ht]. assert (Hl : t < length (s_time s)) by (rewrite <- L; apply nth_error_Some; congruence).
    destruct (P' t Hl) as (tau & G & W & _ & _ & E3). rewrite Ht in E3. injection E3 as ->. apply is_matrix_wfm. apply wfm_mexp. }
  destruct (@used_forward RField rexp la eps d s0 s ps fs (n * n) k U (oe_props E) (oe_fwd E) SQ (oe_init E)) as (Lf & F0 & FS).
  assert (N0 : nth_error fs 0 = Some (c_init (s_conf s))).
  { destruct fs as [|f0 fs']; [discriminate|]. specialize (F0 dop). cbn in F0 |- *. now subst. }
  assert (WF : forall t f, nth_error fs t = Some f -> wfm (S:=RS) (n * n) k f).
  { intros [|t] f Hf; [rewrite N0 in Hf; injection Hf as <-; apply is_matrix_wfm, (oe_init E)|].
    assert (Hl : t < length ps) by (assert (Datatypes.S t < length fs) by (apply nth_error_Some; congruence); lia).
    destruct (FS t Hl) as (Q & f1 & f2 & _ & _ & E3 & [E4 _]). rewrite Hf in E3. injection E3 as ->. now apply is_matrix_wfm. }
  split; auto. split; [lia|]. split; auto. split; auto. intros t Ht. destruct (P' t Ht) as (tau & G & W & E1 & E2 & E3).
  rewrite <- L in Ht. destruct (FS t Ht) as (Q & f1 & f2 & D1 & D2 & D3 & D4). rewrite E3 in D1. injection D1 as <-. exists tau, G, W, f1. split; auto. split; auto. split; auto. split; auto. rewrite D3. f_equal.
  apply (@is_product_eq RS (n * n) (n * n) k); eauto using wfm_mexp.
Qed.
(** the columns of a product *)
Lemma column_mm n k (P f : op) x i j : wfm (S:=RS) (n * n) (n * n) P -> wfm (S:=RS) (n * n) k f -> x < k -> i < n -> j < n -> column n (mm P f) x i j = app n P (column n f x) i j.
Proof.
  intros WP Wf Hx Hi Hj. cbn beta. rewrite (@mg_mmul S (n * n) (n * n) k) by (auto; now apply join_lt). rewrite (@sumn_mul_split S n n). reflexivity.
Qed.

(** ---- equal motions ---- *)
Lemma same_motion (s s' : st) n k Ls Ls' u u' w w' ps ps' fs fs' : evo s n k Ls u w ps fs -> evo s' n k Ls' u' w' ps' fs' -> s_time s = s_time s' -> c_init (s_conf s) = c_init (s_conf s') ->
  (forall t rho i j, t < length (s_time s) -> i < n -> j < n -> motion n s Ls u w t rho i j = motion n s' Ls' u' w' t rho i j) -> ps' = ps /\ fs' = fs.
Proof.
  intros E E' ET EI EM. destruct (osteps E) as (Lp & Lf & N0 & WF & ST). destruct (osteps E') as (Lp' & Lf' & N0' & WF' & ST').
  assert (X : forall t, t < length (s_time s) -> nth_error ps' t = nth_error ps t).
  { intros t Ht. destruct (ST t Ht) as (tau & G & W & f & A1 & A2 & A3 & _). rewrite ET in Ht. destruct (ST' t Ht) as (tau' & G' & W' & f' & B1 & B2 & B3 & _). rewrite <- ET in Ht, B1. rewrite A1 in B1. injection B1 as <-.
    rewrite A3, B3. do 2 f_equal. apply mexp_ext. symmetry. apply (@acts_unique n G G' _ _ A2 B2). intros rho i j Hi Hj. now apply EM. }
  assert (EP : ps' = ps).
  { apply (nth_ext ps' ps None None); [congruence|]. intros t Ht. rewrite Lp', <- ET in Ht. specialize (X t Ht).
    rewrite (nth_error_nth' ps' None) in X by (rewrite Lp', <- ET; auto). rewrite (nth_error_nth' ps None) in X by (rewrite Lp; auto). now injection X. }
  split; auto. subst ps'.
  assert (Y : forall t, t <= length (s_time s) -> nth_error fs' t = nth_error fs t).
  { induction t as [|t IH]; intros Ht; [congruence|]. destruct (ST t Ht) as (tau & G & W & f & A1 & A2 & A3 & A4 & A5). pose proof Ht as Ht'. rewrite ET in Ht'. destruct (ST' t Ht') as (tau' & G' & W' & f' & B1 & B2 & B3 & B4 & B5).
    rewrite A5, B5. rewrite A3 in B3. assert (EQ : mexp W' tau' = mexp W tau) by congruence. rewrite EQ. rewrite IH in B4 by lia. rewrite A4 in B4. now injection B4 as <-. }
  apply (nth_ext fs' fs dop dop); [congruence|]. intros t Ht. rewrite Lf', <- ET in Ht. specialize (Y t ltac:(lia)).
  rewrite (nth_error_nth' fs' dop) in Y by (rewrite Lf', <- ET; auto). rewrite (nth_error_nth' fs dop) in Y by (rewrite Lf; auto). now injection Y.
Qed.
Lemma cadd_swap (x y z : RC) : cadd (cadd x y) z = cadd (cadd x z) y. Proof. cring. Qed.
Lemma ham_same (s s' : st) u u' t i j : c_ctrl (s_conf s) = c_ctrl (s_conf s') -> same_row (length (c_ctrl (s_conf s))) u t u' t ->
  hamiltonian (F:=RField) (Dr s' t) (c_ctrl (s_conf s')) (fun c => get2 (k0 : RField) u' t c) i j =
  cadd (mg (Dr s' t) i j) (Sg (length (c_ctrl (s_conf s))) (fun c => cmul (cofk (get2 (k0 : RField) u t c)) (mg (Ct s c) i j))).
Proof. intros EC ER. unfold hamiltonian. rewrite <- EC. f_equal. apply (@Sg_ext RField). intros c Hc. do 2 f_equal. symmetry. exact (ER c Hc). Qed.

Lemma open_offset (s s' : st) n k Ls u u' w ps ps' fs fs' (e : nat -> R) : evo s n k Ls u w ps fs -> evo s' n k Ls u' w ps' fs' -> same_setting s s' u u' ->
  (forall t, t < length (s_time s) -> shifted n (e t) (Dr s t) (Dr s' t)) -> ps' = ps /\ fs' = fs.
Proof.
  intros E E' [ET EC ER EI] ED. apply (same_motion E E' ET EI). intros t rho i j Ht Hi Hj. unfold motion, master. f_equal. symmetry.
  rewrite <- (@comm_shift n (hamiltonian (F:=RField) (Dr s t) (c_ctrl (s_conf s)) (fun c => get2 (k0 : RField) u t c)) (cofk (e t : RField)) rho i j Hi Hj).
  apply comm_ext; auto. intros a b Ha Hb. rewrite (@ham_same s s' u u' t _ _ EC (ER t Ht)). rewrite (ED t Ht) by auto. unfold hamiltonian. apply cadd_swap.
Qed.
Lemma open_factors (s s' : st) n k Ls Ls' u u' w w' ps ps' fs fs' (z : nat -> RC) : evo s n k Ls u w ps fs -> evo s' n k Ls' u' w' ps' fs' -> same_setting s s' u u' ->
  (forall t, t < length (s_time s) -> Dr s t = Dr s' t) -> length Ls = length Ls' -> (forall i, i < length Ls -> is_factor n (z i) (Lk Ls i) (Lk Ls' i)) ->
  (forall t i, t < length (s_time s) -> i < length Ls -> w t i = (w' t i * cnorm2 (z i))%R) -> ps' = ps /\ fs' = fs.
Proof.
  intros E E' [ET EC ER EI] ED EL EZ EW. apply (same_motion E E' ET EI). intros t rho i j Ht Hi Hj. unfold motion, master. f_equal.
  - apply comm_ext; auto. intros a b Ha Hb. rewrite (@ham_same s s' u u' t _ _ EC (ER t Ht)). now rewrite <- ED.
  - rewrite <- EL. apply (@Sg_ext RField). intros q Hq. rewrite (diss_factor rho Hi Hj (EZ q Hq)). rewrite EW by auto.
    assert (M : cofk ((w' t q * cnorm2 (z q))%R : RField) = cmul (cofk (w' t q : RField)) (cofk (cnorm2 (z q) : RField))) by (unfold cmul, cofk; cbn; f_equal; ring).
    rewrite M. cring.
Qed.
Lemma open_displaced (s s' : st) n k Ls Ls' u u' w ps ps' fs fs' (a : nat -> RC) : evo s n k Ls u w ps fs -> evo s' n k Ls' u' w ps' fs' -> same_setting s s' u u' ->
  length Ls = length Ls' -> (forall i, i < length Ls -> displaced n (a i) (Lk Ls i) (Lk Ls' i)) ->
  (forall t i j, t < length (s_time s) -> i < n -> j < n -> mg (Dr s' t) i j = cadd (mg (Dr s t) i j) (Sg (length Ls) (fun q => cmul (cofk (w t q : RField)) (compensation (Lk Ls q) (a q) i j)))) ->
  ps' = ps /\ fs' = fs.
Proof.
  intros E E' [ET EC ER EI] EL EZ ED. apply (same_motion E E' ET EI). intros t rho i j Ht Hi Hj. unfold motion, master. symmetry.
  rewrite (@comm_ext n _ (fun x y => cadd (hamiltonian (F:=RField) (Dr s t) (c_ctrl (s_conf s)) (fun c => get2 (k0 : RField) u t c) x y) (Sg (length Ls) (fun q => cmul (cofk (w t q : RField)) (compensation (Lk Ls q) (a q) x y)))) rho i j Hi Hj).
  2:{ intros x y Hx Hy. rewrite (@ham_same s s' u u' t _ _ EC (ER t Ht)). rewrite ED by auto. unfold hamiltonian. apply cadd_swap. }
  rewrite comm_add, comm_sum, <- EL.
  rewrite (@Sg_ext RField (length Ls) (fun q => cmul (cofk (w t q : RField)) (dissipation (F:=RField) n (Lk Ls' q) rho i j))
    (fun q => csub (cmul (cofk (w t q : RField)) (dissipation (F:=RField) n (Lk Ls q) rho i j)) (commutation (F:=RField) n (fun x y => cmul (cofk (w t q : RField)) (compensation (Lk Ls q) (a q) x y)) rho i j))).
  2:{ intros q Hq. rewrite (diss_displaced rho Hi Hj (EZ q Hq)). rewrite comm_mul. cring. }
  rewrite <- csumn_sub. cring.
Qed.

(** ---- states the motion does not change ---- *)
Lemma mexp_zero N k (X v : op) (W : wfm (S:=RS) N N X) tau : wfm (S:=RS) N k v -> mm X v = mzero (S:=RS) N k -> mm (mexp W tau) v = v.
Proof.
  intros Wv Z. assert (WZ : wfm (S:=RS) k k (mzero (S:=RS) k k)) by apply wfm_mzero.
  assert (M : mm v (mzero (S:=RS) k k) = mm X v) by (rewrite Z; apply (@mmul_0_r RS N k k); auto).
  rewrite <- (@mexp_carry N k v (mzero (S:=RS) k k) X WZ W tau Wv M).
  assert (WZ' : wfm (S:=RS) k k (ms (cofk (tau : RField)) (mzero (S:=RS) k k))) by wf_solve.
  assert (I : mexp WZ tau = mid (S:=RS) k).
  { rewrite <- (@mexp_time k _ WZ tau WZ'). assert (Y : ms (cofk (0%R : RField)) (mzero (S:=RS) k k) = ms (cofk (tau : RField)) (mzero (S:=RS) k k)).
    { apply (@mat_ext RS k k); [wf_solve|wf_solve|]. intros i j Hi Hj. rewrite !(@mg_mscale RS k k) by auto. rewrite !(@mg_mzero RS) by auto. tocplx. cring. }
    assert (W0 : wfm (S:=RS) k k (ms (cofk (0%R : RField)) (mzero (S:=RS) k k))) by wf_solve.
    rewrite <- (@mexp_ext k _ _ W0 WZ' 1 Y). rewrite (@mexp_time k _ WZ 0 W0). apply mexp_0. }
  rewrite I. now apply (@mmul_1_r RS N k).
Qed.
Lemma open_stationary (s : st) n k Ls u w ps fs x : evo s n k Ls u w ps fs -> x < k ->
  (forall t i j, t < length (s_time s) -> i < n -> j < n -> motion n s Ls u w t (column n (c_init (s_conf s)) x) i j = c0) ->
  forall t f i j, nth_error fs t = Some f -> i < n -> j < n -> column n f x i j = column n (c_init (s_conf s)) x i j.
Proof.
  intros E Hx H. destruct (osteps E) as (Lp & Lf & N0 & WF & ST). set (v := (mk2 (n * n) 1 (fun p _ => mg (c_init (s_conf s)) p x) : op)).
  assert (Wv : wfm (S:=RS) (n * n) 1 v) by apply wfm_mk2.
  intros t. induction t as [|t IH]; intros f i j Hf Hi Hj; [rewrite N0 in Hf; now injection Hf as <-|].
  assert (Ht : t < length (s_time s)) by (assert (Datatypes.S t < length fs) by (apply nth_error_Some; congruence); lia).
  destruct (ST t Ht) as (tau & G & W & g & A1 & [_ A2] & A3 & A4 & A5). rewrite A5 in Hf. injection Hf as <-.
  rewrite (@column_mm n k (mexp W tau) g x i j) by (auto using wfm_mexp; eauto).
  rewrite (@app_ext n (mexp W tau) (column n g x) (column n v 0)).
  2:{ intros a b Ha Hb. rewrite (IH g a b A4 Ha Hb). unfold v. rewrite mg_mk2 by (auto; now apply join_lt). reflexivity. }
  rewrite <- (@column_mm n 1 (mexp W tau) v 0 i j) by auto using wfm_mexp.
  rewrite (@mexp_zero (n * n) 1 G v W tau Wv).
  - unfold v. rewrite mg_mk2 by (auto; now apply join_lt). reflexivity.
  - apply (@mat_ext RS (n * n) 1); [wf_solve|wf_solve|]. intros p q Hp Hq. destruct (@split_index n p Hp) as (b & a & Hb & Ha & ->). assert (q = 0) by lia. subst q.
    rewrite (@mg_mzero RS) by auto. rewrite (@column_mm n 1 G v 0 a b) by auto. rewrite A2 by auto.
    transitivity (motion n s Ls u w t (column n (c_init (s_conf s)) x) a b); [|exact (H t a b Ht Ha Hb)]. rewrite <- !A2 by auto. apply app_ext. intros a' b' Ha' Hb'. unfold v. rewrite mg_mk2 by (auto; now apply join_lt). reflexivity.
Qed.
(** operators that are balanced keep the maximally mixed state *)
Lemma mixed_motion n h Ls (w : nat -> R) (z : RC) rho i j : i < n -> j < n -> balanced n Ls w -> (forall a b, a < n -> b < n -> rho a b = cmul z (delta (S:=RS) a b)) -> master (F:=RField) n h Ls w rho i j = c0.
Proof.
  intros Hi Hj B Hr. unfold master.
  assert (Cm : commutation (F:=RField) n h rho i j = c0).
  { unfold commutation. rewrite (@Sg_ext RField n (fun a => cmul (h i a) (rho a j)) (fun a => cmul (cmul z (h i a)) (delta (S:=RS) a j))) by (intros; rewrite Hr by auto; cring).
    rewrite (@Sg_ext RField n (fun b => cmul (rho i b) (h b j)) (fun b => cmul (delta (S:=RS) i b) (cmul z (h b j)))) by (intros; rewrite Hr by auto; cring).
    rewrite (rho_delta_r (fun a => cmul z (h i a)) Hj), (rho_delta (fun b => cmul z (h b j)) Hi). cring. }
  rewrite Cm.
  rewrite (@Sg_ext RField (length Ls) _ (fun k => cmul z (csub (cmul (cofk (w k : RField)) (Sg n (fun a => cmul (mg (Lk Ls k) i a) (cconj (mg (Lk Ls k) j a))))) (cmul (cofk (w k : RField)) (number_op (F:=RField) n (Lk Ls k) i j))))).
  - rewrite <- csumn_mul_l, <- csumn_sub. rewrite (B i j Hi Hj). cring.
  - intros k Hk. unfold dissipation. set (L := Lk Ls k).
    rewrite (@Sg_ext RField n (fun b => Sg n (fun a => cmul (cmul (mg L i a) (rho a b)) (cconj (mg L j b)))) (fun b => cmul z (cmul (mg L i b) (cconj (mg L j b))))).
    2:{ intros b Hb. rewrite (@Sg_ext RField n _ (fun a => cmul (cmul z (cmul (mg L i a) (cconj (mg L j b)))) (delta (S:=RS) a b))) by (intros; rewrite Hr by auto; cring).
        now rewrite (rho_delta_r (fun a => cmul z (cmul (mg L i a) (cconj (mg L j b)))) Hb). }
    rewrite (@Sg_ext RField n (fun a => cmul (number_op (F:=RField) n L i a) (rho a j)) (fun a => cmul (cmul z (number_op (F:=RField) n L i a)) (delta (S:=RS) a j))) by (intros; rewrite Hr by auto; cring).
    rewrite (@Sg_ext RField n (fun b => cmul (rho i b) (number_op (F:=RField) n L b j)) (fun b => cmul (delta (S:=RS) i b) (cmul z (number_op (F:=RField) n L b j)))) by (intros; rewrite Hr by auto; cring).
    rewrite (rho_delta_r (fun a => cmul z (number_op (F:=RField) n L i a)) Hj), (rho_delta (fun b => cmul z (number_op (F:=RField) n L b j)) Hi). rewrite two_halves, <- csumn_mul_l. cring.
Qed.
Lemma open_balanced (s : st) n k Ls u w ps fs x (z : RC) : evo s n k Ls u w ps fs -> x < k -> (forall t, t < length (s_time s) -> balanced n Ls (w t)) ->
  (forall i j, i < n -> j < n -> column n (c_init (s_conf s)) x i j = cmul z (delta (S:=RS) i j)) ->
  forall t f i j, nth_error fs t = Some f -> i < n -> j < n -> column n f x i j = cmul z (delta (S:=RS) i j).
Proof.
  intros E Hx HB HI t f i j Hf Hi Hj. rewrite <- (HI i j Hi Hj). apply (open_stationary E Hx) with (t := t); auto.
  intros t' a b Ht Ha Hb. unfold motion. apply (@mixed_motion n _ Ls (w t') z); auto.
Qed.
End Open.
