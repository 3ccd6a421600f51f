(** The exponential of the generator of a master equation with rates >= 0 is completely positive and keeps the trace. *)
Require Import List Arith Lia Ring Field Bool Reals Lra.
From Verif Require Import LibBase LibRing LibArr LibCplx LibMat LibNorm LibSum LibDeriv LibSeries M_Matrix S_Linear S_Exp P_Linear P_RealExp P_Frechet P_Dexp P_Mexp P_Mexp2 P_Trotter
  M_Solver S_Solver S_Lindblad S_Channel P_Lindblad P_Channel.
Import ListNotations.
Set Implicit Arguments.

Section Channel.
Add Field Cfield_ch2 : (c_field RField).
Notation S := RS.
Notation op := (mat RS).
Notation mm := (mmul (S:=RS)).
Notation ma := (madd (S:=RS)).
Notation mb := (msub (S:=RS)).
Notation ms := (mscale (S:=RS)).
Notation app := (apply_super (F:=RField)).
Notation dop := (Arr [] [] : mat RS).

(** ---- functionals that are small on small matrices ---- *)
Definition cle (z : RC) (e : R) : Prop := (Rabs (cre z) <= e /\ Rabs (cim z) <= e)%R.
Definition small N (T : op -> RC) : Prop := forall e, (0 < e)%R -> exists d, (0 < d)%R /\ forall D, bnd N d D -> cle (T D) e.
Lemma small_entry N p q : p < N -> q < N -> small N (fun D => mg D p q).
Proof. intros Hp Hq e He. exists e. split; auto. intros D B. destruct (B p q Hp Hq). split; auto. Qed.
Lemma small_mono N T d d' e : (d' <= d)%R -> (forall D, bnd N d D -> cle (T D) e) -> forall D, bnd N d' D -> cle (T D) e.
Proof. intros Hd H D B. apply H. intros i j Hi Hj. destruct (B i j Hi Hj). split; eapply Rle_trans; eauto. Qed.
Lemma small_add N T T' : small N T -> small N T' -> small N (fun D => cadd (T D) (T' D)).
Proof.
  intros H H' e He. destruct (H (e / 2)%R) as (d & Hd & B); [lra|]. destruct (H' (e / 2)%R) as (d' & Hd' & B'); [lra|].
  exists (Rmin d d'). split; [now apply Rmin_pos|]. intros D Q.
  destruct (@small_mono N T d (Rmin d d') (e / 2)%R (Rmin_l _ _) B D Q) as [b1 b2]. destruct (@small_mono N T' d' (Rmin d d') (e / 2)%R (Rmin_r _ _) B' D Q) as [b3 b4].
  unfold cle, cadd, cre, cim in *. cbn [fst snd] in *. change (@kadd RField) with Rplus. change (kcar RField) with R in *. split.
  - eapply Rle_trans; [apply Rabs_triang|]. lra.
  - eapply Rle_trans; [apply Rabs_triang|]. lra.
Qed.
Lemma small_mul N z T : small N T -> small N (fun D => cmul z (T D)).
Proof.
  intros H e He. destruct z as [x y]. set (m := (Rabs x + Rabs y + 1)%R).
  assert (Hm : (0 < m)%R) by (unfold m; pose proof (Rabs_pos x); pose proof (Rabs_pos y); lra).
  destruct (H (e / m)%R) as (d & Hd & B); [now apply Rdiv_lt_0_compat|]. exists d. split; auto. intros D Q. destruct (B D Q) as [b1 b2].
  unfold cle, cmul, cre, cim in *. cbn [fst snd] in *. change (@kadd RField) with Rplus. change (@kmul RField) with Rmult. change (@ksub RField) with Rminus. change (kcar RField) with R in *.
  set (u := fst (T D)) in *. set (w := snd (T D)) in *. clearbody u w.
  assert (Q1 : forall p q : R, (Rabs p <= e / m -> Rabs q <= e / m -> Rabs x * Rabs p + Rabs y * Rabs q <= e)%R).
  { intros p q Hp Hq. apply Rle_trans with (Rabs x * (e / m) + Rabs y * (e / m))%R.
    - apply Rplus_le_compat; apply Rmult_le_compat_l; auto using Rabs_pos.
    - replace e with ((Rabs x + Rabs y + 1) * (e / m))%R at 3 by (fold m; field; lra). assert (0 <= e / m)%R by (left; now apply Rdiv_lt_0_compat). nra. }
  split.
  - eapply Rle_trans; [apply Rabs_triang|]. rewrite Rabs_Ropp, !Rabs_mult. now apply Q1.
  - eapply Rle_trans; [apply Rabs_triang|]. rewrite !Rabs_mult. now apply Q1.
Qed.
Lemma small_ext N T T' : (forall D, T D = T' D) -> small N T -> small N T'.
Proof. intros E H e He. destruct (H e He) as (d & Hd & B). exists d. split; auto. intros D Q. rewrite <- E. auto. Qed.
Lemma small_0 N : small N (fun _ => c0).
Proof. intros e He. exists 1%R. split; [lra|]. intros D _. split; cbn; rewrite Rabs_R0; lra. Qed.
Lemma small_sum N m (f : nat -> op -> RC) : (forall k, k < m -> small N (f k)) -> small N (fun D => Sg m (fun k => f k D)).
Proof. induction m; intros H; [apply small_0|]. cbn [sumn]. apply (@small_add N (fun D => Sg m (fun k => f k D)) (f m)); auto. Qed.
Lemma small_app n rho i j : i < n -> j < n -> small (n * n) (fun D => app n D rho i j).
Proof.
  intros Hi Hj. unfold apply_super. apply (@small_sum (n * n) n (fun b D => Sg n (fun a => cmul (mg D (j * n + i) (b * n + a)) (rho a b)))). intros b Hb.
  apply (@small_sum (n * n) n (fun a D => cmul (mg D (j * n + i) (b * n + a)) (rho a b))). intros a Ha.
  apply (@small_ext (n * n) (fun D => cmul (rho a b) (mg D (j * n + i) (b * n + a)))); [intros D; cring|]. apply small_mul. apply small_entry; now apply join_lt.
Qed.
Lemma small_quad n k v rho : small (n * n) (fun D => quad n k v (extend n D rho)).
Proof.
  unfold quad.
  apply (@small_sum (n * n) n (fun a D => Sg k (fun x => Sg n (fun b => Sg k (fun y => cmul (cmul (cconj (v a x)) (extend n D rho a x b y)) (v b y)))))). intros a Ha.
  apply (@small_sum (n * n) k (fun x D => Sg n (fun b => Sg k (fun y => cmul (cmul (cconj (v a x)) (extend n D rho a x b y)) (v b y))))). intros x Hx.
  apply (@small_sum (n * n) n (fun b D => Sg k (fun y => cmul (cmul (cconj (v a x)) (extend n D rho a x b y)) (v b y)))). intros b Hb.
  apply (@small_sum (n * n) k (fun y D => cmul (cmul (cconj (v a x)) (extend n D rho a x b y)) (v b y))). intros y Hy.
  apply (@small_ext (n * n) (fun D => cmul (cmul (cconj (v a x)) (v b y)) (extend n D rho a x b y))); [intros D; cring|]. apply small_mul. now apply small_app.
Qed.
Lemma cp_limit n (E : op) : wfm (S:=RS) (n * n) (n * n) E ->
  (forall e, (0 < e)%R -> exists P, wfm (S:=RS) (n * n) (n * n) P /\ completely_positive n P /\ bnd (n * n) e (mb E P)) -> completely_positive n E.
Proof.
  intros WE H k rho HP v.
  assert (Q : forall e, (0 < e)%R -> (Rabs (cim (quad n k v (extend n E rho))) <= e /\ - e <= cre (quad n k v (extend n E rho)))%R).
  { intros e He. destruct (@small_quad n k v rho e He) as (d & Hd & B). destruct (H d Hd) as (P & WP & CP & BP). destruct (B _ BP) as [b1 b2]. destruct (CP k rho HP v) as [p1 p2].
    assert (X : quad n k v (extend n E rho) = cadd (quad n k v (extend n (mb E P) rho)) (quad n k v (extend n P rho))).
    { rewrite <- quad_add. apply quad_ext. intros a x b y Ha Hx Hb Hy. unfold extend. rewrite app_msub by auto. cring. }
    rewrite X. set (z := quad n k v (extend n (mb E P) rho)) in *. set (z' := quad n k v (extend n P rho)) in *. clearbody z z'.
    unfold cadd, cre, cim in *. cbn [fst snd]. change (@kadd RField) with Rplus. change (kcar RField) with R in *. rewrite p1, Rplus_0_r. split; auto.
    pose proof (Rle_abs (- fst z)) as Q. rewrite Rabs_Ropp in Q. change (kcar RField) with R in *. lra. }
  set (z := quad n k v (extend n E rho)) in *. clearbody z. split.
  - destruct (Req_dec (cim z) 0) as [|N]; auto. exfalso. assert (0 < Rabs (cim z))%R by now apply Rabs_pos_lt. destruct (Q (Rabs (cim z) / 2)%R) as [q _]; [lra|]. lra.
  - destruct (Rle_or_lt 0 (cre z)) as [|N]; auto. exfalso. destruct (Q (- cre z / 2)%R) as [_ q]; lra.
Qed.

(** ---- composition and the identity ---- *)
Lemma cp_mid n : completely_positive n (mid (S:=RS) (n * n)).
Proof. intros k rho HP. eapply positive_ext; [|exact HP]. intros a x b y Ha Hx Hb Hy. unfold extend. symmetry. rewrite app_mid by auto. reflexivity. Qed.
Lemma cp_mmul n (A B : op) : wfm (S:=RS) (n * n) (n * n) A -> wfm (S:=RS) (n * n) (n * n) B -> completely_positive n A -> completely_positive n B -> completely_positive n (mm A B).
Proof.
  intros WA WB CA CB k rho HP. specialize (CA k _ (CB k rho HP)). eapply positive_ext; [|exact CA]. intros a x b y Ha Hx Hb Hy. unfold extend. symmetry. rewrite app_mmul by auto. reflexivity.
Qed.
Lemma cp_pw n (A : op) m : wfm (S:=RS) (n * n) (n * n) A -> completely_positive n A -> completely_positive n (pw (n * n) A m).
Proof. intros WA CA. induction m; cbn [pw]; [apply cp_mid|]. apply cp_mmul; auto. now apply wfm_pw. Qed.
Lemma tp_mmul n (A B : op) : wfm (S:=RS) (n * n) (n * n) A -> wfm (S:=RS) (n * n) (n * n) B -> trace_preserving n A -> trace_preserving n B -> trace_preserving n (mm A B).
Proof.
  intros WA WB TA TB rho. transitivity (Sg n (fun i => app n A (app n B rho) i i)).
  - apply Sg_ext. intros i Hi. now apply app_mmul.
  - now rewrite TA, TB.
Qed.
Lemma channel_mid n : channel n (mid (S:=RS) (n * n)).
Proof. split; [apply is_matrix_wfm, wfm_mid|]. split; [apply cp_mid|]. intros rho. apply Sg_ext. intros i Hi. now apply app_mid. Qed.
Lemma channel_mmul n (A B : op) : channel n A -> channel n B -> channel n (mm A B).
Proof.
  intros (WA & CA & TA) (WB & CB & TB). apply is_matrix_wfm in WA, WB. split; [apply is_matrix_wfm; now apply (@wfm_mmul S (n * n) (n * n) (n * n))|]. split; [now apply cp_mmul|now apply tp_mmul].
Qed.

(** ---- the curve of approximations of one step ---- *)
Definition Kmat n H Ls (w : nat -> R) : op := mk2 n n (Kop n H Ls w).
Definition Ksup n H Ls (w : nat -> R) : op := mkron (S:=RS) (mk2 n n (fun j b => cconj (Kop n H Ls w j b))) (Kmat n H Ls w).
Definition phi n (G : op) H Ls w (tau h : R) : op :=
  ma (mid (S:=RS) (n * n)) (ma (ms (cofk (h : RField)) (ms (cofk (tau : RField)) G)) (ms (cofk ((h * tau) * (h * tau) : RField)%R) (Ksup n H Ls w))).
Lemma wfm_Ksup n H Ls w : wfm (S:=RS) (n * n) (n * n) (Ksup n H Ls w).
Proof. apply wfm_mkron; apply wfm_mk2. Qed.
Lemma Ksup_acts n H Ls w rho i j : i < n -> j < n -> app n (Ksup n H Ls w) rho i j = sandwich n (Kop n H Ls w) rho i j.
Proof.
  intros Hi Hj. unfold Ksup. rewrite app_mkron by (auto; apply wfm_mk2). unfold sandwich. apply Sg_ext. intros b Hb. rewrite csumn_mul_r. apply Sg_ext. intros a Ha.
  unfold Kmat. rewrite !mg_mk2 by auto. cring.
Qed.
Section Step.
Variable n : nat.
Variable H : nat -> nat -> RC.
Variable Ls : list op.
Variable w : nat -> R.
Variable G : op.
Variable tau : R.
Hypothesis HH : hermitian_fun (F:=RField) n H.
Hypothesis Hw : forall k, k < length Ls -> (0 <= w k)%R.
Hypothesis Ht : (0 <= tau)%R.
Hypothesis HG : acts_as (F:=RField) n G (master (F:=RField) n H Ls w).
Let WG : wfm (S:=RS) (n * n) (n * n) G.
Proof. apply is_matrix_wfm. exact (proj1 HG). Qed.
Lemma wfm_phi h : wfm (S:=RS) (n * n) (n * n) (phi n G H Ls w tau h).
Proof. apply wfm_madd, wfm_mid. Qed.
Lemma phi_acts h rho i j : i < n -> j < n -> app n (phi n G H Ls w tau h) rho i j =
  cadd (sandwich n (fun i a => cadd (kd (S:=S) i a) (cmul (cofk (h * tau : RField)%R) (Kop n H Ls w i a))) rho i j)
       (Sg (length Ls) (fun k => cmul (cofk (h * tau : RField)%R) (cmul (cofk (w k : RField)) (sandwich n (mg (nth k Ls dop)) rho i j)))).
Proof.
  intros Hi Hj. rewrite <- (@step_split n H Ls w (h * tau)%R rho i j HH Hi Hj). unfold phi.
  rewrite app_madd by (auto; apply wfm_mid). rewrite app_madd by (auto; repeat apply wfm_mscale; auto). rewrite !app_mscale by (auto; try apply wfm_mscale; auto; apply wfm_Ksup).
  rewrite app_mid by auto. rewrite Ksup_acts by auto. rewrite (proj2 HG) by auto. f_equal. f_equal.
  - change (h * tau)%R with (kmul (h : RField) (tau : RField)). rewrite cofk_mul. cring.
  - f_equal. exact (@cofk_mul RField (h * tau)%R (h * tau)%R).
Qed.
Lemma phi_cp h : (0 <= h)%R -> completely_positive n (phi n G H Ls w tau h).
Proof.
  intros Hh k rho HP. assert (H0 : (0 <= h * tau)%R) by now apply Rmult_le_pos.
  pose (A := fun i a => cadd (kd (S:=S) i a) (cmul (cofk (h * tau : RField)%R) (Kop n H Ls w i a))).
  apply (@positive_ext n k (fun i x j y => cadd (onfirst (sandwich n A) rho i x j y)
     (Sg (length Ls) (fun l => cmul (cofk (h * tau : RField)%R) (cmul (cofk (w l : RField)) (onfirst (sandwich n (mg (nth l Ls dop))) rho i x j y)))))).
  - intros i x j y Hi Hx Hj Hy. unfold extend. now rewrite phi_acts.
  - apply positive_add; [now apply positive_sandwich|].
    apply (@positive_sum n k (length Ls) (fun l i x j y => cmul (cofk (h * tau : RField)%R) (cmul (cofk (w l : RField)) (onfirst (sandwich n (mg (nth l Ls dop))) rho i x j y)))).
    intros l Hl. apply (@positive_scale n k (h * tau)%R (fun i x j y => cmul (cofk (w l : RField)) (onfirst (sandwich n (mg (nth l Ls dop))) rho i x j y))); auto.
    apply (@positive_scale n k (w l) (onfirst (sandwich n (mg (nth l Ls dop))) rho)); auto. now apply positive_sandwich.
Qed.
Let X : op := ms (cofk (tau : RField)) G.
Let WX : wfm (S:=RS) (n * n) (n * n) X.
Proof. now apply wfm_mscale. Qed.
Lemma phi_entry h i j : i < n * n -> j < n * n -> mg (phi n G H Ls w tau h) i j =
  cadd (mg (mid (S:=RS) (n * n)) i j) (cadd (cmul (cofk (h : RField)) (mg X i j)) (cmul (cmul (cmul (cofk (h : RField)) (cofk (h : RField))) (cofk ((tau * tau)%R : RField))) (mg (Ksup n H Ls w) i j))).
Proof.
  intros Hi Hj. unfold phi. rewrite (@mg_madd S (n * n) (n * n)) by (auto; apply wfm_mid). apply (f_equal2 (@cadd RField)); [reflexivity|].
  rewrite (@mg_madd S (n * n) (n * n)) by (auto; apply wfm_mscale; exact WX). apply (f_equal2 (@cadd RField)).
  - rewrite (@mg_mscale S (n * n) (n * n)) by (auto; exact WX). reflexivity.
  - rewrite (@mg_mscale S (n * n) (n * n)) by (auto; apply wfm_Ksup). apply (f_equal2 (@cmul RField)); [|reflexivity].
    replace (h * tau * (h * tau))%R with (h * h * (tau * tau))%R by ring. rewrite <- (@cofk_mul RField h h). exact (@cofk_mul RField (h * h)%R (tau * tau)%R).
Qed.
Lemma phi_0 : phi n G H Ls w tau 0 = mid (S:=RS) (n * n).
Proof.
  apply (@mat_ext S (n * n) (n * n)); [apply wfm_phi|apply wfm_mid|]. intros i j Hi Hj. rewrite phi_entry by auto.
  change (cofk (0%R : RField)) with (@c0 RField). cring.
Qed.
Lemma phi_deriv : mderiv (n * n) (phi n G H Ls w tau) 0 X.
Proof.
  intros i j Hi Hj. eapply cderiv_ext; [intros s; symmetry; apply phi_entry; auto|].
  eapply cderiv_eq; [|apply cderiv_add; [apply cderiv_const|apply cderiv_add; [apply cderiv_mul; [apply cderiv_id|apply cderiv_const]|
    apply cderiv_mul; [apply cderiv_mul; [apply cderiv_mul; apply cderiv_id|apply cderiv_const]|apply cderiv_const]]]].
  change (cofk (0%R : RField)) with (@c0 RField). set (x := mg X i j). clearbody x. cring.
Qed.
Lemma exp_cp E : is_exponential (n * n) X E -> completely_positive n E.
Proof.
  intros HE. pose proof (exponential_mexp WX HE) as EE. rewrite EE. apply cp_limit; [apply wfm_mexp|]. intros e He.
  destruct (@chernoff (n * n) X WX (phi n G H Ls w tau) wfm_phi phi_0 phi_deriv e He) as (m & Hm & B). exists (pw (n * n) (phi n G H Ls w tau (/ INR m)) m).
  split; [apply wfm_pw, wfm_phi|]. split; auto. apply cp_pw; [apply wfm_phi|]. apply phi_cp. left. apply Rinv_0_lt_compat. now apply lt_0_INR.
Qed.
End Step.
Lemma exp_tp n (G : op) H Ls w (tau : R) E : acts_as (F:=RField) n G (master (F:=RField) n H Ls w) -> is_exponential (n * n) (ms (cofk (tau : RField)) G) E -> trace_preserving n E.
Proof.
  intros HG HE rho. pose proof (proj1 (@is_matrix_wfm RS (n * n) (n * n) G) (proj1 HG)) as WG. assert (WX : wfm (S:=RS) (n * n) (n * n) (ms (cofk (tau : RField)) G)) by now apply wfm_mscale.
  rewrite (exponential_mexp WX HE).
  transitivity (Sg n (fun i => app n (mexp WX 0) rho i i)).
  - apply (@cderiv0_const (fun s => Sg n (fun i => app n (mexp WX s) rho i i))). intros t.
    eapply cderiv_eq; [|apply (@cderiv_sumn n (fun i s => app n (mexp WX s) rho i i) t (fun i => app n (mm (ms (cofk (tau : RField)) G) (mexp WX t)) rho i i))].
    + transitivity (Sg n (fun i => cmul (cofk (tau : RField)) (app n G (app n (mexp WX t) rho) i i))).
      * apply Sg_ext. intros i Hi. rewrite app_mmul by (auto; apply wfm_mexp). now apply app_mscale.
      * rewrite <- csumn_mul_l. rewrite (@acts_trace RField n G H Ls w _ HG). cring.
    + intros i Hi. unfold apply_super. apply (@cderiv_sumn n (fun b s => Sg n (fun a => cmul (mg (mexp WX s) (i * n + i) (b * n + a)) (rho a b))) t
        (fun b => Sg n (fun a => cmul (mg (mm (ms (cofk (tau : RField)) G) (mexp WX t)) (i * n + i) (b * n + a)) (rho a b)))). intros b Hb.
      apply (@cderiv_sumn n (fun a s => cmul (mg (mexp WX s) (i * n + i) (b * n + a)) (rho a b)) t (fun a => cmul (mg (mm (ms (cofk (tau : RField)) G) (mexp WX t)) (i * n + i) (b * n + a)) (rho a b))). intros a Ha.
      eapply cderiv_eq; [|apply cderiv_mul; [apply (@mexp_deriv (n * n) _ WX t); now apply join_lt|apply cderiv_const]]. cring.
  - apply Sg_ext. intros i Hi. rewrite mexp_0. now apply app_mid.
Qed.
Theorem exp_channel n H Ls w (G : op) (tau : R) E : hermitian_fun (F:=RField) n H -> (forall k, k < length Ls -> (0 <= w k)%R) -> (0 <= tau)%R ->
  acts_as (F:=RField) n G (master (F:=RField) n H Ls w) -> is_exponential (n * n) (ms (cofk (tau : RField)) G) E -> channel n E.
Proof.
  intros HH Hw Ht HG HE. pose proof (proj1 (@is_matrix_wfm RS (n * n) (n * n) G) (proj1 HG)) as WG. assert (WX : wfm (S:=RS) (n * n) (n * n) (ms (cofk (tau : RField)) G)) by now apply wfm_mscale.
  split; [|split].
  - rewrite (exponential_mexp WX HE). apply is_matrix_wfm. apply wfm_mexp.
  - exact (@exp_cp n H Ls w G tau HH Hw Ht HG E HE).
  - exact (@exp_tp n G H Ls w tau E HG HE).
Qed.
Lemma channel_density n (E : op) rho : channel n E -> density n rho -> density n (app n E rho).
Proof. intros (_ & CP & TP) (P & T). split; [exact (CP 1 (fun a _ b _ => rho a b) P)|]. now rewrite TP. Qed.
End Channel.
