(** Proofs for C83, part 4: the same for the solver; systems without dissipation. *)
Require Import List Arith Lia Bool Reals Lra.
From Verif Require Import LibBase LibRing LibArr LibCplx LibMat LibNorm LibDeriv LibSeries M_Matrix S_Linear S_Deriv S_Exp P_Linear P_Matrix P_Frechet P_Mexp P_Mexp2 M_OpHeap M_Transfer S_Transfer M_Amplitude S_Amplitude P_Amplitude M_Solver S_Solver P_Solver7 S_Lindblad S_Channel P_Lindblad P_Channel P_Channel2 S_Invariance P_Invariance P_Invariance2 P_SolverMC S_OpenSym P_OpenSym P_OpenSym2 P_OpenSym3.
Import ListNotations.
Local Open Scope res_scope.
Set Implicit Arguments.

Section Open.
Add Field Cfield_os4 : (c_field RField).
Notation op := (mat RS).
Notation st := (@st RField).
Notation S := RS.
Notation mm := (mmul (S:=RS)).
Notation ma := (madd (S:=RS)).
Notation ms := (mscale (S:=RS)).
Notation md := (mdag (S:=RS)).
Notation app := (apply_super (F:=RField)).
Notation dop := (Arr [] [] : mat RS).
Notation wf n A := (wfm (S:=RS) n n A).
Hint Resolve wfm_mexp wfm_mpw : wfm.
Variable rexp : R -> R.
Variable la : LinAlg RField.
Variable eps : cplx RField.
Notation evo := (open_evolution rexp la eps).
Notation ham s u t := (hamiltonian (F:=RField) (Dr s t) (c_ctrl (s_conf s)) (fun c => get2 (k0 : RField) u t c)).

Lemma dist_l (x y z : RC) : cmul x (cadd y z) = cadd (cmul x y) (cmul x z). Proof. cring. Qed.
Lemma dist_r (x y z : RC) : cmul (cadd x z) y = cadd (cmul x y) (cmul z y). Proof. cring. Qed.
Lemma carries_mul n V (A A' : op) (z : RC) : forall i j, i < n -> j < n -> carries n n V A A' ->
  Sg n (fun l => cmul (mg V i l) (cmul z (mg A l j))) = Sg n (fun l => cmul (cmul z (mg A' i l)) (mg V l j)).
Proof.
  intros i j Hi Hj C. transitivity (cmul z (Sg n (fun l => cmul (mg V i l) (mg A l j)))).
  - rewrite csumn_mul_l. apply (@Sg_ext RField). intros l Hl. cring.
  - rewrite (C i j Hi Hj). rewrite csumn_mul_l. apply (@Sg_ext RField). intros l Hl. cring.
Qed.
Lemma carries_ham n V (s s' : st) u u' t : length (c_ctrl (s_conf s)) = length (c_ctrl (s_conf s')) -> same_row (length (c_ctrl (s_conf s))) u t u' t ->
  carries n n V (Dr s t) (Dr s' t) -> (forall c, c < length (c_ctrl (s_conf s)) -> carries n n V (Ct s c) (Ct s' c)) -> carries n n V (asm n (ham s u t)) (asm n (ham s' u' t)).
Proof.
  intros EL SR CD CC i j Hi Hj.
  transitivity (cadd (Sg n (fun l => cmul (mg V i l) (mg (Dr s t) l j))) (Sg (length (c_ctrl (s_conf s))) (fun c => Sg n (fun l => cmul (mg V i l) (cmul (cofk (get2 (k0 : RField) u t c)) (mg (Ct s c) l j)))))).
  - rewrite (@Sg_swap RField (length (c_ctrl (s_conf s))) n). rewrite csumn_add. apply (@Sg_ext RField). intros l Hl. rewrite mg_asm by auto. unfold hamiltonian.
    transitivity (cadd (cmul (mg V i l) (mg (Dr s t) l j)) (cmul (mg V i l) (Sg (length (c_ctrl (s_conf s))) (fun c => cmul (cofk (get2 (k0 : RField) u t c)) (mg (Ct s c) l j))))).
    + apply dist_l.
    + f_equal. now rewrite csumn_mul_l.
  - rewrite (CD i j Hi Hj).
    transitivity (cadd (Sg n (fun l => cmul (mg (Dr s' t) i l) (mg V l j))) (Sg (length (c_ctrl (s_conf s))) (fun c => Sg n (fun l => cmul (cmul (cofk (get2 (k0 : RField) u' t c)) (mg (Ct s' c) i l)) (mg V l j))))).
    + f_equal. apply (@Sg_ext RField). intros c Hc. change (get2 (k0 : RField) u' t c) with (get2 0%R u' t c). rewrite <- (SR c Hc). apply carries_mul; auto.
    + rewrite (@Sg_swap RField (length (c_ctrl (s_conf s))) n). rewrite csumn_add. apply (@Sg_ext RField). intros l Hl. rewrite mg_asm by auto. unfold hamiltonian.
      symmetry. etransitivity; [apply dist_r|]. f_equal. rewrite csumn_mul_r. apply (f_equal (fun m => Sg m (fun c => cmul (cmul (cofk (get2 (k0 : RField) u' t c)) (mg (Ct s' c) i l)) (mg V l j)))). symmetry. exact EL.
Qed.
Lemma open_basis (s s' : st) n k Ls Ls' u u' w ps ps' fs fs' (V : op) x : evo s n k Ls u w ps fs -> evo s' n k Ls' u' w ps' fs' -> is_unitary (S:=RS) n V -> x < k ->
  s_time s = s_time s' -> length (c_ctrl (s_conf s)) = length (c_ctrl (s_conf s')) -> (forall t, t < length (s_time s) -> same_row (length (c_ctrl (s_conf s))) u t u' t) ->
  (forall t, t < length (s_time s) -> carries n n V (Dr s t) (Dr s' t)) -> (forall c, c < length (c_ctrl (s_conf s)) -> carries n n V (Ct s c) (Ct s' c)) ->
  length Ls = length Ls' -> (forall i, i < length Ls -> carries n n V (Lk Ls i) (Lk Ls' i)) ->
  (forall i j, i < n -> j < n -> column n (c_init (s_conf s')) x i j = turned n V (column n (c_init (s_conf s)) x) i j) ->
  forall t f f' i j, nth_error fs t = Some f -> nth_error fs' t = Some f' -> i < n -> j < n -> column n f' x i j = turned n V (column n f x) i j.
Proof.
  intros E E' UV Hx ET EC ER ED ECt EL ELs EI. apply is_unitary_m in UV. destruct (osteps E) as (_ & Lf & N0 & WF & ST). destruct (osteps E') as (_ & Lf' & N0' & WF' & ST').
  intros t. induction t as [|t IH]; intros f f' i j Hf Hf' Hi Hj.
  - rewrite N0 in Hf. rewrite N0' in Hf'. injection Hf as <-. injection Hf' as <-. now apply EI.
  - assert (Ht : t < length (s_time s)) by (assert (Datatypes.S t < length fs) by (apply nth_error_Some; congruence); lia).
    destruct (ST t Ht) as (tau & G & W & g & A1 & [_ A2] & _ & A4 & A5). rewrite ET in Ht. destruct (ST' t Ht) as (tau' & G' & W' & g' & B1 & [_ B2] & _ & B4 & B5). rewrite <- ET in Ht, B1.
    rewrite A1 in B1. injection B1 as <-. rewrite A5 in Hf. injection Hf as <-. rewrite B5 in Hf'. injection Hf' as <-.
    assert (WT := wf_tsup UV). assert (W1 := wfm_mexp W tau). assert (W2 := wfm_mexp W' tau).
    assert (C : mm (tsup V) G = mm G' (tsup V)).
    { apply (@super_ext n); [wf_solve|wf_solve|]. intros rho a b Ha Hb. rewrite !(@app_mmul n) by auto. rewrite (tsup_acts UV) by auto. rewrite B2 by auto.
      rewrite (@turned_ext n V _ (motion n s Ls u w t rho) a b) by (intros; now apply A2).
      transitivity (motion n s' Ls' u' w t (turned n V rho) a b); [apply (@turned_master n V UV (ham s u t) (ham s' u' t) Ls Ls'); auto|].
      - apply carries_ham; auto.
      - exact (oe_ops E).
      - exact (oe_ops E').
      - rewrite <- !B2 by auto. apply app_ext. intros a' b' Ha' Hb'. symmetry. now apply tsup_acts. }
    rewrite (@column_mm n k (mexp W' tau) g' x i j) by eauto.
    transitivity (app n (mexp W' tau) (app n (tsup V) (column n g x)) i j).
    { apply app_ext. intros a b Ha Hb. rewrite (IH g g' a b A4 B4 Ha Hb). symmetry. now apply tsup_acts. }
    rewrite <- (@app_mmul n) by auto. rewrite <- (@mexp_carry (n * n) (n * n) (tsup V) G G' W W' tau WT C). rewrite (@app_mmul n) by auto. rewrite (tsup_acts UV) by auto.
    apply turned_ext. intros a b Ha Hb. symmetry. apply (@column_mm n k (mexp W tau) g x a b); eauto.
Qed.
Lemma mean_app n (Q P : op) rho : mean n Q (app n P rho) = Sg n (fun d => Sg n (fun c => cmul (Sg n (fun b => Sg n (fun a => cmul (mg Q b a) (mg P (b * n + a) (d * n + c))))) (rho c d))).
Proof.
  unfold mean, apply_super.
  transitivity (Sg n (fun b => Sg n (fun a => Sg n (fun d => Sg n (fun c => cmul (cmul (mg Q b a) (mg P (b * n + a) (d * n + c))) (rho c d)))))).
  - apply (@Sg_ext RField). intros b Hb. apply (@Sg_ext RField). intros a Ha. rewrite csumn_mul_l. apply (@Sg_ext RField). intros d Hd. rewrite csumn_mul_l. apply (@Sg_ext RField). intros c Hc. cring.
  - transitivity (Sg n (fun d => Sg n (fun c => Sg n (fun b => Sg n (fun a => cmul (cmul (mg Q b a) (mg P (b * n + a) (d * n + c))) (rho c d)))))).
    + rewrite (@Sg_ext RField n _ (fun b => Sg n (fun d => Sg n (fun a => Sg n (fun c => cmul (cmul (mg Q b a) (mg P (b * n + a) (d * n + c))) (rho c d)))))) by (intros; apply (@Sg_swap RField)).
      rewrite (@Sg_swap RField). apply (@Sg_ext RField). intros d Hd.
      rewrite (@Sg_ext RField n _ (fun b => Sg n (fun c => Sg n (fun a => cmul (cmul (mg Q b a) (mg P (b * n + a) (d * n + c))) (rho c d))))) by (intros; apply (@Sg_swap RField)).
      apply (@Sg_swap RField).
    + apply (@Sg_ext RField). intros d Hd. apply (@Sg_ext RField). intros c Hc. rewrite csumn_mul_r. apply (@Sg_ext RField). intros b Hb. rewrite csumn_mul_r. reflexivity.
Qed.
Lemma mean_exp n (Q G : op) (W : wf (n * n) G) tau rho : (forall rho, mean n Q (app n G rho) = c0) -> mean n Q (app n (mexp W tau) rho) = mean n Q rho.
Proof.
  intros H. set (q := (mk2 1 (n * n) (fun _ p => mg Q (p / n) (p mod n)) : op)). assert (Wq : wfm (S:=RS) 1 (n * n) q) by apply wfm_mk2.
  assert (Mq : forall b a, b < n -> a < n -> mg q 0 (b * n + a) = mg Q b a).
  { intros b a Hb Ha. unfold q. rewrite mg_mk2 by (auto; now apply join_lt). rewrite div_join, mod_join by auto. reflexivity. }
  assert (MQ : forall P d c, wf (n * n) P -> d < n -> c < n -> mg (mm q P) 0 (d * n + c) = Sg n (fun b => Sg n (fun a => cmul (mg Q b a) (mg P (b * n + a) (d * n + c))))).
  { intros P d c WP Hd Hc. rewrite (@mg_mmul S 1 (n * n) (n * n)) by (auto; now apply join_lt). rewrite (@sumn_mul_split S n n). apply (@Sg_ext RField). intros b Hb. apply (@Sg_ext RField). intros a Ha. now rewrite Mq. }
  assert (Z : mm q G = mm (mzero (S:=RS) 1 1) q).
  { rewrite (@mmul_0_l S 1 1 (n * n)) by auto. apply (@mat_ext S 1 (n * n)); [wf_solve|wf_solve|]. intros i p Hi Hp. assert (i = 0) by lia. subst i. destruct (@split_index n p Hp) as (d & c & Hd & Hc & ->).
    rewrite (@mg_mzero S) by auto. rewrite MQ by auto. specialize (H (unit_at c d)).
    rewrite (@mean_ext n Q _ (fun a b => mg G (b * n + a) (d * n + c))) in H by (intros; now apply app_unit). exact H. }
  assert (WZ : wf 1 (mzero (S:=RS) 1 1)) by apply wfm_mzero.
  pose proof (@mexp_carry 1 (n * n) q G (mzero (S:=RS) 1 1) W WZ tau Wq Z) as C.
  assert (I : mm (mexp WZ tau) (mid (S:=RS) 1) = mid (S:=RS) 1).
  { apply (@mexp_zero 1 1); [apply wfm_mid|]. apply (@mmul_0_l S 1 1 1). apply wfm_mid. }
  rewrite (@mmul_1_r S 1 1) in I by apply wfm_mexp. rewrite I in C. rewrite (@mmul_1_l S 1 (n * n)) in C by auto.
  rewrite mean_app. unfold mean. apply (@Sg_ext RField). intros d Hd. apply (@Sg_ext RField). intros c Hc. rewrite <- (MQ (mexp W tau) d c) by auto using wfm_mexp. rewrite C. now rewrite Mq.
Qed.
Lemma open_conserved (s : st) n k Ls u w ps fs (Q : op) x : evo s n k Ls u w ps fs -> is_hermitian (S:=RS) n Q -> x < k ->
  (forall t, t < length (s_time s) -> carries n n Q (Dr s t) (Dr s t)) -> (forall c, c < length (c_ctrl (s_conf s)) -> carries n n Q (Ct s c) (Ct s c)) ->
  (forall i, i < length Ls -> carries n n Q (Lk Ls i) (Lk Ls i)) ->
  forall t f, nth_error fs t = Some f -> mean n Q (column n f x) = mean n Q (column n (c_init (s_conf s)) x).
Proof.
  intros E HQ Hx ED EC EL. destruct (osteps E) as (_ & Lf & N0 & WF & ST).
  intros t. induction t as [|t IH]; intros f Hf; [rewrite N0 in Hf; now injection Hf as <-|].
  assert (Ht : t < length (s_time s)) by (assert (Datatypes.S t < length fs) by (apply nth_error_Some; congruence); lia).
  destruct (ST t Ht) as (tau & G & W & g & A1 & [_ A2] & _ & A4 & A5). rewrite A5 in Hf. injection Hf as <-. rewrite <- (IH g A4).
  rewrite (@mean_ext n Q _ (app n (mexp W tau) (column n g x))).
  2:{ intros a b Ha Hb. apply (@column_mm n k (mexp W tau) g x a b); eauto using wfm_mexp. }
  apply mean_exp. intros rho. rewrite (@mean_ext n Q _ (motion n s Ls u w t rho)) by (intros; now apply A2). unfold motion. apply mean_master; auto; [|exact (oe_ops E)]. apply carries_ham; auto. intros c Hc. reflexivity.
Qed.

(** ---- other units ---- *)
Lemma open_units (s s' : st) n k Ls u u' w w' ps ps' fs fs' lam (mu : nat -> R) : evo s n k Ls u w ps fs -> evo s' n k Ls u' w' ps' fs' ->
  s_time s' = map (fun x => lam * x)%R (s_time s) -> length (c_ctrl (s_conf s)) = length (c_ctrl (s_conf s')) ->
  (forall t c, t < length (s_time s) -> c < length (c_ctrl (s_conf s)) -> get2 0%R u' t c = (mu c * get2 0 u t c)%R) ->
  (forall t, t < length (s_time s) -> rescaled n lam (Dr s' t) (Dr s t)) -> (forall c, c < length (c_ctrl (s_conf s)) -> rescaled n (lam * mu c)%R (Ct s' c) (Ct s c)) ->
  (forall t i, t < length (s_time s) -> i < length Ls -> w t i = (lam * w' t i)%R) -> c_init (s_conf s) = c_init (s_conf s') -> ps' = ps /\ fs' = fs.
Proof.
  intros E E' ET EL ER ED EC EW EI. destruct (osteps E) as (Lp & Lf & N0 & WF & ST). destruct (osteps E') as (Lp' & Lf' & N0' & WF' & ST').
  assert (LT : length (s_time s') = length (s_time s)) by (rewrite ET; apply map_length).
  assert (EH : forall t i j, t < length (s_time s) -> i < n -> j < n -> ham s u t i j = cmul (cofk (lam : RField)) (ham s' u' t i j)).
  { intros t i j Ht Hi Hj. unfold hamiltonian. rewrite (ED t Ht i j Hi Hj).
    transitivity (cadd (cmul (cofk (lam : RField)) (mg (Dr s' t) i j)) (cmul (cofk (lam : RField)) (Sg (length (c_ctrl (s_conf s))) (fun c => cmul (cofk (get2 (k0 : RField) u' t c)) (mg (Ct s' c) i j))))).
    - f_equal. rewrite csumn_mul_l. apply (@Sg_ext RField). intros c Hc. etransitivity; [apply f_equal; exact (EC c Hc i j Hi Hj)|]. change (get2 (k0 : RField) u' t c) with (get2 0%R u' t c). rewrite (ER t c Ht Hc).
      change (get2 (k0 : RField) u t c) with (get2 0%R u t c). set (x := get2 0%R u t c). clearbody x. destruct (mg (Ct s' c) i j) as [a b]. unfold cmul, cofk. cbn. f_equal; ring.
    - etransitivity; [symmetry; apply dist_l|]. do 2 f_equal. apply (f_equal (fun m => Sg m (fun c => cmul (cofk (get2 (k0 : RField) u' t c)) (mg (Ct s' c) i j)))). exact EL. }
  assert (EP : forall t, t < length (s_time s) -> nth_error ps' t = nth_error ps t).
  { intros t Ht. destruct (ST t Ht) as (tau & G & W & g & A1 & A2 & A3 & A4 & A5). rewrite <- LT in Ht. destruct (ST' t Ht) as (tau' & G' & W' & g' & B1 & B2 & B3 & B4 & B5). rewrite LT in Ht.
    rewrite A3, B3. do 2 f_equal. rewrite ET in B1. rewrite (map_nth_error _ _ _ A1) in B1. injection B1 as <-.
    assert (EG : G = ms (cofk (lam : RField)) G').
    { apply (@super_ext n); [auto|wf_solve|]. intros rho i j Hi Hj. rewrite (@app_mscale RField) by auto. rewrite (proj2 A2), (proj2 B2) by auto. unfold motion, master.
      rewrite (@comm_ext n _ (fun a b => cmul (cofk (lam : RField)) (ham s' u' t a b)) rho i j Hi Hj) by (intros; now apply EH). rewrite comm_mul.
      rewrite (@Sg_ext RField (length Ls) (fun q => cmul (cofk (w t q : RField)) (dissipation (F:=RField) n (Lk Ls q) rho i j)) (fun q => cmul (cofk (lam : RField)) (cmul (cofk (w' t q : RField)) (dissipation (F:=RField) n (Lk Ls q) rho i j)))).
      2:{ intros q Hq. rewrite (EW t q Ht Hq). generalize (dissipation (F:=RField) n (Lk Ls q) rho i j). intros [a b]. unfold cmul, cofk. cbn. f_equal; ring. }
      rewrite <- csumn_mul_l. symmetry. apply dist_l. }
    subst G.
    rewrite <- (mexp_time W' (ms_real_wf (lam * tau)%R W')), <- (mexp_time W (ms_real_wf tau W)). apply mexp_ext. apply (@mat_ext RS (n * n) (n * n)); [wf_solve|wf_solve|]. intros i j Hi Hj.
    rewrite !(@mg_mscale RS (n * n) (n * n)) by (auto; wf_solve). tocplx. destruct (mg G' i j) as [a b]. unfold cmul, cofk. cbn. f_equal; ring. }
  split.
  - apply nth_error_ext. intros t. destruct (Nat.ltb_spec t (length (s_time s))) as [Ht|Ht]; [now apply EP|]. rewrite (proj2 (nth_error_None ps t)), (proj2 (nth_error_None ps' t)) by lia. reflexivity.
  - apply nth_error_ext. intros t. induction t as [|t IH]; [rewrite N0, N0'; congruence|]. destruct (Nat.ltb_spec t (length (s_time s))) as [Ht|Ht].
    + destruct (ST t Ht) as (tau & G & W & g & A1 & A2 & A3 & A4 & A5). specialize (EP t Ht). rewrite <- LT in Ht. destruct (ST' t Ht) as (tau' & G' & W' & g' & B1 & B2 & B3 & B4 & B5). congruence.
    + rewrite (proj2 (nth_error_None fs _)), (proj2 (nth_error_None fs' _)) by lia. reflexivity.
Qed.

(** ---- divided time steps ---- *)
Lemma open_divided (s s' : st) n k Ls u u' w w' ps ps' fs fs' (pos : nat -> nat) : evo s n k Ls u w ps fs -> evo s' n k Ls u' w' ps' fs' ->
  c_ctrl (s_conf s) = c_ctrl (s_conf s') -> c_init (s_conf s) = c_init (s_conf s') -> pos 0 = 0 -> pos (length (s_time s)) <= length (s_time s') ->
  (forall t, t < length (s_time s) -> pos t <= pos (Datatypes.S t) /\ total (fun j => nth (pos t + j) (s_time s') 0%R) (pos (Datatypes.S t) - pos t) = nth t (s_time s) 0%R) ->
  (forall t j, t < length (s_time s) -> pos t <= j < pos (Datatypes.S t) -> same_row (length (c_ctrl (s_conf s))) u t u' j /\ Dr s t = Dr s' j /\ forall i, i < length Ls -> w t i = w' j i) ->
  forall t f, nth_error fs t = Some f -> nth_error fs' (pos t) = Some f.
Proof.
  intros E E' EC EI P0 PT PS PH. destruct (osteps E) as (_ & Lf & N0 & WF & ST). destruct (osteps E') as (_ & Lf' & N0' & WF' & ST').
  assert (PM : forall t, t <= length (s_time s) -> pos t <= pos (length (s_time s))).
  { intros t Ht. remember (length (s_time s) - t) as d eqn:Ed. revert t Ht Ed. induction d; intros t Ht Ed; [replace t with (length (s_time s)) by lia; lia|].
    etransitivity; [apply (PS t); lia|]. apply IHd; lia. }
  intros t. induction t as [|t IH]; intros f Hf; [rewrite P0, N0', <- EI, <- N0; exact Hf|].
  assert (Ht : t < length (s_time s)) by (assert (Datatypes.S t < length fs) by (apply nth_error_Some; congruence); lia).
  destruct (ST t Ht) as (tau & G & W & g & A1 & A2 & _ & A4 & A5). rewrite A5 in Hf. injection Hf as <-. specialize (IH g A4). destruct (PS t Ht) as [PL PE].
  assert (Q : forall j, pos t + j <= pos (Datatypes.S t) -> nth_error fs' (pos t + j) = Some (mm (mexp W (total (fun j => nth (pos t + j) (s_time s') 0%R) j)) g)).
  { intros j. induction j as [|j IHj]; intros Hj.
    - rewrite Nat.add_0_r. cbn [total]. rewrite mexp_0. rewrite (@mmul_1_l RS (n * n) k); [exact IH|]. eauto.
    - assert (Hb : pos t + j < length (s_time s')) by (pose proof (PM (Datatypes.S t) ltac:(lia)); lia). specialize (IHj ltac:(lia)).
      destruct (ST' _ Hb) as (tau' & G' & W' & g' & B1 & B2 & _ & B4 & B5). destruct (PH t (pos t + j) Ht ltac:(lia)) as (H1 & H2 & H3).
      assert (EG : G' = G).
      { apply (@acts_unique n G' G _ _ B2 A2). intros rho a b Ha Hb'. unfold motion, master. f_equal.
        - apply comm_ext; auto. intros c d Hc Hd. unfold hamiltonian. rewrite <- EC, <- H2. f_equal. apply (@Sg_ext RField). intros e He. do 2 f_equal. symmetry. exact (H1 e He).
        - apply (@Sg_ext RField). intros q Hq. now rewrite <- H3. }
      subst G'. rewrite IHj in B4. injection B4 as <-. replace (pos t + Datatypes.S j) with (Datatypes.S (pos t + j)) by lia. rewrite B5. f_equal.
      cbn [total]. cbv beta. rewrite (nth_error_nth _ _ (0%R : RField) B1). rewrite (mexp_ext W' W tau' eq_refl). set (x := total _ j). assert (Wg := WF _ _ A4). assert (W1 := wfm_mexp W x). assert (W2 := wfm_mexp W tau').
      rewrite (@mmul_assoc RS (n * n) (n * n) (n * n) k) by wf_solve. rewrite <- mexp_plus. now rewrite Rplus_comm. }
  specialize (Q (pos (Datatypes.S t) - pos t) ltac:(lia)). rewrite PE in Q. replace (pos t + (pos (Datatypes.S t) - pos t)) with (pos (Datatypes.S t)) in Q by lia. rewrite Q. f_equal. f_equal. f_equal. exact (nth_error_nth _ _ (0%R : RField) A1).
Qed.
End Open.
