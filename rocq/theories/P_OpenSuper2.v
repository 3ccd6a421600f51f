(** Proofs for C83 where the dissipation is given as super operators or by a function, part 2: other units, divided time steps. *)
Require Import List Arith Lia Bool Reals Lra.
From Verif Require Import LibBase LibRing LibArr LibCplx LibMat LibNorm LibDeriv LibSeries M_Matrix S_Linear S_Deriv S_Exp P_Linear P_Matrix P_Frechet P_Mexp P_Mexp2 M_OpHeap M_Transfer S_Transfer M_Amplitude S_Amplitude P_Amplitude M_Solver S_Solver P_Solver7 S_Lindblad S_Channel P_Lindblad P_LindbladDer P_Channel P_Channel2 S_Invariance P_Invariance P_Invariance2 P_SolverMC S_OpenSym P_OpenSym P_OpenSym2 P_OpenSym3 P_OpenSym4 S_OpenSuper P_OpenSuper.
Import ListNotations.
Local Open Scope res_scope.
Set Implicit Arguments.

Section Super.
Add Field Cfield_osu2 : (c_field RField).
Notation op := (mat RS).
Notation st := (@st RField).
Notation S := RS.
Notation mm := (mmul (S:=RS)).
Notation ms := (mscale (S:=RS)).
Notation app := (apply_super (F:=RField)).
Notation dop := (Arr [] [] : mat RS).
Notation wf n A := (wfm (S:=RS) n n A).
Hint Resolve wfm_mexp wfm_mpw : wfm.
Variable rexp : R -> R.
Variable la : LinAlg RField.
Variable eps : cplx RField.
Notation evo := (open_evolution rexp la eps).
Notation sevo := (super_evolution rexp la eps).
Notation ham s u t := (hamiltonian (F:=RField) (Dr s t) (c_ctrl (s_conf s)) (fun c => get2 (k0 : RField) u t c)).
Lemma super_units (s s' : st) n k u u' Di Di' ps ps' fs fs' lam (mu : nat -> R) : sevo s n k u Di ps fs -> sevo s' n k u' Di' ps' fs' ->
  s_time s' = map (fun x => lam * x)%R (s_time s) -> length (c_ctrl (s_conf s)) = length (c_ctrl (s_conf s')) ->
  (forall t c, t < length (s_time s) -> c < length (c_ctrl (s_conf s)) -> get2 0%R u' t c = (mu c * get2 0 u t c)%R) ->
  (forall t, t < length (s_time s) -> rescaled n lam (Dr s' t) (Dr s t)) -> (forall c, c < length (c_ctrl (s_conf s)) -> rescaled n (lam * mu c)%R (Ct s' c) (Ct s c)) ->
  (forall t rho i j, t < length (s_time s) -> i < n -> j < n -> Di t rho i j = cmul (cofk (lam : RField)) (Di' t rho i j)) -> c_init (s_conf s) = c_init (s_conf s') -> ps' = ps /\ fs' = fs.
Proof.
  intros E E' ET EL ER ED EC EW EI. destruct (super_moves E) as (Lp & Lf & N0 & WF & ST). destruct (super_moves E') as (Lp' & Lf' & N0' & WF' & ST').
  assert (LT : length (s_time s') = length (s_time s)) by (rewrite ET; apply map_length).
  assert (EH : forall t i j, t < length (s_time s) -> i < n -> j < n -> ham s u t i j = cmul (cofk (lam : RField)) (ham s' u' t i j)).
  { intros t i j Ht Hi Hj. unfold hamiltonian. rewrite (ED t Ht i j Hi Hj).
    transitivity (cadd (cmul (cofk (lam : RField)) (mg (Dr s' t) i j)) (cmul (cofk (lam : RField)) (Sg (length (c_ctrl (s_conf s))) (fun c => cmul (cofk (get2 (k0 : RField) u' t c)) (mg (Ct s' c) i j))))).
    - f_equal. rewrite csumn_mul_l. apply (@Sg_ext RField). intros c Hc. etransitivity; [apply f_equal; exact (EC c Hc i j Hi Hj)|]. change (get2 (k0 : RField) u' t c) with (get2 0%R u' t c). rewrite (ER t c Ht Hc).
      change (get2 (k0 : RField) u t c) with (get2 0%R u t c). set (x := get2 0%R u t c). clearbody x. destruct (mg (Ct s' c) i j) as [a b]. unfold cmul, cofk. cbn. f_equal; ring.
    - etransitivity; [symmetry; apply dist_l|]. do 2 f_equal. apply (f_equal (fun m => Sg m (fun c => cmul (cofk (get2 (k0 : RField) u' t c)) (mg (Ct s' c) i j)))). exact EL. }
  assert (EP : forall t, t < length (s_time s) -> nth_error ps' t = nth_error ps t).
  { intros t Ht. destruct (ST t Ht) as (tau & G & W & g & A1 & A2 & A3 & A4 & A5). rewrite <- LT in Ht. destruct (ST' t Ht) as (tau' & G' & W' & g' & B1 & B2 & B3 & B4 & B5). rewrite LT in Ht.
    rewrite A3, B3. do 2 f_equal. rewrite ET in B1. rewrite (map_nth_error _ _ _ A1) in B1. injection B1 as <-.
    assert (EG : G = ms (cofk (lam : RField)) G').
    { apply (@super_ext n); [auto|wf_solve|]. intros rho i j Hi Hj. rewrite (@app_mscale RField) by auto. rewrite (proj2 A2), (proj2 B2) by auto. unfold damped_motion.
      rewrite (@comm_ext n _ (fun a b => cmul (cofk (lam : RField)) (ham s' u' t a b)) rho i j Hi Hj) by (intros; now apply EH). rewrite comm_mul.
      rewrite (EW t rho i j Ht Hi Hj). symmetry. apply dist_l. }
    subst G.
    rewrite <- (mexp_time W' (ms_real_wf (lam * tau)%R W')), <- (mexp_time W (ms_real_wf tau W)). apply mexp_ext. apply (@mat_ext RS (n * n) (n * n)); [wf_solve|wf_solve|]. intros i j Hi Hj.
    rewrite !(@mg_mscale RS (n * n) (n * n)) by (auto; wf_solve). tocplx. destruct (mg G' i j) as [a b]. unfold cmul, cofk. cbn. f_equal; ring. }
  split.
  - apply nth_error_ext. intros t. destruct (Nat.ltb_spec t (length (s_time s))) as [Ht|Ht]; [now apply EP|]. rewrite (proj2 (nth_error_None ps t)), (proj2 (nth_error_None ps' t)) by lia. reflexivity.
  - apply nth_error_ext. intros t. induction t as [|t IH]; [rewrite N0, N0'; congruence|]. destruct (Nat.ltb_spec t (length (s_time s))) as [Ht|Ht].
    + destruct (ST t Ht) as (tau & G & W & g & A1 & A2 & A3 & A4 & A5). specialize (EP t Ht). rewrite <- LT in Ht. destruct (ST' t Ht) as (tau' & G' & W' & g' & B1 & B2 & B3 & B4 & B5). congruence.
    + rewrite (proj2 (nth_error_None fs _)), (proj2 (nth_error_None fs' _)) by lia. reflexivity.
Qed.

(** ---- divided time steps ---- *)
Lemma super_divided (s s' : st) n k u u' Di Di' ps ps' fs fs' (pos : nat -> nat) : sevo s n k u Di ps fs -> sevo s' n k u' Di' ps' fs' ->
  c_ctrl (s_conf s) = c_ctrl (s_conf s') -> c_init (s_conf s) = c_init (s_conf s') -> pos 0 = 0 -> pos (length (s_time s)) <= length (s_time s') ->
  (forall t, t < length (s_time s) -> pos t <= pos (Datatypes.S t) /\ total (fun j => nth (pos t + j) (s_time s') 0%R) (pos (Datatypes.S t) - pos t) = nth t (s_time s) 0%R) ->
  (forall t j, t < length (s_time s) -> pos t <= j < pos (Datatypes.S t) -> same_row (length (c_ctrl (s_conf s))) u t u' j /\ Dr s t = Dr s' j /\ forall rho a b, a < n -> b < n -> Di t rho a b = Di' j rho a b) ->
  forall t f, nth_error fs t = Some f -> nth_error fs' (pos t) = Some f.
Proof.
  intros E E' EC EI P0 PT PS PH. destruct (super_moves E) as (_ & Lf & N0 & WF & ST). destruct (super_moves E') as (_ & Lf' & N0' & WF' & ST').
  assert (PM : forall t, t <= length (s_time s) -> pos t <= pos (length (s_time s))).
  { intros t Ht. remember (length (s_time s) - t) as d eqn:Ed. revert t Ht Ed. induction d; intros t Ht Ed; [replace t with (length (s_time s)) by lia; lia|].
    etransitivity; [apply (PS t); lia|]. apply IHd; lia. }
  intros t. induction t as [|t IH]; intros f Hf; [rewrite P0, N0', <- EI, <- N0; exact Hf|].
  assert (Ht : t < length (s_time s)) by (assert (Datatypes.S t < length fs) by (apply nth_error_Some; congruence); lia).
  destruct (ST t Ht) as (tau & G & W & g & A1 & A2 & _ & A4 & A5). rewrite A5 in Hf. injection Hf as <-. specialize (IH g A4). destruct (PS t Ht) as [PL PE].
  assert (Q : forall j, pos t + j <= pos (Datatypes.S t) -> nth_error fs' (pos t + j) = Some (mm (mexp W (total (fun j => nth (pos t + j) (s_time s') 0%R) j)) g)).
  { intros j. induction j as [|j IHj]; intros Hj.
    - rewrite Nat.add_0_r. cbn [total]. rewrite mexp_0. rewrite (@mmul_1_l RS (n * n) k); [exact IH|]. eauto.
    - assert (Hb : pos t + j < length (s_time s')) by (pose proof (PM (Datatypes.S t) ltac:(lia)); lia). specialize (IHj ltac:(lia)).
      destruct (ST' _ Hb) as (tau' & G' & W' & g' & B1 & B2 & _ & B4 & B5). destruct (PH t (pos t + j) Ht ltac:(lia)) as (H1 & H2 & H3).
      assert (EG : G' = G).
      { apply (@acts_unique n G' G _ _ B2 A2). intros rho a b Ha Hb'. unfold damped_motion. f_equal.
        - apply comm_ext; auto. intros c d Hc Hd. unfold hamiltonian. rewrite <- EC, <- H2. f_equal. apply (@Sg_ext RField). intros e He. do 2 f_equal. symmetry. exact (H1 e He).
        - symmetry. now apply H3. }
      subst G'. rewrite IHj in B4. injection B4 as <-. replace (pos t + Datatypes.S j) with (Datatypes.S (pos t + j)) by lia. rewrite B5. f_equal.
      cbn [total]. cbv beta. rewrite (nth_error_nth _ _ (0%R : RField) B1). rewrite (mexp_ext W' W tau' eq_refl). set (x := total _ j). assert (Wg := WF _ _ A4). assert (W1 := wfm_mexp W x). assert (W2 := wfm_mexp W tau').
      rewrite (@mmul_assoc RS (n * n) (n * n) (n * n) k) by wf_solve. rewrite <- mexp_plus. now rewrite Rplus_comm. }
  specialize (Q (pos (Datatypes.S t) - pos t) ltac:(lia)). rewrite PE in Q. replace (pos t + (pos (Datatypes.S t) - pos t)) with (pos (Datatypes.S t)) in Q by lia. rewrite Q. f_equal. f_equal. f_equal. exact (nth_error_nth _ _ (0%R : RField) A1).
Qed.
End Super.
