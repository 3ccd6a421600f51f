(** The propagators of Lindblad solvers with dissipation given as super operators are channels (C67). *)
Require Import List Arith Lia Ring Field Bool Reals Lra.
From Verif Require Import LibBase LibRing LibArr LibCplx LibMat LibNorm LibSum LibDeriv M_Matrix S_Linear S_Exp P_Linear P_Frechet
  M_OpHeap M_Transfer S_Transfer M_Amplitude M_Solver S_Solver P_Solver7 S_Lindblad S_Channel P_Lindblad P_LindbladDer P_Channel P_Channel2 S_ChannelSuper.
Import ListNotations.
Set Implicit Arguments.

Section Channel.
Add Field Cfield_chs : (c_field RField).
Variable rexp : R -> R.
Variable la : LinAlg RField.
Variable eps : cplx RField.
Notation op := (mat RS).
Notation st := (@st RField).
Notation dop := (Arr [] [] : op).

(** sums of dissipations are dissipations *)
Lemma flatten n (Ds : list op) : Forall (dissipative n) Ds -> forall w : nat -> R, (forall k, k < length Ds -> (0 <= w k)%R) -> exists (Ls : list op) (v : nat -> R),
  (forall k, k < length Ls -> (0 <= v k)%R) /\ forall rho i j, i < n -> j < n ->
    Sg (length Ds) (fun k => cmul (cofk (w k : RField)) (apply_super (F:=RField) n (nth k Ds dop) rho i j)) = Sg (length Ls) (fun k => cmul (cofk (v k : RField)) (dissipation (F:=RField) n (nth k Ls dop) rho i j)).
Proof.
  induction Ds as [|D Ds IH]; intros H w Hw.
  - exists [], (fun _ => 0%R). split; [cbn; intros; lia|]. reflexivity.
  - inversion H as [|? ? (_ & L1 & v1 & P1 & E1) H']; subst. destruct (IH H' (fun k => w (S k))) as (L2 & v2 & P2 & E2).
    { intros k Hk. apply Hw. cbn. lia. }
    exists (L1 ++ L2), (fun k => if Nat.ltb k (length L1) then (w 0%nat * v1 k)%R else v2 (k - length L1)). split.
    + intros k Hk. rewrite app_length in Hk. destruct (Nat.ltb_spec k (length L1)); [|apply P2; lia]. apply Rmult_le_pos; [apply Hw; cbn; lia|now apply P1].
    + intros rho i j Hi Hj. cbn [length]. rewrite (@sumn_S_l RS). cbn [nth]. specialize (E2 rho i j Hi Hj). cbn beta in E2. rewrite E2, E1 by auto. rewrite app_length, (@sumn_app RS). f_equal.
      * etransitivity; [symmetry; apply (@sumn_mul_l RS)|]. apply (@sumn_ext RS). intros k Hk. rewrite app_nth1 by auto. apply Nat.ltb_lt in Hk. rewrite Hk. change (w 0%nat * v1 k)%R with (kmul (w 0%nat : RField) (v1 k : RField)). rewrite cofk_mul. cring.
      * apply (@sumn_ext RS). intros k Hk. rewrite app_nth2 by lia. replace (length L1 + k - length L1) with k by lia. replace (Nat.ltb (length L1 + k) (length L1)) with false; [reflexivity|]. symmetry. apply Nat.ltb_ge. lia.
Qed.
Lemma matrices n Ds : Forall (dissipative n) Ds -> Forall (is_matrix (S:=RS) (n * n) (n * n) : op -> Prop) Ds.
Proof. apply Forall_impl. intros D HD. apply HD. Qed.
(** the exponential of one step *)
Lemma step_channel n l (s : st) u t (Ds : list op) (w : nat -> R) G tau P : closed_part n l s u -> t < length (s_time s) -> nth_error (s_time s) t = Some tau ->
  Forall (dissipative n) Ds -> (forall k, k < length Ds -> (0 <= w k)%R) ->
  acts_as (F:=RField) n G (master_super (F:=RField) n (hamiltonian (F:=RField) (nth t (s_drift s) dop) (c_ctrl (s_conf s)) (fun c => get2 (0%R : RField) u t c)) Ds w) ->
  is_exponential (n * n) (mscale (S:=RS) (cofk (tau : RField)) G) P -> channel n P.
Proof.
  intros (_ & HD & HC & LD & _ & PT) Ht Htau HDs Hw HG HE. destruct (flatten HDs w Hw) as (Ls & v & Pv & EV).
  assert (H0 : (0 <= tau)%R) by (rewrite Forall_forall in PT; apply PT; eapply nth_error_In; eauto).
  refine (@exp_channel n _ Ls v G tau P _ Pv H0 _ HE).
  - apply hamiltonian_herm; [|exact HC]. rewrite Forall_forall in HD. apply HD. apply nth_In. exact (Nat.lt_le_trans _ _ _ Ht LD).
  - eapply acts_as_ext; [|exact HG]. intros rho i j Hi Hj. unfold master_super, master. f_equal. now apply EV.
Qed.
Lemma super_channels d (s0 s : st) n l u w ps : used (F:=RField) rexp la eps d s0 s -> closed_part n l s u -> given_super n l s0 s u w -> exponentiates la (n * n) s ->
  returns (F:=RField) rexp la eps s SPropag (VProp ps) -> length ps = length (s_time s) /\ forall t, t < length (s_time s) -> exists E, nth_error ps t = Some (Some E) /\ channel n E.
Proof.
  intros U C (LF & LO & Ds & HU & HD & Rt & Pw) EX R. pose proof C as (C1 & C2 & C3 & C4 & C5 & C6).
  destruct (@used_lindblad_super RField rexp la eps d s0 s n l Ds u w ps U C1 LF LO HU (matrices HD) C2 C3 C5 Rt R) as [E Q]. split; auto.
  intros t Ht. destruct (Q t Ht) as (P & G & tau & H1 & H2 & H3 & H4). exists P. split; auto. 
  eapply (@step_channel n l s u t Ds (w t)); eauto. exact (EX G P tau (proj1 H3) H4).
Qed.
Lemma function_channels d (s0 s : st) n l u ps : used (F:=RField) rexp la eps d s0 s -> closed_part n l s u -> given_function n l s u -> exponentiates la (n * n) s ->
  returns (F:=RField) rexp la eps s SPropag (VProp ps) -> length ps = length (s_time s) /\ forall t, t < length (s_time s) -> exists E, nth_error ps t = Some (Some E) /\ channel n E.
Proof.
  intros U C (f & Ds & LF & HF & HD & LD) EX R. pose proof C as (C1 & C2 & C3 & C4 & C5 & C6).
  destruct (@used_lindblad_fun RField rexp la eps d s0 s n l f Ds u ps U C1 LF C2 C3 C5 HF (matrices HD) R) as [E Q]. split; auto.
  intros t Ht. destruct (Q t Ht) as (P & G & tau & H1 & H2 & H3 & H4). exists P. split; auto.
  eapply (@step_channel n l s u t [nth t Ds dop] (fun _ => 1%R)); eauto.
  - constructor; [|constructor]. rewrite Forall_forall in HD. apply HD, nth_In. exact (Nat.lt_le_trans _ _ _ Ht LD).
  - intros. lra.
  - eapply acts_as_ext; [|exact H3]. intros rho i j Hi Hj. unfold master_super. cbn [length sumn nth]. tocplx. f_equal. change (cofk (1%R : RField)) with (@c1 RField). cring.
  - exact (EX G P tau (proj1 H3) H4).
Qed.
(** ---- products of channels ---- *)
Definition all_channels (n : nat) (s : st) (ps : list (option op)) : Prop := length ps = length (s_time s) /\ forall t, t < length (s_time s) -> exists E, nth_error ps t = Some (Some E) /\ channel n E.
Lemma channels_square n (s : st) ps : all_channels n s ps -> all_square (n * n) ps.
Proof.
  intros [L H] Q HQ. apply In_nth_error in HQ. destruct HQ as [t Ht].
  assert (Lt : t < length (s_time s)) by (rewrite <- L; apply nth_error_Some; intros N; pose proof (eq_trans (eq_sym N) Ht) as X; discriminate X). destruct (H t Lt) as (E & HE & CE). pose proof (eq_trans (eq_sym Ht) HE) as X. injection X as X. subst. exact (proj1 CE).
Qed.
Lemma product_channels d (s0 s : st) n ps fs : used (F:=RField) rexp la eps d s0 s -> returns (F:=RField) rexp la eps s SPropag (VProp ps) -> all_channels n s ps ->
  channel n (c_init (s_conf s)) -> returns (F:=RField) rexp la eps s SFwd (VOps fs) -> length fs = Datatypes.S (length (s_time s)) /\ Forall (channel n) fs.
Proof.
  intros U R AC CI Rf. pose proof AC as [L H].
  destruct (@used_forward RField rexp la eps d s0 s ps fs (n * n) (n * n) U R Rf (channels_square AC) (proj1 CI)) as (Lf & F0 & Fs).
  split; [exact (eq_trans Lf (f_equal Datatypes.S L))|].
  assert (Q : forall i f, i <= length ps -> nth_error fs i = Some f -> channel n f).
  { induction i; intros f Hi Hf.
    - specialize (F0 f). destruct fs; [discriminate|]. cbn in F0, Hf. injection Hf as <-. now subst.
    - destruct (Fs i Hi) as (Pi & g & g' & N1 & N2 & N3 & PR). pose proof (eq_trans (eq_sym N3) Hf) as X0. injection X0 as X0. subst g'. assert (CG := IHi g (Nat.lt_le_incl _ _ Hi) N2).
      apply (fun h => Nat.lt_le_trans _ _ _ h (Nat.eq_le_incl _ _ L)) in Hi. destruct (H i Hi) as (E & N4 & CE). pose proof (eq_trans (eq_sym N1) N4) as X. injection X as X. subst Pi.
      rewrite (@is_product_eq RS (n * n) (n * n) (n * n) E g f); auto; [now apply channel_mmul|apply is_matrix_wfm, CE|apply is_matrix_wfm, CG]. }
  apply Forall_forall. intros f Hf. apply In_nth_error in Hf. destruct Hf as [i Hi]. apply (Q i); auto.
  assert (i < length fs) by (apply nth_error_Some; intros N; pose proof (eq_trans (eq_sym N) Hi) as X; discriminate X). apply Nat.lt_succ_r. rewrite Lf in H0. exact H0.
Qed.
Lemma product_states d (s0 s : st) n ps fs rho : used (F:=RField) rexp la eps d s0 s -> returns (F:=RField) rexp la eps s SPropag (VProp ps) -> all_channels n s ps ->
  vectorised n rho (c_init (s_conf s)) -> density n rho -> returns (F:=RField) rexp la eps s SFwd (VOps fs) ->
  length fs = Datatypes.S (length (s_time s)) /\ Forall (fun f => exists sigma, vectorised n sigma f /\ density n sigma) fs.
Proof.
  intros U R AC VI DI Rf. pose proof AC as [L H].
  destruct (@used_forward RField rexp la eps d s0 s ps fs (n * n) 1 U R Rf (channels_square AC) (proj1 VI)) as (Lf & F0 & Fs).
  split; [exact (eq_trans Lf (f_equal Datatypes.S L))|].
  assert (Q : forall i f, i <= length ps -> nth_error fs i = Some f -> exists sigma, vectorised n sigma f /\ density n sigma).
  { induction i; intros f Hi Hf.
    - specialize (F0 f). destruct fs; [discriminate|]. cbn in F0, Hf. injection Hf as <-. subst. eauto.
    - destruct (Fs i Hi) as (Pi & g & g' & N1 & N2 & N3 & [WP PR]). pose proof (eq_trans (eq_sym N3) Hf) as X0. injection X0 as X0. subst g'. destruct (IHi g (Nat.lt_le_incl _ _ Hi) N2) as (sigma & [Wg Vg] & Ds).
      apply (fun h => Nat.lt_le_trans _ _ _ h (Nat.eq_le_incl _ _ L)) in Hi. destruct (H i Hi) as (E & N4 & CE). pose proof (eq_trans (eq_sym N1) N4) as X. injection X as X. subst Pi.
      exists (apply_super (F:=RField) n E sigma). split; [|now apply channel_density]. split; auto. intros a b Ha Hb.
      rewrite PR by (auto; now apply join_lt). rewrite (@sumn_mul_split RS n n). unfold apply_super. apply (@Sg_ext RField). intros c Hc. apply (@Sg_ext RField). intros e He. rewrite Vg by auto. reflexivity. }
  apply Forall_forall. intros f Hf. apply In_nth_error in Hf. destruct Hf as [i Hi]. apply (Q i); auto.
  assert (i < length fs) by (apply nth_error_Some; intros N; pose proof (eq_trans (eq_sym N) Hi) as X; discriminate X). apply Nat.lt_succ_r. rewrite Lf in H0. exact H0.
Qed.
(** both ways of giving super operators *)
Definition given_either (n : nat) l (s0 s : st) u w : Prop := given_super n l s0 s u w \/ given_function n l s u.
Lemma either_channels d (s0 s : st) n l u w ps : used (F:=RField) rexp la eps d s0 s -> closed_part n l s u -> given_super n l s0 s u w \/ given_function n l s u -> exponentiates la (n * n) s ->
  returns (F:=RField) rexp la eps s SPropag (VProp ps) -> all_channels n s ps.
Proof. intros U C [G|G] EX R; [eapply super_channels|eapply function_channels]; eauto. Qed.
Lemma either_forward d (s0 s : st) n l u w ps fs : used (F:=RField) rexp la eps d s0 s -> closed_part n l s u -> given_super n l s0 s u w \/ given_function n l s u -> exponentiates la (n * n) s ->
  returns (F:=RField) rexp la eps s SPropag (VProp ps) -> channel n (c_init (s_conf s)) -> returns (F:=RField) rexp la eps s SFwd (VOps fs) ->
  length fs = Datatypes.S (length (s_time s)) /\ Forall (channel n) fs.
Proof. intros U C G EX R. apply (product_channels U R). eapply either_channels; eauto. Qed.
Lemma either_states d (s0 s : st) n l u w ps fs rho : used (F:=RField) rexp la eps d s0 s -> closed_part n l s u -> given_super n l s0 s u w \/ given_function n l s u -> exponentiates la (n * n) s ->
  returns (F:=RField) rexp la eps s SPropag (VProp ps) -> vectorised n rho (c_init (s_conf s)) -> density n rho -> returns (F:=RField) rexp la eps s SFwd (VOps fs) ->
  length fs = Datatypes.S (length (s_time s)) /\ Forall (fun f => exists sigma, vectorised n sigma f /\ density n sigma) fs.
Proof. intros U C G EX R. apply (product_states U R). eapply either_channels; eauto. Qed.
(** what the code computes from an operator is such a super operator *)
Lemma computed_dissipative n (L : op) : is_matrix (S:=RS) n n L -> exists D, dissipator (F:=RField) (mid (S:=RS) n) L = Ok D /\ dissipative n D.
Proof.
  intros W. apply is_matrix_wfm in W. destruct (@dissipator_acts RField n L W) as (D & E & A1 & A2). exists D. split; [exact E|]. split; [exact A1|]. exists [L], (fun _ => 1%R). split; [intros; lra|].
  intros rho i j Hi Hj. rewrite A2 by auto. cbn [length sumn nth]. tocplx. change (cofk (1%R : RField)) with (@c1 RField). cring.
Qed.
End Channel.
