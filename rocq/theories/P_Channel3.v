(** The propagators of a LindbladSolver with rates >= 0 are channels. *)
Require Import List Arith Lia Ring Field Bool Reals Lra.
From Verif Require Import LibBase LibRing LibArr LibCplx LibMat LibNorm LibSum LibDeriv M_Matrix S_Linear S_Exp P_Linear P_Frechet
  M_OpHeap M_Transfer S_Transfer M_Amplitude M_Solver S_Solver P_Solver7 S_Lindblad S_Channel P_Lindblad P_Channel P_Channel2.
Import ListNotations.
Set Implicit Arguments.

Section Channel.
Add Field Cfield_ch3 : (c_field RField).
Variable rexp : R -> R.
Variable la : LinAlg RField.
Variable eps : cplx RField.
Notation op := (mat RS).
Notation st := (@st RField).

Lemma used_channels d (s0 s : st) n l u w ps : used (F:=RField) rexp la eps d s0 s -> physical n l s u w -> exponentiates la (n * n) s ->
  returns (F:=RField) rexp la eps s SPropag (VProp ps) ->
  length ps = length (s_time s) /\ forall t, t < length (s_time s) -> exists E, nth_error ps t = Some (Some E) /\ channel n E.
Proof.
  intros U (C & LF & (Ls & LO & WL & Rt & Pw) & HD & HC & LD & A & PT) EX R.
  destruct (@used_lindblad_ops RField rexp la eps d s0 s n l Ls u w ps U C LF LO WL HD HC A Rt R) as [E Q]. split; auto.
  intros t Ht. destruct (Q t Ht) as (P & G & tau & H1 & H2 & H3 & H4). exists P. split; auto.
  assert (H0 : (0 <= tau)%R) by (rewrite Forall_forall in PT; apply PT; eapply nth_error_In; eauto).
  refine (@exp_channel n _ Ls (w t) G tau P _ _ H0 H3 (EX G P tau (proj1 H3) H4)); [|intros k Hk; now apply (Pw t k)].
  apply hamiltonian_herm; auto. rewrite Forall_forall in HD. apply HD. apply nth_In. lia.
Qed.
Lemma channels_square d (s0 s : st) n l u w ps : used (F:=RField) rexp la eps d s0 s -> physical n l s u w -> exponentiates la (n * n) s ->
  returns (F:=RField) rexp la eps s SPropag (VProp ps) -> all_square (n * n) ps.
Proof.
  intros U P EX R Q HQ. destruct (used_channels U P EX R) as [L H]. apply In_nth_error in HQ. destruct HQ as [t Ht].
  assert (Lt : t < length (s_time s)) by (rewrite <- L; apply nth_error_Some; congruence). destruct (H t Lt) as (E & HE & CE). assert (Q = E) by congruence. subst. exact (proj1 CE).
Qed.
Lemma used_forward_channels d (s0 s : st) n l u w fs : used (F:=RField) rexp la eps d s0 s -> physical n l s u w -> exponentiates la (n * n) s ->
  channel n (c_init (s_conf s)) -> (exists ps, returns (F:=RField) rexp la eps s SPropag (VProp ps)) -> returns (F:=RField) rexp la eps s SFwd (VOps fs) ->
  length fs = Datatypes.S (length (s_time s)) /\ Forall (channel n) fs.
Proof.
  intros U P EX CI [ps R] Rf. destruct (used_channels U P EX R) as [L H].
  destruct (@used_forward RField rexp la eps d s0 s ps fs (n * n) (n * n) U R Rf (channels_square U P EX R) (proj1 CI)) as (Lf & F0 & Fs).
  split; [now rewrite Lf, L|].
  assert (Q : forall i f, i <= length ps -> nth_error fs i = Some f -> channel n f).
  { induction i; intros f Hi Hf.
    - specialize (F0 f). destruct fs; [discriminate|]. cbn in F0, Hf. injection Hf as <-. now subst.
    - destruct (Fs i Hi) as (Pi & g & g' & N1 & N2 & N3 & PR). pose proof (eq_trans (eq_sym N3) Hf) as X0. injection X0 as X0. subst g'. assert (CG := IHi g (Nat.lt_le_incl _ _ Hi) N2).
      rewrite L in Hi. destruct (H i Hi) as (E & N4 & CE). pose proof (eq_trans (eq_sym N1) N4) as X. injection X as X. subst Pi.
      rewrite (@is_product_eq RS (n * n) (n * n) (n * n) E g f); auto; [now apply channel_mmul|apply is_matrix_wfm, CE|apply is_matrix_wfm, CG]. }
  apply Forall_forall. intros f Hf. apply In_nth_error in Hf. destruct Hf as [i Hi]. apply (Q i); auto.
  assert (i < length fs) by (apply nth_error_Some; intros N; pose proof (eq_trans (eq_sym N) Hi) as X; discriminate X). lia.
Qed.
Lemma used_forward_states d (s0 s : st) n l u w fs rho : used (F:=RField) rexp la eps d s0 s -> physical n l s u w -> exponentiates la (n * n) s ->
  vectorised n rho (c_init (s_conf s)) -> density n rho -> (exists ps, returns (F:=RField) rexp la eps s SPropag (VProp ps)) -> returns (F:=RField) rexp la eps s SFwd (VOps fs) ->
  length fs = Datatypes.S (length (s_time s)) /\ Forall (fun f => exists sigma, vectorised n sigma f /\ density n sigma) fs.
Proof.
  intros U P EX VI DI [ps R] Rf. destruct (used_channels U P EX R) as [L H].
  destruct (@used_forward RField rexp la eps d s0 s ps fs (n * n) 1 U R Rf (channels_square U P EX R) (proj1 VI)) as (Lf & F0 & Fs).
  split; [now rewrite Lf, L|].
  assert (Q : forall i f, i <= length ps -> nth_error fs i = Some f -> exists sigma, vectorised n sigma f /\ density n sigma).
  { induction i; intros f Hi Hf.
    - specialize (F0 f). destruct fs; [discriminate|]. cbn in F0, Hf. injection Hf as <-. subst. eauto.
    - destruct (Fs i Hi) as (Pi & g & g' & N1 & N2 & N3 & [WP PR]). pose proof (eq_trans (eq_sym N3) Hf) as X0. injection X0 as X0. subst g'. destruct (IHi g (Nat.lt_le_incl _ _ Hi) N2) as (sigma & [Wg Vg] & Ds).
      rewrite L in Hi. destruct (H i Hi) as (E & N4 & CE). pose proof (eq_trans (eq_sym N1) N4) as X. injection X as X. subst Pi.
      exists (apply_super (F:=RField) n E sigma). split; [|now apply channel_density]. split; auto. intros a b Ha Hb.
      rewrite PR by (auto; now apply join_lt). rewrite (@sumn_mul_split RS n n). unfold apply_super. apply (@Sg_ext RField). intros c Hc. apply (@Sg_ext RField). intros e He. rewrite Vg by auto. reflexivity. }
  apply Forall_forall. intros f Hf. apply In_nth_error in Hf. destruct Hf as [i Hi]. apply (Q i); auto.
  assert (i < length fs) by (apply nth_error_Some; intros N; pose proof (eq_trans (eq_sym N) Hi) as X; discriminate X). lia.
Qed.
End Channel.
