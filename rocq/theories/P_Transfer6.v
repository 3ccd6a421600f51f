(** Whether a transfer function and its gradient are defined depends on shapes only (C16). *)
Require Import List Arith Lia Bool.
From Verif Require Import LibBase LibRing LibArr LibSum M_Transfer S_Transfer P_Transfer P_Transfer2 P_Transfer3 P_Transfer4.
Import ListNotations.
Open Scope res_scope.
Set Implicit Arguments.

Section Total.
Variable F : OField.
Variable rexp : F -> F.
Notation arrF := (arr (kcar F)).
Notation tf := (tf F).

Definition total t : Prop :=
  (forall y, wfa [b_ny (tbase t); b_ctrls (tbase t)] y -> exists x, cv rexp t y = Ok x) /\
  (forall g f, wfa [b_nx (tbase t); f; b_ctrls (tbase t)] g -> exists h, gv rexp t g = Ok h /\ wfa [b_ny (tbase t); f; b_ctrls (tbase t)] h).

Lemma matrix_total t y x : has_times (tbase t) -> (forall y, cv rexp t y = pmcall rexp t y) -> (forall g, gv rexp t g = pmgrad rexp t g) ->
  (forall T, pown rexp t = Ok T -> wfa [b_nx (tbase t); b_ny (tbase t); b_ctrls (tbase t)] T) ->
  wfa [b_ny (tbase t); b_ctrls (tbase t)] y -> cv rexp t y = Ok x -> total t.
Proof.
  intros Ht E1 E2 HT Hy Ex. rewrite E1 in Ex. unfold pmcall in Ex. rewrite (@check_dims_ok F _ _ Ht Hy) in Ex. cbn [bind] in Ex.
  destruct (pown rexp t) as [T|] eqn:EP; [|discriminate]. specialize (HT T eq_refl). split.
  - intros y' Hy'. rewrite E1. unfold pmcall. rewrite (@check_dims_ok F _ _ Ht Hy'), EP. cbn [bind]. rewrite (einsum_call_ok F HT Hy'). cbn [bind]. eauto.
  - intros g f Hg. rewrite E2. unfold pmgrad. rewrite (@check_grad_ok F _ _ _ Hg), EP. destruct (is_exp t); cbn [bind]; rewrite (einsum_grad_ok F HT Hg); eexists; (split; [reflexivity|apply wfa_mk3]).
Qed.

Lemma defined_total t : fits t -> forall y x, wfa [b_ny (tbase t); b_ctrls (tbase t)] y -> cv rexp t y = Ok x -> total t.
Proof.
  induction t as [k b|b t1 IH1 t2 IH2|b t1 IH1 t2 IH2|b t1 IH1 t2 IH2|b t1 IH1 t2 IH2]; intros Ft y x Hy Ex.
  - destruct k as [| |ker m mg cval| | |rise].
    1-4: apply simple_defined; [exact Ft|exact I].
    + destruct Ft.
    + eapply matrix_total; eauto; try reflexivity. intros T. apply (pm_shape rexp (Leaf (KExp rise) b)). exact Ft.
  - cbn [fits] in Ft. destruct Ft as [F0 [F1 [F2 [F3 [F4 [F5 [F6 F7]]]]]]]. unfold total. cbn [tbase] in *. cbn [cv] in Ex.
    rewrite (@check_dims_ok F _ _ F0 Hy) in Ex. cbn [bind] in Ex. destruct (cv rexp t1 y) as [u|] eqn:E1; [|discriminate]. cbn [bind] in Ex.
    rewrite F1, F3 in Hy. pose proof (@cv_shape F rexp t1 F6 y u Hy E1) as W. destruct (IH1 F6 y u Hy E1) as [A1 A2]. rewrite F5, F2 in W. destruct (IH2 F7 u x W Ex) as [B1 B2]. split.
    + intros y' Hy'. cbn [cv]. rewrite (@check_dims_ok F b y' F0 Hy'). cbn [bind]. rewrite F1, F3 in Hy'. destruct (A1 y' Hy') as [u' Eu]. rewrite Eu. cbn [bind].
      pose proof (@cv_shape F rexp t1 F6 y' u' Hy' Eu) as W'. rewrite F5, F2 in W'. apply (B1 u' W').
    + intros g f Hg. cbn [gv]. rewrite F4, F1, F2 in Hg. destruct (B2 g f Hg) as [v [Ev Wv]]. rewrite Ev. cbn [bind]. rewrite <- F5, <- F2 in Wv.
      destruct (A2 v f Wv) as [w [Ew Ww]]. exists w. rewrite F3, F1. auto.
  - cbn [fits] in Ft. destruct Ft as [F0 [F1 [F2 [F3 [F4 [F6 F7]]]]]]. unfold total. cbn [tbase] in *. cbn [cv] in Ex.
    rewrite (@check_dims_ok F _ _ F0 Hy) in Ex. cbn [bind] in Ex. rewrite F1 in Hy.
    pose proof (@cols_lo_wf F _ _ _ _ Hy) as L1. pose proof (@cols_hi_wf F _ _ _ _ Hy) as L2. rewrite F2 in L1. rewrite F3 in L2.
    destruct (cv rexp t1 _) as [x1|] eqn:E1; [|discriminate]. cbn [bind] in Ex. destruct (cv rexp t2 _) as [x2|] eqn:E2; [|discriminate]. cbn [bind] in Ex.
    pose proof (@cv_shape F rexp t1 F6 _ _ L1 E1) as W1. pose proof (@cv_shape F rexp t2 F7 _ _ L2 E2) as W2. pose proof (concat2_inv F W1 W2 Ex) as En.
    destruct (IH1 F6 _ _ L1 E1) as [A1 A2]. destruct (IH2 F7 _ _ L2 E2) as [B1 B2]. split.
    + intros y' Hy'. cbn [cv]. rewrite (@check_dims_ok F b y' F0 Hy'). cbn [bind]. rewrite F1 in Hy'.
      pose proof (@cols_lo_wf F _ _ _ _ Hy') as M1. pose proof (@cols_hi_wf F _ _ _ _ Hy') as M2. rewrite F2 in M1. rewrite F3 in M2.
      destruct (A1 _ M1) as [z1 Z1]. destruct (B1 _ M2) as [z2 Z2]. rewrite Z1. cbn [bind]. rewrite Z2. cbn [bind].
      pose proof (@cv_shape F rexp t1 F6 _ _ M1 Z1) as X1. pose proof (@cv_shape F rexp t2 F7 _ _ M2 Z2) as X2. rewrite En in X2. rewrite (concat2_ok F X1 X2). eauto.
    + intros g f Hg. cbn [gv]. destruct (dim_wfa3 Hg) as [_ [_ [_ R]]]. rewrite R. cbn [Nat.eqb bind]. rewrite F1 in Hg.
      pose proof (@cols3_lo_wf F _ _ _ _ _ Hg) as G1. pose proof (@cols3_hi_wf F _ _ _ _ _ Hg) as G2. rewrite F4 in G1, G2. rewrite <- En in G2.
      destruct (A2 _ f G1) as [h1 [H1 V1]]. destruct (B2 _ f G2) as [h2 [H2 V2]]. rewrite H1. cbn [bind]. rewrite H2. cbn [bind].
      rewrite <- F2 in V1. rewrite <- F3 in V2. rewrite (concat3_ok F V1 V2). eexists. split; [reflexivity|]. rewrite F1. apply wfa_mk3.
  - eapply matrix_total; eauto; try reflexivity; [apply Ft|]. intros T. unfold pown. destruct (pcalc rexp (ConcM b t1 t2)); discriminate.
  - eapply matrix_total; eauto; try reflexivity; [apply Ft|]. intros T. apply (pm_shape rexp (ParM b t1 t2)). exact Ft.
Qed.

Lemma call_total d ys t y x : no_custom d -> matched d -> ready rexp d ys t -> wfa [length ys; ctrls d] y -> snd (call rexp t y) = Ok x ->
  (forall y', wfa [length ys; ctrls d] y' -> exists x', snd (call rexp t y') = Ok x') /\
  (forall g f, wfa [b_nx (tbase t); f; ctrls d] g -> exists h, snd (grad rexp t g) = Ok h).
Proof.
  intros Hd Hm Hr Hy Ex. destruct (@ready_fresh F rexp d ys t Hd Hr) as [t0 [t1 [A [B [C [D [D' [E G]]]]]]]].
  pose proof (@build_sane F d t0 A Hd Hm) as Sn. pose proof (@set_times_fits F rexp t0 ys t1 Sn B) as Ft.
  pose proof (@set_times_skel F t0 ys (sane_nc _ Sn)) as Sk. rewrite B in Sk. cbn [fst] in Sk.
  destruct (@set_times_grid F rexp t0 ys t1 (sane_nc _ Sn) B) as [Ny _].
  assert (Ec : b_ctrls (tbase t1) = ctrls d) by (rewrite <- (@build_ctrls F d t0 A); symmetry; apply (skel_base _ _ Sk)).
  assert (En : b_nx (tbase t) = b_nx (tbase t1)) by (apply timed_base in E; apply (f_equal (@b_nx F)) in E; cbn in E; auto).
  rewrite (@ready_call F rexp d ys t t0 t1 y Hd Hr A B) in Ex. rewrite En. rewrite <- Ec in *. rewrite <- Ny in *.
  destruct (@defined_total t1 Ft y x Hy Ex) as [P Q]. split.
  - intros y' Hy'. rewrite (@ready_call F rexp d ys t t0 t1 y' Hd Hr A B). auto.
  - intros g f Hg. rewrite (@ready_grad F rexp d ys t t0 t1 g Hd Hr A B). destruct (Q g f Hg) as [h0 [E0 _]]. eauto.
Qed.
End Total.
