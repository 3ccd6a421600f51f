(** Curves of pulses and the curves of transferred pulses and amplitudes they cause (C66). *)
Require Import List Arith Lia Bool Reals Lra.
From Verif Require Import LibBase LibRing LibArr LibCplx LibDeriv S_Deriv M_Transfer S_Transfer M_Amplitude S_Amplitude P_Transfer P_Transfer2 P_Transfer3 P_Transfer4 P_Transfer6 P_Amplitude.
Import ListNotations.
Set Implicit Arguments.

(** ---- linear functions ---- *)
Definition lin (T P : nat) (g : nat -> nat -> R) (x : RA) : R := Rsum T (fun t => Rsum P (fun p => (g t p * ent x t p)%R)).
Lemma Rsum_deriv n (f : nat -> R -> R) a (l : nat -> R) : (forall k, k < n -> derivable_pt_lim (f k) a (l k)) ->
  derivable_pt_lim (fun h => Rsum n (fun k => f k h)) a (Rsum n l).
Proof.
  induction n; intros H; cbn [Rsum]. apply derivable_pt_lim_const. apply (@derivable_pt_lim_plus (fun h => Rsum n (fun k => f k h)) (f n)).
  apply IHn. intros; apply H; lia. apply H; lia.
Qed.
Lemma lin_gradient T P g x : has_gradient T P (lin T P g) x g.
Proof.
  intros c v (_ & _ & C3). unfold lin. apply (@Rsum_deriv T (fun t s => Rsum P (fun p => (g t p * ent (c s) t p)%R))). intros t Ht.
  apply (@Rsum_deriv P (fun p s => (g t p * ent (c s) t p)%R)). intros p Hp. apply (derivable_pt_lim_scal (fun s => ent (c s) t p)). auto.
Qed.
Lemma lin_ext T P g g' x : (forall t p, t < T -> p < P -> g t p = g' t p) -> lin T P g x = lin T P g' x.
Proof. intros H. unfold lin. apply Rsum_ext. intros t Ht. apply Rsum_ext. intros p Hp. now rewrite H. Qed.
Definition unit_at (t0 p0 t p : nat) : R := if (Nat.eqb t t0 && Nat.eqb p p0)%bool then 1%R else 0%R.
Lemma lin_unit T P t p x : t < T -> p < P -> lin T P (unit_at t p) x = ent x t p.
Proof.
  intros Ht Hp. unfold lin, unit_at. rewrite (@Rsum_single T t); auto.
  - rewrite (@Rsum_single P p); auto. + rewrite !Nat.eqb_refl. cbn. lra.
    + intros i _ Hi. rewrite Nat.eqb_refl, (proj2 (Nat.eqb_neq i p) Hi). cbn. lra.
  - intros i _ Hi. apply Rsum_0. intros j _. rewrite (proj2 (Nat.eqb_neq i t) Hi). cbn. lra.
Qed.
Lemma lin_pairing T P g x : pairing (F:=RField) T P g (get2 (k0 : RField) x) = lin T P g x.
Proof. unfold pairing, lin. rewrite Rsum_sumn. apply sumn_ext. intros t Ht. rewrite Rsum_sumn. reflexivity. Qed.

(** ---- the transfer function ---- *)
Section Transfer.
Variable rexp : kcar RField -> kcar RField.
Lemma transfer_lin d ys t y y' g x x' h f : no_custom d -> matched d -> sym_convs d -> ready rexp d ys t ->
  wfa [length ys; ctrls d] y -> wfa [length ys; ctrls d] y' -> wfa [b_nx (tbase t); f; ctrls d] g ->
  snd (call rexp t y) = Ok x -> snd (call rexp t y') = Ok x' -> snd (grad rexp t g) = Ok h -> forall q, q < f ->
  (lin (b_nx (tbase t)) (ctrls d) (fun i k => get3 0%R g i q k) x' - lin (b_nx (tbase t)) (ctrls d) (fun i k => get3 0%R g i q k) x =
   lin (length ys) (ctrls d) (fun i k => get3 0%R h i q k) y' - lin (length ys) (ctrls d) (fun i k => get3 0%R h i q k) y)%R.
Proof.
  intros H1 H2 H3 H4 Hy Hy' Hg Ex Ex' Eh q Hq.
  destruct (@gradient_is_transpose RField rexp d ys t y y' g x x' h f H1 H2 H3 H4 Hy Hy' Hg Ex Ex' Eh) as (_ & _ & _ & H). specialize (H q Hq).
  rewrite !lin_pairing in H. exact H.
Qed.
Lemma transfer_curve d ys t (Y : R -> RA) v (X : R -> RA) : no_custom d -> matched d -> sym_convs d -> ready rexp d ys t ->
  curve_at (length ys) (ctrls d) (Y 0%R) Y v -> (forall s, snd (call rexp t (Y s)) = Ok (X s)) ->
  exists vx, curve_at (b_nx (tbase t)) (ctrls d) (X 0%R) X vx /\
    forall g h f, wfa [b_nx (tbase t); f; ctrls d] g -> snd (grad rexp t g) = Ok h ->
      wfa [length ys; f; ctrls d] h /\ forall q, q < f ->
      Rsum (b_nx (tbase t)) (fun i => Rsum (ctrls d) (fun k => (get3 0%R g i q k * vx i k)%R)) =
      Rsum (length ys) (fun i => Rsum (ctrls d) (fun k => (get3 0%R h i q k * v i k)%R)).
Proof.
  intros H1 H2 H3 H4 HC EX. set (nx := b_nx (tbase t)). set (m := ctrls d) in *. set (ny := length ys) in *.
  pose proof HC as (_ & WY & _). destruct (@call_total RField rexp d ys t (Y 0%R) (X 0%R) H1 H2 H4 (WY 0%R) (EX 0%R)) as [_ GT].
  set (e := fun i k => mk3 nx 1 m (fun i' _ k' => unit_at i k i' k') : RA).
  assert (We : forall i k, wfa [nx; 1; m] (e i k)) by (intros; apply wfa_mk3).
  assert (Le : forall i k z, i < nx -> k < m -> lin nx m (fun i' k' => get3 0%R (e i k) i' 0 k') z = ent z i k).
  { intros i k z Hi Hk. rewrite <- (lin_unit z Hi Hk). apply lin_ext. intros. unfold e. now rewrite get3_mk3 by auto. }
  exists (fun i k => match snd (grad rexp t (e i k)) with Ok h => Rsum ny (fun i' => Rsum m (fun k' => (get3 0%R h i' 0 k' * v i' k')%R)) | Err _ => 0%R end).
  assert (CX : curve_at nx m (X 0%R) X (fun i k => match snd (grad rexp t (e i k)) with Ok h => Rsum ny (fun i' => Rsum m (fun k' => (get3 0%R h i' 0 k' * v i' k')%R)) | Err _ => 0%R end)).
  { split; [reflexivity|]. split.
    - intros s. destruct (GT (e 0 0) 1 (We 0 0)) as [h0 Eh0].
      destruct (@gradient_is_transpose RField rexp d ys t (Y s) (Y s) (e 0 0) (X s) (X s) h0 1 H1 H2 H3 H4 (WY s) (WY s) (We 0 0) (EX s) (EX s) Eh0) as (W & _). exact W.
    - intros i k Hi Hk. destruct (GT (e i k) 1 (We i k)) as [h0 Eh0]. rewrite Eh0.
      apply derivable_pt_lim_ext with (fun s => (lin ny m (fun i' k' => get3 0%R h0 i' 0 k') (Y s) + (ent (X 0%R) i k - lin ny m (fun i' k' => get3 0%R h0 i' 0 k') (Y 0%R)))%R).
      + intros s. pose proof (@transfer_lin d ys t (Y 0%R) (Y s) (e i k) (X 0%R) (X s) h0 1 H1 H2 H3 H4 (WY 0%R) (WY s) (We i k) (EX 0%R) (EX s) Eh0 0 ltac:(lia)) as E.
        fold nx m ny in E. rewrite !Le in E by auto. lra.
      + match goal with |- derivable_pt_lim _ _ ?l => replace l with (l + 0)%R by ring end.
        apply (derivable_pt_lim_plus (fun s => lin ny m _ (Y s)) (fun _ => _)); [|apply derivable_pt_lim_const]. apply (@lin_gradient ny m _ (Y 0%R) Y v HC). }
  split; [exact CX|]. intros g h f Hg Eh.
  destruct (@gradient_is_transpose RField rexp d ys t (Y 0%R) (Y 0%R) g (X 0%R) (X 0%R) h f H1 H2 H3 H4 (WY 0%R) (WY 0%R) Hg (EX 0%R) (EX 0%R) Eh) as (_ & _ & W & _). split; [exact W|].
  intros q Hq. eapply uniqueness_limite; [apply (@lin_gradient nx m (fun i k => get3 0%R g i q k) (X 0%R) X _ CX)|].
  apply derivable_pt_lim_ext with (fun s => (lin ny m (fun i' k' => get3 0%R h i' q k') (Y s) + (lin nx m (fun i k => get3 0%R g i q k) (X 0%R) - lin ny m (fun i' k' => get3 0%R h i' q k') (Y 0%R)))%R).
  - intros s. pose proof (@transfer_lin d ys t (Y 0%R) (Y s) g (X 0%R) (X s) h f H1 H2 H3 H4 (WY 0%R) (WY s) Hg (EX 0%R) (EX s) Eh q Hq) as E. fold nx m ny in E. lra.
  - match goal with |- derivable_pt_lim _ _ ?l => replace l with (l + 0)%R by ring end.
    apply (derivable_pt_lim_plus (fun s => lin ny m _ (Y s)) (fun _ => _)); [|apply derivable_pt_lim_const]. apply (@lin_gradient ny m _ (Y 0%R) Y v HC).
Qed.
End Transfer.

(** ---- the amplitude function ---- *)
Lemma amp_wfa T P C (a : amp RField) x y u : correct_derivative T P C a x -> wfa [T; P] y -> amp_call a y = Ok u -> wfa [T; C] u.
Proof.
  destruct a as [|f df|f df]; cbn [correct_derivative amp_call].
  - intros <- Hy [= <-]. exact Hy.
  - intros [<- _] Hy E. unfold vectorize in E. destruct (negb _); [|discriminate]. injection E as <-. destruct Hy as [H1 H2]. split; cbn; auto; now rewrite map_length.
  - intros [H _] Hy E. destruct (H y Hy) as (u' & E' & W). congruence.
Qed.
Lemma amp_curve T P C (a : amp RField) (X U : R -> RA) vx : 0 < T -> 0 < P -> correct_derivative T P C a (X 0%R) ->
  curve_at T P (X 0%R) X vx -> (forall s, amp_call a (X s) = Ok (U s)) ->
  exists vu, curve_at T C (U 0%R) U vu /\
    forall g d nf, wfa [T; nf; C] g -> amp_chain a g (X 0%R) = Ok d -> wfa [T; nf; P] d /\ forall q, q < nf ->
      Rsum T (fun t => Rsum C (fun c => (get3 0%R g t q c * vu t c)%R)) = Rsum T (fun t => Rsum P (fun p => (get3 0%R d t q p * vx t p)%R)).
Proof.
  intros HT HP HD HC EU. pose proof HC as (_ & WX & _).
  assert (KEY : forall g nf, wfa [T; nf; C] g -> exists d, amp_chain a g (X 0%R) = Ok d /\ wfa [T; nf; P] d /\
    forall q, q < nf -> derivable_pt_lim (fun s => lin T C (fun t c => get3 0%R g t q c) (U s)) 0 (Rsum T (fun t => Rsum P (fun p => (get3 0%R d t q p * vx t p)%R)))).
  { intros g nf Hg. destruct (@amplitude_chain_rule T P C nf a (X 0%R) (U 0%R) g (fun q => lin T C (fun t c => get3 0%R g t q c)) HT HP (WX 0%R) HD (EU 0%R) Hg) as (d & E1 & E2 & E3).
    { intros q Hq. apply lin_gradient. }
    exists d. split; auto. split; auto. intros q Hq. eapply derivable_pt_lim_ext; [|apply (E3 q Hq X vx HC)]. intros s. unfold after_amp. now rewrite EU. }
  set (e := fun t c => mk3 T 1 C (fun t' _ c' => unit_at t c t' c') : RA).
  assert (We : forall t c, wfa [T; 1; C] (e t c)) by (intros; apply wfa_mk3).
  assert (Le : forall t c z, t < T -> c < C -> lin T C (fun t' c' => get3 0%R (e t c) t' 0 c') z = ent z t c).
  { intros t c z Ht Hc. rewrite <- (lin_unit z Ht Hc). apply lin_ext. intros. unfold e. now rewrite get3_mk3 by auto. }
  exists (fun t c => match amp_chain a (e t c) (X 0%R) with Ok d => Rsum T (fun t' => Rsum P (fun p => (get3 0%R d t' 0 p * vx t' p)%R)) | Err _ => 0%R end).
  assert (CU : curve_at T C (U 0%R) U (fun t c => match amp_chain a (e t c) (X 0%R) with Ok d => Rsum T (fun t' => Rsum P (fun p => (get3 0%R d t' 0 p * vx t' p)%R)) | Err _ => 0%R end)).
  { split; [reflexivity|]. split; [intros s; exact (@amp_wfa T P C a (X 0%R) (X s) (U s) HD (WX s) (EU s))|]. intros t c Ht Hc. destruct (KEY (e t c) 1 (We t c)) as (d & E1 & _ & E3). rewrite E1.
    eapply derivable_pt_lim_ext; [|apply (E3 0 ltac:(lia))]. intros s. cbv beta. now rewrite Le. }
  split; [exact CU|]. intros g d nf Hg Ed. destruct (KEY g nf Hg) as (d' & E1 & E2 & E3). rewrite Ed in E1. injection E1 as <-. split; [exact E2|]. intros q Hq.
  eapply uniqueness_limite; [apply (@lin_gradient T C (fun t c => get3 0%R g t q c) (U 0%R) U _ CU)|apply (E3 q Hq)].
Qed.
