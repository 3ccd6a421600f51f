(** Cache coherence: every read agrees with that of a fresh solver with the last parameters. *)
Require Import List Arith Lia Bool.
From Verif Require Import LibBase LibRing LibArr LibCplx LibMat M_Matrix M_OpHeap M_Transfer S_Transfer P_Transfer2 M_Amplitude M_Solver S_Solver P_Loops P_Solver P_Solver2 P_Solver3 P_Solver4.
Import ListNotations.
Open Scope res_scope.
Set Implicit Arguments.

Section Coherent5.
Variable F : OField.
Variable rexp : F -> F.
Variable la : LinAlg F.
Variable eps : cplx F.
Notation arrF := (arr (kcar F)).
Notation op := (op F).
Notation st := (@st F).
Implicit Types (s b f : st) (U : option (list op)) (m : @mcconf F).
Notation Inv := (Inv la eps).
Notation good := (good la eps).
Notation pp := (pp la eps).
Notation prop_val := (prop_val la).
Notation fwd_val := (fwd_val la).
Notation rev_val := (rev_val la).
Notation der_val := (der_val la eps).
Notation nprop_val := (nprop_val la).
Notation nfwd_val := (nfwd_val la).
Notation nrev_val := (nrev_val la).
Notation nder_val := (nder_val la eps).
Notation sstep := (sstep rexp la eps).
Notation srun := (srun rexp la eps).
Notation set_pars := (set_pars rexp).

Definition mc_is (P : @mcconf F -> Prop) (c : @sconf F) : Prop := match c_class c with CMonteCarlo m => P m | _ => False end.

(** the value of a read *)
Definition rval U s (o : @sop F) (v : @sval F) : Prop :=
  let b := bare U s in
  match o, v with
  | SPropag, VProp l => prop_val b l
  | SFwd, VOps l => fwd_val b l
  | SRev, VOps l => rev_val b l
  | SDer, VDer l => der_val b l
  | SNProp, VDer l => mc_is (fun m => nprop_val m b l) (s_conf s)
  | SNFwd, VNOps l => mc_is (fun m => nfwd_val m b l) (s_conf s)
  | SNRev, VNOps l => mc_is (fun m => nrev_val m b l) (s_conf s)
  | SNDer, VNDer l => mc_is (fun m => nder_val m b l) (s_conf s)
  | _, _ => False
  end.
Definition rneed U s (o : @sop F) : Prop :=
  let b := bare U s in let p := pp (flag0 s) b = Ok tt in
  match o with
  | SPropag | SNProp => p
  | SFwd | SNFwd => p /\ (exists l, fwd_val b l) /\ mc_val (fun m => exists l, nfwd_val m b l) (s_conf s)
  | SRev | SNRev => p /\ (exists l, rev_val b l) /\ mc_val (fun m => exists l, nrev_val m b l) (s_conf s)
  | SDer | SNDer => c_approx (s_conf s) <> GUnknown /\ can_der la eps U s /\ (exists d, der_val b d) /\ mc_val (fun m => exists d, nder_val m b d) (s_conf s)
  | _ => False
  end.

Lemma rval_fun U s o v v' : rval U s o v -> rval U s o v' -> v = v'.
Proof.
  unfold rval. cbv zeta. destruct o, v; try tauto; destruct v'; try tauto; unfold mc_is; try (destruct (c_class (s_conf s)); try tauto); intros A B;
    apply f_equal; eauto using prop_val_fun, fwd_val_fun, rev_val_fun, nprop_val_fun, nfwd_val_fun, nrev_val_fun.
  all: first [now apply (@der_val_fun F la eps (bare U s))|now apply (@nder_val_fun F la eps m (bare U s))].
Qed.

(** caches that are equal in the sense of [bare] have the same values *)
Lemma rval_bare U s s' o v : bare U s = bare U s' -> rval U s o v -> rval U s' o v.
Proof.
  intros E. assert (C : s_conf s = s_conf s') by exact (f_equal (@s_conf F) E). unfold rval. rewrite E, C. auto.
Qed.
Lemma rneed_bare U s s' o : bare U s = bare U s' -> rneed U s o -> rneed U s' o.
Proof.
  intros E. assert (C : s_conf s = s_conf s') by exact (f_equal (@s_conf F) E). unfold rneed, can_der, flag0. rewrite E, C. auto.
Qed.

Definition nocache s : Prop := s_k s = k_none (F:=F) /\ s_n s = n_none (F:=F).

Lemma prop_none_step U s s' r : good (s_conf s) -> Inv U s -> propagation la eps None s = (s', r) ->
  keeps U s s' /\ r = pp (flag0 s) (bare U s) /\
  (forall x, r = Ok x -> Inv U s' /\ (exists l, k_prop (s_k s') = Some l /\ prop_val (bare U s) l) /\
     mc_val (fun m => exists l, n_prop (s_n s') = Some l /\ nprop_val m (bare U s) l) (s_conf s)).
Proof.
  intros G I E. destruct (@prop_step F la eps U s s' r None G (@grape_flag F la eps s G) I E) as (K & R & H). change (calc_flag s None) with (flag0 s) in *.
  split; auto. split; auto. intros x Hx. destruct (H x Hx) as (I' & P1 & _ & _ & _ & _ & _ & _ & HN). split; auto.
  destruct (conf_keeps K) as (C1 & _). destruct K as [_ K]. rewrite <- K. pose proof I' as [Ik In]. split.
  - destruct (k_prop (s_k s')) as [l|] eqn:Ep; [|congruence]. exists l. split; auto. now apply (i_prop Ik).
  - unfold mc_val. rewrite C1 in In. destruct (c_class (s_conf s)) as [|m|]; auto. destruct HN as [HN _].
    destruct (n_prop (s_n s')) as [l|] eqn:Ep; [|congruence]. exists l. split; auto. now apply (j_prop In).
Qed.

(** one cached property: [P] is the value it must have, [N] what the computation needs *)
Lemma cached_step {A} U s (proj : st -> option A) (comp : st -> st * res unit) (P : A -> Prop) (N : Prop) s' r :
  Inv U s -> (forall a, proj s = Some a -> P a) ->
  (forall s1 r1, comp s = (s1, r1) -> keeps U s s1 /\ (forall x, r1 = Ok x -> Inv U s1 /\ forall a, proj s1 = Some a -> P a)) ->
  (forall s1 r1, comp s = (s1, r1) -> N -> (exists a, P a) -> (exists x, r1 = Ok x) /\ proj s1 <> None) ->
  (forall s1 r1, comp s = (s1, r1) -> proj s = None -> nocache s -> forall x, r1 = Ok x -> N) ->
  cached proj comp s = (s', r) ->
  keeps U s s' /\ (forall a, r = Ok a -> Inv U s' /\ P a) /\ (N -> (exists a, P a) -> exists a, r = Ok a) /\ (nocache s -> proj s = None -> forall a, r = Ok a -> N).
Proof.
  intros I H0 H1 H2 H3 E. unfold cached in E. destruct (proj s) as [a0|] eqn:Ep.
  - inversion E; subst. split; [apply keeps_refl|]. split. { intros a Ha. inversion Ha; subst; auto. } split; [eauto|discriminate].
  - destruct (comp s) as [s1 r1] eqn:Ec. destruct (H1 s1 r1 eq_refl) as (K & H1').
    destruct r1 as [x|e]; inversion E; subst; (split; [exact K|]).
    + destruct (H1' x eq_refl) as [I' V]. split.
      { intros a Ha. destruct (proj s') as [a'|] eqn:Ep'; [|discriminate]. inversion Ha; subst. split; auto. }
      split. { intros Hn Ha. destruct (H2 s' (Ok x) eq_refl Hn Ha) as [_ X]. destruct (proj s'); [eauto|congruence]. }
      intros Nc _ a _. exact (H3 _ _ eq_refl eq_refl Nc x eq_refl).
    + split; [discriminate|]. split; [|discriminate]. intros Hn Ha. destruct (H2 _ _ eq_refl Hn Ha) as [[x X] _]. discriminate.
Qed.

Lemma mapv_ok {A} (f : A -> @sval F) (p : st * res A) s' r : mapv f p = (s', r) ->
  exists q, p = (s', q) /\ (forall v, r = Ok v -> exists a, q = Ok a /\ v = f a) /\ (forall a, q = Ok a -> r = Ok (f a)).
Proof.
  destruct p as [s1 [a|e]]; cbn; intros E; inversion E; subst; eexists; split; auto; split; intros; try discriminate; try (inversion H; subst; eauto).
Qed.

Lemma nocache_k s : nocache s -> k_prop (s_k s) = None.
Proof. intros [H _]. now rewrite H. Qed.

Ltac ninv Ik In Hc := destruct Ik as [Ik In]; rewrite Hc in In.

Lemma read_step U s o s' r : is_read o = true -> good (s_conf s) -> Inv U s -> sstep s o = (s', r) ->
  keeps U s s' /\ (forall v, r = Ok v -> Inv U s' /\ rval U s o v) /\
  (rneed U s o -> (exists v, rval U s o v) -> exists v, r = Ok v) /\ (nocache s -> forall v, r = Ok v -> rneed U s o).
Proof.
  intros Ho G I E.
  assert (CC : forall s1 : st, keeps U s s1 -> s_conf s1 = s_conf s) by (intros s1 K; destruct (conf_keeps K); auto).
  assert (NN : forall s1 : st, keeps U s s1 -> Inv U s1 -> (forall m, c_class (s_conf s) <> CMonteCarlo m) -> s_n s1 = n_none (F:=F)).
  { intros s1 K [_ J] Hc. rewrite (CC s1 K) in J. destruct (c_class (s_conf s)) eqn:X; auto. exfalso. eapply Hc; eauto. }
  assert (MM : forall s1 : st, keeps U s s1 -> Inv U s1 -> forall m, c_class (s_conf s) = CMonteCarlo m -> NInv la eps m U s1).
  { intros s1 K [_ J] m Hc. now rewrite (CC s1 K), Hc in J. }
  destruct o; try discriminate; cbn [M_Solver.sstep] in E; destruct (mapv_ok _ _ E) as (q & Eq & Q1 & Q2); clear E Ho.
  - (* propagators *)
    destruct (@cached_step _ U s (fun s => k_prop (s_k s)) (propagation la eps None) (prop_val (bare U s)) (rneed U s SPropag) s' q) as (K & H1 & H2 & H3); auto.
    + apply I.
    + intros s1 r1 Ec. destruct (@prop_none_step U s s1 r1 G I Ec) as (K & _ & H). split; auto. intros x Hx. destruct (H x Hx) as (I' & (l & El & V) & _).
      split; auto. intros a Ha. rewrite El in Ha. inversion Ha; subst. auto.
    + intros s1 r1 Ec Hn _. destruct (@prop_none_step U s s1 r1 G I Ec) as (K & R & H). cbn in Hn. rewrite Hn in R. subst r1. split; eauto.
      destruct (H tt eq_refl) as (_ & (l & El & _) & _). congruence.
    + intros s1 r1 Ec _ _ x Hx. destruct (@prop_none_step U s s1 r1 G I Ec) as (K & R & H). cbn. destruct x. congruence.
    + split; auto. split. { intros v Hv. destruct (Q1 v Hv) as (a & Ha & ->). exact (H1 a Ha). }
      split. { intros Hn [v Hv]. destruct v; try contradiction. destruct H2 as [a Ha]; eauto. }
      intros Nc v Hv. destruct (Q1 v Hv) as (a & Ha & ->). eapply H3; eauto. now apply nocache_k.
  - (* forward *)
    destruct (@cached_step _ U s (fun s => k_fwd (s_k s)) (compute_forward la eps) (fwd_val (bare U s)) (rneed U s SFwd) s' q) as (K & H1 & H2 & H3); auto.
    + apply I.
    + intros s1 r1 Ec. destruct (@forward_step F la eps U s s1 r1 G I Ec) as (K & H & _). split; auto. intros x Hx. destruct (H x Hx) as (I' & (l & El & V) & _).
      split; auto. intros a Ha. rewrite El in Ha. inversion Ha; subst. auto.
    + intros s1 r1 Ec (Hp & Hb & Hm) _. destruct (@forward_step F la eps U s s1 r1 G I Ec) as (K & H & A & _).
      destruct (A (or_intror Hp) Hb Hm) as [x ->]. split; eauto. destruct (H x eq_refl) as (_ & (l & El & _) & _). congruence.
    + intros s1 r1 Ec Hn Nc x Hx. destruct (@forward_step F la eps U s s1 r1 G I Ec) as (K & H & _ & B).
      destruct (H x Hx) as (_ & (l & El & V) & M). split; [eapply B; eauto; now apply nocache_k|]. split; eauto.
      unfold mc_val in *. destruct (c_class (s_conf s)); auto. destruct M as (l' & _ & V'). eauto.
    + split; auto. split. { intros v Hv. destruct (Q1 v Hv) as (a & Ha & ->). exact (H1 a Ha). }
      split. { intros Hn [v Hv]. destruct v; try contradiction. destruct H2 as [a Ha]; eauto. }
      intros Nc v Hv. destruct (Q1 v Hv) as (a & Ha & ->). eapply H3; eauto. destruct Nc as [-> _]. reflexivity.
  - (* reversed *)
    destruct (@cached_step _ U s (fun s => k_rev (s_k s)) (compute_reversed la eps) (rev_val (bare U s)) (rneed U s SRev) s' q) as (K & H1 & H2 & H3); auto.
    + apply I.
    + intros s1 r1 Ec. destruct (@reversed_step F la eps U s s1 r1 G I Ec) as (K & H & _). split; auto. intros x Hx. destruct (H x Hx) as (I' & (l & El & V) & _).
      split; auto. intros a Ha. rewrite El in Ha. inversion Ha; subst. auto.
    + intros s1 r1 Ec (Hp & Hb & Hm) _. destruct (@reversed_step F la eps U s s1 r1 G I Ec) as (K & H & A & _).
      destruct (A (or_intror Hp) Hb Hm) as [x ->]. split; eauto. destruct (H x eq_refl) as (_ & (l & El & _) & _). congruence.
    + intros s1 r1 Ec Hn Nc x Hx. destruct (@reversed_step F la eps U s s1 r1 G I Ec) as (K & H & _ & B).
      destruct (H x Hx) as (_ & (l & El & V) & M). split; [eapply B; eauto; now apply nocache_k|]. split; eauto.
      unfold mc_val in *. destruct (c_class (s_conf s)); auto. destruct M as (l' & _ & V'). eauto.
    + split; auto. split. { intros v Hv. destruct (Q1 v Hv) as (a & Ha & ->). exact (H1 a Ha). }
      split. { intros Hn [v Hv]. destruct v; try contradiction. destruct H2 as [a Ha]; eauto. }
      intros Nc v Hv. destruct (Q1 v Hv) as (a & Ha & ->). eapply H3; eauto. destruct Nc as [-> _]. reflexivity.
  - (* derivatives *)
    destruct (@cached_step _ U s (fun s => k_der (s_k s)) (compute_derivatives la eps) (der_val (bare U s)) (rneed U s SDer) s' q) as (K & H1 & H2 & H3); auto.
    + apply I.
    + intros s1 r1 Ec. destruct (@derivatives_step F la eps U s s1 r1 G I Ec) as (K & H & _). split; auto. intros x Hx. destruct (H x Hx) as (I' & (l & El & V) & _).
      split; auto. intros a Ha. rewrite El in Ha. inversion Ha; subst. auto.
    + intros s1 r1 Ec (Hu & Hp & Hb & Hm) _. destruct (@derivatives_step F la eps U s s1 r1 G I Ec) as (K & H & A & _).
      destruct A as [x ->]. { unfold need_der, can_der in *. destruct (c_approx (s_conf s)); auto. split; [right; auto|]. auto. }
      split; eauto. destruct (H x eq_refl) as (_ & (l & El & _) & _). congruence.
    + intros s1 r1 Ec Hn Nc x Hx. destruct (@derivatives_step F la eps U s s1 r1 G I Ec) as (K & H & _ & B).
      destruct (H x Hx) as (_ & (l & El & V) & M). destruct (B x (nocache_k Nc) Hx). split; auto. split; auto. split; eauto.
      unfold mc_val in *. destruct (c_class (s_conf s)); auto. destruct M as (l' & _ & V'). eauto.
    + split; auto. split. { intros v Hv. destruct (Q1 v Hv) as (a & Ha & ->). exact (H1 a Ha). }
      split. { intros Hn [v Hv]. destruct v; try contradiction. destruct H2 as [a Ha]; eauto. }
      intros Nc v Hv. destruct (Q1 v Hv) as (a & Ha & ->). eapply H3; eauto. destruct Nc as [-> _]. reflexivity.
  - (* noisy propagators *)
    destruct (@cached_step _ U s (fun s => n_prop (s_n s)) (propagation la eps None) (fun l => mc_is (fun m => nprop_val m (bare U s) l) (s_conf s)) (rneed U s SNProp) s' q) as (K & H1 & H2 & H3); auto.
    + intros a Ha. unfold mc_is. destruct (c_class (s_conf s)) as [|m|l] eqn:Hc; try (rewrite (NN s (keeps_refl U s) I) in Ha; [discriminate|congruence]).
      exact (j_prop (MM s (keeps_refl U s) I m eq_refl) Ha).
    + intros s1 r1 Ec. destruct (@prop_none_step U s s1 r1 G I Ec) as (K & _ & H). split; auto. intros x Hx. destruct (H x Hx) as (I' & _ & M).
      split; auto. intros a Ha. unfold mc_is, mc_val in *. destruct (c_class (s_conf s)) as [|m|l] eqn:Hc; try (rewrite (NN s1 K I') in Ha; [discriminate|congruence]).
      destruct M as (l & El & V). rewrite El in Ha. inversion Ha; subst. auto.
    + intros s1 r1 Ec Hn [a Ha]. destruct (@prop_none_step U s s1 r1 G I Ec) as (K & R & H). cbn in Hn. rewrite Hn in R. subst r1. split; eauto.
      destruct (H tt eq_refl) as (_ & _ & M). unfold mc_is, mc_val in *. destruct (c_class (s_conf s)); try contradiction. destruct M as (l & El & _). congruence.
    + intros s1 r1 Ec _ _ x Hx. destruct (@prop_none_step U s s1 r1 G I Ec) as (K & R & H). cbn. destruct x. congruence.
    + split; auto. split. { intros v Hv. destruct (Q1 v Hv) as (a & Ha & ->). exact (H1 a Ha). }
      split. { intros Hn [v Hv]. destruct v; try contradiction. destruct H2 as [a Ha]; eauto. }
      intros Nc v Hv. destruct (Q1 v Hv) as (a & Ha & ->). eapply H3; eauto. destruct Nc as [_ ->]. reflexivity.
  - destruct (@cached_step _ U s (fun s => n_fwd (s_n s)) (compute_forward la eps) (fun l => mc_is (fun m => nfwd_val m (bare U s) l) (s_conf s)) (rneed U s SNFwd) s' q) as (K & H1 & H2 & H3); auto.
    + intros a Ha. unfold mc_is. destruct (c_class (s_conf s)) as [|m|l] eqn:Hc; try (rewrite (NN s (keeps_refl U s) I) in Ha; [discriminate|congruence]).
      exact (j_fwd (MM s (keeps_refl U s) I m eq_refl) Ha).
    + intros s1 r1 Ec. destruct (@forward_step F la eps U s s1 r1 G I Ec) as (K & H & _). split; auto. intros x Hx. destruct (H x Hx) as (I' & _ & M).
      split; auto. intros a Ha. unfold mc_is, mc_val in *. destruct (c_class (s_conf s)) as [|m|l] eqn:Hc; try (rewrite (NN s1 K I') in Ha; [discriminate|congruence]).
      destruct M as (l & El & V). rewrite El in Ha. inversion Ha; subst. auto.
    + intros s1 r1 Ec (Hp & Hb & Hm) [a Ha]. destruct (@forward_step F la eps U s s1 r1 G I Ec) as (K & H & A & _).
      destruct (A (or_intror Hp) Hb Hm) as [x ->]. split; eauto.
      destruct (H x eq_refl) as (_ & _ & M). unfold mc_is, mc_val in *. destruct (c_class (s_conf s)); try contradiction. destruct M as (l & El & _). congruence.
    + intros s1 r1 Ec Hn Nc x Hx. destruct (@forward_step F la eps U s s1 r1 G I Ec) as (K & H & _ & B).
      destruct (H x Hx) as (_ & (l & El & V) & M). split; [eapply B; eauto; now apply nocache_k|]. split; eauto.
      unfold mc_val in *. destruct (c_class (s_conf s)); auto. destruct M as (l' & _ & V'). eauto.
    + split; auto. split. { intros v Hv. destruct (Q1 v Hv) as (a & Ha & ->). exact (H1 a Ha). }
      split. { intros Hn [v Hv]. destruct v; try contradiction. destruct H2 as [a Ha]; eauto. }
      intros Nc v Hv. destruct (Q1 v Hv) as (a & Ha & ->). eapply H3; eauto. destruct Nc as [_ ->]. reflexivity.
  - destruct (@cached_step _ U s (fun s => n_rev (s_n s)) (compute_reversed la eps) (fun l => mc_is (fun m => nrev_val m (bare U s) l) (s_conf s)) (rneed U s SNRev) s' q) as (K & H1 & H2 & H3); auto.
    + intros a Ha. unfold mc_is. destruct (c_class (s_conf s)) as [|m|l] eqn:Hc; try (rewrite (NN s (keeps_refl U s) I) in Ha; [discriminate|congruence]).
      exact (j_rev (MM s (keeps_refl U s) I m eq_refl) Ha).
    + intros s1 r1 Ec. destruct (@reversed_step F la eps U s s1 r1 G I Ec) as (K & H & _). split; auto. intros x Hx. destruct (H x Hx) as (I' & _ & M).
      split; auto. intros a Ha. unfold mc_is, mc_val in *. destruct (c_class (s_conf s)) as [|m|l] eqn:Hc; try (rewrite (NN s1 K I') in Ha; [discriminate|congruence]).
      destruct M as (l & El & V). rewrite El in Ha. inversion Ha; subst. auto.
    + intros s1 r1 Ec (Hp & Hb & Hm) [a Ha]. destruct (@reversed_step F la eps U s s1 r1 G I Ec) as (K & H & A & _).
      destruct (A (or_intror Hp) Hb Hm) as [x ->]. split; eauto.
      destruct (H x eq_refl) as (_ & _ & M). unfold mc_is, mc_val in *. destruct (c_class (s_conf s)); try contradiction. destruct M as (l & El & _). congruence.
    + intros s1 r1 Ec Hn Nc x Hx. destruct (@reversed_step F la eps U s s1 r1 G I Ec) as (K & H & _ & B).
      destruct (H x Hx) as (_ & (l & El & V) & M). split; [eapply B; eauto; now apply nocache_k|]. split; eauto.
      unfold mc_val in *. destruct (c_class (s_conf s)); auto. destruct M as (l' & _ & V'). eauto.
    + split; auto. split. { intros v Hv. destruct (Q1 v Hv) as (a & Ha & ->). exact (H1 a Ha). }
      split. { intros Hn [v Hv]. destruct v; try contradiction. destruct H2 as [a Ha]; eauto. }
      intros Nc v Hv. destruct (Q1 v Hv) as (a & Ha & ->). eapply H3; eauto. destruct Nc as [_ ->]. reflexivity.
  - destruct (@cached_step _ U s (fun s => n_der (s_n s)) (compute_derivatives la eps) (fun l => mc_is (fun m => nder_val m (bare U s) l) (s_conf s)) (rneed U s SNDer) s' q) as (K & H1 & H2 & H3); auto.
    + intros a Ha. unfold mc_is. destruct (c_class (s_conf s)) as [|m|l] eqn:Hc; try (rewrite (NN s (keeps_refl U s) I) in Ha; [discriminate|congruence]).
      exact (j_der (MM s (keeps_refl U s) I m eq_refl) Ha).
    + intros s1 r1 Ec. destruct (@derivatives_step F la eps U s s1 r1 G I Ec) as (K & H & _). split; auto. intros x Hx. destruct (H x Hx) as (I' & _ & M).
      split; auto. intros a Ha. unfold mc_is, mc_val in *. destruct (c_class (s_conf s)) as [|m|l] eqn:Hc; try (rewrite (NN s1 K I') in Ha; [discriminate|congruence]).
      destruct M as (l & El & V). rewrite El in Ha. inversion Ha; subst. auto.
    + intros s1 r1 Ec (Hu & Hp & Hb & Hm) [a Ha]. destruct (@derivatives_step F la eps U s s1 r1 G I Ec) as (K & H & A & _).
      destruct A as [x ->]. { unfold need_der, can_der in *. destruct (c_approx (s_conf s)); auto. split; [right; auto|]. auto. }
      split; eauto. destruct (H x eq_refl) as (_ & _ & M). unfold mc_is, mc_val in *. destruct (c_class (s_conf s)); try contradiction. destruct M as (l & El & _). congruence.
    + intros s1 r1 Ec Hn Nc x Hx. destruct (@derivatives_step F la eps U s s1 r1 G I Ec) as (K & H & _ & B).
      destruct (H x Hx) as (_ & (l & El & V) & M). destruct (B x (nocache_k Nc) Hx). split; auto. split; auto. split; eauto.
      unfold mc_val in *. destruct (c_class (s_conf s)); auto. destruct M as (l' & _ & V'). eauto.
    + split; auto. split. { intros v Hv. destruct (Q1 v Hv) as (a & Ha & ->). exact (H1 a Ha). }
      split. { intros Hn [v Hv]. destruct v; try contradiction. destruct H2 as [a Ha]; eauto. }
      intros Nc v Hv. destruct (Q1 v Hv) as (a & Ha & ->). eapply H3; eauto. destruct Nc as [_ ->]. reflexivity.
Qed.

Lemma read_coherent U s f o v : is_read o = true -> good (s_conf s) -> Inv U s -> Inv U f -> nocache f -> bare U f = bare U s ->
  snd (sstep f o) = Ok v -> snd (sstep s o) = Ok v.
Proof.
  intros Ho G I If Nf Eb Hv.
  assert (Cf : s_conf f = s_conf s) by exact (f_equal (@s_conf F) Eb).
  destruct (sstep f o) as [f' rf] eqn:Ef. destruct (sstep s o) as [s' r] eqn:Es. cbn [snd] in *.
  assert (Gf : good (s_conf f)) by now rewrite Cf.
  destruct (@read_step U f o f' rf Ho Gf If Ef) as (_ & V1 & _ & N1). destruct (@read_step U s o s' r Ho G I Es) as (_ & V2 & A2 & _).
  destruct (V1 v Hv) as [_ W]. apply (rval_bare o v Eb) in W. pose proof (rneed_bare o Eb (N1 Nf v Hv)) as N.
  destruct (A2 N (ex_intro _ v W)) as [v' ->]. destruct (V2 v' eq_refl) as [_ W']. f_equal. now apply (@rval_fun U s o).
Qed.
End Coherent5.
