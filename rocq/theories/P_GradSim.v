(** The jacobian the simulator returns is the derivative of the costs it returns (C66). *)
Require Import List Arith Lia Bool Reals Lra.
From Verif Require Import LibBase LibRing LibArr LibCplx LibMat LibDeriv M_Matrix S_Deriv M_OpHeap M_Transfer S_Transfer M_Amplitude S_Amplitude M_Solver S_Solver M_Cost M_Simulator S_Simulator S_Gradient P_Amplitude P_Simulator P_Simulator2.
Import ListNotations.
Set Implicit Arguments.

Section Sim.
Variable rexp : R -> R.
Variable la : LinAlg RField.
Variable eps : cplx RField.

Lemma differentiable_all (w0 : @world RField) T P y cs : Forall (fun c => differentiable rexp la eps w0 T P c y) cs ->
  exists (phis : list (RA -> R)) (hs : list RA),
   length phis = length cs /\
   (forall y', wfa [T; P] y' -> Forall2 (fun c a => exists s0, nth_error w0 (cf_solver c) = Some s0 /\ costs_at (F:=RField) rexp la eps s0 c y' a) cs (map (fun phi => scalar RField (phi y')) phis)) /\
   Forall2 (fun c h => exists s0, nth_error w0 (cf_solver c) = Some s0 /\ gradient_at (F:=RField) rexp la eps s0 c y h) cs hs /\
   Forall2 (fun (h : RA) n => wfa [T; n; P] h) hs (repeat 1 (length cs)) /\
   Forall2 (fun phi h => has_gradient T P phi y (fun t p => get3 0%R h t 0 p)) phis hs.
Proof.
  induction 1 as [|c cs (s0 & d & tau & phi & h & E & <- & <- & H1 & H2 & H3 & H4) _ (phis & hs & L & A & B & C & D)].
  - exists [], []. repeat split; auto; cbn; constructor.
  - exists (phi :: phis), (h :: hs). split; [cbn; congruence|]. split.
    + intros y' W. cbn [map]. constructor; auto. exists s0. split; auto.
    + split; [constructor; eauto|]. split; [cbn [length repeat]; constructor; auto|constructor; auto].
Qed.
Lemma list_sum_ones n : list_sum (repeat 1 n) = n.
Proof. induction n; cbn; auto. Qed.
Lemma offset_ones n i : i <= n -> offset (repeat 1 n) i = i.
Proof. unfold offset. revert i. induction n; intros [|i] H; cbn; auto; try lia. f_equal. apply IHn. lia. Qed.

Lemma simulator_gradient (m : @sim RField) (w0 w : @world RField) p (y : RA) T P dl :
  set_up (F:=RField) la eps m w0 -> simulated (F:=RField) rexp la eps m w0 w -> sm_numeric m = false -> pulse_used (F:=RField) m p y -> wfa [T; P] y ->
  (forall y' : RA, wfa [T; P] y' -> accepted (F:=RField) rexp la eps m w0 y') ->
  Forall (fun c => differentiable rexp la eps w0 T P c y) (sm_cfs m) ->
  exists f : nat -> RA -> R,
   (forall w1 y', simulated (F:=RField) rexp la eps m w0 w1 -> wfa [T; P] y' ->
      exists w' v, wrapped_cost (F:=RField) rexp la eps m (Some y') w1 = (w', Ok v) /\ v = map (fun k => f k y') (seq 0 (length (sm_cfs m)))) /\
   exists w' J, wrapped_jac (F:=RField) rexp la eps m p dl w = (w', Ok J) /\ wfa [T; length (sm_cfs m); P] J /\
    forall k, k < length (sm_cfs m) -> has_gradient T P (f k) y (fun t q => get3 0%R J t k q).
Proof.
  intros SU SI NU PU Wy AC DI. destruct (differentiable_all DI) as (phis & hs & L & A & B & C & D).
  exists (fun k => nth k phis (fun _ => 0%R)). split.
  - intros w1 y' S1 W. destruct (@sim_costs RField rexp la eps m w0 w1 (Some y') y' (map (fun phi => scalar RField (phi y')) phis) SU S1) as (w' & v & E & [Lv Bv] & _); auto.
    { now left. } exists w', v. split; auto.
    assert (LS : map (@length R) (map (@data R) (map (fun phi : RA -> R => scalar RField (phi y')) phis)) = repeat 1 (length (sm_cfs m))).
    { rewrite <- L. clear. induction phis; cbn; auto. f_equal. exact IHphis. }
    change (length v = list_sum (map (@length R) (map (@data R) (map (fun phi : RA -> R => scalar RField (phi y')) phis)))) in Lv. rewrite LS, list_sum_ones in Lv.
    apply (nth_ext _ _ 0%R 0%R); [rewrite map_length, seq_length; exact Lv|]. intros k Hk. assert (Hk' : k < length (sm_cfs m)) by (rewrite <- Lv; exact Hk).
    assert (X' : nth_error v k = Some (nth k phis (fun _ => 0%R) y')).
    { assert (X : nth_error v (offset (repeat 1 (length (sm_cfs m))) k + 0) = Some (nth k phis (fun _ => 0%R) y')); [|now rewrite offset_ones, Nat.add_0_r in X by lia].
      rewrite <- LS. refine (Bv k [nth k phis (fun _ => 0%R) y'] 0 (nth k phis (fun _ => 0%R) y') _ eq_refl).
      rewrite !nth_error_map. rewrite (nth_error_nth' phis (fun _ => 0%R)) by lia. reflexivity. }
    transitivity (nth k phis (fun _ => 0%R) y'); [apply nth_error_nth; exact X'|]. symmetry. apply nth_error_nth.
    rewrite nth_error_map. rewrite (nth_error_nth' _ 0) by (rewrite seq_length; auto). rewrite seq_nth by auto. reflexivity.
  - destruct (@sim_jac_layout RField rexp la eps m w0 w p y hs (repeat 1 (length (sm_cfs m))) T P dl SU SI NU PU (AC y Wy) B C) as (w' & J & E & WJ & HJ & _).
    exists w', J. split; auto. rewrite list_sum_ones in WJ. split; auto. intros k Hk.
    assert (Lh : length hs = length (sm_cfs m)) by (clear - B; induction B; cbn; congruence).
    destruct (nth_error hs k) as [h|] eqn:Eh; [|apply nth_error_None in Eh; lia].
    assert (HG : has_gradient T P (nth k phis (fun _ => 0%R)) y (fun t q => get3 0%R h t 0 q)).
    { clear - D Eh. revert k Eh. induction D as [|phi h' phis hs H _ IH]; intros [|k] Eh; cbn in *; try discriminate; [injection Eh as ->; auto|auto]. }
    assert (EK : forall t q, t < T -> q < P -> get3 0%R J t k q = get3 0%R h t 0 q).
    { intros t q Ht Hq. assert (X := HJ k h 1 t 0 q Eh). rewrite offset_ones, Nat.add_0_r in X by lia. apply X; auto. rewrite nth_error_repeat; auto. }
    intros c v Hc. specialize (HG c v Hc). cbv beta in HG |- *.
    match type of HG with derivable_pt_lim _ _ ?a => match goal with |- derivable_pt_lim _ _ ?b => replace b with a; [exact HG|] end end.
    apply Rsum_ext. intros t Ht. apply Rsum_ext. intros q Hq. now rewrite EK.
Qed.
End Sim.
