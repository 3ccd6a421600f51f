(** Runs with recorded times (C71): the simulator of P_SimCheckWit.v, a run that finishes and one that the wall time ends. *)
Require Import List Arith Lia Bool Reals Lra.
From Verif Require Import LibBase LibRing LibArr LibCplx LibMat LibDeriv S_Deriv M_Matrix M_OpHeap M_Transfer M_Amplitude M_Solver S_Solver M_Cost M_Simulator S_Simulator M_Optimizer M_Stats S_Stats
  P_Simulator P_Simulator2 P_GradWit P_SimCheckWit P_Stats P_Stats2 P_Stats3 P_Stats4 P_Stats5.
Import ListNotations.
Set Implicit Arguments.

Section Steps.
Variable rexp : R -> R.
Variable clock : nat -> R.
Notation simd := (simulated (F:=RField) rexp wla c0 vsim wworld).
Notation tw := (@tw RField).
Lemma cost_step a t (w : tw) : tw_cur w = Some a -> nth_error (tw_heap w) a = Some t -> simd (tw_w w) ->
  exists w' v, @timed_cost RField rexp wla c0 clock vsim (Some wy) w = (w', Ok v) /\ simd (tw_w w') /\ tw_cur w' = Some a /\ tw_n w' = 2 + tw_n w /\
   tw_heap w' = lset (tw_heap w) a (mkstats (t_begin t) (t_end t) (cost_times t ++ [[(clock (1 + tw_n w)%nat - clock (tw_n w))%R]]) (grad_times t)).
Proof.
  intros Hc Hs Hd. destruct (@sim_costs RField rexp wla c0 vsim wworld (tw_w w) (Some wy) wy [scalar RField (ent wy 0 0 * ent wy 0 0)%R] vsim_set_up Hd) as (w1 & v & E & _).
  - now left.
  - apply vsim_accepted. exact wy_wf.
  - constructor; [|constructor]. eexists. split; [reflexivity|]. apply vcosts. exact wy_wf.
  - destruct (@timed_cost_erases RField rexp wla c0 clock vsim (Some wy) w) as [C1 E1]. destruct (@timed_cost RField rexp wla c0 clock vsim (Some wy) w) as [w' r] eqn:ET. cbn [fst snd] in *.
    rewrite E in E1. injection E1 as E2 <-. exists w', v. split; [reflexivity|]. split; [eapply sim_cost; [exact Hd|]; rewrite E; now rewrite E2|].
    destruct (@cost_records RField rexp wla c0 clock vsim (Some wy) w w' v a t Hc Hs ET) as (H1 & H2 & H3). split; auto. split; [rewrite H3; cbn; lia|]. rewrite H1. unfold durations. cbn [vsim sm_cfs length seq map].
    replace (tw_n w + 2 * 0 + 1) with (1 + tw_n w) by lia. replace (tw_n w + 2 * 0) with (tw_n w) by lia. reflexivity.
Qed.
Lemma jac_step a t dl (w : tw) : tw_cur w = Some a -> nth_error (tw_heap w) a = Some t -> simd (tw_w w) ->
  exists w' j, @timed_jac RField rexp wla c0 clock vsim (Some wy) dl w = (w', Ok j) /\ wfa [2; 1; 1] j /\ tw_cur w' = Some a /\
   tw_heap w' = lset (tw_heap w) a (mkstats (t_begin t) (t_end t) (cost_times t) (grad_times t ++ [[(clock (1 + tw_n w)%nat - clock (tw_n w))%R]])).
Proof.
  intros Hc Hs Hd. destruct (@sim_jac_layout RField rexp wla c0 vsim wworld (tw_w w) (Some wy) wy [Arr [2; 1; 1] [2; 0]%R] [1] 2 1 dl vsim_set_up) as (w1 & v & E & WJ & _).
  - exact Hd.
  - reflexivity.
  - now left.
  - apply vsim_accepted. exact wy_wf.
  - constructor; [|constructor]. eexists. split; [reflexivity|]. apply vgrad.
  - repeat constructor.
  - destruct (@timed_jac_erases RField rexp wla c0 clock vsim (Some wy) dl w) as [C1 E1]. destruct (@timed_jac RField rexp wla c0 clock vsim (Some wy) dl w) as [w' r] eqn:ET. cbn [fst snd] in *.
    rewrite E in E1. injection E1 as E2 <-. exists w', v. split; [reflexivity|]. split; [exact WJ|].
    destruct (@grad_records RField rexp wla c0 clock vsim (Some wy) dl w w' v a t eq_refl Hc Hs ET) as (H1 & H2 & H3). split; auto. rewrite H1. unfold durations. cbn [vsim sm_cfs length seq map].
    replace (tw_n w + 2 * 0 + 1) with (1 + tw_n w) by lia. replace (tw_n w + 2 * 0) with (tw_n w) by lia. reflexivity.
Qed.

Definition vs0 : @ost RField tw := new_optimizer (new_sim wworld true).
Definition vcf : @oconf RField := @mkoc RField None false true 2%R.
Definition vr : @sci RField := @mksci RField (Arr [1] [1%R]) (flatten (F:=RField) wy) (Arr [2] [2; 0]%R) 1 1.
(** one evaluation of the costs; the second program asks again when the wall time is over *)
Definition vstop (x : arr (kcar RField)) : @algo RField := @AskCost RField x 0%R (fun _ => Stop vr).
Definition vlate (x : arr (kcar RField)) : @algo RField := @AskCost RField x 0%R (fun _ => @AskCost RField x (5 / 2)%R (fun _ => Stop vr)).
Definition vstat (e : R) (g : list (list R)) : @stats RField := @mkstats RField (Some (clock 0)) (Some e) [[(clock 2 - clock 1)%R]] g.
Hypothesis H0 : clock 0 = 0%R.

Lemma wy_round : unflatten (F:=RField) 2 1 (flatten (F:=RField) wy) = Ok wy.
Proof. reflexivity. Qed.
Lemma in_time (x : R) : (x <= 2)%R -> kltb (F:=RField) 2%R x = false.
Proof. intros H. unfold kltb. cbn [kleb RField]. assert (r_leb x 2 = true) as -> by now apply r_leb_le. reflexivity. Qed.
Lemma too_late (x : R) : (2 < x)%R -> kltb (F:=RField) 2%R x = true.
Proof. intros H. unfold kltb. cbn [kleb RField]. destruct (r_leb x 2) eqn:E; [apply r_leb_le in E; lra|reflexivity]. Qed.

Notation simc := (fun y => @timed_cost RField rexp wla c0 clock vsim (Some y)).
(** the first evaluation *)
Lemma first_cost (w : tw) a t : tw_cur w = Some a -> nth_error (tw_heap w) a = Some t -> simd (tw_w w) ->
  exists w' v s', call_cost (F:=RField) simc LeastSquares vcf 0 0%R (@mko RField tw [flatten (F:=RField) wy] w (Some (2, 1)) None None 0 0 None 0%R) = (s', Ok v) /\
   s' = @mko RField tw [flatten (F:=RField) wy; v] w' (Some (2, 1)) (Some 1) (Some (mkview 0 2 1)) 1 0 None 0%R /\ simd (tw_w w') /\ tw_cur w' = Some a /\ tw_n w' = 2 + tw_n w /\
   tw_heap w' = lset (tw_heap w) a (mkstats (t_begin t) (t_end t) (cost_times t ++ [[(clock (1 + tw_n w)%nat - clock (tw_n w))%R]]) (grad_times t)).
Proof.
  intros Hc Hs Hd. destruct (@cost_step a t w Hc Hs Hd) as (w' & v & E & H). exists w'. eexists. eexists. split; [|split; [reflexivity|exact H]].
  unfold call_cost, cost_func_wrapper. cbn [oc_wall vcf o_start o_shape o_heap nth_error o_w]. rewrite in_time by (cbn [ksub RField]; lra). rewrite wy_round. cbv beta.
  match goal with |- context [@timed_cost ?F ?a ?b ?c ?d ?e ?f ?g] => change (@timed_cost F a b c d e f g) with (@timed_cost RField rexp wla c0 clock vsim (Some wy) w) end. rewrite E.
  unfold store_summary. cbn [oc_save vcf]. unfold store_min, smaller. cbn [o_min with_heap with_w oc_weights vcf]. reflexivity.
Qed.

Theorem stop_run dl : exists s' res, @timed_run RField rexp wla c0 clock vsim dl LeastSquares LBFGSB vcf wy vstop vs0 = (s', Ok (res, Some 1)) /\ r_status res = 1 /\
  nth_error (tw_heap (o_w s')) 1 = Some (vstat (clock 3) []).
Proof.
  unfold timed_run. cbn [wy rank shape mk2 length Nat.eqb negb]. change (negb _) with false. cbv iota. unfold now at 1. cbv zeta. unfold begin_stats. cbn [vs0 new_optimizer new_sim o_w tw_cur tw_w tw_heap tw_n length app].
  unfold prepare. cbn [with_w o_heap o_w oc_save vcf o_sum]. change (dim0 wy) with 2. change (dim1 wy) with 1. rewrite H0. unfold vstop. cbn [interp o_heap length with_heap app].
  set (w1 := mktw _ _ _ _). destruct (@first_cost w1 1 (@mkstats RField (Some 0%R) None [] []) eq_refl eq_refl (sim_new _ _ _ _ _)) as (w' & v & s' & E & -> & D & C & N & H).
  match goal with |- context [call_cost ?a ?b ?c ?d ?e ?f] => change (call_cost a b c d e f) with (call_cost (F:=RField) simc LeastSquares vcf 0 0%R (@mko RField tw [flatten (F:=RField) wy] w1 (Some (2, 1)) None None 0 0 None 0%R)) end.
  rewrite E. cbn [interp]. change (unflatten (F:=RField) 2 1 (sc_x vr)) with (unflatten (F:=RField) 2 1 (flatten (F:=RField) wy)). rewrite wy_round.
  unfold end_stats. cbn [o_w]. rewrite C. unfold tbind, now, upd. cbn [tw_cur tw_heap tw_w tw_n]. rewrite C, H. cbn [w1 tw_heap lset nth_error with_w o_w fst tw_cur].
  eexists. eexists. split; [reflexivity|]. split; [reflexivity|]. cbn [tw_heap nth_error]. rewrite N. unfold vstat. rewrite H0. reflexivity.
Qed.
Theorem late_run dl : exists s' res, @timed_run RField rexp wla c0 clock vsim dl LeastSquares LBFGSB vcf wy vlate vs0 = (s', Ok (res, Some 1)) /\ r_status res = 5 /\
  nth_error (tw_heap (o_w s')) 1 = Some (vstat (clock 3) [[(clock 5 - clock 4)%R]]).
Proof.
  unfold timed_run. cbn [wy rank shape mk2 length Nat.eqb negb]. change (negb _) with false. cbv iota. unfold now at 1. cbv zeta. unfold begin_stats. cbn [vs0 new_optimizer new_sim o_w tw_cur tw_w tw_heap tw_n length app].
  unfold prepare. cbn [with_w o_heap o_w oc_save vcf o_sum]. change (dim0 wy) with 2. change (dim1 wy) with 1. rewrite H0. unfold vlate. cbn [interp o_heap length with_heap app].
  set (w1 := mktw _ _ _ _). destruct (@first_cost w1 1 (@mkstats RField (Some 0%R) None [] []) eq_refl eq_refl (sim_new _ _ _ _ _)) as (w' & v & s' & E & -> & D & C & N & H).
  match goal with |- context [call_cost ?a ?b ?c ?d 0%R ?f] => change (call_cost a b c d 0%R f) with (call_cost (F:=RField) simc LeastSquares vcf 0 0%R (@mko RField tw [flatten (F:=RField) wy] w1 (Some (2, 1)) None None 0 0 None 0%R)) end.
  rewrite E. cbn [interp o_heap length with_heap app].
  match goal with |- context [call_cost ?a ?b ?c ?d ?e ?f] => assert (call_cost a b c d e f = (f, Err WallTimeExceeded)) as -> end.
  { unfold call_cost, cost_func_wrapper. cbn [oc_wall vcf o_start with_heap]. rewrite too_late by (cbn [ksub RField]; lra). reflexivity. }
  cbv iota beta. unfold end_stats at 1. cbn [with_heap o_w]. rewrite C. unfold tbind at 1, now at 1, upd at 1. cbn [tw_cur tw_heap tw_w tw_n]. rewrite C, H. cbn [w1 tw_heap lset nth_error t_begin t_end cost_times grad_times app fst].
  unfold write_state_to_result. cbn [oc_jac vcf with_w with_heap o_par]. 
  set (w2 := mktw _ _ _ _). 
  destruct (@jac_step 1 (@mkstats RField (Some 0%R) (Some (clock (tw_n w'))) [[(clock (1 + tw_n w1)%nat - clock (tw_n w1))%R]] []) dl w2 eq_refl eq_refl D) as (w3 & j & EJ & WJ & C3 & H3).
  unfold call_jac, cost_jacobian_wrapper, with_w, with_heap. cbn [o_shape o_w o_heap o_par o_sum o_min o_nc o_nj o_start]. 
  match goal with |- context [unflatten 2 1 ?x] => replace (unflatten (F:=RField) 2 1 x) with (@Ok (arr (kcar RField)) wy) by reflexivity end.
  cbn [o_w]. cbv beta.
  match goal with |- context [@timed_jac ?F ?a ?b ?c ?d ?e ?f ?g ?h] => change (@timed_jac F a b c d e f g h) with (@timed_jac RField rexp wla c0 clock vsim (Some wy) dl w2) end. rewrite EJ. cbn [oc_save oc_weights vcf].
  assert (exists mj, jac_matrix (F:=RField) j = Ok mj) as [mj ->].
  { destruct j as [sh l]. destruct WJ as [W1 W2]. cbn in W1, W2. subst sh. eexists. reflexivity. }
  cbn [bind inc_nj with_w o_w o_heap]. rewrite C3. eexists. eexists. split; [reflexivity|]. split; [reflexivity|]. cbn [o_w inc_nj with_w]. rewrite H3. cbn [w2 tw_heap lset nth_error tw_n t_begin t_end cost_times grad_times app]. rewrite N. unfold vstat. rewrite H0. reflexivity.
Qed.
End Steps.

(** ---- for the theorems ---- *)
Lemma INR_monotone : monotone INR.
Proof. intros i. rewrite S_INR. lra. Qed.
(** a clock that stops for a while at the evaluation of the jacobian *)
Definition slow (i : nat) : R := (INR i + if Nat.leb 5 i then 95 else 0)%R.
Lemma slow_monotone : monotone slow.
Proof.
  intros i. unfold slow. rewrite S_INR. destruct (Nat.leb 5 i) eqn:E1.
  - apply Nat.leb_le in E1. assert (Nat.leb 5 (S i) = true) as -> by (apply Nat.leb_le; lia). lra.
  - destruct (Nat.leb 5 (S i)); lra.
Qed.
Theorem stop_outcome (rexp : R -> R) fin : fin 1 = true -> outcome fin (@mkstats RField (Some 0%R) (Some 3%R) [[1%R]] []).
Proof.
  intros Hf. destruct (@stop_run rexp INR eq_refl 1%R) as (s' & res & E & S & N). exists rexp, wla, c0, INR, vsim. eexists. eexists. eexists. eexists. eexists. eexists. eexists. eexists. eexists. eexists.
  split; [exact INR_monotone|]. split; [|split; [exact E|]]; [discriminate|]. split; [|split; [right; right; congruence|congruence]]. rewrite N. unfold vstat. cbn [INR]. do 2 f_equal; try (f_equal; lra). repeat f_equal. lra.
Qed.
Theorem late_share : exists (rexp : R -> R) (la : LinAlg RField) (eps : cplx RField) (clock : nat -> R) m dl kd me cf y0 sp s s' res a t g ts,
  monotone clock /\ tw_cur (o_w s) <> None /\ @timed_run RField rexp la eps clock m dl kd me cf y0 sp s = (s', Ok (res, Some a)) /\ nth_error (tw_heap (o_w s')) a = Some t /\
  opt_times (F:=RField) [t] = Ok ts /\ (0 < added ts)%R /\ time_share_grad (F:=RField) [t] = Ok g /\ (1 < g)%R.
Proof.
  assert (Z : slow 0 = 0%R) by (unfold slow; cbn; lra).
  destruct (@late_run (fun x => x) slow Z 1%R) as (s' & res & E & S & N). exists (fun x => x), wla, c0, slow, vsim. do 11 eexists. exists (96 / 3)%R, [3%R].
  split; [exact slow_monotone|]. split; [|split; [exact E|]]; [discriminate|]. split; [exact N|].
  assert (D : Forall2 lasted [vstat slow (slow 3) [[(slow 5 - slow 4)%R]]] [3%R]).
  { constructor; [|constructor]. exists (slow 0), (slow 3). split; [reflexivity|]. split; [reflexivity|]. unfold slow. cbn. lra. }
  split; [now apply opt_times_lasted|]. split; [unfold added; cbn; lra|].
  destruct (@share_values _ _ D) as [_ V].
  { constructor; [|constructor]. split; eexists; repeat constructor. }
  split; [|lra]. rewrite V. replace (recorded (@grad_times RField) [vstat slow (slow 3) [[(slow 5 - slow 4)%R]]]) with 96%R; [replace (added [3%R]) with 3%R; [reflexivity|]|].
  - unfold added. cbn. lra.
  - unfold recorded, added. cbn [flat_map concat app fold_right grad_times vstat]. unfold slow. cbn. lra.
Qed.
Theorem two_records (rexp : R -> R) (clock : nat -> R) : exists (w w' : @tw RField) v w'' j,
  w = new_sim wworld true /\ @timed_cost RField rexp wla c0 clock vsim (Some wy) w = (w', Ok v) /\ @timed_jac RField rexp wla c0 clock vsim (Some wy) 1%R w' = (w'', Ok j) /\
  tw_heap w'' = [@mkstats RField None None [[(clock 1%nat - clock 0%nat)%R]] [[(clock 3%nat - clock 2%nat)%R]]].
Proof.
  set (w := new_sim (F:=RField) wworld true). destruct (@cost_step rexp clock 0 new_stats w eq_refl eq_refl (sim_new _ _ _ _ _)) as (w' & v & E & D & C & N & H).
  assert (H' : nth_error (tw_heap w') 0 = Some (@mkstats RField None None [[(clock 1%nat - clock 0%nat)%R]] [])) by (rewrite H; reflexivity).
  destruct (@jac_step rexp clock 0 _ 1%R w' C H' D) as (w'' & j & EJ & _ & _ & H2). exists w, w', v, w'', j. split; [reflexivity|]. split; [exact E|]. split; [exact EJ|]. rewrite H2, H, N. reflexivity.
Qed.
Theorem stop_shares : let t := @mkstats RField (Some 0%R) (Some 3%R) [[1%R]] [] in
  outcome (fun n => Nat.eqb n 1) t /\ time_share_cost (F:=RField) [t; t] = Ok (2 / 6)%R /\ time_share_grad (F:=RField) [t; t] = Ok (0 / 6)%R.
Proof.
  intros t. split; [now apply (@stop_outcome (fun x => x))|].
  assert (L : lasted t 3%R) by (exists 0%R, 3%R; repeat split; lra).
  destruct (@share_values [t; t] [3%R; 3%R]) as [-> ->].
  { repeat constructor; exact L. }
  { repeat constructor; try (exists 1; repeat constructor); exists 0; repeat constructor. }
  replace (added [3%R; 3%R]) with 6%R by (unfold added; cbn; lra). replace (recorded (@cost_times RField) [t; t]) with 2%R by (unfold recorded, added; cbn; lra).
  replace (recorded (@grad_times RField) [t; t]) with 0%R by (unfold recorded, added; cbn; lra). split; reflexivity.
Qed.
Theorem stop_case (rexp : R -> R) (clock : nat -> R) dl : clock 0 = 0%R -> exists s' res, tw_cur (o_w vs0) <> None /\ nth_error (tw_heap (o_w vs0)) 0 = Some new_stats /\
  @timed_run RField rexp wla c0 clock vsim dl LeastSquares LBFGSB vcf wy vstop vs0 = (s', Ok (res, Some 1)) /\ r_status res = 1 /\
  nth_error (tw_heap (o_w s')) 1 = Some (@mkstats RField (Some (clock 0)) (Some (clock 3)) [[(clock 2%nat - clock 1%nat)%R]] []).
Proof. intros H0. destruct (@stop_run rexp clock H0 dl) as (s' & res & E & S & N). exists s', res. repeat split; auto. discriminate. Qed.
Definition nsim : @sim RField := mksim [0] [first_amplitude] None true.
Theorem three_records (rexp : R -> R) (clock : nat -> R) : exists (w w' : @tw RField) j rows, w = new_sim wworld true /\
  @timed_jac RField rexp wla c0 clock nsim (Some wy) 1%R w = (w', Ok j) /\ length rows = 3 /\ tw_heap w' = [@mkstats RField None None rows []].
Proof.
  set (w := new_sim (F:=RField) wworld true).
  destruct (@numeric_entries RField rexp wla c0 nsim wworld wworld (Some wy) wy 2 1 1 (fun _ y => (ent y 0 0 * ent y 0 0)%R) 1%R false) as (w1 & G & E & _).
  - exact vsim_set_up.
  - constructor.
  - now left.
  - exact wy_wf.
  - intros y' Wy. split; [now apply vsim_accepted|]. exists [scalar RField (ent y' 0 0 * ent y' 0 0)%R]. split; [|reflexivity]. constructor; [|constructor]. eexists. split; [reflexivity|]. now apply vcosts.
  - destruct (@timed_jac_erases RField rexp wla c0 clock nsim (Some wy) 1%R w) as [C1 E1]. destruct (@timed_jac RField rexp wla c0 clock nsim (Some wy) 1%R w) as [w' r] eqn:ET. cbn [fst snd] in *.
    assert (E2 : wrapped_jac (F:=RField) rexp wla c0 nsim (Some wy) 1%R (tw_w w) = (w1, Ok G)) by exact E. rewrite E2 in E1. injection E1 as _ <-.
    destruct (@numeric_records RField rexp wla c0 clock nsim wy 1%R w w' G 0 new_stats eq_refl eq_refl eq_refl ET) as (rows & L & _ & C & H).
    exists w, w', G, rows. split; [reflexivity|]. split; [exact ET|]. split; [exact L|].
    assert (O := @others_jac rexp wla c0 clock 0 (tw_heap w) nsim (Some wy) 1%R w (conj eq_refl (conj eq_refl (fun i _ => eq_refl)))). rewrite ET in O. destruct O as (_ & LL & _). cbn in LL.
    cbn [fst] in LL. destruct (tw_heap w') as [|x [|]]; try discriminate. injection H as ->. reflexivity.
Qed.
