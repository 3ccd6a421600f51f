(** Concrete simulators over the rationals: cases for the theorems about the simulator. *)
Require Import List Arith Lia ZArith QArith Qcanon Bool.
From Verif Require Import LibBase LibRing LibArr LibCplx LibMat LibEx M_Matrix M_OpHeap M_Transfer S_Transfer M_Amplitude P_TransferWit M_Solver S_Solver
  P_SolverWit M_Cost M_Simulator S_Simulator P_Simulator P_Simulator2.
Import ListNotations.
Open Scope nat_scope.
Set Implicit Arguments.

Notation aQ := (arr (kcar Qf)).
(** costs by the control amplitudes a = u[0,0], b = u[1,0]: a^2 + a b + 1, and the vector (2 a - b + 3, b) *)
Definition ua (o : option aQ) : Qf := match o with Some u => get2 k0 u 0 0 | None => k0 end.
Definition ub (o : option aQ) : Qf := match o with Some u => get2 k0 u 1 0 | None => k0 end.
Definition two : Qf := kadd k1 k1.
Definition cf_quad : @cfun Qf := mkcf 0 [0]
  (PAmps (fun o => PRet (Ok (Arr [] [kadd (kadd (kmul (ua o) (ua o)) (kmul (ua o) (ub o))) k1]))))
  (PAmps (fun o => PRet (Ok (Arr [2; 1] [kadd (kmul two (ua o)) (ub o); ua o])))).
Definition cf_lin : @cfun Qf := mkcf 1 [1; 2]
  (PAmps (fun o => PRet (Ok (Arr [2] [kadd (ksub (kmul two (ua o)) (ub o)) (kofnat 3); ub o]))))
  (PAmps (fun o => PRet (Ok (Arr [2; 2; 1] [two; k0; kopp k1; k1])))).
(** an infidelity of the second solver with the identity as target *)
Definition cf_inf : @cfun Qf := mkcf 1 [3] (prog_operation_infidelity qla (mid (S:=QS) 2) false None false)
  (prog_operation_infidelity_grad qla (mid (S:=QS) 2) false None false).
Definition msim : @sim Qf := mksim [0; 1] [cf_quad; cf_lin; cf_inf] (Some yb) false.
Definition mpol : @sim Qf := mksim [0; 1] [cf_quad; cf_lin] (Some yb) false.
Definition mlin : @sim Qf := mksim [1] [cf_lin] (Some yb) true.
Definition w2 : @world Qf := [ssch; ssch].

Lemma w2_new : forall s0, In s0 w2 -> exists d, constructed d s0 /\ good qla c0 (s_conf s0).
Proof. intros s0 [<-|[<-|[]]]; exists (DId 1); split; first [apply ssch_constructed | apply ssch_good]. Qed.
Ltac setup := split; [exact w2_new|]; split; [cbn; intros i Hi; repeat destruct Hi as [<-|Hi]; try lia; try contradiction|]; split; [discriminate|];
  cbn [sm_cfs]; intros c Hc; cbn in Hc; repeat destruct Hc as [<-|Hc]; try contradiction; cbn; repeat split; auto; intros; try exact I; repeat match goal with v : @sval _ |- _ => destruct v end; cbn; auto.
Lemma msim_set_up : set_up qla c0 msim w2. Proof. setup. Qed.
Lemma mpol_set_up : set_up qla c0 mpol w2. Proof. setup. Qed.
Lemma mlin_set_up : set_up qla c0 mlin w2. Proof. setup. Qed.

(** the solver accepts every pulse of shape (2, 1) *)
Lemma wfa21 (y : aQ) : wfa [2; 1] y -> exists a b, y = Arr [2; 1] [a; b].
Proof. destruct y as [sh dt]. intros [H1 H2]. cbn in *. subst. destruct dt as [|a [|b []]]; try discriminate. eauto. Qed.
Lemma ssch_set (y : aQ) : (match snd (qstep ssch (SSet y)) with Ok VUnit => true | _ => false end) = true -> with_pulse qexp qla c0 ssch y (fst (qstep ssch (SSet y))).
Proof. intros H. unfold with_pulse. destruct (qstep ssch (SSet y)) as [f r]. cbn [fst snd] in *. f_equal. now apply ok_unit. Qed.
Lemma ssch_accepts (y : aQ) : wfa [2; 1] y -> exists f, with_pulse qexp qla c0 ssch y f /\ s_amps f = Some y.
Proof. intros H. destruct (wfa21 H) as (a & b & ->). eexists. split; [apply ssch_set; vm_compute; reflexivity|vm_compute; reflexivity]. Qed.
Lemma w2_accepted m (y : aQ) : (forall i, In i (sm_solvers m) -> i < 2) -> wfa [2; 1] y -> accepted qexp qla c0 m w2 y.
Proof. intros Hm H i s0 Hi E. destruct (ssch_accepts H) as (f & A & _). exists f. assert (s0 = ssch) as ->; auto. specialize (Hm i Hi). destruct i as [|[|i]]; [now injection E|now injection E|lia]. Qed.

(** ---- polynomial costs ---- *)
Lemma costs_quad (y : aQ) : wfa [2; 1] y -> costs_at qexp qla c0 ssch cf_quad y (Arr [] [kadd (kadd (kmul (ua (Some y)) (ua (Some y))) (kmul (ua (Some y)) (ub (Some y)))) k1]).
Proof. intros H. destruct (ssch_accepts H) as (f & A & B). exists f. split; auto. cbn. now rewrite B. Qed.
Lemma costs_lin (y : aQ) : wfa [2; 1] y -> costs_at qexp qla c0 ssch cf_lin y (Arr [2] [kadd (ksub (kmul two (ua (Some y))) (ub (Some y))) (kofnat 3); ub (Some y)]).
Proof. intros H. destruct (ssch_accepts H) as (f & A & B). exists f. split; auto. cbn. now rewrite B. Qed.
Definition fpol (k : nat) (y : aQ) : Qf :=
  match k with
  | 0 => kadd (kadd (kmul (get2 k0 y 0 0) (get2 k0 y 0 0)) (kmul (get2 k0 y 0 0) (get2 k0 y 1 0))) k1
  | 1 => kadd (ksub (kmul two (get2 k0 y 0 0)) (get2 k0 y 1 0)) (kofnat 3)
  | _ => get2 k0 y 1 0
  end.
Definition flin (k : nat) (y : aQ) : Qf := fpol (Datatypes.S k) y.
Lemma mpol_computes : computes qexp qla c0 mpol w2 2 1 3 fpol.
Proof.
  intros y Hy. split. { apply w2_accepted; auto. cbn. intros i [<-|[<-|[]]]; lia. }
  eexists [_; _]. split; [constructor; [|constructor; [|constructor]]; exists ssch; (split; [reflexivity|]); [now apply costs_quad|now apply costs_lin]|reflexivity].
Qed.
Lemma mlin_computes : computes qexp qla c0 mlin w2 2 1 2 flin.
Proof.
  intros y Hy. split. { apply w2_accepted; auto. cbn. intros i [<-|[]]; lia. }
  eexists [_]. split; [constructor; [|constructor]; exists ssch; (split; [reflexivity|]); now apply costs_lin|reflexivity].
Qed.
Definition lb (k : nat) : Qf := match k with 0 => kofnat 3 | _ => k0 end.
Definition lA (k t c : nat) : Qf := match k, t with 0, 0 => two | 0, _ => kopp k1 | _, 0 => k0 | _, _ => k1 end.
Add Field Qfld : (k_field Qf).
Lemma flin_affine : forall k z, k < 2 -> wfa [2; 1] z -> flin k z = kadd (lb k) (over 2 1 (fun t c => kmul (lA k t c) (get2 k0 z t c))).
Proof. intros k z Hk _. unfold over. destruct k as [|[|k]]; [| |lia]; cbn [flin fpol lb lA sumn]; unfold two; cbn [KStar sadd s0 scar]; ring. Qed.
Definition pb (k : nat) : Qf := match k with 0 => k1 | 1 => kofnat 3 | _ => k0 end.
Definition pA (k t c : nat) : Qf := match k with 0 => k0 | Datatypes.S k => lA k t c end.
Definition pQ (k t c t' c' : nat) : Qf := match k, t, t' with 0, 0, 0 => k1 | 0, 0, _ => k1 | _, _, _ => k0 end.
Lemma fpol_quadratic : forall k z, k < 3 -> wfa [2; 1] z -> fpol k z = kadd (kadd (pb k) (over 2 1 (fun t c => kmul (pA k t c) (get2 k0 z t c))))
     (over 2 1 (fun t c => over 2 1 (fun t' c' => kmul (pQ k t c t' c') (kmul (get2 k0 z t c) (get2 k0 z t' c'))))).
Proof. intros k z Hk _. unfold over. destruct k as [|[|[|k]]]; [| | |lia]; cbn [fpol pb pA pQ lA sumn]; unfold two; cbn [KStar sadd s0 scar]; ring. Qed.

(** ---- a simulator that was used before ---- *)
Definition rl {A} (d : A) (r : res A) : A := match r with Ok v => v | Err _ => d end.
Lemma ok_rl {A} d (r : res A) : is_ok r = true -> r = Ok (rl d r).
Proof. destruct r; intros; try discriminate; reflexivity. Qed.
Lemma pair_ok {A B} (d : B) (p : A * res B) : is_ok (snd p) = true -> p = (fst p, Ok (rl d (snd p))).
Proof. destruct p as [a r]. cbn. intros H. f_equal. now apply ok_rl. Qed.
Definition wused (m : @sim Qf) := fst (wrapped_jac qexp qla c0 m None (qq 1 2) (fst (wrapped_cost qexp qla c0 m (Some ya) w2))).
Lemma used_simulated m : is_ok (snd (wrapped_cost qexp qla c0 m (Some ya) w2)) = true ->
  is_ok (snd (wrapped_jac qexp qla c0 m None (qq 1 2) (fst (wrapped_cost qexp qla c0 m (Some ya) w2)))) = true -> simulated qexp qla c0 m w2 (wused m).
Proof.
  intros A B. eapply sim_jac; [|exact (pair_ok (Arr [] []) _ B)]. eapply sim_cost; [apply sim_new|exact (pair_ok [] _ A)].
Qed.
Lemma msim_used : simulated qexp qla c0 msim w2 (wused msim). Proof. apply used_simulated; vm_compute; reflexivity. Qed.
Lemma mpol_used : simulated qexp qla c0 mpol w2 (wused mpol). Proof. apply used_simulated; vm_compute; reflexivity. Qed.
Lemma mlin_used : simulated qexp qla c0 mlin w2 (wused mlin). Proof. apply used_simulated; vm_compute; reflexivity. Qed.

(** the infidelity at ya *)
Definition fya : @st Qf := fst (qstep ssch (SSet ya)).
Lemma fya_pulse : with_pulse qexp qla c0 ssch ya fya. Proof. apply ssch_set. vm_compute. reflexivity. Qed.
Definition vops (r : res (@sval Qf)) : list qop := match r with Ok (VOps l) => l | _ => [] end.
Lemma ok_ops (r : res (@sval Qf)) : (match r with Ok (VOps _) => true | _ => false end) = true -> r = Ok (VOps (vops r)).
Proof. destruct r as [[]|]; intros; try discriminate; reflexivity. Qed.
Definition vders (r : res (@sval Qf)) : list (list (option qop)) := match r with Ok (VDer l) => l | _ => [] end.
Lemma ok_ders (r : res (@sval Qf)) : (match r with Ok (VDer _) => true | _ => false end) = true -> r = Ok (VDer (vders r)).
Proof. destruct r as [[]|]; intros; try discriminate; reflexivity. Qed.
Lemma ok_arr (r : res aQ) (a : aQ) : (match r with Ok b => aeqb b a | Err _ => false end) = true -> r = Ok a.
Proof. destruct r; intros; [|discriminate]. f_equal. now apply aeqb_eq. Qed.
Lemma inf_ya : costs_at qexp qla c0 ssch cf_inf ya (Arr [] [qq 16 65]).
Proof.
  exists fya. split; [apply fya_pulse|]. exists (VOps (vops (snd (qstep fya SFwd)))). split; [apply ok_ops; vm_compute; reflexivity|].
  apply ok_arr. vm_compute. reflexivity.
Qed.
Definition ginf : aQ := aq 2 1 [[0]; [0]]%Z.
Lemma grad_inf_ya : evaluates qexp qla c0 fya (cf_grad cf_inf) ginf.
Proof.
  exists (VOps (vops (snd (qstep fya SFwd)))). split; [apply ok_ops; vm_compute; reflexivity|].
  exists (VOps (vops (snd (qstep fya SRev)))). split; [apply ok_ops; vm_compute; reflexivity|].
  exists (VDer (vders (snd (qstep fya SDer)))). split; [apply ok_ders; vm_compute; reflexivity|]. apply ok_arr. vm_compute. reflexivity.
Qed.
Definition vals3 : list aQ := [Arr [] [qq 4 1]; Arr [2] [qq 3 1; qq 2 1]; Arr [] [qq 16 65]].
Lemma vals3_costs : Forall2 (fun c a => exists s0, nth_error w2 (cf_solver c) = Some s0 /\ costs_at qexp qla c0 s0 c ya a) (sm_cfs msim) vals3.
Proof.
  assert (W : wfa [2; 1] ya) by (split; reflexivity).
  constructor; [|constructor; [|constructor; [|constructor]]]; exists ssch; (split; [reflexivity|]).
  - pose proof (costs_quad W) as H. erewrite aeqb_eq in H; [exact H|vm_compute; reflexivity].
  - pose proof (costs_lin W) as H. erewrite aeqb_eq in H; [exact H|vm_compute; reflexivity].
  - apply inf_ya.
Qed.
Definition hs3 : list aQ := [Arr [2; 1; 1] [qq 4 1; qq 1 1]; Arr [2; 2; 1] [qq 2 1; qq 0 1; qq (-1) 1; qq 1 1]; Arr [2; 1; 1] [qq 0 1; qq 0 1]].
Lemma ya21 : wfa [2; 1] ya. Proof. split; reflexivity. Qed.
Lemma grad_at_ya c g (h : aQ) : evaluates qexp qla c0 fya (cf_grad c) g ->
  (match snd (call qexp (s_tf ssch) ya) with
   | Ok x => match amp_chain (c_amp (s_conf ssch)) (expand1 g) x with Ok k => (match snd (M_Transfer.grad qexp (s_tf ssch) k) with Ok b => aeqb b h | Err _ => false end) | Err _ => false end
   | Err _ => false end) = true -> gradient_at qexp qla c0 ssch c ya h.
Proof.
  intros E H. destruct (snd (call qexp (s_tf ssch) ya)) as [x|] eqn:Ex; [|discriminate]. destruct (amp_chain (c_amp (s_conf ssch)) (expand1 g) x) as [k|] eqn:Ek; [|discriminate].
  exists fya, g, (expand1 g), x, k. split; [apply fya_pulse|]. split; [exact E|]. split.
  - unfold expand1, rank. destruct (Nat.eqb (length (shape g)) 2) eqn:R; [right|left; apply Nat.eqb_neq in R; auto]. apply Nat.eqb_eq in R.
    unfold dim0, dim1. destruct (shape g) as [|m0 [|n0 []]]; try discriminate. exists m0, n0. auto.
  - split; [exact Ex|]. split; [exact Ek|]. now apply ok_arr.
Qed.
Lemma hs3_grads : Forall2 (fun c h => exists s0, nth_error w2 (cf_solver c) = Some s0 /\ gradient_at qexp qla c0 s0 c ya h) (sm_cfs msim) hs3.
Proof.
  constructor; [|constructor; [|constructor; [|constructor]]]; exists ssch; (split; [reflexivity|]).
  - apply grad_at_ya with (g := aq 2 1 [[4]; [1]]%Z); [apply ok_arr|]; vm_compute; reflexivity.
  - apply grad_at_ya with (g := nth 1 hs3 ya); [apply ok_arr|]; vm_compute; reflexivity.
  - apply grad_at_ya with (g := ginf); [apply grad_inf_ya|]. vm_compute. reflexivity.
Qed.
Lemma hs3_shapes : Forall2 (fun (h : aQ) n => wfa [2; n; 1] h) hs3 [1; 2; 1].
Proof. repeat constructor. Qed.
Lemma msim_accepted : accepted qexp qla c0 msim w2 ya.
Proof. apply w2_accepted; [|apply ya21]. cbn. intros i [<-|[<-|[]]]; lia. Qed.
Lemma labels3 : Forall2 (fun c a => length (cf_label c) = length (data a)) (sm_cfs msim) vals3.
Proof. repeat constructor. Qed.

