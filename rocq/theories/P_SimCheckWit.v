(** A simulator with a gradient that does not vanish (C69): the solver of P_GradWit.v, and the first amplitude as costs. *)
Require Import List Arith Lia Bool Reals Lra.
From Verif Require Import LibBase LibRing LibArr LibCplx LibMat LibDeriv M_Matrix S_Linear S_Deriv S_Exp M_Transfer S_Transfer M_Amplitude S_Amplitude
  M_Solver S_Solver M_Cost S_Cost M_Simulator M_CostProg S_Simulator S_Gradient P_Amplitude P_Grad P_GradTotal P_GradWit.
Import ListNotations.
Set Implicit Arguments.

Definition first_amplitude : @cfun RField :=
  mkcf 0 [0] (PAmps (fun a => PRet (match a with Some a => Ok (scalar RField (get2 (k0 : RField) a 0 0)) | None => Err TypeError end))) (PRet (Ok (mk2 4 1 (fun t _ => if Nat.eqb t 0 then 1%R else 0%R) : arr (kcar RField)))).
Definition vsim : @sim RField := mksim [0] [first_amplitude] None false.
Lemma vsim_set_up : set_up (F:=RField) wla c0 vsim wworld.
Proof.
  destruct wsim_set_up as (A & B & _). split; auto. split; auto. split; [discriminate|]. intros c [<-|[]]. split; [now left|]. split; cbn; auto.
Qed.
Lemma vsim_accepted rexp y' : wfa [2; 1] y' -> accepted (F:=RField) rexp wla c0 vsim wworld y'.
Proof. exact (@wsim_accepted rexp y'). Qed.
Lemma data21 (y : RA) : wfa [2; 1] y -> exists a b, y = Arr [2; 1] [a; b].
Proof. destruct y as [sh l]. intros [E L]. cbn in E, L. subst sh. destruct l as [|a [|b [|]]]; cbn in L; try lia. eauto. Qed.
Lemma vcosts rexp y' : wfa [2; 1] y' -> costs_at (F:=RField) rexp wla c0 (wsolver (Some (mid (S:=RS) 2))) first_amplitude y' (scalar RField (ent y' 0 0 * ent y' 0 0)%R).
Proof. intros W. destruct (data21 W) as (a & b & ->). eexists. split; [reflexivity|]. cbn [evaluates first_amplitude cf_costs]. reflexivity. Qed.
Lemma vgrad rexp : gradient_at (F:=RField) rexp wla c0 (wsolver (Some (mid (S:=RS) 2))) first_amplitude wy (Arr [2; 1; 1] [2; 0]%R).
Proof.
  eexists. eexists. exists (Arr [4; 1; 1] [1; 0; 0; 0]%R). eexists. eexists. split; [reflexivity|]. split; [cbn; reflexivity|].
  split; [right; exists 4, 1; repeat split|]. split; [reflexivity|]. split; [reflexivity|].
  cbv -[Rplus Rmult Ropp Rinv Rminus IZR Rdiv]. repeat f_equal; ring.
Qed.
Lemma vsim_differentiable rexp : Forall (fun c => differentiable rexp wla c0 wworld 2 1 c wy) (sm_cfs vsim).
Proof.
  constructor; [|constructor]. exists (wsolver (Some (mid (S:=RS) 2))), wd, wtau, (fun y' => (ent y' 0 0 * ent y' 0 0)%R), (Arr [2; 1; 1] [2; 0]%R).
  split; [reflexivity|]. split; [reflexivity|]. split; [reflexivity|]. split; [intros y' W; now apply vcosts|]. split; [apply vgrad|]. split; [split; reflexivity|].
  intros c v (E & W & D). cbv [get3 getn ravel prodn shape data nth]. change (length wtau) with 2. change (ctrls wd) with 1. cbn [Rsum Nat.add Nat.mul].
  assert (H := D 0 0 ltac:(cbn; lia) ltac:(cbn; lia)). assert (X := derivable_pt_lim_mult _ _ _ _ _ H H). cbv beta in X. unfold mult_fct in X.
  match goal with |- derivable_pt_lim _ _ ?z => match type of X with derivable_pt_lim _ _ ?z' => replace z with z'; [exact X|] end end.
  rewrite E. change (ent wy 0 0) with 1%R. ring.
Qed.
Lemma vsim_jac rexp dl : exists w', wrapped_jac (F:=RField) rexp wla c0 vsim (Some wy) dl wworld = (w', Ok (Arr [2; 1; 1] [2; 0]%R)).
Proof.
  destruct (@P_Simulator2.sim_jac_layout RField rexp wla c0 vsim wworld wworld (Some wy) wy [Arr [2; 1; 1] [2; 0]%R] [1] 2 1 dl vsim_set_up) as (w' & J & E & WJ & HJ & _).
  - constructor.
  - reflexivity.
  - now left.
  - apply vsim_accepted. exact wy_wf.
  - constructor; [|constructor]. eexists. split; [reflexivity|]. apply vgrad.
  - repeat constructor.
  - exists w'. rewrite E. f_equal. f_equal. apply (@arr3_ext R 0%R 2 1 1); [exact WJ|split; reflexivity|]. intros i j k Hi Hj Hk. assert (j = 0) as -> by lia.
    exact (HJ 0 _ 1 i 0 k eq_refl eq_refl Hi Nat.lt_0_1 Hk).
Qed.
