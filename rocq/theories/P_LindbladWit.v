(** Cases of the theorems about the directions of the Lindblad solver, its default initial state, and the
    dissipation super operators it overwrites. *)
Require Import List Arith Lia ZArith QArith Qcanon Bool Ring Field.
From Verif Require Import LibBase LibRing LibArr LibCplx LibNorm LibMat LibEx M_Matrix S_Linear P_Linear M_OpHeap M_Transfer S_Transfer M_Amplitude P_TransferWit M_Solver S_Solver S_Lindblad P_Solver P_Solver6 P_Solver7 P_Solver9 P_SolverWit P_SolverCases P_Simulator P_LindbladDer.
Import ListNotations.
Open Scope nat_scope.
Open Scope res_scope.
Set Implicit Arguments.

Section Default.
Variable F : OField.
Notation S := (CStar F).
Notation op := (op F).
Notation dop := (Arr [] [] : op).
Variable rexp : F -> F.
Variable la : LinAlg F.
Variable eps : cplx F.
(** the constructor without an initial state *)
Lemma default_init cls drift ctrl tau amps meth skew calc approx t a udiss (s0 : @st F) n : build_solver cls drift ctrl tau None amps meth skew calc approx t a udiss = Ok s0 ->
  Forall (is_matrix (S:=S) n n : op -> Prop) ctrl ->
  is_identity (S:=S) (match cls with CLindblad _ => n * n | _ => n end) (c_init (s_conf s0)).
Proof.
  intros H Hc. unfold build_solver in H. destruct ctrl as [|h0 hr]; [discriminate|]. cbn [idx nth_error bind] in H.
  assert (E : nr h0 = n). { inversion Hc as [|? ? W0 _]; subst. apply is_matrix_wfm in W0. now apply (wfm_nr W0). }
  destruct (set_times t tau) as [t' [?|?]]; cbn [bind] in H; [|discriminate]. destruct (b_xt (tbase t')) as [xs|]; [|discriminate].
  repeat match type of H with context [if ?b then _ else _] => destruct b; cbn [bind] in H; [|discriminate] end.
  match type of H with Ok ?x = Ok ?y => assert (E2 : y = x) by congruence end. subst s0. cbn [s_conf c_init]. rewrite E. split; [apply is_matrix_wfm, wfm_mid|]. intros i j Hi Hj. now rewrite mg_mid.
Qed.
Lemma default_forward d cls drift ctrl tau amps meth skew calc approx t a udiss (s0 s : @st F) n m ps fs : no_custom d -> build d = Ok t ->
  build_solver cls drift ctrl tau None amps meth skew calc approx t a udiss = Ok s0 -> Forall (is_matrix (S:=S) n n : op -> Prop) ctrl ->
  m = match cls with CLindblad _ => n * n | _ => n end ->
  used rexp la eps d s0 s -> returns rexp la eps s SPropag (VProp ps) -> returns rexp la eps s SFwd (VOps fs) -> all_square m ps ->
  exists I, is_identity (S:=S) m I /\ cumulative m m I ps fs.
Proof.
  intros _ _ HB Hc -> HU Hp Hf Hn. pose proof (@default_init cls drift ctrl tau amps meth skew calc approx t a udiss s0 n HB Hc) as HI.
  assert (E : s_conf s = s_conf s0). { destruct HU as (HC & G & hist & A & H & ->). destruct (@constructed_fresh F rexp la eps d s0 HC G) as [ys Fr].
    destruct (@history F rexp la eps (s_udiss s0) d ys s0 hist Fr A s0 (fresh_reach Fr) H) as [R _]. apply (@reach_conf F rexp la eps (s_udiss s0) d ys s0 _ Fr R). }
  exists (c_init (s_conf s)). rewrite E at 1. split; [exact HI|]. apply (@used_forward F rexp la eps d s0 s); auto. rewrite E. apply HI.
Qed.
End Default.

Ltac vmr := vm_compute; reflexivity.
(** relaxation with a rate that is the square of the amplitude *)
Definition sqr (u : arr (kcar Qf)) : arr (kcar Qf) := mk2 (dim0 u) 1 (fun t _ => kmul (get2 k0 u t 0) (get2 k0 u t 0)).
Definition dsqr (u : arr (kcar Qf)) : arr (kcar Qf) := mk3 (dim0 u) 1 1 (fun t _ _ => kadd (get2 k0 u t 0) (get2 k0 u t 0)).
Definition licd : @liconf Qf := mkli (Some [lm]) (Some (fun u _ => Ok (sqr u))) (Some (fun u _ => Ok (dsqr u))) None None.
Definition slind : @st Qf := sget (sfresh (CLindblad licd) [hd] [hz] (ones 2) Frechet false GNone 1 AIdentity None).
Definition lind1 := qrun slind [SSet ya].
Lemma case_directions : used qexp qla c0 (DId 1) slind lind1 /\ c_class (s_conf lind1) = CLindblad licd /\ Forall (is_matrix (S:=QS) 2 2 : qop -> Prop) [lm] /\
  Forall (is_hermitian (S:=QS) 2 : qop -> Prop) (s_drift lind1) /\ Forall (is_hermitian (S:=QS) 2 : qop -> Prop) (c_ctrl (s_conf lind1)) /\
  amplitudes lind1 (amp_of lind1) /\ rates licd (amp_of lind1) (s_tpars lind1) 1 (fun t i => get2 k0 (sqr (amp_of lind1)) t i) /\
  slopes licd (amp_of lind1) (s_tpars lind1) 1 (fun t c i => get3 k0 (dsqr (amp_of lind1)) t c i) /\
  c_approx (s_conf lind1) = GNone /\ returns qexp qla c0 lind1 SDer (VDer (vder (rd lind1 SDer))) /\ length (vder (rd lind1 SDer)) = 1.
Proof.
  split; [apply qused; [apply sget_constructed; reflexivity|apply qgood; try reflexivity; try discriminate; intros _; left; discriminate|vmr|vmr]|].
  split; [reflexivity|]. split; [apply square_all; vmr|]. split; [apply hermb_all; vmr|]. split; [apply hermb_all; vmr|].
  split; [split; [apply ok_some; vmr|vmr]|]. split; [eexists; split; [reflexivity|split; [vmr|reflexivity]]|]. split; [eexists; split; [reflexivity|split; [vmr|reflexivity]]|].
  split; [reflexivity|]. split; [apply ok_der; vmr|vmr].
Qed.
(** the dissipation super operator as a function of the amplitudes: the dephasing diag(0, -u, -u, 0) *)
Definition deph (x : kcar Qf) : qop := mk2 4 4 (fun i j => if (Nat.eqb i j && Nat.ltb 0 i && Nat.ltb i 3)%bool then cofk (kopp x) else c0).
Definition licf : @liconf Qf := mkli None None None (Some (fun u _ => Ok (map (fun t => deph (get2 k0 u t 0)) (seq 0 (dim0 u)))))
  (Some (fun u _ => Ok (map (fun _ => [deph k1]) (seq 0 (dim0 u))))).
Definition slinf : @st Qf := sget (sfresh (CLindblad licf) [hd] [hz] (ones 2) Frechet false GNone 1 AIdentity None).
Definition linf1 := qrun slinf [SSet ya].
Definition fdiss : list qop := map (fun t => deph (get2 k0 (amp_of linf1) t 0)) (seq 0 (dim0 (amp_of linf1))).
Lemma case_function : used qexp qla c0 (DId 1) slinf linf1 /\ c_class (s_conf linf1) = CLindblad licf /\
  Forall (is_hermitian (S:=QS) 2 : qop -> Prop) (s_drift linf1) /\ Forall (is_hermitian (S:=QS) 2 : qop -> Prop) (c_ctrl (s_conf linf1)) /\ amplitudes linf1 (amp_of linf1) /\
  length fdiss = 2 /\ Forall (is_matrix (S:=QS) 4 4 : qop -> Prop) fdiss /\ Forall (Forall (is_matrix (S:=QS) 4 4 : qop -> Prop)) [[deph k1]; [deph k1]] /\
  returns qexp qla c0 linf1 SPropag (VProp (vprop (rd linf1 SPropag))) /\ returns qexp qla c0 linf1 SDer (VDer (vder (rd linf1 SDer))).
Proof.
  split; [apply qused; [apply sget_constructed; reflexivity|apply qgood; try reflexivity; try discriminate; intros _; right; discriminate|vmr|vmr]|].
  split; [reflexivity|]. split; [apply hermb_all; vmr|]. split; [apply hermb_all; vmr|]. split; [split; [apply ok_some; vmr|vmr]|]. split; [vmr|].
  split; [apply square_all; vmr|]. split; [constructor; [apply square_all; vmr|constructor; [apply square_all; vmr|constructor]]|]. split; [apply ok_prop; vmr|apply ok_der; vmr].
Qed.
(** two dissipation super operators given by the caller, without prefactors *)
Definition lics : @liconf Qf := mkli None None None None None.
Definition slins (ds : list qop) : @st Qf := sget (sfresh (CLindblad lics) [hd] [hz] (ones 2) Frechet false GNone 1 AIdentity (Some ds)).
Definition dtwo : list qop := [deph k1; deph k1].
Lemma case_super : used qexp qla c0 (DId 1) (slins dtwo) (qrun (slins dtwo) [SSet ya]) /\ s_udiss (slins dtwo) = Some dtwo /\ Forall (is_matrix (S:=QS) (2 * 2) (2 * 2) : qop -> Prop) dtwo /\
  amplitudes (qrun (slins dtwo) [SSet ya]) (amp_of (qrun (slins dtwo) [SSet ya])) /\ rates lics (amp_of (qrun (slins dtwo) [SSet ya])) (s_tpars (qrun (slins dtwo) [SSet ya])) 2 (fun _ _ => k1) /\ slopes lics (amp_of (qrun (slins dtwo) [SSet ya])) (s_tpars (qrun (slins dtwo) [SSet ya])) 2 (fun _ _ _ => k0) /\
  returns qexp qla c0 (qrun (slins dtwo) [SSet ya]) SDer (VDer (vder (rd (qrun (slins dtwo) [SSet ya]) SDer))).
Proof.
  split; [apply qused; [apply sget_constructed; reflexivity|apply qgood; try reflexivity; try discriminate; intros [H|H]; exfalso; apply H; reflexivity|vmr|vmr]|].
  split; [reflexivity|]. split; [apply square_all; vmr|]. split; [split; [apply ok_some; vmr|vmr]|]. split; [intros ? ?; reflexivity|]. split; [intros ? ? ?; reflexivity|apply ok_der; vmr].
Qed.
Definition dsum : list qop := match s_udiss (qrun (slins dtwo) [SSet ya; SPropag]) with Some ds => ds | None => [] end.
Lemma is_ok_sget r : is_ok r = true -> r = Ok (sget r).
Proof. destruct r; [reflexivity|discriminate]. Qed.
(** a solver built from the caller's super operators after another solver used them *)
Lemma second_solver : exists (drift ctrl : list qop) tau t (l : @liconf Qf) y ds ds' s0 s0' ps ps',
  let solver x := build_solver (CLindblad l) drift ctrl tau None None Frechet false false GNone t AIdentity (Some x) in
  solver ds = Ok s0 /\ s_udiss (srun qexp qla c0 s0 [SSet y; SPropag]) = Some ds' /\ solver ds' = Ok s0' /\
  returns qexp qla c0 (srun qexp qla c0 s0 [SSet y]) SPropag (VProp ps) /\ returns qexp qla c0 (srun qexp qla c0 s0' [SSet y]) SPropag (VProp ps') /\ ps' <> ps.
Proof.
  exists [hd], [hz], (ones 2), (mk_identity 1), lics, ya, dtwo, dsum, (slins dtwo), (slins dsum), (vprop (rd (qrun (slins dtwo) [SSet ya]) SPropag)), (vprop (rd (qrun (slins dsum) [SSet ya]) SPropag)). cbv zeta.
  split; [apply is_ok_sget; reflexivity|].
  split. { unfold dsum, qrun. assert (E : match s_udiss (srun qexp qla c0 (slins dtwo) [SSet ya; SPropag]) with Some _ => true | None => false end = true) by vmr.
    destruct (s_udiss (srun qexp qla c0 (slins dtwo) [SSet ya; SPropag])); [reflexivity|discriminate]. }
  split; [apply is_ok_sget; vmr|]. split; [apply ok_prop; vmr|]. split; [apply ok_prop; vmr|].
  intros H. apply (f_equal (fun l => ceqb (ventry (Ok (VProp l)) 0 1 1) (ventry (rd (qrun (slins dtwo) [SSet ya]) SPropag) 0 1 1))) in H. vm_compute in H. discriminate.
Qed.
(** constant dissipation is kept with the old number of time steps: a read before set_times decides whether a later one succeeds *)
Lemma dissipation_keeps_steps : exists (d : desc Qf) (s0 : @st Qf) y0 tau y ps, constructed d s0 /\ good qla c0 (s_conf s0) /\ length tau = 1 /\
  all_ok qexp qla c0 s0 [SSet y0; SPropag; STimes tau; SSet y] /\ all_ok qexp qla c0 s0 [STimes tau; SSet y] /\
  returns qexp qla c0 (qrun s0 [SSet y0; SPropag; STimes tau; SSet y]) SPropag (VProp ps) /\ length ps = 1 /\
  snd (qstep (qrun s0 [STimes tau; SSet y]) SPropag) = Err AssertionError.
Proof.
  exists (DId 1), (slins dtwo), ya, (ones 1), (aq 1 1 [[7]]%Z), (vprop (rd (qrun (slins dtwo) [SSet ya; SPropag; STimes (ones 1); SSet (aq 1 1 [[7]]%Z)]) SPropag)).
  split; [apply sget_constructed; reflexivity|]. split; [apply qgood; try reflexivity; try discriminate; intros [H|H]; exfalso; apply H; reflexivity|]. split; [reflexivity|].
  split; [apply all_okb_ok; vmr|]. split; [apply all_okb_ok; vmr|]. split; [apply ok_prop; vmr|]. split; [vmr|]. rewrite ok_err by vmr. vm_compute. reflexivity.
Qed.
Lemma case_default : exists s0, build_solver (CLindblad lics) [hd] [hz] (ones 2) None None Frechet false false GNone (mk_identity 1) AIdentity (Some dtwo) = Ok s0 /\
  returns qexp qla c0 (qrun s0 [SSet ya]) SFwd (VOps (vops (rd (qrun (slins dtwo) [SSet ya]) SFwd))) /\ length (vops (rd (qrun (slins dtwo) [SSet ya]) SFwd)) = 3.
Proof. exists (slins dtwo). split; [apply is_ok_sget; reflexivity|]. split; [apply ok_ops; vmr|vmr]. Qed.
