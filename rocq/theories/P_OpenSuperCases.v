(** The hypotheses of the theorems of T_OpenSuper.v in concrete cases. *)
Require Import List Arith Lia Bool Reals Lra.
From Verif Require Import LibBase LibRing LibArr LibCplx LibMat LibNorm LibDeriv M_Matrix S_Linear S_Deriv S_Exp P_Linear P_Matrix P_Frechet P_Mexp M_OpHeap M_Transfer S_Transfer M_Amplitude S_Amplitude M_Solver S_Solver S_Lindblad S_Channel P_Lindblad P_Channel P_Channel2 P_GradWit P_ChannelWit S_Invariance P_InvarianceWit S_OpenSym P_OpenSym P_OpenSym3 P_OpenSymWit P_OpenSymCases S_OpenSuper P_OpenSuperWit.
Import ListNotations.
Local Open Scope res_scope.
Set Implicit Arguments.

Section Cases.
Add Field Cfield_suc : (c_field RField).
Notation op := (op RField).
Notation st := (@st RField).
Notation fn := (nat -> nat -> RC).
Notation arr2 n h := (mk2 n n (h : nat -> nat -> RC) : mat RS).
Notation rid := (fun x : R => x).
Notation has s k l y r := (exists ps fs, open_evolution rid lla c0 s 2 k [arr2 2 l] (ipulse y) (rate r) ps fs).
Notation given s l y r := (exists ps fs, super_evolution rid lla c0 s 2 1 (ipulse y) (damp l r) ps fs).
Notation parts k s hs c tau i := (s_drift s = map (fun h : fn => arr2 2 h) hs /\ c_ctrl (s_conf s) = [arr2 2 c] /\ s_time s = (tau : list R) /\ c_init (s_conf s) = (mk2 4 k i : op)).
Ltac ptime := match goal with |- _ = ?l => transitivity (map (fun x : R => kdivn (F:=RField) x 1) l : list R); [reflexivity|cbn [map]; rewrite !kdivn_1; reflexivity] end.
Ltac pt := split; [reflexivity|]; split; [reflexivity|]; split; [ptime|reflexivity].
Ltac lv2 t := destruct t as [|[|?]]; try (exfalso; cbn in *; lia).
Ltac have P := let a := fresh in let b := fresh in let c := fresh in let d := fresh in destruct P as (a & b & c & d); rewrite ?a, ?b, ?c, ?d; clear a b c d.
Ltac ent := cbn [nth map sumn length]; rewrite ?(@mg_mk2 RS) by (cbn; lia); unfold rate, opref, tilted, turn_i, moved, scaled, raised, swapped, low, excited, ground, col, ones_, hz, hx, hone, delta; cbn; unfold cadd, cmul, cofk, copp, csub, cconj, cnorm2, c0, c1, ci; cbn; try (f_equal; (ring || field)).
Ltac ct c := destruct c; [|cbn in *; lia].
Ltac same P Q := constructor; [have P; have Q; reflexivity|have P; have Q; reflexivity|intros ? ? ? ?; reflexivity|have P; have Q; reflexivity].

(** the solver o_base with its dissipation given as a super operator (b = true) or by a function (b = false) *)
Definition u_base b : st := urun b [hz; hx] hx low [1; 2]%R [1; 2]%R (col excited) [1; 3]%R.
Definition u_raised b : st := urun b [raised 1 hz; raised 5 hx] hx low [1; 2]%R [1; 2]%R (col excited) [1; 3]%R.
Definition u_swap b : st := urun b [swapped hz; swapped hx] (swapped hx) (swapped low) [1; 2]%R [1; 2]%R (col (swapped excited)) [1; 3]%R.
Definition u_dephase b : st := urun b [hz; scaled 3 hz] hz hz [1; 2]%R [1; 2]%R (col ones_) [1; 3]%R.
Definition u_ground b : st := urun b [hz; scaled 3 hz] hz low [1; 2]%R [1; 2]%R (col ground) [1; 3]%R.
Lemma qt_base b : parts 1 (u_base b) [hz; hx] hx [1; 2]%R (col excited). Proof. destruct b; pt. Qed.
Lemma qt_raised b : parts 1 (u_raised b) [raised 1 hz; raised 5 hx] hx [1; 2]%R (col excited). Proof. destruct b; pt. Qed.
Lemma qt_swap b : parts 1 (u_swap b) [swapped hz; swapped hx] (swapped hx) [1; 2]%R (col (swapped excited)). Proof. destruct b; pt. Qed.
Lemma qt_dephase b : parts 1 (u_dephase b) [hz; scaled 3 hz] hz [1; 2]%R (col ones_). Proof. destruct b; pt. Qed.
Lemma qt_ground b : parts 1 (u_ground b) [hz; scaled 3 hz] hz [1; 2]%R (col ground). Proof. destruct b; pt. Qed.
Hint Resolve herm_z herm_x herm_add herm_scaled herm_one herm_raised herm_swapped : herm.
Lemma sv_base b : given (u_base b) low [1; 3]%R [1; 2]%R. Proof. exact (@sevo2 b hz hx hx low 1 2 1 2 (col excited) 1 3 ltac:(auto with herm) ltac:(auto with herm) ltac:(auto with herm)). Qed.
Lemma sv_raised b : given (u_raised b) low [1; 3]%R [1; 2]%R. Proof. exact (@sevo2 b (raised 1 hz) (raised 5 hx) hx low 1 2 1 2 (col excited) 1 3 ltac:(auto with herm) ltac:(auto with herm) ltac:(auto with herm)). Qed.
Lemma sv_swap b : given (u_swap b) (swapped low) [1; 3]%R [1; 2]%R. Proof. exact (@sevo2 b (swapped hz) (swapped hx) (swapped hx) (swapped low) 1 2 1 2 (col (swapped excited)) 1 3 ltac:(auto with herm) ltac:(auto with herm) ltac:(auto with herm)). Qed.
Lemma sv_dephase b : given (u_dephase b) hz [1; 3]%R [1; 2]%R. Proof. exact (@sevo2 b hz (scaled 3 hz) hz hz 1 2 1 2 (col ones_) 1 3 ltac:(auto with herm) ltac:(auto with herm) ltac:(auto with herm)). Qed.
Lemma sv_ground b : given (u_ground b) low [1; 3]%R [1; 2]%R. Proof. exact (@sevo2 b hz (scaled 3 hz) hz low 1 2 1 2 (col ground) 1 3 ltac:(auto with herm) ltac:(auto with herm) ltac:(auto with herm)). Qed.

(** the dissipation alone, from the whole motion without Hamiltonian *)
Definition none (_ _ : nat) : RC := cmul c0 c0.
Lemma damp_master l r t rho i j : t < length r -> damp l r t rho i j = master (F:=RField) 2 none [arr2 2 l] (fun _ => nth t r 0%R) rho i j.
Proof.
  intros Ht. unfold master, none. rewrite (@comm_mul 2 (fun _ _ => c0) c0 rho i j). unfold damp. cbn [length sumn nth]. tocplx.
  set (x := commutation (F:=RField) 2 (fun _ _ => c0) rho i j). set (y := dissipation (F:=RField) 2 (arr2 2 l) rho i j). clearbody x y. cring.
Qed.
Lemma none_carried V : carries 2 2 V (asm 2 none) (asm 2 none).
Proof.
  intros i j Hi Hj. rewrite (@Sg_0 RField), (@Sg_0 RField); [reflexivity| |]; intros l Hl; rewrite mg_asm by auto; unfold none; tocplx; cring.
Qed.
Lemma one_op l : Forall (is_matrix (S:=RS) 2 2 : mat RS -> Prop) [arr2 2 l].
Proof. constructor; [apply is_matrix_wfm, wfm_mk2|constructor]. Qed.
Lemma case_super_operators b : has o_base 1 low [1; 3]%R [1; 2]%R /\ given (u_base b) low [1; 3]%R [1; 2]%R /\ same_setting o_base (u_base b) (ipulse [1; 3]%R) (ipulse [1; 3]%R) /\
  (forall t, t < length (s_time o_base) -> Dr o_base t = Dr (u_base b) t) /\
  forall t rho i j, t < length (s_time o_base) -> i < 2 -> j < 2 -> damp low [1; 2]%R t rho i j = Sg 1 (fun q => cmul (cofk (rate [1; 2]%R t q : RField)) (dissipation (F:=RField) 2 (Lk [arr2 2 low] q) rho i j)).
Proof.
  split; [apply ev_base|]. split; [apply sv_base|]. split; [same pt_base (qt_base b)|]. have pt_base. have (qt_base b). split; [reflexivity|].
  intros t rho i j Ht Hi Hj. unfold damp, rate, opref. cbn [sumn nth]. rewrite get2_mk2 by (cbn in *; lia). tocplx. cring.
Qed.
Lemma case_super_offset b b' : given (u_base b) low [1; 3]%R [1; 2]%R /\ given (u_raised b') low [1; 3]%R [1; 2]%R /\ same_setting (u_base b) (u_raised b') (ipulse [1; 3]%R) (ipulse [1; 3]%R) /\
  forall t, t < length (s_time (u_base b)) -> shifted 2 (lift t) (Dr (u_base b) t) (Dr (u_raised b') t).
Proof.
  split; [apply sv_base|]. split; [apply sv_raised|]. split; [same (qt_base b) (qt_raised b')|]. have (qt_base b). have (qt_raised b'). intros t Ht i j Hi Hj. unfold lift. lv2 t; lv2 i; lv2 j; ent.
Qed.
Lemma case_super_stationary b : given (u_ground b) low [1; 3]%R [1; 2]%R /\
  forall t i j, t < length (s_time (u_ground b)) -> i < 2 -> j < 2 -> damped_motion 2 (u_ground b) (ipulse [1; 3]%R) (damp low [1; 2]%R) t (column 2 (c_init (s_conf (u_ground b))) 0) i j = c0.
Proof.
  split; [apply sv_ground|]. intros t i j Ht Hi Hj.
  assert (Ht' : t < length [1; 2]%R) by (revert Ht; have (qt_ground b); auto).
  transitivity (master (F:=RField) 2 (hamiltonian (F:=RField) (Dr (u_ground b) t) (c_ctrl (s_conf (u_ground b))) (fun c => get2 (k0 : RField) (ipulse [1; 3]%R) t c)) [arr2 2 low] (fun _ => nth t [1; 2]%R 0%R) (column 2 (c_init (s_conf (u_ground b))) 0) i j).
  { unfold damped_motion, master, damp. cbn [length sumn]. cbn [nth]. tocplx. f_equal. cring. }
  apply still; auto; revert t Ht Ht'; have (qt_ground b); intros t Ht Ht'; try (rewrite (@mg_mk2 RS) by lia; reflexivity); unfold hamiltonian; lv2 t; ent.
Qed.
Lemma case_super_conserved b : given (u_dephase b) hz [1; 3]%R [1; 2]%R /\ is_hermitian (S:=RS) 2 (arr2 2 hz) /\
  (forall t, t < length (s_time (u_dephase b)) -> carries 2 2 (arr2 2 hz) (Dr (u_dephase b) t) (Dr (u_dephase b) t)) /\ (forall c, c < length (c_ctrl (s_conf (u_dephase b))) -> carries 2 2 (arr2 2 hz) (Ct (u_dephase b) c) (Ct (u_dephase b) c)) /\
  forall t rho, t < length (s_time (u_dephase b)) -> mean 2 (arr2 2 hz) (damp hz [1; 2]%R t rho) = c0.
Proof.
  split; [apply sv_dephase|]. have (qt_dephase b). split; [apply herm_z|]. split; [|split].
  - intros t Ht i j Hi Hj. lv2 t; lv2 i; lv2 j; ent.
  - intros c Hc i j Hi Hj. ct c. lv2 i; lv2 j; ent.
  - intros t rho Ht. assert (Ht' : t < length [1; 2]%R) by exact Ht. rewrite (mean_ext (arr2 2 hz) (damp hz [1; 2]%R t rho) _ (fun a b _ _ => damp_master hz [1; 2]%R rho a b Ht')).
    apply mean_master; [apply herm_z|apply none_carried|apply one_op|]. intros c Hc i j Hi Hj. ct c. lv2 i; lv2 j; ent.
Qed.
Lemma case_super_basis b b' : given (u_base b) low [1; 3]%R [1; 2]%R /\ given (u_swap b') (swapped low) [1; 3]%R [1; 2]%R /\ is_unitary (S:=RS) 2 (arr2 2 hx) /\ s_time (u_base b) = s_time (u_swap b') /\
  length (c_ctrl (s_conf (u_base b))) = length (c_ctrl (s_conf (u_swap b'))) /\
  (forall t, t < length (s_time (u_base b)) -> carries 2 2 (arr2 2 hx) (Dr (u_base b) t) (Dr (u_swap b') t)) /\ (forall c, c < length (c_ctrl (s_conf (u_base b))) -> carries 2 2 (arr2 2 hx) (Ct (u_base b) c) (Ct (u_swap b') c)) /\
  (forall t rho i j, t < length (s_time (u_base b)) -> i < 2 -> j < 2 -> damp (swapped low) [1; 2]%R t (turned 2 (arr2 2 hx) rho) i j = turned 2 (arr2 2 hx) (damp low [1; 2]%R t rho) i j) /\
  forall i j, i < 2 -> j < 2 -> column 2 (c_init (s_conf (u_swap b'))) 0 i j = turned 2 (arr2 2 hx) (column 2 (c_init (s_conf (u_base b))) 0) i j.
Proof.
  split; [apply sv_base|]. split; [apply sv_swap|]. have (qt_base b). have (qt_swap b'). split; [|split; [reflexivity|split; [reflexivity|split; [|split; [|split]]]]].
  - split; [apply is_matrix_wfm, wfm_mk2|]. split; intros i j Hi Hj; lv2 i; lv2 j; ent.
  - intros t Ht i j Hi Hj. lv2 t; lv2 i; lv2 j; ent.
  - intros c Hc i j Hi Hj. ct c. lv2 i; lv2 j; ent.
  - intros t rho i j Ht Hi Hj. assert (Ht' : t < length [1; 2]%R) by exact Ht. rewrite (damp_master (swapped low) [1; 2]%R _ i j Ht').
    rewrite (turned_ext (arr2 2 hx) (damp low [1; 2]%R t rho) _ i j (fun a b _ _ => damp_master low [1; 2]%R rho a b Ht')). symmetry.
    apply turned_master; auto; [apply is_unitary_m; split; [apply is_matrix_wfm, wfm_mk2|]; split; intros x z Hx Hz; lv2 x; lv2 z; ent|apply none_carried|apply one_op|apply one_op|].
    intros c Hc x z Hx Hz. ct c. lv2 x; lv2 z; ent.
  - intros i j Hi Hj. unfold turned. lv2 i; lv2 j; ent.
Qed.
(** other units, divided time steps *)
Definition u_units b : st := urun b [scaled (/2) hz; scaled (/2) hx] (scaled (/6) hx) low [/2; 1]%R [2 * 1; 2 * 2]%R (col excited) [3 * 1; 3 * 3]%R.
Definition u_parts b : st := urun b [hz; hx; hx] hx low [1; 2; 2]%R [1; /2; 3/2]%R (col excited) [1; 3; 3]%R.
Lemma qt_units b : parts 1 (u_units b) [scaled (/2) hz; scaled (/2) hx] (scaled (/6) hx) [2 * 1; 2 * 2]%R (col excited). Proof. destruct b; pt. Qed.
Lemma qt_parts b : parts 1 (u_parts b) [hz; hx; hx] hx [1; /2; 3/2]%R (col excited). Proof. destruct b; pt. Qed.
Lemma sv_units b : given (u_units b) low [3 * 1; 3 * 3]%R [/2; 1]%R. Proof. exact (@sevo2 b (scaled (/2) hz) (scaled (/2) hx) (scaled (/6) hx) low (/2) 1 (2 * 1) (2 * 2) (col excited) (3 * 1) (3 * 3) ltac:(auto with herm) ltac:(auto with herm) ltac:(auto with herm)). Qed.
Lemma sv_parts b : given (u_parts b) low [1; 3; 3]%R [1; 2; 2]%R. Proof. exact (@sevo3 b hz hx hx hx low 1 2 2 1 (/2) (3/2) (col excited) 1 3 3 ltac:(auto with herm) ltac:(auto with herm) ltac:(auto with herm) ltac:(auto with herm)). Qed.
Lemma case_super_units b b' : given (u_base b) low [1; 3]%R [1; 2]%R /\ given (u_units b') low [3 * 1; 3 * 3]%R [/2; 1]%R /\
  s_time (u_units b') = map (fun x => 2 * x)%R (s_time (u_base b)) /\ length (c_ctrl (s_conf (u_base b))) = length (c_ctrl (s_conf (u_units b'))) /\
  (forall t c, t < length (s_time (u_base b)) -> c < length (c_ctrl (s_conf (u_base b))) -> get2 0%R (ipulse [3 * 1; 3 * 3]%R) t c = (3 * get2 0 (ipulse [1; 3]%R) t c)%R) /\
  (forall t, t < length (s_time (u_base b)) -> rescaled 2 2 (Dr (u_units b') t) (Dr (u_base b) t)) /\ (forall c, c < length (c_ctrl (s_conf (u_base b))) -> rescaled 2 (2 * 3) (Ct (u_units b') c) (Ct (u_base b) c)) /\
  (forall t rho i j, t < length (s_time (u_base b)) -> i < 2 -> j < 2 -> damp low [1; 2]%R t rho i j = cmul (cofk (2%R : RField)) (damp low [/2; 1]%R t rho i j)) /\ c_init (s_conf (u_base b)) = c_init (s_conf (u_units b')).
Proof.
  split; [apply sv_base|]. split; [apply sv_units|]. have (qt_base b). have (qt_units b'). split; [reflexivity|]. split; [reflexivity|]. split; [|split; [|split; [|split; [|reflexivity]]]].
  - intros t c Ht Hc. ct c. lv2 t; reflexivity.
  - intros t Ht i j Hi Hj. lv2 t; lv2 i; lv2 j; ent.
  - intros c Hc i j Hi Hj. ct c. lv2 i; lv2 j; ent.
  - intros t rho i j Ht Hi Hj. unfold damp. generalize (dissipation (F:=RField) 2 (arr2 2 low) rho i j). intros [x y]. lv2 t; unfold cmul, cofk; cbn; f_equal; field.
Qed.
Lemma case_super_divided b b' : given (u_base b) low [1; 3]%R [1; 2]%R /\ given (u_parts b') low [1; 3; 3]%R [1; 2; 2]%R /\
  c_ctrl (s_conf (u_base b)) = c_ctrl (s_conf (u_parts b')) /\ c_init (s_conf (u_base b)) = c_init (s_conf (u_parts b')) /\ place 0 = 0 /\ place (length (s_time (u_base b))) <= length (s_time (u_parts b')) /\
  (forall t, t < length (s_time (u_base b)) -> place t <= place (S t) /\ total (fun j => nth (place t + j) (s_time (u_parts b')) 0%R) (place (S t) - place t) = nth t (s_time (u_base b)) 0%R) /\
  forall t j, t < length (s_time (u_base b)) -> place t <= j < place (S t) -> same_row (length (c_ctrl (s_conf (u_base b)))) (ipulse [1; 3]%R) t (ipulse [1; 3; 3]%R) j /\ Dr (u_base b) t = Dr (u_parts b') j /\
    forall rho x z, x < 2 -> z < 2 -> damp low [1; 2]%R t rho x z = damp low [1; 2; 2]%R j rho x z.
Proof.
  split; [apply sv_base|]. split; [apply sv_parts|]. have (qt_base b). have (qt_parts b'). split; [reflexivity|]. split; [reflexivity|]. split; [reflexivity|]. split; [cbn; lia|]. split.
  - intros t Ht. lv2 t; (split; [cbn; lia|cbn; lra]).
  - intros t j Ht Hj. lv2 t; cbn in Hj; (destruct j as [|[|[|j]]]; try lia); (split; [intros c Hc; ct c; reflexivity|split; [reflexivity|intros rho x z Hx Hz; reflexivity]]).
Qed.
End Cases.
