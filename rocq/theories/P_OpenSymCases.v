(** The hypotheses of the theorems of C83 in concrete cases. *)
Require Import List Arith Lia Bool Reals Lra.
From Verif Require Import LibBase LibRing LibArr LibCplx LibMat LibNorm LibDeriv M_Matrix S_Linear S_Deriv S_Exp P_Linear P_Matrix P_Frechet P_Mexp M_OpHeap M_Transfer S_Transfer M_Amplitude S_Amplitude M_Solver S_Solver S_Lindblad S_Channel P_Lindblad P_GradWit P_ChannelWit S_Invariance P_InvarianceWit S_OpenSym P_OpenSymWit.
Import ListNotations.
Local Open Scope res_scope.
Set Implicit Arguments.

Section Cases.
Add Field Cfield_osc : (c_field RField).
Notation op := (op RField).
Notation st := (@st RField).
Notation fn := (nat -> nat -> RC).
Notation arr2 n h := (mk2 n n (h : nat -> nat -> RC) : mat RS).
Notation rid := (fun x : R => x).
Notation evo := (open_evolution rid lla c0).
Notation has s k l y r := (exists ps fs, evo s 2 k [arr2 2 l] (ipulse y) (rate r) ps fs).
Ltac lv2 t := destruct t as [|[|?]]; try (exfalso; cbn in *; lia).
Ltac given P := let a := fresh in let b := fresh in let c := fresh in let d := fresh in destruct P as (a & b & c & d); rewrite ?a, ?b, ?c, ?d; clear a b c d.
Ltac ent := cbn [nth map sumn length]; rewrite ?(@mg_mk2 RS) by (cbn; lia); unfold rate, opref, tilted, turn_i, moved, scaled, raised, swapped, low, excited, ground, col, ones_, hz, hx, hone, delta; cbn; unfold cadd, cmul, cofk, copp, csub, cconj, cnorm2, c0, c1, ci; cbn; try (f_equal; (ring || field)).
Ltac same P Q := constructor; [given P; given Q; reflexivity|given P; given Q; reflexivity|intros ? ? ? ?; reflexivity|given P; given Q; reflexivity].
Ltac ct c := destruct c; [|cbn in *; lia].

Lemma case_offset : has o_base 1 low [1; 3]%R [1; 2]%R /\ has o_raised 1 low [1; 3]%R [1; 2]%R /\ same_setting o_base o_raised (ipulse [1; 3]%R) (ipulse [1; 3]%R) /\
  forall t, t < length (s_time o_base) -> shifted 2 (lift t) (Dr o_base t) (Dr o_raised t).
Proof.
  split; [apply ev_base|]. split; [apply ev_raised|]. split; [same pt_base pt_raised|]. given pt_base. given pt_raised. intros t Ht i j Hi Hj. unfold lift. lv2 t; lv2 i; lv2 j; ent.
Qed.
Lemma case_factors : has o_base 1 low [1; 3]%R [1; 2]%R /\ has o_factor 1 (turn_i (0, 2)%R low) [1; 3]%R [/4; /2]%R /\ same_setting o_base o_factor (ipulse [1; 3]%R) (ipulse [1; 3]%R) /\
  (forall t, t < length (s_time o_base) -> Dr o_base t = Dr o_factor t) /\ (forall i, i < 1 -> is_factor 2 (0, 2)%R (Lk [arr2 2 low] i) (Lk [arr2 2 (turn_i (0, 2)%R low)] i)) /\
  forall t i, t < length (s_time o_base) -> i < 1 -> rate [1; 2]%R t i = (rate [/4; /2]%R t i * cnorm2 ((0, 2)%R : RC))%R.
Proof.
  split; [apply ev_base|]. split; [apply ev_factor|]. split; [same pt_base pt_factor|]. given pt_base. given pt_factor. split; [reflexivity|]. split.
  - intros q Hq i j Hi Hj. ct q. lv2 i; lv2 j; ent.
  - intros t i Ht Hi. ct i. lv2 t; unfold rate, opref; rewrite !get2_mk2 by (cbn; lia); cbn; lra.
Qed.
Lemma case_displaced : has o_base 1 low [1; 3]%R [1; 2]%R /\ has o_moved 1 (moved (0, 1)%R low) [1; 3]%R [1; 2]%R /\ same_setting o_base o_moved (ipulse [1; 3]%R) (ipulse [1; 3]%R) /\
  (forall i, i < 1 -> displaced 2 (0, 1)%R (Lk [arr2 2 low] i) (Lk [arr2 2 (moved (0, 1)%R low)] i)) /\
  forall t i j, t < length (s_time o_base) -> i < 2 -> j < 2 -> mg (Dr o_moved t) i j = cadd (mg (Dr o_base t) i j) (Sg 1 (fun q => cmul (cofk (rate [1; 2]%R t q : RField)) (compensation (Lk [arr2 2 low] q) (0, 1)%R i j))).
Proof.
  split; [apply ev_base|]. split; [apply ev_moved|]. split; [same pt_base pt_moved|]. given pt_base. given pt_moved. split.
  - intros q Hq i j Hi Hj. ct q. lv2 i; lv2 j; ent.
  - intros t i j Ht Hi Hj. unfold compensation. lv2 t; lv2 i; lv2 j; ent.
Qed.
Lemma case_basis : has o_base 1 low [1; 3]%R [1; 2]%R /\ has o_swap 1 (swapped low) [1; 3]%R [1; 2]%R /\ is_unitary (S:=RS) 2 (arr2 2 hx) /\ s_time o_base = s_time o_swap /\
  length (c_ctrl (s_conf o_base)) = length (c_ctrl (s_conf o_swap)) /\
  (forall t, t < length (s_time o_base) -> carries 2 2 (arr2 2 hx) (Dr o_base t) (Dr o_swap t)) /\ (forall c, c < length (c_ctrl (s_conf o_base)) -> carries 2 2 (arr2 2 hx) (Ct o_base c) (Ct o_swap c)) /\
  (forall i, i < 1 -> carries 2 2 (arr2 2 hx) (Lk [arr2 2 low] i) (Lk [arr2 2 (swapped low)] i)) /\
  forall i j, i < 2 -> j < 2 -> column 2 (c_init (s_conf o_swap)) 0 i j = turned 2 (arr2 2 hx) (column 2 (c_init (s_conf o_base)) 0) i j.
Proof.
  split; [apply ev_base|]. split; [apply ev_swap|]. given pt_base. given pt_swap. split; [|split; [reflexivity|split; [reflexivity|split; [|split; [|split]]]]].
  - split; [apply is_matrix_wfm, wfm_mk2|]. split; intros i j Hi Hj; lv2 i; lv2 j; ent.
  - intros t Ht i j Hi Hj. lv2 t; lv2 i; lv2 j; ent.
  - intros c Hc i j Hi Hj. ct c. lv2 i; lv2 j; ent.
  - intros c Hc i j Hi Hj. ct c. lv2 i; lv2 j; ent.
  - intros i j Hi Hj. unfold turned. lv2 i; lv2 j; ent.
Qed.
Lemma case_conserved : has o_dephase 1 hz [1; 3]%R [1; 2]%R /\ is_hermitian (S:=RS) 2 (arr2 2 hz) /\
  (forall t, t < length (s_time o_dephase) -> carries 2 2 (arr2 2 hz) (Dr o_dephase t) (Dr o_dephase t)) /\ (forall c, c < length (c_ctrl (s_conf o_dephase)) -> carries 2 2 (arr2 2 hz) (Ct o_dephase c) (Ct o_dephase c)) /\
  forall i, i < 1 -> carries 2 2 (arr2 2 hz) (Lk [arr2 2 hz] i) (Lk [arr2 2 hz] i).
Proof.
  split; [apply ev_dephase|]. split; [apply herm_z|]. given pt_dephase. split; [|split].
  - intros t Ht i j Hi Hj. lv2 t; lv2 i; lv2 j; ent.
  - intros c Hc i j Hi Hj. ct c. lv2 i; lv2 j; ent.
  - intros c Hc i j Hi Hj. ct c. lv2 i; lv2 j; ent.
Qed.
Lemma still (H rho : fn) (L : mat RS) w i j : H 0 1 = c0 -> H 1 0 = c0 -> mg L 0 0 = c0 -> mg L 1 0 = c0 -> rho 0 1 = c0 -> rho 1 0 = c0 -> rho 1 1 = c0 -> i < 2 -> j < 2 ->
  master (F:=RField) 2 H [L] w rho i j = c0.
Proof.
  intros H1 H2 L1 L2 R1 R2 R3 Hi Hj. unfold master, commutation, dissipation, number_op. cbn [length sumn nth].
  assert (Z : @cconj RField c0 = c0) by (unfold cconj, c0; cbn; f_equal; ring).
  lv2 i; lv2 j; rewrite ?H1, ?H2, ?L1, ?L2, ?R1, ?R2, ?R3, ?Z; tocplx; change (kcar RField) with R in *; ring.
Qed.
Lemma case_stationary : has o_ground 1 low [1; 3]%R [1; 2]%R /\
  forall t i j, t < length (s_time o_ground) -> i < 2 -> j < 2 -> motion 2 o_ground [arr2 2 low] (ipulse [1; 3]%R) (rate [1; 2]%R) t (column 2 (c_init (s_conf o_ground)) 0) i j = c0.
Proof.
  split; [apply ev_ground|]. intros t i j Ht Hi Hj. unfold motion. apply still; auto; revert t Ht; given pt_ground; intros t Ht; try (rewrite (@mg_mk2 RS) by lia; reflexivity); unfold hamiltonian; lv2 t; ent.
Qed.
Lemma case_balanced : has o_mixed 1 hx [1; 3]%R [1; 2]%R /\ (forall t, t < length (s_time o_mixed) -> balanced 2 [arr2 2 hx] (rate [1; 2]%R t)) /\
  forall i j, i < 2 -> j < 2 -> column 2 (c_init (s_conf o_mixed)) 0 i j = cmul ((/2, 0)%R : RC) (delta (S:=RS) i j).
Proof.
  split; [apply ev_mixed|]. given pt_mixed. split.
  - intros t Ht i j Hi Hj. unfold number_op. lv2 t; lv2 i; lv2 j; ent.
  - intros i j Hi Hj. lv2 i; lv2 j; ent.
Qed.
Lemma case_units : has o_base 1 low [1; 3]%R [1; 2]%R /\ has o_units 1 low [3 * 1; 3 * 3]%R [/2; 1]%R /\
  s_time o_units = map (fun x => 2 * x)%R (s_time o_base) /\ length (c_ctrl (s_conf o_base)) = length (c_ctrl (s_conf o_units)) /\
  (forall t c, t < length (s_time o_base) -> c < length (c_ctrl (s_conf o_base)) -> get2 0%R (ipulse [3 * 1; 3 * 3]%R) t c = (3 * get2 0 (ipulse [1; 3]%R) t c)%R) /\
  (forall t, t < length (s_time o_base) -> rescaled 2 2 (Dr o_units t) (Dr o_base t)) /\ (forall c, c < length (c_ctrl (s_conf o_base)) -> rescaled 2 (2 * 3) (Ct o_units c) (Ct o_base c)) /\
  (forall t i, t < length (s_time o_base) -> i < 1 -> rate [1; 2]%R t i = (2 * rate [/2; 1]%R t i)%R) /\ c_init (s_conf o_base) = c_init (s_conf o_units).
Proof.
  split; [apply ev_base|]. split; [apply ev_units|]. given pt_base. given pt_units. split; [reflexivity|]. split; [reflexivity|]. split; [|split; [|split; [|split; [|reflexivity]]]].
  - intros t c Ht Hc. ct c. lv2 t; reflexivity.
  - intros t Ht i j Hi Hj. lv2 t; lv2 i; lv2 j; ent.
  - intros c Hc i j Hi Hj. ct c. lv2 i; lv2 j; ent.
  - intros t i Ht Hi. ct i. lv2 t; unfold rate, opref; rewrite !get2_mk2 by (cbn; lia); cbn; lra.
Qed.
Lemma case_divided : has o_base 1 low [1; 3]%R [1; 2]%R /\ has o_parts 1 low [1; 3; 3]%R [1; 2; 2]%R /\
  c_ctrl (s_conf o_base) = c_ctrl (s_conf o_parts) /\ c_init (s_conf o_base) = c_init (s_conf o_parts) /\ place 0 = 0 /\ place (length (s_time o_base)) <= length (s_time o_parts) /\
  (forall t, t < length (s_time o_base) -> place t <= place (S t) /\ total (fun j => nth (place t + j) (s_time o_parts) 0%R) (place (S t) - place t) = nth t (s_time o_base) 0%R) /\
  forall t j, t < length (s_time o_base) -> place t <= j < place (S t) -> same_row (length (c_ctrl (s_conf o_base))) (ipulse [1; 3]%R) t (ipulse [1; 3; 3]%R) j /\ Dr o_base t = Dr o_parts j /\
    forall i, i < 1 -> rate [1; 2]%R t i = rate [1; 2; 2]%R j i.
Proof.
  split; [apply ev_base|]. split; [apply ev_parts|]. given pt_base. given pt_parts. split; [reflexivity|]. split; [reflexivity|]. split; [reflexivity|]. split; [cbn; lia|]. split.
  - intros t Ht. lv2 t; (split; [cbn; lia|cbn; lra]).
  - intros t j Ht Hj. lv2 t; cbn in Hj; (destruct j as [|[|[|j]]]; try lia); (split; [intros c Hc; ct c; reflexivity|split; [reflexivity|intros i Hi; ct i; reflexivity]]).
Qed.
Lemma case_closed : has o_closed 1 low [1; 3]%R [0; 0]%R /\ (exists ps fs, evolution rid wla c0 (s_base rid) 2 2 (ipulse [1; 3]%R) ps fs) /\ s_time o_closed = s_time (s_base rid) /\ c_ctrl (s_conf o_closed) = c_ctrl (s_conf (s_base rid)) /\
  (forall t, t < length (s_time o_closed) -> same_row (length (c_ctrl (s_conf o_closed))) (ipulse [1; 3]%R) t (ipulse [1; 3]%R) t /\ Dr o_closed t = Dr (s_base rid) t /\ is_hermitian (S:=RS) 2 (Dr o_closed t)) /\
  (forall t i, t < length (s_time o_closed) -> i < 1 -> rate [0; 0]%R t i = 0%R) /\
  forall i j, i < 2 -> j < 2 -> column 2 (c_init (s_conf o_closed)) 0 i j = mixture 2 (arr2 2 ones_) (c_init (s_conf (s_base rid))) i j.
Proof.
  split; [apply ev_closed|]. split; [apply base_evo|]. given pt_closed. given (base_parts rid). split; [reflexivity|]. split; [reflexivity|]. split; [|split].
  - intros t Ht. split; [intros c Hc; reflexivity|]. split; [reflexivity|]. lv2 t; [apply herm_z|apply herm_x].
  - intros t i Ht Hi. ct i. lv2 t; reflexivity.
  - intros i j Hi Hj. unfold mixture. lv2 i; lv2 j; ent.
Qed.
Lemma case_initials : has o_two 2 low [1; 3]%R [1; 2]%R /\ has o_sum 1 low [1; 3]%R [1; 2]%R /\ s_time o_two = s_time o_sum /\ c_ctrl (s_conf o_two) = c_ctrl (s_conf o_sum) /\
  (forall t, t < length (s_time o_two) -> Dr o_two t = Dr o_sum t) /\ is_product (S:=RS) (2 * 2) 2 1 (c_init (s_conf o_two)) (mk2 2 1 ones_ : mat RS) (c_init (s_conf o_sum)).
Proof.
  split; [apply ev_two|]. split; [apply ev_sum|]. given pt_two. given pt_sum. split; [reflexivity|]. split; [reflexivity|]. split; [reflexivity|].
  split; [apply is_matrix_wfm, wfm_mk2|]. intros i j Hi Hj. destruct j; [|lia]. destruct i as [|[|[|[|?]]]]; [| | | |exfalso; cbn in *; lia]; ent.
Qed.
End Cases.
