(** Concrete cases and refuting runs for the noise generators (C57 to C61, C63 to C65).

    Over the reals, with the square root of the reals and the cube in the place of erfinv: it is odd, positive and convex
    on the positive side, which is all the theorems ask of erfinv. *)
Require Import List Arith Bool Lia Reals Lra.
From Verif Require Import LibBase LibRing LibArr LibCplx LibNorm M_Noise S_Noise P_Noise P_NoiseStd P_NoiseHist P_NoiseFft.
Import ListNotations.
Open Scope R_scope.
Set Implicit Arguments.
Local Notation RF := RField.

Lemma rle (x y : R) : kle (F:=RF) x y <-> x <= y.
Proof. apply r_leb_le. Qed.
Lemma rlt (x y : R) : klt (F:=RF) x y <-> x < y.
Proof. rewrite (klt_nle RF). rewrite rle. lra. Qed.
Definition cube : RF -> RF := fun x : R => x * x * x.
Definition rsqrt : RF -> RF := R_sqrt.sqrt.
Definition rsqrt2 : RF := rsqrt 2.
Lemma rsqrt_ok : is_sqrt (F:=RF) rsqrt.
Proof. intros x H. apply rle in H. split; [apply rle; apply sqrt_pos|]. apply sqrt_sqrt. exact H. Qed.
Lemma cube_odd : odd (F:=RF) cube.
Proof. intros x. unfold cube. simpl. ring. Qed.
Lemma cube_pos (x : R) : 0 < x -> 0 < cube x.
Proof. intros H. unfold cube. assert (0 < x * x) by nra. nra. Qed.
Lemma cube_conv (x y : R) : 0 <= x -> x < y -> (1 + 1) * cube ((x + y) / (1 + 1)) < cube x + cube y.
Proof.
  intros H1 H2. unfold cube.
  replace ((x + y) / (1 + 1)) with ((x + y) * / 2) by (field; lra). assert (E : x * x * x + y * y * y - (1 + 1) * ((x + y) * / 2 * ((x + y) * / 2) * ((x + y) * / 2)) = 3 / 4 * (x + y) * ((y - x) * (y - x))) by field.
  assert (0 < 3 / 4 * (x + y) * ((y - x) * (y - x))); [|lra]. assert (0 < (y - x) * (y - x)) by nra. assert (0 < x + y) by lra. apply Rmult_lt_0_compat; lra.
Qed.
Lemma cube_positive : positive (F:=RF) cube.
Proof. intros x H _. apply rlt. apply cube_pos. now apply rlt. Qed.
Lemma cube_convex : midpoint_convex (F:=RF) cube.
Proof. intros x y H1 H2 _. apply rlt. apply cube_conv; [now apply rle|now apply rlt]. Qed.
Lemma rsqrt2_pos : klt (F:=RF) 0 rsqrt2.
Proof. apply rlt. apply sqrt_lt_R0. lra. Qed.
Definition khalf : RF := kdiv k1 (kadd k1 k1).
Lemma half_eq : (khalf : R) = / 2.
Proof. change (1 / (1 + 1) = / 2). field. Qed.
(** the standard deviation of two unit samples *)
Lemma unit2 : @kmul RF rsqrt2 (cube (khalf)) = rsqrt2 / 8.
Proof. rewrite half_eq. unfold cube. change (rsqrt2 * (/ 2 * / 2 * / 2) = rsqrt2 / 8). field. Qed.
Lemma rsqrt2_between : 1 < rsqrt2 < 2.
Proof. unfold rsqrt2, rsqrt. split; [rewrite <- R_sqrt.sqrt_1 at 1; apply sqrt_lt_1; lra|]. replace 2 with (R_sqrt.sqrt 4) at 2; [apply sqrt_lt_1; lra|]. replace 4 with (2 * 2) by lra. apply sqrt_square. lra. Qed.
Lemma unit2_neq1 : @kmul RF rsqrt2 (cube (khalf)) <> (1 : R).
Proof. rewrite unit2. pose proof rsqrt2_between. lra. Qed.
Lemma tiny_small : (tiny : RF) <= 1 / 10.
Proof.
  unfold tiny, ten. simpl. set (t := (1 + 1) * ((1 + 1) * (1 + 1) + 1)). assert (T : t = 10) by (unfold t; ring). rewrite T.
  match goal with |- 1 / ?d <= _ => assert (D : 10 <= d) by lra end. unfold Rdiv. apply Rmult_le_compat_l; [lra|]. apply Rinv_le_contravar; lra.
Qed.
Lemma tiny_unit2 s : 1 <= s -> kle (F:=RF) tiny (@kmul RF s (@kmul RF rsqrt2 (cube (khalf)))).
Proof. intros H. rewrite unit2. apply rle. simpl. pose proof tiny_small. pose proof rsqrt2_between. simpl in *. nra. Qed.

(** ---- quasi-static noise ---- *)
Definition rstream : nat -> RF := INR.
(** the roots of unity *)
Definition croot (n : nat) : cplx RF := (cos (2 * PI / INR n), sin (2 * PI / INR n)).
Definition wlist (l : list R) : world RF := mkw (F:=RF) [l] [] 0.
Definition wtwo (s : RF) : world RF := wlist [s; s].
Definition wone (s : RF) : world RF := wlist [s].
Definition gen1 (l m : nat) (md : mode) : gen RF := mkgen (F:=RF) None (Some m) (Some 3%nat) (Some l) false (QuasiStatic 0 md).
Lemma det_reads : exists w' g' a, noise_samples cube rsqrt rsqrt2 rstream croot (gen1 2 4 MDeterministic) (wlist [1; 2]) = ((w', g'), Ok a).
Proof. exact (@deterministic_returns RF cube rsqrt rsqrt2 rstream croot 0 (gen1 2 4 MDeterministic) (wlist [1; 2]) 2%nat 3%nat eq_refl eq_refl eq_refl). Qed.
Lemma mc_reads : exists w' g' a, noise_samples cube rsqrt rsqrt2 rstream croot (gen1 2 4 MMonteCarlo) (wlist [1; 2]) = ((w', g'), Ok a).
Proof. do 3 eexists. reflexivity. Qed.
(** a run in which the correction succeeds *)
Lemma one_corrected : exists w1 g w2 g' a, new_quasi_static cube rsqrt rsqrt2 rstream croot 0 (Some 4%nat) (Some 2%nat) None false true MDeterministic (wone k1) = (w1, Ok g) /\ drawn g /\
  noise_samples cube rsqrt rsqrt2 rstream croot g w1 = ((w2, g'), Ok a).
Proof.
  destruct (@list_overwritten RF cube rsqrt rsqrt2 rstream croot 0 4 1 None false (wone k1) rsqrt_ok cube_odd rsqrt2_pos cube_positive eq_refl) as (w1 & g & E & _).
  { exact (klt_01 RF). } { apply tiny_unit2. lra. } { apply unit2_neq1. }
  assert (P : forall i, (i < length (the_list (wone k1) 0))%nat -> klt (F:=RF) 0 (nth i (the_list (wone k1) 0) 0)). { intros [|i] Hi; [apply rlt; simpl; lra|simpl in Hi; lia]. }
  destruct (@corrected_list RF cube rsqrt rsqrt2 rstream croot 0 (Some 4%nat) 1 None false (wone k1) w1 g rsqrt_ok P E) as (G & _).
  destruct (@deterministic_returns RF cube rsqrt rsqrt2 rstream croot 0 g w1 1%nat 3%nat) as (w2 & g' & a & R); try (rewrite G; reflexivity).
  exists w1, g, w2, g', a. split; auto. split; auto. left. now rewrite G.
Qed.
Lemma two_corrected : exists s w1 g w2 g' a, 0 < s /\ new_quasi_static cube rsqrt rsqrt2 rstream croot 0 (Some 4%nat) (Some 2%nat) None false true MDeterministic (wtwo s) = (w1, Ok g) /\ drawn g /\
  noise_samples cube rsqrt rsqrt2 rstream croot g w1 = ((w2, g'), Ok a).
Proof.
  pose proof (@unit_pos RF cube rsqrt rsqrt2 4 rsqrt_ok cube_odd rsqrt2_pos cube_positive ltac:(lia)) as U. set (u := unit_std RF cube rsqrt rsqrt2 4) in *. apply rlt in U. simpl in U.
  set (v := / u : R). exists v. assert (S : 0 < v) by (now apply Rinv_0_lt_compat).
  assert (N : forall i, (i < length (the_list (wtwo v) 0))%nat -> nth i (the_list (wtwo v) 0) 0 = v) by (intros [|[|i]] Hi; auto; simpl in Hi; lia).
  destruct (@corrected_returns RF cube rsqrt rsqrt2 rstream croot 0 (Some 4%nat) 1 None false (wtwo v) rsqrt_ok cube_odd rsqrt2_pos cube_positive) as (u1 & D & U1 & B). { cbn. lia. }
  assert (EU : u1 = u). { eapply (@std_unique RF 4); [lia|exact D|]. pose proof (@samples_std RF cube rsqrt rsqrt2 1 4 rsqrt_ok ltac:(lia) (k01 RF)) as X. fold u in X. assert (Y : @kmul RF 1 u = u) by (exact (Rmult_1_l u)). rewrite Y in X. exact X. }
  destruct B as (w1 & g & E).
  { intros i Hi. assert (X : nth i (the_list (wtwo v) 0) (@k0 RF) = v) by (exact (N i Hi)). rewrite X, EU. split; [apply rle; now left|]. apply rle. simpl. unfold v. rewrite Rinv_l by lra. pose proof tiny_small. simpl in *. lra. }
  assert (P : forall i, (i < length (the_list (wtwo v) 0))%nat -> klt (F:=RF) 0 (nth i (the_list (wtwo v) 0) 0)). { intros i Hi. apply rlt. assert (X : nth i (the_list (wtwo v) 0) (@k0 RF) = v) by (exact (N i Hi)). simpl in *. now rewrite X. }
  destruct (@corrected_list RF cube rsqrt rsqrt2 rstream croot 0 (Some 4%nat) 1 None false (wtwo v) w1 g rsqrt_ok P E) as (G & _).
  destruct (@deterministic_returns RF cube rsqrt rsqrt2 rstream croot 0 g w1 1%nat 3%nat) as (w2 & g' & a & R); try (rewrite G; reflexivity).
  exists w1, g, w2, g', a. split; auto. split; auto. split; auto. left. now rewrite G.
Qed.
(** two constructions on the same list *)
Lemma twice_corrected : exists s w1 g1 w2 g2 w3 g3 b, 0 < s /\
  new_quasi_static cube rsqrt rsqrt2 rstream croot 0 (Some 4%nat) (Some 2%nat) None true true MDeterministic (wone s) = (w1, Ok g1) /\
  new_quasi_static cube rsqrt rsqrt2 rstream croot 0 (Some 4%nat) (Some 2%nat) None true true MDeterministic w1 = (w2, Ok g2) /\
  noise_samples cube rsqrt rsqrt2 rstream croot g2 w2 = ((w3, g3), Ok b).
Proof.
  exists (k1 : RF). destruct (@list_overwritten RF cube rsqrt rsqrt2 rstream croot 0 4 1 None true (wone k1) rsqrt_ok cube_odd rsqrt2_pos cube_positive eq_refl) as (w1 & g & E & L & _).
  { exact (klt_01 RF). } { apply tiny_unit2. lra. } { apply unit2_neq1. }
  set (c := @kmul RF rsqrt2 (cube (khalf))) in *. assert (C : 0 < c < 1) by (unfold c; rewrite unit2; pose proof rsqrt2_between; split; lra).
  assert (C1 : 1 <= 1 / c). { unfold Rdiv. rewrite Rmult_1_l. rewrite <- Rinv_1 at 1. apply Rinv_le_contravar; lra. }
  destruct (@list_overwritten RF cube rsqrt rsqrt2 rstream croot 0 4 (1 / c) None true w1 rsqrt_ok cube_odd rsqrt2_pos cube_positive L) as (w2 & g2 & E2 & _).
  { apply rlt. simpl. lra. } { apply tiny_unit2. exact C1. } { apply unit2_neq1. }
  assert (P : forall i, (i < length (the_list w1 0))%nat -> klt (F:=RF) 0 (nth i (the_list w1 0) 0)). { rewrite L. intros [|i] Hi; [apply rlt; apply (Rlt_le_trans 0 1 (1 / c) Rlt_0_1 C1)|simpl in Hi; lia]. }
  destruct (@corrected_list RF cube rsqrt rsqrt2 rstream croot 0 (Some 4%nat) 1 None true w1 w2 g2 rsqrt_ok P E2) as (G & _).
  destruct (@deterministic_returns RF cube rsqrt rsqrt2 rstream croot 0 g2 w2 1%nat 3%nat) as (w3 & g' & a & R); try (rewrite G; reflexivity).
  exists w1, g, w2, g2, w3, g', a. split; [exact Rlt_0_1|]. auto.
Qed.

(** ---- histories ---- *)
Definition hist : list (event RF) := [NewArray (Arr [] []); Read 0; NewQuasiStatic 0 (Some 5%nat) (Some 2%nat) None true false MDeterministic; ReadTraces 1; SetRedraw 1 false; NewColoured (Some 3%nat) (Some 2%nat) (Some 1%nat) (fun f : RF => f) (Some (k1 : RF)) true 2; Read 1].
Lemma hist_ok : Forall (fun e => corrects e = false) hist /\ Forall (no_redraw 0) hist.
Proof. split; repeat constructor. Qed.
Definition st1 : state RF := (wlist [1; 2], [gen1 2 4 MMonteCarlo]).
Definition st2 : state RF := (wlist [1; 2], [mkgen (F:=RF) None (Some 4%nat) (Some 3%nat) (Some 2%nat) true (QuasiStatic 0 MMonteCarlo)]).
Lemma st2_reads : exists w1 g1 a, noise_samples cube rsqrt rsqrt2 rstream croot (mkgen (F:=RF) None (Some 4%nat) (Some 3%nat) (Some 2%nat) true (QuasiStatic 0 MMonteCarlo)) (fst st2) = ((w1, g1), Ok a).
Proof. do 3 eexists. reflexivity. Qed.

(** ---- coloured noise ---- *)
Definition genc (sd : RF -> RF) (ratio : nat) : gen RF := mkgen (F:=RF) None (Some 2%nat) (Some 3%nat) (Some 1%nat) false (Coloured sd 1 ratio).
Lemma coloured_reads sd ratio : (1 <= ratio)%nat -> exists w' g' a, noise_samples cube rsqrt rsqrt2 rstream croot (genc sd ratio) (wlist []) = ((w', g'), Ok a).
Proof. intros H. apply (@coloured_returns RF cube rsqrt rsqrt2 rstream croot sd 1 ratio (genc sd ratio) (wlist []) 0%nat 2%nat 1%nat); auto. Qed.
Lemma croot_power t n : power (F:=RF) (cos t, sin t) n = (cos (INR n * t), sin (INR n * t)).
Proof.
  induction n as [|n IH].
  - simpl. rewrite Rmult_0_l, cos_0, sin_0. reflexivity.
  - cbn [power]. rewrite IH. rewrite S_INR. replace ((INR n + 1) * t) with (t + INR n * t) by ring. rewrite cos_plus, sin_plus. unfold cmul. simpl. f_equal; ring.
Qed.
Lemma croot_primitive n : n <> 0%nat -> primitive (F:=RF) n (croot n).
Proof.
  intros Hn. assert (N : 0 < INR n) by (apply lt_0_INR; lia). split; [|split].
  - unfold cnorm2, croot. cbn [fst snd]. etransitivity; [|exact (sin2_cos2 (2 * PI / INR n))]. unfold Rsqr. apply Rplus_comm.
  - unfold croot. rewrite croot_power. replace (INR n * (2 * PI / INR n)) with (2 * PI) by (field; lra). rewrite cos_2PI, sin_2PI. reflexivity.
  - intros j Hj E. unfold croot in E. rewrite croot_power in E. unfold c1 in E. injection E as E1 _. simpl in E1.
    set (h := INR j * PI / INR n). assert (A : INR j * (2 * PI / INR n) = 2 * h) by (unfold h; field; lra). rewrite A in E1. rewrite cos_2a_sin in E1.
    assert (J : 0 < INR j) by (apply lt_0_INR; lia). assert (JN : INR j < INR n) by (apply lt_INR; lia). pose proof PI_RGT_0 as PP.
    assert (H0 : 0 < h) by (unfold h; apply Rdiv_lt_0_compat; [now apply Rmult_lt_0_compat|auto]).
    assert (H1 : h < PI). { unfold h. apply Rmult_lt_reg_r with (INR n); auto. unfold Rdiv. rewrite Rmult_assoc, Rinv_l by lra. nra. }
    pose proof (sin_gt_0 h H0 H1). nra.
Qed.
(** an odd number of samples: the density is taken at the wrong frequencies *)
Definition impulse (k : nat) : RF := if Nat.eqb k 0 then 1 else 0.
Theorem odd_spectrum_refuted : exists (sd : RF -> RF) (dt : RF) (n f : nat) q a,
  klt k0 dt /\ (forall f, kle k0 (sd f)) /\ fast_colored_noise rsqrt impulse croot sd dt n 1 1 false 0 = (q, Ok a) /\ dim2 a = n /\ (0 < f <= n / 2)%nat /\
  ((1 + 1) * dt * cnorm2 (transform n (croot n) (fun k => get3 k0 a 0 0 k) f))%k <> (sd (kofnat f / (kofnat n * dt)) * cnorm2 (transform n (croot n) impulse f))%k.
Proof.
  destruct (@rounded_returns RF rsqrt impulse croot Rabs 1 3 1 1 false 0 ltac:(simpl; lra) ltac:(lia)) as (q & a & E).
  exists Rabs, 1, 3%nat, 1%nat, q, a. split; [exact (klt_01 RF)|]. split; [intros f; apply rle; apply Rabs_pos|]. split; auto.
  destruct (@returned RF rsqrt croot impulse _ _ _ _ _ _ _ _ _ E) as (m & _ & _ & M & W & _). specialize (M eq_refl). subst m. assert (L : dim2 a = 3%nat) by (destruct W as [W _]; unfold dim2; now rewrite W). split; auto. split; [simpl; lia|].
  pose proof (@noise_power_odd RF rsqrt croot impulse Rabs 1 3 1 1 false 0 q a rsqrt_ok croot_primitive) as P. rewrite L in P. specialize (P (klt_01 RF) ltac:(intros f; apply rle; apply Rabs_pos) E eq_refl 0%nat 0%nat 1%nat ltac:(lia) ltac:(lia) ltac:(simpl; lia)).
  assert (T : cnorm2 (transform 3 (croot 3) impulse 1) = (k1 : RF)). { unfold transform, impulse, cnorm2, croot. simpl. unfold cmul, cadd, cofk, c0, c1, cconj. simpl. ring. }
  cbn [Nat.mul Nat.add] in P. change (fun k : nat => impulse k) with impulse in P. rewrite T in *. intros Z. rewrite Z in P. clear Z. simpl in P.
  replace ((0 + 1) / ((0 + 1 + 1 + 1) * 1)) with (1 / 3) in P by field. replace ((0 + 1) / ((0 + 1 + 1) * 1)) with (1 / 2) in P by field. rewrite !Rabs_right in P by lra. lra.
Qed.
