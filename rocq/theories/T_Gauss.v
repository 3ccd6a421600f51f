(** Theorems about the Gaussian samples and bell curves of qopt/noise.py, property C85 of properties.jsonl.  Statements only;
    the proofs are in P_Gauss.v, P_Gauss2.v and P_Gauss3.v, the concrete cases in P_GaussWit.v. *)
Require Import List Arith Reals ZArith Lra Lia.
From Verif Require Import LibBase LibRing LibArr LibCplx M_Noise S_Noise S_Gauss M_Bell P_Gauss2 P_Gauss3 P_GaussWit.
Import ListNotations.
Open Scope R_scope.
Set Implicit Arguments.
Local Notation RF := RField.

(** ---------- C85: what is used of scipy.special.erfinv ---------- *)
Theorem c85_erfinv : exists g : R -> R, is_erfinv g /\ odd (F:=RF) g /\ positive (F:=RF) g /\ midpoint_convex (F:=RF) g.
Proof. exact erfinv_exists. Qed.
Print Assumptions c85_erfinv.
Theorem c85_erfinv_unique : forall (g g' : R -> R) z, is_erfinv g -> is_erfinv g' -> -1 < z < 1 -> g z = g' z.
Proof. exact erfinv_unique. Qed.
Print Assumptions c85_erfinv_unique.

(** ---------- sample_1dim_gaussian_distribution ---------- *)
Theorem c85_share : forall (g : R -> R) (std : R) n (m : R) l i,
  is_erfinv g -> 0 < std -> gauss (F:=RF) g (sqrt 2) std n m = Ok l -> (S i < n)%nat ->
  integral (normal_density std m) (nth i l 0) (nth (S i) l 0) (/ INR n).
Proof. exact samples_equal_share. Qed.
Print Assumptions c85_share.
Theorem c85_first : forall (g : R -> R) (std : R) n (m : R) l (v : R -> R),
  is_erfinv g -> 0 < std -> gauss (F:=RF) g (sqrt 2) std n m = Ok l ->
  (forall a, integral (normal_density std m) (- a) (nth 0 l 0) (v a)) -> tends v (/ (2 * INR n)).
Proof. exact samples_first. Qed.
Print Assumptions c85_first.
Theorem c85_increasing : forall (g : R -> R) (std : R) n (m : R) l i j,
  is_erfinv g -> 0 < std -> gauss (F:=RF) g (sqrt 2) std n m = Ok l -> (i < j < n)%nat -> nth i l 0 < nth j l 0.
Proof. exact samples_increase. Qed.
Print Assumptions c85_increasing.
Theorem c85_std_below : forall (g : R -> R) (std : R) n (m : R) l (s : R),
  is_erfinv g -> 0 < std -> gauss (F:=RF) g (sqrt 2) std n m = Ok l -> is_std (F:=RF) n (fun j => nth j l 0) s -> s < std.
Proof. exact std_below. Qed.
Print Assumptions c85_std_below.
Theorem c85_std_limit : forall (g : R -> R) (std eps : R), is_erfinv g -> 0 < std -> 0 < eps ->
  exists N, forall n (m : R) l (s : R), (N <= n)%nat -> gauss (F:=RF) g (sqrt 2) std n m = Ok l -> is_std (F:=RF) n (fun j => nth j l 0) s -> std - eps < s.
Proof. exact std_limit. Qed.
Print Assumptions c85_std_limit.
(** the standard deviation of two samples, which enters c58_single_refuted, c59_refuted and c59_second_refuted *)
Theorem c85_two_samples : forall g : R -> R, is_erfinv g -> 0 < sqrt 2 * g (1 / 2) < 1.
Proof. exact two_samples. Qed.
Print Assumptions c85_two_samples.
Example c85_case_samples : exists g l s, is_erfinv g /\ gauss (F:=RF) g (sqrt 2) 3 5 7 = Ok l /\ is_std (F:=RF) 5 (fun j => nth j l 0) s /\ (forall a, exists v, integral (normal_density 3 7) (- a) (nth 0 l 0) v).
Proof. exact case_samples. Qed.

(** ---------- bell_curve_1dim, bell_curve_2dim ---------- *)
Theorem c85_bell_2dim : forall x sx y sy v, 0 < sx -> 0 < sy -> bell_curve_2dim x sx y sy = Ok v <-> v = normal_density sx 0 x * normal_density sy 0 y.
Proof. exact bell2_normal. Qed.
Print Assumptions c85_bell_2dim.
Theorem c85_bell_1dim_partial : forall x sx v, 0 < sx -> bell_curve_1dim x sx = Ok v <-> v = / sqrt (2 * PI) * normal_density sx 0 x.
Proof. exact bell1_normal. Qed.
Print Assumptions c85_bell_1dim_partial.
Theorem c85_bell_1dim_refuted : forall std f (v : R -> R), 0 < std -> (forall x, bell_curve_1dim x std = Ok (f x)) -> (forall a, integral f (- a) a (v a)) ->
  tends v (/ sqrt (2 * PI)) /\ / sqrt (2 * PI) < / 2 /\ ~ tends v 1.
Proof. exact bell1_mass. Qed.
Print Assumptions c85_bell_1dim_refuted.
(** the area under a normal density is 1 *)
Theorem c85_normal : forall std m (v : R -> R), 0 < std -> (forall a, integral (normal_density std m) (- a) a (v a)) -> tends v 1.
Proof. exact LibGauss2.density_total. Qed.
Print Assumptions c85_normal.
Example c85_case_bell : exists f, (forall x, bell_curve_1dim x 2 = Ok (f x)) /\ forall a, exists v, integral f (- a) a v.
Proof. exact case_bell. Qed.

(** ---------- sample_2dim_gaussian_distribution ---------- *)
Theorem c85_2dim_partial : forall s1 s2 n, s1 <> 0 -> s2 <> 0 -> (n < Z.to_nat 1000000)%nat ->
  exists xs ys cells, sample_2dim s1 s2 n = Ok (xs, ys) /\ length xs = n /\ length ys = n /\ is_grid s1 s2 cells /\
   forall k, (k < n)%nat -> exists i p, first_above cells ((INR k + 1) / (INR n + 1)) i /\ nth_error cells i = Some (p, (nth k xs 0, nth k ys 0)).
Proof. exact two_dim. Qed.
Print Assumptions c85_2dim_partial.
Theorem c85_2dim_refuted : forall s1 s2 n, s1 <> 0 -> s2 <> 0 -> (side * side < n)%nat -> exists xs ys, sample_2dim s1 s2 n = Ok (xs, ys) /\ (length xs < n)%nat.
Proof. exact two_dim_few. Qed.
Print Assumptions c85_2dim_refuted.
Example c85_case_2dim : exists xs ys, sample_2dim 1 (- 2) 3 = Ok (xs, ys) /\ length xs = 3%nat.
Proof. destruct (@two_dim 1 (- 2) 3) as (xs & ys & cells & E & L & _); [lra|lra|lia|]. now exists xs, ys. Qed.
