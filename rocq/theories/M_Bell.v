(** Model of qopt/noise.py: the bell curves and the two-dimensional Gaussian samples.

    Exact real arithmetic: np.pi and np.exp are PI and exp of the reals.  Points and standard deviations are python floats
    (arrays of points are treated entry by entry), for which dividing by 0 raises ZeroDivisionError.  The number of samples
    is a natural number. *)
Require Import List Arith Reals ZArith.
From Verif Require Import LibBase.
Import ListNotations.
Open Scope R_scope.
Set Implicit Arguments.

(** the value of bell_curve_1dim, l.100-102 *)
Definition bell1 (x stdx : R) : R := 1 / 2 / PI / stdx * exp (- (5 / 10) * ((x / stdx) ^ 2)).
(** bell_curve_1dim, noise.py l.81-102 *)
Definition bell_curve_1dim (x stdx : R) : res R := if Req_EM_T stdx 0 then Err PyException else Ok (bell1 x stdx).
(** the value of bell_curve_2dim, l.198-200 *)
Definition bell2 (x stdx y stdy : R) : R := 1 / 2 / PI / stdx / stdy * exp (- (5 / 10) * ((x / stdx) ^ 2 + (y / stdy) ^ 2)).
(** bell_curve_2dim, l.172-200 *)
Definition bell_curve_2dim (x stdx y stdy : R) : res R :=
  if Req_EM_T stdx 0 then Err PyException else if Req_EM_T stdy 0 then Err PyException else Ok (bell2 x stdx y stdy).

(** np.mgrid[-5 * std:5.0001 * std:0.001 * std], l.233-234: 10001 points *)
Definition mgrid (std : R) (i : nat) : R := - 5 * std + INR i * (1 / 1000 * std).
(** the length of each side of the grid, from l.233-234 *)
Definition npoints : nat := Z.to_nat 10001.
(** np.sum, used in l.236 *)
Definition np_sum (n : nat) (f : nat -> R) : R := fold_left (fun a i => a + f i) (seq 0 n) 0.
(** the normalised distribution, l.235-236 *)
Definition distribution (std1 std2 : R) : nat -> nat -> R :=
  let d i j := bell2 (mgrid std1 i) std1 (mgrid std2 j) std2 in
  let s := np_sum npoints (fun i => np_sum npoints (fun j => d i j)) in
  fun i j => d i j / s.
(** what the loops of l.241-242 run over: i and j in range(10000) *)
Definition loop_cells (std1 std2 : R) : list (R * (R * R)) :=
  let d := distribution std1 std2 in
  flat_map (fun i => map (fun j => (d i j, (mgrid std1 i, mgrid std2 j))) (seq 0 (Z.to_nat 10000))) (seq 0 (Z.to_nat 10000)).
(** the body of the loops, l.243-247 *)
Fixpoint select (n : nat) (cells : list (R * (R * R))) (cumulative : R) (iterator : nat) : list (R * R) :=
  match cells with
  | [] => []
  | (p, xy) :: rest =>
      let cumulative := cumulative + p in
      if Rlt_dec (INR iterator / (INR n + 1)) cumulative then xy :: select n rest cumulative (S iterator) else select n rest cumulative iterator
  end.
(** sample_2dim_gaussian_distribution, l.203-248; a standard deviation of 0 raises in np.mgrid *)
Definition sample_2dim (std1 std2 : R) (n : nat) : res (list R * list R) :=
  if Req_EM_T std1 0 then Err PyException else if Req_EM_T std2 0 then Err PyException else
  let l := select n (loop_cells std1 std2) 0 1 in Ok (map fst l, map snd l).
