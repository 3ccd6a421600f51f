(** Specification vocabulary for normal distributions, the error function and two-dimensional samples (C85). *)
Require Import List Arith Reals ZArith.
Import ListNotations.
Local Open Scope R_scope.
Set Implicit Arguments.

(** f has the integral v from a to b *)
Definition integral (f : R -> R) (a b v : R) : Prop := exists pr : Riemann_integrable f a b, RiemannInt pr = v.
(** f x approaches l for large x *)
Definition tends (f : R -> R) (l : R) : Prop := forall eps, 0 < eps -> exists T, forall x, T <= x -> Rabs (f x - l) < eps.
(** the density of the normal distribution *)
Definition normal_density (std m x : R) : R := / (std * sqrt (2 * PI)) * exp (- ((x - m) * (x - m) / (2 * (std * std)))).
(** scipy.special.erfinv: the integral of 2 / sqrt(pi) exp(-t^2) from 0 to erfinv z is z; any number outside of (-1, 1), where
    scipy returns inf or nan *)
Definition is_erfinv (g : R -> R) : Prop := forall z, -1 < z < 1 -> integral (fun t => 2 / sqrt PI * exp (- (t * t))) 0 (g z) z.

(** the weights of the first k entries *)
Definition weight {A : Type} (cells : list (R * A)) (k : nat) : R := fold_right (fun c a => fst c + a) 0 (firstn k cells).
(** entry i is the first one up to which the weights exceed v *)
Definition first_above {A : Type} (cells : list (R * A)) (v : R) (i : nat) : Prop := (i < length cells)%nat /\ v < weight cells (S i) /\ forall j, (j <= i)%nat -> weight cells j <= v.

(** sums of n numbers *)
Fixpoint add_up (n : nat) (f : nat -> R) : R := match n with O => 0 | S n => add_up n f + f n end.
(** the grid of the two-dimensional samples: from -5 to 5 standard deviations in steps of a thousandth, 10001 points *)
Definition side : nat := Z.to_nat 10000.
Definition grid_point (std : R) (i : nat) : R := std * (INR i / 1000 - 5).
(** the share of grid point i among the 10001 points of one direction *)
Definition grid_share (std : R) (i : nat) : R := normal_density (Rabs std) 0 (grid_point std i) / add_up (S side) (fun i => normal_density (Rabs std) 0 (grid_point std i)).
(** the grid points without the last row and column, row by row, with their shares *)
Definition is_grid (std1 std2 : R) (cells : list (R * (R * R))) : Prop := length cells = (side * side)%nat /\
  forall i j, (i < side)%nat -> (j < side)%nat -> nth_error cells (i * side + j) = Some (grid_share std1 i * grid_share std2 j, (grid_point std1 i, grid_point std2 j)).
