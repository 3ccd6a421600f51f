(** Specification vocabulary for the recorded times (C71). *)
Require Import List Arith Reals.
From Verif Require Import LibBase LibRing LibArr LibCplx LibMat M_Matrix M_Solver M_Simulator M_Optimizer M_Stats.
Import ListNotations.
Set Implicit Arguments.

(** the clock does not go back *)
Definition monotone (clock : nat -> R) : Prop := forall i, (clock i <= clock (S i))%R.
(** the statistics object the simulator writes to *)
Definition current {F} (w : @tw F) (t : @stats F) : Prop := exists a, tw_cur w = Some a /\ nth_error (tw_heap w) a = Some t.
(** the durations of n consecutive measurements that start with reading k *)
Definition durations {F : OField} (clock : nat -> F) (k n : nat) : list F := map (fun i => ksub (clock (k + 2 * i + 1)) (clock (k + 2 * i))) (seq 0 n).
Definition added (l : list R) : R := fold_right Rplus 0%R l.
(** rows of the same length *)
Definition even (rows : list (list R)) : Prop := exists n, Forall (fun q => length q = n) rows.
(** the sum of all recorded times of a list of runs *)
Definition recorded (f : @stats RField -> list (list R)) (l : list (@stats RField)) : R := added (flat_map (fun t => concat (f t)) l).
(** the run took the time d *)
Definition lasted (t : @stats RField) (d : R) : Prop := exists b e, t_begin t = Some b /\ t_end t = Some e /\ d = (e - b)%R.
(** [t] are the statistics in the result of a run with a simulator that records; either the run was not aborted, or the
    optimiser minimises a scalar, or no jacobian is used; [fin] restricts the status of the result *)
Definition outcome (fin : nat -> bool) (t : @stats RField) : Prop :=
  exists (rexp : R -> R) (la : LinAlg RField) (eps : cplx RField) (clock : nat -> R) (m : @sim RField) dl kd me cf y0 sp s s' res a,
    monotone clock /\ tw_cur (o_w s) <> None /\
    @timed_run RField rexp la eps clock m dl kd me cf y0 sp s = (s', Ok (res, Some a)) /\ nth_error (tw_heap (o_w s')) a = Some t /\
    (oc_jac cf = false \/ kd = ScalarMin \/ r_status res <> 5) /\ fin (r_status res) = true.
(** the root of the sum of the squares *)
Definition norm2 (v : list R) : R := sqrt (added (map (fun x => (x * x)%R) v)).
