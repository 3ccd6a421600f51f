(** Model of Analyser.absolute_costs, qopt/analyser.py l.124-147.  The stored costs are vectors (the arrays of the wrapper
    of the costs); nan is None; the square root of numpy is the parameter rsqrt. *)
Require Import List Arith Bool.
From Verif Require Import LibBase LibRing.
Import ListNotations.
Open Scope res_scope.
Set Implicit Arguments.

Section Model.
Variable F : OField.
Variable rsqrt : F -> F.
(** np.max(list(map(len, costs))), l.135; costs[0][0], l.138-139; np.stack, l.144: an empty list or vectors of different
    lengths raise; the assignment to costs[i, :num_steps, :] repeats the entry of vectors of length 1 and raises for other
    lengths; np.sqrt(np.sum(costs ** 2, axis=2)), l.146: nan for the entries that were not written, if there are any *)
Definition root_sum (k : nat) (v : list F) : F :=
  let b := if Nat.eqb (length v) k then v else repeat (nth 0 v k0) k in
  rsqrt (fold_left kadd (map (fun x => kmul x x) b) k0).
Definition absolute_row (n k : nat) (run : list (list F)) : res (list (option F)) :=
  match run with
  | [] => Err ValueError
  | v0 :: _ =>
    check forallb (fun v => Nat.eqb (length v) (length v0)) run else ValueError ;;
    check (Nat.eqb (length v0) k || Nat.eqb (length v0) 1) else ValueError ;;
    Ok (map (fun v => Some (root_sum k v)) run ++ repeat (if Nat.eqb k 0 then Some (rsqrt k0) else None) (n - length run))
  end.
Definition absolute_costs (runs : list (list (list F))) : res (list (list (option F))) :=
  match runs with
  | [] => Err ValueError
  | [] :: _ => Err IndexError
  | (v :: _) :: _ => mapM (absolute_row (list_max (map (@length _) runs)) (length v)) runs
  end.
End Model.
