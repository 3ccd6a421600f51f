(** Model of Simulator.check and Simulator.compare_numeric_to_analytic_gradient, qopt/simulator.py l.151-161, 295-336, and
    of the attributes check reads (l.125-128, 144-149).  The square root of np.linalg.norm is an argument.  Division by a vanishing sum of norms gives nan in the source; here it
    is the division of the field. *)
Require Import List Arith Bool.
From Verif Require Import LibBase LibRing LibArr LibCplx LibMat M_Matrix M_Transfer M_Amplitude M_Solver M_Cost M_Simulator.
Import ListNotations.
Open Scope res_scope.
Set Implicit Arguments.

Section Model.
Variable F : OField.
Variable rexp : F -> F.
Variable la : LinAlg F.
Variable eps : cplx F.
Variable rsqrt : F -> F.
Notation arrF := (arr (kcar F)).

(** np.linalg.norm of an array of any rank: the root of the sum of the squares of all entries *)
Definition np_norm (a : arrF) : F := rsqrt (fold_left (fun s x => kadd s (kmul x x)) (data a) k0).
(** numeric_gradient - analytic_gradient; shapes that differ are a ValueError (broadcasting of an axis of length one,
    possible only if a cost function returns a gradient of another shape than its costs, is not modelled) *)
Definition np_minus (a b : arrF) : res arrF :=
  check (if list_eq_dec Nat.eq_dec (shape a) (shape b) then true else false) else ValueError ;;
  Ok (Arr (shape a) (map (fun p => ksub (fst p) (snd p)) (combine (data a) (data b)))).
(** compare_numeric_to_analytic_gradient, l.295-336; [dl] is the default step of a numeric jacobian (l.340) *)
Definition compare_gradients (m : @sim F) (pulse : option arrF) (delta : F) (symmetric : bool) (dl : F) : wm F (F * F) :=
  wbind (numeric_gradient rexp la eps m pulse delta symmetric) (fun g =>
  wbind (wrapped_jac rexp la eps m pulse dl) (fun j =>
  wret (d <- np_minus g j ;; let x := np_norm d in Ok (x, kdiv (kmul (kofnat 2) x) (kadd (np_norm g) (np_norm j)))))).
End Model.

(** the argument times: None, a list or an array; only its number of elements matters *)
Inductive times := TNone | TList (n : nat) | TArray (n : nat).
(** _num_ctrl, _num_times, _optimization_parameteres (its shape), _times, l.125-128 *)
Record atts := mkatts { a_ctrl : option nat; a_ntimes : option nat; a_pulse : option (list nat); a_times : times }.
(** pulse.setter, l.144-149: the two numbers are read from the pulse held before; unpacking another number of axes than two
    raises before any assignment *)
Definition pulse_setter (a : atts) (new : option (list nat)) : atts * res unit :=
  match new, a_pulse a with
  | None, _ => (mkatts (a_ctrl a) (a_ntimes a) None (a_times a), Ok tt)
  | Some _, None => (a, Err AttributeError)
  | Some _, Some [n; c] => (mkatts (Some c) (Some n) new (a_times a), Ok tt)
  | Some _, Some _ => (a, Err ValueError)
  end.
(** size != number or None, in python a comparison with None is True *)
Definition differs (n : nat) (o : option nat) : bool := match o with Some m => negb (Nat.eqb n m) | None => true end.
(** check, l.151-161: self._times.size, then the shape of the pulse; the warning of the decorator needs_refactoring is left
    out *)
Definition check_atts (a : atts) : res unit :=
  match a_times a with
  | TNone | TList _ => Err AttributeError
  | TArray n =>
      if differs n (a_ntimes a) then Err ValueError else
      match a_pulse a with
      | None => Err AttributeError
      | Some [t; c] => if differs t (a_ntimes a) || differs c (a_ctrl a) then Err ValueError else Ok tt
      | Some _ => Err ValueError
      end
  end.
