(** Model of the deprecated derivatives of qopt/cost_functions.py: derivative_entanglement_fidelity l.1874-1926 (the
    grape approximation), derivative_average_gate_fidelity l.1999-2040 and derivative_average_gate_fid_with_du
    l.2043-2076.  The decorators deprecated and needs_refactoring (util.py l.58-86) only print a warning.
    control_hamiltonians[t, ctrl] and unitary_derivatives[t, ctrl] are two dimensional arrays of operators, read
    inside of their own shape only. *)
Require Import List Arith Bool.
From Verif Require Import LibBase LibRing LibArr LibCplx LibMat M_Matrix M_Solver M_Cost.
Import ListNotations.
Open Scope res_scope.
Set Implicit Arguments.

Section CostDeriv.
Variable F : OField.
Notation op := (op F).
Notation S := (CStar F).
Notation C := (cplx F).

(** the loops `for ctrl ...: for t ...: derivative_fidelity[t, ctrl] = ...` for a complex array, l.1915-1925, 2017-2039, 2057-2075 *)
Definition fill_complex (T N : nat) (f : nat -> nat -> res C) : res (arr C) :=
  cols <- mapM (fun c => mapM (fun t => f c t) (seq 0 T)) (seq 0 N) ;;
  Ok (mk2 T N (fun t c => nth t (nth c cols []) c0)).

(** l.2006-2011, 2046-2051: propagators_future[t] is the propagation from time step t to the end *)
Definition propagators_future (ps : list op) : res (list op) :=
  p0 <- idx ps 0 ;;
  fs <- foldM (fun fs p => l <- idx_last fs ;; x <- np_matmul l p ;; Ok (fs ++ [x])) (rev ps) [mid (S:=S) (nr p0)] ;;
  Ok (rev fs).

(** l.2060-2074: the summand of one orthogonal operator *)
Definition du_summand (b past past' du o : op) : res C :=
  lam <- np_matmul b (op_dag o) ;; lam <- op_imul lam (ODense (op_dag b)) ;;
  rho <- np_matmul past o ;; rho <- op_imul rho (ODense (op_dag past')) ;;
  m <- np_matmul du rho ;; m' <- np_matmul (op_dag rho) (op_dag du) ;; m <- op_iadd m (ODense m') ;;
  lam <- op_imul lam (ODense m) ;;
  Ok (op_tr lam).

(** l.2043-2076 *)
Definition derivative_average_gate_fid_with_du (ps past : list op) (dus : arr op) (target : op) : res (arr C) :=
  fut <- propagators_future ps ;;
  p0 <- idx ps 0 ;;
  let dim := nr p0 in
  os <- orthogonal_set F dim ;;
  fill_complex (dim0 dus) (dim1 dus) (fun c t =>
    f <- idx fut (Datatypes.S t) ;; b <- np_matmul (op_dag f) target ;;
    temp <- foldM (fun s o =>
      p <- idx past t ;; p' <- idx past (Datatypes.S t) ;;
      x <- du_summand b p p' (get2 p0 dus t c) o ;; Ok (cadd s x)) os c0 ;;
    Ok (cdiv temp (cofk (kofnat (dim * dim * (dim + 1)))))).

(** l.2020-2034: the summand of one orthogonal operator *)
Definition grape_summand (b past' h : op) (dt : operand F) (o : op) : res C :=
  lam <- np_matmul b (op_dag o) ;; lam <- op_imul lam (ODense (op_dag b)) ;;
  rho <- np_matmul past' o ;; rho <- op_imul rho (ODense (op_dag past')) ;;
  m <- np_matmul h rho ;; m' <- np_matmul rho h ;; m <- op_isub m (ODense m') ;;
  lam <- op_imul lam (OScal (copp ci)) ;; lam <- op_imul lam dt ;; lam <- op_imul lam (ODense m) ;;
  Ok (op_tr lam).

(** l.1999-2040; delta_t is multiplied in place onto an operator, so it is an operand: a number, an array or anything else *)
Definition derivative_average_gate_fidelity (hs : arr op) (ps past : list op) (dt : operand F) (target : op) : res (arr C) :=
  fut <- propagators_future ps ;;
  h0 <- idx (data hs) 0 ;;
  let dim := nr h0 in
  os <- orthogonal_set F dim ;;
  fill_complex (dim0 hs) (dim1 hs) (fun c t =>
    f <- idx fut (Datatypes.S t) ;; b <- np_matmul (op_dag f) target ;;
    temp <- foldM (fun s o =>
      p' <- idx past (Datatypes.S t) ;;
      x <- grape_summand b p' (get2 h0 hs t c) dt o ;; Ok (cadd s x)) os c0 ;;
    Ok (cdiv temp (cofk (kofnat (dim * dim * (dim + 1)))))).

(** the argument delta_t of l.1874-1926: a list or a one dimensional numpy array *)
Inductive durations := TList (l : list F) | TArray (l : list F).
Definition durations_len (d : durations) : nat := match d with TList l => length l | TArray l => length l end.
(** l.1919-1924: `2 / d / d * delta_t * np.imag(...)` is evaluated from the left and written to one entry of the array.  A
    float times a list raises TypeError before the trace is taken; an array of durations gives an array, which fits into
    the entry if it has one element (numpy raises otherwise; the kind of the exception is not used below). *)
Definition grape_entry (d : nat) (dt : durations) (im : res F) : res C :=
  match dt with
  | TList _ => Err TypeError
  | TArray l =>
    v <- im ;;
    match l with
    | [x] => Ok (cofk (kmul (kmul (kdiv (kdiv (two F) (kofnat d)) (kofnat d)) x) v))
    | _ => Err ValueError
    end
  end.
(** l.1874-1926 *)
Definition derivative_entanglement_fidelity_grape (hs fwd revs : list op) (dt : durations) (target : op) : res (arr C) :=
  l <- idx_last fwd ;;
  x <- np_matmul l (op_dag target) ;;
  let trace := cconj (op_tr x) in
  fill_complex (durations_len dt) (length hs) (fun c t =>
    grape_entry (nr target) dt (
      r <- rev_at revs t ;; h <- idx hs c ;; y <- np_matmul r h ;; f <- idx fwd (Datatypes.S t) ;; y <- np_matmul y f ;;
      y <- np_matmul y (op_dag target) ;; Ok (cim (cmul trace (op_tr y))))).
End CostDeriv.
Arguments fill_complex {F}. Arguments propagators_future {F}. Arguments du_summand {F}. Arguments derivative_average_gate_fid_with_du {F}.
Arguments grape_summand {F}. Arguments derivative_average_gate_fidelity {F}. Arguments durations_len {F}. Arguments grape_entry {F}.
Arguments derivative_entanglement_fidelity_grape {F}. Arguments TList {F}. Arguments TArray {F}.
