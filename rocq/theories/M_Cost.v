(** Model of qopt/cost_functions.py: fidelities, their derivatives and the cost functions built on them.
    |z|**2 is computed without the square root; an ndarray argument is converted to an operator first in the
    source, so only operators are modelled.  Not modelled: OperatorMatrixNorm (its constructor calls
    super().__init__() without the solver and always raises TypeError), OperatorFilterFunctionInfidelity
    (a call of the filter_functions package).  The deprecated derivatives l.1874-1926, 1999-2076 are in M_CostDeriv.v. *)
Require Import List Arith Bool.
From Verif Require Import LibBase LibRing LibArr LibCplx LibMat M_Matrix M_Solver.
Import ListNotations.
Open Scope res_scope.
Set Implicit Arguments.

Section Cost.
Variable F : OField.
Variable la : LinAlg F.
Notation op := (op F).
Notation S := (CStar F).
Notation C := (cplx F).
Notation arrF := (arr (kcar F)).

(** l[-1] *)
Definition idx_last {A} (l : list A) : res A := idx (rev l) 0.
(** reversed_propagators[::-1][t + 1] *)
Definition rev_at (rs : list op) (t : nat) : res op := idx (rev rs) (Datatypes.S t).
(** `if computational_states is not None` *)
Definition trunc_opt (A : op) (cs : option (list nat)) (unit : bool) : res op :=
  match cs with None => Ok A | Some _ => op_truncate la A cs unit end.
(** `if computational_states`: false for None and for the empty list *)
Definition trunc_if (A : op) (cs : option (list nat)) (unit : bool) : res op :=
  match cs with None | Some [] => Ok A | Some _ => op_truncate la A cs unit end.
Definition two : F := kadd k1 k1.

(** cost_functions.py l.405-464 *)
Definition state_fidelity (target psi : op) (cs : option (list nat)) (rescale : bool) : res F :=
  p <- trunc_opt psi cs rescale ;;
  sp <- np_matmul target p ;;
  check Nat.eqb (nr sp) 1 && Nat.eqb (nc sp) 1 else ValueError ;;
  Ok (cnorm2 (mg sp 0 0)).

(** the loops `for ctrl ...: for t ...: derivative[t, ctrl] = ...`, e.g. l.522-548 *)
Definition fill_derivative (T C : nat) (f : nat -> nat -> res F) : res arrF :=
  cols <- mapM (fun c => mapM (fun t => f c t) (seq 0 T)) (seq 0 C) ;;
  Ok (mk2 T C (fun t c => nth t (nth c cols []) k0)).
(** reversed_propagators[::-1][t + 1] * derivatives[ctrl][t] * forward_propagators[t] *)
Definition total_derivative (fwd : list op) (ders : list (list op)) (revs : list op) (c t : nat) : res op :=
  r <- rev_at revs t ;; row <- idx ders c ;; d <- idx row t ;; x <- np_matmul r d ;; f <- idx fwd t ;; np_matmul x f.

(** l.467-548; np.conj of an operator calls its conjugate method *)
Definition derivative_state_fidelity (target : op) (fwd : list op) (ders : list (list op)) (revs : list op)
    (cs : option (list nat)) (rescale : bool) : res arrF :=
  l <- idx_last fwd ;;
  p <- trunc_opt l cs rescale ;;
  sp <- np_matmul target p ;;
  row0 <- idx ders 0 ;;
  fill_derivative (length row0) (length ders) (fun c t =>
    match cs with
    | None | Some [] =>
        r <- rev_at revs t ;; x <- np_matmul target r ;; row <- idx ders c ;; d <- idx row t ;; y <- np_matmul x d ;;
        f <- idx fwd t ;; z <- np_matmul y f ;;
        q <- np_matmul (op_conj sp) z ;;
        check Nat.ltb 0 (nr q) && Nat.ltb 0 (nc q) else IndexError ;;
        Ok (kmul two (cre (mg q 0 0)))
    | Some _ =>
        x <- total_derivative fwd ders revs c t ;; y <- op_truncate la x cs rescale ;; z <- np_matmul target y ;;
        q <- np_matmul (op_conj sp) z ;;
        check Nat.ltb 0 (nr q) && Nat.ltb 0 (nc q) else IndexError ;;
        Ok (kmul two (cre (mg q 0 0)))
    end).

(** l.551-635; [tol] is the literal 1e-5; when the imaginary part is larger the code indexes a scalar, which raises
    IndexError.  [set_iter] is the iteration order of the set in ptrace, see M_Matrix. *)
Definition state_fidelity_subspace (set_iter : list nat -> list nat) (tol : F) (target psi : op) (dims remove : list nat) : res F :=
  leak <- foldM (fun a i => d <- idx dims i ;; Ok (a * d)) remove 1 ;;
  p <- (if Nat.leb ((nr target * nc target * leak) * (nr target * nc target * leak)) (nr psi * nc psi) && Nat.eqb (nc psi) 1
        then op_unvec psi else Ok psi) ;;
  rho <- op_ptrace set_iter p dims remove ;;
  x <- np_matmul target rho ;; sp <- np_matmul x (op_dag target) ;;
  check Nat.eqb (nr sp) 1 && Nat.eqb (nc sp) 1 else ValueError ;;
  let z := mg sp 0 0 in
  check kleb (kmul (cim z) (cim z)) (kmul tol tol) else IndexError ;;
  Ok (cre z).
(** l.638-700 *)
Definition derivative_state_fidelity_subspace (set_iter : list nat -> list nat) (target : op) (fwd : list op) (ders : list (list op))
    (revs : list op) (dims remove : list nat) : res arrF :=
  row0 <- idx ders 0 ;;
  l <- idx_last fwd ;;
  fill_derivative (length row0) (length ders) (fun c t =>
    x <- total_derivative fwd ders revs c t ;; y <- np_matmul x (op_dag l) ;; z <- op_ptrace set_iter y dims remove ;;
    u <- np_matmul target z ;; v <- np_matmul u (op_dag target) ;;
    check Nat.ltb 0 (nr v) && Nat.ltb 0 (nc v) else IndexError ;;
    Ok (kmul two (cre (mg v 0 0)))).

(** l.703-746 *)
Definition entanglement_fidelity (target prop : op) (cs : option (list nat)) (unit : bool) : res F :=
  p <- trunc_opt prop cs unit ;;
  x <- np_matmul (op_dag target) p ;;
  Ok (kdiv (kdiv (cnorm2 (op_tr x)) (kofnat (nr target))) (kofnat (nr target))).

(** l.749-830 *)
Definition derivative_entanglement_fidelity (target : op) (fwd : list op) (ders : list (list op)) (revs : list op)
    (cs : option (list nat)) (unit : bool) : res arrF :=
  l <- idx_last fwd ;;
  p <- trunc_if l cs unit ;;
  x <- np_matmul p (op_dag target) ;;
  let trace := cconj (op_tr x) in
  row0 <- idx ders 0 ;;
  fill_derivative (length row0) (length ders) (fun c t =>
    d <- total_derivative fwd ders revs c t ;; d' <- trunc_if d cs unit ;; y <- np_matmul d' (op_dag target) ;;
    Ok (kmul (kdiv (kdiv two (kofnat (nr target))) (kofnat (nr target))) (cre (cmul trace (op_tr y))))).

(** A[i, j] = v in place; out of range raises *)
Definition set_entry (A : op) (i j : nat) (v : C) : res op :=
  check Nat.ltb i (nr A) && Nat.ltb j (nc A) else IndexError ;;
  Ok (mk2 (nr A) (nc A) (fun a b => if Nat.eqb a i && Nat.eqb b j then v else mg A a b)).
(** reading A[i, j] *)
Definition get_entry (A : op) (i j : nat) : res C :=
  check Nat.ltb i (nr A) && Nat.ltb j (nc A) else IndexError ;; Ok (mg A i j).
(** enumerate *)
Definition enum (l : list nat) : list (nat * nat) := combine (seq 0 (length l)) l.
(** l.892-897: the target embedded into the full space *)
Definition embed (tinv : op) (cs : list nat) (n : nat) : res op :=
  foldM (fun A (ir : nat * nat) =>
    foldM (fun A (kc : nat * nat) => v <- get_entry tinv (fst ir) (fst kc) ;; set_entry A (snd ir) (snd kc) v) (enum cs) A)
    (enum cs) (mzero n n).
(** l.911-913 *)
Definition projector (cs : list nat) (n : nat) : res op :=
  foldM (fun A s => set_entry A s s c1) cs (mscale (S:=S) c0 (mid (S:=S) n)).

(** l.833-923 *)
Definition entanglement_fidelity_super (target prop : op) (cs : option (list nat)) : res F :=
  let d := nr target in
  tr <- match cs with
        | None => x <- np_matmul (op_to_super (op_dag target)) prop ;; Ok (cre (op_tr x))
        | Some cs =>
            full <- embed (op_dag target) cs (isqrt (nr prop)) ;;
            pr <- projector cs (isqrt (nr prop)) ;;
            x <- np_matmul (op_to_super pr) (op_to_super full) ;; y <- np_matmul x prop ;; Ok (cre (op_tr y))
        end ;;
  Ok (kdiv (kdiv tr (kofnat d)) (kofnat d)).

(** l.926-986 *)
Definition derivative_fidelity_super (target : op) (fwd : list op) (ders : list (list op)) (revs : list op)
    (cs : option (list nat)) : res arrF :=
  row0 <- idx ders 0 ;;
  fill_derivative (length row0) (length ders) (fun c t =>
    x <- total_derivative fwd ders revs c t ;; entanglement_fidelity_super target x cs).

(** ---- cost functions; the properties of the solver they read ---- *)
Record reads := mkreads {
  r_fwd : list op; r_rev : list op; r_der : list (list op);
  r_nfwd : list (list op); r_nrev : list (list op); r_nder : list (list (list op));
  r_traces : nat;      (* solver.noise_trace_generator.n_traces *)
  r_steps : nat;       (* len(solver.transferred_time) *)
  r_ctrls : nat }.     (* len(solver.h_ctrl) *)

Definition mean (l : list F) : F := kdiv (lsum (S:=KStar F) l) (kofnat (length l)).
Definition neg_arr (a : arrF) : arrF := mk2 (dim0 a) (dim1 a) (fun i j => kmul (kopp k1) (get2 k0 a i j)).

(** l.997-1015: the target becomes a bra *)
Definition as_bra (target : op) : op := if Nat.ltb (nc target) (nr target) then op_dag target else target.
(** StateInfidelity l.1017-1038 *)
Definition state_infidelity (r : reads) (target : op) (cs : option (list nat)) (rescale : bool) : res F :=
  l <- idx_last (r_fwd r) ;; f <- state_fidelity (as_bra target) l cs rescale ;; Ok (ksub k1 f).
Definition state_infidelity_grad (r : reads) (target : op) (cs : option (list nat)) (rescale : bool) : res arrF :=
  g <- derivative_state_fidelity (as_bra target) (r_fwd r) (r_der r) (r_rev r) cs rescale ;; Ok (neg_arr g).
(** OperationInfidelity l.1271-1316; map_to_closest_unitary is not passed on to the derivative *)
Definition operation_infidelity (r : reads) (target : op) (super : bool) (cs : option (list nat)) (unit : bool) : res F :=
  l <- idx_last (r_fwd r) ;;
  f <- (if super then entanglement_fidelity_super target l cs else entanglement_fidelity target l cs unit) ;;
  Ok (ksub k1 f).
Definition operation_infidelity_grad (r : reads) (target : op) (super : bool) (cs : option (list nat)) (unit : bool) : res arrF :=
  g <- (if super then derivative_fidelity_super target (r_fwd r) (r_der r) (r_rev r) cs
        else derivative_entanglement_fidelity target (r_fwd r) (r_der r) (r_rev r) cs false) ;;
  Ok (neg_arr g).

(** OperationNoiseInfidelity l.1385-1400; without a target the systematic errors are neglected (l.1379-1383) *)
Definition effective_target (r : reads) (target : option op) (cs : option (list nat)) (unit neglect : bool) : res op :=
  match target, neglect with
  | Some t, false => Ok t
  | _, _ => l <- idx_last (r_fwd r) ;; trunc_opt l cs unit
  end.
(** l.1402-1422 *)
Definition noise_infidelity (r : reads) (target : option op) (cs : option (list nat)) (unit neglect : bool) : res F :=
  t <- effective_target r target cs unit neglect ;;
  fs <- mapM (fun i => fs <- idx (r_nfwd r) i ;; l <- idx_last fs ;; f <- entanglement_fidelity t l cs unit ;; Ok (ksub k1 f))
             (seq 0 (r_traces r)) ;;
  Ok (mean fs).
(** l.1424-1454: derivative[:, :, i] = temp broadcasts temp to (steps, controls) *)
Definition fit (T C : nat) (a : arrF) : res arrF :=
  check (Nat.eqb (dim0 a) T || Nat.eqb (dim0 a) 1) && (Nat.eqb (dim1 a) C || Nat.eqb (dim1 a) 1) else ValueError ;;
  Ok (mk2 T C (fun t c => get2 k0 a (bidx (dim0 a) t) (bidx (dim1 a) c))).
(** temp += other: other is broadcast to the shape of temp *)
Definition arr_plus (a b : arrF) : res arrF :=
  b' <- fit (dim0 a) (dim1 a) b ;; Ok (mk2 (dim0 a) (dim1 a) (fun t c => kadd (get2 k0 a t c) (get2 k0 b' t c))).
Definition noise_infidelity_grad (r : reads) (target : option op) (cs : option (list nat)) (unit neglect : bool) : res arrF :=
  t <- effective_target r target cs unit neglect ;;
  gs <- mapM (fun i =>
          fs <- idx (r_nfwd r) i ;; ds <- idx (r_nder r) i ;; rs <- idx (r_nrev r) i ;;
          g <- derivative_entanglement_fidelity t fs ds rs cs false ;;
          g' <- match target, neglect with
                | Some _, false => Ok g
                | _, _ => l <- idx_last fs ;; t' <- trunc_opt l cs unit ;;
                          h <- derivative_entanglement_fidelity t' (r_fwd r) (r_der r) (r_rev r) cs false ;; arr_plus g h
                end ;;
          fit (r_steps r) (r_ctrls r) g') (seq 0 (r_traces r)) ;;
  Ok (mk2 (r_steps r) (r_ctrls r) (fun t c => mean (map (fun g => kopp (get2 k0 g t c)) gs))).

(** StateNoiseInfidelity l.1146-1172 *)
Definition state_noise_infidelity (r : reads) (target : op) (cs : option (list nat)) (rescale neglect : bool) : res F :=
  t <- (if neglect then l <- idx_last (r_fwd r) ;; p <- trunc_opt l cs rescale ;; Ok (op_dag p) else Ok (as_bra target)) ;;
  fs <- mapM (fun i => fs <- idx (r_nfwd r) i ;; l <- idx_last fs ;; f <- state_fidelity t l cs rescale ;; Ok (ksub k1 f))
             (seq 0 (r_traces r)) ;;
  Ok (mean fs).

(** the averaged super operator, l.1500-1509 and 1826-1836 *)
Definition average_super (nfwd : list (list op)) : res op :=
  tr0 <- idx nfwd 0 ;; f0 <- idx tr0 0 ;;
  let n := nr f0 in
  s <- foldM (fun A fs => l <- idx_last fs ;; op_iadd A (ODense (op_to_super l))) nfwd (mzero (n * n) (n * n)) ;;
  op_imul s (OScal (cofk (kdiv k1 (kofnat (length nfwd))))).
(** LiouvilleMonteCarloEntanglementInfidelity l.1498-1516 *)
Definition liouville_infidelity (r : reads) (target : op) (cs : option (list nat)) : res F :=
  p <- average_super (r_nfwd r) ;; f <- entanglement_fidelity_super target p cs ;; Ok (ksub k1 f).

(** LeakageError l.1659-1691; max(0, x) *)
Definition kmax (x y : F) : F := if kleb y x then x else y.
Definition leakage (r : reads) (cs : list nat) : res F :=
  l <- idx_last (r_fwd r) ;; c <- op_truncate la l (Some cs) false ;; x <- op_imul (op_dag c) (ODense c) ;;
  Ok (kmax k0 (ksub k1 (kdiv (cre (op_tr x)) (kofnat (nr c))))).
Definition leakage_grad (r : reads) (cs : list nat) : res arrF :=
  row0 <- idx (r_der r) 0 ;;
  l <- idx_last (r_fwd r) ;; ldag <- op_truncate la (op_dag l) (Some cs) false ;;
  fill_derivative (length row0) (length (r_der r)) (fun c t =>
    rv <- rev_at (r_rev r) t ;; row <- idx (r_der r) c ;; d <- idx row t ;; x <- np_matmul rv d ;; f <- idx (r_fwd r) t ;;
    y <- op_imul x (ODense f) ;; z <- op_truncate la y (Some cs) false ;; w <- op_imul z (ODense ldag) ;;
    Ok (kmul (kdiv (kopp two) (kofnat (nr ldag))) (cre (op_tr w)))).
(** IncoherentLeakageError l.1728-1747 *)
Definition incoherent_leakage (r : reads) (cs : list nat) : res F :=
  fs <- mapM (fun fs => l <- idx_last fs ;; c <- op_truncate la l (Some cs) false ;; x <- np_matmul (op_dag c) c ;;
                        Ok (ksub k1 (kdiv (cre (op_tr x)) (kofnat (length cs))))) (r_nfwd r) ;;
  Ok (mean fs).

(** LeakageLiouville l.1789-1865: the constructor's projectors; the result is an array with one entry *)
Definition leak_projectors (n : nat) (cs : list nat) : res (op * op) :=
  pl <- foldM (fun A s => set_entry A s s c0) cs (mid (S:=S) n) ;;
  pc <- op_isub (mid (S:=S) n) (ODense pl) ;;
  vl <- op_vec pl ;; vc <- op_vec pc ;;
  Ok (op_transpose vl, vc).
Definition average_op (nfwd : list (list op)) : res op :=
  tr0 <- idx nfwd 0 ;; f0 <- idx tr0 0 ;;
  let n := nr f0 in
  s <- foldM (fun A fs => l <- idx_last fs ;; op_iadd A (ODense l)) nfwd (mzero n n) ;;
  op_imul s (OScal (cofk (kdiv k1 (kofnat (length nfwd))))).
Definition leakage_liouville (r : reads) (dim : nat) (cs : list nat) (input_unitary monte_carlo : bool) : res F :=
  bk <- leak_projectors dim cs ;;
  p <- match input_unitary, monte_carlo with
       | true, true => average_super (r_nfwd r)
       | true, false => l <- idx_last (r_fwd r) ;; Ok (op_to_super l)
       | false, true => average_op (r_nfwd r)
       | false, false => idx_last (r_fwd r)
       end ;;
  x <- np_matmul (fst bk) p ;; y <- np_matmul x (snd bk) ;;
  z <- op_rmul y (OScal (cofk (kdiv k1 (kofnat (length cs))))) ;;
  Ok (cre (mg z 0 0)).

(** ---- averge_gate_fidelity l.1930-1996 ---- *)
Definition orthogonal_set (dim : nat) : res (list op) :=
  check Nat.eqb dim 2 else NotImplementedError ;;
  Ok [pauli_x F; pauli_z F; pauli_y F; mid (S:=S) 2].
Definition average_gate_fidelity (u target : op) : res C :=
  let dim := nr u in
  os <- orthogonal_set dim ;;
  temp <- np_matmul (op_dag u) target ;;
  ts <- mapM (fun o => a <- np_matmul (op_dag o) (op_dag temp) ;; b <- np_matmul a o ;; np_matmul b temp) os ;;
  t0 <- idx ts 0 ;;
  sum <- foldM (fun A i => t <- idx ts i ;; op_iadd A (ODense t)) (seq 1 (dim * dim - 1)) t0 ;;
  Ok (cdiv (cadd (op_tr sum) (cofk (kofnat (dim * dim)))) (cofk (kofnat (dim * dim * (dim + 1))))).

(** ---- angle_axis_representation l.162-219 ---- *)
(** the real functions it uses and the tolerances of np.isclose *)
Record RealFun := mkRF { rf_sqrt : F -> F; rf_arccos : F -> F; rf_pi : F; rf_atol : F; rf_rtol : F; rf_atol_sin : F; rf_atol_norm : F }.
(** np.isclose(z, b) for a real b >= 0: |z - b| <= atol + rtol |b| *)
Definition close (rf : RealFun) (atol : F) (z : C) (b : F) : bool :=
  kleb (cnorm2 (csub z (cofk b))) (kmul (kadd atol (kmul (rf_rtol rf) b)) (kadd atol (kmul (rf_rtol rf) b))).
(** l.202-219; a negative argument of the square root gives nan and fails the assertion *)
Definition angle_axis (rf : RealFun) (u : op) : res (F * list F) :=
  id <- np_matmul u (op_conj (op_transpose u)) ;;
  i00 <- get_entry id 0 0 ;; i10 <- get_entry id 1 0 ;; i01 <- get_entry id 0 1 ;;
  check close rf (rf_atol rf) i00 k1 && close rf (rf_atol rf) i10 k0 && close rf (rf_atol rf) i01 k0 && close rf (rf_atol rf) i00 k1 else ValueError ;;
  u00 <- get_entry u 0 0 ;; u01 <- get_entry u 0 1 ;; u10 <- get_entry u 1 0 ;; u11 <- get_entry u 1 1 ;;
  let half := kdiv k1 two in
  let cosa := cmul (cofk half) (cadd u00 u11) in
  let rad := ksub k1 (cnorm2 cosa) in
  check kleb k0 rad else AssertionError ;;
  let sin := rf_sqrt rf rad in
  (* np.isclose(0, sin, atol=1e-6) *)
  if kleb (kmul sin sin) (kmul (kadd (rf_atol_sin rf) (kmul (rf_rtol rf) sin)) (kadd (rf_atol_sin rf) (kmul (rf_rtol rf) sin))) then Ok (k0, [k1; k0; k0]) else
  let scl := cofk (kmul sin two) in
  let n1 := cdiv (cdiv (cadd u01 u10) ci) scl in
  let n2 := cdiv (csub u01 u10) scl in
  let n3 := cdiv (cdiv (csub u00 u11) ci) scl in
  let phase z := cdiv z (cofk (rf_sqrt rf (cnorm2 z))) in
  match (if negb (close rf (rf_atol rf) n1 k0) then Some (phase n1)
         else if negb (close rf (rf_atol rf) n2 k0) then Some (phase n2)
         else if negb (close rf (rf_atol rf) n3 k0) then Some (phase n3) else None) with
  | None => Ok (k0, [k1; k0; k0])
  | Some alpha =>
      let beta := kmul (rf_arccos rf (cre (cdiv cosa alpha))) two in
      let m1 := cdiv n1 alpha in let m2 := cdiv n2 alpha in let m3 := cdiv n3 alpha in
      check close rf (rf_atol_norm rf) (cofk (rf_sqrt rf (kadd (kadd (cnorm2 m1) (cnorm2 m2)) (cnorm2 m3)))) k1 else AssertionError ;;
      if kltb (rf_pi rf) beta then Ok (ksub (kmul two (rf_pi rf)) beta, [kopp (cre m1); kopp (cre m2); kopp (cre m3)])
      else Ok (beta, [cre m1; cre m2; cre m3])
  end.
End Cost.
Arguments kmax {F}. Arguments mean {F}. Arguments neg_arr {F}. Arguments fit {F}. Arguments arr_plus {F}. Arguments fill_derivative {F}. Arguments close {F}. Arguments angle_axis {F}.
