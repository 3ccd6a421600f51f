(** Model of the interface to the package filter_functions: qopt/solver_algorithms.py l.404-412 (the attribute
    pulse_sequence), 536-615 (create_ff_h_n, the derivatives of the noise coefficients), 666-749 (create_pulse_sequence),
    1451-1478 (the version of SchroedingerSMonteCarlo), and OperatorFilterFunctionInfidelity, qopt/cost_functions.py
    l.1526-1626.

    The package itself is the parameter [pkg].  Of its class PulseSequence only the attributes the code reads or writes are
    kept; its constructor stores what _parse_Hamiltonian returns for the two Hamiltonians, the durations and the basis.
    Simplifications: operators given as DenseOperator or as array are the same here; einsum and the sum with the drift
    are modelled for the shapes that the constructor of the solver accepts (square operators of one dimension); in place
    changes of the caller's array are not followed into the pulse sequence. *)
Require Import String Decimal DecimalString List Arith Bool.
From Verif Require Import LibBase LibRing LibArr LibCplx LibMat M_Matrix M_Transfer M_Amplitude M_Solver.
Import ListNotations.
Open Scope res_scope.
Set Implicit Arguments.

Section Model.
Variable F : OField.
Variable rexp : F -> F.
Variable la : LinAlg F.
Variable eps : cplx F.
Variable B : Type.    (** operator bases *)
Variable E : Type.    (** eigenvalues and eigenvectors *)
Notation arrF := (arr (kcar F)).
Notation op := (op F).
Notation S := (CStar F).
Notation st := (@st F).

(** one entry of a noise Hamiltonian: [operator, coefficients, identifier]; a list with another number of entries; an entry
    whose identifier is not a string *)
Inductive term := Term (o : op) (cs : list F) (id : string) | TLength | TName.
(** the argument filter_function_h_n: a list (None is replaced by an empty one, l.307-310) or a callable, which receives
    a list of arguments *)
Inductive noise_h := HList (l : list term) | HCall (f : list (option arrF) -> res (list term)).
(** filter_function_h_n, filter_function_basis, filter_function_n_coeffs_deriv, l.307-317 *)
Record ffconf := mkff { ff_h_n : noise_h; ff_basis : option B; ff_deriv : option (list (option arrF) -> res arrF) }.

(** filter_functions.pulse_sequence.PulseSequence: operators, identifiers and coefficients of the control and of the noise
    Hamiltonian, dt, basis, (eigenvalues and eigenvectors, propagators), total_propagator *)
Record pseq := mkps {
  p_copers : list op; p_cids : list string; p_ccoeffs : list (list F);
  p_nopers : list op; p_nids : list string; p_ncoeffs : list (list F);
  p_dt : list F; p_basis : option B; p_eig : option (E * list op); p_total : option op }.
(** the functions used of the package: pulse_sequence._parse_Hamiltonian, numeric.diagonalize, numeric.infidelity,
    gradient.infidelity_derivative, util.get_sample_frequencies *)
Record pkg := mkpkg {
  parse : list term -> nat -> res (list op * list string * list (list F));
  diagonalize : list op -> list F -> res (E * list op);
  infidelity : pseq -> arrF -> list F -> list string -> res arrF;
  infidelity_derivative : pseq -> arrF -> list F -> list string -> list string -> option arrF -> res arrF;
  sample_frequencies : pseq -> res (list F) }.
Variable P : pkg.

(** a solver with its attributes pulse_sequence and filter_function_n_oper_identifiers *)
Record fsol := mkfs { f_s : st; f_conf : ffconf; f_ps : option pseq; f_ids : list string }.
(** l.305, 312-314 *)
Definition new_fsol (s : st) (c : ffconf) : fsol := mkfs s c None [].
Definition set_s (f : fsol) (s : st) : fsol := mkfs s (f_conf f) (f_ps f) (f_ids f).
Definition set_ps (f : fsol) (p : option pseq) : fsol := mkfs (f_s f) (f_conf f) p (f_ids f).
Definition set_ids (f : fsol) (l : list string) : fsol := mkfs (f_s f) (f_conf f) (f_ps f) l.
Definition fm (A : Type) := fsol -> fsol * res A.
Definition fbind {A C} (m : fm A) (k : A -> fm C) : fm C := fun f => match m f with (f', Ok a) => k a f' | (f', Err e) => (f', Err e) end.
Definition fret {A} (r : res A) : fm A := fun f => (f, r).

(** a call of M_Solver.v: reset_cached_propagators (l.406-412) drops the pulse sequence.  set_optimization_parameters calls
    it if the parameters are new (l.876-877, 1163-1164, 1863-1865), set_times if the transfer function accepts the times
    (l.354-356). *)
Definition solver_call (o : @sop F) : fm (@sval F) := fun f =>
  match sstep rexp la eps (f_s f) o with
  | (s', r) =>
      let drop := match o with
                  | SSet y => negb (opt_equal (s_opt (f_s f)) y)
                  | STimes _ => match r with Ok _ => true | Err _ => false end
                  | _ => false
                  end in
      (mkfs s' (f_conf f) (if drop then None else f_ps f) (f_ids f), r)
  end.

(** 'Control' + str(i) and 'Noise' + str(i) *)
Definition numbered (s : string) (i : nat) : string := String.append s (NilZero.string_of_uint (Nat.to_uint i)).
(** the callable with three arguments; after a TypeError with the control amplitudes alone, l.575-584, 551-562 *)
Definition call_three {A} (h : list (option arrF) -> res A) (s : st) : res A :=
  match h [s_opt s; s_tpars s; s_amps s] with Err TypeError => h [s_amps s] | r => r end.
(** the identifiers are collected one by one, l.597-613 *)
Fixpoint collect (ids : list string) (l : list term) : list string * res unit :=
  match l with
  | [] => (ids, Ok tt)
  | Term _ _ i :: l' => collect (ids ++ [i]) l'
  | _ :: _ => (ids, Err ValueError)
  end.
(** Solver.create_ff_h_n, l.563-615 *)
Definition base_ff_h_n : fm (list term) := fun f =>
  match (l <- match ff_h_n (f_conf f) with HList l => Ok l | HCall h => call_three h (f_s f) end ;;
         match l with
         | [] => h0 <- idx (c_ctrl (s_conf (f_s f))) 0 ;; Ok [Term (mscale (S:=S) c0 h0) (s_time (f_s f)) "No Noise"%string]
         | _ => Ok l
         end) with
  | Err e => (f, Err e)
  | Ok l => let '(ids, r) := collect [] l in (set_ids f ids, _ <- r ;; Ok l)
  end.
(** SchroedingerSMonteCarlo.create_ff_h_n, l.1451-1478: the identifiers are not stored *)
Definition mc_ff_h_n (m : @mcconf F) : fm (list term) := fun f =>
  (f, l <- match ff_h_n (f_conf f) with HList l => Ok l | HCall h => h [s_opt (f_s f)] end ;;
      match l with
      | [] => Ok (map (fun p => Term (snd p) (repeat k1 (length (s_time (f_s f)))) (numbered "Noise" (fst p)))
                      (combine (seq 0 (length (mc_ops m))) (mc_ops m)))
      | _ => Ok l
      end).
Definition create_ff_h_n : fm (list term) := fun f =>
  match c_class (s_conf (f_s f)) with CMonteCarlo m => mc_ff_h_n m f | _ => base_ff_h_n f end.

(** _ctrl_amps.T and the control Hamiltonian, l.727-731 *)
Definition columns_of (u : arrF) : list (list F) := map (fun c => map (fun t => get2 k0 u t c) (seq 0 (dim0 u))) (seq 0 (dim1 u)).
Definition control_terms (hs : list op) (u : arrF) : list term :=
  map (fun p => Term (fst (snd p)) (snd (snd p)) (numbered "Control" (fst p))) (combine (seq 0 (length hs)) (combine hs (columns_of u))).
(** np.einsum('ijk,il->ljk', c_opers, c_coeffs), l.673 *)
Definition control_hams (os : list op) (cs : list (list F)) : res (list op) :=
  o0 <- idx os 0 ;; r0 <- idx cs 0 ;;
  check Nat.eqb (length os) (length cs) else ValueError ;;
  Ok (map (fun l => mk2 (nr o0) (nc o0) (fun j k => lsum (S:=S) (map (fun p => cmul (cofk (nth l (snd p) k0)) (mg (fst p) j k)) (combine os cs))))
          (seq 0 (length r0))).
(** drift_hamiltonian + control_hamiltonian with broadcasting along the time, l.672-675; without any drift operator the shapes
    do not fit *)
Definition total_hams (drift ctrl : list op) : res (list op) :=
  match drift with
  | [] => Err ValueError
  | _ =>
    n <- lab (length drift) (length ctrl) ;;
    Ok (map (fun t => madd (S:=S) (nth (bi (length drift) t) drift (Arr [] [])) (nth (bi (length ctrl) t) ctrl (Arr [] []))) (seq 0 n))
  end.
(** _diagonalize_and_propagate_pulse_sequence, l.666-677 *)
Definition diagonalize_ps : fm unit := fun f =>
  match f_ps f with
  | None => (f, Err AttributeError)
  | Some p =>
    match (c <- control_hams (p_copers p) (p_ccoeffs p) ;; h <- total_hams (s_drift (f_s f)) c ;; diagonalize P h (p_dt p)) with
    | Err e => (f, Err e)
    | Ok (e, us) =>
        let p' t := mkps (p_copers p) (p_cids p) (p_ccoeffs p) (p_nopers p) (p_nids p) (p_ncoeffs p) (p_dt p) (p_basis p) (Some (e, us)) t in
        match idx (rev us) 0 with
        | Err e => (set_ps f (Some (p' (p_total p))), Err e)
        | Ok u => (set_ps f (Some (p' (Some u))), Ok tt)
        end
    end
  end.
(** PulseSequence(h_c, h_n, dt, basis) *)
Definition new_pulse (hc hn : list term) (dt : list F) (b : option B) : res pseq :=
  c <- parse P hc (length dt) ;; n <- parse P hn (length dt) ;;
  Ok (mkps (fst (fst c)) (snd (fst c)) (snd c) (fst (fst n)) (snd (fst n)) (snd n) dt b None None).
(** the two branches of l.726-746; cleanup('all') drops the decomposition and the propagators *)
Definition build_pulse (u : arrF) (b : option B) : fm unit := fun f =>
  match f_ps f with
  | None =>
      fbind create_ff_h_n (fun hn f => match new_pulse (control_terms (c_ctrl (s_conf (f_s f))) u) hn (s_time (f_s f)) b with
        | Err e => (f, Err e) | Ok p => (set_ps f (Some p), Ok tt) end) f
  | Some p =>
      let p1 := mkps (p_copers p) (p_cids p) (columns_of u) (p_nopers p) (p_nids p) (p_ncoeffs p) (p_dt p) (p_basis p) None None in
      fbind create_ff_h_n (fun hn f => match parse P hn (length (s_time (f_s f))) with
        | Err e => (f, Err e)
        | Ok n => (set_ps f (Some (mkps (p_copers p1) (p_cids p1) (p_ccoeffs p1) (p_nopers p1) (p_nids p1) (snd n) (p_dt p1)
                                        (match b with Some _ => b | None => p_basis p1 end) None None)), Ok tt)
        end) (set_ps f (Some p1))
  end.
(** create_pulse_sequence(new_amps, ff_basis), l.679-749 *)
Definition create_pulse_sequence (y : option arrF) (b : option B) : fm pseq :=
  fbind (match y with
         | Some y => fbind (solver_call (SSet y)) (fun _ => fret (Ok tt))
         | None => fun f => (f, match s_amps (f_s f) with None => Err ValueError | Some _ => Ok tt end)
         end) (fun _ f =>
  match s_amps (f_s f) with
  | None => (f, Err AttributeError)
  | Some u =>
      fbind (build_pulse u (match b with Some _ => b | None => ff_basis (f_conf f) end)) (fun _ =>
      fbind diagonalize_ps (fun _ f => (f, match f_ps f with Some p => Ok p | None => Err AttributeError end))) f
  end).

(** ---- OperatorFilterFunctionInfidelity ---- *)
(** noise_power_spec_density and _omega, cost_functions.py l.1552-1562 *)
Record ffcost := mkfc { fc_density : list F -> res arrF; fc_omega : option (list F) }.
(** if self.solver.pulse_sequence is None: self.solver.create_pulse_sequence(), l.1566-1567, 1587-1588, 1609-1610 *)
Definition need_pulse : fm pseq := fun f =>
  match f_ps f with Some p => (f, Ok p) | None => create_pulse_sequence None None f end.
(** omega, l.1564-1574: the frequencies chosen by the package are kept in the cost function *)
Definition omega (c : ffcost) : fm (list F) :=
  match fc_omega c with
  | Some w => fret (Ok w)
  | None => fbind need_pulse (fun p => fret (sample_frequencies P p))
  end.
(** costs, l.1576-1596.  The cost function is returned with its frequencies. *)
Definition ff_costs (c : ffcost) : fm (ffcost * arrF) :=
  fbind need_pulse (fun p => fbind (omega c) (fun w => fun f =>
    (f, sp <- fc_density c w ;; x <- infidelity P p sp w (f_ids f) ;; Ok (mkfc (fc_density c) (Some w), x)))).
(** filter_function_n_coeffs_deriv_vals, solver_algorithms.py l.536-562 *)
Definition coeffs_deriv (f : fsol) : res (option arrF) :=
  match ff_deriv (f_conf f) with None => Ok None | Some h => d <- call_three h (f_s f) ;; Ok (Some d) end.
(** derivative.transpose(1, 0, 2) *)
Definition transpose102 (d : arrF) : res arrF :=
  check Nat.eqb (rank d) 3 else ValueError ;; Ok (mk3 (dim1 d) (dim0 d) (dim2 d) (fun t n c => get3 k0 d n t c)).
(** grad, l.1598-1626 *)
Definition ff_grad (c : ffcost) : fm (ffcost * arrF) :=
  fbind need_pulse (fun p => fbind (omega c) (fun w => fun f =>
    (f, sp <- fc_density c w ;; d <- coeffs_deriv f ;;
        x <- infidelity_derivative P p sp w (map (numbered "Control") (seq 0 (length (c_ctrl (s_conf (f_s f)))))) (f_ids f) d ;;
        g <- transpose102 x ;; Ok (mkfc (fc_density c) (Some w), g)))).

(** ---- clients ---- *)
Inductive fop := FSolver (o : @sop F) | FCreate (y : option arrF) (b : option B) | FCosts (c : ffcost) | FGrad (c : ffcost).
Definition fstep (f : fsol) (o : fop) : fsol * res unit :=
  match o with
  | FSolver o => fbind (solver_call o) (fun _ => fret (Ok tt)) f
  | FCreate y b => fbind (create_pulse_sequence y b) (fun _ => fret (Ok tt)) f
  | FCosts c => fbind (ff_costs c) (fun _ => fret (Ok tt)) f
  | FGrad c => fbind (ff_grad c) (fun _ => fret (Ok tt)) f
  end.
Definition frun (f : fsol) (l : list fop) : fsol := fold_left (fun f o => fst (fstep f o)) l f.
End Model.
Arguments FSolver {F B}. Arguments FCreate {F B}. Arguments FCosts {F B}. Arguments FGrad {F B}. Arguments new_fsol {F B E}.
Arguments TLength {F}. Arguments TName {F}. Arguments HList {F}. Arguments HCall {F}. Arguments Term {F}.
Arguments columns_of {F}. Arguments transpose102 {F}.
