(** Model of qopt/solver_algorithms.py: the classes Solver (l.82-779), SchroedingerSolver (l.782-980),
    SchroedingerSMonteCarlo (l.1015-1478), SchroedingerSMCControlNoise (l.1481-1569) and LindbladSolver
    (l.1572-2105) as one object with mutable parameters and caches.  A method returns the new state of
    the object and its value or exception; attributes that were assigned before an exception keep their
    new values, as in python.

    Simplifications: numbers are exact; all operators are DenseOperators; the filter function
    parts (create_pulse_sequence, create_ff_h_n, l.536-615, 666-749, 1451-1478) are in M_FilterFn, the plot
    (plot_bloch_sphere, l.751-779) is not modelled; the noise trace generator always returns the same samples (see M_Noise for the generators);
    amplitude arrays passed to the constructor have rank two; the user supplied callables are functions;
    paranoia_level is 2 (the subclasses do not pass another value).  Sharing of operators with the caller
    is modelled for the initial dissipation super operators, the only ones the solver writes to (see
    M_SolverHeap for the others); sharing of the parameter array with the caller is modelled by the flags
    [talias] and [ualias]. *)
Require Import List Arith Lia Bool.
From Verif Require Import LibBase LibRing LibArr LibCplx LibMat M_Matrix M_OpHeap M_Transfer M_Amplitude.
Import ListNotations.
Open Scope res_scope.
Set Implicit Arguments.

(** for x in l: acc = f(acc, x), stopping at the first exception; returns what was computed so far *)
Fixpoint foldE {A B} (f : A -> B -> res A) (l : list B) (a : A) : A * option exn :=
  match l with
  | [] => (a, None)
  | x :: l' => match f a x with Err e => (a, Some e) | Ok a' => foldE f l' a' end
  end.
(** r = [None] * n; for i in range(start, start + n): r[i] = f(i) *)
Fixpoint fill {A} (f : nat -> res A) (start n : nat) : list (option A) * option exn :=
  match n with
  | 0 => ([], None)
  | S n' => match f start with
            | Err e => (repeat None n, Some e)
            | Ok a => let '(l, e) := fill f (S start) n' in (Some a :: l, e)
            end
  end.
(** the same with two nested loops *)
Fixpoint fill2 {A} (f : nat -> nat -> res A) (start n m : nat) : list (list (option A)) * option exn :=
  match n with
  | 0 => ([], None)
  | S n' => match fill (f start) 0 m with
            | (row, Some e) => (row :: repeat (repeat None m) n', Some e)
            | (row, None) => let '(l, e) := fill2 f (S start) n' m in (row :: l, e)
            end
  end.
Fixpoint fill3 {A} (f : nat -> nat -> nat -> res A) (start n m p : nat) : list (list (list (option A))) * option exn :=
  match n with
  | 0 => ([], None)
  | S n' => match fill2 (f start) 0 m p with
            | (row, Some e) => (row :: repeat (repeat (repeat None p) m) n', Some e)
            | (row, None) => let '(l, e) := fill3 f (S start) n' m p in (row :: l, e)
            end
  end.
(** l[i] *)
Definition idx {A} (l : list A) (i : nat) : res A :=
  match nth_error l i with Some x => Ok x | None => Err IndexError end.
(** what [p, d = f(...)] leaves in p after a (possibly interrupted) loop over one row *)
Definition last_fst {A B} (row : list (option (A * B))) : option A :=
  fold_left (fun acc x => match x with Some (p, _) => Some p | None => acc end) row None.
(** rows [t][c] to columns [c][t] of the second components *)
Definition columns {A B} (m : nat) (rows : list (list (option (A * B)))) : list (list (option B)) :=
  map (fun c => map (fun row => option_map snd (nth c row None)) rows) (seq 0 m).

Section Model.
Variable F : OField.
Variable rexp : F -> F.        (** np.exp, used by the transfer functions *)
Variable la : LinAlg F.        (** the linear algebra library, see M_Matrix *)
Variable eps : cplx F.         (** the default step of the 'approx' derivative, argument epsilon of matrix.py dexp *)
Notation C := (cplx F).
Notation S := (CStar F).
Notation arrF := (arr (kcar F)).
Notation op := (op F).

(** the argument frechet_deriv_approx_method, l.870, 963-980: None, 'grape' or another string *)
Inductive gapprox := GNone | GGrape | GUnknown.
(** the argument processes of the Monte Carlo solver, l.1337, 1358: 1; a larger int or None; anything else *)
Inductive procs := PSeq | PPool | PInvalid.

(** how the noise amplitudes are computed from the samples, l.1278-1284: not at all, by a user function
    of (samples, optimisation parameters, transferred parameters, control amplitudes), or by the function
    of SchroedingerSMCControlNoise l.1517-1548 *)
Inductive namp :=
| NNone
| NUser (f : arrF -> option arrF -> option arrF -> option arrF -> res arrF)
| NControl.

(** constructor arguments of SchroedingerSMonteCarlo, l.1111-1159: noise operators, n_traces and
    noise_samples (shape: operators, traces, time) of the noise trace generator *)
Record mcconf := mkmc { mc_ops : list op; mc_traces : nat; mc_samples : arrF; mc_ampf : namp; mc_procs : procs }.
(** constructor arguments of LindbladSolver, l.1802-1846; the functions receive the control amplitudes and
    the transferred parameters *)
Record liconf := mkli {
  li_ops : option (list op);
  li_pref : option (arrF -> option arrF -> res arrF);
  li_pref_d : option (arrF -> option arrF -> res arrF);
  li_func : option (arrF -> option arrF -> res (list op));
  li_func_d : option (arrF -> option arrF -> res (list (list op))) }.
Inductive sclass := CSchroedinger | CMonteCarlo (m : mcconf) | CLindblad (l : liconf).

(** attributes that do not change after construction *)
Record sconf := mkconf {
  c_class : sclass; c_ctrl : list op; c_init : op; c_meth : emethod; c_skew : bool;
  c_calc : bool; c_approx : gapprox; c_amp : amp F }.

(** the caches: _dyn_gen, _prop, _fwd_prop, _reversed_prop, _derivative_prop, l.300-303, 872; a cell of
    _prop that has not been assigned yet is None *)
Record caches := mkk {
  k_dyn : option (list op); k_prop : option (list (option op)); k_fwd : option (list op);
  k_rev : option (list op); k_der : option (list (list (option op))) }.
(** the caches for the noise traces, l.1170-1174 *)
Record ncaches := mkn_ {
  n_dyn : option (list (list op)); n_prop : option (list (list (option op))); n_fwd : option (list (list op));
  n_rev : option (list (list op)); n_der : option (list (list (list (option op)))) }.
(** _diss_sup_op and _diss_sup_op_deriv, l.1836-1837 *)
Record lcaches := mkl { l_diss : option (list op); l_ddiss : option (list (list op)) }.

Record st := mkst {
  s_conf : sconf;
  s_drift : list op;                (* h_drift *)
  s_tf : tf F;                      (* transfer_function *)
  s_time : list F;                  (* transferred_time *)
  s_opt : option arrF;              (* _opt_pars *)
  s_tpars : option arrF;            (* transferred_parameters *)
  s_amps : option arrF;             (* _ctrl_amps *)
  s_talias : bool;                  (* transferred_parameters is the array the caller passed last *)
  s_ualias : bool;                  (* _ctrl_amps is the array the caller passed last *)
  s_k : caches; s_n : ncaches; s_l : lcaches;
  s_udiss : option (list op)        (* the caller's list initial_diss_super_op *)
}.

Definition k_none : caches := mkk None None None None None.
Definition n_none : ncaches := mkn_ None None None None None.
Definition set_k (s : st) (k : caches) : st :=
  mkst (s_conf s) (s_drift s) (s_tf s) (s_time s) (s_opt s) (s_tpars s) (s_amps s) (s_talias s) (s_ualias s) k (s_n s) (s_l s) (s_udiss s).
Definition set_n (s : st) (n : ncaches) : st :=
  mkst (s_conf s) (s_drift s) (s_tf s) (s_time s) (s_opt s) (s_tpars s) (s_amps s) (s_talias s) (s_ualias s) (s_k s) n (s_l s) (s_udiss s).
Definition set_l (s : st) (l : lcaches) : st :=
  mkst (s_conf s) (s_drift s) (s_tf s) (s_time s) (s_opt s) (s_tpars s) (s_amps s) (s_talias s) (s_ualias s) (s_k s) (s_n s) l (s_udiss s).
Definition set_udiss (s : st) (u : option (list op)) : st :=
  mkst (s_conf s) (s_drift s) (s_tf s) (s_time s) (s_opt s) (s_tpars s) (s_amps s) (s_talias s) (s_ualias s) (s_k s) (s_n s) (s_l s) u.
Definition set_tf (s : st) (t : tf F) : st :=
  mkst (s_conf s) (s_drift s) t (s_time s) (s_opt s) (s_tpars s) (s_amps s) (s_talias s) (s_ualias s) (s_k s) (s_n s) (s_l s) (s_udiss s).
Definition set_time (s : st) (xs : list F) : st :=
  mkst (s_conf s) (s_drift s) (s_tf s) xs (s_opt s) (s_tpars s) (s_amps s) (s_talias s) (s_ualias s) (s_k s) (s_n s) (s_l s) (s_udiss s).
Definition set_opt (s : st) (y : option arrF) : st :=
  mkst (s_conf s) (s_drift s) (s_tf s) (s_time s) y (s_tpars s) (s_amps s) (s_talias s) (s_ualias s) (s_k s) (s_n s) (s_l s) (s_udiss s).
Definition set_tpars (s : st) (x : option arrF) (alias : bool) : st :=
  mkst (s_conf s) (s_drift s) (s_tf s) (s_time s) (s_opt s) x (s_amps s) alias (s_ualias s) (s_k s) (s_n s) (s_l s) (s_udiss s).
Definition set_amps (s : st) (u : option arrF) (alias : bool) : st :=
  mkst (s_conf s) (s_drift s) (s_tf s) (s_time s) (s_opt s) (s_tpars s) u (s_talias s) alias (s_k s) (s_n s) (s_l s) (s_udiss s).
Definition set_dyn (s : st) (g : option (list op)) : st :=
  set_k s (mkk g (k_prop (s_k s)) (k_fwd (s_k s)) (k_rev (s_k s)) (k_der (s_k s))).
Definition set_prop (s : st) (p : option (list (option op))) : st :=
  set_k s (mkk (k_dyn (s_k s)) p (k_fwd (s_k s)) (k_rev (s_k s)) (k_der (s_k s))).
Definition set_fwd (s : st) (p : option (list op)) : st :=
  set_k s (mkk (k_dyn (s_k s)) (k_prop (s_k s)) p (k_rev (s_k s)) (k_der (s_k s))).
Definition set_rev (s : st) (p : option (list op)) : st :=
  set_k s (mkk (k_dyn (s_k s)) (k_prop (s_k s)) (k_fwd (s_k s)) p (k_der (s_k s))).
Definition set_der (s : st) (d : option (list (list (option op)))) : st :=
  set_k s (mkk (k_dyn (s_k s)) (k_prop (s_k s)) (k_fwd (s_k s)) (k_rev (s_k s)) d).
Definition nset_dyn (s : st) g := set_n s (mkn_ g (n_prop (s_n s)) (n_fwd (s_n s)) (n_rev (s_n s)) (n_der (s_n s))).
Definition nset_prop (s : st) p := set_n s (mkn_ (n_dyn (s_n s)) p (n_fwd (s_n s)) (n_rev (s_n s)) (n_der (s_n s))).
Definition nset_fwd (s : st) p := set_n s (mkn_ (n_dyn (s_n s)) (n_prop (s_n s)) p (n_rev (s_n s)) (n_der (s_n s))).
Definition nset_rev (s : st) p := set_n s (mkn_ (n_dyn (s_n s)) (n_prop (s_n s)) (n_fwd (s_n s)) p (n_der (s_n s))).
Definition nset_der (s : st) d := set_n s (mkn_ (n_dyn (s_n s)) (n_prop (s_n s)) (n_fwd (s_n s)) (n_rev (s_n s)) d).

(** a method: state to new state and value or exception *)
Definition sm (A : Type) := st -> st * res A.
Definition seqm {A B} (m : sm A) (k : A -> sm B) : sm B :=
  fun s => match m s with (s', Ok a) => k a s' | (s', Err e) => (s', Err e) end.
Definition lift {A} (r : res A) : sm A := fun s => (s, r).
Definition of_exn (e : option exn) : res unit := match e with None => Ok tt | Some e => Err e end.

(** reset_cached_propagators: l.406-412, 880-883, 1167-1174, 1867-1873 *)
Definition reset_cached (s : st) : st :=
  match c_class (s_conf s) with
  | CSchroedinger => set_k s k_none
  | CMonteCarlo _ => set_n (set_k s k_none) n_none
  | CLindblad l =>
      let s1 := set_k s k_none in
      match li_pref l, li_func l with None, None => s1 | _, _ => set_l s1 (mkl None None) end
  end.

(** np.array_equal *)
Definition array_equal (a b : arrF) : bool :=
  (if list_eq_dec Nat.eq_dec (shape a) (shape b) then true else false) &&
  Nat.eqb (length (data a)) (length (data b)) && forallb (fun p => keqb (fst p) (snd p)) (combine (data a) (data b)).
(** np.array_equal(self._opt_pars, y); comparing None with an array of numbers is False *)
Definition opt_equal (o : option arrF) (y : arrF) : bool :=
  match o with None => false | Some z => array_equal z y end.

Definition is_identity_tf (t : tf F) : bool := match t with Leaf KId _ => true | _ => false end.
Definition is_identity_amp (a : amp F) : bool := match a with AIdentity => true | _ => false end.

(** Solver.set_optimization_parameters, l.358-404 *)
Definition base_set_pars (y : arrF) : sm unit := fun s =>
  if opt_equal (s_opt s) y then (s, Ok tt) else
  let s1 := set_opt s (Some y) in
  let '(t', r) := call rexp (s_tf s1) y in
  let s2 := set_tf s1 t' in
  match r with
  | Err e => (s2, Err e)
  | Ok x =>
    let s3 := set_tpars s2 (Some x) (is_identity_tf t') in
    match amp_call (c_amp (s_conf s)) x with
    | Err e => (s3, Err e)
    | Ok u =>
      if negb (Nat.eqb (rank u) 2) then (s3, Err ValueError) else
      if negb (Nat.eqb (dim0 u) (length (s_time s))) then (s3, Err ValueError) else
      if negb (Nat.eqb (dim1 u) (length (c_ctrl (s_conf s)))) then (s3, Err ValueError) else
      (reset_cached (set_amps s3 (Some u) (is_identity_tf t' && is_identity_amp (c_amp (s_conf s)))), Ok tt)
    end
  end.

(** set_optimization_parameters of the subclasses: l.874-878 (SchroedingerSolver), l.1161-1165
    (SchroedingerSMonteCarlo, which calls the former), l.1861-1865 (LindbladSolver, likewise) *)
Definition schr_set_pars (y : arrF) : sm unit := fun s =>
  base_set_pars y (if opt_equal (s_opt s) y then s else reset_cached s).
Definition set_pars (y : arrF) : sm unit := fun s =>
  match c_class (s_conf s) with
  | CSchroedinger => schr_set_pars y s
  | CMonteCarlo _ => schr_set_pars y (if opt_equal (s_opt s) y then s else reset_cached s)
  | CLindblad _ =>
      if opt_equal (s_opt s) y then (s, Ok tt) else
      match schr_set_pars y s with
      | (s', Ok _) => (reset_cached s', Ok tt)
      | (s', Err e) => (s', Err e)
      end
  end.

(** Solver.set_times, l.345-356.  h_drift is not adapted to a new number of time steps. *)
Definition solver_set_times (tau : list F) : sm unit := fun s =>
  let '(t', r) := set_times (s_tf s) tau in
  match r with
  | Err e => (set_tf s t', Err e)
  | Ok _ =>
      match b_xt (tbase t') with
      | Some xs => (reset_cached (set_time (set_tf s t') xs), Ok tt)
      | None => (set_tf s t', Err TypeError)    (* len(None) in consistency_checks; not reachable after a successful set_times *)
      end
  end.

(** -1j * h *)
Definition neg_i (h : op) : op := mscale (S:=S) (copp ci) h.
(** -1j * ctrl_amp * ctrl_op *)
Definition ctrl_term (a : F) (h : op) : op := mscale (S:=S) (cmul (copp ci) (cofk a)) h.
(** for dyn_gen, ctrl_amp in zip(self._dyn_gen, self._ctrl_amps[:, ctrl]): dyn_gen += ..., l.897-899 *)
Fixpoint add_ctrl (gens : list op) (amps : arrF) (c t : nat) (h : op) : list op :=
  match gens with
  | [] => []
  | g :: gens' =>
      (if Nat.ltb t (dim0 amps) then madd (S:=S) g (ctrl_term (get2 k0 amps t c) h) else g)
      :: add_ctrl gens' amps c (Datatypes.S t) h
  end.
Definition add_ctrl_step (amps : option arrF) (gens : list op) (ch : nat * op) : res (list op) :=
  match amps with
  | None => Err TypeError
  | Some u =>
      check Nat.ltb (fst ch) (dim1 u) else IndexError ;; Ok (add_ctrl gens u (fst ch) 0 (snd ch))
  end.
(** SchroedingerSolver._compute_dyn_gen, l.885-900.  self._dyn_gen is assigned first and updated in
    place, so after an exception it holds the terms added so far.  The constructor checks that all
    operators have the same square shape (l.447-463), hence there is no broadcasting. *)
Definition schr_dyn (s : st) : list op * option exn :=
  foldE (add_ctrl_step (s_amps s)) (combine (seq 0 (length (c_ctrl (s_conf s)))) (c_ctrl (s_conf s)))
    (map neg_i (s_drift s)).

(** D(L) = L^* (x) L - .5 I (x) L^+ L - .5 L^T L^* (x) I, l.1898-1905 *)
Definition half_op (A : op) : op := mscale (S:=S) (chalf F) A.
Definition dissipator (ident L : op) : res op :=
  d0 <- op_kron (op_conj L) (ODense L) ;;
  a <- op_mul (op_dag L) (ODense L) ;;
  a' <- op_kron ident (ODense a) ;;
  d1 <- op_isub d0 (ODense (half_op a')) ;;
  b <- op_mul (op_transpose L) (ODense (op_conj L)) ;;
  b' <- op_kron b (ODense ident) ;;
  op_isub d1 (ODense (half_op b')).
Definition const_diss (l : liconf) (udiss : option (list op)) : res (option (list op)) :=
  match li_ops l with
  | None => Ok udiss
  | Some ls => L0 <- idx ls 0 ;; ident <- op_identity_like L0 ;; ds <- mapM (dissipator ident) ls ;; Ok (Some ds)
  end.

(** sum over the operators weighted with one row of factors: const[0] * factor[0], then += (the result
    so far is kept if an addition raises) *)
Definition weighted (const : list op) (fs : list F) : res op :=
  c0 <- idx const 0 ;; f0 <- idx fs 0 ;;
  foldM (fun acc (p : op * F) => op_iadd acc (ODense (mscale (S:=S) (cofk (snd p)) (fst p))))
    (combine (tl const) (tl fs)) (mscale (S:=S) (cofk f0) c0).
Definition row2 (a : arrF) (t : nat) : list F := map (fun j => get2 k0 a t j) (seq 0 (dim1 a)).
Definition row3 (a : arrF) (t c : nat) : list F := map (fun j => get3 k0 a t c j) (seq 0 (dim2 a)).

(** LindbladSolver._calc_diss_sup_op, l.1875-1929.  Without a prefactor function the operators are summed
    in place into the first one (l.1921-1923): if they are the caller's initial dissipation super
    operators, the caller's first operator is overwritten. *)
Definition calc_diss (l : liconf) : sm (list op) := fun s =>
  match li_func l with
  | Some f =>
      match s_amps s with
      | None => (s, Err TypeError)
      | Some u => match f u (s_tpars s) with
                  | Err e => (s, Err e)
                  | Ok ds => (set_l s (mkl (Some ds) (l_ddiss (s_l s))), Ok ds)
                  end
      end
  | None =>
      match const_diss l (s_udiss s) with
      | Err e => (s, Err e)
      | Ok None => (s, Err TypeError)
      | Ok (Some const) =>
          match li_pref l with
          | Some f =>
              match s_amps s with
              | None => (s, Err TypeError)
              | Some u =>
                  match f u (s_tpars s) with
                  | Err e => (set_l s (mkl (Some []) (l_ddiss (s_l s))), Err e)
                  | Ok p =>
                      let '(ds, e) := foldE (fun acc t => d <- weighted const (row2 p t) ;; Ok (acc ++ [d])) (seq 0 (dim0 p)) [] in
                      (set_l s (mkl (Some ds) (l_ddiss (s_l s))), match e with None => Ok ds | Some e => Err e end)
                  end
              end
          | None =>
              match const with
              | [] => (s, Err IndexError)
              | c0 :: rest =>
                  let '(d, e) := foldE (fun acc o => op_iadd acc (ODense o)) rest c0 in
                  let s1 := match li_ops l with None => set_udiss s (Some (d :: rest)) | Some _ => s end in
                  match e with
                  | Some e => (set_l s1 (mkl (Some [d]) (l_ddiss (s_l s1))), Err e)
                  | None => let ds := repeat d (length (s_time s)) in
                            (set_l s1 (mkl (Some ds) (l_ddiss (s_l s1))), Ok ds)
                  end
              end
          end
      end
  end.

(** identity.kron(dyn_gen) + dyn_gen.conj().kron(identity) + diss_sup_op, l.2096-2102 *)
Definition lind_gen (ident g d : op) : res op :=
  a <- op_kron ident (ODense g) ;;
  b <- op_kron (op_conj g) (ODense ident) ;;
  ab <- op_iadd a (ODense b) ;;
  op_iadd ab (ODense d).

(** _compute_dyn_gen: l.885-900; LindbladSolver l.2062-2105 (the Hilbert space generators are stored in
    self._dyn_gen first and replaced at the end) *)
Definition compute_dyn_gen : sm unit := fun s =>
  let '(g, e) := schr_dyn s in
  let s1 := set_dyn s (Some g) in
  match e with
  | Some e => (s1, Err e)
  | None =>
    match c_class (s_conf s) with
    | CLindblad l =>
        match (match l_diss (s_l s1) with Some d => (s1, Ok d) | None => calc_diss l s1 end) with
        | (s2, Err e) => (s2, Err e)
        | (s2, Ok ds) =>
            match (g0 <- idx g 0 ;; ident <- op_identity_like g0 ;;
                   check Nat.eqb (length g) (length ds) else AssertionError ;;
                   mapM (fun p => lind_gen ident (fst p) (snd p)) (combine g ds)) with
            | Err e => (s2, Err e)
            | Ok sg => (set_dyn s2 (Some sg), Ok tt)
            end
        end
    | _ => (s1, Ok tt)
    end
  end.

(** LindbladSolver._calc_diss_sup_op_deriv, l.1931-2012: None if no derivative function is given *)
Definition calc_diss_deriv (l : liconf) (s : st) : res (option (list (list op))) :=
  match s_amps s with
  | None => Err TypeError
  | Some u =>
    match li_func_d l, li_pref_d l with
    | Some f, _ => d <- f u (s_tpars s) ;; Ok (Some d)
    | None, Some f =>
        const <- const_diss l (s_udiss s) ;;
        p <- f u (s_tpars s) ;;
        match const with
        | None => Err TypeError
        | Some const =>
            d <- mapM (fun t => mapM (fun c => weighted const (row3 p t c)) (seq 0 (dim1 p))) (seq 0 (dim0 p)) ;;
            Ok (Some d)
        end
    | None, None => Ok None
    end
  end.
(** -1j I (x) H_k - H_k^T (x) -1j I, l.2031-2037 *)
Definition lind_dir (ident_i h : op) : res op :=
  a <- op_kron ident_i (ODense h) ;;
  b <- op_kron (op_transpose h) (ODense ident_i) ;;
  op_isub a (ODense b).
(** _compute_derivative_directions [t][ctrl]: l.902-913; LindbladSolver l.2014-2052 *)
Definition directions : sm (list (list op)) := fun s =>
  match c_class (s_conf s) with
  | CLindblad l =>
      match (h0 <- idx (c_ctrl (s_conf s)) 0 ;; ident <- op_identity_like h0 ;;
             mapM (lind_dir (neg_i ident)) (c_ctrl (s_conf s))) with
      | Err e => (s, Err e)
      | Ok hs =>
          match (match l_ddiss (s_l s) with Some d => Ok (Some d) | None => calc_diss_deriv l s end) with
          | Err e => (s, Err e)
          | Ok None => (s, Ok (repeat hs (length (s_time s))))
          | Ok (Some dd) =>
              let s1 := set_l s (mkl (l_diss (s_l s)) (Some dd)) in
              (s1, mapM (fun row => mapM (fun p => op_add (fst p) (ODense (snd p))) (combine row hs)) dd)
          end
      end
  | _ => (s, Ok (repeat (map neg_i (c_ctrl (s_conf s))) (length (s_time s))))
  end.

(** self._dyn_gen[t].exp(tau=self.transferred_time[t], ...) *)
Definition exp_at (s : st) (gens : list op) (t : nat) : res op :=
  g <- idx gens t ;; tau <- idx (s_time s) t ;;
  op_exp la g (cofk tau) (c_meth (s_conf s)) (c_skew (s_conf s)).
(** self._dyn_gen[t].dexp(derivative_directions[t][ctrl], self.transferred_time[t], compute_expm=True, ...) *)
Definition dexp_at (s : st) (gens : list op) (dirs : list (list op)) (t c : nat) : res (op * op) :=
  g <- idx gens t ;; row <- idx dirs t ;; d <- idx row c ;; tau <- idx (s_time s) t ;;
  op_dexp la g d (cofk tau) (c_meth (s_conf s)) (c_skew (s_conf s)) eps.

Definition calc_flag (s : st) (calc : option bool) : bool :=
  match calc with Some b => b | None => c_calc (s_conf s) end.

(** SchroedingerSolver._compute_propagation, l.915-953 (with Solver._compute_propagation l.617-630) *)
Definition schr_propagation (calc : option bool) : sm unit := fun s =>
  match s_amps s with
  | None => (s, Err ValueError)
  | Some _ =>
    match (match k_dyn (s_k s) with Some _ => (s, Ok tt) | None => compute_dyn_gen s end) with
    | (s1, Err e) => (s1, Err e)
    | (s1, Ok _) =>
      let gens := match k_dyn (s_k s1) with Some g => g | None => [] end in
      let n := length (s_time s1) in
      let m := length (c_ctrl (s_conf s1)) in
      let s2 := set_prop s1 (Some (repeat None n)) in
      if calc_flag s calc then
        match directions s2 with
        | (s3, Err e) => (s3, Err e)
        | (s3, Ok dirs) =>
            let '(rows, e) := fill2 (dexp_at s3 gens dirs) 0 n m in
            (set_der (set_prop s3 (Some (map last_fst rows))) (Some (columns m rows)), of_exn e)
        end
      else
        let '(ps, e) := fill (exp_at s2 gens) 0 n in
        (set_prop s2 (Some ps), of_exn e)
    end
  end.

(** ---- Monte Carlo ---- *)
(** noise_amplitude_function of SchroedingerSMCControlNoise, l.1517-1548; samples have shape (time, traces,
    operators).  transferred_parameters + samples[:, k, :] and the subtraction broadcast. *)
Definition add_bcast (a b : arrF) (f : F -> F -> F) : res arrF :=
  check Nat.eqb (rank a) 2 && Nat.eqb (rank b) 2 else ValueError ;;
  m <- lab (dim0 a) (dim0 b) ;; n <- lab (dim1 a) (dim1 b) ;;
  Ok (mk2 m n (fun i j => f (get2 k0 a (bi (dim0 a) i) (bi (dim1 a) j)) (get2 k0 b (bi (dim0 b) i) (bi (dim1 b) j)))).
Definition control_noise (a : amp F) (smp : arrF) (tpars amps : option arrF) : res arrF :=
  match tpars, amps with
  | Some x, Some u =>
      rows <- mapM (fun k =>
        xk <- add_bcast x (mk2 (dim0 smp) (dim2 smp) (fun t o => get3 k0 smp t k o)) kadd ;;
        uk <- amp_call a xk ;;
        dk <- add_bcast uk u ksub ;;
        (* assignment to noise_amplitudes[:, k, :] of shape (time, controls) *)
        check (Nat.eqb (dim0 dk) (dim0 smp) || Nat.eqb (dim0 dk) 1) && (Nat.eqb (dim1 dk) (dim1 u) || Nat.eqb (dim1 dk) 1) else ValueError ;;
        Ok dk) (seq 0 (dim1 smp)) ;;
      Ok (mk3 (dim0 smp) (dim1 smp) (dim1 u) (fun t k c =>
            let d := nth k rows (Arr [] []) in get2 k0 d (bi (dim0 d) t) (bi (dim1 d) c)))
  | _, None => Err AttributeError
  | None, _ => Err TypeError
  end.
(** l.1274-1284: transpose (2, 1, 0), then the noise amplitude function *)
Definition noise_array (m : mcconf) (s : st) : res arrF :=
  let smp := mk3 (dim2 (mc_samples m)) (dim1 (mc_samples m)) (dim0 (mc_samples m))
               (fun t k o => get3 k0 (mc_samples m) o k t) in
  match mc_ampf m with
  | NNone => Ok smp
  | NUser f => f smp (s_opt s) (s_tpars s) (s_amps s)
  | NControl => control_noise (c_amp (s_conf s)) smp (s_tpars s) (s_amps s)
  end.
(** self._dyn_gen_noise[n_trace][t] += (-1j * operator_sample) * operator *)
Definition add_noise (arr : arrF) (ops : list op) (g : list (list op)) (p : nat * nat * nat) : res (list (list op)) :=
  let '(t, k, o) := p in
  row <- idx g k ;; A <- idx row t ;; h <- idx ops o ;;
  A' <- op_iadd A (ODense (ctrl_term (get3 k0 arr t k o) h)) ;;
  Ok (lset g k (lset row t A')).
Definition noise_triples (T K O : nat) : list (nat * nat * nat) :=
  flat_map (fun t => flat_map (fun k => map (fun o => (t, k, o)) (seq 0 O)) (seq 0 K)) (seq 0 T).
(** _compute_dyn_gen_noise, l.1256-1294 *)
Definition dyn_gen_noise (m : mcconf) : sm unit := fun s =>
  let '(g, e) := schr_dyn s in
  let s1 := set_dyn s (Some g) in
  match e with
  | Some e => (s1, Err e)
  | None =>
    match noise_array m s1 with
    | Err e => (s1, Err e)
    | Ok arr =>
        let '(ng, e) := foldE (add_noise arr (mc_ops m))
                          (noise_triples (dim0 arr) (dim1 arr) (Nat.min (dim2 arr) (length (mc_ops m))))
                          (repeat g (mc_traces m)) in
        (nset_dyn s1 (Some ng), of_exn e)
    end
  end.

(** _compute_matrix_exponentials, l.983-1012: the work of one pool process *)
Definition matrix_exponentials (s : st) (gens : list op) : res (list (option op)) :=
  let n := length (s_time s) in
  es <- mapM (fun i => exp_at s gens i) (seq 0 (Nat.min (length gens) n)) ;;
  Ok (map Some es ++ repeat None (n - length gens)).

(** SchroedingerSMonteCarlo._compute_propagation, l.1296-1379.  Pool.map returns the results in the order
    of the inputs (see P_Pool for the scheduling) or raises the exception of a worker. *)
Definition mc_propagation (m : mcconf) (calc : option bool) : sm unit := fun s =>
  match (match n_dyn (s_n s) with Some _ => (s, Ok tt) | None => dyn_gen_noise m s end) with
  | (s1, Err e) => (s1, Err e)
  | (s1, Ok _) =>
    let ngens := match n_dyn (s_n s1) with Some g => g | None => [] end in
    let n := length (s_time s1) in
    let nc := length (c_ctrl (s_conf s1)) in
    let s2 := nset_prop s1 (Some (repeat (repeat None n) (mc_traces m))) in
    let flag := calc_flag s calc in
    let s3 := if flag then nset_der s2 (Some (repeat (repeat (repeat None n) nc) (mc_traces m))) else s2 in
    match schr_propagation (Some flag) s3 with
    | (s4, Err e) => (s4, Err e)
    | (s4, Ok _) =>
      match mc_procs m with
      | PSeq =>
          if flag then
            let dirs := snd (directions s4) in
            let '(rows, e) := fill3 (fun k t c => g <- idx ngens k ;; ds <- dirs ;; dexp_at s4 g ds t c) 0 (mc_traces m) n nc in
            (nset_der (nset_prop s4 (Some (map (map last_fst) rows))) (Some (map (columns nc) rows)), of_exn e)
          else
            let '(rows, e) := fill2 (fun k t => g <- idx ngens k ;; exp_at s4 g t) 0 (mc_traces m) n in
            (nset_prop s4 (Some rows), of_exn e)
      | PPool =>
          if flag then (s4, Err NotImplementedError) else
          match mapM (fun k => g <- idx ngens k ;; matrix_exponentials s4 g) (seq 0 (mc_traces m)) with
          | Err e => (s4, Err e)
          | Ok ps => (nset_prop s4 (Some ps), Ok tt)
          end
      | PInvalid => (s4, Err ValueError)
      end
    end
  end.

(** self._compute_propagation *)
Definition propagation (calc : option bool) : sm unit := fun s =>
  match c_class (s_conf s) with
  | CMonteCarlo m => mc_propagation m calc s
  | _ => schr_propagation calc s
  end.
(** if self._prop is None: self._compute_propagation() *)
Definition need_prop : sm (list (option op)) := fun s =>
  match k_prop (s_k s) with
  | Some p => (s, Ok p)
  | None => match propagation None s with
            | (s', Err e) => (s', Err e)
            | (s', Ok _) => (s', match k_prop (s_k s') with Some p => Ok p | None => Err TypeError end)
            end
  end.
Definition need_nprop : sm (list (list (option op))) := fun s =>
  match n_prop (s_n s) with
  | Some p => (s, Ok p)
  | None => match propagation None s with
            | (s', Err e) => (s', Err e)
            | (s', Ok _) => (s', match n_prop (s_n s') with Some p => Ok p | None => Err TypeError end)
            end
  end.

(** prop * fwd[-1]: for a missing propagator python evaluates None * DenseOperator *)
Definition times_last (fwd : list op) (p : option op) : res (list op) :=
  match p with
  | None => Err NotImplementedError
  | Some P => Q <- op_mul P (ODense (last fwd (Arr [] []))) ;; Ok (fwd ++ [Q])
  end.
(** rev[-1] * prop *)
Definition last_times (rev : list op) (p : option op) : res (list op) :=
  match p with
  | None => Err NotImplementedError
  | Some P => Q <- op_mul (last rev (Arr [] [])) (ODense P) ;; Ok (rev ++ [Q])
  end.
(** self._prop[0].shape[0] *)
Definition first_dim (ps : list (option op)) : res nat :=
  p <- idx ps 0 ;; match p with None => Err AttributeError | Some P => Ok (nr P) end.

(** for each trace: forward products; an exception in trace k leaves the later traces at the start *)
Fixpoint fwd_traces (init : op) (ps : list (list (option op))) : list (list op) * option exn :=
  match ps with
  | [] => ([], None)
  | p :: ps' =>
      match foldE times_last p [init] with
      | (l, Some e) => (l :: repeat [init] (length ps'), Some e)
      | (l, None) => let '(ls, e) := fwd_traces init ps' in (l :: ls, e)
      end
  end.
Fixpoint rev_traces (init : op) (ps : list (list (option op))) : list (list op) * option exn :=
  match ps with
  | [] => ([], None)
  | p :: ps' =>
      match foldE last_times (rev p) [init] with
      | (l, Some e) => (l :: repeat [init] (length ps'), Some e)
      | (l, None) => let '(ls, e) := rev_traces init ps' in (l :: ls, e)
      end
  end.

(** _compute_forward_propagation: l.632-638; Monte Carlo l.1381-1394 *)
Definition base_forward : sm unit := fun s =>
  match need_prop s with
  | (s', Err e) => (s', Err e)
  | (s', Ok ps) => let '(l, e) := foldE times_last ps [op_copy (c_init (s_conf s'))] in (set_fwd s' (Some l), of_exn e)
  end.
Definition compute_forward : sm unit := fun s =>
  match c_class (s_conf s) with
  | CMonteCarlo m =>
      match base_forward s with
      | (s1, Err e) => (s1, Err e)
      | (s1, Ok _) =>
          match need_nprop s1 with
          | (s2, Err e) => (s2, Err e)
          | (s2, Ok nps) =>
              let k := Nat.min (mc_traces m) (length nps) in
              let '(ls, e) := fwd_traces (op_copy (c_init (s_conf s2))) (firstn k nps) in
              (nset_fwd s2 (Some (ls ++ repeat [c_init (s_conf s2)] (mc_traces m - k))), of_exn e)
          end
      end
  | _ => base_forward s
  end.
(** _compute_reversed_propagation: l.640-657; Monte Carlo l.1396-1410 *)
Definition base_reversed : sm unit := fun s =>
  match need_prop s with
  | (s', Err e) => (s', Err e)
  | (s', Ok ps) =>
      match first_dim ps with
      | Err e => (s', Err e)
      | Ok n => let '(l, e) := foldE last_times (rev ps) [mid (S:=S) n] in (set_rev s' (Some l), of_exn e)
      end
  end.
Definition compute_reversed : sm unit := fun s =>
  match c_class (s_conf s) with
  | CMonteCarlo m =>
      match base_reversed s with
      | (s1, Err e) => (s1, Err e)
      | (s1, Ok _) =>
          match need_nprop s1 with
          | (s2, Err e) => (s2, Err e)
          | (s2, Ok nps) =>
              match (p <- idx (match k_prop (s_k s2) with Some ps => ps | None => [] end) 0 ;;
                     match p with None => Err AttributeError | Some P => op_identity_like P end) with
              | Err e => (s2, Err e)
              | Ok ident =>
                  let k := Nat.min (mc_traces m) (length nps) in
                  let '(ls, e) := rev_traces ident (firstn k nps) in
                  (nset_rev s2 (Some (ls ++ repeat [ident] (mc_traces m - k))), of_exn e)
              end
          end
      end
  | _ => base_reversed s
  end.

(** self.transferred_time[t] * derivative_directions[t][ctrl] * self._prop[t], l.974-976 *)
Definition grape_at (s : st) (dirs : list (list op)) (ps : list (option op)) (t c : nat) : res op :=
  tau <- idx (s_time s) t ;; row <- idx dirs t ;; d <- idx row c ;; p <- idx ps t ;;
  match p with
  | None => Err NotImplementedError
  | Some P => op_mul (mscale (S:=S) (cofk tau) d) (ODense P)
  end.
(** _compute_propagation_derivatives, l.955-980.  The 'grape' branch stores the result as [t][ctrl]. *)
Definition schr_derivatives : sm unit := fun s =>
  match c_approx (s_conf s) with
  | GNone => propagation (Some true) s
  | GGrape =>
      match (match k_prop (s_k s) with Some _ => (s, Ok tt) | None => propagation (Some false) s end) with
      | (s1, Err e) => (s1, Err e)
      | (s1, Ok _) =>
          let n := length (s_time s1) in let m := length (c_ctrl (s_conf s1)) in
          let s2 := set_der s1 (Some (repeat (repeat None m) n)) in
          match directions s2 with
          | (s3, Err e) => (s3, Err e)
          | (s3, Ok dirs) =>
              let ps := match k_prop (s_k s3) with Some p => p | None => [] end in
              let '(rows, e) := fill2 (grape_at s3 dirs ps) 0 n m in
              (set_der s3 (Some rows), of_exn e)
          end
      end
  | GUnknown => (s, Err ValueError)
  end.
(** l.1412-1449.  The 'grape' branch stores [k][ctrl][t]. *)
Definition grape_transpose {A} (m : nat) (rows : list (list (option A))) : list (list (option A)) :=
  map (fun c => map (fun row => nth c row None) rows) (seq 0 m).
Definition compute_derivatives : sm unit := fun s =>
  match c_class (s_conf s) with
  | CMonteCarlo mc =>
      match c_approx (s_conf s) with
      | GNone => propagation (Some true) s
      | GGrape =>
          match schr_derivatives s with
          | (s1, Err e) => (s1, Err e)
          | (s1, Ok _) =>
              match (match n_prop (s_n s1) with Some _ => (s1, Ok tt) | None => propagation (Some false) s1 end) with
              | (s2, Err e) => (s2, Err e)
              | (s2, Ok _) =>
                  match directions s2 with
                  | (s3, Err e) => (s3, Err e)
                  | (s3, Ok dirs) =>
                      let n := length (s_time s3) in let m := length (c_ctrl (s_conf s3)) in
                      let nps := match n_prop (s_n s3) with Some p => p | None => [] end in
                      let '(rows, e) := fill3 (fun k t c => ps <- idx nps k ;; grape_at s3 dirs ps t c) 0 (mc_traces mc) n m in
                      (nset_der s3 (Some (map (grape_transpose m) rows)), of_exn e)
                  end
              end
          end
      | GUnknown => (s, Err ValueError)
      end
  | _ => schr_derivatives s
  end.

(** the properties, l.465-534, 1177-1254: compute if not cached, then return the cache *)
Definition cached {A} (proj : st -> option A) (compute : sm unit) : sm A := fun s =>
  match proj s with
  | Some a => (s, Ok a)
  | None => match compute s with
            | (s', Err e) => (s', Err e)
            | (s', Ok _) => (s', match proj s' with Some a => Ok a | None => Err TypeError end)
            end
  end.
Definition read_prop : sm (list (option op)) := cached (fun s => k_prop (s_k s)) (propagation None).
Definition read_fwd : sm (list op) := cached (fun s => k_fwd (s_k s)) compute_forward.
Definition read_rev : sm (list op) := cached (fun s => k_rev (s_k s)) compute_reversed.
Definition read_der : sm (list (list (option op))) := cached (fun s => k_der (s_k s)) compute_derivatives.
Definition read_nprop : sm (list (list (option op))) := cached (fun s => n_prop (s_n s)) (propagation None).
Definition read_nfwd : sm (list (list op)) := cached (fun s => n_fwd (s_n s)) compute_forward.
Definition read_nrev : sm (list (list op)) := cached (fun s => n_rev (s_n s)) compute_reversed.
Definition read_nder : sm (list (list (list (option op)))) := cached (fun s => n_der (s_n s)) compute_derivatives.

(** ---- construction: l.265-343, 414-463, 838-872, 1111-1159, 1802-1859.  A single drift operator is repeated for
    every time step (l.329-334, 439-440). ---- *)
Definition square_dim (d : nat) (A : op) : bool := Nat.eqb d (nr A) && Nat.eqb d (nc A).
Definition build_solver (cls : sclass) (drift ctrl : list op) (tau : list F) (init : option op) (amps : option arrF)
    (meth : emethod) (skew calc : bool) (approx : gapprox) (t : tf F) (a : amp F) (udiss : option (list op)) : res st :=
  h0 <- idx ctrl 0 ;;
  let dim := nr h0 in
  let init' := match init with
               | Some i => i
               | None => mid (S:=S) (match cls with CLindblad _ => dim * dim | _ => dim end)
               end in
  let '(t', r) := set_times t tau in
  _ <- r ;;
  match b_xt (tbase t') with
  | None => Err TypeError
  | Some xs =>
      let n := length xs in
      let drift1 := match drift with [h] => repeat h (b_nx (tbase t')) | _ => drift end in
      let drift2 := match drift1 with [h] => repeat h n | _ => drift1 end in
      check Nat.eqb n (length drift2) || Nat.eqb (length drift2) 0 else ValueError ;;
      check forallb (square_dim dim) ctrl else AssertionError ;;
      check forallb (square_dim dim) drift2 else AssertionError ;;
      Ok (mkst (mkconf cls ctrl init' meth skew calc approx a) drift2 t' xs None None amps false false
            k_none n_none (mkl None None) udiss)
  end.

(** ---- the client ---- *)
Inductive sop :=
| SSet (y : arrF) | STimes (tau : list F) | SPropag | SFwd | SRev | SDer | SNProp | SNFwd | SNRev | SNDer
| SMutate (z : arrF).    (* the caller overwrites, in place, the array passed to the last set_optimization_parameters *)

(** what a read returned *)
Inductive sval :=
| VUnit | VProp (l : list (option op)) | VOps (l : list op) | VDer (l : list (list (option op)))
| VNOps (l : list (list op)) | VNDer (l : list (list (list (option op)))).

Definition mapv {A} (f : A -> sval) (p : st * res A) : st * res sval :=
  match p with (s, Ok a) => (s, Ok (f a)) | (s, Err e) => (s, Err e) end.
Definition mutate (z : arrF) (s : st) : st :=
  let s1 := if s_talias s then set_tpars s (Some z) true else s in
  if s_ualias s then set_amps s1 (Some z) true else s1.
Definition sstep (s : st) (o : sop) : st * res sval :=
  match o with
  | SSet y => mapv (fun _ => VUnit) (set_pars y s)
  | STimes tau => mapv (fun _ => VUnit) (solver_set_times tau s)
  | SPropag => mapv VProp (read_prop s)
  | SFwd => mapv VOps (read_fwd s)
  | SRev => mapv VOps (read_rev s)
  | SDer => mapv VDer (read_der s)
  | SNProp => mapv VDer (read_nprop s)
  | SNFwd => mapv VNOps (read_nfwd s)
  | SNRev => mapv VNOps (read_nrev s)
  | SNDer => mapv VNDer (read_nder s)
  | SMutate z => (mutate z s, Ok VUnit)
  end.
Definition srun (s : st) (l : list sop) : st := fold_left (fun s o => fst (sstep s o)) l s.
End Model.
Arguments namp {F}. Arguments mcconf {F}. Arguments liconf {F}. Arguments sclass {F}. Arguments sconf {F}. Arguments caches {F}. Arguments ncaches {F}. Arguments lcaches {F}. Arguments st {F}. Arguments k_none {F}. Arguments n_none {F}. Arguments sm {F}. Arguments array_equal {F}. Arguments opt_equal {F}. Arguments row2 {F}. Arguments row3 {F}. Arguments add_bcast {F}. Arguments sop {F}. Arguments sval {F}.
Arguments SPropag {F}. Arguments SFwd {F}. Arguments SRev {F}. Arguments SDer {F}. Arguments SNProp {F}. Arguments SNFwd {F}. Arguments SNRev {F}. Arguments SNDer {F}. Arguments VUnit {F}.
Arguments SSet {F}. Arguments STimes {F}. Arguments SMutate {F}. Arguments NNone {F}. Arguments NUser {F}. Arguments NControl {F}. Arguments CSchroedinger {F}.
