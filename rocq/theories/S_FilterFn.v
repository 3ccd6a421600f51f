(** Specification vocabulary for the interface to the package filter_functions: what a pulse sequence should contain and what
    is assumed of the package. *)
Require Import String List Arith Bool Permutation Sorting.Sorted.
From Verif Require Import LibBase LibRing LibArr LibCplx LibMat M_Matrix S_Linear M_Solver S_Solver M_FilterFn.
Import ListNotations.
Set Implicit Arguments.

Section Spec.
Variable F : OField.
Variable la : LinAlg F.
Variable B E : Type.
Notation arrF := (arr (kcar F)).
Notation op := (op F).
Notation S := (CStar F).
Notation pkg := (pkg F B E).
Notation pseq := (pseq F B E).
Notation fsol := (fsol F B E).
Notation term := (term F).

(** H = h + sum_c u_c H_c *)
Definition is_hamiltonian (n : nat) (h : op) (hs : list op) (u : nat -> F) (H : op) : Prop :=
  is_matrix (S:=S) n n H /\ forall i j, i < n -> j < n ->
    H.[i,j] = cadd h.[i,j] (sumn (S:=S) (length hs) (fun c => cmul (cofk (u c)) (nth c hs (Arr [] [])).[i,j])).
(** n x n Hamiltonians, one drift operator for every time step, one amplitude for every time step and control *)
Definition shaped (n : nat) (s : @st F) : Prop :=
  square_hamiltonians n s /\ c_ctrl (s_conf s) <> [] /\ length (s_drift s) = length (s_time s) /\
  forall u, s_amps s = Some u -> dim0 u = length (s_time s) /\ dim1 u = length (c_ctrl (s_conf s)).
(** the pulse sequence has the durations of the solver and was diagonalised for its Hamiltonians; the total propagator is the
    last of the propagators *)
Definition describes (P : pkg) (n : nat) (s : @st F) (p : pseq) : Prop :=
  p_dt p = s_time s /\
  exists u hs e us U, s_amps s = Some u /\ length hs = length (s_time s) /\
    (forall t, t < length (s_time s) ->
       is_hamiltonian n (nth t (s_drift s) (Arr [] [])) (c_ctrl (s_conf s)) (fun c => get2 k0 u t c) (nth t hs (Arr [] []))) /\
    diagonalize P hs (s_time s) = Ok (e, us) /\ p_eig p = Some (e, us) /\ (exists l, us = l ++ [U]) /\ p_total p = Some U.

(** the operators, identifiers and coefficients of a list of terms *)
Definition lists (l : list term) (os : list op) (ids : list string) (cs : list (list F)) : Prop :=
  exists tr : list (op * string * list F), l = map (fun x => Term (fst (fst x)) (snd x) (snd (fst x))) tr /\
    os = map (fun x => fst (fst x)) tr /\ ids = map (fun x => snd (fst x)) tr /\ cs = map snd tr.
(** the same terms in some order *)
Definition lists_some_order (l : list term) (os : list op) (ids : list string) (cs : list (list F)) : Prop :=
  exists l', Permutation l l' /\ lists l' os ids cs.
(** _parse_Hamiltonian keeps the entries of every term together, in an order of its own *)
Definition lines_up (P : pkg) : Prop :=
  forall l n os ids cs, parse P l n = Ok (os, ids, cs) -> lists_some_order l os ids cs.
(** this order is the one of the identifiers *)
Definition sorts (P : pkg) : Prop :=
  lines_up P /\ forall l n os ids cs, parse P l n = Ok (os, ids, cs) -> StronglySorted (fun a b => String.leb a b = true) ids.
(** numeric.diagonalize returns the products of the exponentials exp(-i H_t dt_t), which are those of the solver's method *)
Definition diagonalizes (P : pkg) (n : nat) (c : @sconf F) : Prop :=
  forall (hs : list op) ts e us, Forall (is_matrix (S:=S) n n) hs -> length hs = length ts -> diagonalize P hs ts = Ok (e, us) ->
    exists I es, is_identity (S:=S) n I /\ length es = length ts /\ cumulative n n I (map Some es) us /\ Forall (is_matrix (S:=S) n n) es /\
      forall t G, t < length ts -> is_direction n (nth t hs (Arr [] [])) G ->
        op_exp la G (cofk (nth t ts k0)) (c_meth c) (c_skew c) = Ok (nth t es (Arr [] [])).

(** the terms given for the noise, for a callable its value for (parameters, transferred parameters, amplitudes), or for the
    amplitudes if it does not take three arguments *)
Definition given (s : @st F) (h : noise_h F) (l : list term) : Prop :=
  match h with
  | HList l' => l = l'
  | HCall g => g [s_opt s; s_tpars s; s_amps s] = Ok l \/ (g [s_opt s; s_tpars s; s_amps s] = Err TypeError /\ g [s_amps s] = Ok l)
  end.
(** the noise of a solver that is not a Monte Carlo solver: the given terms; if there are none, one term that vanishes *)
Definition noise_terms (s : @st F) (h : noise_h F) (l : list term) : Prop :=
  exists l0, given s h l0 /\
    ((l0 <> [] /\ l = l0) \/
     (l0 = [] /\ exists z h0 id cs, nth_error (c_ctrl (s_conf s)) 0 = Some h0 /\ l = [Term z cs id] /\ shape z = [nr h0; nc h0] /\
        forall i j, i < nr h0 -> j < nc h0 -> z.[i,j] = c0)).
(** the noise of a Monte Carlo solver without given terms: its noise operators with coefficients 1 *)
Definition unit_noise (s : @st F) (m : @mcconf F) (l : list term) : Prop :=
  length l = length (mc_ops m) /\ forall i o, nth_error (mc_ops m) i = Some o -> exists cs id, nth_error l i = Some (Term o cs id) /\
    length cs = length (s_time s) /\ forall x, In x cs -> x = k1.
(** the noise part of the pulse sequence is made of the terms [l] *)
Definition has_noise (P : pkg) (s : @st F) (p : pseq) (l : list term) : Prop :=
  parse P l (length (s_time s)) = Ok (p_nopers p, p_nids p, p_ncoeffs p).
(** the derivative given for the coefficients of the noise: none, or the value of the function *)
Definition given_derivative (s : @st F) (c : ffconf F B) (d : option arrF) : Prop :=
  match ff_deriv c with
  | None => d = None
  | Some g => exists x, d = Some x /\
      (g [s_opt s; s_tpars s; s_amps s] = Ok x \/ (g [s_opt s; s_tpars s; s_amps s] = Err TypeError /\ g [s_amps s] = Ok x))
  end.
(** the frequencies: those given to the cost function, otherwise those the package chooses for the pulse sequence *)
Definition frequencies (P : pkg) (c : ffcost F) (p : pseq) (w : list F) : Prop :=
  match fc_omega c with Some w' => w = w' | None => sample_frequencies P p = Ok w end.
Definition is_monte_carlo (s : @st F) : Prop := exists m, c_class (s_conf s) = CMonteCarlo m.
Definition term_id (t : term) : string := match t with Term _ _ i => i | _ => ""%string end.

(** ---- clients ---- *)
Variable rexp : F -> F.
Variable eps : cplx F.
Definition ff_call (o : fop F B) : bool := match o with FSolver _ => false | _ => true end.
(** every call of the pulse sequence, the costs or the gradient succeeds; the caller does not write to an array it passed *)
Fixpoint succeeds (P : pkg) (f : fsol) (hist : list (fop F B)) : Prop :=
  match hist with
  | [] => True
  | o :: rest => (ff_call o = true -> snd (fstep rexp la eps P f o) = Ok tt) /\ (forall z, o <> FSolver (SMutate z)) /\
                 succeeds P (fst (fstep rexp la eps P f o)) rest
  end.
(** a new solver after such calls *)
Definition reached (P : pkg) (s0 : @st F) (c : ffconf F B) (f : fsol) : Prop :=
  exists hist, succeeds P (new_fsol s0 c) hist /\ f = frun rexp la eps P (new_fsol s0 c) hist.
End Spec.
