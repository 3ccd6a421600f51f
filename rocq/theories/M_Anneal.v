(** Model of qopt/optimize.py: PulseAnnealer.move, the sequence of states of an annealing run, time_string, and the
    termination conditions of the optimisers. *)
Require Import List Arith ZArith QArith Qround Bool String Ascii DecimalString.
From Verif Require Import LibBase LibRing LibArr M_OpHeap.
Import ListNotations.
Open Scope res_scope.
Set Implicit Arguments.

Section Move.
Variable F : OField.
Notation arrF := (arr (kcar F)).
(** an integer as number *)
Definition kofz (z : Z) : F := match z with Z0 => k0 | Zpos p => kofnat (Pos.to_nat p) | Zneg p => kopp (kofnat (Pos.to_nat p)) end.
(** step_size: an int or a value of another type (type(True) is not int either) *)
Inductive step_size := SInt (z : Z) | SOther.
(** bounds, step_size, step_ratio and the conversion of a value to the dtype of the pulse.  An array of floats keeps
    the value, an array of integers truncates it.  l.704-713 *)
Record annealer := mkann { an_lo : arrF; an_hi : arrF; an_step : step_size; an_ratio : F; an_cast : F -> F }.
(** PulseAnnealer.move, l.715-752.  The draws of np.random.randint(-step_size, step_size + 1) and of np.random.rand are
    arguments; randint raises for an empty range.  bounds[0] and bounds[1] have the shape of the pulse (broadcasting is
    not modelled and raises).  The masks are computed before the assignments. *)
Definition move (a : annealer) (rnd : arr Z) (mask : arrF) (pulse : arrF) : res arrF :=
  match an_step a with
  | SOther => Err ValueError
  | SInt z =>
    check negb (Z.eqb z 0) else ValueError ;;
    check Z.ltb (- z) (z + 1) else ValueError ;;
    check Nat.eqb (rank pulse) 2 else ValueError ;;
    let m := dim0 pulse in let n := dim1 pulse in
    check Nat.eqb (dim0 (an_lo a)) m && Nat.eqb (dim1 (an_lo a)) n && Nat.eqb (dim0 (an_hi a)) m && Nat.eqb (dim1 (an_hi a)) n else ValueError ;;
    let step := mk2 m n (fun i j => if kltb (an_ratio a) (get2 k0 mask i j) then 0%Z else get2 0%Z rnd i j) in
    let new := mk2 m n (fun i j => kadd (get2 k0 pulse i j) (kofz (get2 0%Z step i j))) in
    let low := mk2 m n (fun i j => kltb (get2 k0 new i j) (get2 k0 (an_lo a) i j)) in
    let high := mk2 m n (fun i j => kltb (get2 k0 (an_hi a) i j) (get2 k0 new i j)) in
    let new1 := mk2 m n (fun i j => if get2 false low i j then an_cast a (get2 k0 (an_lo a) i j) else get2 k0 new i j) in
    Ok (mk2 m n (fun i j => if get2 false high i j then an_cast a (get2 k0 (an_hi a) i j) else get2 k0 new1 i j))
  end.

(** ---- simanneal.Annealer.anneal ---- *)
(** it moves, and after a move it may set the state back to an earlier one (the one before the move, or the best one) *)
Inductive aev := AMove (rnd : arr Z) (mask : arrF) | ABack (k : nat).
(** all states so far, the current one last; a raised exception ends the run *)
Fixpoint anneal (a : annealer) (l : list arrF) (h : list aev) : res (list arrF) :=
  match h with
  | [] => Ok l
  | AMove r m :: h' => p <- move a r m (last l (Arr [] [])) ;; anneal a (l ++ [p]) h'
  | ABack k :: h' => match nth_error l k with Some p => anneal a (l ++ [p]) h' | None => Err IndexError end
  end.
End Move.
Arguments kofz {F}. Arguments annealer {F}. Arguments mkann {F}. Arguments move {F}. Arguments anneal {F}. Arguments AMove {F}. Arguments ABack {F}.

(** ---- time_string, l.636-641 ---- *)
Open Scope Z_scope.
(** Python's round of a number to an integer: to the nearest, ties to even *)
Definition py_round (q : Q) : Z :=
  let f := Qfloor q in
  match Qcompare (q - inject_Z f) (1 # 2) with Lt => f | Gt => f + 1 | Eq => if Z.even f then f else f + 1 end.
(** str(z) *)
Definition dec (z : Z) : string := NilEmpty.string_of_int (Z.to_int z).
Fixpoint pad (c : ascii) (n : nat) (s : string) : string := match n with O => s | S n' => String c (pad c n' s) end.
(** '%4i' and, for numbers that are not negative, '%02i' *)
Definition fmt4 (z : Z) : string := pad " " (4 - String.length (dec z)) (dec z).
Definition fmt02 (z : Z) : string := pad "0" (2 - String.length (dec z)) (dec z).
Definition time_string (seconds : Q) : string :=
  let s0 := py_round seconds in
  let h := s0 / 3600 in let s1 := s0 mod 3600 in
  let m := s1 / 60 in let s := s1 mod 60 in
  (fmt4 h ++ ":" ++ fmt02 m ++ ":" ++ fmt02 s)%string.

(** ---- termination conditions ---- *)
Section Term.
Variable V : Type.
(** dictionaries with string keys, in order of insertion *)
Definition dict := list (string * V).
Fixpoint dget (d : dict) (k : string) : option V :=
  match d with [] => None | (k', v) :: d' => if String.eqb k k' then Some v else dget d' k end.
Fixpoint dset (d : dict) (k : string) (v : V) : dict :=
  match d with [] => [(k, v)] | (k', v') :: d' => if String.eqb k k' then (k', v) :: d' else (k', v') :: dset d' k v end.
(** dict.update *)
Definition dupdate (d e : dict) : dict := fold_left (fun d p => dset d (fst p) (snd p)) e d.
(** the heap of dictionaries; the module attribute default_termination_conditions (l.92-99) refers to entry 0 *)
Definition theap := list dict.
Definition default_ref : nat := 0.
(** Optimizer.__init__, l.168-170: the attribute termination_conditions refers to the default dictionary itself *)
Definition init_termination (arg : option dict) (h : theap) : theap * nat :=
  match arg with
  | None => (h, default_ref)
  | Some e => (lset h default_ref (dupdate (nth default_ref h []) e), default_ref)
  end.
(** SimulatedAnnealing.__init__, l.826-834: a deep copy of the defaults with another wall time is the argument *)
Definition init_annealing (long : V) (h : theap) : theap * nat :=
  init_termination (Some (dset (nth default_ref h []) "max_wall_time" long)) h.
(** constructions of optimisers *)
Inductive tev := TNew (arg : option dict) | TAnneal.
Definition construct (long : V) (st : theap * list nat) (e : tev) : theap * list nat :=
  let (h, l) := st in
  let (h', r) := match e with TNew arg => init_termination arg h | TAnneal => init_annealing long h end in (h', l ++ [r]).
(** optimiser i reads termination_conditions[k] *)
Definition read_condition (st : theap * list nat) (i : nat) (k : string) : res V :=
  match nth_error (snd st) i with
  | None => Err IndexError
  | Some r => match dget (nth r (fst st) []) k with Some v => Ok v | None => Err KeyError end
  end.
End Term.
