(** Which operators the solvers write to: the evaluations of solver_algorithms.py as programs on the heap of
    M_OpHeap.  Operators are referred to by object number; caller and solvers share the objects.  The values
    computed are those of M_Solver; this file is about the writes.  An exception ends the program and leaves
    the heap as it is at that point. *)
Require Import List Arith.
From Verif Require Import LibBase LibRing LibArr LibCplx LibMat M_Matrix M_OpHeap.
Import ListNotations.
Open Scope res_scope.
Set Implicit Arguments.

Section Prog.
Variable F : OField.
Notation C := (cplx F).
Notation arrF := (arr (kcar F)).
Notation heap := (heap F).

Definition hm (A : Type) : Type := heap -> heap * res A.
Definition hret {A} (a : A) : hm A := fun h => (h, Ok a).
Definition hfail {A} (e : exn) : hm A := fun h => (h, Err e).
Definition hbind {A B} (m : hm A) (k : A -> hm B) : hm B :=
  fun h => match m h with (h', Ok a) => k a h' | (h', Err e) => (h', Err e) end.
Notation "x <~ m ;; k" := (hbind m (fun x => k)) (at level 61, m at next level, right associativity).
(** an expression with a new operator as its value *)
Definition expr (i : instr F) : hm nat :=
  fun h => match step h i with Ok h' => (h', Ok (length (objs h))) | Err e => (h, Err e) end.
(** an augmented assignment *)
Definition aug (b : binop) (x y : nat) : hm unit :=
  fun h => match step h (IBinIn b x y) with Ok h' => (h', Ok tt) | Err e => (h, Err e) end.
Definition augs (x : nat) (c : C) : hm unit :=
  fun h => match step h (IScaleIn x c) with Ok h' => (h', Ok tt) | Err e => (h, Err e) end.
(** [f(x) for x in l] *)
Fixpoint hmap {A B} (f : A -> hm B) (l : list A) : hm (list B) :=
  match l with [] => hret [] | x :: l' => y <~ f x ;; ys <~ hmap f l' ;; hret (y :: ys) end.
(** for x in l: f(x) *)
Fixpoint hfor {A} (f : A -> hm unit) (l : list A) : hm unit :=
  match l with [] => hret tt | x :: l' => _ <~ f x ;; hfor f l' end.
Definition hidx (l : list nat) (i : nat) : hm nat := match nth_error l i with Some x => hret x | None => hfail IndexError end.
(** o.identity_like() *)
Definition ident_like (o : nat) : hm nat :=
  fun h => match (A <- valof h o ;; op_identity_like A) with Ok one => expr (INew one) h | Err e => (h, Err e) end.

(** SchroedingerSolver._compute_dyn_gen, l.895-900; [u] are the control amplitudes, [T] their number of rows *)
Definition h_dyn_gen (drift ctrl : list nat) (T : nat) (u : nat -> nat -> F) : hm (list nat) :=
  gens <~ hmap (fun h => expr (IScale h (copp ci))) drift ;;
  _ <~ hfor (fun p => hfor (fun q => t <~ expr (IScale (snd p) (cmul (copp ci) (cofk (u (snd q) (fst p))))) ;; aug BAdd (fst q) t)
                        (combine gens (seq 0 T)))
         (combine (seq 0 (length ctrl)) ctrl) ;;
  hret gens.
(** SchroedingerSolver._compute_derivative_directions, l.913 *)
Definition h_directions (ctrl : list nat) : hm (list nat) := hmap (fun o => expr (IScale o (copp ci))) ctrl.
(** SchroedingerSMonteCarlo._compute_dyn_gen_noise, l.1286-1294; [v t k] are the samples of the operators *)
Definition h_dyn_gen_noise (gens : list nat) (noise : list nat) (T K : nat) (v : nat -> nat -> list F) : hm (list (list nat)) :=
  ngens <~ hmap (fun _ => hmap (fun g => expr (ICopy g)) gens) (seq 0 K) ;;
  _ <~ hfor (fun t => hfor (fun k => hfor (fun q =>
          g <~ match nth_error ngens k with Some row => hidx row t | None => hfail IndexError end ;;
          x <~ expr (IScale (snd q) (cmul (copp ci) (cofk (fst q)))) ;; aug BAdd g x)
        (combine (v t k) noise)) (seq 0 K)) (seq 0 T) ;;
  hret ngens.
(** LindbladSolver._calc_diss_sup_op, l.1894-1905: the super operator of one Lindblad operator *)
Definition h_dissipator (ident L : nat) : hm nat :=
  c <~ expr (IConj L) ;; d <~ expr (IBin BKron c L) ;;
  dg <~ expr (IDag L) ;; n <~ expr (IBin BMul dg L) ;; k <~ expr (IBin BKron ident n) ;; k' <~ expr (IScale k (chalf F)) ;;
  _ <~ aug BSub d k' ;;
  t <~ expr (ITrans L) ;; c' <~ expr (IConj L) ;; n' <~ expr (IBin BMul t c') ;; q <~ expr (IBin BKron n' ident) ;; q' <~ expr (IScale q (chalf F)) ;;
  _ <~ aug BSub d q' ;; hret d.
Definition h_const_ops (ls : list nat) : hm (list nat) :=
  L0 <~ hidx ls 0 ;; ident <~ ident_like L0 ;; hmap (h_dissipator ident) ls.
(** l.1908-1919: with a prefactor function; [p] are the rows of prefactors *)
Definition h_weighted (const : list nat) (p : list (list F)) : hm (list nat) :=
  hmap (fun fs => c <~ hidx const 0 ;;
                  match fs with
                  | [] => hfail IndexError
                  | f :: fs' => d <~ expr (IScale c (cofk f)) ;;
                                _ <~ hfor (fun q => x <~ expr (IScale (fst q) (cofk (snd q))) ;; aug BAdd d x) (combine (tl const) fs') ;; hret d
                  end) p.
(** l.1921-1924: without one *)
Definition h_sum (const : list nat) (T : nat) : hm (list nat) :=
  d <~ hidx const 0 ;; _ <~ hfor (fun x => aug BAdd d x) (tl const) ;; hret (repeat d T).
(** _compute_dyn_gen, l.2087-2105 *)
Definition h_lind_gen (gens diss : list nat) : hm (list nat) :=
  g0 <~ hidx gens 0 ;; ident <~ ident_like g0 ;;
  hmap (fun p => a <~ expr (IBin BKron ident (fst p)) ;; c <~ expr (IConj (fst p)) ;; b <~ expr (IBin BKron c ident) ;;
                 _ <~ aug BAdd a b ;; _ <~ aug BAdd a (snd p) ;; hret a) (combine gens diss).
(** _compute_derivative_directions, l.2029-2036 *)
Definition h_lind_directions (ctrl : list nat) : hm (list nat) :=
  c0 <~ hidx ctrl 0 ;; i <~ ident_like c0 ;; _ <~ augs i (copp ci) ;;
  hmap (fun o => a <~ expr (IBin BKron i o) ;; t <~ expr (ITrans o) ;; b <~ expr (IBin BKron t i) ;; _ <~ aug BSub a b ;; hret a) ctrl.

(** what a client makes a solver compute; the lists are the operators given to the constructor *)
Inductive evaluation :=
| EGen (drift ctrl : list nat) (T : nat) (u : nat -> nat -> F)
| EDir (ctrl : list nat)
| ENoise (drift ctrl noise : list nat) (T : nat) (u : nat -> nat -> F) (K : nat) (v : nat -> nat -> list F)
| ELindOps (drift ctrl ls : list nat) (T : nat) (u : nat -> nat -> F)                            (* lindblad operators *)
| ELindOpsW (drift ctrl ls : list nat) (T : nat) (u : nat -> nat -> F) (p : list (list F))        (* and a prefactor function *)
| ELindSupW (drift ctrl ds : list nat) (T : nat) (u : nat -> nat -> F) (p : list (list F))        (* super operators and a prefactor function *)
| ELindSup (drift ctrl ds : list nat) (T : nat) (u : nat -> nat -> F)                            (* super operators *)
| ELindDir (ctrl : list nat).
Definition evaluate (e : evaluation) : hm unit :=
  match e with
  | EGen d c T u => _ <~ h_dyn_gen d c T u ;; hret tt
  | EDir c => _ <~ h_directions c ;; hret tt
  | ENoise d c n T u K v => g <~ h_dyn_gen d c T u ;; _ <~ h_dyn_gen_noise g n T K v ;; hret tt
  | ELindOps d c ls T u => g <~ h_dyn_gen d c T u ;; k <~ h_const_ops ls ;; ds <~ h_sum k T ;; _ <~ h_lind_gen g ds ;; hret tt
  | ELindOpsW d c ls T u p => g <~ h_dyn_gen d c T u ;; k <~ h_const_ops ls ;; ds <~ h_weighted k p ;; _ <~ h_lind_gen g ds ;; hret tt
  | ELindSupW d c k T u p => g <~ h_dyn_gen d c T u ;; ds <~ h_weighted k p ;; _ <~ h_lind_gen g ds ;; hret tt
  | ELindSup d c k T u => g <~ h_dyn_gen d c T u ;; ds <~ h_sum k T ;; _ <~ h_lind_gen g ds ;; hret tt
  | ELindDir c => _ <~ h_lind_directions c ;; hret tt
  end.
(** the caller catches exceptions and goes on *)
Definition evaluate_all (h : heap) (es : list evaluation) : heap := fold_left (fun h e => fst (evaluate e h)) es h.
End Prog.
Arguments EGen {F}. Arguments EDir {F}. Arguments ENoise {F}. Arguments ELindOps {F}. Arguments ELindOpsW {F}. Arguments ELindSupW {F}. Arguments ELindSup {F}. Arguments ELindDir {F}.
