(** Specification vocabulary for the simulator: new solvers, histories of a simulator, layout of the results. *)
Require Import List Arith Bool.
From Verif Require Import LibBase LibRing LibArr LibCplx LibMat M_Matrix M_Transfer S_Transfer M_Amplitude M_Solver S_Solver M_Cost M_Simulator.
Import ListNotations.
Set Implicit Arguments.

Section Spec.
Variable F : OField.
Variable rexp : F -> F.
Variable la : LinAlg F.
Variable eps : cplx F.
Notation arrF := (arr (kcar F)).
Notation st := (@st F).
Notation world := (@world F).
Notation sim := (@sim F).
Notation cfun := (@cfun F).

(** a cost function only reads properties of its solver *)
Fixpoint reads_only (p : @prog F) : Prop :=
  match p with
  | PRet _ => True
  | PRead o k => is_read o = true /\ forall v, reads_only (k v)
  | PAmps k => forall a, reads_only (k a)
  end.
(** what a cost function computes if every property it reads is that of the solver [f] *)
Fixpoint evaluates (f : st) (p : @prog F) (a : arrF) : Prop :=
  match p with
  | PRet r => r = Ok a
  | PRead o k => exists v, returns rexp la eps f o v /\ evaluates f (k v) a
  | PAmps k => evaluates f (k (s_amps f)) a
  end.
(** [f] is the new solver [s0] after set_optimization_parameters(y) *)
Definition with_pulse (s0 : st) (y : arrF) (f : st) : Prop := sstep rexp la eps s0 (SSet y) = (f, Ok VUnit).
(** the costs of [c] at the pulse y, [s0] a new solver *)
Definition costs_at (s0 : st) (c : cfun) (y a : arrF) : Prop := exists f, with_pulse s0 y f /\ evaluates f (cf_costs c) a.
(** the gradient of [c] by the pulse at y: grad() by the amplitudes, with an axis for the function inserted if there is
    none, taken back through the amplitude function at the transferred pulse x and through the transfer function *)
Definition gradient_at (s0 : st) (c : cfun) (y h : arrF) : Prop :=
  exists f g g' x k, with_pulse s0 y f /\ evaluates f (cf_grad c) g /\
   ((length (shape g) <> 2 /\ g' = g) \/ exists m n, shape g = [m; n] /\ shape g' = [m; 1; n] /\ data g' = data g) /\
   snd (call rexp (s_tf s0) y) = Ok x /\ amp_chain (c_amp (s_conf s0)) g' x = Ok k /\ snd (grad rexp (s_tf s0) k) = Ok h.

(** a simulator for the new solvers w0: all its references exist, the solver of every cost function is one of the
    simulator's solvers *)
Definition set_up (m : sim) (w0 : world) : Prop :=
  (forall s0, In s0 w0 -> exists d, constructed d s0 /\ good la eps (s_conf s0)) /\
  (forall i, In i (sm_solvers m) -> i < length w0) /\ sm_cfs m <> [] /\
  (forall c, In c (sm_cfs m) -> In (cf_solver c) (sm_solvers m) /\ reads_only (cf_costs c) /\ reads_only (cf_grad c)).
(** the solvers after calls of the simulator that did not raise *)
Inductive simulated (m : sim) (w0 : world) : world -> Prop :=
| sim_new : simulated m w0 w0
| sim_cost w w' p v : simulated m w0 w -> wrapped_cost rexp la eps m p w = (w', Ok v) -> simulated m w0 w'
| sim_jac w w' p dl v : simulated m w0 w -> wrapped_jac rexp la eps m p dl w = (w', Ok v) -> simulated m w0 w'.
(** all solvers of the simulator accept the pulse *)
Definition accepted (m : sim) (w0 : world) (y : arrF) : Prop :=
  forall i s0, In i (sm_solvers m) -> nth_error w0 i = Some s0 -> exists f, with_pulse s0 y f.
(** the pulse a call uses: the argument, else the attribute *)
Definition pulse_used (m : sim) (p : option arrF) (y : arrF) : Prop := p = Some y \/ p = None /\ sm_pulse m = Some y.

(** number of elements before block i *)
Definition offset (sizes : list nat) (i : nat) : nat := list_sum (firstn i sizes).
(** block i of v, starting at the offset, is the list ls[i], and nothing follows the last block *)
Definition blocks {A} (ls : list (list A)) (v : list A) : Prop :=
  length v = list_sum (map (@length A) ls) /\
  forall i l k x, nth_error ls i = Some l -> nth_error l k = Some x -> nth_error v (offset (map (@length A) ls) i + k) = Some x.

(** the costs of all cost functions at any pulse of shape (T, C) are f 0 y, ..., f (n-1) y *)
Definition computes (m : sim) (w0 : world) (T C n : nat) (f : nat -> arrF -> F) : Prop :=
  forall y, wfa [T; C] y -> accepted m w0 y /\
   exists vals, Forall2 (fun c a => exists s0, nth_error w0 (cf_solver c) = Some s0 /\ costs_at s0 c y a) (sm_cfs m) vals /\
     concat (map (@data F) vals) = map (fun k => f k y) (seq 0 n).
(** sum over all entries of a pulse *)
Definition over (T C : nat) (g : nat -> nat -> F) : F := sumn (S:=KStar F) T (fun t => sumn (S:=KStar F) C (fun c => g t c)).
End Spec.
Arguments reads_only {F}. Arguments pulse_used {F}. Arguments over {F}.
(** y' is y with entry (t, c) increased by d *)
Definition moved {F : OField} (T C : nat) (y : arr (kcar F)) (t c : nat) (d : F) (y' : arr (kcar F)) : Prop :=
  wfa [T; C] y' /\ forall i j, i < T -> j < C -> get2 k0 y' i j = if Nat.eqb i t && Nat.eqb j c then kadd (get2 k0 y i j) d else get2 k0 y i j.
