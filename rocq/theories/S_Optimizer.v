(** Specification vocabulary for the optimisers: simulators that record what they are asked, layout of the
    parameters, best evaluation. *)
Require Import List Arith Bool Reals.
From Verif Require Import LibBase LibRing LibArr LibCplx S_Deriv M_Optimizer.
Import ListNotations.
Open Scope nat_scope.
Set Implicit Arguments.

Section Spec.
Variable F : OField.
Notation arrF := (arr (kcar F)).

(** x is y in the order the algorithms see it: one control after the other *)
Definition same_parameters (nt nc : nat) (y x : arrF) : Prop :=
  wfa [nt; nc] y /\ wfa [nt * nc] x /\ forall t c, t < nt -> c < nc -> get1 k0 x (c * nt + t) = get2 k0 y t c.
(** sum of squares *)
Definition sumsq (v : list F) : F := sumn (S:=KStar F) (length v) (fun i => kmul (nth i v k0) (nth i v k0)).
(** v' is v times the weights *)
Definition weighted (ws : option (list F)) (v v' : list F) : Prop :=
  length v' = length v /\ forall i, i < length v -> nth i v' k0 = match ws with None => nth i v k0 | Some u => kmul (nth i v k0) (nth i u k0) end.
Definition weight (ws : option (list F)) (f : nat) : F := match ws with None => k1 | Some u => nth f u k0 end.

(** ---- recording ---- *)
Section Rec.
Variable W : Type.
Variable simc : arrF -> W -> W * res (list F).
Variable simj : arrF -> W -> W * res arrF.
(** the state of the simulator, the pulses and costs of all evaluations so far, the pulses and jacobians so far *)
Definition record := (W * list (arrF * list F) * list (arrF * arrF))%type.
Definition rec_costs (y : arrF) (r : record) : record * res (list F) :=
  let '(w, lc, lj) := r in match simc y w with (w', Ok v) => ((w', lc ++ [(y, v)], lj), Ok v) | (w', Err e) => ((w', lc, lj), Err e) end.
Definition rec_jac (y : arrF) (r : record) : record * res arrF :=
  let '(w, lc, lj) := r in match simj y w with (w', Ok j) => ((w', lc, lj ++ [(y, j)]), Ok j) | (w', Err e) => ((w', lc, lj), Err e) end.
(** the simulator returns n costs, and jacobians of shape (nt, n, nc) *)
Definition has_costs (nt nc n : nat) : Prop :=
  (forall y w w' v, simc y w = (w', Ok v) -> length v = n) /\ (forall y w w' j, wfa [nt; nc] y -> simj y w = (w', Ok j) -> wfa [nt; n; nc] j).
End Rec.

(** ---- calls ---- *)
(** what the code that uses an optimiser does between two calls of prepare_optimization: allocate a parameter array, evaluate the costs
    at an array, evaluate the jacobian, write to an array *)
Inductive oev := OAlloc (x : arrF) | OCost (a : nat) (now : F) | OJac (x : arrF) | OPoke (a : nat) (x : arrF).
Definition no_poke (e : oev) : Prop := match e with OPoke _ _ => False | _ => True end.
Section Calls.
Variable W : Type.
Variable simc : arrF -> W -> W * res (list F).
Variable simj : arrF -> W -> W * res arrF.
Definition ostep (cf : @oconf F) (s : @ost F W) (e : oev) : @ost F W :=
  match e with
  | OAlloc x => with_heap s (o_heap s ++ [x])
  | OCost a now => fst (cost_func_wrapper simc cf a now s)
  | OJac x => fst (cost_jacobian_wrapper simj cf x s)
  | OPoke a x => with_heap s (M_OpHeap.lset (o_heap s) a x)
  end.
Definition orun cf s h := fold_left (ostep cf) h s.
End Calls.

(** evaluation i has the smallest norm, all earlier ones have a larger norm *)
Definition is_best (lc : list (arrF * list F)) (i : nat) (y : arrF) (v : list F) : Prop :=
  nth_error lc i = Some (y, v) /\ forall j y' v', nth_error lc j = Some (y', v') -> kle (sumsq v) (sumsq v') /\ (j < i -> klt (sumsq v) (sumsq v')).
(** the stored minimum: nothing before the first evaluation, then the best one *)
Definition stores_best {W} (s : @ost F W) (lc : list (arrF * list F)) : Prop :=
  (lc = [] /\ o_min s = None /\ o_par s = None) \/
  exists i y v a p, is_best lc i y v /\ o_min s = Some a /\ cells_of s a = v /\ o_par s = Some p /\ view_of s p = y.
End Spec.
Arguments OAlloc {F}. Arguments OCost {F}. Arguments OJac {F}. Arguments OPoke {F}.
Arguments same_parameters {F}. Arguments sumsq {F}. Arguments weighted {F}. Arguments weight {F}. Arguments is_best {F}. Arguments stores_best {F W}. Arguments has_costs {F W}. Arguments no_poke {F}. Arguments record {F}.

(** ---- what the algorithm is told ---- *)
Section Answers.
Variable F : OField.
Notation arrF := (arr (kcar F)).
Variable W : Type.
Variable simc : arrF -> W -> W * res (list F).
Variable simj : arrF -> W -> W * res arrF.
(** the numbers the algorithm gets for the parameters x at time now *)
Definition answer kd (cf : @oconf F) (s : @ost F W) (now : F) (x : arrF) : list F :=
  match call_cost simc kd cf (length (o_heap s)) now (with_heap s (o_heap s ++ [x])) with (_, Ok a) => data a | _ => [] end.
(** the simulator computes phi and J for the pulses of nt steps and nc controls, whatever was computed before *)
Definition simulates (nt nc n : nat) (phi : arrF -> list F) (J : arrF -> arrF) : Prop := forall y w, wfa [nt; nc] y ->
  snd (simc y w) = Ok (phi y) /\ length (phi y) = n /\ snd (simj y w) = Ok (J y) /\ wfa [nt; n; nc] (J y).
(** the state of an optimiser after prepare_optimization at time t0 and any calls *)
Definition in_use (cf : @oconf F) (nt nc : nat) (t0 : F) (s : @ost F W) : Prop := exists s0 h, s = orun simc simj cf (prepare cf nt nc t0 s0) h.
(** the run is stopped by the clock *)
Definition stopped kd me (cf : @oconf F) (y0 : arrF) (t0 : F) sp (s : @ost F W) : Prop :=
  snd (interp simc simj kd cf (oc_jac cf && match kd, me with ScalarMin, OtherMethod => false | _, _ => true end) (sp (flatten y0)) (prepare cf (dim0 y0) (dim1 y0) t0 s)) = Err WallTimeExceeded.
End Answers.
Arguments simulates {F W}. Arguments in_use {F W}. Arguments answer {F W}. Arguments stopped {F W}.

(** the flat array x with e added to entry j *)
Definition bump1 (n : nat) (x : arr R) (j : nat) (e : R) : arr R := mk1 n (fun k => if Nat.eqb k j then (get1 0%R x k + e)%R else get1 0%R x k).
(** J holds the partial derivatives of the n costs phi at the pulse y *)
Definition jacobian_of (nt nc n : nat) (phi : arr R -> list R) (J : arr R -> arr R) (y : arr R) : Prop :=
  forall t f c, t < nt -> f < n -> c < nc -> is_partial nt nc (fun z => nth f (phi z) 0%R) y t c (get3 0%R (J y) t f c).
