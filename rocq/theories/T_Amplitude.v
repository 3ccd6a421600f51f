(** Theorems about qopt/amplitude_functions.py, property C22 of properties.jsonl.  Statements only; the
    proofs are in P_Amplitude.v. *)
Require Import List Arith Reals.
From Verif Require Import LibBase LibRing LibArr LibCplx M_Amplitude S_Deriv S_Amplitude P_Amplitude.
Import ListNotations.
Set Implicit Arguments.

(** ---------- C22: the chain rule ---------- *)
Theorem c22_chain_rule : forall (T P C nf : nat) (a : amp RField) (x u g : RA) (f : nat -> RA -> R),
  0 < T -> 0 < P ->
  wfa [T; P] x -> correct_derivative T P C a x -> amp_call a x = Ok u -> wfa [T; nf; C] g ->
  (forall k, k < nf -> has_gradient T C (f k) u (fun t c => get3 0%R g t k c)) ->
  exists d, amp_chain a g x = Ok d /\ wfa [T; nf; P] d /\
    forall k, k < nf -> has_gradient T P (after_amp a (f k)) x (fun t p => get3 0%R d t k p).
Proof. exact @amplitude_chain_rule. Qed.
Print Assumptions c22_chain_rule.
Theorem c22_partials : forall (T P C nf : nat) (a : amp RField) (x u g : RA) (f : nat -> RA -> R),
  0 < T -> 0 < P ->
  wfa [T; P] x -> correct_derivative T P C a x -> amp_call a x = Ok u -> wfa [T; nf; C] g ->
  (forall k, k < nf -> has_gradient T C (f k) u (fun t c => get3 0%R g t k c)) ->
  exists d, amp_chain a g x = Ok d /\
    forall t k p, t < T -> k < nf -> p < P -> is_partial T P (after_amp a (f k)) x t p (get3 0%R d t k p).
Proof. exact @amplitude_partials. Qed.
Print Assumptions c22_partials.
Theorem c22_mixed_times_refuted :
  exists (a : amp RField) (x u g d : RA) (f : RA -> R),
  wfa [2; 1] x /\ amp_call a x = Ok u /\ wfa [2; 1] u /\
  (forall t, t < 2 -> is_partial 2 1 (fun y => match amp_call a y with Ok w => ent w t 0 | Err _ => 0%R end) x t 0 1) /\
  (exists f' df', a = ACustom (F:=RField) f' df' /\ df' x = Ok ones3) /\
  has_gradient 2 1 f u (fun t c => get3 0%R g t 0 c) /\ amp_chain a g x = Ok d /\
  ~ is_partial 2 1 (after_amp a f) x 1 0 (get3 0%R d 1 0 0).
Proof. exact @mix_refuted. Qed.
Print Assumptions c22_mixed_times_refuted.
Example c22_case_unary : correct_derivative 3 2 2 square (mk2 3 2 (fun t p => INR (t + p))).
Proof. apply square_correct. Qed.
Example c22_case : exists x u g d,
  wfa [1; 2] x /\ correct_derivative 1 2 1 product x /\ amp_call product x = Ok u /\ wfa [1; 1; 1] g /\
  has_gradient 1 1 (fun y => ent y 0 0) u (fun t c => get3 0%R g t 0 c) /\
  amp_chain product g x = Ok d /\ get3 0%R d 0 0 0 = 3%R /\ get3 0%R d 0 0 1 = 2%R.
Proof. exact product_case. Qed.
