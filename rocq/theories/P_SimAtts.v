(** check() of the simulator (C70). *)
Require Import List Arith Lia Bool.
From Verif Require Import LibBase M_SimCheck S_SimCheck.
Import ListNotations.
Set Implicit Arguments.

Lemma differs_false n o : differs n o = false <-> o = Some n.
Proof.
  destruct o as [m|]; cbn; [|split; discriminate]. destruct (Nat.eqb_spec n m) as [->|N]; cbn; [split; auto|]. split; [discriminate|]. intros E. congruence.
Qed.
Lemma check_iff a : check_atts a = Ok tt <-> exists n c, a_times a = TArray n /\ a_ntimes a = Some n /\ a_ctrl a = Some c /\ a_pulse a = Some [n; c].
Proof.
  destruct a as [nc nt p ts]. unfold check_atts. cbn [a_times a_ntimes a_ctrl a_pulse]. split.
  - destruct ts as [| |n]; try discriminate. destruct (differs n nt) eqn:D1; [discriminate|]. apply differs_false in D1. subst nt.
    destruct p as [[|t [|c [|]]]|]; try discriminate. destruct (differs t (Some n)) eqn:D2; [discriminate|]. apply differs_false in D2. injection D2 as <-.
    destruct (differs c nc) eqn:D3; [discriminate|]. apply differs_false in D3. subst nc. intros _. exists n, c. auto.
  - intros (n & c & -> & -> & -> & ->). cbn. now rewrite !Nat.eqb_refl.
Qed.
Lemma check_raises_or_not a : check_atts a = Ok tt \/ exists e, check_atts a = Err e.
Proof. destruct (check_atts a) as [[]|e]; eauto. Qed.
(** pulses of one shape *)
Lemma sets_same n c l : forall a, a_pulse a = Some [n; c] -> l <> [] -> (forall y, In y l -> y = Some [n; c]) ->
  sets a l = mkatts (Some c) (Some n) (Some [n; c]) (a_times a).
Proof.
  induction l as [|y l IH]; intros a E N H; [congruence|]. cbn [sets]. rewrite (H y (or_introl eq_refl)). unfold pulse_setter. rewrite E. cbn [fst].
  destruct l as [|z l]; [reflexivity|]. rewrite IH; auto; [discriminate|]. intros. apply H. now right.
Qed.
Lemma check_same n c l a : a_pulse a = Some [n; c] -> a_times a = TArray n -> l <> [] -> (forall y, In y l -> y = Some [n; c]) -> check_atts (sets a l) = Ok tt.
Proof. intros E T N H. rewrite (@sets_same n c l a); auto. apply check_iff. exists n, c. cbn. auto. Qed.
(** a pulse of another shape *)
Lemma check_changed n c n' c' a : a_pulse a = Some [n; c] -> a_times a = TArray n' -> [n'; c'] <> [n; c] ->
  let b := fst (pulse_setter a (Some [n'; c'])) in a_pulse b = Some [n'; c'] /\ check_atts b = Err ValueError.
Proof.
  intros E T N. unfold pulse_setter. rewrite E. cbn [fst a_pulse]. split; auto. unfold check_atts. cbn [a_times a_ntimes a_pulse a_ctrl]. rewrite T.
  destruct (differs n' (Some n)) eqn:D1; auto. destruct (differs c' (Some c)) eqn:D2; [now rewrite orb_true_r|].
  apply differs_false in D1, D2. congruence.
Qed.
(** set twice *)
Lemma check_twice n c n' c' a : a_pulse a = Some [n; c] -> a_times a = TArray n' -> check_atts (sets a [Some [n'; c']; Some [n'; c']]) = Ok tt.
Proof. intros E T. cbn [sets]. unfold pulse_setter at 2. rewrite E. cbn [fst pulse_setter a_pulse]. apply check_iff. exists n', c'. cbn. auto. Qed.
Lemma first_set a y : a_pulse a = None -> pulse_setter a (Some y) = (a, Err AttributeError).
Proof. intros E. unfold pulse_setter. now rewrite E. Qed.
Lemma times_kept l : forall a, a_times (sets a l) = a_times a.
Proof.
  induction l as [|y l IH]; intros a; cbn [sets]; auto. rewrite IH. unfold pulse_setter. destruct y as [y|]; auto. destruct (a_pulse a) as [[|? [|? [|]]]|]; auto.
Qed.
Lemma check_sound a l : check_atts (sets a l) = Ok tt -> exists n c, a_times a = TArray n /\ a_pulse (sets a l) = Some [n; c].
Proof. intros H. apply check_iff in H. destruct H as (n & c & A & _ & _ & B). rewrite times_kept in A. eauto. Qed.
Lemma check_list a l n : a_times a = TList n -> check_atts (sets a l) = Err AttributeError.
Proof. intros H. unfold check_atts. rewrite times_kept, H. reflexivity. Qed.
