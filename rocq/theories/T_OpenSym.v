(** Theorems about symmetries of the evolution of open systems in qopt/solver_algorithms.py, property C83 of properties.jsonl.
    Statements only; the proofs and the concrete cases are in the P_OpenSym*.v files. *)
Require Import List Arith Lia Bool Reals.
From Verif Require Import LibBase LibRing LibArr LibCplx LibMat LibDeriv M_Matrix S_Linear S_Deriv S_Exp M_Transfer S_Transfer M_Amplitude S_Amplitude M_Solver S_Solver S_Lindblad S_Channel P_GradWit P_ChannelWit S_Invariance P_InvarianceWit S_OpenSym P_OpenSym2 P_OpenSym4 P_OpenSym5 P_OpenSymWit P_OpenSymCases.
Import ListNotations.
Open Scope nat_scope.
Set Implicit Arguments.
Notation arr2 n h := (mk2 n n (h : nat -> nat -> RC) : mat RS).
Notation rid := (fun x : R => x).
Notation has s k l y r := (exists ps fs, open_evolution rid lla c0 s 2 k [arr2 2 l] (ipulse y) (rate r) ps fs).

(** ---------- C83: LindbladSolver ---------- *)
Theorem c83_offset : forall (rexp : R -> R) (la : LinAlg RField) (eps : cplx RField) (s s' : @st RField) n k Ls u u' w ps ps' fs fs' (e : nat -> R),
  open_evolution rexp la eps s n k Ls u w ps fs -> open_evolution rexp la eps s' n k Ls u' w ps' fs' -> same_setting s s' u u' ->
  (forall t, t < length (s_time s) -> shifted n (e t) (Dr s t) (Dr s' t)) -> ps' = ps /\ fs' = fs.
Proof. exact open_offset. Qed.
Print Assumptions c83_offset.
Example c83_case_offset : has o_base 1 low [1; 3]%R [1; 2]%R /\ has o_raised 1 low [1; 3]%R [1; 2]%R /\ same_setting o_base o_raised (ipulse [1; 3]%R) (ipulse [1; 3]%R) /\
  forall t, t < length (s_time o_base) -> shifted 2 (lift t) (Dr o_base t) (Dr o_raised t).
Proof. exact case_offset. Qed.
Theorem c83_factors : forall (rexp : R -> R) (la : LinAlg RField) (eps : cplx RField) (s s' : @st RField) n k Ls Ls' u u' w w' ps ps' fs fs' (z : nat -> RC),
  open_evolution rexp la eps s n k Ls u w ps fs -> open_evolution rexp la eps s' n k Ls' u' w' ps' fs' -> same_setting s s' u u' ->
  (forall t, t < length (s_time s) -> Dr s t = Dr s' t) -> length Ls = length Ls' -> (forall i, i < length Ls -> is_factor n (z i) (Lk Ls i) (Lk Ls' i)) ->
  (forall t i, t < length (s_time s) -> i < length Ls -> w t i = (w' t i * cnorm2 (z i))%R) -> ps' = ps /\ fs' = fs.
Proof. exact open_factors. Qed.
Print Assumptions c83_factors.
Example c83_case_factors : has o_base 1 low [1; 3]%R [1; 2]%R /\ has o_factor 1 (turn_i (0, 2)%R low) [1; 3]%R [/4; /2]%R /\ same_setting o_base o_factor (ipulse [1; 3]%R) (ipulse [1; 3]%R) /\
  (forall t, t < length (s_time o_base) -> Dr o_base t = Dr o_factor t) /\ (forall i, i < 1 -> is_factor 2 (0, 2)%R (Lk [arr2 2 low] i) (Lk [arr2 2 (turn_i (0, 2)%R low)] i)) /\
  forall t i, t < length (s_time o_base) -> i < 1 -> rate [1; 2]%R t i = (rate [/4; /2]%R t i * cnorm2 ((0, 2)%R : RC))%R.
Proof. exact case_factors. Qed.
Theorem c83_displaced : forall (rexp : R -> R) (la : LinAlg RField) (eps : cplx RField) (s s' : @st RField) n k Ls Ls' u u' w ps ps' fs fs' (a : nat -> RC),
  open_evolution rexp la eps s n k Ls u w ps fs -> open_evolution rexp la eps s' n k Ls' u' w ps' fs' -> same_setting s s' u u' ->
  length Ls = length Ls' -> (forall i, i < length Ls -> displaced n (a i) (Lk Ls i) (Lk Ls' i)) ->
  (forall t i j, t < length (s_time s) -> i < n -> j < n -> mg (Dr s' t) i j = cadd (mg (Dr s t) i j) (Sg (length Ls) (fun q => cmul (cofk (w t q : RField)) (compensation (Lk Ls q) (a q) i j)))) ->
  ps' = ps /\ fs' = fs.
Proof. exact open_displaced. Qed.
Print Assumptions c83_displaced.
Example c83_case_displaced : has o_base 1 low [1; 3]%R [1; 2]%R /\ has o_moved 1 (moved (0, 1)%R low) [1; 3]%R [1; 2]%R /\ same_setting o_base o_moved (ipulse [1; 3]%R) (ipulse [1; 3]%R) /\
  (forall i, i < 1 -> displaced 2 (0, 1)%R (Lk [arr2 2 low] i) (Lk [arr2 2 (moved (0, 1)%R low)] i)) /\
  forall t i j, t < length (s_time o_base) -> i < 2 -> j < 2 -> mg (Dr o_moved t) i j = cadd (mg (Dr o_base t) i j) (Sg 1 (fun q => cmul (cofk (rate [1; 2]%R t q : RField)) (compensation (Lk [arr2 2 low] q) (0, 1)%R i j))).
Proof. exact case_displaced. Qed.
Theorem c83_basis : forall (rexp : R -> R) (la : LinAlg RField) (eps : cplx RField) (s s' : @st RField) n k Ls Ls' u u' w ps ps' fs fs' (V : mat RS) x,
  open_evolution rexp la eps s n k Ls u w ps fs -> open_evolution rexp la eps s' n k Ls' u' w ps' fs' -> is_unitary (S:=RS) n V -> x < k ->
  s_time s = s_time s' -> length (c_ctrl (s_conf s)) = length (c_ctrl (s_conf s')) -> (forall t, t < length (s_time s) -> same_row (length (c_ctrl (s_conf s))) u t u' t) ->
  (forall t, t < length (s_time s) -> carries n n V (Dr s t) (Dr s' t)) -> (forall c, c < length (c_ctrl (s_conf s)) -> carries n n V (Ct s c) (Ct s' c)) ->
  length Ls = length Ls' -> (forall i, i < length Ls -> carries n n V (Lk Ls i) (Lk Ls' i)) ->
  (forall i j, i < n -> j < n -> column n (c_init (s_conf s')) x i j = turned n V (column n (c_init (s_conf s)) x) i j) ->
  forall t f f' i j, nth_error fs t = Some f -> nth_error fs' t = Some f' -> i < n -> j < n -> column n f' x i j = turned n V (column n f x) i j.
Proof. exact open_basis. Qed.
Print Assumptions c83_basis.
Example c83_case_basis : has o_base 1 low [1; 3]%R [1; 2]%R /\ has o_swap 1 (swapped low) [1; 3]%R [1; 2]%R /\ is_unitary (S:=RS) 2 (arr2 2 hx) /\ s_time o_base = s_time o_swap /\
  length (c_ctrl (s_conf o_base)) = length (c_ctrl (s_conf o_swap)) /\
  (forall t, t < length (s_time o_base) -> carries 2 2 (arr2 2 hx) (Dr o_base t) (Dr o_swap t)) /\ (forall c, c < length (c_ctrl (s_conf o_base)) -> carries 2 2 (arr2 2 hx) (Ct o_base c) (Ct o_swap c)) /\
  (forall i, i < 1 -> carries 2 2 (arr2 2 hx) (Lk [arr2 2 low] i) (Lk [arr2 2 (swapped low)] i)) /\
  forall i j, i < 2 -> j < 2 -> column 2 (c_init (s_conf o_swap)) 0 i j = turned 2 (arr2 2 hx) (column 2 (c_init (s_conf o_base)) 0) i j.
Proof. exact case_basis. Qed.
Theorem c83_conserved : forall (rexp : R -> R) (la : LinAlg RField) (eps : cplx RField) (s : @st RField) n k Ls u w ps fs (Q : mat RS) x,
  open_evolution rexp la eps s n k Ls u w ps fs -> is_hermitian (S:=RS) n Q -> x < k ->
  (forall t, t < length (s_time s) -> carries n n Q (Dr s t) (Dr s t)) -> (forall c, c < length (c_ctrl (s_conf s)) -> carries n n Q (Ct s c) (Ct s c)) ->
  (forall i, i < length Ls -> carries n n Q (Lk Ls i) (Lk Ls i)) ->
  forall t f, nth_error fs t = Some f -> mean n Q (column n f x) = mean n Q (column n (c_init (s_conf s)) x).
Proof. exact open_conserved. Qed.
Print Assumptions c83_conserved.
Example c83_case_conserved : has o_dephase 1 hz [1; 3]%R [1; 2]%R /\ is_hermitian (S:=RS) 2 (arr2 2 hz) /\
  (forall t, t < length (s_time o_dephase) -> carries 2 2 (arr2 2 hz) (Dr o_dephase t) (Dr o_dephase t)) /\ (forall c, c < length (c_ctrl (s_conf o_dephase)) -> carries 2 2 (arr2 2 hz) (Ct o_dephase c) (Ct o_dephase c)) /\
  forall i, i < 1 -> carries 2 2 (arr2 2 hz) (Lk [arr2 2 hz] i) (Lk [arr2 2 hz] i).
Proof. exact case_conserved. Qed.
Theorem c83_stationary : forall (rexp : R -> R) (la : LinAlg RField) (eps : cplx RField) (s : @st RField) n k Ls u w ps fs x,
  open_evolution rexp la eps s n k Ls u w ps fs -> x < k ->
  (forall t i j, t < length (s_time s) -> i < n -> j < n -> motion n s Ls u w t (column n (c_init (s_conf s)) x) i j = c0) ->
  forall t f i j, nth_error fs t = Some f -> i < n -> j < n -> column n f x i j = column n (c_init (s_conf s)) x i j.
Proof. exact open_stationary. Qed.
Print Assumptions c83_stationary.
Example c83_case_stationary : has o_ground 1 low [1; 3]%R [1; 2]%R /\
  forall t i j, t < length (s_time o_ground) -> i < 2 -> j < 2 -> motion 2 o_ground [arr2 2 low] (ipulse [1; 3]%R) (rate [1; 2]%R) t (column 2 (c_init (s_conf o_ground)) 0) i j = c0.
Proof. exact case_stationary. Qed.
Theorem c83_balanced : forall (rexp : R -> R) (la : LinAlg RField) (eps : cplx RField) (s : @st RField) n k Ls u w ps fs x (z : RC),
  open_evolution rexp la eps s n k Ls u w ps fs -> x < k -> (forall t, t < length (s_time s) -> balanced n Ls (w t)) ->
  (forall i j, i < n -> j < n -> column n (c_init (s_conf s)) x i j = cmul z (delta (S:=RS) i j)) ->
  forall t f i j, nth_error fs t = Some f -> i < n -> j < n -> column n f x i j = cmul z (delta (S:=RS) i j).
Proof. exact open_balanced. Qed.
Print Assumptions c83_balanced.
Example c83_case_balanced : has o_mixed 1 hx [1; 3]%R [1; 2]%R /\ (forall t, t < length (s_time o_mixed) -> balanced 2 [arr2 2 hx] (rate [1; 2]%R t)) /\
  forall i j, i < 2 -> j < 2 -> column 2 (c_init (s_conf o_mixed)) 0 i j = cmul ((/2, 0)%R : RC) (delta (S:=RS) i j).
Proof. exact case_balanced. Qed.
Theorem c83_units : forall (rexp : R -> R) (la : LinAlg RField) (eps : cplx RField) (s s' : @st RField) n k Ls u u' w w' ps ps' fs fs' lam (mu : nat -> R),
  open_evolution rexp la eps s n k Ls u w ps fs -> open_evolution rexp la eps s' n k Ls u' w' ps' fs' ->
  s_time s' = map (fun x => lam * x)%R (s_time s) -> length (c_ctrl (s_conf s)) = length (c_ctrl (s_conf s')) ->
  (forall t c, t < length (s_time s) -> c < length (c_ctrl (s_conf s)) -> get2 0%R u' t c = (mu c * get2 0 u t c)%R) ->
  (forall t, t < length (s_time s) -> rescaled n lam (Dr s' t) (Dr s t)) -> (forall c, c < length (c_ctrl (s_conf s)) -> rescaled n (lam * mu c)%R (Ct s' c) (Ct s c)) ->
  (forall t i, t < length (s_time s) -> i < length Ls -> w t i = (lam * w' t i)%R) -> c_init (s_conf s) = c_init (s_conf s') -> ps' = ps /\ fs' = fs.
Proof. exact open_units. Qed.
Print Assumptions c83_units.
Example c83_case_units : has o_base 1 low [1; 3]%R [1; 2]%R /\ has o_units 1 low [3 * 1; 3 * 3]%R [/2; 1]%R /\
  s_time o_units = map (fun x => 2 * x)%R (s_time o_base) /\ length (c_ctrl (s_conf o_base)) = length (c_ctrl (s_conf o_units)) /\
  (forall t c, t < length (s_time o_base) -> c < length (c_ctrl (s_conf o_base)) -> get2 0%R (ipulse [3 * 1; 3 * 3]%R) t c = (3 * get2 0 (ipulse [1; 3]%R) t c)%R) /\
  (forall t, t < length (s_time o_base) -> rescaled 2 2 (Dr o_units t) (Dr o_base t)) /\ (forall c, c < length (c_ctrl (s_conf o_base)) -> rescaled 2 (2 * 3) (Ct o_units c) (Ct o_base c)) /\
  (forall t i, t < length (s_time o_base) -> i < 1 -> rate [1; 2]%R t i = (2 * rate [/2; 1]%R t i)%R) /\ c_init (s_conf o_base) = c_init (s_conf o_units).
Proof. exact case_units. Qed.
Theorem c83_divided : forall (rexp : R -> R) (la : LinAlg RField) (eps : cplx RField) (s s' : @st RField) n k Ls u u' w w' ps ps' fs fs' (pos : nat -> nat),
  open_evolution rexp la eps s n k Ls u w ps fs -> open_evolution rexp la eps s' n k Ls u' w' ps' fs' ->
  c_ctrl (s_conf s) = c_ctrl (s_conf s') -> c_init (s_conf s) = c_init (s_conf s') -> pos 0 = 0 -> pos (length (s_time s)) <= length (s_time s') ->
  (forall t, t < length (s_time s) -> pos t <= pos (Datatypes.S t) /\ total (fun j => nth (pos t + j) (s_time s') 0%R) (pos (Datatypes.S t) - pos t) = nth t (s_time s) 0%R) ->
  (forall t j, t < length (s_time s) -> pos t <= j < pos (Datatypes.S t) -> same_row (length (c_ctrl (s_conf s))) u t u' j /\ Dr s t = Dr s' j /\ forall i, i < length Ls -> w t i = w' j i) ->
  forall t f, nth_error fs t = Some f -> nth_error fs' (pos t) = Some f.
Proof. exact open_divided. Qed.
Print Assumptions c83_divided.
Example c83_case_divided : has o_base 1 low [1; 3]%R [1; 2]%R /\ has o_parts 1 low [1; 3; 3]%R [1; 2; 2]%R /\
  c_ctrl (s_conf o_base) = c_ctrl (s_conf o_parts) /\ c_init (s_conf o_base) = c_init (s_conf o_parts) /\ place 0 = 0 /\ place (length (s_time o_base)) <= length (s_time o_parts) /\
  (forall t, t < length (s_time o_base) -> place t <= place (S t) /\ total (fun j => nth (place t + j) (s_time o_parts) 0%R) (place (S t) - place t) = nth t (s_time o_base) 0%R) /\
  forall t j, t < length (s_time o_base) -> place t <= j < place (S t) -> same_row (length (c_ctrl (s_conf o_base))) (ipulse [1; 3]%R) t (ipulse [1; 3; 3]%R) j /\ Dr o_base t = Dr o_parts j /\
    forall i, i < 1 -> rate [1; 2]%R t i = rate [1; 2; 2]%R j i.
Proof. exact case_divided. Qed.
Theorem c83_closed : forall (rexp rexp' : R -> R) (la la' : LinAlg RField) (eps eps' : cplx RField) (s s' : @st RField) n k k' Ls u u' w ps ps' fs fs' (D : mat RS) x,
  open_evolution rexp la eps s n k Ls u w ps fs -> evolution rexp' la' eps' s' n k' u' ps' fs' -> x < k ->
  s_time s = s_time s' -> c_ctrl (s_conf s) = c_ctrl (s_conf s') -> (forall t, t < length (s_time s) -> same_row (length (c_ctrl (s_conf s))) u t u' t /\ Dr s t = Dr s' t /\ is_hermitian (S:=RS) n (Dr s t)) ->
  (forall t i, t < length (s_time s) -> i < length Ls -> w t i = 0%R) ->
  (forall i j, i < n -> j < n -> column n (c_init (s_conf s)) x i j = mixture k' D (c_init (s_conf s')) i j) ->
  forall t f f' i j, nth_error fs t = Some f -> nth_error fs' t = Some f' -> i < n -> j < n -> column n f x i j = mixture k' D f' i j.
Proof. exact open_closed. Qed.
Print Assumptions c83_closed.
Example c83_case_closed : has o_closed 1 low [1; 3]%R [0; 0]%R /\ (exists ps fs, evolution rid wla c0 (s_base rid) 2 2 (ipulse [1; 3]%R) ps fs) /\ s_time o_closed = s_time (s_base rid) /\ c_ctrl (s_conf o_closed) = c_ctrl (s_conf (s_base rid)) /\
  (forall t, t < length (s_time o_closed) -> same_row (length (c_ctrl (s_conf o_closed))) (ipulse [1; 3]%R) t (ipulse [1; 3]%R) t /\ Dr o_closed t = Dr (s_base rid) t /\ is_hermitian (S:=RS) 2 (Dr o_closed t)) /\
  (forall t i, t < length (s_time o_closed) -> i < 1 -> rate [0; 0]%R t i = 0%R) /\
  forall i j, i < 2 -> j < 2 -> column 2 (c_init (s_conf o_closed)) 0 i j = mixture 2 (arr2 2 ones_) (c_init (s_conf (s_base rid))) i j.
Proof. exact case_closed. Qed.
Theorem c83_initial_states : forall (rexp : R -> R) (la : LinAlg RField) (eps : cplx RField) (s s' : @st RField) n k k' Ls u u' w ps ps' fs fs' (A : mat RS),
  open_evolution rexp la eps s n k Ls u w ps fs -> open_evolution rexp la eps s' n k' Ls u' w ps' fs' ->
  s_time s = s_time s' -> c_ctrl (s_conf s) = c_ctrl (s_conf s') -> (forall t, t < length (s_time s) -> same_row (length (c_ctrl (s_conf s))) u t u' t /\ Dr s t = Dr s' t) ->
  is_matrix (S:=RS) k k' A -> is_product (S:=RS) (n * n) k k' (c_init (s_conf s)) A (c_init (s_conf s')) ->
  forall t f f', nth_error fs t = Some f -> nth_error fs' t = Some f' -> is_product (S:=RS) (n * n) k k' f A f'.
Proof. exact open_initials. Qed.
Print Assumptions c83_initial_states.
Example c83_case_initial_states : has o_two 2 low [1; 3]%R [1; 2]%R /\ has o_sum 1 low [1; 3]%R [1; 2]%R /\ s_time o_two = s_time o_sum /\ c_ctrl (s_conf o_two) = c_ctrl (s_conf o_sum) /\
  (forall t, t < length (s_time o_two) -> Dr o_two t = Dr o_sum t) /\ is_product (S:=RS) (2 * 2) 2 1 (c_init (s_conf o_two)) (mk2 2 1 ones_ : mat RS) (c_init (s_conf o_sum)).
Proof. exact case_initials. Qed.
