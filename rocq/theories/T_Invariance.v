(** Theorems about symmetries of the simulated evolution in qopt/solver_algorithms.py, property C79 of properties.jsonl.
    Statements only; the proofs and the concrete cases are in the P_Invariance*.v files. *)
Require Import List Arith Lia Bool Reals.
From Verif Require Import LibBase LibRing LibArr LibCplx LibMat LibDeriv M_Matrix S_Linear S_Deriv S_Exp M_Transfer S_Transfer M_Amplitude S_Amplitude M_Solver S_Solver M_Cost S_Cost M_Simulator S_Simulator S_Gradient P_GradWit S_Invariance P_Invariance2 P_Invariance3 P_Invariance4 P_Invariance5 P_InvarianceWit.
Import ListNotations.
Open Scope nat_scope.
Set Implicit Arguments.
Notation herm n := (is_hermitian (S:=RS) n : op RField -> Prop).

(** ---------- C79: SchroedingerSolver ---------- *)
Theorem c79_intertwined : forall (rexp : R -> R) (la : LinAlg RField) (eps : cplx RField) m n k (V : mat RS) (s s' : @st RField) u u' ps ps' fs fs',
  evolution rexp la eps s n k u ps fs -> evolution rexp la eps s' m k u' ps' fs' -> is_matrix (S:=RS) m n V ->
  s_time s = s_time s' -> length (c_ctrl (s_conf s)) = length (c_ctrl (s_conf s')) -> (forall t, t < length (s_time s) -> same_row (length (c_ctrl (s_conf s))) u t u' t) ->
  (forall t, t < length (s_time s) -> carries m n V (Dr s t) (Dr s' t)) -> (forall c, c < length (c_ctrl (s_conf s)) -> carries m n V (Ct s c) (Ct s' c)) ->
  is_product (S:=RS) m n k V (c_init (s_conf s)) (c_init (s_conf s')) ->
  forall t f f', nth_error fs t = Some f -> nth_error fs' t = Some f' -> is_product (S:=RS) m n k V f f'.
Proof. exact carried. Qed.
Print Assumptions c79_intertwined.
Example c79_case_intertwined : forall rexp : R -> R, (exists ps fs, evolution rexp wla c0 (s_base rexp) 2 2 upulse ps fs) /\ (exists ps' fs', evolution rexp wla c0 (s_emb rexp) 3 2 upulse ps' fs') /\
  is_matrix (S:=RS) 3 2 emb_v /\ s_time (s_base rexp) = s_time (s_emb rexp) /\ length (c_ctrl (s_conf (s_base rexp))) = length (c_ctrl (s_conf (s_emb rexp))) /\
  (forall t, t < length (s_time (s_base rexp)) -> carries 3 2 emb_v (Dr (s_base rexp) t) (Dr (s_emb rexp) t)) /\
  (forall c, c < length (c_ctrl (s_conf (s_base rexp))) -> carries 3 2 emb_v (Ct (s_base rexp) c) (Ct (s_emb rexp) c)) /\
  is_product (S:=RS) 3 2 2 emb_v (c_init (s_conf (s_base rexp))) (c_init (s_conf (s_emb rexp))).
Proof. exact case_intertwined. Qed.
Theorem c79_initial_states : forall (rexp : R -> R) (la : LinAlg RField) (eps : cplx RField) n k k' (A : mat RS) (s s' : @st RField) u u' ps ps' fs fs',
  evolution rexp la eps s n k u ps fs -> evolution rexp la eps s' n k' u' ps' fs' -> is_matrix (S:=RS) k k' A ->
  s_time s = s_time s' -> c_ctrl (s_conf s) = c_ctrl (s_conf s') -> (forall t, t < length (s_time s) -> same_row (length (c_ctrl (s_conf s))) u t u' t) ->
  (forall t, t < length (s_time s) -> Dr s t = Dr s' t) -> is_product (S:=RS) n k k' (c_init (s_conf s)) A (c_init (s_conf s')) ->
  forall t f f', nth_error fs t = Some f -> nth_error fs' t = Some f' -> is_product (S:=RS) n k k' f A f'.
Proof. exact initials. Qed.
Print Assumptions c79_initial_states.
Example c79_case_initial : forall rexp : R -> R, (exists ps fs, evolution rexp wla c0 (s_base rexp) 2 2 upulse ps fs) /\ (exists ps' fs', evolution rexp wla c0 (s_sup rexp) 2 2 upulse ps' fs') /\
  s_time (s_base rexp) = s_time (s_sup rexp) /\ c_ctrl (s_conf (s_base rexp)) = c_ctrl (s_conf (s_sup rexp)) /\ (forall t, t < length (s_time (s_base rexp)) -> Dr (s_base rexp) t = Dr (s_sup rexp) t) /\
  is_product (S:=RS) 2 2 2 (c_init (s_conf (s_base rexp))) (mk2 2 2 ones_ : op RField) (c_init (s_conf (s_sup rexp))).
Proof. exact case_initial. Qed.
Theorem c79_conserved : forall (rexp : R -> R) (la : LinAlg RField) (eps : cplx RField) (s : @st RField) n k u ps fs (Q : mat RS),
  evolution rexp la eps s n k u ps fs -> is_matrix (S:=RS) n n Q -> length (s_drift s) = length (s_time s) ->
  Forall (herm n) (s_drift s) -> Forall (herm n) (c_ctrl (s_conf s)) ->
  (forall t, t < length (s_time s) -> carries n n Q (Dr s t) (Dr s t)) -> (forall c, c < length (c_ctrl (s_conf s)) -> carries n n Q (Ct s c) (Ct s c)) ->
  forall t f a b, nth_error fs t = Some f -> a < k -> b < k -> expectation n Q f a b = expectation n Q (c_init (s_conf s)) a b.
Proof. exact conserved. Qed.
Print Assumptions c79_conserved.
Example c79_case_conserved : forall rexp : R -> R, (exists ps fs, evolution rexp wla c0 (s_emb rexp) 3 2 upulse ps fs) /\ is_matrix (S:=RS) 3 3 weight /\ length (s_drift (s_emb rexp)) = length (s_time (s_emb rexp)) /\
  Forall (is_hermitian (S:=RS) 3 : op RField -> Prop) (s_drift (s_emb rexp)) /\ Forall (is_hermitian (S:=RS) 3 : op RField -> Prop) (c_ctrl (s_conf (s_emb rexp))) /\
  (forall t, t < length (s_time (s_emb rexp)) -> carries 3 3 weight (Dr (s_emb rexp) t) (Dr (s_emb rexp) t)) /\
  (forall c, c < length (c_ctrl (s_conf (s_emb rexp))) -> carries 3 3 weight (Ct (s_emb rexp) c) (Ct (s_emb rexp) c)).
Proof. exact case_conserved. Qed.
Theorem c79_offset : forall (rexp : R -> R) (la : LinAlg RField) (eps : cplx RField) (s s' : @st RField) n k u u' ps ps' fs fs' (e : nat -> R),
  evolution rexp la eps s n k u ps fs -> evolution rexp la eps s' n k u' ps' fs' ->
  s_time s = s_time s' -> c_ctrl (s_conf s) = c_ctrl (s_conf s') -> (forall t, t < length (s_time s) -> same_row (length (c_ctrl (s_conf s))) u t u' t) ->
  (forall t, t < length (s_time s) -> shifted n (e t) (Dr s t) (Dr s' t)) -> c_init (s_conf s) = c_init (s_conf s') ->
  forall t f f', nth_error fs t = Some f -> nth_error fs' t = Some f' -> is_multiple n k (phase (total (fun j => e j * nth j (s_time s) 0)%R t)) f f'.
Proof. exact offset. Qed.
Print Assumptions c79_offset.
Example c79_case_offset : forall rexp : R -> R, (exists ps fs, evolution rexp wla c0 (s_base rexp) 2 2 upulse ps fs) /\ (exists ps' fs', evolution rexp wla c0 (s_raised rexp) 2 2 upulse ps' fs') /\
  s_time (s_base rexp) = s_time (s_raised rexp) /\ c_ctrl (s_conf (s_base rexp)) = c_ctrl (s_conf (s_raised rexp)) /\
  (forall t, t < length (s_time (s_base rexp)) -> shifted 2 (lift t) (Dr (s_base rexp) t) (Dr (s_raised rexp) t)) /\ c_init (s_conf (s_base rexp)) = c_init (s_conf (s_raised rexp)).
Proof. exact case_offset. Qed.
Theorem c79_offset_operation : forall (rexp : R -> R) (la : LinAlg RField) (eps : cplx RField) (s s' : @st RField) n u u' ps ps' fs fs' (e : nat -> R) (la' : LinAlg RField) (V : op RField) b,
  evolution rexp la eps s n n u ps fs -> evolution rexp la eps s' n n u' ps' fs' ->
  s_time s = s_time s' -> c_ctrl (s_conf s) = c_ctrl (s_conf s') -> (forall t, t < length (s_time s) -> same_row (length (c_ctrl (s_conf s))) u t u' t) ->
  (forall t, t < length (s_time s) -> shifted n (e t) (Dr s t) (Dr s' t)) -> c_init (s_conf s) = c_init (s_conf s') -> is_matrix (S:=RS) n n V ->
  forall t f f', nth_error fs t = Some f -> nth_error fs' t = Some f' -> entanglement_fidelity (F:=RField) la' V f' None b = entanglement_fidelity la' V f None b.
Proof. exact offset_operation. Qed.
Print Assumptions c79_offset_operation.
Theorem c79_offset_state : forall (rexp : R -> R) (la : LinAlg RField) (eps : cplx RField) (s s' : @st RField) n u u' ps ps' fs fs' (e : nat -> R) (la' : LinAlg RField) (bra : op RField) b,
  evolution rexp la eps s n 1 u ps fs -> evolution rexp la eps s' n 1 u' ps' fs' ->
  s_time s = s_time s' -> c_ctrl (s_conf s) = c_ctrl (s_conf s') -> (forall t, t < length (s_time s) -> same_row (length (c_ctrl (s_conf s))) u t u' t) ->
  (forall t, t < length (s_time s) -> shifted n (e t) (Dr s t) (Dr s' t)) -> c_init (s_conf s) = c_init (s_conf s') -> is_matrix (S:=RS) 1 n bra ->
  forall t f f', nth_error fs t = Some f -> nth_error fs' t = Some f' -> state_fidelity (F:=RField) la' bra f' None b = state_fidelity la' bra f None b.
Proof. exact offset_state. Qed.
Print Assumptions c79_offset_state.
Example c79_case_offset_ket : forall rexp : R -> R, (exists ps fs, evolution rexp wla c0 (s_ket rexp hz hx) 2 1 upulse ps fs) /\ (exists ps' fs', evolution rexp wla c0 (s_ket rexp (raised 1 hz) (raised 5 hx)) 2 1 upulse ps' fs') /\
  s_time (s_ket rexp hz hx) = s_time (s_ket rexp (raised 1 hz) (raised 5 hx)) /\ c_ctrl (s_conf (s_ket rexp hz hx)) = c_ctrl (s_conf (s_ket rexp (raised 1 hz) (raised 5 hx))) /\
  (forall t, t < length (s_time (s_ket rexp hz hx)) -> shifted 2 (lift t) (Dr (s_ket rexp hz hx) t) (Dr (s_ket rexp (raised 1 hz) (raised 5 hx)) t)) /\
  c_init (s_conf (s_ket rexp hz hx)) = c_init (s_conf (s_ket rexp (raised 1 hz) (raised 5 hx))).
Proof. exact case_offset_ket. Qed.
Theorem c79_basis : forall (rexp : R -> R) (la : LinAlg RField) (eps : cplx RField) (s s' : @st RField) n u u' ps ps' fs fs' (W : mat RS) (la' : LinAlg RField) (V V' : op RField) b,
  evolution rexp la eps s n n u ps fs -> evolution rexp la eps s' n n u' ps' fs' -> is_unitary (S:=RS) n W ->
  s_time s = s_time s' -> length (c_ctrl (s_conf s)) = length (c_ctrl (s_conf s')) -> (forall t, t < length (s_time s) -> same_row (length (c_ctrl (s_conf s))) u t u' t) ->
  (forall t, t < length (s_time s) -> carries n n W (Dr s t) (Dr s' t)) -> (forall c, c < length (c_ctrl (s_conf s)) -> carries n n W (Ct s c) (Ct s' c)) ->
  carries n n W (c_init (s_conf s)) (c_init (s_conf s')) -> is_matrix (S:=RS) n n V -> is_matrix (S:=RS) n n V' -> carries n n W V V' ->
  forall t f f', nth_error fs t = Some f -> nth_error fs' t = Some f' -> carries n n W f f' /\ entanglement_fidelity (F:=RField) la' V' f' None b = entanglement_fidelity la' V f None b.
Proof. exact basis_operation. Qed.
Print Assumptions c79_basis.
Example c79_case_basis : forall rexp : R -> R, (exists ps fs, evolution rexp wla c0 (s_base rexp) 2 2 upulse ps fs) /\ (exists ps' fs', evolution rexp wla c0 (s_swap rexp) 2 2 upulse ps' fs') /\ is_unitary (S:=RS) 2 (mk2 2 2 hx : op RField) /\
  s_time (s_base rexp) = s_time (s_swap rexp) /\ length (c_ctrl (s_conf (s_base rexp))) = length (c_ctrl (s_conf (s_swap rexp))) /\
  (forall t, t < length (s_time (s_base rexp)) -> carries 2 2 (mk2 2 2 hx : op RField) (Dr (s_base rexp) t) (Dr (s_swap rexp) t)) /\
  (forall c, c < length (c_ctrl (s_conf (s_base rexp))) -> carries 2 2 (mk2 2 2 hx : op RField) (Ct (s_base rexp) c) (Ct (s_swap rexp) c)) /\
  carries 2 2 (mk2 2 2 hx : op RField) (c_init (s_conf (s_base rexp))) (c_init (s_conf (s_swap rexp))) /\ carries 2 2 (mk2 2 2 hx : op RField) (mk2 2 2 hz : op RField) (mk2 2 2 (swapped hz) : op RField).
Proof. exact case_basis. Qed.
Theorem c79_units : forall (rexp : R -> R) (la : LinAlg RField) (eps : cplx RField) (s s' : @st RField) n k u u' ps ps' fs fs' lam (mu : nat -> R),
  evolution rexp la eps s n k u ps fs -> evolution rexp la eps s' n k u' ps' fs' ->
  s_time s' = map (fun x => lam * x)%R (s_time s) -> length (c_ctrl (s_conf s)) = length (c_ctrl (s_conf s')) ->
  (forall t c, t < length (s_time s) -> c < length (c_ctrl (s_conf s)) -> get2 0%R u' t c = (mu c * get2 0 u t c)%R) ->
  (forall t, t < length (s_time s) -> rescaled n lam (Dr s' t) (Dr s t)) -> (forall c, c < length (c_ctrl (s_conf s)) -> rescaled n (lam * mu c)%R (Ct s' c) (Ct s c)) ->
  c_init (s_conf s) = c_init (s_conf s') -> ps' = ps /\ fs' = fs.
Proof. exact units. Qed.
Print Assumptions c79_units.
Example c79_case_units : forall rexp : R -> R, (exists ps fs, evolution rexp wla c0 (s_base rexp) 2 2 upulse ps fs) /\ (exists ps' fs', evolution rexp wla c0 (s_units rexp) 2 2 (ipulse [3 * 1; 3 * 3]%R) ps' fs') /\
  s_time (s_units rexp) = map (fun x => 2 * x)%R (s_time (s_base rexp)) /\ length (c_ctrl (s_conf (s_base rexp))) = length (c_ctrl (s_conf (s_units rexp))) /\
  (forall t c, t < length (s_time (s_base rexp)) -> c < length (c_ctrl (s_conf (s_base rexp))) -> get2 0%R (ipulse [3 * 1; 3 * 3]%R) t c = (3 * get2 0 upulse t c)%R) /\
  (forall t, t < length (s_time (s_base rexp)) -> rescaled 2 2 (Dr (s_units rexp) t) (Dr (s_base rexp) t)) /\
  (forall c, c < length (c_ctrl (s_conf (s_base rexp))) -> rescaled 2 (2 * 3) (Ct (s_units rexp) c) (Ct (s_base rexp) c)) /\ c_init (s_conf (s_base rexp)) = c_init (s_conf (s_units rexp)).
Proof. exact case_units. Qed.
Theorem c79_divided : forall (rexp : R -> R) (la : LinAlg RField) (eps : cplx RField) (s s' : @st RField) n k u u' ps ps' fs fs' (pos : nat -> nat),
  evolution rexp la eps s n k u ps fs -> evolution rexp la eps s' n k u' ps' fs' ->
  c_ctrl (s_conf s) = c_ctrl (s_conf s') -> c_init (s_conf s) = c_init (s_conf s') -> pos 0 = 0 -> pos (length (s_time s)) <= length (s_time s') ->
  (forall t, t < length (s_time s) -> pos t <= pos (S t) /\ total (fun j => nth (pos t + j) (s_time s') 0%R) (pos (S t) - pos t) = nth t (s_time s) 0%R) ->
  (forall t j, t < length (s_time s) -> pos t <= j < pos (S t) -> same_row (length (c_ctrl (s_conf s))) u t u' j /\ Dr s t = Dr s' j) ->
  forall t f, nth_error fs t = Some f -> nth_error fs' (pos t) = Some f.
Proof. exact divided. Qed.
Print Assumptions c79_divided.
Example c79_case_divided : forall rexp : R -> R, (exists ps fs, evolution rexp wla c0 (s_base rexp) 2 2 upulse ps fs) /\ (exists ps' fs', evolution rexp wla c0 (s_parts rexp) 2 2 (ipulse [1; 3; 3]%R) ps' fs') /\
  c_ctrl (s_conf (s_base rexp)) = c_ctrl (s_conf (s_parts rexp)) /\ c_init (s_conf (s_base rexp)) = c_init (s_conf (s_parts rexp)) /\ place 0 = 0 /\ place (length (s_time (s_base rexp))) <= length (s_time (s_parts rexp)) /\
  (forall t, t < length (s_time (s_base rexp)) -> place t <= place (S t) /\ total (fun j => nth (place t + j) (s_time (s_parts rexp)) 0%R) (place (S t) - place t) = nth t (s_time (s_base rexp)) 0%R) /\
  (forall t j, t < length (s_time (s_base rexp)) -> place t <= j < place (S t) -> same_row (length (c_ctrl (s_conf (s_base rexp)))) upulse t (ipulse [1; 3; 3]%R) j /\ Dr (s_base rexp) t = Dr (s_parts rexp) j).
Proof. exact case_divided. Qed.
Theorem c79_undone : forall (rexp : R -> R) (la : LinAlg RField) (eps : cplx RField) (s s' : @st RField) n k u u' ps ps' fs fs',
  evolution rexp la eps s n k u ps fs -> evolution rexp la eps s' n k u' ps' fs' ->
  s_time s' = rev (s_time s) -> c_ctrl (s_conf s) = c_ctrl (s_conf s') ->
  (forall t c, t < length (s_time s) -> c < length (c_ctrl (s_conf s)) -> get2 0%R u' t c = (- get2 0 u (length (s_time s) - 1 - t) c)%R) ->
  (forall t, t < length (s_time s) -> rescaled n (-1) (Dr s (length (s_time s) - 1 - t)) (Dr s' t)) ->
  nth_error fs (length (s_time s)) = Some (c_init (s_conf s')) ->
  fs' = rev fs.
Proof. exact undone. Qed.
Print Assumptions c79_undone.
Example c79_case_undone : forall rexp : R -> R, exists ps fs f, evolution rexp wla c0 (s_base rexp) 2 2 upulse ps fs /\ nth_error fs (length (s_time (s_base rexp))) = Some f /\
  (exists ps' fs', evolution rexp wla c0 (s_back rexp f) 2 2 (ipulse [-(3); -(1)]%R) ps' fs') /\ s_time (s_back rexp f) = rev (s_time (s_base rexp)) /\ c_ctrl (s_conf (s_base rexp)) = c_ctrl (s_conf (s_back rexp f)) /\
  (forall t c, t < length (s_time (s_base rexp)) -> c < length (c_ctrl (s_conf (s_base rexp))) -> get2 0%R (ipulse [-(3); -(1)]%R) t c = (- get2 0 upulse (length (s_time (s_base rexp)) - 1 - t) c)%R) /\
  (forall t, t < length (s_time (s_base rexp)) -> rescaled 2 (-1) (Dr (s_base rexp) (length (s_time (s_base rexp)) - 1 - t)) (Dr (s_back rexp f) t)) /\
  nth_error fs (length (s_time (s_base rexp))) = Some (c_init (s_conf (s_back rexp f))).
Proof. exact case_undone. Qed.
Theorem c79_successive : forall (rexp : R -> R) (la : LinAlg RField) (eps : cplx RField) (s1 s2 s : @st RField) n k u1 u2 u ps1 ps2 ps fs1 fs2 fs,
  evolution rexp la eps s1 n k u1 ps1 fs1 -> evolution rexp la eps s2 n k u2 ps2 fs2 -> evolution rexp la eps s n k u ps fs ->
  s_time s = s_time s1 ++ s_time s2 -> c_ctrl (s_conf s1) = c_ctrl (s_conf s) -> c_ctrl (s_conf s2) = c_ctrl (s_conf s) ->
  (forall t, t < length (s_time s1) -> same_row (length (c_ctrl (s_conf s))) u1 t u t /\ Dr s1 t = Dr s t) ->
  (forall t, t < length (s_time s2) -> same_row (length (c_ctrl (s_conf s))) u2 t u (length (s_time s1) + t) /\ Dr s2 t = Dr s (length (s_time s1) + t)) ->
  c_init (s_conf s1) = c_init (s_conf s) -> nth_error fs1 (length (s_time s1)) = Some (c_init (s_conf s2)) ->
  ps = ps1 ++ ps2 /\ fs = fs1 ++ tl fs2.
Proof. exact successive. Qed.
Print Assumptions c79_successive.
Example c79_case_successive : forall rexp : R -> R, exists ps1 fs1 f, evolution rexp wla c0 (s_base rexp) 2 2 upulse ps1 fs1 /\ nth_error fs1 (length (s_time (s_base rexp))) = Some f /\
  (exists ps2 fs2, evolution rexp wla c0 (s_next rexp f) 2 2 (ipulse [2; 5]%R) ps2 fs2) /\ (exists ps fs, evolution rexp wla c0 (s_long rexp) 2 2 (ipulse [1; 3; 2; 5]%R) ps fs) /\
  s_time (s_long rexp) = s_time (s_base rexp) ++ s_time (s_next rexp f) /\ c_ctrl (s_conf (s_base rexp)) = c_ctrl (s_conf (s_long rexp)) /\ c_ctrl (s_conf (s_next rexp f)) = c_ctrl (s_conf (s_long rexp)) /\
  (forall t, t < length (s_time (s_base rexp)) -> same_row (length (c_ctrl (s_conf (s_long rexp)))) upulse t (ipulse [1; 3; 2; 5]%R) t /\ Dr (s_base rexp) t = Dr (s_long rexp) t) /\
  (forall t, t < length (s_time (s_next rexp f)) -> same_row (length (c_ctrl (s_conf (s_long rexp)))) (ipulse [2; 5]%R) t (ipulse [1; 3; 2; 5]%R) (length (s_time (s_base rexp)) + t) /\ Dr (s_next rexp f) t = Dr (s_long rexp) (length (s_time (s_base rexp)) + t)) /\
  c_init (s_conf (s_base rexp)) = c_init (s_conf (s_long rexp)) /\ nth_error fs1 (length (s_time (s_base rexp))) = Some (c_init (s_conf (s_next rexp f))).
Proof. exact case_successive. Qed.
