(** Theorems about symmetries of the evolution of open systems in qopt/solver_algorithms.py whose dissipation is given as super
    operators or by a function, property C83 of properties.jsonl.
    Statements only; the proofs are in P_OpenSuper.v and P_OpenSuper2.v, the concrete cases in P_OpenSuperWit.v and P_OpenSuperCases.v. *)
Require Import List Arith Lia Bool Reals.
From Verif Require Import LibBase LibRing LibArr LibCplx LibMat LibDeriv M_Matrix S_Linear S_Deriv S_Exp M_Transfer S_Transfer M_Amplitude S_Amplitude M_Solver S_Solver S_Lindblad S_Channel P_GradWit P_ChannelWit S_Invariance P_InvarianceWit S_OpenSym S_OpenSuper P_OpenSuper P_OpenSuper2 P_OpenSymWit P_OpenSymCases P_OpenSuperWit P_OpenSuperCases.
Import ListNotations.
Open Scope nat_scope.
Set Implicit Arguments.
Notation arr2 n h := (mk2 n n (h : nat -> nat -> RC) : mat RS).
Notation rid := (fun x : R => x).
Notation has s k l y r := (exists ps fs, open_evolution rid lla c0 s 2 k [arr2 2 l] (ipulse y) (rate r) ps fs).
(** a solver whose dissipation is that of the operator l with the rates r, given as a super operator or by a function *)
Notation given s l y r := (exists ps fs, super_evolution rid lla c0 s 2 1 (ipulse y) (damp l r) ps fs).

(** ---------- C83: LindbladSolver with super operators ---------- *)
(** the same propagators whether the dissipation is given as operators, as super operators or by a function *)
Theorem c83_super_operators : forall (rexp : R -> R) (la : LinAlg RField) (eps : cplx RField) (s s' : @st RField) n k Ls u u' w Di ps ps' fs fs',
  open_evolution rexp la eps s n k Ls u w ps fs -> super_evolution rexp la eps s' n k u' Di ps' fs' -> same_setting s s' u u' ->
  (forall t, t < length (s_time s) -> Dr s t = Dr s' t) ->
  (forall t rho i j, t < length (s_time s) -> i < n -> j < n -> Di t rho i j = Sg (length Ls) (fun q => cmul (cofk (w t q : RField)) (dissipation (F:=RField) n (Lk Ls q) rho i j))) ->
  ps' = ps /\ fs' = fs.
Proof. exact super_operators. Qed.
Print Assumptions c83_super_operators.
Example c83_case_super_operators : forall b, has o_base 1 low [1; 3]%R [1; 2]%R /\ given (u_base b) low [1; 3]%R [1; 2]%R /\ same_setting o_base (u_base b) (ipulse [1; 3]%R) (ipulse [1; 3]%R) /\
  (forall t, t < length (s_time o_base) -> Dr o_base t = Dr (u_base b) t) /\
  forall t rho i j, t < length (s_time o_base) -> i < 2 -> j < 2 -> damp low [1; 2]%R t rho i j = Sg 1 (fun q => cmul (cofk (rate [1; 2]%R t q : RField)) (dissipation (F:=RField) 2 (Lk [arr2 2 low] q) rho i j)).
Proof. exact case_super_operators. Qed.
(** multiples of the identity in the drift do not matter *)
Theorem c83_super_offset : forall (rexp : R -> R) (la : LinAlg RField) (eps : cplx RField) (s s' : @st RField) n k u u' Di Di' (e : nat -> R) ps ps' fs fs',
  super_evolution rexp la eps s n k u Di ps fs -> super_evolution rexp la eps s' n k u' Di' ps' fs' -> same_setting s s' u u' ->
  (forall t, t < length (s_time s) -> shifted n (e t) (Dr s t) (Dr s' t)) ->
  (forall t rho i j, t < length (s_time s) -> i < n -> j < n -> Di t rho i j = Di' t rho i j) -> ps' = ps /\ fs' = fs.
Proof. exact super_equal. Qed.
Print Assumptions c83_super_offset.
Example c83_case_super_offset : forall b b', given (u_base b) low [1; 3]%R [1; 2]%R /\ given (u_raised b') low [1; 3]%R [1; 2]%R /\ same_setting (u_base b) (u_raised b') (ipulse [1; 3]%R) (ipulse [1; 3]%R) /\
  forall t, t < length (s_time (u_base b)) -> shifted 2 (lift t) (Dr (u_base b) t) (Dr (u_raised b') t).
Proof. exact case_super_offset. Qed.
(** another basis *)
Theorem c83_super_basis : forall (rexp : R -> R) (la : LinAlg RField) (eps : cplx RField) (s s' : @st RField) n k u u' Di Di' ps ps' fs fs' (V : mat RS) x,
  super_evolution rexp la eps s n k u Di ps fs -> super_evolution rexp la eps s' n k u' Di' ps' fs' -> is_unitary (S:=RS) n V -> x < k ->
  s_time s = s_time s' -> length (c_ctrl (s_conf s)) = length (c_ctrl (s_conf s')) -> (forall t, t < length (s_time s) -> same_row (length (c_ctrl (s_conf s))) u t u' t) ->
  (forall t, t < length (s_time s) -> carries n n V (Dr s t) (Dr s' t)) -> (forall c, c < length (c_ctrl (s_conf s)) -> carries n n V (Ct s c) (Ct s' c)) ->
  (forall t rho i j, t < length (s_time s) -> i < n -> j < n -> Di' t (turned n V rho) i j = turned n V (Di t rho) i j) ->
  (forall i j, i < n -> j < n -> column n (c_init (s_conf s')) x i j = turned n V (column n (c_init (s_conf s)) x) i j) ->
  forall t f f' i j, nth_error fs t = Some f -> nth_error fs' t = Some f' -> i < n -> j < n -> column n f' x i j = turned n V (column n f x) i j.
Proof. exact super_basis. Qed.
Print Assumptions c83_super_basis.
Example c83_case_super_basis : forall b b', given (u_base b) low [1; 3]%R [1; 2]%R /\ given (u_swap b') (swapped low) [1; 3]%R [1; 2]%R /\ is_unitary (S:=RS) 2 (arr2 2 hx) /\ s_time (u_base b) = s_time (u_swap b') /\
  length (c_ctrl (s_conf (u_base b))) = length (c_ctrl (s_conf (u_swap b'))) /\
  (forall t, t < length (s_time (u_base b)) -> carries 2 2 (arr2 2 hx) (Dr (u_base b) t) (Dr (u_swap b') t)) /\ (forall c, c < length (c_ctrl (s_conf (u_base b))) -> carries 2 2 (arr2 2 hx) (Ct (u_base b) c) (Ct (u_swap b') c)) /\
  (forall t rho i j, t < length (s_time (u_base b)) -> i < 2 -> j < 2 -> damp (swapped low) [1; 2]%R t (turned 2 (arr2 2 hx) rho) i j = turned 2 (arr2 2 hx) (damp low [1; 2]%R t rho) i j) /\
  forall i j, i < 2 -> j < 2 -> column 2 (c_init (s_conf (u_swap b'))) 0 i j = turned 2 (arr2 2 hx) (column 2 (c_init (s_conf (u_base b))) 0) i j.
Proof. exact case_super_basis. Qed.
(** conserved quantities *)
Theorem c83_super_conserved : forall (rexp : R -> R) (la : LinAlg RField) (eps : cplx RField) (s : @st RField) n k u Di ps fs (Q : mat RS) x,
  super_evolution rexp la eps s n k u Di ps fs -> is_hermitian (S:=RS) n Q -> x < k ->
  (forall t, t < length (s_time s) -> carries n n Q (Dr s t) (Dr s t)) -> (forall c, c < length (c_ctrl (s_conf s)) -> carries n n Q (Ct s c) (Ct s c)) ->
  (forall t rho, t < length (s_time s) -> mean n Q (Di t rho) = c0) ->
  forall t f, nth_error fs t = Some f -> mean n Q (column n f x) = mean n Q (column n (c_init (s_conf s)) x).
Proof. exact super_conserved. Qed.
Print Assumptions c83_super_conserved.
Example c83_case_super_conserved : forall b, given (u_dephase b) hz [1; 3]%R [1; 2]%R /\ is_hermitian (S:=RS) 2 (arr2 2 hz) /\
  (forall t, t < length (s_time (u_dephase b)) -> carries 2 2 (arr2 2 hz) (Dr (u_dephase b) t) (Dr (u_dephase b) t)) /\ (forall c, c < length (c_ctrl (s_conf (u_dephase b))) -> carries 2 2 (arr2 2 hz) (Ct (u_dephase b) c) (Ct (u_dephase b) c)) /\
  forall t rho, t < length (s_time (u_dephase b)) -> mean 2 (arr2 2 hz) (damp hz [1; 2]%R t rho) = c0.
Proof. exact case_super_conserved. Qed.
(** stationary states *)
Theorem c83_super_stationary : forall (rexp : R -> R) (la : LinAlg RField) (eps : cplx RField) (s : @st RField) n k u Di ps fs x,
  super_evolution rexp la eps s n k u Di ps fs -> x < k ->
  (forall t i j, t < length (s_time s) -> i < n -> j < n -> damped_motion n s u Di t (column n (c_init (s_conf s)) x) i j = c0) ->
  forall t f i j, nth_error fs t = Some f -> i < n -> j < n -> column n f x i j = column n (c_init (s_conf s)) x i j.
Proof. exact super_stationary. Qed.
Print Assumptions c83_super_stationary.
Example c83_case_super_stationary : forall b, given (u_ground b) low [1; 3]%R [1; 2]%R /\
  forall t i j, t < length (s_time (u_ground b)) -> i < 2 -> j < 2 -> damped_motion 2 (u_ground b) (ipulse [1; 3]%R) (damp low [1; 2]%R) t (column 2 (c_init (s_conf (u_ground b))) 0) i j = c0.
Proof. exact case_super_stationary. Qed.
(** other units of time, rates and amplitudes *)
Theorem c83_super_units : forall (rexp : R -> R) (la : LinAlg RField) (eps : cplx RField) (s s' : @st RField) n k u u' Di Di' ps ps' fs fs' lam (mu : nat -> R),
  super_evolution rexp la eps s n k u Di ps fs -> super_evolution rexp la eps s' n k u' Di' ps' fs' ->
  s_time s' = map (fun x => lam * x)%R (s_time s) -> length (c_ctrl (s_conf s)) = length (c_ctrl (s_conf s')) ->
  (forall t c, t < length (s_time s) -> c < length (c_ctrl (s_conf s)) -> get2 0%R u' t c = (mu c * get2 0 u t c)%R) ->
  (forall t, t < length (s_time s) -> rescaled n lam (Dr s' t) (Dr s t)) -> (forall c, c < length (c_ctrl (s_conf s)) -> rescaled n (lam * mu c)%R (Ct s' c) (Ct s c)) ->
  (forall t rho i j, t < length (s_time s) -> i < n -> j < n -> Di t rho i j = cmul (cofk (lam : RField)) (Di' t rho i j)) -> c_init (s_conf s) = c_init (s_conf s') -> ps' = ps /\ fs' = fs.
Proof. exact super_units. Qed.
Print Assumptions c83_super_units.
Example c83_case_super_units : forall b b', given (u_base b) low [1; 3]%R [1; 2]%R /\ given (u_units b') low [3 * 1; 3 * 3]%R [/2; 1]%R /\
  s_time (u_units b') = map (fun x => 2 * x)%R (s_time (u_base b)) /\ length (c_ctrl (s_conf (u_base b))) = length (c_ctrl (s_conf (u_units b'))) /\
  (forall t c, t < length (s_time (u_base b)) -> c < length (c_ctrl (s_conf (u_base b))) -> get2 0%R (ipulse [3 * 1; 3 * 3]%R) t c = (3 * get2 0 (ipulse [1; 3]%R) t c)%R) /\
  (forall t, t < length (s_time (u_base b)) -> rescaled 2 2 (Dr (u_units b') t) (Dr (u_base b) t)) /\ (forall c, c < length (c_ctrl (s_conf (u_base b))) -> rescaled 2 (2 * 3) (Ct (u_units b') c) (Ct (u_base b) c)) /\
  (forall t rho i j, t < length (s_time (u_base b)) -> i < 2 -> j < 2 -> damp low [1; 2]%R t rho i j = cmul (cofk (2%R : RField)) (damp low [/2; 1]%R t rho i j)) /\ c_init (s_conf (u_base b)) = c_init (s_conf (u_units b')).
Proof. exact case_super_units. Qed.
(** divided time steps *)
Theorem c83_super_divided : forall (rexp : R -> R) (la : LinAlg RField) (eps : cplx RField) (s s' : @st RField) n k u u' Di Di' ps ps' fs fs' (pos : nat -> nat),
  super_evolution rexp la eps s n k u Di ps fs -> super_evolution rexp la eps s' n k u' Di' ps' fs' ->
  c_ctrl (s_conf s) = c_ctrl (s_conf s') -> c_init (s_conf s) = c_init (s_conf s') -> pos 0 = 0 -> pos (length (s_time s)) <= length (s_time s') ->
  (forall t, t < length (s_time s) -> pos t <= pos (Datatypes.S t) /\ total (fun j => nth (pos t + j) (s_time s') 0%R) (pos (Datatypes.S t) - pos t) = nth t (s_time s) 0%R) ->
  (forall t j, t < length (s_time s) -> pos t <= j < pos (Datatypes.S t) -> same_row (length (c_ctrl (s_conf s))) u t u' j /\ Dr s t = Dr s' j /\ forall rho a b, a < n -> b < n -> Di t rho a b = Di' j rho a b) ->
  forall t f, nth_error fs t = Some f -> nth_error fs' (pos t) = Some f.
Proof. exact super_divided. Qed.
Print Assumptions c83_super_divided.
Example c83_case_super_divided : forall b b', given (u_base b) low [1; 3]%R [1; 2]%R /\ given (u_parts b') low [1; 3; 3]%R [1; 2; 2]%R /\
  c_ctrl (s_conf (u_base b)) = c_ctrl (s_conf (u_parts b')) /\ c_init (s_conf (u_base b)) = c_init (s_conf (u_parts b')) /\ place 0 = 0 /\ place (length (s_time (u_base b))) <= length (s_time (u_parts b')) /\
  (forall t, t < length (s_time (u_base b)) -> place t <= place (Datatypes.S t) /\ total (fun j => nth (place t + j) (s_time (u_parts b')) 0%R) (place (Datatypes.S t) - place t) = nth t (s_time (u_base b)) 0%R) /\
  forall t j, t < length (s_time (u_base b)) -> place t <= j < place (Datatypes.S t) -> same_row (length (c_ctrl (s_conf (u_base b)))) (ipulse [1; 3]%R) t (ipulse [1; 3; 3]%R) j /\ Dr (u_base b) t = Dr (u_parts b') j /\
    forall rho x z, x < 2 -> z < 2 -> damp low [1; 2]%R t rho x z = damp low [1; 2; 2]%R j rho x z.
Proof. exact case_super_divided. Qed.
