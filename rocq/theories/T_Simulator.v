(** Theorems about qopt/simulator.py, properties C44, C45 and C70 of properties.jsonl.  Statements only; the proofs are in
    P_Simulator.v, P_Simulator2.v and P_SimAtts.v.  After the theorems of each property there is a concrete case (built in P_SimulatorWit.v). *)
Require Import List Arith Lia Bool ZArith QArith Qcanon.
From Verif Require Import LibBase LibRing LibArr LibCplx LibMat LibEx M_Matrix M_OpHeap M_Transfer S_Transfer M_Amplitude P_TransferWit
  M_Solver S_Solver P_SolverWit M_Cost M_Simulator S_Simulator P_Simulator P_Simulator2 P_SimulatorWit M_SimCheck S_SimCheck P_SimAtts.
Import ListNotations.
Open Scope nat_scope.
Set Implicit Arguments.

(** ---------- C44: layout of the costs and of the jacobian ---------- *)
Theorem c44_costs : forall (F : OField) (rexp : F -> F) (la : LinAlg F) (eps : cplx F) (m : @sim F) (w0 w : (@world F)) p y vals,
  (set_up la eps) m w0 -> simulated rexp la eps m w0 w -> pulse_used m p y -> accepted rexp la eps m w0 y ->
  Forall2 (fun c a => exists s0, nth_error w0 (cf_solver c) = Some s0 /\ costs_at rexp la eps s0 c y a) (sm_cfs m) vals ->
  exists w' v, wrapped_cost rexp la eps m p w = (w', Ok v) /\ blocks (map (@data F) vals) v /\
   (forall i, In i (sm_solvers m) -> exists s, nth_error w' i = Some s /\ s_opt s = Some y).
Proof. exact @sim_costs. Qed.
Print Assumptions c44_costs.
Theorem c44_cost_indices : forall (F : OField) (m : @sim F) (vals : list (arr (kcar F))) (v : list F),
  Forall2 (fun c a => length (cf_label c) = length (data a)) (sm_cfs m) vals -> blocks (map (@data F) vals) v ->
  length v = length (cost_indices m) /\
  forall i c a k x, nth_error (sm_cfs m) i = Some c -> nth_error vals i = Some a -> nth_error (cf_label c) k = Some x ->
    nth_error (cost_indices m) (offset (map (@length F) (map (@data F) vals)) i + k) = Some x /\
    nth_error v (offset (map (@length F) (map (@data F) vals)) i + k) = nth_error (data a) k.
Proof. exact @sim_indices. Qed.
Print Assumptions c44_cost_indices.
Theorem c44_jacobian : forall (F : OField) (rexp : F -> F) (la : LinAlg F) (eps : cplx F) (m : @sim F) (w0 w : (@world F)) p y hs ns T C dl,
  set_up la eps m w0 -> simulated rexp la eps m w0 w -> sm_numeric m = false ->
  pulse_used m p y -> accepted rexp la eps m w0 y ->
  Forall2 (fun c h => exists s0, nth_error w0 (cf_solver c) = Some s0 /\ gradient_at rexp la eps s0 c y h) (sm_cfs m) hs ->
  Forall2 (fun (h : (arr (kcar F))) n => wfa [T; n; C] h) hs ns ->
  exists w' J, wrapped_jac rexp la eps m p dl w = (w', Ok J) /\ wfa [T; list_sum ns; C] J /\
   (forall i h n t f c, nth_error hs i = Some h -> nth_error ns i = Some n -> t < T -> f < n -> c < C -> get3 k0 J t (offset ns i + f) c = get3 k0 h t f c) /\
   (forall i, In i (sm_solvers m) -> exists s, nth_error w' i = Some s /\ s_opt s = Some y).
Proof. exact @sim_jac_layout. Qed.
Print Assumptions c44_jacobian.
Example c44_case : set_up qla c0 msim w2 /\ simulated qexp qla c0 msim w2 (wused msim) /\ sm_numeric msim = false /\ pulse_used msim (Some ya) ya /\ accepted qexp qla c0 msim w2 ya /\
  Forall2 (fun c a => exists s0, nth_error w2 (cf_solver c) = Some s0 /\ costs_at qexp qla c0 s0 c ya a) (sm_cfs msim) vals3 /\
  Forall2 (fun c a => length (cf_label c) = length (data a)) (sm_cfs msim) vals3 /\
  Forall2 (fun c h => exists s0, nth_error w2 (cf_solver c) = Some s0 /\ gradient_at qexp qla c0 s0 c ya h) (sm_cfs msim) hs3 /\
  Forall2 (fun (h : arr (kcar QcField)) n => wfa [2; n; 1] h) hs3 [1; 2; 1].
Proof.
  split; [apply msim_set_up|]. split; [apply msim_used|]. split; [reflexivity|]. split; [now left|]. split; [apply msim_accepted|]. split; [apply vals3_costs|].
  split; [apply labels3|]. split; [apply hs3_grads|apply hs3_shapes].
Qed.

(** ---------- C45: numeric gradient ---------- *)
Theorem c45_difference_quotients : forall (F : OField) (rexp : F -> F) (la : LinAlg F) (eps : cplx F) (m : @sim F) (w0 w : (@world F)) p y T C n f dl sym,
  set_up la eps m w0 -> simulated rexp la eps m w0 w -> pulse_used m p y ->
  wfa [T; C] y -> computes rexp la eps m w0 T C n f ->
  exists w' G, numeric_gradient rexp la eps m p dl sym w = (w', Ok G) /\ wfa [T; n; C] G /\
   forall t k c yp ym, t < T -> k < n -> c < C -> moved T C y t c dl yp -> moved T C y t c (kopp dl) ym ->
    get3 k0 G t k c = if sym then kdiv (ksub (f k yp) (f k ym)) (kmul (kofnat 2) dl) else kdiv (ksub (f k yp) (f k y)) dl.
Proof. exact @numeric_entries. Qed.
Print Assumptions c45_difference_quotients.
(** the jacobian of a simulator with numeric_jacobian=True *)
Theorem c45_numeric_jacobian : forall (F : OField) (rexp : F -> F) (la : LinAlg F) (eps : cplx F) (m : @sim F) (w0 w : (@world F)) p y T C n f dl,
  sm_numeric m = true -> set_up la eps m w0 -> simulated rexp la eps m w0 w -> pulse_used m p y ->
  wfa [T; C] y -> computes rexp la eps m w0 T C n f ->
  exists w' G, wrapped_jac rexp la eps m p dl w = (w', Ok G) /\ wfa [T; n; C] G /\
   forall t k c yp, t < T -> k < n -> c < C -> moved T C y t c dl yp -> get3 k0 G t k c = kdiv (ksub (f k yp) (f k y)) dl.
Proof. exact @numeric_jacobian. Qed.
Print Assumptions c45_numeric_jacobian.
Theorem c45_affine : forall (F : OField) (rexp : F -> F) (la : LinAlg F) (eps : cplx F) (m : @sim F) (w0 w : (@world F)) p y T C n f b A dl sym,
  set_up la eps m w0 -> simulated rexp la eps m w0 w -> pulse_used m p y ->
  wfa [T; C] y -> computes rexp la eps m w0 T C n f -> dl <> k0 ->
  (forall k z, k < n -> wfa [T; C] z -> f k z = kadd (b k) (over T C (fun t c => kmul (A k t c) (get2 k0 z t c)))) ->
  exists w' G, numeric_gradient rexp la eps m p dl sym w = (w', Ok G) /\ wfa [T; n; C] G /\
   forall t k c, t < T -> k < n -> c < C -> get3 k0 G t k c = A k t c.
Proof. exact @numeric_affine. Qed.
Print Assumptions c45_affine.
Theorem c45_quadratic : forall (F : OField) (rexp : F -> F) (la : LinAlg F) (eps : cplx F) (m : @sim F) (w0 w : (@world F)) p y T C n f b A Q dl,
  set_up la eps m w0 -> simulated rexp la eps m w0 w -> pulse_used m p y ->
  wfa [T; C] y -> computes rexp la eps m w0 T C n f -> dl <> k0 ->
  (forall k z, k < n -> wfa [T; C] z -> f k z = kadd (kadd (b k) (over T C (fun t c => kmul (A k t c) (get2 k0 z t c))))
     (over T C (fun t c => over T C (fun t' c' => kmul (Q k t c t' c') (kmul (get2 k0 z t c) (get2 k0 z t' c')))))) ->
  exists w' G, numeric_gradient rexp la eps m p dl true w = (w', Ok G) /\ wfa [T; n; C] G /\
   forall t k c, t < T -> k < n -> c < C ->
    get3 k0 G t k c = kadd (A k t c) (over T C (fun i j => kmul (kadd (Q k t c i j) (Q k i j t c)) (get2 k0 y i j))).
Proof. exact @numeric_quadratic. Qed.
Print Assumptions c45_quadratic.
Example c45_case_affine : sm_numeric mlin = true /\ set_up qla c0 mlin w2 /\ simulated qexp qla c0 mlin w2 (wused mlin) /\ pulse_used mlin None yb /\ wfa [2; 1] yb /\ computes qexp qla c0 mlin w2 2 1 2 flin /\
  qq 1 3 <> k0 /\ (forall k z, k < 2 -> wfa [2; 1] z -> flin k z = kadd (lb k) (over 2 1 (fun t c => kmul (lA k t c) (get2 k0 z t c)))).
Proof.
  split; [reflexivity|]. split; [apply mlin_set_up|]. split; [apply mlin_used|]. split; [now right|]. split; [split; reflexivity|]. split; [apply mlin_computes|].
  split; [intros H; apply keqb_eq in H; vm_compute in H; discriminate|apply flin_affine].
Qed.
Example c45_case_quadratic : set_up qla c0 mpol w2 /\ simulated qexp qla c0 mpol w2 (wused mpol) /\ pulse_used mpol (Some ya) ya /\ wfa [2; 1] ya /\ computes qexp qla c0 mpol w2 2 1 3 fpol /\
  (forall k z, k < 3 -> wfa [2; 1] z -> fpol k z = kadd (kadd (pb k) (over 2 1 (fun t c => kmul (pA k t c) (get2 k0 z t c))))
     (over 2 1 (fun t c => over 2 1 (fun t' c' => kmul (pQ k t c t' c') (kmul (get2 k0 z t c) (get2 k0 z t' c')))))).
Proof.
  split; [apply mpol_set_up|]. split; [apply mpol_used|]. split; [now left|]. split; [split; reflexivity|]. split; [apply mpol_computes|apply fpol_quadratic].
Qed.

(** ---------- C70: check() tells whether pulse and time steps fit ---------- *)
(** whatever pulses were set: if check() returns, the pulse has one row for every time step *)
Theorem c70_accepted_fits_partial : forall a l, check_atts (sets a l) = Ok tt -> exists n c, a_times a = TArray n /\ a_pulse (sets a l) = Some [n; c].
Proof. exact check_sound. Qed.
Print Assumptions c70_accepted_fits_partial.
(** with all arguments given to the constructor check() returns exactly if they fit *)
Theorem c70_constructed_partial : forall a, check_atts a = Ok tt <->
  exists n c, a_times a = TArray n /\ a_ntimes a = Some n /\ a_ctrl a = Some c /\ a_pulse a = Some [n; c].
Proof. exact check_iff. Qed.
Print Assumptions c70_constructed_partial.
(** pulses of one shape that fits *)
Theorem c70_same_shape_partial : forall n c l a, a_pulse a = Some [n; c] -> a_times a = TArray n -> l <> [] ->
  (forall y, In y l -> y = Some [n; c]) -> check_atts (sets a l) = Ok tt.
Proof. exact check_same. Qed.
Print Assumptions c70_same_shape_partial.
(** a new pulse that fits the time steps but not the pulse held before is refused, the same pulse set again is accepted *)
Theorem c70_new_shape_refuted : forall n c n' c' a, a_pulse a = Some [n; c] -> a_times a = TArray n' -> [n'; c'] <> [n; c] ->
  let b := fst (pulse_setter a (Some [n'; c'])) in a_pulse b = Some [n'; c'] /\ check_atts b = Err ValueError.
Proof. exact check_changed. Qed.
Print Assumptions c70_new_shape_refuted.
Theorem c70_set_twice_partial : forall n c n' c' a, a_pulse a = Some [n; c] -> a_times a = TArray n' ->
  check_atts (sets a [Some [n'; c']; Some [n'; c']]) = Ok tt.
Proof. exact check_twice. Qed.
Print Assumptions c70_set_twice_partial.
(** without a pulse none can be set; time steps given as a list are never accepted *)
Theorem c70_first_pulse_refuted : forall a y, a_pulse a = None -> pulse_setter a (Some y) = (a, Err AttributeError).
Proof. exact first_set. Qed.
Print Assumptions c70_first_pulse_refuted.
Theorem c70_list_refuted : forall a l n, a_times a = TList n -> check_atts (sets a l) = Err AttributeError.
Proof. exact check_list. Qed.
Print Assumptions c70_list_refuted.
Example c70_case : let a := mkatts (Some 2) (Some 3) (Some [3; 2]) (TArray 3) in let b := mkatts None None (Some [3; 2]) (TArray 4) in
  check_atts a = Ok tt /\ check_atts (sets a [Some [3; 2]; Some [4; 2]]) = Err ValueError /\ check_atts (sets b [Some [4; 1]]) = Err ValueError /\
  check_atts (sets b [Some [4; 1]; Some [4; 1]]) = Ok tt /\ pulse_setter (mkatts None None None (TArray 4)) (Some [4; 1]) = (mkatts None None None (TArray 4), Err AttributeError) /\
  check_atts (mkatts (Some 2) (Some 3) (Some [3; 2]) (TList 3)) = Err AttributeError.
Proof. repeat split. Qed.
