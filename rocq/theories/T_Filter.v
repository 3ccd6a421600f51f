(** Theorems about the interface of qopt/solver_algorithms.py and qopt/cost_functions.py to the package filter_functions,
    properties C76 and C77 of properties.jsonl.  Statements only; the proofs are in the P_FilterFn*.v files, the concrete cases in
    P_FilterFnWit.v. *)
Require Import String List Arith Lia Bool ZArith QArith Qcanon Permutation Sorting.Sorted.
From Verif Require Import LibBase LibRing LibArr LibCplx LibNorm LibMat LibEx M_Matrix S_Linear M_Transfer S_Transfer M_Amplitude P_TransferWit M_Solver S_Solver P_SolverWit P_SolverCases
  M_FilterFn S_FilterFn P_FilterFn5 P_FilterFnWit.
Import ListNotations.
Open Scope nat_scope.
Open Scope res_scope.
Set Implicit Arguments.

(** ---------- C76: the pulse sequence ---------- *)
Theorem c76_created : forall (F : OField) (rexp : F -> F) (la : LinAlg F) (eps : cplx F) (B E : Type) (P : pkg F B E) n (f f' : fsol F B E) y b p,
  lines_up P -> (f_ps f = None \/ exists y0, y = Some y0 /\ opt_equal (s_opt (f_s f)) y0 = false) ->
  create_pulse_sequence rexp la eps P y b f = (f', Ok p) -> shaped n (f_s f') ->
  f_ps f' = Some p /\ describes P n (f_s f') p /\ p_basis p = (match b with Some _ => b | None => ff_basis (f_conf f) end) /\
  (~ is_monte_carlo (f_s f') -> exists l, noise_terms (f_s f') (ff_h_n (f_conf f)) l /\ has_noise P (f_s f') p l).
Proof. exact @created. Qed.
Print Assumptions c76_created.
Theorem c76_monte_carlo_noise : forall (F : OField) (rexp : F -> F) (la : LinAlg F) (eps : cplx F) (B E : Type) (P : pkg F B E) n (f f' : fsol F B E) y b p m l0,
  lines_up P -> (f_ps f = None \/ exists y0, y = Some y0 /\ opt_equal (s_opt (f_s f)) y0 = false) ->
  create_pulse_sequence rexp la eps P y b f = (f', Ok p) -> shaped n (f_s f') -> c_class (s_conf (f_s f')) = CMonteCarlo m -> ff_h_n (f_conf f) = HList l0 ->
  exists l, has_noise P (f_s f') p l /\ ((l0 <> [] /\ l = l0) \/ (l0 = [] /\ unit_noise (f_s f') m l)).
Proof. exact @created_mc. Qed.
Print Assumptions c76_monte_carlo_noise.
Theorem c76_current : forall (F : OField) (rexp : F -> F) (la : LinAlg F) (eps : cplx F) (B E : Type) (P : pkg F B E) n s0 c (f : fsol F B E) p,
  sorts P -> reached la rexp eps P s0 c f -> f_ps f = Some p -> shaped n (f_s f) -> length (c_ctrl (s_conf (f_s f))) <= 10 ->
  describes P n (f_s f) p /\
  (~ is_monte_carlo (f_s f) -> exists l, noise_terms (f_s f) (ff_h_n (f_conf f)) l /\ has_noise P (f_s f) p l /\ f_ids f = map (@term_id F) l).
Proof. exact @current. Qed.
Print Assumptions c76_current.
Theorem c76_propagators : forall (F : OField) (rexp : F -> F) (la : LinAlg F) (eps : cplx F) (B E : Type) (P : pkg F B E) d (s0 s : @st F) n p fs ps,
  used rexp la eps d s0 s -> schroedinger (s_conf s) -> shaped n s -> describes P n s p -> diagonalizes la P n (s_conf s) ->
  is_identity (S:=CStar F) n (c_init (s_conf s)) -> returns rexp la eps s SPropag (VProp ps) -> returns rexp la eps s SFwd (VOps fs) ->
  exists e, p_eig p = Some (e, fs) /\ exists l U, fs = l ++ [U] /\ p_total p = Some U.
Proof. exact @same_propagators. Qed.
Print Assumptions c76_propagators.
Theorem c76_reordered_refuted : exists (P : pkg Qf unit unit) (d : desc Qf) s0 c (f : fsol Qf unit unit) p,
  constructed d s0 /\ sorts P /\ reached qla qexp c0 P s0 c f /\ f_ps f = Some p /\ shaped 1 (f_s f) /\ length (c_ctrl (s_conf (f_s f))) = 11 /\ ~ describes P 1 (f_s f) p.
Proof. exact reordered. Qed.
Print Assumptions c76_reordered_refuted.
Example c76_case_current : constructed (DId 2) stwo /\ sorts (qpkg stwo) /\ diagonalizes qla (qpkg stwo) 2 (s_conf stwo) /\ reached qla qexp c0 (qpkg stwo) stwo cff ftwo /\ f_ps ftwo = Some (psget ftwo) /\
  shaped 2 (f_s ftwo) /\ length (c_ctrl (s_conf (f_s ftwo))) <= 10 /\ p_nids (psget ftwo) = ["charge"%string; "field"%string] /\
  ceqb (total_entry ftwo 0 0) (total_entry (run2 new2 [FCreate (Some yc) None]) 0 0) = false.
Proof. exact case_current. Qed.
Example c76_case_propagators : used qexp qla c0 (DId 2) stwo (qrun stwo [SSet yc]) /\ shaped 2 (qrun stwo [SSet yc]) /\
  (exists p, describes (qpkg stwo) 2 (qrun stwo [SSet yc]) p) /\ diagonalizes qla (qpkg stwo) 2 (s_conf (qrun stwo [SSet yc])) /\ is_identity (S:=QS) 2 (c_init (s_conf (qrun stwo [SSet yc]))) /\
  returns qexp qla c0 (qrun stwo [SSet yc]) SPropag (VProp (vprop (rd (qrun stwo [SSet yc]) SPropag))) /\ returns qexp qla c0 (qrun stwo [SSet yc]) SFwd (VOps (vops (rd (qrun stwo [SSet yc]) SFwd))).
Proof. exact case_propagators. Qed.
Example c76_case_monte_carlo : lines_up (qpkg smcf) /\ f_ps fmc = None /\ okb (snd (create_pulse_sequence qexp qla c0 (qpkg smcf) None None fmc)) = true /\
  shaped 2 (f_s (rfst (create_pulse_sequence qexp qla c0 (qpkg smcf) None None fmc))) /\ ff_h_n (f_conf fmc) = HList [] /\
  p_nids (rps (create_pulse_sequence qexp qla c0 (qpkg smcf) None None fmc)) = ["Noise0"%string].
Proof. exact case_mc_noise. Qed.

(** ---------- C77: OperatorFilterFunctionInfidelity ---------- *)
Theorem c77_costs : forall (F : OField) (rexp : F -> F) (la : LinAlg F) (eps : cplx F) (B E : Type) (P : pkg F B E) n s0 c (f f' : fsol F B E) k k' x,
  sorts P -> reached la rexp eps P s0 c f -> ff_costs rexp la eps P k f = (f', Ok (k', x)) ->
  shaped n (f_s f') -> length (c_ctrl (s_conf (f_s f'))) <= 10 -> ~ is_monte_carlo (f_s f') ->
  exists p w sp l, f_ps f' = Some p /\ describes P n (f_s f') p /\ noise_terms (f_s f') (ff_h_n (f_conf f')) l /\ has_noise P (f_s f') p l /\
    frequencies P k p w /\ fc_density k w = Ok sp /\ infidelity P p sp w (map (@term_id F) l) = Ok x /\ fc_omega k' = Some w.
Proof. exact @costs_asked. Qed.
Print Assumptions c77_costs.
Theorem c77_grad : forall (F : OField) (rexp : F -> F) (la : LinAlg F) (eps : cplx F) (B E : Type) (P : pkg F B E) n s0 c (f f' : fsol F B E) k k' g,
  sorts P -> reached la rexp eps P s0 c f -> ff_grad rexp la eps P k f = (f', Ok (k', g)) ->
  shaped n (f_s f') -> length (c_ctrl (s_conf (f_s f'))) <= 10 -> ~ is_monte_carlo (f_s f') ->
  exists p w sp l d x, f_ps f' = Some p /\ describes P n (f_s f') p /\ noise_terms (f_s f') (ff_h_n (f_conf f')) l /\ has_noise P (f_s f') p l /\
    frequencies P k p w /\ fc_density k w = Ok sp /\ given_derivative (f_s f') (f_conf f') d /\
    infidelity_derivative P p sp w (p_cids p) (map (@term_id F) l) d = Ok x /\
    shape g = [dim1 x; dim0 x; dim2 x] /\ (forall t i j, i < dim0 x -> t < dim1 x -> j < dim2 x -> get3 k0 g t i j = get3 k0 x i t j) /\
    forall i, i < length (c_ctrl (s_conf (f_s f'))) -> nth_error (p_copers p) i = nth_error (c_ctrl (s_conf (f_s f'))) i.
Proof. exact @grad_asked. Qed.
Print Assumptions c77_grad.
Theorem c77_monte_carlo_refuted : forall (F : OField) (rexp : F -> F) (la : LinAlg F) (eps : cplx F) (B E : Type) (P : pkg F B E) s0 c hist (f f' : fsol F B E) k k' x,
  is_monte_carlo s0 -> f = frun rexp la eps P (new_fsol s0 c) hist -> ff_costs rexp la eps P k f = (f', Ok (k', x)) ->
  exists p w sp, f_ps f' = Some p /\ fc_density k w = Ok sp /\ infidelity P p sp w [] = Ok x.
Proof. exact @no_identifiers. Qed.
Print Assumptions c77_monte_carlo_refuted.
Theorem c77_callable_refuted : forall (F : OField) (rexp : F -> F) (la : LinAlg F) (eps : cplx F) (B E : Type) (P : pkg F B E) (f : fsol F B E) h u b,
  is_monte_carlo (f_s f) -> ff_h_n (f_conf f) = HCall h -> (forall l, length l <> 3 -> h l = Err TypeError) ->
  f_ps f = None -> s_amps (f_s f) = Some u -> create_pulse_sequence rexp la eps P None b f = (f, Err TypeError).
Proof. exact @callable_fails. Qed.
Print Assumptions c77_callable_refuted.
Example c77_case : sorts (qpkg stwo) /\ reached qla qexp c0 (qpkg stwo) stwo cff fcost /\ okb (snd (ff_costs qexp qla c0 (qpkg stwo) kff fcost)) = true /\
  shaped 2 (f_s (fst (ff_costs qexp qla c0 (qpkg stwo) kff fcost))) /\ length (c_ctrl (s_conf (f_s (fst (ff_costs qexp qla c0 (qpkg stwo) kff fcost))))) <= 10 /\
  ~ is_monte_carlo (f_s (fst (ff_costs qexp qla c0 (qpkg stwo) kff fcost))) /\
  gshape (ff_costs qexp qla c0 (qpkg stwo) kff fcost) = [2] /\ Qc_eq_bool (centry (ff_costs qexp qla c0 (qpkg stwo) kff fcost) 0) (Q2Qc 2) = true /\
  gshape (ff_grad qexp qla c0 (qpkg stwo) kff fcost) = [2; 2; 2] /\ Qc_eq_bool (gentry (ff_grad qexp qla c0 (qpkg stwo) kff fcost) 1 0 0) (Q2Qc 3) = true.
Proof. exact case_asked. Qed.
Example c77_case_monte_carlo : constructed (DId 1) smcf /\ is_monte_carlo smcf /\ okb (snd (ff_costs qexp qla c0 (qpkg smcf) kff fmc)) = true /\
  p_nids (psget (fst (ff_costs qexp qla c0 (qpkg smcf) kff fmc))) = ["Noise0"%string] /\ gshape (ff_costs qexp qla c0 (qpkg smcf) kff fmc) = [0].
Proof. exact case_monte_carlo. Qed.
Example c77_case_callable : is_monte_carlo (f_s (fcall smcf)) /\ ff_h_n (f_conf (fcall smcf)) = HCall noise3 /\ (forall l, length l <> 3 -> noise3 l = Err TypeError) /\
  f_ps (fcall smcf) = None /\ s_amps (f_s (fcall smcf)) <> None /\ okb (snd (create_pulse_sequence qexp qla c0 (qpkg ssch) None None (fcall ssch))) = true.
Proof. exact case_callable. Qed.
