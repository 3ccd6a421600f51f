(** Theorems about qopt/solver_algorithms.py, properties C23 to C34 of properties.jsonl.  Statements only;
    the proofs are in the P_Solver*.v, P_Pool.v, P_Lindblad.v and P_LindbladDer.v files.  After the theorems of each property
    there is a concrete case (built in P_SolverWit.v, P_SolverCases.v, P_SolverCases2.v and P_LindbladWit.v). *)
Require Import List Arith Lia Bool ZArith QArith Qcanon Reals Permutation.
From Verif Require Import LibBase LibRing LibArr LibCplx LibNorm LibMat LibDeriv LibEx M_Matrix S_Linear S_Exp P_Spectral M_OpHeap M_Transfer
  S_Transfer M_Amplitude P_TransferWit M_Solver S_Solver S_SolverTimes S_Lindblad M_Pool P_Pool P_Solver7 P_Solver8 P_Solver9 P_SolverMC P_SolverTotal P_OpHeap
  P_Lindblad M_SolverHeap P_SolverHeap P_SolverRest P_SolverWit P_SolverCases
  P_SolverTimes P_SolverGrape P_ExpCommute P_SolverCases2 P_LindbladDer P_LindbladWit.
Import ListNotations.
Open Scope nat_scope.
Open Scope res_scope.
Set Implicit Arguments.

(** ---------- C23: forward propagators ---------- *)
Theorem c23_forward : forall (F : OField) (rexp : F -> F) (la : LinAlg F) (eps : cplx F) d (s0 s : (@st F)) ps fs n k,
  (used rexp la eps) d s0 s -> (returns rexp la eps) s SPropag (VProp ps) -> (returns rexp la eps) s SFwd (VOps fs) ->
  all_square n ps -> is_matrix n k (c_init (s_conf s)) -> cumulative n k (c_init (s_conf s)) ps fs.
Proof. exact @used_forward. Qed.
Print Assumptions c23_forward.
Theorem c23_noise_forward : forall (F : OField) (rexp : F -> F) (la : LinAlg F) (eps : cplx F) d (s0 s : (@st F)) m pss fss n k,
  (used rexp la eps) d s0 s -> c_class (s_conf s) = CMonteCarlo m -> (returns rexp la eps) s SNProp (VDer pss) -> (returns rexp la eps) s SNFwd (VNOps fss) ->
  (forall ps, In ps pss -> all_square n ps) -> is_matrix n k (c_init (s_conf s)) ->
  length pss = mc_traces m /\ length fss = mc_traces m /\
  forall j ps fs, nth_error pss j = Some ps -> nth_error fss j = Some fs -> cumulative n k (c_init (s_conf s)) ps fs.
Proof. exact @used_noise_forward. Qed.
Print Assumptions c23_noise_forward.
Theorem c23_default : forall (F : OField) (rexp : F -> F) (la : LinAlg F) (eps : cplx F) d cls drift ctrl tau amps meth skew calc approx t a udiss (s0 s : @st F) n m ps fs,
  no_custom d -> build d = Ok t ->
  build_solver cls drift ctrl tau None amps meth skew calc approx t a udiss = Ok s0 -> Forall (is_matrix (S:=(CStar F)) n n : (op F) -> Prop) ctrl ->
  m = match cls with CLindblad _ => n * n | _ => n end ->
  (used rexp la eps) d s0 s -> (returns rexp la eps) s SPropag (VProp ps) -> (returns rexp la eps) s SFwd (VOps fs) -> all_square m ps ->
  exists I, is_identity (S:=(CStar F)) m I /\ cumulative m m I ps fs.
Proof. exact @default_forward. Qed.
Print Assumptions c23_default.
Example c23_case_default : exists s0, build_solver (CLindblad lics) [hd] [hz] (ones 2) None None Frechet false false GNone (mk_identity 1) AIdentity (Some dtwo) = Ok s0 /\
  returns qexp qla c0 (qrun s0 [SSet ya]) SFwd (VOps (vops (rd (qrun (slins dtwo) [SSet ya]) SFwd))) /\ length (vops (rd (qrun (slins dtwo) [SSet ya]) SFwd)) = 3.
Proof. exact case_default. Qed.
Theorem c23_series_refuted :
  exists (la : LinAlg Qf) (d : desc Qf) (s0 : @st Qf) y ps ps' fs,
  constructed d s0 /\ exp_laws (la_cexp la) /\ (forall A : qop, is_matrix (S:=QS) 1 1 A -> eig_ok la false 1 A) /\
  all_ok qexp la c0 s0 [SSet y; SFwd; SDer] /\
  returns qexp la c0 (srun qexp la c0 s0 [SSet y]) SPropag (VProp ps) /\
  returns qexp la c0 (srun qexp la c0 s0 [SSet y; SFwd; SDer]) SPropag (VProp ps') /\
  returns qexp la c0 (srun qexp la c0 s0 [SSet y; SFwd; SDer]) SFwd (VOps fs) /\
  all_square 1 ps' /\ is_matrix 1 1 (c_init (s_conf s0)) /\ ps' <> ps /\ ~ cumulative 1 1 (c_init (s_conf s0)) ps' fs.
Proof. exact @series_exponentials. Qed.
Print Assumptions c23_series_refuted.
Example c23_case : used qexp qla c0 (DId 1) ssch sch1 /\ returns qexp qla c0 sch1 SPropag (VProp (vprop (rd sch1 SPropag))) /\
  returns qexp qla c0 sch1 SFwd (VOps (vops (rd sch1 SFwd))) /\ all_square 2 (vprop (rd sch1 SPropag)) /\ is_matrix 2 2 (c_init (s_conf sch1)) /\
  pentry (vprop (rd sch1 SPropag)) 0 0 0 = cdiv (csub (cq 2 0 1) (cq 0 2 1)) (cadd (cq 2 0 1) (cq 0 2 1)).
Proof. destruct case_products as (A & B & C & D & E & G & _). repeat (split; [assumption|]). exact case_entry. Qed.

(** ---------- C24: reversed propagators ---------- *)
Theorem c24_telescoping : forall (F : OField) (rexp : F -> F) (la : LinAlg F) (eps : cplx F) d (s0 s : (@st F)) ps fs rs n k,
  (used rexp la eps) d s0 s -> (returns rexp la eps) s SPropag (VProp ps) -> (returns rexp la eps) s SFwd (VOps fs) -> (returns rexp la eps) s SRev (VOps rs) ->
  all_square n ps -> is_matrix n k (c_init (s_conf s)) ->
  length rs = Datatypes.S (length ps) /\ (exists r0, nth_error rs 0 = Some r0 /\ is_identity n r0) /\
  forall t, t <= length ps -> exists R f l, nth_error (rev rs) t = Some R /\ nth_error fs t = Some f /\ nth_error fs (length ps) = Some l /\ is_product n n k R f l.
Proof. exact @used_reversed. Qed.
Print Assumptions c24_telescoping.
Theorem c24_noise_telescoping : forall (F : OField) (rexp : F -> F) (la : LinAlg F) (eps : cplx F) d (s0 s : (@st F)) m pss fss rss n k,
  (used rexp la eps) d s0 s -> c_class (s_conf s) = CMonteCarlo m ->
  (returns rexp la eps) s SNProp (VDer pss) -> (returns rexp la eps) s SNFwd (VNOps fss) -> (returns rexp la eps) s SNRev (VNOps rss) ->
  (forall ps, In ps pss -> all_square n ps) -> is_matrix n k (c_init (s_conf s)) -> (exists ps, (returns rexp la eps) s SPropag (VProp ps) /\ all_square n ps) ->
  forall j ps fs rs, nth_error pss j = Some ps -> nth_error fss j = Some fs -> nth_error rss j = Some rs ->
    length rs = Datatypes.S (length ps) /\ (exists r0, nth_error rs 0 = Some r0 /\ is_identity n r0) /\
    forall t, t <= length ps -> exists R f l, nth_error (rev rs) t = Some R /\ nth_error fs t = Some f /\ nth_error fs (length ps) = Some l /\ is_product n n k R f l.
Proof. exact @used_noise_reversed. Qed.
Print Assumptions c24_noise_telescoping.
Example c24_case : used qexp qla c0 (DId 1) ssch sch1 /\ returns qexp qla c0 sch1 SPropag (VProp (vprop (rd sch1 SPropag))) /\
  returns qexp qla c0 sch1 SFwd (VOps (vops (rd sch1 SFwd))) /\ returns qexp qla c0 sch1 SRev (VOps (vops (rd sch1 SRev))) /\
  all_square 2 (vprop (rd sch1 SPropag)) /\ is_matrix 2 2 (c_init (s_conf sch1)) /\ length (vops (rd sch1 SFwd)) = 3 /\ length (vops (rd sch1 SRev)) = 3.
Proof. exact case_products. Qed.

(** ---------- C25: cached values ---------- *)
Theorem c25_coherent : forall (F : OField) (rexp : F -> F) (la : LinAlg F) (eps : cplx F) d (s0 : (@st F)) hist o v,
  (@constructed F) d s0 -> good la eps (s_conf s0) -> Forall allowed hist -> all_ok rexp la eps s0 hist -> is_read o = true ->
  (returns rexp la eps) (srun rexp la eps s0 (match last_set hist with Some y => [SSet y] | None => [] end)) o v -> (returns rexp la eps) (srun rexp la eps s0 hist) o v.
Proof. exact @used_coherent. Qed.
Print Assumptions c25_coherent.
Theorem c25_spectral_agrees : forall (F : OField) (la : LinAlg F) (eps : cplx F) (c : @sconf F),
  c_meth c = Spectral -> agrees la eps c.
Proof. exact @agrees_spectral. Qed.
Print Assumptions c25_spectral_agrees.
Theorem c25_frechet_agrees : forall (F : OField) (la : LinAlg F) (eps : cplx F) (c : @sconf F),
  (forall X Y, fst (la_expm_frechet la X Y) = la_expm la X) -> c_meth c = Frechet -> agrees la eps c.
Proof. exact @agrees_frechet. Qed.
Print Assumptions c25_frechet_agrees.
Theorem c25_failed_read_refuted :
  exists (d : desc Qf) (s0 : @st Qf) y e,
  constructed d s0 /\ snd (qstep (qrun s0 [SSet y]) SPropag) = Err e /\ snd (qstep (qrun s0 [SSet y; SPropag]) SPropag) = Ok (VProp [None; None]).
Proof. exact @failed_read_caches_none. Qed.
Print Assumptions c25_failed_read_refuted.
Theorem c25_grape_refuted :
  exists (d : desc Qf) (s0 : @st Qf) y ds ds',
  constructed d s0 /\ all_ok qexp qla c0 s0 [SSet y; SPropag] /\ snd (qstep (qrun s0 [SSet y]) SDer) = Ok (VDer ds) /\ snd (qstep (qrun s0 [SSet y; SPropag]) SDer) = Ok (VDer ds') /\ length ds <> length ds'.
Proof. exact @grape_depends_on_history. Qed.
Print Assumptions c25_grape_refuted.
Theorem c25_in_place_refuted :
  exists (d : desc Qf) (s0 : @st Qf) y z ps ps',
  constructed d s0 /\ snd (qstep (qrun s0 [SSet y]) SPropag) = Ok (VProp ps) /\ snd (qstep (qrun s0 [SSet y; SMutate z; SSet y]) SPropag) = Ok (VProp ps') /\ ps <> ps'.
Proof. exact @in_place_change. Qed.
Print Assumptions c25_in_place_refuted.
Example c25_case : constructed (DId 1) ssch /\ good qla c0 (s_conf ssch) /\ Forall allowed [SSet yb; SPropag; SSet ya] /\
  all_ok qexp qla c0 ssch [SSet yb; SPropag; SSet ya] /\ last_set [SSet yb; SPropag; SSet ya] = Some ya /\
  returns qexp qla c0 (qrun ssch [SSet ya]) SPropag (VProp (vprop (rd (qrun ssch [SSet ya]) SPropag))).
Proof.
  split; [apply ssch_constructed|]. split; [apply ssch_good|]. split; [apply allowedb_ok; reflexivity|]. split; [apply all_okb_ok; vm_compute; reflexivity|].
  split; [reflexivity|]. apply ok_prop. vm_compute. reflexivity.
Qed.

(** ---------- C26: rejected parameters ---------- *)
Theorem c26_new_parameters : forall (F : OField) (rexp : F -> F) (s s' : (@st F)) y,
  opt_equal (s_opt s) y = false -> M_Solver.set_pars rexp y s = (s', Ok tt) ->
  exists x u, snd (call rexp (s_tf s) y) = Ok x /\ amp_call (c_amp (s_conf s)) x = Ok u /\ s_tpars s' = Some x /\ s_amps s' = Some u /\
    s_opt s' = Some y /\ dim0 u = length (s_time s) /\ dim1 u = length (c_ctrl (s_conf s)) /\ s_k s' = k_none.
Proof. exact @new_parameters. Qed.
Print Assumptions c26_new_parameters.
Theorem c26_times_then_parameters : forall (F : OField) (rexp : F -> F) (la : LinAlg F) (eps : cplx F) d (s0 : (@st F)) tau,
  constructed d s0 -> good la eps (s_conf s0) -> no_matrix d -> adapts (s_conf s0) ->
  forall hist y hist2 o v,
  Forall allowed_times hist -> Forall allowed hist2 -> all_ok rexp la eps s0 (hist ++ STimes tau :: SSet y :: hist2) -> last_set hist <> Some y -> is_read o = true ->
  returns rexp la eps (srun rexp la eps s0 [STimes tau; SSet (last_set_after y hist2)]) o v ->
  returns rexp la eps (srun rexp la eps s0 (hist ++ STimes tau :: SSet y :: hist2)) o v.
Proof. exact @times_then_parameters. Qed.
Print Assumptions c26_times_then_parameters.
Theorem c26_times_same_amplitudes : forall (F : OField) (rexp : F -> F) (la : LinAlg F) (eps : cplx F) d (s0 : (@st F)) tau,
  constructed d s0 -> good la eps (s_conf s0) -> no_matrix d -> adapts (s_conf s0) ->
  forall hist y hist2 o v,
  Forall allowed_times hist -> Forall allowed hist2 -> all_ok rexp la eps s0 (hist ++ STimes tau :: hist2) -> last_set hist = Some y ->
  all_ok rexp la eps s0 [STimes tau; SSet y] ->
  s_amps (srun rexp la eps s0 [STimes tau; SSet y]) = s_amps (srun rexp la eps s0 hist) ->
  s_tpars (srun rexp la eps s0 [STimes tau; SSet y]) = s_tpars (srun rexp la eps s0 hist) -> is_read o = true ->
  returns rexp la eps (srun rexp la eps s0 [STimes tau; SSet (last_set_after y hist2)]) o v ->
  returns rexp la eps (srun rexp la eps s0 (hist ++ STimes tau :: hist2)) o v.
Proof. exact @times_same_amplitudes. Qed.
Print Assumptions c26_times_same_amplitudes.
Theorem c26_retry_refuted :
  exists (d : desc Qf) (s0 : @st Qf) y0 y e u,
  constructed d s0 /\ snd (qstep s0 (SSet y0)) = Ok VUnit /\ snd (qstep (qrun s0 [SSet y0]) (SSet y)) = Err e /\
  snd (qstep (qrun s0 [SSet y0; SSet y]) (SSet y)) = Ok VUnit /\ s_amps (qrun s0 [SSet y0; SSet y; SSet y]) = Some u /\ u = y0 /\ dim0 y <> dim0 y0.
Proof. exact @retry_succeeds. Qed.
Print Assumptions c26_retry_refuted.
Theorem c26_set_times_refuted :
  exists (d : desc Qf) (s0 : @st Qf) y tau u,
  constructed d s0 /\ all_ok qexp qla c0 s0 [SSet y; STimes tau; SSet y] /\ s_amps (qrun s0 [SSet y; STimes tau; SSet y]) = Some u /\ dim0 u <> length (s_time (qrun s0 [SSet y; STimes tau; SSet y])) /\
  snd (qstep (qrun s0 [STimes tau]) (SSet y)) = Err ValueError.
Proof. exact @set_times_keeps_amplitudes. Qed.
Print Assumptions c26_set_times_refuted.
Theorem c26_drift_refuted :
  exists (d : desc Qf) (s0 : @st Qf) y tau,
  constructed d s0 /\ all_ok qexp qla c0 s0 [STimes tau; SSet y] /\ snd (qstep (qrun s0 [STimes tau; SSet y]) SPropag) = Err IndexError.
Proof. exact @set_times_breaks_drift. Qed.
Print Assumptions c26_drift_refuted.
Theorem c26_dissipation_refuted :
  exists (d : desc Qf) (s0 : @st Qf) y0 tau y ps, constructed d s0 /\ good qla c0 (s_conf s0) /\ length tau = 1 /\
  all_ok qexp qla c0 s0 [SSet y0; SPropag; STimes tau; SSet y] /\ all_ok qexp qla c0 s0 [STimes tau; SSet y] /\
  returns qexp qla c0 (qrun s0 [SSet y0; SPropag; STimes tau; SSet y]) SPropag (VProp ps) /\ length ps = 1 /\
  snd (qstep (qrun s0 [STimes tau; SSet y]) SPropag) = Err AssertionError.
Proof. exact @dissipation_keeps_steps. Qed.
Print Assumptions c26_dissipation_refuted.
Example c26_case : opt_equal (s_opt ssch) ya = false /\ (exists s', M_Solver.set_pars qexp ya ssch = (s', Ok tt)).
Proof. split; [reflexivity|]. exists (fst (M_Solver.set_pars qexp ya ssch)). rewrite (surjective_pairing (M_Solver.set_pars qexp ya ssch)) at 1. f_equal; vm_compute; reflexivity. Qed.
Example c26_case_times : constructed (DId 1) ssch /\ good qla c0 (s_conf ssch) /\ no_matrix (DId (F:=Qf) 1) /\ adapts (s_conf ssch) /\
  Forall allowed_times thist /\ Forall allowed [SPropag : @sop Qf] /\ all_ok qexp qla c0 ssch (thist ++ STimes tau23 :: [SPropag]) /\
  last_set thist = Some ya /\ all_ok qexp qla c0 ssch [STimes tau23; SSet ya] /\
  s_amps (qrun ssch [STimes tau23; SSet ya]) = s_amps (qrun ssch thist) /\ s_tpars (qrun ssch [STimes tau23; SSet ya]) = s_tpars (qrun ssch thist) /\
  returns qexp qla c0 (qrun ssch [STimes tau23; SSet ya]) SPropag (VProp (vprop (rd (qrun ssch [STimes tau23; SSet ya]) SPropag))) /\
  ventry (rd (qrun ssch [STimes tau23; SSet ya]) SPropag) 0 0 0 <> ventry (rd (qrun ssch thist) SPropag) 0 0 0.
Proof. split; [exact ssch_constructed|]. split; [exact ssch_good|]. split; [exact I|]. split; [exact I|]. exact case_times. Qed.
Example c26_case_times_then : Forall allowed_times thist /\ Forall allowed [SPropag : @sop Qf] /\ all_ok qexp qla c0 ssch (thist ++ STimes tau23 :: SSet yb :: [SPropag]) /\
  last_set thist <> Some yb /\
  returns qexp qla c0 (qrun ssch [STimes tau23; SSet yb]) SPropag (VProp (vprop (rd (qrun ssch [STimes tau23; SSet yb]) SPropag))) /\
  length (vprop (rd (qrun ssch [STimes tau23; SSet yb]) SPropag)) = 2.
Proof. exact case_times_then. Qed.

(** ---------- C27: unitarity ---------- *)
Theorem c27_propagators : forall (F : OField) (rexp : F -> F) (la : LinAlg F) (eps : cplx F) d (s0 s : (@st F)) n u ps,
  (used rexp la eps) d s0 s -> schroedinger (s_conf s) -> square_hamiltonians n s -> amplitudes s u ->
  (returns rexp la eps) s SPropag (VProp ps) ->
  propagates la s (fun t G => is_generator n (nth t (s_drift s) (Arr [] [] : (op F))) (c_ctrl (s_conf s)) (fun c => get2 k0 u t c) G) ps.
Proof. exact @used_propagators. Qed.
Print Assumptions c27_propagators.
Theorem c27_generators : forall (F : OField) n (h : (op F)) (hs : list (op F)) u G,
  is_hermitian (S:=(CStar F)) n h -> Forall (is_hermitian (S:=(CStar F)) n : (op F) -> Prop) hs -> is_generator n h hs u G -> is_skew_hermitian (S:=(CStar F)) n G.
Proof. exact @generator_skew. Qed.
Print Assumptions c27_generators.
Theorem c27_unitary : forall (F : OField) (rexp : F -> F) (la : LinAlg F) (eps : cplx F) d (s0 s : (@st F)) n u ps fs rs,
  (used rexp la eps) d s0 s -> schroedinger (s_conf s) ->
  Forall (is_hermitian (S:=(CStar F)) n : (op F) -> Prop) (s_drift s) -> Forall (is_hermitian (S:=(CStar F)) n : (op F) -> Prop) (c_ctrl (s_conf s)) -> amplitudes s u ->
  length (s_drift s) = length (s_time s) -> is_unitary (S:=(CStar F)) n (c_init (s_conf s)) ->
  (forall (A E : (op F)) (tau : F), is_skew_hermitian (S:=(CStar F)) n A -> op_exp la A (cofk tau) (c_meth (s_conf s)) (c_skew (s_conf s)) = Ok E -> is_unitary (S:=(CStar F)) n E) ->
  (returns rexp la eps) s SPropag (VProp ps) -> (returns rexp la eps) s SFwd (VOps fs) -> (returns rexp la eps) s SRev (VOps rs) ->
  (forall P, In (Some P) ps -> is_unitary (S:=(CStar F)) n P) /\ (forall f, In f fs -> is_unitary (S:=(CStar F)) n f) /\ (forall r, In r rs -> is_unitary (S:=(CStar F)) n r).
Proof. exact @used_all_unitary. Qed.
Print Assumptions c27_unitary.
Theorem c27_spectral : forall (F : OField) (la : LinAlg F) n skew,
  exp_laws (la_cexp la) -> (forall A : (op F), is_skew_hermitian (S:=(CStar F)) n A -> eig_ok la skew n A) ->
  forall (A E : (op F)) (tau : F), is_skew_hermitian (S:=(CStar F)) n A -> op_exp la A (cofk tau) Spectral skew = Ok E -> is_unitary (S:=(CStar F)) n E.
Proof. exact @spectral_contract. Qed.
Print Assumptions c27_spectral.
Example c27_case : used qexp qla c0 (DId 1) ssch sch1 /\ schroedinger (s_conf sch1) /\ Forall (is_hermitian (S:=CStar QcField) 2 : mat (CStar QcField) -> Prop) (s_drift sch1) /\
  Forall (is_hermitian (S:=CStar QcField) 2 : mat (CStar QcField) -> Prop) (c_ctrl (s_conf sch1)) /\ amplitudes sch1 (amp_of sch1) /\
  length (s_drift sch1) = length (s_time sch1) /\ is_unitary (S:=CStar QcField) 2 (c_init (s_conf sch1)) /\
  (forall (A E : mat (CStar QcField)) (tau : QcField), is_skew_hermitian (S:=CStar QcField) 2 A ->
     op_exp qla A (cofk tau) (c_meth (s_conf sch1)) (c_skew (s_conf sch1)) = Ok E -> is_unitary (S:=CStar QcField) 2 E).
Proof. split; [exact sch1_used|]. exact case_unitary. Qed.

(** ---------- C28: derivatives ---------- *)
Theorem c28_derivatives : forall (F : OField) (rexp : F -> F) (la : LinAlg F) (eps : cplx F) d (s0 s : (@st F)) n u ds,
  (used rexp la eps) d s0 s -> schroedinger (s_conf s) -> square_hamiltonians n s -> amplitudes s u ->
  c_approx (s_conf s) = GNone -> (returns rexp la eps) s SDer (VDer ds) ->
  length ds = length (c_ctrl (s_conf s)) /\
  forall c t, c < length (c_ctrl (s_conf s)) -> t < length (s_time s) -> exists row E X G D tau,
    nth_error ds c = Some row /\ length row = length (s_time s) /\ nth_error row t = Some (Some X) /\ nth_error (s_time s) t = Some tau /\
    is_generator n (nth t (s_drift s) (Arr [] [] : (op F))) (c_ctrl (s_conf s)) (fun c => get2 k0 u t c) G /\ is_direction n (nth c (c_ctrl (s_conf s)) (Arr [] [] : (op F))) D /\
    op_dexp la G D (cofk tau) (c_meth (s_conf s)) (c_skew (s_conf s)) eps = Ok (E, X).
Proof. exact @used_derivatives. Qed.
Print Assumptions c28_derivatives.
Theorem c28_direction : forall (F : OField) n (h : (op F)) (hs : list (op F)) (u : nat -> F) c (e : F) (G D G' : (op F)),
  c < length hs ->
  is_generator n h hs u G -> is_direction n (nth c hs (Arr [] [] : (op F))) D -> is_generator n h hs (fun c' => if Nat.eqb c' c then kadd (u c') e else u c') G' ->
  forall i j, i < n -> j < n -> G'.[i,j] = cadd G.[i,j] (cmul (cofk e) D.[i,j]).
Proof. exact @generator_moves. Qed.
Print Assumptions c28_direction.
Theorem c28_lindblad_operators : forall (F : OField) (rexp : F -> F) (la : LinAlg F) (eps : cplx F) d (s0 s : @st F) n l Ls u w w' ds,
  used rexp la eps d s0 s -> c_class (s_conf s) = CLindblad l -> li_func l = None -> li_func_d l = None -> li_ops l = Some Ls ->
  Forall (is_matrix (S:=(CStar F)) n n : (op F) -> Prop) Ls ->
  Forall (is_hermitian (S:=(CStar F)) n : (op F) -> Prop) (s_drift s) -> Forall (is_hermitian (S:=(CStar F)) n : (op F) -> Prop) (c_ctrl (s_conf s)) -> amplitudes s u ->
  rates l u (s_tpars s) (length Ls) w -> slopes l u (s_tpars s) (length Ls) w' ->
  c_approx (s_conf s) = GNone -> returns rexp la eps s SDer (VDer ds) ->
  derives la eps s (fun t G => acts_as n G (master n (hamiltonian (nth t (s_drift s) (Arr [] [] : (op F))) (c_ctrl (s_conf s)) (fun c => get2 k0 u t c)) Ls (w t)))
    (fun t c D => acts_as n D (master n (entries (nth c (c_ctrl (s_conf s)) (Arr [] [] : (op F)))) Ls (w' t c))) ds.
Proof. exact @used_derives_ops. Qed.
Print Assumptions c28_lindblad_operators.
Theorem c28_lindblad_super_operators : forall (F : OField) (rexp : F -> F) (la : LinAlg F) (eps : cplx F) d (s0 s : @st F) n l Ds u w w' ds,
  used rexp la eps d s0 s -> c_class (s_conf s) = CLindblad l -> li_func l = None -> li_func_d l = None -> li_ops l = None -> s_udiss s0 = Some Ds ->
  Forall (is_matrix (S:=(CStar F)) (n * n) (n * n) : (op F) -> Prop) Ds ->
  Forall (is_hermitian (S:=(CStar F)) n : (op F) -> Prop) (s_drift s) -> Forall (is_hermitian (S:=(CStar F)) n : (op F) -> Prop) (c_ctrl (s_conf s)) -> amplitudes s u ->
  rates l u (s_tpars s) (length Ds) w -> slopes l u (s_tpars s) (length Ds) w' ->
  c_approx (s_conf s) = GNone -> returns rexp la eps s SDer (VDer ds) ->
  derives la eps s (fun t G => acts_as n G (master_super n (hamiltonian (nth t (s_drift s) (Arr [] [] : (op F))) (c_ctrl (s_conf s)) (fun c => get2 k0 u t c)) Ds (w t)))
    (fun t c D => acts_as n D (master_super n (entries (nth c (c_ctrl (s_conf s)) (Arr [] [] : (op F)))) Ds (w' t c))) ds.
Proof. exact @used_derives_super. Qed.
Print Assumptions c28_lindblad_super_operators.
Theorem c28_lindblad_function : forall (F : OField) (rexp : F -> F) (la : LinAlg F) (eps : cplx F) d (s0 s : @st F) n l f f' Ds Ds' u ds,
  used rexp la eps d s0 s -> c_class (s_conf s) = CLindblad l -> li_func l = Some f -> li_func_d l = Some f' ->
  Forall (is_hermitian (S:=(CStar F)) n : (op F) -> Prop) (s_drift s) -> Forall (is_hermitian (S:=(CStar F)) n : (op F) -> Prop) (c_ctrl (s_conf s)) -> amplitudes s u ->
  f u (s_tpars s) = Ok Ds -> Forall (is_matrix (S:=(CStar F)) (n * n) (n * n) : (op F) -> Prop) Ds ->
  f' u (s_tpars s) = Ok Ds' -> Forall (Forall (is_matrix (S:=(CStar F)) (n * n) (n * n) : (op F) -> Prop)) Ds' ->
  c_approx (s_conf s) = GNone -> returns rexp la eps s SDer (VDer ds) ->
  derives la eps s (fun t G => acts_as n G (fun rho i j => cadd (commutation n (hamiltonian (nth t (s_drift s) (Arr [] [] : (op F))) (c_ctrl (s_conf s)) (fun c => get2 k0 u t c)) rho i j)
      (apply_super n (nth t Ds (Arr [] [] : (op F))) rho i j)))
    (fun t c D => acts_as n D (fun rho i j => cadd (commutation n (entries (nth c (c_ctrl (s_conf s)) (Arr [] [] : (op F)))) rho i j) (apply_super n (nth c (nth t Ds' []) (Arr [] [] : (op F))) rho i j))) ds.
Proof. exact @used_derives_fun. Qed.
Print Assumptions c28_lindblad_function.
Theorem c28_lindblad_direction : forall n (h : op RField) (hs Ls : list (op RField)) (u : nat -> R) c (w : R -> nat -> R) (w' : nat -> R) (G : R -> op RField) (D : op RField),
  c < length hs -> (forall k, k < length Ls -> derivable_pt_lim (fun e => w e k) 0 (w' k)) ->
  (forall e, acts_as (F:=RField) n (G e) (master n (hamiltonian h hs (@shifted_amps RField u c e)) Ls (w e))) ->
  acts_as (F:=RField) n D (master n (entries (nth c hs (Arr [] [] : op RField))) Ls w') ->
  forall i j, i < n * n -> j < n * n -> cderiv (fun e => (G e).[i, j]) 0 D.[i, j].
Proof. exact generator_derivative. Qed.
Print Assumptions c28_lindblad_direction.
Example c28_case_lindblad : used qexp qla c0 (DId 1) slind lind1 /\ c_class (s_conf lind1) = CLindblad licd /\ Forall (is_matrix (S:=CStar QcField) 2 2 : mat (CStar QcField) -> Prop) [lm] /\
  Forall (is_hermitian (S:=CStar QcField) 2 : mat (CStar QcField) -> Prop) (s_drift lind1) /\ Forall (is_hermitian (S:=CStar QcField) 2 : mat (CStar QcField) -> Prop) (c_ctrl (s_conf lind1)) /\
  amplitudes lind1 (amp_of lind1) /\ rates licd (amp_of lind1) (s_tpars lind1) 1 (fun t i => get2 k0 (sqr (amp_of lind1)) t i) /\
  slopes licd (amp_of lind1) (s_tpars lind1) 1 (fun t c i => get3 k0 (dsqr (amp_of lind1)) t c i) /\
  c_approx (s_conf lind1) = GNone /\ returns qexp qla c0 lind1 SDer (VDer (vder (rd lind1 SDer))) /\ length (vder (rd lind1 SDer)) = 1.
Proof. exact case_directions. Qed.
Example c28_case_lindblad_super : used qexp qla c0 (DId 1) (slins dtwo) (qrun (slins dtwo) [SSet ya]) /\ s_udiss (slins dtwo) = Some dtwo /\ Forall (is_matrix (S:=CStar QcField) (2 * 2) (2 * 2) : mat (CStar QcField) -> Prop) dtwo /\
  amplitudes (qrun (slins dtwo) [SSet ya]) (amp_of (qrun (slins dtwo) [SSet ya])) /\
  rates lics (amp_of (qrun (slins dtwo) [SSet ya])) (s_tpars (qrun (slins dtwo) [SSet ya])) 2 (fun _ _ => k1) /\
  slopes lics (amp_of (qrun (slins dtwo) [SSet ya])) (s_tpars (qrun (slins dtwo) [SSet ya])) 2 (fun _ _ _ => k0) /\
  returns qexp qla c0 (qrun (slins dtwo) [SSet ya]) SDer (VDer (vder (rd (qrun (slins dtwo) [SSet ya]) SDer))).
Proof. exact case_super. Qed.
Example c28_case_lindblad_function : used qexp qla c0 (DId 1) slinf linf1 /\ c_class (s_conf linf1) = CLindblad licf /\
  Forall (is_hermitian (S:=CStar QcField) 2 : mat (CStar QcField) -> Prop) (s_drift linf1) /\ Forall (is_hermitian (S:=CStar QcField) 2 : mat (CStar QcField) -> Prop) (c_ctrl (s_conf linf1)) /\ amplitudes linf1 (amp_of linf1) /\
  length fdiss = 2 /\ Forall (is_matrix (S:=CStar QcField) 4 4 : mat (CStar QcField) -> Prop) fdiss /\ Forall (Forall (is_matrix (S:=CStar QcField) 4 4 : mat (CStar QcField) -> Prop)) [[deph k1]; [deph k1]] /\
  returns qexp qla c0 linf1 SPropag (VProp (vprop (rd linf1 SPropag))) /\ returns qexp qla c0 linf1 SDer (VDer (vder (rd linf1 SDer))).
Proof. exact case_function. Qed.
Theorem c28_total_propagator : forall (rexp : kcar RField -> kcar RField) (la : LinAlg RField) (eps : cplx RField) d (s0 s : st) (es : list (op RField)) fs rs n k t (X Y : R -> (op RField)) (dX Rt ft W Z : (op RField)) a,
  used rexp la eps d s0 s -> returns rexp la eps s SPropag (VProp (map Some es)) -> returns rexp la eps s SFwd (VOps fs) -> returns rexp la eps s SRev (VOps rs) ->
  all_square n (map Some es) -> is_matrix n k (c_init (s_conf s)) -> t < length es ->
  (forall h, is_matrix n n (X h)) -> is_matrix n n dX -> (forall i j, i < n -> j < n -> cderiv (fun h => mg (X h) i j) a (mg dX i j)) ->
  (forall h, chain n k (lset es t (X h)) (c_init (s_conf s)) (Y h)) ->
  nth_error (rev rs) (Datatypes.S t) = Some Rt -> nth_error fs t = Some ft -> is_product n n k dX ft W -> is_product n n k Rt W Z ->
  forall i j, i < n -> j < k -> cderiv (fun h => mg (Y h) i j) a (mg Z i j).
Proof. exact @used_total. Qed.
Print Assumptions c28_total_propagator.
Theorem c28_grape : forall (F : OField) (rexp : F -> F) (la : LinAlg F) (eps : cplx F) d (s0 s : (@st F)) n ps ds,
  (used rexp la eps) d s0 s -> schroedinger (s_conf s) -> square_hamiltonians n s ->
  c_approx (s_conf s) = GGrape -> (returns rexp la eps) s SPropag (VProp ps) -> all_square n ps -> (returns rexp la eps) s SDer (VDer ds) ->
  length ds = length (s_time s) /\
  forall t c, t < length (s_time s) -> c < length (c_ctrl (s_conf s)) -> exists row P X D tau,
    nth_error ds t = Some row /\ length row = length (c_ctrl (s_conf s)) /\ nth_error row c = Some (Some X) /\
    nth_error ps t = Some (Some P) /\ nth_error (s_time s) t = Some tau /\ is_direction n (nth c (c_ctrl (s_conf s)) (Arr [] [] : (op F))) D /\
    is_matrix n n X /\ forall i j, i < n -> j < n -> X.[i,j] = cmul (cofk tau) (sumn (S:=CStar F) n (fun k => cmul D.[i,k] P.[k,j])).
Proof. exact @used_grape. Qed.
Print Assumptions c28_grape.
Theorem c28_grape_commuting : forall n (tau : RC) (A D P E W X Z : op RField), is_matrix n n A -> is_matrix n n D ->
  is_product n n n A D P -> is_product n n n D A P ->
  is_perturbed n tau A D 0 Z -> is_exponential n Z E -> is_product n n n D E W ->
  is_matrix n n X -> (forall i j, i < n -> j < n -> mg X i j = cmul tau (mg W i j)) ->
  is_exp_derivative n tau A D X.
Proof. exact commuting_derivative. Qed.
Print Assumptions c28_grape_commuting.
Theorem c28_noise_derivatives : forall (F : OField) (rexp : F -> F) (la : LinAlg F) (eps : cplx F) d (s0 s : (@st F)) n m u ds,
  (used rexp la eps) d s0 s -> sampled n s m -> mc_ampf m = NNone -> square_hamiltonians n s -> amplitudes s u ->
  c_approx (s_conf s) = GNone -> (returns rexp la eps) s SNDer (VNDer ds) ->
  length ds = mc_traces m /\
  forall k c t, k < mc_traces m -> c < length (c_ctrl (s_conf s)) -> t < length (s_time s) -> exists per row E X G D tau,
    nth_error ds k = Some per /\ length per = length (c_ctrl (s_conf s)) /\ nth_error per c = Some row /\ length row = length (s_time s) /\
    nth_error row t = Some (Some X) /\ nth_error (s_time s) t = Some tau /\
    is_noisy_generator n (nth t (s_drift s) (Arr [] [] : (op F))) (c_ctrl (s_conf s)) (fun c => get2 k0 u t c) (mc_ops m) (fun o => get3 k0 (mc_samples m) o k t) G /\
    is_direction n (nth c (c_ctrl (s_conf s)) (Arr [] [] : (op F))) D /\
    op_dexp la G D (cofk tau) (c_meth (s_conf s)) (c_skew (s_conf s)) eps = Ok (E, X).
Proof. exact @used_noise_derivatives. Qed.
Print Assumptions c28_noise_derivatives.
Theorem c28_noise_grape : forall (F : OField) (rexp : F -> F) (la : LinAlg F) (eps : cplx F) d (s0 s : (@st F)) n m pss ds,
  (used rexp la eps) d s0 s -> c_class (s_conf s) = CMonteCarlo m -> square_hamiltonians n s ->
  c_approx (s_conf s) = GGrape -> (returns rexp la eps) s SNProp (VDer pss) -> (forall ps, In ps pss -> all_square n ps) -> (returns rexp la eps) s SNDer (VNDer ds) ->
  length ds = mc_traces m /\
  forall k c t, k < mc_traces m -> c < length (c_ctrl (s_conf s)) -> t < length (s_time s) -> exists per row ps P X D tau,
    nth_error ds k = Some per /\ length per = length (c_ctrl (s_conf s)) /\ nth_error per c = Some row /\ length row = length (s_time s) /\
    nth_error row t = Some (Some X) /\ nth_error pss k = Some ps /\ nth_error ps t = Some (Some P) /\ nth_error (s_time s) t = Some tau /\
    is_direction n (nth c (c_ctrl (s_conf s)) (Arr [] [] : (op F))) D /\
    is_matrix n n X /\ forall i j, i < n -> j < n -> X.[i,j] = cmul (cofk tau) (sumn (S:=CStar F) n (fun k => cmul D.[i,k] P.[k,j])).
Proof. exact @used_noise_grape. Qed.
Print Assumptions c28_noise_grape.
Theorem c28_grape_refuted :
  exists (d : desc Qf) (s0 s : @st Qf) ds, used qexp qla c0 d s0 s /\ returns qexp qla c0 s SDer (VDer ds) /\ length ds <> length (c_ctrl (s_conf s)).
Proof. exact @grape_layout. Qed.
Print Assumptions c28_grape_refuted.
Example c28_case : used qexp qla c0 (DId 1) ssch sch1 /\ square_hamiltonians 2 sch1 /\ c_approx (s_conf sch1) = GNone /\
  returns qexp qla c0 sch1 SDer (VDer (vder (rd sch1 SDer))) /\ length (vder (rd sch1 SDer)) = 1.
Proof. split; [exact sch1_used|]. exact case_derivatives. Qed.
Example c28_case_grape : used qexp qla c0 (DId 1) sgrape2 gr1 /\ square_hamiltonians 2 gr1 /\ c_approx (s_conf gr1) = GGrape /\
  returns qexp qla c0 gr1 SPropag (VProp (vprop (rd gr1 SPropag))) /\
  all_square 2 (vprop (rd gr1 SPropag)) /\ returns qexp qla c0 gr1 SDer (VDer (vder (rd gr1 SDer))) /\ length (s_time gr1) = 2.
Proof. split; [exact gr1_used|]. exact case_grape. Qed.
Example c28_case_noise : used qexp qla c0 (DId 1) (smc smp 2 PSeq) (mc1 PSeq) /\ sampled 2 (mc1 PSeq) (mkmc [hz] 2 smp NNone PSeq) /\ square_hamiltonians 2 (mc1 PSeq) /\
  amplitudes (mc1 PSeq) (amp_of (mc1 PSeq)) /\ returns qexp qla c0 (mc1 PSeq) SNDer (VNDer (vnder (rd (mc1 PSeq) SNDer))) /\
  c_approx (s_conf (mc1 PSeq)) = GNone /\ length (vnder (rd (mc1 PSeq) SNDer)) = 2.
Proof. destruct case_samples as (A & B & C & D & _). split; [exact A|]. split; [exact B|]. split; [exact C|]. split; [exact D|]. exact case_noise_derivatives. Qed.
Example c28_case_noise_grape : used qexp qla c0 (DId 1) smcg mcg /\ c_class (s_conf mcg) = CMonteCarlo (mkmc [hz] 2 smp NNone PSeq) /\ square_hamiltonians 2 mcg /\
  c_approx (s_conf mcg) = GGrape /\ returns qexp qla c0 mcg SNProp (VDer (vder (rd mcg SNProp))) /\ (forall ps, In ps (vder (rd mcg SNProp)) -> all_square 2 ps) /\
  returns qexp qla c0 mcg SNDer (VNDer (vnder (rd mcg SNDer))) /\ length (vnder (rd mcg SNDer)) = 2.
Proof. exact case_noise_grape. Qed.
Example c28_case_commuting : exists P E W X, is_matrix (S:=RS) 2 2 (rz ci) /\ is_matrix (S:=RS) 2 2 (rz c1) /\
  is_product (S:=RS) 2 2 2 (rz ci) (rz c1) P /\ is_product (S:=RS) 2 2 2 (rz c1) (rz ci) P /\
  is_perturbed 2 c1 (rz ci) (rz c1) 0 (rz ci) /\ is_exponential 2 (rz ci) E /\ is_product (S:=RS) 2 2 2 (rz c1) E W /\ is_matrix (S:=RS) 2 2 X /\
  (forall i j, i < 2 -> j < 2 -> mg (S:=RS) X i j = cmul c1 (mg (S:=RS) W i j)).
Proof. exact case_commuting. Qed.

(** ---------- C29: Monte Carlo sampling ---------- *)
Theorem c29_samples : forall (F : OField) (rexp : F -> F) (la : LinAlg F) (eps : cplx F) d (s0 s : (@st F)) n m u pss,
  (used rexp la eps) d s0 s -> sampled n s m -> mc_ampf m = NNone -> square_hamiltonians n s -> amplitudes s u ->
  (returns rexp la eps) s SNProp (VDer pss) ->
  length pss = mc_traces m /\ forall k ps, nth_error pss k = Some ps ->
    propagates la s (fun t G => is_noisy_generator n (nth t (s_drift s) (Arr [] [] : (op F))) (c_ctrl (s_conf s)) (fun c => get2 k0 u t c) (mc_ops m) (fun o => get3 k0 (mc_samples m) o k t) G) ps.
Proof. exact @used_samples. Qed.
Print Assumptions c29_samples.
Theorem c29_zero_noise : forall (F : OField) (rexp : F -> F) (la : LinAlg F) (eps : cplx F) d d' (s0 s s0' s' : (@st F)) n m u pss ps,
  (used rexp la eps) d s0 s -> (used rexp la eps) d' s0' s' -> schroedinger (s_conf s') -> same_problem s s' ->
  sampled n s m -> mc_ampf m = NNone -> square_hamiltonians n s -> amplitudes s u -> amplitudes s' u ->
  (forall o k t, o < length (mc_ops m) -> k < mc_traces m -> t < length (s_time s) -> get3 k0 (mc_samples m) o k t = k0) ->
  (returns rexp la eps) s SNProp (VDer pss) -> (returns rexp la eps) s' SPropag (VProp ps) -> pss = repeat ps (mc_traces m).
Proof. exact @used_zero_noise. Qed.
Print Assumptions c29_zero_noise.
Theorem c29_short_samples_refuted :
  exists (d : desc Qf) (s0 : @st Qf) m y ps qs,
  constructed d s0 /\ c_class (s_conf s0) = CMonteCarlo m /\ dim2 (mc_samples m) < length (s_time s0) /\ 
  snd (qstep (qrun s0 [SSet y]) SNProp) = Ok (VDer [ps]) /\ snd (qstep (qrun s0 [SSet y]) SPropag) = Ok (VProp qs) /\ nth 0 ps None <> nth 0 qs None /\ nth 1 ps None = nth 1 qs None.
Proof. exact @short_samples. Qed.
Print Assumptions c29_short_samples_refuted.
Example c29_case : used qexp qla c0 (DId 1) (smc smp 2 PSeq) (mc1 PSeq) /\ sampled 2 (mc1 PSeq) (mkmc [hz] 2 smp NNone PSeq) /\ square_hamiltonians 2 (mc1 PSeq) /\
  amplitudes (mc1 PSeq) (amp_of (mc1 PSeq)) /\ returns qexp qla c0 (mc1 PSeq) SNProp (VDer (vder (rd (mc1 PSeq) SNProp))) /\
  pentry (nth 1 (vder (rd (mc1 PSeq) SNProp)) []) 0 0 0 = cdiv (csub (cq 2 0 1) (cq 0 7 1)) (cadd (cq 2 0 1) (cq 0 7 1)).
Proof. exact case_samples. Qed.
Example c29_case_zero : used qexp qla c0 (DId 1) (smc zmp 2 PSeq) mcz /\ same_problem mcz sch1 /\ sampled 2 mcz (mkmc [hz] 2 zmp NNone PSeq) /\
  square_hamiltonians 2 mcz /\ amplitudes mcz ya /\ amplitudes sch1 ya /\ returns qexp qla c0 mcz SNProp (VDer (vder (rd mcz SNProp))) /\
  length (vder (rd mcz SNProp)) = 2.
Proof. exact case_zero. Qed.

(** ---------- C30: sequential and parallel execution ---------- *)
Theorem c30_processes : forall (F : OField) (rexp : F -> F) (la : LinAlg F) (eps : cplx F) d (s0 s0' : (@st F)) m m' hist hist' y pss pss',
  constructed d s0 -> constructed d s0' -> good la eps (s_conf s0) -> good la eps (s_conf s0') ->
  c_class (s_conf s0) = CMonteCarlo m -> c_class (s_conf s0') = CMonteCarlo m' ->
  mc_ops m = mc_ops m' -> mc_traces m = mc_traces m' -> mc_samples m = mc_samples m' -> mc_ampf m = mc_ampf m' ->
  same_problem s0 s0' -> c_amp (s_conf s0) = c_amp (s_conf s0') -> s_tf s0 = s_tf s0' ->
  Forall allowed hist -> all_ok rexp la eps s0 hist -> last_set hist = Some y -> Forall allowed hist' -> all_ok rexp la eps s0' hist' -> last_set hist' = Some y ->
  returns rexp la eps (srun rexp la eps s0 hist) SNProp (VDer pss) -> returns rexp la eps (srun rexp la eps s0' hist') SNProp (VDer pss') -> pss = pss'.
Proof. exact @used_processes. Qed.
Print Assumptions c30_processes.
Theorem c30_pool : forall (A B : Type) (f : A -> res B) c sched xs ys,
  0 < c -> Permutation sched (seq 0 (length (chunks c xs))) -> (pool_map f c sched xs = Ok ys <-> mapM f xs = Ok ys).
Proof. exact @pool_map_ok. Qed.
Print Assumptions c30_pool.
Theorem c30_pool_error : forall (A B : Type) (f : A -> res B) c sched xs e,
  0 < c -> Permutation sched (seq 0 (length (chunks c xs))) -> pool_map f c sched xs = Err e -> exists x, In x xs /\ f x = Err e.
Proof. exact @pool_map_err. Qed.
Print Assumptions c30_pool_error.
Example c30_case : constructed (DId 1) (smc smp 2 PPool) /\ same_problem (smc smp 2 PSeq) (smc smp 2 PPool) /\ s_tf (smc smp 2 PSeq) = s_tf (smc smp 2 PPool) /\
  all_ok qexp qla c0 (smc smp 2 PSeq) [SSet yb; SNProp; SSet ya; SPropag] /\ all_ok qexp qla c0 (smc smp 2 PPool) [SSet ya] /\
  returns qexp qla c0 (mc1 PPool) SNProp (VDer (vder (rd (mc1 PPool) SNProp))) /\ length (vder (rd (mc1 PPool) SNProp)) = 2.
Proof. exact case_processes. Qed.
Example c30_case_pool : Permutation [1; 0] (seq 0 (length (chunks 2 [5; 6; 7]))) /\
  pool_map (fun x => Ok (x * x)) 2 [1; 0] [5; 6; 7] = Ok [25; 36; 49].
Proof. split; [apply perm_swap|reflexivity]. Qed.

(** ---------- C31: control noise ---------- *)
Theorem c31_control_noise : forall (F : OField) (rexp : F -> F) (la : LinAlg F) (eps : cplx F) d d' (s0 s s0' s' : (@st F)) n m u x k xk uk pss ps psk,
  (used rexp la eps) d s0 s -> (used rexp la eps) d' s0' s' -> schroedinger (s_conf s') -> same_problem s s' ->
  sampled n s m -> mc_ampf m = NControl -> mc_ops m = c_ctrl (s_conf s) -> square_hamiltonians n s -> 
  wfa [length (s_time s); length (mc_ops m)] x -> s_tpars s = Some x -> s_amps s = Some u -> wfa [length (s_time s); length (mc_ops m)] u ->
  (forall j xj, j < mc_traces m -> perturbed x (mc_samples m) (length (s_time s)) (length (mc_ops m)) j xj -> exists uj, amp_call (c_amp (s_conf s)) xj = Ok uj /\ wfa [length (s_time s); length (mc_ops m)] uj) ->
  k < mc_traces m -> perturbed x (mc_samples m) (length (s_time s)) (length (mc_ops m)) k xk -> amp_call (c_amp (s_conf s)) xk = Ok uk -> amplitudes s' uk ->
  (returns rexp la eps) s SNProp (VDer pss) -> nth_error pss k = Some psk -> (returns rexp la eps) s' SPropag (VProp ps) -> psk = ps.
Proof. exact @used_control_noise. Qed.
Print Assumptions c31_control_noise.
Example c31_case : used qexp qla c0 (DId 1) smcc mcc /\ used qexp qla c0 (DId 1) ssch schk /\ same_problem mcc schk /\
  sampled 2 mcc (mkmc [hz] 2 smp NControl PSeq) /\ s_tpars mcc = Some ya /\ s_amps mcc = Some ya /\ perturbed ya smp 2 1 1 yk /\
  amp_call (c_amp (s_conf mcc)) yk = Ok yk /\ amplitudes schk yk /\
  returns qexp qla c0 mcc SNProp (VDer (vder (rd mcc SNProp))) /\ returns qexp qla c0 schk SPropag (VProp (vprop (rd schk SPropag))).
Proof. exact case_control. Qed.

(** ---------- C32: the master equation ---------- *)
Theorem c32_operators : forall (F : OField) (rexp : F -> F) (la : LinAlg F) (eps : cplx F) d (s0 s : @st F) n l Ls u w ps,
  used rexp la eps d s0 s -> c_class (s_conf s) = CLindblad l -> li_func l = None -> li_ops l = Some Ls ->
  Forall (is_matrix (S:=(CStar F)) n n : (op F) -> Prop) Ls ->
  Forall (is_hermitian (S:=(CStar F)) n : (op F) -> Prop) (s_drift s) -> Forall (is_hermitian (S:=(CStar F)) n : (op F) -> Prop) (c_ctrl (s_conf s)) -> amplitudes s u -> rates l u (s_tpars s) (length Ls) w ->
  returns rexp la eps s SPropag (VProp ps) ->
  propagates la s (fun t G => acts_as n G (master n (hamiltonian (nth t (s_drift s) (Arr [] [] : (op F))) (c_ctrl (s_conf s)) (fun c => get2 k0 u t c)) Ls (w t))) ps.
Proof. exact @used_lindblad_ops. Qed.
Print Assumptions c32_operators.
Theorem c32_super_operators : forall (F : OField) (rexp : F -> F) (la : LinAlg F) (eps : cplx F) d (s0 s : @st F) n l Ds u w ps,
  used rexp la eps d s0 s -> c_class (s_conf s) = CLindblad l -> li_func l = None -> li_ops l = None -> s_udiss s0 = Some Ds ->
  Forall (is_matrix (S:=(CStar F)) (n * n) (n * n) : (op F) -> Prop) Ds ->
  Forall (is_hermitian (S:=(CStar F)) n : (op F) -> Prop) (s_drift s) -> Forall (is_hermitian (S:=(CStar F)) n : (op F) -> Prop) (c_ctrl (s_conf s)) -> amplitudes s u -> rates l u (s_tpars s) (length Ds) w ->
  returns rexp la eps s SPropag (VProp ps) ->
  propagates la s (fun t G => acts_as n G (master_super n (hamiltonian (nth t (s_drift s) (Arr [] [] : (op F))) (c_ctrl (s_conf s)) (fun c => get2 k0 u t c)) Ds (w t))) ps.
Proof. exact @used_lindblad_super. Qed.
Print Assumptions c32_super_operators.
Theorem c32_function : forall (F : OField) (rexp : F -> F) (la : LinAlg F) (eps : cplx F) d (s0 s : @st F) n l f Ds u ps,
  used rexp la eps d s0 s -> c_class (s_conf s) = CLindblad l -> li_func l = Some f ->
  Forall (is_hermitian (S:=(CStar F)) n : (op F) -> Prop) (s_drift s) -> Forall (is_hermitian (S:=(CStar F)) n : (op F) -> Prop) (c_ctrl (s_conf s)) -> amplitudes s u ->
  f u (s_tpars s) = Ok Ds -> Forall (is_matrix (S:=(CStar F)) (n * n) (n * n) : (op F) -> Prop) Ds ->
  returns rexp la eps s SPropag (VProp ps) ->
  propagates la s (fun t G => acts_as n G (fun rho i j => cadd (commutation n (hamiltonian (nth t (s_drift s) (Arr [] [] : (op F))) (c_ctrl (s_conf s)) (fun c => get2 k0 u t c)) rho i j)
    (apply_super n (nth t Ds (Arr [] [] : (op F))) rho i j))) ps.
Proof. exact @used_lindblad_fun. Qed.
Print Assumptions c32_function.
Example c32_case : used qexp qla c0 (DId 1) slin lin1 /\ c_class (s_conf lin1) = CLindblad lic /\ Forall (is_matrix (S:=CStar QcField) 2 2 : mat (CStar QcField) -> Prop) [lm] /\
  Forall (is_hermitian (S:=CStar QcField) 2 : mat (CStar QcField) -> Prop) (s_drift lin1) /\
  Forall (is_hermitian (S:=CStar QcField) 2 : mat (CStar QcField) -> Prop) (c_ctrl (s_conf lin1)) /\ length (s_drift lin1) = length (s_time lin1) /\
  amplitudes lin1 (amp_of lin1) /\ rates lic (amp_of lin1) (s_tpars lin1) 1 wrate /\ returns qexp qla c0 lin1 SPropag (VProp (vprop (rd lin1 SPropag))) /\
  length (vprop (rd lin1 SPropag)) = 2.
Proof. exact case_lindblad. Qed.

(** ---------- C33: trace and Hermiticity ---------- *)
Theorem c33_generators : forall (F : OField) (rexp : F -> F) (la : LinAlg F) (eps : cplx F) d (s0 s : @st F) n l Ls u w ps,
  used rexp la eps d s0 s -> c_class (s_conf s) = CLindblad l -> li_func l = None -> li_ops l = Some Ls ->
  Forall (is_matrix (S:=(CStar F)) n n : (mat (CStar F)) -> Prop) Ls ->
  Forall (is_hermitian (S:=(CStar F)) n : (mat (CStar F)) -> Prop) (s_drift s) -> Forall (is_hermitian (S:=(CStar F)) n : (mat (CStar F)) -> Prop) (c_ctrl (s_conf s)) -> length (s_drift s) = length (s_time s) ->
  amplitudes s u -> rates l u (s_tpars s) (length Ls) w ->
  returns rexp la eps s SPropag (VProp ps) ->
  propagates la s (fun t G => is_matrix (S:=(CStar F)) (n * n) (n * n) G /\
    (forall rho, (sumn (S:=CStar F)) n (fun i => apply_super n G rho i i) = c0) /\ (forall rho, hermitian_fun n rho -> hermitian_fun n (apply_super n G rho))) ps.
Proof. exact @used_lindblad_physical. Qed.
Print Assumptions c33_generators.
Theorem c33_trace : forall (F : OField) n h (Ls : list (op F)) w rho,
  (sumn (S:=CStar F)) n (fun i => master n h Ls w rho i i) = c0.
Proof. exact @master_trace. Qed.
Print Assumptions c33_trace.
Theorem c33_hermitian : forall (F : OField) n h (Ls : list (op F)) w rho,
  hermitian_fun n h -> hermitian_fun n rho -> hermitian_fun n (master n h Ls w rho).
Proof. exact @master_herm. Qed.
Print Assumptions c33_hermitian.
Example c33_case : li_func lic = None /\ li_ops lic = Some [lm] /\ used qexp qla c0 (DId 1) slin lin1 /\ rates lic (amp_of lin1) (s_tpars lin1) 1 wrate.
Proof. split; [reflexivity|]. split; [reflexivity|]. split; apply case_lindblad. Qed.

(** ---------- C34: operators of the caller ---------- *)
Theorem c34_kept : forall (F : OField) (p : list (instr F)) es k v,
  Forall (fun e => match e with ELindSup _ _ _ _ _ => False | _ => True end) es ->
  valof (run (heap0 F) p) k = Ok v -> valof (evaluate_all (run (heap0 F) p) es) k = Ok v.
Proof. exact @evaluations_keep. Qed.
Print Assumptions c34_kept.
Theorem c34_sum_refuted :
  exists (p : list (instr QcField)) e k v v' v'',
  valof (run (heap0 QcField) p) k = Ok v /\ valof (evaluate_all (run (heap0 QcField) p) [e]) k = Ok v' /\
  valof (evaluate_all (run (heap0 QcField) p) [e; e]) k = Ok v'' /\ v' <> v /\ v'' <> v'.
Proof. exact @sum_writes. Qed.
Print Assumptions c34_sum_refuted.
Theorem c34_second_solver_refuted : exists (drift ctrl : list qop) tau t (l : @liconf Qf) y ds ds' s0 s0' ps ps',
  let solver x := build_solver (CLindblad l) drift ctrl tau None None Frechet false false GNone t AIdentity (Some x) in
  solver ds = Ok s0 /\ s_udiss (srun qexp qla c0 s0 [SSet y; SPropag]) = Some ds' /\ solver ds' = Ok s0' /\
  returns qexp qla c0 (srun qexp qla c0 s0 [SSet y]) SPropag (VProp ps) /\ returns qexp qla c0 (srun qexp qla c0 s0' [SSet y]) SPropag (VProp ps') /\ ps' <> ps.
Proof. exact second_solver. Qed.
Print Assumptions c34_second_solver_refuted.
Example c34_case : valof (run (heap0 QcField) wsup) 2 = Ok (mq 1 1 [[cq (-2)%Z 0 1]]) /\
  Forall (fun e : @evaluation QcField => match e with ELindSup _ _ _ _ _ => False | _ => True end)
    [EGen [0] [1] 1 (fun _ _ => qq 1 1); ELindSupW [0] [0] [1; 2] 1 (fun _ _ => qq 1 1) [[qq 1 1; qq 1 1]]] /\
  length (objs (run (heap0 QcField) wsup)) = 3 /\
  3 < length (objs (evaluate_all (run (heap0 QcField) wsup)
    [EGen [0] [1] 1 (fun _ _ => qq 1 1); ELindSupW [0] [0] [1; 2] 1 (fun _ _ => qq 1 1) [[qq 1 1; qq 1 1]]])).
Proof.
  split; [reflexivity|]. split; [repeat constructor|]. split; [reflexivity|]. apply Nat.ltb_lt. vm_compute. reflexivity.
Qed.
