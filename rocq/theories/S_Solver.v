(** Specification vocabulary for the solvers: what a client does and what they should observe. *)
Require Import List Arith Bool.
From Verif Require Import LibBase LibRing LibArr LibCplx LibMat M_Matrix M_Transfer S_Linear S_Transfer M_Amplitude M_Solver.
Import ListNotations.
Open Scope res_scope.
Set Implicit Arguments.

Section Spec.
Variable F : OField.
Variable rexp : F -> F.
Variable la : LinAlg F.
Variable eps : cplx F.
Notation arrF := (arr (kcar F)).
Notation op := (op F).
Notation st := (@st F).
Notation S := (CStar F).

(** ---- conditions on the configuration of a solver ---- *)
Definition has_fun (l : @liconf F) : Prop := li_pref l <> None \/ li_func l <> None.
(** functions for the derivative are only given together with the function itself *)
Definition derivs_ok (c : @sconf F) : Prop :=
  match c_class c with CLindblad l => li_pref_d l <> None \/ li_func_d l <> None -> has_fun l | _ => True end.
(** dexp(compute_expm=True) and exp return the same exponential for the chosen method *)
Definition agrees (c : @sconf F) : Prop :=
  forall (A D E X : op) (tau : cplx F), op_dexp la A D tau (c_meth c) (c_skew c) eps = Ok (E, X) -> op_exp la A tau (c_meth c) (c_skew c) = Ok E.
Record good (c : @sconf F) : Prop := mkgood {
  g_derivs : derivs_ok c; g_agrees : agrees c; g_ctrl : c_ctrl c <> [];
  g_grape : c_approx c = GGrape -> c_calc c = false }.

(** a solver as its constructor returns it; [d] describes the transfer function *)
Definition constructed (d : desc F) (s0 : st) : Prop :=
  no_custom d /\
  exists cls drift ctrl tau init amps meth skew calc approx t a udiss,
    build d = Ok t /\ build_solver cls drift ctrl tau init amps meth skew calc approx t a udiss = Ok s0.

(** ---- clients ---- *)
(** reading a property *)
Definition is_read (o : @sop F) : bool := match o with SSet _ | STimes _ | SMutate _ => false | _ => true end.
(** set_optimization_parameters or reading a property *)
Definition allowed (o : @sop F) : Prop := is_read o = true \/ exists y, o = SSet y.
(** no call of the history raises *)
Fixpoint all_ok (s : st) (hist : list (@sop F)) : Prop :=
  match hist with [] => True | o :: rest => (exists v, snd (sstep rexp la eps s o) = Ok v) /\ all_ok (fst (sstep rexp la eps s o)) rest end.
(** the parameters set last *)
Definition last_set (hist : list (@sop F)) : option arrF :=
  fold_left (fun acc o => match o with SSet y => Some y | _ => acc end) hist None.
(** [s] is a solver after a history of successful calls *)
Definition used (d : desc F) (s0 s : st) : Prop :=
  constructed d s0 /\ good (s_conf s0) /\ exists hist, Forall allowed hist /\ all_ok s0 hist /\ s = srun rexp la eps s0 hist.
(** reading property [o] returns [v] *)
Definition returns (s : st) (o : @sop F) (v : @sval F) : Prop := snd (sstep rexp la eps s o) = Ok v.

(** ---- products of propagators ---- *)
(** fs[0] = x and fs[i+1] = ps[i] fs[i] for every i *)
Definition cumulative (d k : nat) (x : op) (ps : list (option op)) (fs : list op) : Prop :=
  length fs = Datatypes.S (length ps) /\ (forall dflt, nth 0 fs dflt = x) /\
  forall i, i < length ps -> exists P f f', nth_error ps i = Some (Some P) /\ nth_error fs i = Some f /\ nth_error fs (Datatypes.S i) = Some f' /\
    is_product d d k P f f'.
(** every propagator is a d x d array *)
Definition all_square (d : nat) (ps : list (option op)) : Prop := forall P, In (Some P) ps -> is_matrix d d P.
(** y = P_{n-1} ... P_0 x *)
Fixpoint chain (d k : nat) (ps : list op) (x y : op) : Prop :=
  match ps with [] => y = x | P :: ps' => exists z, is_product d d k P x z /\ chain d k ps' z y end.

(** ---- Hamiltonians ---- *)
(** G = -i (H + sum_c u_c H_c) *)
Definition is_generator (n : nat) (h : op) (hs : list op) (u : nat -> F) (G : op) : Prop :=
  is_matrix n n G /\ forall i j, i < n -> j < n ->
    G.[i,j] = cmul (copp ci) (cadd h.[i,j] (sumn (S:=S) (length hs) (fun c => cmul (cofk (u c)) (nth c hs (Arr [] [])).[i,j]))).
(** G = -i (H + sum_c u_c H_c + sum_o v_o N_o) *)
Definition is_noisy_generator (n : nat) (h : op) (hs : list op) (u : nat -> F) (ns : list op) (v : nat -> F) (G : op) : Prop :=
  is_matrix n n G /\ forall i j, i < n -> j < n ->
    G.[i,j] = cmul (copp ci) (cadd (cadd h.[i,j] (sumn (S:=S) (length hs) (fun c => cmul (cofk (u c)) (nth c hs (Arr [] [])).[i,j])))
                (sumn (S:=S) (length ns) (fun o => cmul (cofk (v o)) (nth o ns (Arr [] [])).[i,j]))).
(** all Hamiltonians are n x n arrays *)
Definition square_hamiltonians (n : nat) (s : st) : Prop :=
  Forall (is_matrix (S:=S) n n) (s_drift s) /\ Forall (is_matrix (S:=S) n n) (c_ctrl (s_conf s)).
(** D = -i H *)
Definition is_direction (n : nat) (h D : op) : Prop :=
  is_matrix n n D /\ forall i j, i < n -> j < n -> D.[i,j] = cmul (copp ci) h.[i,j].
(** the solver is not a LindbladSolver *)
Definition schroedinger (c : @sconf F) : Prop := match c_class c with CLindblad _ => False | _ => True end.
(** the control amplitudes are [u], one row for every time step *)
Definition amplitudes (s : st) (u : arrF) : Prop := s_amps s = Some u /\ dim0 u = length (s_time s).
(** ps[t] is the exponential, by the chosen method, of tau_t G_t for a G_t with [gen t G_t] *)
Definition propagates (s : st) (gen : nat -> op -> Prop) (ps : list (option op)) : Prop :=
  length ps = length (s_time s) /\
  forall t, t < length (s_time s) -> exists P G tau, nth_error ps t = Some (Some P) /\ nth_error (s_time s) t = Some tau /\
    gen t G /\ op_exp la G (cofk tau) (c_meth (s_conf s)) (c_skew (s_conf s)) = Ok P.
(** ds[c][t] is the derivative, by the chosen method, of the exponential of tau_t G_t in the direction D_t,c for
    a G_t with [gen t G_t] and a D_t,c with [dir t c D_t,c] *)
Definition derives (s : st) (gen : nat -> op -> Prop) (dir : nat -> nat -> op -> Prop) (ds : list (list (option op))) : Prop :=
  length ds = length (c_ctrl (s_conf s)) /\
  forall c t, c < length (c_ctrl (s_conf s)) -> t < length (s_time s) -> exists row E X G D tau,
    nth_error ds c = Some row /\ length row = length (s_time s) /\ nth_error row t = Some (Some X) /\ nth_error (s_time s) t = Some tau /\
    gen t G /\ dir t c D /\ op_dexp la G D (cofk tau) (c_meth (s_conf s)) (c_skew (s_conf s)) eps = Ok (E, X).
(** two solvers with the same Hamiltonians, times and way of computing exponentials *)
Definition same_problem (s s' : st) : Prop :=
  s_drift s = s_drift s' /\ c_ctrl (s_conf s) = c_ctrl (s_conf s') /\ s_time s = s_time s' /\
  c_meth (s_conf s) = c_meth (s_conf s') /\ c_skew (s_conf s) = c_skew (s_conf s').
(** noise samples of shape (operators, traces, time steps) for the solver's noise Hamiltonians *)
Definition sampled (n : nat) (s : st) (m : @mcconf F) : Prop :=
  c_class (s_conf s) = CMonteCarlo m /\ Forall (is_matrix (S:=S) n n) (mc_ops m) /\
  wfa [length (mc_ops m); mc_traces m; length (s_time s)] (mc_samples m).
(** xk is x + sample k: T time steps, n controls *)
Definition perturbed (x smp : arrF) (T n k : nat) (xk : arrF) : Prop :=
  wfa [T; n] xk /\ forall t c, t < T -> c < n -> get2 k0 xk t c = kadd (get2 k0 x t c) (get3 k0 smp c k t).
End Spec.
Arguments perturbed {F}. Arguments has_fun {F}. Arguments derivs_ok {F}. Arguments constructed {F}. Arguments is_read {F}. Arguments allowed {F}. Arguments last_set {F}.
